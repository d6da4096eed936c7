(** Proofs about the trip trie. *)
From Coq Require Import String List Arith ZArith Bool Lia.
From Verif Require Import ListAux TripTrie_model TripTrie_spec.
Import ListNotations.

Section P.
Context {pos : Type}.
Variable near : pos -> pos -> bool.
Context {attrs : Type}.
Variable mergeA : attrs -> attrs -> attrs.
Variable emptySecs : Z.
Hypothesis near_refl : forall p, near p p = true.

Notation node := (node pos attrs).
Notation nds := (nds pos attrs).
Notation nParent := (nParent pos attrs).
Notation nChilds := (nChilds pos attrs).
Notation nRepr := (nRepr pos attrs).
Notation nTime := (nTime pos attrs).
Notation nArr := (nArr pos attrs).
Notation nTrips := (nTrips pos attrs).
Notation nAcc := (nAcc pos attrs).
Notation visit := (visit pos near attrs mergeA).
Notation getMatchChild := (getMatchChild pos near attrs).
Notation spells := (@spells pos near attrs).
Notation key := (@key pos).

Lemma sameStop_spec : forall a b, sameStop pos near a b = true <-> same_stop near a b.
Proof.
  intros. unfold sameStop, same_stop. rewrite !andb_true_iff, !String.eqb_eq. tauto.
Qed.

Lemma find_ext : forall A (f g : A -> bool) l, (forall x, In x l -> f x = g x) -> find f l = find g l.
Proof.
  intros A f g. induction l as [|x l IH]; intros H; [reflexivity|]. cbn. rewrite (H x) by (left; reflexivity).
  destruct (g x); [reflexivity|]. apply IH. intros y I. apply H. right. exact I.
Qed.
Lemma find_app : forall A (f : A -> bool) l m, find f (l ++ m) = match find f l with Some x => Some x | None => find f m end.
Proof. intros A f. induction l as [|x l IH]; intros m; [reflexivity|]. cbn. destruct (f x); [reflexivity|apply IH]. Qed.

(** ** Matching *)
Lemma getMatchChild_spec : forall (l : list node) p s t tex, tree l ->
  let c := getMatchChild l p s t tex in
  c <> 0 -> exists nd r, nth_error l c = Some nd /\ nParent nd = p /\ nRepr nd = Some r /\
    same_stop near r s /\ (tex = true -> nTime nd = t).
Proof.
  intros l p s t tex T c Hc. unfold c, TripTrie_model.getMatchChild in *.
  destruct (nth_error l p) as [ndp|] eqn:Ep; [|lia].
  destruct (find _ (nChilds ndp)) as [c'|] eqn:F; [|lia].
  apply find_some in F. destruct F as [I M]. unfold matches in M.
  destruct (nth_error l c') as [ndc|] eqn:Ec; [|discriminate].
  destruct (nRepr ndc) as [r|] eqn:Er; [|discriminate].
  apply andb_true_iff in M. destruct M as [M1 M2].
  destruct (tr_child _ T _ _ _ Ep I) as [_ (x & Ex & Px)]. rewrite Ec in Ex. inversion Ex; subst x.
  exists ndc, r. repeat split; auto; try (apply sameStop_spec in M1; apply M1).
  intros ->. cbn in M2. apply Z.eqb_eq. exact M2.
Qed.
Lemma getMatchChild_none : forall (l : list node) p s t tex nd, tree l ->
  getMatchChild l p s t tex = 0 -> nth_error l p = Some nd ->
  forall c ndc r, In c (nChilds nd) -> nth_error l c = Some ndc -> nRepr ndc = Some r ->
  ~ (same_stop near r s /\ (tex = true -> nTime ndc = t)).
Proof.
  intros l p s t tex nd T H Ep c ndc r I Ec Er [S Tm]. unfold TripTrie_model.getMatchChild in H. rewrite Ep in H.
  destruct (find _ (nChilds nd)) as [c'|] eqn:F.
  - apply find_some in F. destruct (tr_child _ T _ _ _ Ep (proj1 F)) as [N _]. contradiction.
  - pose proof (find_none _ _ F c I) as N. unfold matches in N. rewrite Ec, Er in N.
    apply sameStop_spec in S. rewrite S in N. cbn in N. destruct tex; cbn in N; [|discriminate].
    rewrite Tm in N by reflexivity. rewrite Z.eqb_refl in N. discriminate.
Qed.

(** ** Nodes keep their identity *)
Definition same_id (a b : node) : Prop :=
  nRepr a = nRepr b /\ nTime a = nTime b /\ nArr a = nArr b /\ nParent a = nParent b.
Definition grows (l l' : list node) : Prop :=
  length l <= length l' /\
  forall n nd, nth_error l n = Some nd -> exists nd', nth_error l' n = Some nd' /\ same_id nd nd' /\ exists t, nChilds nd' = nChilds nd ++ t.
Lemma grows_refl : forall l, grows l l.
Proof. intros l. split; [lia|]. intros n nd H. exists nd. split; [assumption|]. split; [repeat split|]. exists []. symmetry. apply app_nil_r. Qed.
Lemma grows_trans : forall a b c, grows a b -> grows b c -> grows a c.
Proof.
  intros a b c [L1 G1] [L2 G2]. split; [lia|]. intros n nd H.
  destruct (G1 _ _ H) as (x & X & S1 & t1 & C1). destruct (G2 _ _ X) as (y & Y & S2 & t2 & C2).
  exists y. split; [assumption|]. split.
  - unfold same_id in *. destruct S1 as (-> & -> & -> & ->). exact S2.
  - exists (t1 ++ t2). rewrite C2, C1, app_assoc. reflexivity.
Qed.
Lemma spells_grows : forall l l' tex cur path ks, grows l l' -> spells l tex cur path ks -> spells l' tex cur path ks.
Proof.
  intros l l' tex cur path ks [_ G] H. induction H; [constructor|].
  destruct (G _ _ H) as (nd' & E & (S1 & S2 & S3 & S4) & _).
  eapply sp_cons with (nd := nd'); try eassumption.
  - congruence. - congruence. - congruence.
  - intros X. rewrite <- S2. auto.
Qed.

Definition cnt (l : list node) (n : nat) : nat := match nth_error l n with Some nd => nTrips nd | None => 0 end.
Definition acc (l : list node) (n : nat) : Z := match nth_error l n with Some nd => nAcc nd | None => 0%Z end.
Definition isArr (l : list node) (n : nat) : bool :=
  if n =? 0 then true else match nth_error l n with Some nd => nArr nd | None => true end.

Lemma upd_grows : forall l k f, (forall nd, same_id nd (f nd) /\ exists t, nChilds (f nd) = nChilds nd ++ t) -> grows l (upd k f l).
Proof.
  intros l k f H. split; [rewrite upd_length; lia|]. intros n nd E. rewrite upd_nth, E.
  destruct (n =? k); cbn; eexists; (split; [reflexivity|]); [apply H|].
  split; [repeat split|]. exists []. symmetry. apply app_nil_r.
Qed.
Lemma touch_id : forall t a nd, same_id nd (touch pos attrs mergeA t a nd).
Proof. intros. repeat split. Qed.

Lemma tree_upd : forall (l : list node) k f, tree l ->
  (forall nd, same_id nd (f nd) /\ nChilds (f nd) = nChilds nd) -> tree (upd k f l).
Proof.
  intros l k f T H.
  assert (N : forall n nd, nth_error (upd k f l) n = Some nd -> exists nd0, nth_error l n = Some nd0 /\
     same_id nd0 nd /\ nChilds nd = nChilds nd0).
  { intros n nd E. rewrite upd_nth in E. destruct (n =? k).
    - destruct (nth_error l n) as [x|]; [|discriminate]. cbn in E. inversion E; subst.
      exists x. split; [reflexivity|]. apply H.
    - exists nd. split; [exact E|]. split; [repeat split|reflexivity]. }
  assert (M : forall n nd0, nth_error l n = Some nd0 -> exists nd, nth_error (upd k f l) n = Some nd /\
     same_id nd0 nd /\ nChilds nd = nChilds nd0).
  { intros n nd0 E. rewrite upd_nth, E. destruct (n =? k); cbn; eexists; (split; [reflexivity|]).
    - apply H. - split; [repeat split|reflexivity]. }
  destruct T as [T1 T2 T3 T4 T5]. constructor.
  - destruct T1 as (nd & E & R). destruct (M _ _ E) as (nd' & E' & (S1 & _) & _). exists nd'. split; [assumption|congruence].
  - intros n nd E Hn. destruct (N _ _ E) as (nd0 & E0 & (S1 & S2 & S3 & S4) & S5).
    destruct (T2 _ _ E0 Hn) as [L (p & Ep & Ip & Ap)]. rewrite S4 in *.
    split; [assumption|]. destruct (M _ _ Ep) as (p' & Ep' & (Q1 & Q2 & Q3 & Q4) & Q5).
    exists p'. split; [assumption|]. split; [congruence|]. rewrite <- S3, Ap, Q3. reflexivity.
  - intros p nd c E I. destruct (N _ _ E) as (nd0 & E0 & _ & S5). rewrite S5 in I.
    destruct (T3 _ _ _ E0 I) as [C (ndc & Ec & Pc)]. split; [assumption|].
    destruct (M _ _ Ec) as (x & Ex & (_ & _ & _ & Q) & _). exists x. split; [assumption|congruence].
  - intros p nd E. destruct (N _ _ E) as (nd0 & E0 & _ & S5). rewrite S5. eauto.
  - intros nd E. destruct (N _ _ E) as (nd0 & E0 & _ & S5). rewrite S5. eauto.
Qed.

Lemma tree_insert : forall (l : list node) s a t arr p, tree l -> p < length l ->
  (p = 0 -> length l = 1) -> arr = negb (isArr l p) ->
  tree (fst (insertNd pos attrs l s a t arr p)).
Proof.
  intros l s a t arr p T Hp H0 Ha. cbn [insertNd fst]. unfold insertNd. cbn [fst].
  set (new := mkNode pos attrs (Some s) t arr t 1 p [] (Some a)).
  set (n := length l).
  assert (N : forall m nd, nth_error (upd p (addChild pos attrs n) (l ++ [new])) m = Some nd ->
     (m = n /\ nd = new) \/ (m < n /\ exists nd0, nth_error l m = Some nd0 /\ same_id nd0 nd /\
        nChilds nd = nChilds nd0 ++ (if m =? p then [n] else []))).
  { intros m nd E. rewrite upd_nth in E. destruct (m =? p) eqn:Emp.
    - apply Nat.eqb_eq in Emp. subst m. rewrite nth_error_app1 in E by assumption.
      destruct (nth_error l p) as [x|]; [|discriminate]. cbn in E. inversion E; subst.
      right. split; [assumption|]. exists x. split; [reflexivity|]. split; [repeat split|reflexivity].
    - apply nth_snoc_inv in E. destruct E as [E|E]; [|left; exact E].
      right. split; [apply nth_lt in E; exact E|]. exists nd. split; [exact E|]. split; [repeat split|rewrite app_nil_r; reflexivity]. }
  assert (M : forall m nd0, nth_error l m = Some nd0 -> exists nd, nth_error (upd p (addChild pos attrs n) (l ++ [new])) m = Some nd /\
     same_id nd0 nd /\ nChilds nd = nChilds nd0 ++ (if m =? p then [n] else [])).
  { intros m nd0 E. rewrite upd_nth. rewrite (nth_snoc_some _ _ _ _ _ E). destruct (m =? p); cbn; eexists; (split; [reflexivity|]).
    - split; [repeat split|reflexivity]. - split; [repeat split|rewrite app_nil_r; reflexivity]. }
  assert (New : nth_error (upd p (addChild pos attrs n) (l ++ [new])) n = Some new).
  { rewrite upd_nth_ne by (unfold n; lia). apply nth_snoc_eq. }
  destruct T as [T1 T2 T3 T4 T5]. constructor.
  - destruct T1 as (nd & E & R). destruct (M _ _ E) as (nd' & E' & (S1 & _) & _). exists nd'. split; [assumption|congruence].
  - intros m nd E Hm. destruct (N _ _ E) as [[-> ->]|(L & nd0 & E0 & (S1 & S2 & S3 & S4) & S5)].
    + cbn [TripTrie_model.nParent new]. split; [exact Hp|]. destruct (nth_ex _ l p Hp) as (ndp & Ep).
      destruct (M _ _ Ep) as (p' & Ep' & (Q1 & Q2 & Q3 & Q4) & Q5).
      exists p'. split; [assumption|]. split; [rewrite Q5, Nat.eqb_refl; apply in_or_app; right; left; reflexivity|].
      cbn [TripTrie_model.nArr new]. rewrite Ha. unfold isArr. rewrite Ep. destruct (p =? 0); [reflexivity|congruence].
    + destruct (T2 _ _ E0 Hm) as [L2 (q & Eq & Iq & Aq)]. rewrite S4 in *. split; [assumption|].
      destruct (M _ _ Eq) as (q' & Eq' & (Q1 & Q2 & Q3 & Q4) & Q5).
      exists q'. split; [assumption|]. split; [rewrite Q5; apply in_or_app; left; assumption|].
      rewrite <- S3, Aq, Q3. reflexivity.
  - intros q nd c E I. destruct (N _ _ E) as [[-> ->]|(L & nd0 & E0 & S & S5)]; [destruct I|].
    rewrite S5 in I. apply in_app_or in I. destruct I as [I|I].
    + destruct (T3 _ _ _ E0 I) as [C (ndc & Ec & Pc)]. split; [assumption|].
      destruct (M _ _ Ec) as (x & Ex & (_ & _ & _ & Q) & _). exists x. split; [assumption|congruence].
    + destruct (q =? p) eqn:Eqp; [|destruct I]. destruct I as [<-|[]]. apply Nat.eqb_eq in Eqp. subst q.
      split; [unfold n; lia|]. exists new. split; [exact New|reflexivity].
  - intros q nd E. destruct (N _ _ E) as [[-> ->]|(L & nd0 & E0 & S & S5)]; [constructor|].
    rewrite S5. destruct (q =? p); [|rewrite app_nil_r; eauto].
    assert (ND := T4 _ _ E0). assert (NI : ~ In n (nChilds nd0)).
    { intros I. destruct (T3 _ _ _ E0 I) as [_ (x & Ex & _)]. apply nth_lt in Ex. unfold n in Ex. lia. }
    clear - ND NI. induction ND; cbn; [constructor; [intros []|constructor]|].
    constructor.
    + intros I. apply in_app_or in I. destruct I as [I|[I|[]]]; [contradiction|]. apply NI. left. auto.
    + apply IHND. intros I. apply NI. right. exact I.
  - intros nd E. destruct (N _ _ E) as [[E1 ->]|(L & nd0 & E0 & S & S5)]; [left; reflexivity|].
    rewrite S5. destruct (0 =? p) eqn:E0p; [|rewrite app_nil_r; eauto].
    apply Nat.eqb_eq in E0p. symmetry in E0p. specialize (H0 E0p).
    destruct (T5 _ E0) as [->|C]; [right; unfold n; rewrite H0; reflexivity|].
    exfalso. assert (I : In 1 (nChilds nd0)) by (rewrite C; left; reflexivity).
    destruct (T3 _ _ _ E0 I) as [_ (x & Ex & _)]. apply nth_lt in Ex. lia.
Qed.

Lemma visit_spec : forall l cur s a t arr tex l' c, tree l -> cur < length l ->
  (cur = 0 -> getMatchChild l cur s t tex = 0 -> length l = 1) -> arr = negb (isArr l cur) ->
  visit l cur s a t arr tex = (l', c) ->
  tree l' /\ grows l l' /\ c < length l' /\ c <> 0 /\ isArr l' c = arr /\
  (exists nd r, nth_error l' c = Some nd /\ nParent nd = cur /\ nRepr nd = Some r /\ same_stop near r s /\
     nArr nd = arr /\ (tex = true -> nTime nd = t)) /\
  getMatchChild l' cur s t tex = c /\
  (forall n, cnt l' n = cnt l n + (if n =? c then 1 else 0)) /\
  (forall n, acc l' n = (acc l n + (if (n =? c)%nat then t else 0))%Z).
Proof.
  intros l cur s a t arr tex l' c T Hc H0 Ha V. unfold TripTrie_model.visit in V.
  destruct (getMatchChild l cur s t tex =? 0) eqn:E.
  - apply Nat.eqb_eq in E. assert (Ti := tree_insert l s a t arr cur T Hc (fun H => H0 H E) Ha).
    rewrite V in Ti. cbn [fst] in Ti. unfold insertNd in V. inversion V; subst l' c. clear V.
    set (new := mkNode pos attrs (Some s) t arr t 1 cur [] (Some a)) in *.
    assert (New : nth_error (upd cur (addChild pos attrs (length l)) (l ++ [new])) (length l) = Some new)
      by (rewrite upd_nth_ne by lia; apply nth_snoc_eq).
    assert (L0 : length l <> 0) by lia.
    split; [exact Ti|]. split.
    { eapply grows_trans with (b := l ++ [new]); [|apply upd_grows; intros; split; [repeat split|]; eexists; reflexivity].
      split; [rewrite app_length; lia|]. intros n nd En. exists nd. split; [apply nth_snoc_some; exact En|].
      split; [repeat split|]. exists []. symmetry. apply app_nil_r. }
    split; [rewrite upd_length, app_length; cbn; lia|]. split; [exact L0|].
    split. { unfold isArr. apply Nat.eqb_neq in L0. rewrite L0, New. reflexivity. }
    split. { exists new, s. split; [exact New|]. repeat split; auto. }
    split.
    { destruct (nth_ex _ l cur Hc) as (ndc & Ecur). unfold TripTrie_model.getMatchChild.
      rewrite (upd_nth_eq _ _ _ _ _ (nth_snoc_some _ _ _ _ _ Ecur)). cbn [addChild TripTrie_model.nChilds].
      assert (Fn : find (matches pos near attrs (upd cur (addChild pos attrs (length l)) (l ++ [new])) s t tex) (nChilds ndc) = None).
      { unfold TripTrie_model.getMatchChild in E. rewrite Ecur in E.
        destruct (find (matches pos near attrs l s t tex) (nChilds ndc)) as [c'|] eqn:F.
        { apply find_some in F. destruct (tr_child _ T _ _ _ Ecur (proj1 F)) as [N _]. contradiction. }
        rewrite <- F. apply find_ext. intros c' I. destruct (tr_child _ T _ _ _ Ecur I) as [_ (x & Ex & _)].
        unfold matches. rewrite Ex, upd_nth, (nth_snoc_some _ _ _ _ _ Ex). destruct (c' =? cur); reflexivity. }
      rewrite find_app, Fn. cbn [find]. unfold matches. rewrite New. cbn [TripTrie_model.nRepr TripTrie_model.nTime new].
      assert (SS : sameStop pos near s s = true) by (apply sameStop_spec; repeat split; apply near_refl).
      rewrite SS, Z.eqb_refl, orb_true_r. reflexivity. }
    assert (Q : forall n, nth_error (upd cur (addChild pos attrs (length l)) (l ++ [new])) n =
      if n =? length l then Some new else if n =? cur then option_map (addChild pos attrs (length l)) (nth_error l n) else nth_error l n).
    { intros n. destruct (n =? length l) eqn:En; [apply Nat.eqb_eq in En; subst; exact New|].
      apply Nat.eqb_neq in En. rewrite upd_nth.
      assert (X : nth_error (l ++ [new]) n = nth_error l n).
      { destruct (lt_dec n (length l)); [apply nth_error_app1; assumption|].
        rewrite (proj2 (nth_error_None l n)) by lia. apply nth_error_None. rewrite app_length. cbn. lia. }
      rewrite X. reflexivity. }
    split; intros n; unfold cnt, acc; rewrite Q; destruct (n =? length l) eqn:En.
    + apply Nat.eqb_eq in En. subst n. rewrite (proj2 (nth_error_None l (length l))) by lia. reflexivity.
    + destruct (n =? cur); destruct (nth_error l n); cbn; lia.
    + apply Nat.eqb_eq in En. subst n. rewrite (proj2 (nth_error_None l (length l))) by lia. cbn. lia.
    + destruct (n =? cur); destruct (nth_error l n); cbn; lia.
  - apply Nat.eqb_neq in E. destruct (getMatchChild_spec l cur s t tex T E) as (nd & r & En & Pn & Rn & Sn & Tn).
    injection V as V1 V2. rewrite V2 in *. subst l'.
    set (f := touch pos attrs mergeA t a).
    assert (Ec := upd_nth_eq _ c f l nd En).
    destruct (tr_parent _ T _ _ En E) as [Lp (p & Ep & Ip & Ap)]. rewrite Pn in *.
    assert (Arr : nArr nd = arr).
    { rewrite Ap, Ha. unfold isArr. rewrite Ep. destruct (cur =? 0); reflexivity. }
    split; [apply tree_upd; [exact T|intros; split; [apply touch_id|reflexivity]]|].
    split; [apply upd_grows; intros; split; [apply touch_id|exists []; symmetry; apply app_nil_r]|].
    split; [rewrite upd_length; apply nth_lt in En; exact En|]. split; [exact E|].
    split. { unfold isArr. apply Nat.eqb_neq in E. rewrite E, Ec. exact Arr. }
    split. { exists (f nd), r. split; [exact Ec|]. repeat split; auto; apply Sn. }
    split.
    { assert (M : forall c', matches pos near attrs (upd c f l) s t tex c' = matches pos near attrs l s t tex c').
      { intros c'. unfold matches. rewrite upd_nth. destruct (c' =? c); [|reflexivity]. destruct (nth_error l c'); reflexivity. }
      transitivity (getMatchChild l cur s t tex); [|exact V2]. unfold TripTrie_model.getMatchChild. rewrite upd_nth, Ep.
      assert (Ch : exists p', (if cur =? c then option_map f (Some p) else Some p) = Some p' /\ nChilds p' = nChilds p).
      { destruct (cur =? c); cbn; eexists; (split; [reflexivity|reflexivity]). }
      destruct Ch as (p' & -> & ->). rewrite (find_ext _ _ _ _ (fun x _ => M x)). reflexivity. }
    split; intros n; unfold cnt, acc; rewrite upd_nth; destruct (n =? c) eqn:Enc.
    + apply Nat.eqb_eq in Enc. subst n. rewrite En. cbn. lia.
    + lia.
    + apply Nat.eqb_eq in Enc. subst n. rewrite En. cbn. lia.
    + lia.
Qed.

(** ** A whole trip *)
Fixpoint visitAll (l : list node) (cur : nat) (a : attrs) (tex : bool) (ks : list key) : list node * list nat :=
  match ks with
  | [] => (l, [])
  | k :: ks' => let '(l1, c) := visit l cur (kStop k) a (kTime k) (kArr k) tex in
                let '(l2, p) := visitAll l1 c a tex ks' in (l2, c :: p)
  end.
Fixpoint alternate (b : bool) (ks : list key) : Prop :=
  match ks with [] => True | k :: t => kArr k = negb b /\ alternate (kArr k) t end.

Lemma tree_len : forall l : list node, tree l -> 0 < length l.
Proof. intros l T. destruct (tr_root _ T) as (nd & E & _). apply nth_lt in E. exact E. Qed.

Lemma spells_nodes : forall l tex cur path ks, tree l -> spells l tex cur path ks ->
  forall n, In n path -> cur < n \/ (cur = 0 /\ n <> 0).
Proof.
  intros l tex cur path ks T H. induction H; intros m I; [destruct I|].
  destruct (tr_parent _ T _ _ H H1) as [L _]. rewrite H0 in L.
  destruct I as [<-|I]; [left; exact L|]. destruct (IHspells m I) as [X|[X _]]; [left; lia|contradiction].
Qed.

Fixpoint followAll (l : list node) (cur : nat) (tex : bool) (ks : list key) : option (list nat) :=
  match ks with
  | [] => Some []
  | k :: ks' => match getMatchChild l cur (kStop k) (kTime k) tex with
                | 0 => None
                | c => match followAll l c tex ks' with Some p => Some (c :: p) | None => None end
                end
  end.

Lemma getMatchChild_grows : forall l l' p s t tex, tree l -> grows l l' ->
  getMatchChild l p s t tex <> 0 -> getMatchChild l' p s t tex = getMatchChild l p s t tex.
Proof.
  intros l l' p s t tex T [_ G] H. unfold TripTrie_model.getMatchChild in *.
  destruct (nth_error l p) as [nd|] eqn:Ep; [|contradiction]. destruct (G _ _ Ep) as (nd' & -> & _ & t' & ->).
  rewrite find_app.
  assert (X : find (matches pos near attrs l' s t tex) (nChilds nd) = find (matches pos near attrs l s t tex) (nChilds nd)).
  { apply find_ext. intros c I. destruct (tr_child _ T _ _ _ Ep I) as [_ (x & Ex & _)].
    destruct (G _ _ Ex) as (x' & Ex' & (S1 & S2 & _ & _) & _). unfold matches. rewrite Ex, Ex', S1, S2. reflexivity. }
  rewrite X. destruct (find (matches pos near attrs l s t tex) (nChilds nd)); [reflexivity|contradiction].
Qed.
Lemma followAll_grows : forall ks l l' cur tex p, tree l -> grows l l' ->
  followAll l cur tex ks = Some p -> followAll l' cur tex ks = Some p.
Proof.
  induction ks as [|k ks IH]; intros l l' cur tex p T G F; cbn [followAll] in *; [exact F|].
  destruct (getMatchChild l cur (kStop k) (kTime k) tex) as [|c] eqn:E; [discriminate|].
  rewrite (getMatchChild_grows l l' cur _ _ tex T G) by congruence. rewrite E.
  destruct (followAll l (S c) tex ks) as [q|] eqn:F2; [|discriminate].
  rewrite (IH _ _ _ _ _ T G F2). exact F.
Qed.

Lemma visitAll_spec : forall ks l cur a tex l' path, tree l -> cur < length l -> alternate (isArr l cur) ks ->
  (cur = 0 -> forall k ks', ks = k :: ks' -> getMatchChild l cur (kStop k) (kTime k) tex = 0 -> length l = 1) ->
  visitAll l cur a tex ks = (l', path) ->
  tree l' /\ grows l l' /\ spells l' tex cur path ks /\ followAll l' cur tex ks = Some path /\
  (forall n, cnt l' n = cnt l n + (if existsb (Nat.eqb n) path then 1 else 0)) /\
  (forall n, acc l' n = (acc l n + time_at n path ks)%Z).
Proof.
  induction ks as [|k ks IH]; intros l cur a tex l' path T Hc A H0 V; cbn [visitAll] in V.
  - inversion V; subst. split; [exact T|]. split; [apply grows_refl|]. split; [constructor|]. split; [reflexivity|].
    split; intros n; cbn; lia.
  - destruct (visit l cur (kStop k) a (kTime k) (kArr k) tex) as [l1 c] eqn:E1.
    destruct (visitAll l1 c a tex ks) as [l2 p2] eqn:E2. inversion V; subst l' path. clear V.
    destruct A as [A1 A2].
    destruct (visit_spec _ _ _ _ _ _ _ _ _ T Hc (fun H => H0 H _ _ eq_refl) A1 E1)
      as (T1 & G1 & Lc & Nc & Ac & (nd & r & En & Pn & Rn & Sn & An & Tn) & M1 & C1 & K1).
    assert (A3 : alternate (isArr l1 c) ks) by (rewrite Ac; exact A2).
    assert (H1 : c = 0 -> forall k0 ks', ks = k0 :: ks' -> getMatchChild l1 c (kStop k0) (kTime k0) tex = 0 -> length l1 = 1)
      by (intros ->; contradiction).
    destruct (IH _ _ _ _ _ _ T1 Lc A3 H1 E2) as (T2 & G2 & S2 & F2 & C2 & K2).
    split; [exact T2|]. split; [eapply grows_trans; eassumption|].
    destruct (proj2 G2 _ _ En) as (nd' & En' & (Q1 & Q2 & Q3 & Q4) & _).
    assert (Sp : spells l2 tex cur (c :: p2) (k :: ks)).
    { eapply sp_cons with (nd := nd'); try eassumption; try congruence.
      intros X. rewrite <- Q2. auto. }
    split; [exact Sp|].
    split.
    { cbn [followAll]. rewrite (getMatchChild_grows l1 l2 cur (kStop k) (kTime k) tex T1 G2) by congruence. rewrite M1.
      destruct c as [|c]; [contradiction|]. rewrite F2. reflexivity. }
    assert (NI : forall n, (n =? c) = true -> existsb (Nat.eqb n) p2 = false).
    { intros n X. apply Nat.eqb_eq in X. subst n. destruct (existsb (Nat.eqb c) p2) eqn:Ex; [|reflexivity].
      apply existsb_exists in Ex. destruct Ex as (x & I & X). apply Nat.eqb_eq in X. subst x.
      destruct (spells_nodes _ _ _ _ _ T2 S2 _ I) as [?|[? _]]; [lia|contradiction]. }
    assert (NT : forall n, (n =? c) = true -> time_at n p2 ks = 0%Z).
    { intros n X. specialize (NI n X). clear -NI. revert ks. induction p2 as [|m p2 IH]; intros ks; [reflexivity|].
      destruct ks; [reflexivity|]. cbn in *. apply orb_false_iff in NI. destruct NI as [-> N]. auto. }
    split; intros n.
    + rewrite C2, C1. cbn [existsb]. destruct (n =? c) eqn:X; [rewrite (NI n X); cbn; lia|cbn; lia].
    + rewrite K2, K1. cbn [time_at]. destruct (n =? c) eqn:X; [rewrite (NT n X); lia|lia].
Qed.

Lemma later_alternate : forall start sts, alternate false (later_keys start sts).
Proof.
  intros start. induction sts as [|st rest IH]; [exact I|]. cbn [later_keys alternate kArr]. split; [reflexivity|].
  destruct rest; [exact I|]. cbn [alternate kArr]. split; [reflexivity|]. exact IH.
Qed.
Lemma trip_alternate : forall start sts, alternate true (trip_keys start sts).
Proof.
  intros start [|st [|st2 rest]]; try exact I. cbn [trip_keys alternate kArr]. split; [reflexivity|]. apply later_alternate.
Qed.

Lemma last_cons : forall (p : list nat) c d, last (c :: p) d = last p c.
Proof.
  induction p as [|x p IH]; intros c d; [reflexivity|].
  change (last (x :: p) d = last (x :: p) c). rewrite (IH x d), (IH x c). reflexivity.
Qed.

Notation addLoop := (addLoop pos near attrs mergeA).
Lemma addLoop_later : forall sts l cur start a tex locked,
  addLoop l cur start a tex locked false sts =
  let '(l', p) := visitAll l cur a tex (later_keys start sts) in (l', Some (last p cur)).
Proof.
  induction sts as [|st rest IH]; intros l cur start a tex locked; [reflexivity|].
  cbn [TripTrie_model.addLoop later_keys visitAll kStop kTime kArr].
  destruct (visit l cur (stStop pos st) a (relTime start (stArr pos st)) true tex) as [l1 c1].
  destruct rest as [|st2 rest]; [reflexivity|].
  rewrite andb_false_r. cbn [andb].
  cbn [visitAll kStop kTime kArr].
  destruct (visit l1 c1 (stStop pos st) a (relTime start (stDep pos st)) false tex) as [l2 c2].
  rewrite IH. destruct (visitAll l2 c2 a tex (later_keys start (st2 :: rest))) as [l3 p3].
  rewrite !last_cons. reflexivity.
Qed.
Lemma addLoop_first : forall st rest l start a tex locked,
  addLoop l 0 start a tex locked true (st :: rest) =
  match trip_keys start (st :: rest) with
  | [] => (l, Some 0)
  | k :: _ =>
      if (getMatchChild l 0 (kStop k) (kTime k) tex =? 0) && locked then (l, None)
      else let '(l', p) := visitAll l 0 a tex (trip_keys start (st :: rest)) in (l', Some (last p 0))
  end.
Proof.
  intros st rest l start a tex locked. cbn [TripTrie_model.addLoop trip_keys].
  destruct rest as [|st2 rest]; [reflexivity|]. cbn [kStop kTime].
  rewrite andb_true_r.
  destruct ((getMatchChild l 0 (stStop pos st) (relTime start (stDep pos st)) tex =? 0) && locked); [reflexivity|].
  cbn [visitAll kStop kTime kArr].
  destruct (visit l 0 (stStop pos st) a (relTime start (stDep pos st)) false tex) as [l2 c2].
  rewrite addLoop_later. destruct (visitAll l2 c2 a tex (later_keys start (st2 :: rest))) as [l3 p3].
  rewrite last_cons. reflexivity.
Qed.

(** ** Looking up a trip *)
Notation getLoop := (getLoop pos near attrs).
Lemma getLoop_later : forall sts l cur start tex,
  getLoop l cur start tex false sts =
  match followAll l cur tex (later_keys start sts) with Some p => last p cur | None => 0 end.
Proof.
  induction sts as [|st rest IH]; intros l cur start tex; [reflexivity|].
  cbn [TripTrie_model.getLoop later_keys followAll kStop kTime].
  destruct (getMatchChild l cur (stStop pos st) (relTime start (stArr pos st)) tex) as [|c1]; [reflexivity|].
  destruct rest as [|st2 rest]; [reflexivity|]. cbn [followAll kStop kTime].
  destruct (getMatchChild l (S c1) (stStop pos st) (relTime start (stDep pos st)) tex) as [|c2]; [reflexivity|].
  rewrite IH. destruct (followAll l (S c2) tex (later_keys start (st2 :: rest))); [|reflexivity].
  rewrite !last_cons. reflexivity.
Qed.
Lemma getLoop_first : forall st rest l start tex,
  getLoop l 0 start tex true (st :: rest) =
  match followAll l 0 tex (trip_keys start (st :: rest)) with Some p => last p 0 | None => 0 end.
Proof.
  intros st rest l start tex. cbn [TripTrie_model.getLoop trip_keys].
  destruct rest as [|st2 rest]; [reflexivity|]. cbn [followAll kStop kTime].
  destruct (getMatchChild l 0 (stStop pos st) (relTime start (stDep pos st)) tex) as [|c2]; [reflexivity|].
  rewrite getLoop_later. destruct (followAll l (S c2) tex (later_keys start (st2 :: rest))); [|reflexivity].
  rewrite last_cons. reflexivity.
Qed.
Lemma followAll_spells : forall ks l cur tex p, tree l -> cur < length l -> alternate (isArr l cur) ks ->
  followAll l cur tex ks = Some p -> spells l tex cur p ks.
Proof.
  induction ks as [|k ks IH]; intros l cur tex p T Hc A F; cbn [followAll] in F.
  - inversion F. constructor.
  - destruct (getMatchChild l cur (kStop k) (kTime k) tex) as [|c] eqn:E; [discriminate|].
    destruct (followAll l (S c) tex ks) as [p'|] eqn:F2; [|discriminate]. inversion F; subst p.
    assert (N : getMatchChild l cur (kStop k) (kTime k) tex <> 0) by lia.
    destruct (getMatchChild_spec l cur _ _ tex T N) as (nd & r & En & Pn & Rn & Sn & Tn). rewrite E in *.
    destruct A as [A1 A2]. destruct (tr_parent _ T _ _ En N) as [Lp (q & Eq & Iq & Aq)]. rewrite Pn in *.
    assert (Arr : nArr nd = kArr k).
    { rewrite Aq, A1. unfold isArr. rewrite Eq. destruct (cur =? 0); reflexivity. }
    eapply sp_cons; try eassumption. apply (IH l (S c) tex p' T); [apply nth_lt in En; exact En| |exact F2].
    unfold isArr. rewrite En. cbn. rewrite Arr. exact A2.
Qed.

(** ** Histories *)
Notation call := (call pos attrs).
Notation trie := (trie pos attrs).
Notation addTrip := (addTrip pos near attrs mergeA emptySecs).
Notation runCalls := (runCalls pos near attrs mergeA emptySecs).
Notation call_keys := (@call_keys pos attrs emptySecs).
Notation ndTrips := (ndTrips pos attrs).
Notation tripNds := (tripNds pos attrs).

Definition ok (tr : trie) : Prop := tree (nds tr) /\ (tripNds tr = [] -> length (nds tr) = 1).

Lemma pushAt_listAt : forall m k v n, listAt (pushAt m k v) n = listAt m n ++ (if k =? n then [v] else []).
Proof.
  induction m as [|[k' vs] m IH]; intros k v n; cbn.
  - destruct (k =? n); reflexivity.
  - destruct (k' =? k) eqn:E; cbn.
    + apply Nat.eqb_eq in E. subst k'. destruct (k =? n); [reflexivity|rewrite app_nil_r; reflexivity].
    + destruct (k' =? n) eqn:E2; [|apply IH]. apply Nat.eqb_eq in E2. subst k'.
      rewrite Nat.eqb_sym in E. rewrite E. rewrite app_nil_r. reflexivity.
Qed.

Lemma addTrip_spec : forall tr (c : call) tr' r, ok tr ->
  addTrip tr (cTrip _ _ c) (cAttrs _ _ c) (cTimeEx _ _ c) (cDegen _ _ c) = (tr', r) ->
  ok tr' /\ grows (nds tr) (nds tr') /\
  ((r = false /\ tr' = tr) \/
   (r = true /\ exists p, spells (nds tr') (cTimeEx _ _ c) 0 p (call_keys c) /\ followAll (nds tr') 0 (cTimeEx _ _ c) (call_keys c) = Some p /\
      (forall n, listAt (ndTrips tr') n = listAt (ndTrips tr) n ++ (if last p 0 =? n then [tId _ (cTrip _ _ c)] else [])) /\
      (forall n, cnt (nds tr') n = cnt (nds tr) n + (if negb (cDegen _ _ c) && existsb (Nat.eqb n) p then 1 else 0)) /\
      (forall n, acc (nds tr') n = (acc (nds tr) n + (if negb (cDegen _ _ c) then time_at n p (call_keys c) else 0))%Z))).
Proof.
  intros tr c tr' r [T K] H. unfold TripTrie_model.addTrip in H.
  pose proof (tree_len _ T) as L0.
  destruct (cDegen _ _ c) eqn:D; cbn [negb] in H.
  - (* degenerate *)
    set (e := getTrip pos near attrs emptySecs tr (cTrip _ _ c) (cTimeEx _ _ c)) in *.
    assert (Same : (tr', r) = (tr, false) -> ok tr' /\ grows (nds tr) (nds tr') /\ (r = false /\ tr' = tr)).
    { intros X. inversion X; subst. split; [split; assumption|]. split; [apply grows_refl|auto]. }
    destruct (nth_error (nds tr) e) as [nd|] eqn:En;
      [|destruct (Same (eq_sym H)) as (X1 & X2 & X3); split; [exact X1|split; [exact X2|left; exact X3]]].
    destruct (negb (e =? 0) && (length (nChilds nd) =? 0)) eqn:G;
      [|destruct (Same (eq_sym H)) as (X1 & X2 & X3); split; [exact X1|split; [exact X2|left; exact X3]]].
    inversion H; subst tr' r. clear H Same. cbn [TripTrie_model.nds TripTrie_model.ndTrips].
    apply andb_true_iff in G. destruct G as [G1 _]. apply negb_true_iff, Nat.eqb_neq in G1.
    split; [split; [exact T|intros X; discriminate X]|]. split; [apply grows_refl|]. right. split; [reflexivity|].
    assert (Ex : exists p, followAll (nds tr) 0 (cTimeEx _ _ c) (call_keys c) = Some p /\ last p 0 = e).
    { unfold e, getTrip, call_keys, call_start in *. rewrite D in *. destruct (tSts pos (cTrip pos attrs c)) as [|st rest]; [contradiction|].
      rewrite getLoop_first in *. destruct (followAll _ _ _ _) as [p|] in *; [|contradiction]. exists p. auto. }
    destruct Ex as (p & F & Lp). exists p. split.
    { eapply followAll_spells; [exact T|exact L0| |exact F]. apply trip_alternate. }
    split; [exact F|].
    split; [intros n; rewrite pushAt_listAt, Lp; reflexivity|].
    split; intros n; cbn [negb andb]; lia.
  - (* regular *)
    unfold add in H.
    assert (Eq : call_keys c = trip_keys (startSecs pos (cTrip _ _ c)) (tSts _ (cTrip _ _ c))).
    { unfold TripTrie_spec.call_keys, call_start, startSecs. rewrite D. destruct (tSts pos (cTrip pos attrs c)) as [|st rest]; [reflexivity|].
      destruct (stDep pos st); reflexivity. }
    rewrite Eq. destruct (tSts pos (cTrip pos attrs c)) as [|st rest] eqn:Es.
    { inversion H; subst. split; [split; assumption|]. split; [apply grows_refl|]. left. auto. }
    rewrite addLoop_first in H. set (start := startSecs pos (cTrip pos attrs c)) in *.
    pose proof (trip_alternate start (st :: rest)) as Alt.
    destruct (trip_keys start (st :: rest)) as [|k ks] eqn:Ek.
    + inversion H; subst tr' r. cbn [TripTrie_model.nds TripTrie_model.ndTrips].
      split; [split; [exact T|intros X; discriminate X]|]. split; [apply grows_refl|]. right. split; [reflexivity|].
      exists []. split; [constructor|]. split; [reflexivity|]. split; [intros n; rewrite pushAt_listAt; reflexivity|].
      split; intros n; cbn; lia.
    + destruct ((getMatchChild (nds tr) 0 (kStop k) (kTime k) (cTimeEx _ _ c) =? 0) &&
         negb (length (tripNds tr) =? 0)) eqn:G.
      * inversion H; subst. destruct tr; cbn. split; [split; assumption|]. split; [apply grows_refl|]. left. auto.
      * destruct (visitAll (nds tr) 0 (cAttrs _ _ c) (cTimeEx _ _ c) (k :: ks)) as [l' p] eqn:V.
        inversion H; subst tr' r. clear H. cbn [TripTrie_model.nds TripTrie_model.ndTrips].
        assert (H0 : 0 = 0 -> forall k0 ks0, k :: ks = k0 :: ks0 ->
          getMatchChild (nds tr) 0 (kStop k0) (kTime k0) (cTimeEx _ _ c) = 0 -> length (nds tr) = 1).
        { intros _ k0 ks0 X M. inversion X; subst k0 ks0. rewrite M in G. cbn in G.
          apply negb_false_iff in G. apply K. destruct (tripNds tr); [reflexivity|discriminate]. }
        destruct (visitAll_spec (k :: ks) (nds tr) 0 (cAttrs _ _ c) (cTimeEx _ _ c) l' p T L0 Alt H0 V)
          as (T' & G' & S' & F' & C' & A').
        split; [split; [exact T'|intros X; discriminate X]|]. split; [exact G'|]. right. split; [reflexivity|].
        exists p. split; [exact S'|]. split; [exact F'|]. split; [intros n; rewrite pushAt_listAt; reflexivity|].
        split; intros n; cbn [negb andb]; [apply C'|apply A'].
Qed.

Lemma runCalls_spec : forall cs tr tr' rs, ok tr -> runCalls tr cs = (tr', rs) ->
  ok tr' /\ grows (nds tr) (nds tr') /\ exists ps : list (option (list nat)),
    rs = map (fun p => match p with Some _ => true | None => false end) ps /\
    Forall2 (fun c p => match p with Some p => spells (nds tr') (cTimeEx _ _ c) 0 p (call_keys c) | None => True end) cs ps /\
    Forall2 (fun c p => match p with Some p => followAll (nds tr') 0 (cTimeEx _ _ c) (call_keys c) = Some p | None => True end) cs ps /\
    (forall n, listAt (ndTrips tr') n = listAt (ndTrips tr) n ++ placed_at n cs ps) /\
    (forall n, cnt (nds tr') n = cnt (nds tr) n + passing n cs ps) /\
    (forall n, acc (nds tr') n = (acc (nds tr) n + sum_times emptySecs n cs ps)%Z).
Proof.
  induction cs as [|c cs IH]; intros tr tr' rs O H; cbn [TripTrie_model.runCalls] in H.
  - inversion H; subst. split; [exact O|]. split; [apply grows_refl|]. exists []. split; [reflexivity|].
    split; [constructor|]. split; [constructor|]. split; [intros n; cbn; rewrite app_nil_r; reflexivity|]. split; intros n; cbn; lia.
  - destruct (addTrip tr (cTrip _ _ c) (cAttrs _ _ c) (cTimeEx _ _ c) (cDegen _ _ c)) as [tr1 r] eqn:E1.
    destruct (runCalls tr1 cs) as [tr2 rs'] eqn:E2. inversion H; subst tr' rs. clear H.
    destruct (addTrip_spec _ _ _ _ O E1) as (O1 & G1 & S1).
    destruct (IH _ _ _ O1 E2) as (O2 & G2 & ps & Rs & F & Fo & P & C & A).
    split; [exact O2|]. split; [eapply grows_trans; eassumption|].
    destruct S1 as [[-> ->]|[-> (p & Sp & Fp & Pp & Cp & Ap)]].
    + exists (None :: ps). split; [cbn; congruence|]. split; [constructor; [exact I|exact F]|]. split; [constructor; [exact I|exact Fo]|].
      split; [exact P|]. split; [exact C|exact A].
    + exists (Some p :: ps). split; [cbn; congruence|].
      split; [constructor; [eapply spells_grows; eassumption|exact F]|].
      split; [constructor; [eapply followAll_grows; [exact (proj1 O1)|exact G2|exact Fp]|exact Fo]|].
      cbn [placed_at passing sum_times]. split; [|split]; intros n.
      * rewrite P, Pp, <- app_assoc. reflexivity.
      * rewrite C, Cp. lia.
      * rewrite A, Ap. lia.
Qed.

Lemma empty_ok : ok (emptyTrie pos attrs).
Proof.
  split; [|reflexivity]. cbn. constructor.
  - exists (root pos attrs). split; reflexivity.
  - intros [|[|n]] nd E H; [lia|discriminate|destruct n; discriminate].
  - intros [|[|p]] nd c E I; [inversion E; subst; destruct I|discriminate|destruct p; discriminate].
  - intros [|[|p]] nd E; [inversion E; constructor|discriminate|destruct p; discriminate].
  - intros nd E. inversion E. left. reflexivity.
Qed.

(** ** The path of a node is unique *)
Lemma last_cons_any : forall (p : list nat) m d, last p m = last (m :: p) d.
Proof. induction p as [|x p IH]; intros m d; [reflexivity|]. rewrite <- (IH x m). change (last (m :: x :: p) d) with (last (x :: p) d). apply IH. Qed.
Lemma spells_snoc : forall (l : list node) tex p cur n ks, spells l tex cur (p ++ [n]) ks ->
  exists ks' k nd, ks = ks' ++ [k] /\ spells l tex cur p ks' /\ nth_error l n = Some nd /\ nParent nd = last p cur /\ n <> 0.
Proof.
  intros l tex. induction p as [|m p IH]; intros cur n ks H; cbn in H; inversion H; subst.
  - match goal with X : spells _ _ _ [] _ |- _ => inversion X; subst end. exists [], k, nd. repeat split; auto. constructor.
  - match goal with X : spells _ _ m _ _ |- _ => rename X into HT end. destruct (IH _ _ _ HT) as (ks' & k' & nd' & -> & S' & E' & P' & N').
    exists (k :: ks'), k', nd'. split; [reflexivity|]. split; [eapply sp_cons; eauto|].
    split; [exact E'|]. split; [|exact N']. rewrite P'. apply last_cons_any.
Qed.
Lemma last_snoc : forall (p : list nat) n d, last (p ++ [n]) d = n.
Proof. intros. apply last_last. Qed.
Lemma spells_path_unique : forall (l : list node) tex tex' p p' ks ks',
  spells l tex 0 p ks -> spells l tex' 0 p' ks' -> last p 0 = last p' 0 -> p = p'.
Proof.
  intros l tex tex' p. induction p as [|n p IH] using rev_ind; intros p' ks ks' H H' L.
  - destruct p' as [|n' p'] using rev_ind; [reflexivity|]. rewrite last_snoc in L. cbn in L.
    destruct (spells_snoc _ _ _ _ _ _ H') as (? & ? & ? & _ & _ & _ & _ & N). congruence.
  - destruct (spells_snoc _ _ _ _ _ _ H) as (ks1 & k1 & nd1 & E1 & S1 & N1 & P1 & Z1).
    destruct p' as [|n' p' _] using rev_ind; [rewrite last_snoc in L; cbn in L; contradiction|].
    destruct (spells_snoc _ _ _ _ _ _ H') as (ks2 & k2 & nd2 & E2 & S2 & N2 & P2 & Z2).
    rewrite !last_snoc in L. subst n'. rewrite N1 in N2. inversion N2; subst nd2.
    f_equal. eapply IH; [exact S1|exact S2|congruence].
Qed.
Lemma spells_length : forall (l : list node) tex cur p ks, spells l tex cur p ks -> length p = length ks.
Proof. intros l tex cur p ks H. induction H; cbn; congruence. Qed.
Lemma later_length : forall start (sts : list (stime pos)), sts <> [] -> length (later_keys start sts) = 2 * length sts - 1.
Proof.
  intros start. induction sts as [|st rest IH]; intros H; [contradiction|]. cbn [later_keys].
  destruct rest as [|st2 rest]; [reflexivity|]. cbn [length]. rewrite IH by discriminate. cbn [length]. lia.
Qed.
Lemma trip_length : forall start (sts : list (stime pos)), length (trip_keys start sts) = 2 * (length sts - 1).
Proof.
  intros start [|st [|st2 rest]]; try reflexivity. cbn [trip_keys length]. rewrite later_length by discriminate. cbn [length]. lia.
Qed.
Lemma addTrip_nonempty : forall tr (c : call) tr',
  addTrip tr (cTrip _ _ c) (cAttrs _ _ c) (cTimeEx _ _ c) (cDegen _ _ c) = (tr', true) -> tSts _ (cTrip _ _ c) <> [].
Proof.
  intros tr c tr' H E. unfold TripTrie_model.addTrip, add, getTrip in H. rewrite E in H.
  destruct (cDegen _ _ c); cbn [negb] in H; [|discriminate].
  destruct (nth_error _ 0); discriminate.
Qed.
Lemma runCalls_nonempty : forall cs tr tr' rs, runCalls tr cs = (tr', rs) ->
  Forall2 (fun c r => r = true -> tSts _ (cTrip _ _ c) <> []) cs rs.
Proof.
  induction cs as [|c cs IH]; intros tr tr' rs H; cbn [TripTrie_model.runCalls] in H.
  - inversion H. constructor.
  - destruct (addTrip tr (cTrip _ _ c) (cAttrs _ _ c) (cTimeEx _ _ c) (cDegen _ _ c)) as [tr1 r] eqn:E1.
    destruct (runCalls tr1 cs) as [tr2 rs'] eqn:E2. inversion H; subst.
    constructor; [|eauto]. intros ->. eapply addTrip_nonempty; eassumption.
Qed.

(** ** Statements over whole histories *)
Lemma trie_history : forall cs tr rs, runCalls (emptyTrie pos attrs) cs = (tr, rs) ->
  tree (nds tr) /\ exists ps : list (option (list nat)),
    rs = map (fun p => match p with Some _ => true | None => false end) ps /\
    Forall2 (fun c p => match p with Some p => spells (nds tr) (cTimeEx _ _ c) 0 p (call_keys c) | None => True end) cs ps /\
    (forall i j ci cj pi pj, nth_error cs i = Some ci -> nth_error cs j = Some cj ->
       nth_error ps i = Some (Some pi) -> nth_error ps j = Some (Some pj) ->
       call_keys ci = call_keys cj -> cTimeEx _ _ ci = cTimeEx _ _ cj -> pi = pj) /\
    (forall n, listAt (ndTrips tr) n = placed_at n cs ps) /\
    (forall n nd, nth_error (nds tr) n = Some nd -> nTrips nd = passing n cs ps /\ nAcc nd = sum_times emptySecs n cs ps).
Proof.
  intros cs tr rs H. destruct (runCalls_spec cs _ _ _ empty_ok H) as ([T _] & _ & ps & R & F & Fo & P & C & A).
  split; [exact T|]. exists ps. split; [exact R|]. split; [exact F|]. split.
  { intros i j ci cj pi pj Hi Hj Pi Pj K X.
    pose proof (Forall2_nth _ _ _ _ _ _ _ _ Fo Hi Pi) as Fi. pose proof (Forall2_nth _ _ _ _ _ _ _ _ Fo Hj Pj) as Fj.
    cbn beta iota in Fi, Fj. rewrite K, X in Fi. congruence. }
  split; [exact P|].
  intros n nd E. specialize (C n). specialize (A n). unfold cnt, acc in C, A. rewrite E in C, A.
  cbn in C, A. destruct n as [|[|n]]; cbn in C, A; split; try lia; destruct n; cbn in *; lia.
Qed.
Lemma trie_same_node : forall cs tr rs, runCalls (emptyTrie pos attrs) cs = (tr, rs) ->
  forall i j ci cj, nth_error cs i = Some ci -> nth_error cs j = Some cj ->
  nth_error rs i = Some true -> nth_error rs j = Some true ->
  (forall pi pj, spells (nds tr) (cTimeEx _ _ ci) 0 pi (call_keys ci) -> spells (nds tr) (cTimeEx _ _ cj) 0 pj (call_keys cj) ->
     last pi 0 = last pj 0 -> pi = pj /\ length (tSts _ (cTrip _ _ ci)) = length (tSts _ (cTrip _ _ cj))).
Proof.
  intros cs tr rs H i j ci cj Hi Hj Ri Rj pi pj Si Sj L.
  pose proof (spells_path_unique _ _ _ _ _ _ _ Si Sj L) as E. split; [exact E|].
  pose proof (runCalls_nonempty _ _ _ _ H) as NE.
  pose proof (Forall2_nth _ _ _ _ _ _ _ _ NE Hi Ri eq_refl) as Ni.
  pose proof (Forall2_nth _ _ _ _ _ _ _ _ NE Hj Rj eq_refl) as Nj.
  apply spells_length in Si. apply spells_length in Sj.
  unfold TripTrie_spec.call_keys in Si, Sj. rewrite trip_length in Si, Sj. subst pj.
  assert (length (tSts pos (cTrip pos attrs ci)) <> 0) by (intros X; apply length_zero_iff_nil in X; contradiction).
  assert (length (tSts pos (cTrip pos attrs cj)) <> 0) by (intros X; apply length_zero_iff_nil in X; contradiction).
  lia.
Qed.
Lemma trie_reject : forall cs tr rs, runCalls (emptyTrie pos attrs) cs = (tr, rs) ->
  forall c tr', addTrip tr (cTrip _ _ c) (cAttrs _ _ c) (cTimeEx _ _ c) (cDegen _ _ c) = (tr', false) -> tr' = tr.
Proof.
  intros cs tr rs H c tr' E. destruct (runCalls_spec cs _ _ _ empty_ok H) as (O & _).
  destruct (addTrip_spec _ _ _ _ O E) as (_ & _ & [[_ X]|[X _]]); [exact X|discriminate].
Qed.
End P.
