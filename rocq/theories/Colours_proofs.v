(** Proofs about the colouring of routes (C39). *)
From Coq Require Import Ascii String List Arith NArith ZArith QArith Bool Permutation Lia DecimalString.
From Verif Require Import ListAux StrAux Router_model Shapes_model Workers_model Workers_proofs Colours_model Colours_spec.
Import ListNotations.
Open Scope nat_scope.

(** * Text colour *)
Lemma textColor_ok : forall w, text_on w (textColor w).
Proof.
  intros w hi r g b E R G B.
  assert (M : forall x y, (y < 256)%N -> N.land (x * 256 + y) 255 = y).
  { intros x y H. change 255%N with (N.ones 8). rewrite N.land_ones. change (2 ^ 8)%N with 256%N.
    rewrite N.add_comm, N.mod_add by discriminate. apply N.mod_small. exact H. }
  assert (X1 : N.shiftr w 16 = (hi * 256 + r)%N).
  { rewrite N.shiftr_div_pow2. change (2 ^ 16)%N with 65536%N. symmetry. apply (N.div_unique _ _ _ (g * 256 + b)); lia. }
  assert (X2 : N.shiftr w 8 = ((hi * 256 + r) * 256 + g)%N).
  { rewrite N.shiftr_div_pow2. change (2 ^ 8)%N with 256%N. symmetry. apply (N.div_unique _ _ _ b); lia. }
  unfold textColor. rewrite X1, X2, !M by assumption. replace w with (((hi * 256 + r) * 256 + g) * 256 + b)%N by lia.
  rewrite M by assumption. reflexivity.
Qed.

(** * Free ids *)
Lemma newId_inj : forall id i j, newId id i = newId id j -> i = j.
Proof. intros id i j H. unfold newId in H. apply str_app_inj_l in H. cbn in H. injection H as H. apply toString_inj. exact H. Qed.
Lemma freeRouteId_ok : forall fuel ids id i x, freeRouteId fuel ids id i = Some x -> ~ In x ids /\ exists k, i <= k /\ x = newId id k.
Proof.
  induction fuel as [|n IH]; intros ids id i x H; [discriminate|]. cbn [freeRouteId] in H. destruct (has ids (newId id i)) eqn:Hh.
  - destruct (IH _ _ _ _ H) as (A & k & L & E). split; [exact A|]. exists k. split; [lia|exact E].
  - injection H as <-. split; [apply has_false; exact Hh|]. exists i. auto.
Qed.
Lemma freeRouteId_none : forall fuel ids id i, freeRouteId fuel ids id i = None -> forall k, i <= k < i + fuel -> In (newId id k) ids.
Proof.
  induction fuel as [|n IH]; intros ids id i H k K; [lia|]. cbn [freeRouteId] in H. destruct (has ids (newId id i)) eqn:Hh; [|discriminate].
  destruct (Nat.eq_dec k i) as [->|N]; [apply has_In; exact Hh|]. apply (IH _ _ _ H). lia.
Qed.
Lemma freeRouteId_some : forall ids id i, exists x, freeRouteId (S (length ids)) ids id i = Some x.
Proof.
  intros ids id i. destruct (freeRouteId (S (length ids)) ids id i) eqn:E; [eauto|]. exfalso. pose proof (freeRouteId_none _ _ _ _ E) as H.
  assert (L : length (map (newId id) (seq i (S (length ids)))) <= length ids).
  { apply NoDup_incl_length.
    - apply FinFun.Injective_map_NoDup; [|apply seq_NoDup]. intros a b X. apply newId_inj in X. exact X.
    - intros x X. apply in_map_iff in X. destruct X as (k & <- & K). apply in_seq in K. apply H. lia. }
  rewrite map_length, seq_length in L. lia.
Qed.

Lemma NoDup_app_intro : forall B (a b : list B), NoDup a -> NoDup b -> (forall x, In x a -> ~ In x b) -> NoDup (a ++ b).
Proof.
  induction a as [|x a IH]; intros b Na Nb H; [exact Nb|]. inversion Na; subst. cbn. constructor.
  - rewrite in_app_iff. intros [X|X]; [contradiction|]. exact (H x (or_introl eq_refl) X).
  - apply IH; auto. intros y Y. apply H. right. exact Y.
Qed.

(** * The maps *)
(** What is in a map, and that it is well-formed. *)
Definition holdsC (m : list (N * list tref)) (c : N) (t : tref) : Prop := exists ts, In (c, ts) m /\ In t ts.
Definition holds (m : colmap) (r : nat) (c : N) (t : tref) : Prop := exists l, In (r, l) m /\ holdsC l c t.
Definition wfC (m : list (N * list tref)) : Prop := m <> [] /\ NoDup (map fst m) /\ forall c ts, In (c, ts) m -> ts <> [].
Definition wfR (m : colmap) : Prop := NoDup (map fst m) /\ forall r l, In (r, l) m -> wfC l.

Lemma pushC_holds : forall m c ts c' t, holdsC (pushC m c ts) c' t <-> holdsC m c' t \/ (c' = c /\ In t ts).
Proof.
  induction m as [|(c0, l0) m IH]; intros c ts c' t; cbn [pushC].
  - split; [intros (x & [X|[]] & I); injection X as <- <-; auto|]. intros [(x & [] & _)|[-> I]]. exists ts. split; [left; reflexivity|exact I].
  - destruct (N.eqb_spec c c0) as [->|N].
    + split.
      * intros (x & [X|X] & I); [injection X as <- <-; apply in_app_or in I; destruct I as [I|I]; [left; exists l0; split; [left; reflexivity|exact I]|auto]|].
        left. exists x. split; [right; exact X|exact I].
      * intros [(x & [X|X] & I)|[-> I]].
        -- injection X as <- <-. exists (l0 ++ ts). split; [left; reflexivity|apply in_or_app; auto].
        -- exists x. split; [right; exact X|exact I].
        -- exists (l0 ++ ts). split; [left; reflexivity|apply in_or_app; auto].
    + split.
      * intros (x & [X|X] & I); [injection X as <- <-; left; exists l0; split; [left; reflexivity|exact I]|].
        destruct (proj1 (IH c ts c' t)) as [(y & Y & J)|H]; [exists x; auto| |auto]. left. exists y. split; [right; exact Y|exact J].
      * intros H. assert (H' : (c', t) = (c', t)) by reflexivity. destruct H as [(x & [X|X] & I)|H].
        -- injection X as <- <-. exists l0. split; [left; reflexivity|exact I].
        -- destruct (proj2 (IH c ts c' t)) as (y & Y & J); [left; exists x; auto|]. exists y. split; [right; exact Y|exact J].
        -- destruct (proj2 (IH c ts c' t)) as (y & Y & J); [right; exact H|]. exists y. split; [right; exact Y|exact J].
Qed.
Lemma pushC_keys : forall m c ts x, In x (map fst (pushC m c ts)) <-> In x (map fst m) \/ x = c.
Proof.
  induction m as [|(c0, l0) m IH]; intros c ts x; cbn [pushC].
  - cbn. intuition.
  - destruct (N.eqb_spec c c0) as [->|N]; cbn [map fst In]; [intuition|]. rewrite IH. intuition.
Qed.
Lemma pushC_wf : forall m c ts, (m = [] \/ wfC m) -> ts <> [] -> wfC (pushC m c ts).
Proof.
  intros m c ts W T. assert (W' : NoDup (map fst m) /\ forall c ts, In (c, ts) m -> ts <> []).
  { destruct W as [->|(_ & W)]; [split; [constructor|intros ? ? []]|exact W]. }
  clear W. destruct W' as [W1 W2]. split; [destruct m as [|(c0, l0) m]; cbn; [discriminate|destruct (c =? c0)%N; discriminate]|].
  induction m as [|(c0, l0) m IH]; cbn [pushC].
  - split; [repeat constructor; intros []|]. intros c' ts' [X|[]]. injection X as <- <-. exact T.
  - cbn in W1. inversion W1; subst. destruct (N.eqb_spec c c0) as [->|N].
    + split; [cbn; constructor; assumption|]. intros c' ts' [X|X]; [injection X as <- <-; destruct l0; [exact T|discriminate]|]. apply (W2 c' ts'). right. exact X.
    + destruct IH as [I1 I2]; [assumption|intros; eapply W2; right; eassumption|]. split.
      * cbn. constructor; [|exact I1]. rewrite pushC_keys. intros [X|X]; [contradiction|]. subst. auto.
      * intros c' ts' [X|X]; [injection X as <- <-; apply (W2 c0 l0); left; reflexivity|exact (I2 _ _ X)].
Qed.
Lemma pushR_keys : forall m r c ts x, In x (map fst (pushR m r c ts)) <-> In x (map fst m) \/ x = r.
Proof.
  induction m as [|(r0, l0) m IH]; intros r c ts x; cbn [pushR].
  - cbn. intuition.
  - destruct (Nat.eqb_spec r r0) as [->|N]; cbn [map fst In]; [intuition|]. rewrite IH. intuition.
Qed.
Lemma pushR_holds : forall m r c ts r' c' t, holds (pushR m r c ts) r' c' t <-> holds m r' c' t \/ (r' = r /\ c' = c /\ In t ts).
Proof.
  induction m as [|(r0, l0) m IH]; intros r c ts r' c' t; cbn [pushR].
  - split.
    + intros (x & [X|[]] & I). injection X as <- <-. apply (pushC_holds [] c ts) in I. destruct I as [(y & [] & _)|I]. right. tauto.
    + intros [(x & [] & _)|(-> & -> & I)]. exists (pushC [] c ts). split; [left; reflexivity|]. apply pushC_holds. auto.
  - destruct (Nat.eqb_spec r r0) as [->|N].
    + split.
      * intros (x & [X|X] & I).
        -- injection X as <- <-. apply pushC_holds in I. destruct I as [I|I]; [left; exists l0; split; [left; reflexivity|exact I]|right; tauto].
        -- left. exists x. split; [right; exact X|exact I].
      * intros [(x & [X|X] & I)|(-> & -> & I)].
        -- injection X as <- <-. exists (pushC l0 c ts). split; [left; reflexivity|]. apply pushC_holds. auto.
        -- exists x. split; [right; exact X|exact I].
        -- exists (pushC l0 c ts). split; [left; reflexivity|]. apply pushC_holds. auto.
    + split.
      * intros (x & [X|X] & I); [injection X as <- <-; left; exists l0; split; [left; reflexivity|exact I]|].
        destruct (proj1 (IH r c ts r' c' t)) as [(y & Y & J)|H]; [exists x; auto| |auto]. left. exists y. split; [right; exact Y|exact J].
      * intros H. destruct H as [(x & [X|X] & I)|H].
        -- injection X as <- <-. exists l0. split; [left; reflexivity|exact I].
        -- destruct (proj2 (IH r c ts r' c' t)) as (y & Y & J); [left; exists x; auto|]. exists y. split; [right; exact Y|exact J].
        -- destruct (proj2 (IH r c ts r' c' t)) as (y & Y & J); [right; exact H|]. exists y. split; [right; exact Y|exact J].
Qed.
Lemma pushR_wf : forall m r c ts, wfR m -> ts <> [] -> wfR (pushR m r c ts).
Proof.
  intros m r c ts [W1 W2] T. split.
  - clear W2. induction m as [|(r0, l0) m IH]; cbn [pushR]; [repeat constructor; intros []|]. cbn in W1. inversion W1; subst.
    destruct (Nat.eqb_spec r r0) as [->|N]; cbn; constructor; auto. rewrite pushR_keys. intros [X|X]; [contradiction|congruence].
  - clear W1. induction m as [|(r0, l0) m IH]; cbn [pushR]; intros r' l' I.
    + destruct I as [X|[]]. injection X as <- <-. apply (pushC_wf [] c ts); auto.
    + destruct (Nat.eqb_spec r r0) as [->|N].
      * destruct I as [X|X]; [injection X as <- <-; apply pushC_wf; [right; apply (W2 r0); left; reflexivity|exact T]|]. apply (W2 r'). right. exact X.
      * destruct I as [X|X]; [injection X as <- <-; apply (W2 r0); left; reflexivity|]. apply (IH (fun r l H => W2 r l (or_intror H)) _ _ X).
Qed.
Lemma holds_key : forall m r c t, holds m r c t -> In r (map fst m).
Proof. intros m r c t (l & I & _). apply in_map_iff. exists (r, l). auto. Qed.

Section C.
Context {A FA : Type}.
Variable noColor : N.
Variable o : colopts.
Variable f : cfeed A FA.
Variable enumR : colmap -> colmap.
Variable enumC : list (N * list tref) -> list (N * list tref).
Hypothesis ER : forall m, Permutation (enumR m) m.
Hypothesis EC : forall m, Permutation (enumC m) m.
Notation routes := (fRoutes _ _ f).
Notation trips := (fTrips _ _ f).
Notation route := (route A).
Notation cfeed := (cfeed A FA).

Lemma holds_perm : forall m m' r c t, Permutation m m' -> holds m r c t -> holds m' r c t.
Proof. intros m m' r c t P (l & I & H). exists l. split; [eapply Permutation_in; eassumption|exact H]. Qed.
Lemma holdsC_perm : forall m m' c t, Permutation m m' -> holdsC m c t -> holdsC m' c t.
Proof. intros m m' c t P (l & I & H). exists l. split; [eapply Permutation_in; eassumption|exact H]. Qed.
Lemma wfR_perm : forall m m', Permutation m m' -> wfR m -> wfR m'.
Proof.
  intros m m' P [W1 W2]. split; [eapply Permutation_NoDup; [apply Permutation_map; exact P|exact W1]|].
  intros r l I. apply (W2 r). eapply Permutation_in; [apply Permutation_sym; exact P|exact I].
Qed.

(** merging *)
Lemma mergeC_ok : forall r l m, (forall c ts, In (c, ts) l -> ts <> []) -> wfR m ->
  let m' := fold_left (fun m cl => pushR m r (fst cl) (snd cl)) l m in
  wfR m' /\ forall r' c t, holds m' r' c t <-> holds m r' c t \/ (r' = r /\ holdsC l c t).
Proof.
  intros r. induction l as [|(c0, ts0) l IH]; intros m N W; cbn [fold_left fst snd].
  - split; [exact W|]. intros r' c t. split; [auto|]. intros [H|(_ & ts & [] & _)]. exact H.
  - destruct (IH (pushR m r c0 ts0)) as [W' H']; [intros; eapply N; right; eassumption|apply pushR_wf; [exact W|apply (N c0); left; reflexivity]|].
    split; [exact W'|]. intros r' c t. rewrite H', pushR_holds. split.
    + intros [[H|(-> & -> & I)]|(-> & ts & I & J)]; [auto| |].
      * right. split; [reflexivity|]. exists ts0. split; [left; reflexivity|exact I].
      * right. split; [reflexivity|]. exists ts. split; [right; exact I|exact J].
    + intros [H|(-> & ts & [X|X] & J)]; [auto| |].
      * injection X as <- <-. auto.
      * right. split; [reflexivity|]. exists ts. auto.
Qed.
Lemma mergeColors_ok : forall w m, wfR m -> wfR w ->
  wfR (mergeColors enumR enumC m w) /\ forall r c t, holds (mergeColors enumR enumC m w) r c t <-> holds m r c t \/ holds w r c t.
Proof.
  intros w m Wm Ww. unfold mergeColors. pose proof (wfR_perm _ _ (Permutation_sym (ER w)) Ww) as Ww'.
  assert (K : forall w' m, wfR m -> (forall r l, In (r, l) w' -> wfC l) ->
    let m' := fold_left (fun m rc => fold_left (fun m cl => pushR m (fst rc) (fst cl) (snd cl)) (enumC (snd rc)) m) w' m in
    wfR m' /\ forall r c t, holds m' r c t <-> holds m r c t \/ holds w' r c t).
  { clear - EC. induction w' as [|(r0, l0) w' IH]; intros m Wm Ww; cbn [fold_left fst snd].
    - split; [exact Wm|]. intros r c t. split; [auto|]. intros [H|(l & [] & _)]. exact H.
    - assert (W0 : wfC l0) by (apply (Ww r0); left; reflexivity).
      destruct (mergeC_ok r0 (enumC l0) m) as [W' H']; [intros c ts I; apply (proj2 (proj2 W0) c); eapply Permutation_in; [apply EC|exact I]|exact Wm|].
      destruct (IH _ W' (fun r l I => Ww r l (or_intror I))) as [W'' H'']. split; [exact W''|]. intros r c t. rewrite H'', H'. split.
      + intros [[H|(-> & H)]|(l & I & H)]; [auto| |].
        * right. exists l0. split; [left; reflexivity|]. eapply holdsC_perm; [apply EC|exact H].
        * right. exists l. split; [right; exact I|exact H].
      + intros [H|(l & [X|X] & H)]; [auto| |].
        * injection X as <- <-. left. right. split; [reflexivity|]. eapply holdsC_perm; [apply Permutation_sym, EC|exact H].
        * right. exists l. auto. }
  destruct (K (enumR w) m Wm (proj2 Ww')) as [W' H']. split; [exact W'|]. intros r c t. rewrite H'. split; (intros [H|H]; [auto|right]).
  - eapply holds_perm; [apply ER|exact H].
  - eapply holds_perm; [apply Permutation_sym, ER|exact H].
Qed.

(** what is collected *)
Definition wantedIn (l : list (nat * N)) (u ri : nat) (w : N) : Prop :=
  exists c t r, In (u, c) l /\ nth_error trips u = Some t /\ cRoute t = ri /\ nth_error routes ri = Some r /\ wants noColor o r c w.
Definition keptIn (ts : list ctrip) (ri : nat) (w : N) : Prop :=
  exists t r, In t ts /\ cRoute t = ri /\ nth_error routes ri = Some r /\ keeps o t r /\ w = rCol _ r.
Lemma existsb_in : forall x l, existsb (Nat.eqb x) l = true <-> In x l.
Proof.
  intros x l. rewrite existsb_exists. split; [intros (y & I & E); apply Nat.eqb_eq in E; subst; exact I|]. intros I. exists x. split; [exact I|apply Nat.eqb_refl].
Qed.
Lemma keptColor_ok : forall m t, cRoute t < length routes -> wfR m -> exists m', keptColor A o routes m t = Some m' /\ wfR m' /\
  forall r c x, holds m' r c x <-> holds m r c x \/ (x = TGone /\ keptIn [t] r c).
Proof.
  intros m t L W. unfold keptColor. destruct (nth_error routes (cRoute t)) as [r|] eqn:Er; [|apply nth_error_None in Er; lia].
  assert (K : forall r' c, keptIn [t] r' c <-> r' = cRoute t /\ keeps o t r /\ c = rCol _ r).
  { intros r' c. split.
    - intros (t' & r2 & [<-|[]] & <- & E2 & K & ->). rewrite Er in E2. injection E2 as <-. auto.
    - intros (-> & K & ->). exists t, r. repeat split; auto; try (left; reflexivity); apply K. }
  assert (NK : ~ keeps o t r -> exists m', Some m = Some m' /\ wfR m' /\ forall r c x, holds m' r c x <-> holds m r c x \/ (x = TGone /\ keptIn [t] r c)).
  { intros N. exists m. split; [reflexivity|]. split; [exact W|]. intros r' c x. rewrite K. tauto. }
  destruct (Nat.ltb_spec (cSts t) 2) as [L2|L2]; [apply NK; intros (Z & _); lia|].
  destruct (existsb (Nat.eqb (rType A r)) (oMots o)) eqn:E1; cbn [negb orb].
  2:{ apply NK. intros (_ & Z & _). apply existsb_in in Z. congruence. }
  destruct (existsb (Nat.eqb (rType A r)) (oCfg o)) eqn:E2; cbn [negb].
  2:{ apply NK. intros (_ & _ & Z & _). apply existsb_in in Z. congruence. }
  destruct (String.eqb_spec (cShape t) "") as [E3|E3]; cbn [negb andb]; [apply NK; intros (_ & _ & _ & Z & _); contradiction|].
  destruct (oDrop o) eqn:E4; cbn [negb]; [apply NK; intros (_ & _ & _ & _ & Z); congruence|].
  eexists. split; [reflexivity|]. split; [apply pushR_wf; [exact W|discriminate]|]. intros r' c x. rewrite pushR_holds, K. cbn [In].
  assert (KK : keeps o t r) by (split; [exact L2|split; [apply existsb_in; exact E1|split; [apply existsb_in; exact E2|split; [exact E3|exact E4]]]]). intuition.
Qed.
Lemma keptColors_ok : forall ts m, (forall t, In t ts -> cRoute t < length routes) -> wfR m -> exists m', keptColors A o routes m ts = Some m' /\ wfR m' /\
  forall r c x, holds m' r c x <-> holds m r c x \/ (x = TGone /\ keptIn ts r c).
Proof.
  induction ts as [|t ts IH]; intros m L W; cbn [keptColors].
  - exists m. split; [reflexivity|]. split; [exact W|]. intros r c x. split; [auto|]. intros [H|(_ & t & r2 & [] & _)]. exact H.
  - destruct (keptColor_ok m t (L t (or_introl eq_refl)) W) as (m1 & E1 & W1 & H1). rewrite E1.
    destruct (IH m1 (fun t I => L t (or_intror I)) W1) as (m2 & E2 & W2 & H2). exists m2. split; [exact E2|]. split; [exact W2|].
    intros r c x. rewrite H2, H1. split.
    + intros [[H|(Z & t' & r2 & [I|[]] & H)]|(Z & t' & r2 & I & H)]; [auto|right; split; [exact Z|exists t', r2; split; [left; exact I|exact H]]|].
      right. split; [exact Z|]. exists t', r2. split; [right; exact I|exact H].
    + intros [H|(Z & t' & r2 & [I|I] & H)]; [auto|left; right; split; [exact Z|exists t', r2; split; [left; exact I|exact H]]|].
      right. split; [exact Z|]. exists t', r2. auto.
Qed.

Lemma workerColor_ok : forall m u c, u < length trips -> (forall t, In t trips -> cRoute t < length routes) -> wfR m ->
  exists m', workerColor A FA noColor o f m (u, c) = Some m' /\ wfR m' /\
  forall r w x, holds m' r w x <-> holds m r w x \/ (x = TTrip u /\ wantedIn [(u, c)] u r w).
Proof.
  intros m u c Lu L W. unfold workerColor. cbn [fst snd]. destruct (nth_error trips u) as [t|] eqn:Et; [|apply nth_error_None in Et; lia].
  pose proof (L t (nth_error_In _ _ Et)) as Lr. destruct (nth_error routes (cRoute t)) as [r|] eqn:Er; [|apply nth_error_None in Er; lia].
  assert (K : forall r' w, wantedIn [(u, c)] u r' w <-> r' = cRoute t /\ wants noColor o r c w).
  { intros r' w. split.
    - intros (c' & t' & r2 & [I|[]] & E1 & <- & E2 & H). injection I as <-. rewrite Et in E1. injection E1 as <-. rewrite Er in E2. injection E2 as <-. auto.
    - intros (-> & H). exists c, t, r. repeat split; auto. left. reflexivity. }
  assert (WW : let w := if oWrite o && negb (c =? noColor)%N && (rCol A r =? noColor)%N && (rTxt A r =? noColor)%N then c else rCol A r in
    forall w', wants noColor o r c w' <-> w' = w).
  { assert (Q : oWrite o && negb (c =? noColor)%N && (rCol A r =? noColor)%N && (rTxt A r =? noColor)%N = true <-> free noColor o r /\ c <> noColor).
    { rewrite !andb_true_iff, negb_true_iff, N.eqb_neq, !N.eqb_eq. unfold free. tauto. }
    intros w w'. unfold w, wants. destruct (_ && _) eqn:Eb.
    - assert (free noColor o r /\ c <> noColor) by (apply Q; reflexivity). tauto.
    - assert (~ (free noColor o r /\ c <> noColor)) by (intros Z; apply Q in Z; discriminate). tauto. }
  cbn zeta in WW. destruct (_ && _) eqn:Eb; (eexists; split; [reflexivity|split; [apply pushR_wf; [exact W|discriminate]|]]; intros r' w x; rewrite pushR_holds, K, WW; cbn [In]; intuition).
Qed.
Lemma workerColors_ok : forall l m, (forall u c, In (u, c) l -> u < length trips) -> (forall t, In t trips -> cRoute t < length routes) -> wfR m ->
  exists m', workerColors A FA noColor o f m l = Some m' /\ wfR m' /\
  forall r w x, holds m' r w x <-> holds m r w x \/ (exists u, x = TTrip u /\ wantedIn l u r w).
Proof.
  induction l as [|(u, c) l IH]; intros m Lu L W; cbn [workerColors].
  - exists m. split; [reflexivity|]. split; [exact W|]. intros r w x. split; [auto|]. intros [H|(u & _ & c & t & r2 & [] & _)]. exact H.
  - destruct (workerColor_ok m u c (Lu u c (or_introl eq_refl)) L W) as (m1 & E1 & W1 & H1). rewrite E1.
    destruct (IH m1 (fun u c I => Lu u c (or_intror I)) L W1) as (m2 & E2 & W2 & H2). exists m2. split; [exact E2|]. split; [exact W2|].
    intros r w x. rewrite H2, H1. split.
    + intros [[H|(Z & c' & t & r2 & [I|[]] & H)]|(u' & Z & c' & t & r2 & I & H)]; [auto| |].
      * right. exists u. split; [exact Z|]. exists c', t, r2. split; [left; exact I|exact H].
      * right. exists u'. split; [exact Z|]. exists c', t, r2. split; [right; exact I|exact H].
    + intros [H|(u' & Z & c' & t & r2 & [I|I] & H)]; [auto| |].
      * injection I as <- <-. left. right. split; [exact Z|]. exists c, t, r2. split; [left; reflexivity|exact H].
      * right. exists u'. split; [exact Z|]. exists c', t, r2. auto.
Qed.
Lemma mergeAll_ok : forall ws m, (forall u c, In (u, c) (concat ws) -> u < length trips) -> (forall t, In t trips -> cRoute t < length routes) -> wfR m ->
  exists m', mergeAll A FA noColor enumR enumC o f m ws = Some m' /\ wfR m' /\
  forall r w x, holds m' r w x <-> holds m r w x \/ (exists u, x = TTrip u /\ wantedIn (concat ws) u r w).
Proof.
  induction ws as [|l ws IH]; intros m Lu L W; cbn [mergeAll concat].
  - exists m. split; [reflexivity|]. split; [exact W|]. intros r w x. split; [auto|]. intros [H|(u & _ & c & t & r2 & [] & _)]. exact H.
  - destruct (workerColors_ok l [] (fun u c I => Lu u c (in_or_app _ _ _ (or_introl I))) L) as (x1 & E1 & W1 & H1); [split; [constructor|intros ? ? []]|]. rewrite E1.
    destruct (mergeColors_ok x1 m W W1) as [Wm Hm].
    destruct (IH _ (fun u c I => Lu u c (in_or_app _ _ _ (or_intror I))) L Wm) as (m2 & E2 & W2 & H2). exists m2. split; [exact E2|]. split; [exact W2|].
    intros r w x. rewrite H2, Hm, H1. split.
    + intros [[H|[(z & [] & _)|(u & Z & c & t & r2 & I & H)]]|(u & Z & c & t & r2 & I & H)]; [auto| |]; right; exists u; (split; [exact Z|]); exists c, t, r2; (split; [apply in_or_app; auto|exact H]).
    + intros [H|(u & Z & c & t & r2 & I & H)]; [auto|]. apply in_app_or in I. destruct I as [I|I].
      * left. right. right. exists u. split; [exact Z|]. exists c, t, r2. auto.
      * right. exists u. split; [exact Z|]. exists c, t, r2. auto.
Qed.
End C.

(** * Updating the feed *)
Section U.
Context {A FA : Type}.
Variable noColor : N.
Variable f : cfeed A FA.
Variable enumC : list (N * list tref) -> list (N * list tref).
Notation routes := (fRoutes _ _ f).
Notation trips := (fTrips _ _ f).
Notation fares := (fFares _ _ f).
Notation n0 := (length (fRoutes _ _ f)).
Hypothesis IDS : NoDup (map (rId A) routes).
Hypothesis RULES : forall rules x r, In rules fares -> In x rules -> fst x = Some r -> r < n0.

Inductive op := ORec (ri : nat) (c : N) | OAdd (ri : nat) (c : N) (ts : list tref).
Definition opsOf (rc : nat * list (N * list tref)) : list op :=
  match snd rc with
  | [(c, _)] => [ORec (fst rc) c]
  | cs => map (fun cl => OAdd (fst rc) (fst cl) (snd cl)) (enumC cs)
  end.
Definition recol (r : route A) (c : N) : route A :=
  mkR A (rId A r) (rType A r) c (if (c =? noColor)%N then rTxt A r else textColor c) (rRest A r).
Definition newOf (p : op) : list (nat * N * list tref) :=
  match p with
  | ORec _ _ => []
  | OAdd ri c ts => match nth_error routes ri with Some r => if (c =? rCol A r)%N then [] else [(ri, c, ts)] | None => [] end
  end.
Definition news (d : list op) : list (nat * N * list tref) := flat_map newOf d.
Fixpoint copies (rules : list (option nat * FA)) (k : nat) (l : list (nat * N * list tref)) : list (option nat * FA) :=
  match l with
  | [] => []
  | (ri, _, _) :: r => map (repoint k) (filter (rule_of ri) rules) ++ copies rules (S k) r
  end.
Lemma copies_app : forall rules l k l', copies rules k (l ++ l') = copies rules k l ++ copies rules (k + length l) l'.
Proof.
  intros rules. induction l as [|((ri, c), ts) l IH]; intros k l'; cbn [app copies length]; [rewrite Nat.add_0_r; reflexivity|].
  rewrite IH, app_assoc. do 2 f_equal. lia.
Qed.
Lemma copies_new : forall rules l k ri, ri < k -> filter (rule_of ri) (copies rules k l) = [].
Proof.
  intros rules. induction l as [|((r0, c0), ts0) l IH]; intros k ri L; [reflexivity|]. cbn [copies]. rewrite filter_app, IH by lia. rewrite app_nil_r.
  induction (filter (rule_of r0) rules) as [|x y IHy]; [reflexivity|]. cbn. unfold rule_of at 1. cbn. destruct (Nat.eqb_spec k ri); [lia|exact IHy].
Qed.

Record inv (d : list op) (fi : cfeed A FA) : Prop := {
  i_len : length (fRoutes _ _ fi) = n0 + length (news d);
  i_rec : forall i r c, nth_error routes i = Some r -> In (ORec i c) d -> nth_error (fRoutes _ _ fi) i = Some (recol r c);
  i_old : forall i r, nth_error routes i = Some r -> (forall c, ~ In (ORec i c) d) -> nth_error (fRoutes _ _ fi) i = Some r;
  i_new : forall k ri c ts, nth_error (news d) k = Some (ri, c, ts) -> exists r i, nth_error routes ri = Some r /\
    nth_error (fRoutes _ _ fi) (n0 + k) = Some (mkR A (newId (rId A r) i) (rType A r) c (textColor c) (rRest A r));
  i_ids : NoDup (map (rId A) (fRoutes _ _ fi));
  i_tl : length (fTrips _ _ fi) = length trips;
  i_tr : forall u t, nth_error trips u = Some t -> exists x, nth_error (fTrips _ _ fi) u = Some (mkT (cSts t) (cShape t) x) /\
    (forall k ri c ts, nth_error (news d) k = Some (ri, c, ts) -> In (TTrip u) ts -> x = n0 + k) /\
    ((forall ri c ts, In (ri, c, ts) (news d) -> ~ In (TTrip u) ts) -> x = cRoute t);
  i_fares : fFares _ _ fi = map (fun rules => rules ++ copies rules n0 (news d)) fares
}.
Lemma inv_rules : forall d fi ri, inv d fi -> ri < n0 -> rulesFor FA (fFares _ _ fi) ri = rulesFor FA fares ri.
Proof.
  intros d fi ri I L. unfold rulesFor. rewrite (i_fares _ _ I), map_map. apply map_ext. intros rules.
  change (filter (rule_of ri) (rules ++ copies rules n0 (news d)) = filter (rule_of ri) rules). rewrite filter_app, copies_new by exact L. apply app_nil_r.
Qed.
Lemma inv_start : inv [] f.
Proof.
  constructor; cbn; auto; try (intros; contradiction); try lia.
  - intros [|k] ri c ts H; discriminate.
  - intros u t E. exists (cRoute t). destruct t. split; [exact E|]. split; [intros [|k] ri c ts H; discriminate|auto].
  - rewrite <- map_id at 1. apply map_ext. intros x. symmetry. apply app_nil_r.
Qed.

Lemma moveTrips_ok : forall l ts n, (forall x, In x l -> exists u, x = TTrip u /\ u < length ts) ->
  exists ts', moveTrips ts l n = Some ts' /\ length ts' = length ts /\ forall u t, nth_error ts u = Some t ->
    (In (TTrip u) l -> nth_error ts' u = Some (mkT (cSts t) (cShape t) n)) /\ (~ In (TTrip u) l -> nth_error ts' u = Some t).
Proof.
  induction l as [|x l IH]; intros ts n H; cbn [moveTrips].
  - exists ts. split; [reflexivity|]. split; [reflexivity|]. intros u t E. split; [intros []|auto].
  - destruct (H x (or_introl eq_refl)) as (v & -> & Lv). destruct (Nat.ltb_spec v (length ts)); [|lia].
    destruct (IH (upd v (fun t => mkT (cSts t) (cShape t) n) ts) n) as (ts' & E & L & K).
    { intros x I. destruct (H x (or_intror I)) as (u & -> & Lu). exists u. split; [reflexivity|]. rewrite upd_length. exact Lu. }
    exists ts'. split; [exact E|]. split; [rewrite L, upd_length; reflexivity|]. intros u t Eu.
    destruct (Nat.eq_dec u v) as [->|N].
    + pose proof (upd_nth_eq _ v (fun t => mkT (cSts t) (cShape t) n) ts _ Eu) as U. cbn beta in U. destruct (K v _ U) as [K1 K2]. split.
      * intros _. destruct (in_dec (fun a b : tref => ltac:(decide equality; apply Nat.eq_dec)) (TTrip v) l) as [I|I]; [rewrite (K1 I); reflexivity|rewrite (K2 I); reflexivity].
      * intros X. exfalso. apply X. left. reflexivity.
    + assert (U : nth_error (upd v (fun t => mkT (cSts t) (cShape t) n) ts) u = Some t) by (rewrite upd_nth_ne by auto; exact Eu).
      destruct (K u t U) as [K1 K2]. split.
      * intros [X|X]; [injection X as ->; contradiction|auto].
      * intros X. apply K2. intros Y. apply X. right. exact Y.
Qed.
Lemma addRules_ok : forall fs rs n, length rs = length fs -> addRules FA fs rs n = map (fun p => fst p ++ map (repoint n) (snd p)) (combine fs rs).
Proof. induction fs as [|x fs IH]; intros [|y rs] n L; try discriminate; [reflexivity|]. cbn. f_equal. apply IH. cbn in L. lia. Qed.

Lemma news_app : forall d d', news (d ++ d') = news d ++ news d'.
Proof. intros. apply flat_map_app. Qed.

(** one entry *)
Lemma rec_step : forall d fi ri c, inv d fi -> ri < n0 -> (forall c', In (ORec ri c') d -> c' = c) ->
  inv (d ++ [ORec ri c]) (mkF A FA (upd ri (fun r => recol r c) (fRoutes _ _ fi)) (fTrips _ _ fi) (fFares _ _ fi)).
Proof.
  intros d fi ri c I L U. assert (Nw : news (d ++ [ORec ri c]) = news d) by (rewrite news_app; apply app_nil_r).
  constructor; cbn [fRoutes fTrips fFares]; rewrite ?Nw.
  - rewrite upd_length. apply (i_len _ _ I).
  - intros i r c' E H. destruct (Nat.eq_dec i ri) as [->|N].
    + assert (c' = c) as -> by (apply in_app_or in H; destruct H as [H|[H|[]]]; [auto|injection H; auto]).
      destruct (existsb (fun p => match p with ORec i _ => i =? ri | _ => false end) d) eqn:B.
      * apply existsb_exists in B. destruct B as ([i' c''|] & J & B); [|discriminate]. apply Nat.eqb_eq in B. subst i'. pose proof (U _ J). subst c''.
        rewrite (upd_nth_eq _ _ _ _ _ (i_rec _ _ I _ _ _ E J)). f_equal. unfold recol; cbn. destruct (c =? noColor)%N; reflexivity.
      * apply (upd_nth_eq _ ri (fun r => recol r c) _ r). apply (i_old _ _ I _ _ E). intros c' J. rewrite <- not_true_iff_false in B. apply B. apply existsb_exists. exists (ORec ri c'). split; [exact J|apply Nat.eqb_refl].
    + rewrite upd_nth_ne by auto. apply in_app_or in H. destruct H as [H|[H|[]]]; [|injection H as -> ->; contradiction]. exact (i_rec _ _ I _ _ _ E H).
  - intros i r E H. destruct (Nat.eq_dec i ri) as [->|N]; [exfalso; apply (H c); apply in_or_app; right; left; reflexivity|].
    rewrite upd_nth_ne by auto. apply (i_old _ _ I _ _ E). intros c' J. apply (H c'). apply in_or_app. auto.
  - intros k r' c' ts E. destruct (i_new _ _ I _ _ _ _ E) as (r & i & E1 & E2). exists r, i. split; [exact E1|]. rewrite upd_nth_ne by lia. exact E2.
  - replace (map (rId A) (upd ri (fun r => recol r c) (fRoutes _ _ fi))) with (map (rId A) (fRoutes _ _ fi)); [exact (i_ids _ _ I)|].
    clear. generalize (fRoutes _ _ fi) as l. intros l. revert ri. induction l as [|x l IH]; intros [|ri]; cbn; auto. f_equal. apply IH.
  - exact (i_tl _ _ I).
  - exact (i_tr _ _ I).
  - exact (i_fares _ _ I).
Qed.
Lemma add_step : forall d fi ri c ts, inv d fi -> ri < n0 -> (forall c', ~ In (ORec ri c') d) ->
  (forall x r, In x ts -> nth_error routes ri = Some r -> c <> rCol A r -> exists u, x = TTrip u /\ u < length trips) ->
  (forall k r' c' ts' u, nth_error (news d) k = Some (r', c', ts') -> In (TTrip u) ts' -> In (TTrip u) ts -> newOf (OAdd ri c ts) = []) ->
  exists fi', addRoute A FA fi ri (rulesFor FA fares ri) (c, ts) = Some fi' /\ inv (d ++ [OAdd ri c ts]) fi'.
Proof.
  intros d fi ri c ts I L NR TS ONCE. destruct (nth_error routes ri) as [r|] eqn:Er; [|apply nth_error_None in Er; lia].
  unfold addRoute. rewrite (i_old _ _ I _ _ Er NR). cbn [fst snd].
  assert (ORECS : forall i c', In (ORec i c') (d ++ [OAdd ri c ts]) <-> In (ORec i c') d).
  { intros i c'. rewrite in_app_iff. cbn. split; [intros [H|[H|[]]]; [exact H|discriminate]|auto]. }
  destruct (N.eqb_spec c (rCol A r)) as [Ec|Ec].
  - exists fi. split; [reflexivity|]. assert (Nw : news (d ++ [OAdd ri c ts]) = news d).
    { rewrite news_app. cbn. rewrite Er. rewrite (proj2 (N.eqb_eq c (rCol A r)) Ec). apply app_nil_r. }
    constructor; rewrite ?Nw; try apply I.
    + intros i r' c' E H. apply ORECS in H. exact (i_rec _ _ I _ _ _ E H).
    + intros i r' E H. apply (i_old _ _ I _ _ E). intros c' J. apply (H c'), ORECS, J.
  - assert (NO : newOf (OAdd ri c ts) = [(ri, c, ts)]) by (cbn; rewrite Er; rewrite (proj2 (N.eqb_neq c (rCol A r)) Ec); reflexivity).
    assert (Nw : news (d ++ [OAdd ri c ts]) = news d ++ [(ri, c, ts)]) by (rewrite news_app; f_equal; unfold news; cbn [flat_map]; rewrite NO; reflexivity).
    destruct (freeRouteId_some (map (rId A) (fRoutes _ _ fi)) (rId A r) 1) as (id & Eid). rewrite map_length in Eid. rewrite Eid.
    destruct (freeRouteId_ok _ _ _ _ _ Eid) as (Fr & k0 & _ & ->).
    destruct (moveTrips_ok ts (fTrips _ _ fi) (length (fRoutes _ _ fi))) as (ts' & Em & Lm & Km).
    { intros x X. rewrite (i_tl _ _ I). exact (TS x r X eq_refl Ec). }
    rewrite Em. eexists. split; [reflexivity|]. assert (Ln := i_len _ _ I).
    constructor; cbn [fRoutes fTrips fFares]; rewrite ?Nw.
    + rewrite !app_length. cbn. lia.
    + intros i r' c' E H. apply ORECS in H. rewrite nth_error_app1 by (apply nth_lt in E; lia). exact (i_rec _ _ I _ _ _ E H).
    + intros i r' E H. rewrite nth_error_app1 by (apply nth_lt in E; lia). apply (i_old _ _ I _ _ E). intros c' J. apply (H c'), ORECS, J.
    + intros k r' c' ts2 E. destruct (Nat.eq_dec k (length (news d))) as [->|N].
      * rewrite nth_error_app2, Nat.sub_diag in E by lia. injection E as <- <- <-. exists r, k0. split; [exact Er|]. rewrite <- Ln. rewrite nth_error_app2, Nat.sub_diag by lia. reflexivity.
      * rewrite nth_error_app1 in E by (apply nth_lt in E; rewrite app_length in E; cbn in E; lia). destruct (i_new _ _ I _ _ _ _ E) as (r2 & i2 & E1 & E2).
        exists r2, i2. split; [exact E1|]. rewrite nth_error_app1 by (apply nth_lt in E; lia). exact E2.
    + rewrite map_app. apply (Permutation_NoDup (l := newId (rId A r) k0 :: map (rId A) (fRoutes _ _ fi))); [apply Permutation_cons_append|]. constructor; [exact Fr|exact (i_ids _ _ I)].
    + rewrite Lm. exact (i_tl _ _ I).
    + intros u t Eu. destruct (i_tr _ _ I u t Eu) as (x & Ex & X1 & X2). destruct (Km u _ Ex) as [K1 K2]. cbn [cSts cShape] in K1.
      destruct (in_dec (fun a b : tref => ltac:(decide equality; apply Nat.eq_dec)) (TTrip u) ts) as [J|J].
      * exists (length (fRoutes _ _ fi)). split; [exact (K1 J)|]. split.
        -- intros k r' c' ts2 E J2. destruct (Nat.eq_dec k (length (news d))) as [->|N]; [lia|].
           rewrite nth_error_app1 in E by (apply nth_lt in E; rewrite app_length in E; cbn in E; lia). exfalso. pose proof (ONCE _ _ _ _ _ E J2 J) as Z. rewrite NO in Z. discriminate.
        -- intros H. exfalso. apply (H ri c ts); [apply in_or_app; right; left; reflexivity|exact J].
      * exists x. split; [exact (K2 J)|]. split.
        -- intros k r' c' ts2 E J2. destruct (Nat.eq_dec k (length (news d))) as [->|N].
           ++ rewrite nth_error_app2, Nat.sub_diag in E by lia. injection E as <- <- <-. contradiction.
           ++ rewrite nth_error_app1 in E by (apply nth_lt in E; rewrite app_length in E; cbn in E; lia). exact (X1 _ _ _ _ E J2).
        -- intros H. apply X2. intros r' c' ts2 Z. apply (H r' c' ts2). apply in_or_app. auto.
    + rewrite (i_fares _ _ I). rewrite addRules_ok by (unfold rulesFor; rewrite !map_length; reflexivity). unfold rulesFor.
      assert (CM : forall B C D (g : B -> C) (h : B -> D) l, combine (map g l) (map h l) = map (fun x => (g x, h x)) l).
      { clear. intros B C D g h l. induction l as [|x l IH]; cbn; [reflexivity|]. f_equal. exact IH. }
      rewrite CM, map_map. apply map_ext. intros rules. cbn [fst snd]. rewrite copies_app, <- app_assoc. cbn [copies]. rewrite app_nil_r. rewrite <- Ln. reflexivity.
Qed.

Record ops_ok (all : list op) : Prop := {
  oo_ltr : forall i c, In (ORec i c) all -> i < n0;
  oo_lta : forall i c ts, In (OAdd i c ts) all -> i < n0;
  oo_rec : forall i c c', In (ORec i c) all -> In (ORec i c') all -> c = c';
  oo_mix : forall i c c' ts, In (ORec i c) all -> In (OAdd i c' ts) all -> False;
  oo_ts : forall i c ts x r, In (OAdd i c ts) all -> In x ts -> nth_error routes i = Some r -> c <> rCol A r -> exists u, x = TTrip u /\ u < length trips;
  oo_once : forall k k' ri c ts ri' c' ts' u, nth_error (news all) k = Some (ri, c, ts) -> nth_error (news all) k' = Some (ri', c', ts') ->
    In (TTrip u) ts -> In (TTrip u) ts' -> k = k'
}.
Lemma addRoutes_ok : forall cs d fi ri rest, ops_ok (d ++ map (fun cl => OAdd ri (fst cl) (snd cl)) cs ++ rest) -> inv d fi ->
  exists fi', addRoutes A FA fi ri (rulesFor FA fares ri) cs = Some fi' /\ inv (d ++ map (fun cl => OAdd ri (fst cl) (snd cl)) cs) fi'.
Proof.
  induction cs as [|(c, ts) cs IH]; intros d fi ri rest OK I; cbn [addRoutes map fst snd].
  - exists fi. rewrite app_nil_r. auto.
  - cbn [map fst snd app] in OK.
    assert (J : In (OAdd ri c ts) (d ++ OAdd ri c ts :: map (fun cl => OAdd ri (fst cl) (snd cl)) cs ++ rest)) by (apply in_elt).
    destruct (add_step d fi ri c ts I) as (f1 & E1 & I1).
    + exact (oo_lta _ OK _ _ _ J).
    + intros c' Z. apply (oo_mix _ OK ri c' c ts); [apply in_or_app; auto|exact J].
    + intros x r X Er Ec. exact (oo_ts _ OK ri c ts x r J X Er Ec).
    + intros k r' c' ts' u E J1 J2. destruct (newOf (OAdd ri c ts)) as [|y ys] eqn:Nw; [reflexivity|exfalso].
      assert (y = (ri, c, ts) /\ ys = []) as [-> ->] by (cbn in Nw; destruct (nth_error routes ri); [|discriminate]; destruct (_ =? _)%N; [discriminate|]; injection Nw; auto).
      assert (k = length (news d)); [|apply nth_lt in E; lia].
      apply (oo_once _ OK k (length (news d)) r' c' ts' ri c ts u); auto.
      * rewrite news_app. rewrite nth_error_app1 by (apply nth_lt in E; exact E). exact E.
      * rewrite news_app. rewrite nth_error_app2, Nat.sub_diag by lia.
        change (nth_error (newOf (OAdd ri c ts) ++ news (map (fun cl => OAdd ri (fst cl) (snd cl)) cs ++ rest)) 0 = Some (ri, c, ts)). rewrite Nw. reflexivity.
    + rewrite E1. replace (d ++ OAdd ri c ts :: map (fun cl => OAdd ri (fst cl) (snd cl)) cs ++ rest) with ((d ++ [OAdd ri c ts]) ++ map (fun cl => OAdd ri (fst cl) (snd cl)) cs ++ rest) in OK by (rewrite <- app_assoc; reflexivity).
      destruct (IH _ f1 ri rest OK I1) as (f2 & E2 & I2). exists f2. split; [exact E2|]. rewrite <- app_assoc in I2. exact I2.
Qed.
Lemma update_ok : forall m d fi, ops_ok (d ++ flat_map opsOf m) -> (forall rc, In rc m -> snd rc <> [] /\ fst rc < n0) -> inv d fi ->
  exists fi', updateRouteColors A FA noColor enumC fi m = Some fi' /\ inv (d ++ flat_map opsOf m) fi'.
Proof.
  induction m as [|(ri, cs) m IH]; intros d fi OK NE I; cbn [updateRouteColors flat_map].
  - exists fi. rewrite app_nil_r. auto.
  - cbn [flat_map] in OK. destruct (NE _ (or_introl eq_refl)) as [NE1 Lr]. cbn [fst snd] in NE1, Lr.
    assert (S1 : exists f1, updateRoute A FA noColor enumC fi (ri, cs) = Some f1 /\ inv (d ++ opsOf (ri, cs)) f1).
    { unfold updateRoute. cbn [fst snd]. destruct (nth_error (fRoutes _ _ fi) ri) as [r|] eqn:Er; [|apply nth_error_None in Er; rewrite (i_len _ _ I) in Er; lia].
      destruct cs as [|(c, ts) [|cl2 cs]]; [contradiction| |].
      - eexists. split; [reflexivity|]. apply (rec_step d fi ri c I Lr). intros c' J. apply (oo_rec _ OK ri); apply in_or_app; [left; exact J|right]. left. reflexivity.
      - set (cs' := (c, ts) :: cl2 :: cs) in *. rewrite (inv_rules _ _ _ I Lr).
        change (opsOf (ri, cs')) with (map (fun cl => OAdd ri (fst cl) (snd cl)) (enumC cs')) in *. exact (addRoutes_ok (enumC cs') d fi ri _ OK I). }
    destruct S1 as (f1 & E1 & I1). rewrite E1. rewrite app_assoc in OK. destruct (IH _ f1 OK (fun rc J => NE rc (or_intror J)) I1) as (f2 & E2 & I2).
    exists f2. split; [exact E2|]. rewrite app_assoc. exact I2.
Qed.
End U.

(** * Everything together *)
Section Main.
Context {A FA : Type}.
Variable noColor : N.
Variable o : colopts.
Variable f : cfeed A FA.
Variable ws : list (list (nat * N)).
Variable enumR : colmap -> colmap.
Variable enumC : list (N * list tref) -> list (N * list tref).
Hypothesis ER : forall m, Permutation (enumR m) m.
Hypothesis EC : forall m, Permutation (enumC m) m.
Hypothesis CI : colour_input f ws.
Notation routes := (fRoutes _ _ f).
Notation trips := (fTrips _ _ f).

Definition heldBy (ri : nat) (w : N) (x : tref) : Prop :=
  (x = TGone /\ keptIn o f trips ri w) \/ (exists u, x = TTrip u /\ wantedIn noColor o f (concat ws) u ri w).
Lemma wants_det : forall r c w w', wants (A := A) noColor o r c w -> wants noColor o r c w' -> w = w'.
Proof. intros r c w w' [(A1 & A2 & ->)|(A1 & ->)] [(B1 & B2 & ->)|(B1 & ->)]; try reflexivity; exfalso; tauto. Qed.
Lemma wanted_det : forall u ri w ri' w', wantedIn noColor o f (concat ws) u ri w -> wantedIn noColor o f (concat ws) u ri' w' -> ri = ri' /\ w = w'.
Proof.
  intros u ri w ri' w' (c & t & r & I & Et & Er & Em & W) (c' & t' & r' & I' & Et' & Er' & Em' & W').
  rewrite Et in Et'. injection Et' as <-. assert (Z : ri' = ri) by congruence. split; [auto|]. rewrite Z in Em'. rewrite Em in Em'. injection Em' as <-.
  assert (c' = c) as ->; [|exact (wants_det _ _ _ _ W W')]. pose proof (ci_once _ _ CI) as ND. clear - I I' ND.
  induction (concat ws) as [|(v, d) l IH]; [contradiction|]. cbn in ND. inversion ND; subst. destruct I as [X|X], I' as [Y|Y].
  - congruence.
  - injection X as -> ->. exfalso. apply H1. apply in_map_iff. exists (u, c'). auto.
  - injection Y as -> ->. exfalso. apply H1. apply in_map_iff. exists (u, c). auto.
  - auto.
Qed.
Lemma colour_of_held : forall ri w, colour_of noColor o f ws ri w <-> exists x, heldBy ri w x.
Proof.
  intros ri w. split.
  - intros [(u & H)|H]; [exists (TTrip u); right; exists u; auto|exists TGone; left; auto].
  - intros (x & [(_ & H)|(u & _ & H)]); [right; exact H|left; exists u; exact H].
Qed.
Lemma held_lt : forall ri w x, heldBy ri w x -> ri < length routes.
Proof. intros ri w x [(_ & t & r & _ & _ & E & _)|(u & _ & c & t & r & _ & _ & _ & E & _)]; eapply nth_lt; exact E. Qed.

Section M.
Variable m : colmap.
Hypothesis Wm : wfR m.
Hypothesis Hm : forall r w x, holds m r w x <-> heldBy r w x.
Notation ops := (flat_map (opsOf enumC) m).

Lemma key_held : forall ri l c ts, In (ri, l) m -> In (c, ts) l -> exists x, In x ts /\ heldBy ri c x.
Proof.
  intros ri l c ts I J. destruct (proj2 Wm _ _ I) as (_ & _ & NE). specialize (NE _ _ J). destruct ts as [|x ts]; [contradiction|].
  exists x. split; [left; reflexivity|]. apply Hm. exists l. split; [exact I|]. exists (x :: ts). split; [exact J|left; reflexivity].
Qed.
Lemma uniqR : forall ri l l', In (ri, l) m -> In (ri, l') m -> l = l'.
Proof.
  destruct Wm as [ND _]. clear - ND. induction m as [|(r0, l0) m' IH]; intros ri l l' X Y; [contradiction|]. cbn in ND. inversion ND; subst. destruct X as [X|X], Y as [Y|Y].
  - congruence.
  - injection X as -> ->. exfalso. apply H1. apply in_map_iff. exists (ri, l'). auto.
  - injection Y as -> ->. exfalso. apply H1. apply in_map_iff. exists (ri, l). auto.
  - eauto.
Qed.
Lemma uniqC : forall ri l c ts ts', In (ri, l) m -> In (c, ts) l -> In (c, ts') l -> ts = ts'.
Proof.
  intros ri l c ts ts' I X Y. destruct (proj2 Wm _ _ I) as (_ & ND & _). clear - ND X Y. induction l as [|(c0, t0) l IH]; [contradiction|]. cbn in ND. inversion ND; subst.
  destruct X as [X|X], Y as [Y|Y].
  - congruence.
  - injection X as -> ->. exfalso. apply H1. apply in_map_iff. exists (c, ts'). auto.
  - injection Y as -> ->. exfalso. apply H1. apply in_map_iff. exists (c, ts). auto.
  - eauto.
Qed.
Lemma in_rec : forall i c, In (ORec i c) ops <-> exists ts, In (i, [(c, ts)]) m.
Proof.
  intros i c. rewrite in_flat_map. split.
  - intros ((ri, l) & I & H). unfold opsOf in H. cbn [fst snd] in H. destruct l as [|(c0, t0) [|x l]].
    + apply in_map_iff in H. destruct H as (y & H & _). discriminate.
    + destruct H as [H|[]]. injection H as -> ->. eauto.
    + apply in_map_iff in H. destruct H as (y & H & _). discriminate.
  - intros (ts & I). exists (i, [(c, ts)]). split; [exact I|]. left. reflexivity.
Qed.
Lemma in_add : forall i c ts, In (OAdd i c ts) ops <-> exists l, In (i, l) m /\ In (c, ts) l /\ (forall x, l <> [x]).
Proof.
  intros i c ts. rewrite in_flat_map. split.
  - intros ((ri, l) & I & H). unfold opsOf in H. cbn [fst snd] in H. destruct l as [|(c0, t0) [|x l]].
    + apply in_map_iff in H. destruct H as ((c1, t1) & H & J). apply (Permutation_in _ (EC [])) in J. contradiction.
    + destruct H as [H|[]]. discriminate.
    + apply in_map_iff in H. destruct H as ((c1, t1) & H & J). cbn in H. injection H as -> -> ->. exists ((c0, t0) :: x :: l). split; [exact I|].
      split; [eapply Permutation_in; [apply EC|exact J]|]. intros y. discriminate.
  - intros (l & I & J & N). exists (i, l). split; [exact I|]. unfold opsOf. cbn [fst snd]. destruct l as [|x [|y l]]; [contradiction|exfalso; exact (N x eq_refl)|].
    destruct x. apply in_map_iff. exists (c, ts). split; [reflexivity|]. eapply Permutation_in; [apply Permutation_sym, EC|exact J].
Qed.
(** the new routes *)
Notation nws := (news f ops).
Lemma in_news : forall i c ts, In (i, c, ts) nws <-> exists r, nth_error routes i = Some r /\ c <> rCol A r /\ In (OAdd i c ts) ops.
Proof.
  intros i c ts. unfold news. rewrite in_flat_map. split.
  - intros ([j d|j d s] & I & H); [contradiction|]. cbn in H. destruct (nth_error routes j) as [r|] eqn:E; [|contradiction]. destruct (N.eqb_spec d (rCol A r)); [contradiction|].
    destruct H as [H|[]]. injection H as -> -> ->. eauto.
  - intros (r & E & N & I). eexists. split; [exact I|]. cbn. rewrite E. apply N.eqb_neq in N. rewrite N. left. reflexivity.
Qed.
Lemma two_keys : forall ri l, In (ri, l) m -> (forall x, l <> [x]) -> forall c ts, In (c, ts) l -> exists c' ts', In (c', ts') l /\ c' <> c.
Proof.
  intros ri l I N c ts J. destruct (proj2 Wm _ _ I) as (_ & ND & _). destruct l as [|(c1, t1) [|(c2, t2) l]]; [contradiction|exfalso; exact (N _ eq_refl)|].
  cbn in ND. inversion ND; subst. destruct (N.eq_dec c1 c) as [->|X]; [exists c2, t2; split; [right; left; reflexivity|]; intros ->; apply H1; left; reflexivity|].
  exists c1, t1. split; [left; reflexivity|exact X].
Qed.
Lemma held_key : forall ri w x, heldBy ri w x -> exists l ts, In (ri, l) m /\ In (w, ts) l /\ In x ts.
Proof. intros ri w x H. apply Hm in H. destruct H as (l & I & ts & J & K). eauto. Qed.
Lemma news_split : forall i c, In (i, c) (map fst nws) <-> split noColor o f ws i c.
Proof.
  intros i c. unfold split. split.
  - intros H. apply in_map_iff in H. destruct H as (((i', c'), ts) & E & H). cbn in E. injection E as -> ->. apply in_news in H. destruct H as (r & Er & N & H).
    apply in_add in H. destruct H as (l & I & J & K). split; [apply colour_of_held; destruct (key_held _ _ _ _ I J) as (x & _ & X); eauto|]. split; [|eauto].
    destruct (two_keys _ _ I K _ _ J) as (c' & ts' & J' & N'). exists c'. split; [|exact N']. apply colour_of_held. destruct (key_held _ _ _ _ I J') as (x & _ & X). eauto.
  - intros (H & (w' & H' & N') & r & Er & N). apply colour_of_held in H. destruct H as (x & H). destruct (held_key _ _ _ H) as (l & ts & I & J & _).
    apply colour_of_held in H'. destruct H' as (x' & H'). destruct (held_key _ _ _ H') as (l' & ts' & I' & J' & _). pose proof (uniqR _ _ _ I I'). subst l'.
    apply in_map_iff. exists (i, c, ts). split; [reflexivity|]. apply in_news. exists r. split; [exact Er|]. split; [exact N|]. apply in_add. exists l. split; [exact I|]. split; [exact J|].
    intros y ->. destruct J as [J|[]], J' as [J'|[]]. subst y. injection J' as J'. congruence.
Qed.
Lemma rec_single : forall i c, In (ORec i c) ops <-> single noColor o f ws i c.
Proof.
  intros i c. rewrite in_rec. unfold single. split.
  - intros (ts & I). split; [apply colour_of_held; destruct (key_held _ _ c ts I (or_introl eq_refl)) as (x & _ & X); eauto|].
    intros w' H. apply colour_of_held in H. destruct H as (x & H). destruct (held_key _ _ _ H) as (l & ts' & I' & J' & _). pose proof (uniqR _ _ _ I I'). subst l.
    destruct J' as [J'|[]]. congruence.
  - intros (H & U). apply colour_of_held in H. destruct H as (x & H). destruct (held_key _ _ _ H) as (l & ts & I & J & _).
    assert (forall c' ts', In (c', ts') l -> c' = c) as K by (intros c' ts' J'; apply U, colour_of_held; destruct (key_held _ _ _ _ I J') as (y & _ & Y); eauto).
    destruct (proj2 Wm _ _ I) as (_ & ND & _). destruct l as [|(c1, t1) [|(c2, t2) l]]; [contradiction| |].
    + pose proof (K _ _ (or_introl eq_refl)). subst c1. eauto.
    + exfalso. pose proof (K _ _ (or_introl eq_refl)). pose proof (K _ _ (or_intror (or_introl eq_refl))). subst c1 c2. cbn in ND. inversion ND; subst. apply H2. left. reflexivity.
Qed.
Lemma nodup_news : NoDup (map fst nws).
Proof.
  destruct Wm as [ND WC]. unfold news. clear Hm.
  assert (K : forall l, NoDup (map fst l) -> (forall r x, In (r, x) l -> wfC x) -> NoDup (map fst (flat_map (newOf f) (flat_map (opsOf enumC) l)))).
  { induction l as [|(r0, l0) l IH]; intros Nl W; [constructor|]. cbn [flat_map]. rewrite flat_map_app, map_app. cbn in Nl. inversion Nl; subst.
    assert (KEY : forall l' r c, In (r, c) (map fst (flat_map (newOf f) (flat_map (opsOf enumC) l'))) -> In r (map fst l')).
    { intros l' r c H. apply in_map_iff in H. destruct H as (((r', c'), ts) & E & H). cbn in E. injection E as -> ->. apply in_flat_map in H. destruct H as ([j d|j d s] & H & J); [contradiction|].
      cbn in J. destruct (nth_error routes j); [|contradiction]. destruct (_ =? _)%N; [contradiction|]. destruct J as [J|[]]. injection J as -> -> ->.
      apply in_flat_map in H. destruct H as ((r2, l2) & H & J). apply in_map_iff. exists (r2, l2). split; [|exact H]. unfold opsOf in J. cbn [fst snd] in *.
      destruct l2 as [|(c0, t0) [|y l2]]; [|destruct J as [J|[]]; discriminate|]; apply in_map_iff in J; destruct J as (z & J & _); injection J; auto. }
    apply NoDup_app_intro.
    - assert (Nc : NoDup (map fst (enumC l0))) by (eapply Permutation_NoDup; [apply Permutation_map, Permutation_sym, EC|]; destruct (W r0 l0 (or_introl eq_refl)) as (_ & X & _); exact X).
      unfold opsOf. cbn [fst snd]. destruct l0 as [|(c0, t0) [|x l0]].
      + replace (enumC []) with (@nil (N * list tref)) by (symmetry; apply Permutation_nil, Permutation_sym, EC). constructor.
      + constructor.
      + set (cs := enumC ((c0, t0) :: x :: l0)) in *. clearbody cs. clear - Nc. induction cs as [|(c, ts) cs IH]; [constructor|]. cbn in Nc. inversion Nc; subst.
        cbn [map flat_map fst snd]. rewrite map_app. apply NoDup_app_intro.
        * cbn. destruct (nth_error routes r0); [|constructor]. destruct (_ =? _)%N; repeat constructor. intros [].
        * auto.
        * intros (r, c') X Y. cbn in X. destruct (nth_error routes r0); [|contradiction]. destruct (_ =? _)%N; [contradiction|]. destruct X as [X|[]]. cbn in X. injection X as <- <-.
          apply H1. apply in_map_iff in Y. destruct Y as (((r', c'), ts') & E & Y). cbn in E. injection E as -> ->. apply in_flat_map in Y. destruct Y as (p & P & Y).
          apply in_map_iff in P. destruct P as ((c2, t2) & <- & P). cbn in Y. destruct (nth_error routes r0); [|contradiction]. destruct (_ =? _)%N; [contradiction|].
          destruct Y as [Y|[]]. injection Y as -> ->. apply in_map_iff. exists (c, ts'). auto.
    - apply IH; [assumption|]. intros r x J. apply (W r). right. exact J.
    - intros (r, c) X Y. apply KEY in Y. apply H1. specialize (KEY [(r0, l0)] r c). cbn [flat_map map fst] in KEY. rewrite app_nil_r in KEY. destruct (KEY X) as [Z|[]]. subst. exact Y. }
  exact (K m ND WC).
Qed.
Lemma ops_fine : ops_ok f ops.
Proof.
  constructor.
  - intros i c H. apply in_rec in H. destruct H as (ts & I). destruct (key_held _ _ _ _ I (or_introl eq_refl)) as (x & _ & X). exact (held_lt _ _ _ X).
  - intros i c ts H. apply in_add in H. destruct H as (l & I & J & _). destruct (key_held _ _ _ _ I J) as (x & _ & X). exact (held_lt _ _ _ X).
  - intros i c c' H H'. apply rec_single in H, H'. apply (proj2 H'). exact (proj1 H).
  - intros i c c' ts H H'. apply in_rec in H. destruct H as (t & I). apply in_add in H'. destruct H' as (l & I' & _ & N). pose proof (uniqR _ _ _ I I'). subst l. exact (N _ eq_refl).
  - intros i c ts x r H X E N. apply in_add in H. destruct H as (l & I & J & _). assert (Hx : heldBy i c x) by (apply Hm; exists l; split; [exact I|exists ts; auto]).
    destruct Hx as [(-> & t & r' & _ & _ & E' & _ & Ec)|(u & -> & c' & t & r' & Iu & _)].
    + exfalso. rewrite E in E'. injection E' as <-. contradiction.
    + exists u. split; [reflexivity|]. exact (ci_trips _ _ CI _ _ Iu).
  - intros k k' ri c ts ri' c' ts' u E E' J J'. pose proof nodup_news as ND. 
    assert (X : (ri, c) = (ri', c')).
    { apply nth_error_In in E, E'. apply in_news in E, E'. destruct E as (_ & _ & _ & E). destruct E' as (_ & _ & _ & E'). apply in_add in E, E'. destruct E as (l & I1 & I2 & _). destruct E' as (l' & I1' & I2' & _).
      assert (H1 : heldBy ri c (TTrip u)) by (apply Hm; exists l; split; [exact I1|exists ts; auto]).
      assert (H2 : heldBy ri' c' (TTrip u)) by (apply Hm; exists l'; split; [exact I1'|exists ts'; auto]).
      destruct H1 as [(Z & _)|(v & Z & H1)]; [discriminate|]. injection Z as <-. destruct H2 as [(Z & _)|(v & Z & H2)]; [discriminate|]. injection Z as <-.
      destruct (wanted_det _ _ _ _ _ H1 H2) as [-> ->]. reflexivity. }
    apply (proj1 (NoDup_nth_error _) ND); [rewrite map_length; apply nth_lt in E; exact E|]. rewrite !nth_error_map, E, E'. cbn. congruence.
Qed.
Lemma copies_spec : forall (rules : list (option nat * FA)) l b k, copies rules (b + k) l =
  flat_map (fun kn => map (repoint (b + fst kn)) (filter (rule_of (fst (snd kn))) rules)) (combine (seq k (length (map fst l))) (map fst l)).
Proof.
  intros rules. induction l as [|((ri, c), ts) l IH]; intros b k; [reflexivity|]. cbn [copies map length seq combine flat_map fst snd]. f_equal.
  rewrite <- IH. f_equal. lia.
Qed.
Lemma map_coloured : exists f', updateRouteColors A FA noColor enumC f m = Some f' /\ coloured_by noColor o f ws (map fst nws) f'.
Proof.
  destruct (update_ok noColor f enumC m [] f) as (f' & E & I).
  - exact ops_fine.
  - intros (ri, l) J. cbn [fst snd]. destruct (proj2 Wm _ _ J) as (NE & _ & _). split; [exact NE|]. destruct l as [|(c, ts) l]; [contradiction|].
    destruct (key_held _ _ _ _ J (or_introl eq_refl)) as (x & _ & X). exact (held_lt _ _ _ X).
  - apply inv_start. exact (ci_ids _ _ CI).
  - cbn [app] in I. exists f'. split; [exact E|]. constructor.
    + split; [exact nodup_news|exact news_split].
    + rewrite map_length. exact (i_len _ _ _ _ I).
    + intros k ri w r H Er. rewrite nth_error_map in H. destruct (nth_error nws k) as [((ri', w'), ts)|] eqn:En; [|discriminate]. injection H as -> ->.
      destruct (i_new _ _ _ _ I _ _ _ _ En) as (r' & i & Er' & X). rewrite Er in Er'. injection Er' as <-. exists i, (textColor w). split; [exact X|apply textColor_ok].
    + intros ri w r Er S. apply rec_single in S. eexists. split; [exact (i_rec _ _ _ _ I _ _ _ Er S)|]. split.
      * intros ->. rewrite N.eqb_refl. reflexivity.
      * intros N. apply N.eqb_neq in N. rewrite N. apply textColor_ok.
    + intros ri r Er S. apply (i_old _ _ _ _ I _ _ Er). intros c J. apply (S c). apply rec_single. exact J.
    + exact (i_ids _ _ _ _ I).
    + exact (i_tl _ _ _ _ I).
    + intros u ri w k t Wu H Et. rewrite nth_error_map in H. destruct (nth_error nws k) as [((ri', w'), ts)|] eqn:En; [|discriminate]. injection H as -> ->.
      destruct (i_tr _ _ _ _ I u t Et) as (x & Ex & X & _). rewrite Ex. do 2 f_equal. apply (X _ _ _ _ En).
      apply nth_error_In in En. apply in_news in En. destruct En as (_ & _ & _ & En). apply in_add in En. destruct En as (l & I1 & I2 & _).
      destruct (held_key ri w (TTrip u)) as (l' & ts' & J1 & J2 & J3); [right; exists u; auto|]. pose proof (uniqR _ _ _ I1 J1). subst l'.
      rewrite (uniqC _ _ _ _ _ I1 I2 J2). exact J3.
    + intros u t Et H. destruct (i_tr _ _ _ _ I u t Et) as (x & Ex & _ & X). rewrite Ex. rewrite X; [destruct t; reflexivity|].
      intros ri c ts J K. apply (H ri c); [apply in_map_iff; exists (ri, c, ts); auto|]. apply in_news in J. destruct J as (_ & _ & _ & J). apply in_add in J. destruct J as (l & I1 & I2 & _).
      assert (Hh : heldBy ri c (TTrip u)) by (apply Hm; exists l; split; [exact I1|exists ts; auto]). destruct Hh as [(Z & _)|(v & Z & Hh)]; [discriminate|]. injection Z as <-. exact Hh.
    + rewrite (i_fares _ _ _ _ I). apply map_length.
    + intros j rules Ej. rewrite (i_fares _ _ _ _ I), nth_error_map, Ej. cbn. do 2 f_equal.
      rewrite <- (Nat.add_0_r (length routes)) at 1. apply copies_spec.
Qed.
End M.

Lemma colour_ok : exists f' news, colourRoutes A FA noColor enumR enumC o f ws = Some f' /\ coloured_by noColor o f ws news f'.
Proof.
  unfold colourRoutes. assert (W0 : wfR []) by (split; [constructor|intros ? ? []]).
  destruct (keptColors_ok o f trips [] (ci_routes _ _ CI) W0) as (m1 & E1 & W1 & H1). rewrite E1.
  destruct (mergeAll_ok noColor o f enumR enumC ER EC ws m1 (ci_trips _ _ CI) (ci_routes _ _ CI) W1) as (m2 & E2 & W2 & H2). rewrite E2.
  pose proof (wfR_perm _ _ (Permutation_sym (ER m2)) W2) as W3.
  destruct (map_coloured (enumR m2) W3) as (f' & E & C); [|exists f'; eauto].
  intros r w x. assert (X : holds (enumR m2) r w x <-> holds m2 r w x) by (split; apply holds_perm; [apply ER|apply Permutation_sym, ER]). rewrite X, H2, H1. unfold heldBy. split.
  - intros [[(l & [] & _)|H]|H]; auto.
  - intros [H|H]; auto.
Qed.
End Main.

(** * The colour of a shape *)
From Verif Require Import Shapes_spec Shapes_proofs.
Section Shape.
Context {E Pt : Type}.
Variable eqE : E -> E -> bool.
Hypothesis eqE_ok : forall a b, eqE a b = true <-> a = b.
Variable geom : E -> option (list Pt).
Variable isRev : E -> bool.
Variable fromPt toPt : E -> Pt.
Variable len : E -> Q.
Variable segment : list Pt -> Q -> Q -> list Pt.
Variable simplify : list Pt -> list Pt.
Variable hav : Pt -> Pt -> Q.
Variable rndF rndD : Q -> Q.
Variable colorsOf : E -> list N.
Hypothesis CN : forall e, NoDup (colorsOf e).
Notation hopGeom := (hopGeom E Pt eqE geom isRev fromPt toPt len segment simplify).
Notation hopLine := (hopLine E Pt eqE geom isRev fromPt toPt len segment simplify).

Lemma counted_ok : forall h part cs, hop_ok fromPt toPt h -> hopGeom h = Some (part, cs) -> counted len h cs.
Proof.
  intros h part cs (Sh1 & Sh2 & Pa) H. unfold Shapes_model.hopGeom in H. unfold counted.
  destruct (hStart _ _ h) as [s|] eqn:Hs; [destruct (hEnd _ _ h) as [e|] eqn:He|].
  - specialize (Pa _ _ eq_refl eq_refl). specialize (Sh1 ltac:(discriminate)). unfold Shapes_model.hopLine in H.
    destruct (hEdges _ _ h) as [|e0 [|e1 es]] eqn:Es.
    + cbn [rev]. destruct (if isPos _ then _ else _); [|discriminate]. destruct (if isPos _ then _ else _); [|discriminate]. injection H as _ <-. reflexivity.
    + destruct Pa as [Pa|(_ & (t & Ps) & (t' & Pe))]; [discriminate|]. cbn in Ps, Pe. injection Ps as <- _.
      assert (e = e0) as -> by (destruct t' as [|y t']; cbn in Pe; [congruence|destruct t'; discriminate]).
      cbn [length Nat.eqb andb] in H. rewrite (proj2 (eqE_ok e0 e0) eq_refl) in H. injection H as _ <-. reflexivity.
    + destruct Pa as [Pa|(Pa & Ps & Pe)]; [discriminate|]. replace (length (e0 :: e1 :: es) =? 1) with false in H by reflexivity. cbn [andb] in H.
      assert (D : exists a, e1 :: es = a ++ [s]).
      { destruct (exists_last (l:=e1 :: es) ltac:(discriminate)) as (a & z & Z). rewrite Z in *. exists a. f_equal. f_equal. cbn [rev] in Ps. rewrite rev_app_distr in Ps. cbn in Ps. destruct Ps as (t & Ps). congruence. }
      destruct D as (a & D). rewrite D in *.
      assert (e0 = e) by (cbn [rev] in Pe; apply (last_is_det _ (rev (a ++ [s]) ++ [e0])); [exists (rev (a ++ [s])); reflexivity|exact Pe]). subst e0.
      replace (1 <? length (e :: a ++ [s])) with true in H by (symmetry; apply Nat.ltb_lt; cbn; rewrite app_length; cbn; lia).
      replace (length (e :: a ++ [s]) - 2) with (length a) in H by (cbn; rewrite app_length; cbn; lia). rewrite middle_ok in H. injection H as _ <-.
      assert (RE : rev (e :: a ++ [s]) = s :: rev a ++ [e]) by (cbn [rev]; rewrite rev_app_distr; reflexivity). rewrite RE.
      destruct (rev a ++ [e]) as [|y r] eqn:Er; [destruct (rev a); discriminate|]. rewrite <- Er. rewrite removelast_last.
      do 2 eexists. split; [reflexivity|]. split.
      * destruct (isPos (hPrS E Pt h)) eqn:P; [reflexivity|]. rewrite (share_zero _ Sh1 P). ring.
      * destruct (isPos (hPrE E Pt h)) eqn:P; [left; split; [apply isPos_true; exact P|reflexivity]|right; split; [apply isPos_false; exact P|reflexivity]].
  - destruct (if isPos _ then _ else _); [|discriminate]. injection H as _ <-. reflexivity.
  - destruct (hEnd _ _ h) as [e|]; [|injection H as _ <-; reflexivity]. destruct (if isPos _ then _ else _); [|discriminate]. injection H as _ <-. reflexivity.
Qed.

(** counting *)
Fixpoint val (m : list (N * Q)) (c : N) : Q := match m with [] => 0 | (c', l) :: r => (if (c =? c')%N then l else 0) + val r c end.
Fixpoint sorted (m : list (N * Q)) : Prop := match m with [] => True | (c, _) :: r => (forall c', In c' (map fst r) -> (c < c')%N) /\ sorted r end.
Lemma addColor_keys : forall m c l x, In x (map fst (addColor m c l)) <-> x = c \/ In x (map fst m).
Proof.
  induction m as [|(c', l') m IH]; intros c l x; cbn [addColor]; [cbn; intuition|].
  destruct (N.ltb_spec c c'); [cbn; intuition|]. destruct (N.eqb_spec c c') as [->|Nq]; [cbn; intuition|]. cbn [map fst In]. rewrite IH. intuition.
Qed.
Lemma addColor_sorted : forall m c l, sorted m -> sorted (addColor m c l).
Proof.
  induction m as [|(c', l') m IH]; intros c l S; cbn [addColor]; [cbn; split; [intros ? []|exact S]|]. destruct S as [S1 S2].
  destruct (N.ltb_spec c c') as [L|L].
  - split; [|split; assumption]. intros x [<-|X]; [exact L|]. specialize (S1 x X). lia.
  - destruct (N.eqb_spec c c') as [->|Nq]; [split; assumption|]. split; [|auto]. intros x X. apply addColor_keys in X. destruct X as [->|X]; [lia|auto].
Qed.
Lemma addColor_val : forall m c l x, (val (addColor m c l) x == val m x + if (x =? c)%N then l else 0)%Q.
Proof.
  induction m as [|(c', l') m IH]; intros c l x; cbn [addColor val].
  - ring.
  - destruct (N.ltb_spec c c') as [L|L]; [cbn [val]; ring|]. destruct (N.eqb_spec c c') as [->|Nq]; cbn [val].
    + destruct (x =? c')%N; ring.
    + rewrite IH. ring.
Qed.
Lemma addAll_ok : forall l cs m, NoDup cs -> sorted m -> let m' := fold_left (fun m c => addColor m c l) cs m in
  sorted m' /\ (forall x, In x (map fst m') <-> In x cs \/ In x (map fst m)) /\
  forall x, (val m' x == val m x + if in_dec N.eq_dec x cs then l else 0)%Q.
Proof.
  intros l. induction cs as [|c cs IH]; intros m ND S; cbn [fold_left].
  - split; [exact S|]. split; [intros x; cbn; tauto|]. intros x. destruct (in_dec N.eq_dec x []) as [[]|_]. ring.
  - inversion ND; subst. destruct (IH (addColor m c l)) as (S' & K & V); [assumption|apply addColor_sorted; exact S|]. split; [exact S'|]. split.
    + intros x. rewrite K, addColor_keys. cbn. intuition.
    + intros x. rewrite V, addColor_val. destruct (N.eqb_spec x c) as [->|Nq].
      * destruct (in_dec N.eq_dec c cs); [contradiction|]. destruct (in_dec N.eq_dec c (c :: cs)) as [_|Z]; [ring|exfalso; apply Z; left; reflexivity].
      * destruct (in_dec N.eq_dec x cs) as [I|I]; destruct (in_dec N.eq_dec x (c :: cs)) as [J|J]; try ring; exfalso.
        -- apply J. right. exact I.
        -- destruct J as [J|J]; [congruence|contradiction].
Qed.
Lemma countColors_ok : forall cs, let m := countColors E colorsOf cs in
  sorted m /\ (forall x, In x (map fst m) <-> exists e l, In (e, l) cs /\ In x (colorsOf e)) /\ forall x, (val m x == length_of colorsOf cs x)%Q.
Proof.
  assert (K : forall cs m, sorted m -> let m' := fold_left (fun m e => fold_left (fun m c => addColor m c (snd e)) (colorsOf (fst e)) m) cs m in
    sorted m' /\ (forall x, In x (map fst m') <-> In x (map fst m) \/ exists e l, In (e, l) cs /\ In x (colorsOf e)) /\ forall x, (val m' x == val m x + length_of colorsOf cs x)%Q).
  { induction cs as [|(e, l) cs IH]; intros m S; cbn [fold_left fst snd].
    - split; [exact S|]. split; [intros x; split; [auto|intros [H|(e & l & [] & _)]; exact H]|]. intros x. cbn. ring.
    - destruct (addAll_ok l (colorsOf e) m (CN e) S) as (S1 & K1 & V1). destruct (IH _ S1) as (S2 & K2 & V2). split; [exact S2|]. split.
      + intros x. rewrite K2, K1. split.
        * intros [[H|H]|(e' & l' & I & H)]; [right; exists e, l; split; [left; reflexivity|exact H]|auto|right; exists e', l'; split; [right; exact I|exact H]].
        * intros [H|(e' & l' & [I|I] & H)]; [auto|injection I as <- <-; auto|right; eauto].
      + intros x. rewrite V2, V1. cbn [length_of]. ring. }
  intros cs. destruct (K cs [] Logic.I) as (S & Ks & V). split; [exact S|]. split.
  - intros x. unfold countColors. rewrite Ks. cbn. tauto.
  - intros x. unfold countColors. rewrite V. cbn. ring.
Qed.
Lemma val_key : forall m c l, sorted m -> In (c, l) m -> (val m c == l)%Q.
Proof.
  assert (Z : forall m c, ~ In c (map fst m) -> (val m c == 0)%Q).
  { induction m as [|(c', l') m IH]; intros c H; [reflexivity|]. cbn [val]. destruct (N.eqb_spec c c') as [->|Nq]; [exfalso; apply H; left; reflexivity|].
    rewrite IH; [ring|]. intros X. apply H. right. exact X. }
  induction m as [|(c', l') m IH]; intros c l S H; [contradiction|]. destruct S as [S1 S2]. cbn [val]. destruct H as [H|H].
  - injection H as -> ->. rewrite N.eqb_refl, Z; [ring|]. intros X. specialize (S1 c X). lia.
  - assert (In c (map fst m)) as X by (apply in_map_iff; exists (c, l); auto). specialize (S1 c X). destruct (N.eqb_spec c c'); [lia|]. rewrite (IH c l S2 H). ring.
Qed.

Lemma shareOf_pos : forall l t, (0 < t)%Q -> shareOf l t = Fin (l / t).
Proof. intros l t H. unfold shareOf. destruct (Qeq_bool t 0) eqn:X; [|reflexivity]. apply Qeq_bool_eq in X. rewrite X in H. exfalso. exact (Qlt_irrefl _ H). Qed.
Lemma shareGt_fin : forall x y, shareGt (Fin x) (Fin y) = true <-> (y < x)%Q.
Proof. intros x y. cbn. destruct (Qlt_le_dec y x) as [L|L]; [tauto|]. split; [discriminate|]. intros X. exfalso. exact (Qlt_not_le _ _ X L). Qed.
Lemma div_lt : forall a b t, (0 < t)%Q -> (a < b / t <-> a * t < b)%Q.
Proof.
  intros a b t P. split; intros H.
  - apply Qlt_not_le in H. apply Qnot_le_lt. intros X. apply H. apply Qle_shift_div_r; assumption.
  - apply Qlt_shift_div_l; assumption.
Qed.
(** choosing *)
Lemma best_ok : forall noc m t, (0 < t)%Q -> sorted m ->
  let c := bestColor noc m t in
  (c = noc /\ forall c' l, In (c', l) m -> (l <= (9 # 10) * t)%Q) \/
  (exists l, In (c, l) m /\ ((9 # 10) * t < l)%Q /\ forall c' l', In (c', l') m -> (l' < l)%Q \/ ((l' == l)%Q /\ (c <= c')%N) ).
Proof.
  intros noc m t P S. unfold bestColor.
  set (stp := fun (acc : N * share) (cl : N * Q) => let p := shareOf (snd cl) t in if shareGt p (Fin (9 # 10)) && shareGt p (snd acc) then (fst cl, p) else acc).
  assert (K : forall r pre acc, sorted (pre ++ r) ->
    ((acc = (noc, Fin 0) /\ forall c' l, In (c', l) pre -> (l <= (9 # 10) * t)%Q) \/
     (exists c l, acc = (c, Fin (l / t)) /\ In (c, l) pre /\ ((9 # 10) * t < l)%Q /\ forall c' l', In (c', l') pre -> (l' < l)%Q \/ ((l' == l)%Q /\ (c <= c')%N))) ->
    let c := fst (fold_left stp r acc) in
    (c = noc /\ forall c' l, In (c', l) (pre ++ r) -> (l <= (9 # 10) * t)%Q) \/
    (exists l, In (c, l) (pre ++ r) /\ ((9 # 10) * t < l)%Q /\ forall c' l', In (c', l') (pre ++ r) -> (l' < l)%Q \/ ((l' == l)%Q /\ (c <= c')%N))).
  { induction r as [|(c0, l0) r IH]; intros pre acc So H; cbn [fold_left].
    - rewrite app_nil_r in *. destruct H as [(-> & H)|(c & l & -> & I & L & H)]; [left; auto|right; exists l; auto].
    - replace (pre ++ (c0, l0) :: r) with ((pre ++ [(c0, l0)]) ++ r) in * by (rewrite <- app_assoc; reflexivity).
      assert (SP : forall c' l', In (c', l') pre -> (c' < c0)%N).
      { clear - So. induction pre as [|(c1, l1) pre IHp]; intros c' l' I; [contradiction|]. destruct So as [S1 S2]. destruct I as [I|I]; [|exact (IHp S2 _ _ I)].
        injection I as <- <-. apply S1. rewrite !map_app, !in_app_iff. left. right. left. reflexivity. }
      apply IH; [exact So|]. unfold stp. cbn [fst snd]. rewrite (shareOf_pos l0 t P).
      destruct H as [(-> & H)|(c & l & -> & I & L & H)]; cbn [fst snd].
      + destruct (shareGt (Fin (l0 / t)) (Fin (9 # 10))) eqn:G1.
        * apply shareGt_fin in G1. assert (G2 : shareGt (Fin (l0 / t)) (Fin 0) = true) by (apply shareGt_fin; eapply Qlt_trans; [|exact G1]; reflexivity).
          rewrite G2. cbn [andb]. right. exists c0, l0. split; [reflexivity|]. split; [apply in_or_app; right; left; reflexivity|]. apply div_lt in G1; [|exact P]. split; [exact G1|].
          intros c' l' J. apply in_app_or in J. destruct J as [J|[J|[]]]; [left; eapply Qle_lt_trans; [exact (H _ _ J)|exact G1]|]. injection J as <- <-. right. split; [reflexivity|lia].
        * cbn [andb]. left. split; [reflexivity|]. intros c' l' J. apply in_app_or in J. destruct J as [J|[J|[]]]; [eauto|]. injection J as <- <-.
          apply Qnot_lt_le. intros X. apply div_lt in X; [|exact P]. apply shareGt_fin in X. congruence.
      + destruct (shareGt (Fin (l0 / t)) (Fin (9 # 10)) && shareGt (Fin (l0 / t)) (Fin (l / t))) eqn:G.
        * apply andb_true_iff in G. destruct G as [G1 G2]. apply shareGt_fin in G1, G2. apply div_lt in G1; [|exact P].
          assert (LL : (l < l0)%Q). { apply (proj1 (div_lt _ _ _ P)) in G2. assert (X : (l / t * t == l)%Q) by (field; intros Y; rewrite Y in P; exact (Qlt_irrefl _ P)). rewrite X in G2. exact G2. }
          right. exists c0, l0. split; [reflexivity|]. split; [apply in_or_app; right; left; reflexivity|]. split; [exact G1|].
          intros c' l' J. apply in_app_or in J. destruct J as [J|[J|[]]].
          -- left. destruct (H _ _ J) as [Y|[Y _]]; [eapply Qlt_trans; eassumption|rewrite Y; exact LL].
          -- injection J as <- <-. right. split; [reflexivity|lia].
        * right. exists c, l. split; [reflexivity|]. split; [apply in_or_app; auto|]. split; [exact L|]. intros c' l' J. apply in_app_or in J. destruct J as [J|[J|[]]]; [auto|].
          injection J as <- <-. assert (NL : ~ (l < l0)%Q).
          { intros X. apply not_true_iff_false in G. apply G. apply andb_true_iff. split; apply shareGt_fin.
            - apply div_lt; [exact P|]. eapply Qlt_trans; [exact L|exact X].
            - apply div_lt; [exact P|]. assert (Y : (l / t * t == l)%Q) by (field; intros Z; rewrite Z in P; exact (Qlt_irrefl _ P)). rewrite Y. exact X. }
          apply Qnot_lt_le in NL. destruct (Qlt_le_dec l0 l) as [X|X]; [auto|]. right. split; [apply Qle_antisym; assumption|]. specialize (SP _ _ I). lia. }
  apply (K m [] (noc, Fin 0) S). left. split; [reflexivity|]. intros ? ? [].
Qed.

Lemma best_zero : forall noc m t, (t == 0)%Q -> sorted m ->
  let c := bestColor noc m t in
  (c = noc /\ forall c' l, In (c', l) m -> (l <= 0)%Q) \/
  (exists l, In (c, l) m /\ (0 < l)%Q /\ forall c' l', In (c', l') m -> (c' < c)%N -> (l' <= 0)%Q).
Proof.
  intros noc m t T S. unfold bestColor. apply Qeq_eq_bool in T.
  set (stp := fun (acc : N * share) (cl : N * Q) => let p := shareOf (snd cl) t in if shareGt p (Fin (9 # 10)) && shareGt p (snd acc) then (fst cl, p) else acc).
  assert (St : forall c0 l0 acc, stp acc (c0, l0) = if isPos l0 then (if shareGt Inf (snd acc) then (c0, Inf) else acc) else acc).
  { intros c0 l0 acc. unfold stp. cbn [snd fst]. unfold shareOf. rewrite T. destruct (isPos l0); reflexivity. }
  assert (Ki : forall r c, fold_left stp r (c, Inf) = (c, Inf)).
  { induction r as [|(c0, l0) r IH]; intros c; [reflexivity|]. cbn [fold_left]. rewrite St. destruct (isPos l0); apply IH. }
  clearbody stp. induction m as [|(c0, l0) m IH]; [left; split; [reflexivity|intros ? ? []]|]. destruct S as [S1 S2]. cbn [fold_left]. rewrite St.
  destruct (isPos l0) eqn:P.
  - cbn [shareGt snd]. rewrite Ki. cbn [fst]. right. exists l0. split; [left; reflexivity|]. split; [unfold isPos in P; destruct (Qlt_le_dec 0 l0); [assumption|discriminate]|].
    intros c' l' [J|J] L; [injection J as <- <-; exfalso; exact (N.lt_irrefl _ L)|]. assert (X : In c' (map fst m)) by (apply in_map_iff; exists (c', l'); auto).
    specialize (S1 c' X). exfalso; exact (N.lt_irrefl _ (N.lt_trans _ _ _ S1 L)).
  - assert (L0 : (l0 <= 0)%Q) by (unfold isPos in P; destruct (Qlt_le_dec 0 l0); [discriminate|assumption]).
    destruct (IH S2) as [(A & B)|(l & A & B & D)].
    + left. split; [exact A|]. intros c' l [J|J]; [injection J as <- <-; exact L0|eauto].
    + right. exists l. split; [right; exact A|]. split; [exact B|]. intros c' l' [J|J] L; [injection J as <- <-; exact L0|eauto].
Qed.

Lemma shape_colour_ok : forall noc hops ps ds c, Forall (hop_ok fromPt toPt) hops ->
  getGtfsShape E Pt eqE geom isRev fromPt toPt len segment simplify hav rndF rndD colorsOf noc hops = Some (ps, ds, c) ->
  exists counts p total n, Forall2 (counted len) (rev hops) counts /\ nth_error ps (length ps - 1) = Some (p, total, n) /\
    ((0 < total)%Q -> shape_colour colorsOf noc (concat counts) total c) /\ ((total == 0)%Q -> point_colour colorsOf noc (concat counts) c).
Proof.
  intros noc hops ps ds c HO H. unfold getGtfsShape, getGeom in H.
  destruct (mapM hopGeom (rev hops)) as [r|] eqn:Er; [|discriminate].
  destruct (getMeasure Pt hav rndF rndD (map fst r)) as [ms|] eqn:Em; [|discriminate].
  destruct (lineLoop Pt (map fst r) ms 0) as [[ps' ds']|] eqn:El; [|discriminate]. injection H as -> <- <-.
  destruct (lineLoop_ok _ _ _ _ _ El) as (A & _ & D & _). cbn [plus] in D.
  pose proof (marks_len hav rndF rndD _ _ (getMeasure_ok hav rndF rndD _ _ Em)) as Ln. rewrite !rev_length in Ln.
  assert (Lp : length ps = length ms) by (rewrite <- Ln, <- A, map_length; reflexivity).
  assert (NE : ms <> []) by (destruct (map fst r) as [|[|x y] z]; try discriminate Em; intros ->; cbn in Ln; discriminate).
  destruct (nth_error ps (length ps - 1)) as [((p, total), n)|] eqn:En.
  2:{ apply nth_error_None in En. destruct ms; [contradiction|]. cbn in Lp. lia. }
  assert (T : last ms 0%Q = total).
  { specialize (D _ _ En). cbn in D. rewrite Lp in D. destruct (exists_last NE) as (a & z & ->). rewrite last_last. rewrite app_length, Nat.add_sub in D. cbn in D.
    rewrite nth_error_app2, Nat.sub_diag in D by lia. cbn in D. congruence. }
  rewrite T. exists (map snd r), p, total, n. split; [|split; [reflexivity|]].
  - apply Forall_rev in HO. clear - eqE_ok Er HO. revert r Er HO. induction (rev hops) as [|h hs IH]; intros r Er HO; cbn in Er.
    + injection Er as <-. constructor.
    + destruct (hopGeom h) as [(part, cs)|] eqn:G; [|discriminate]. destruct (mapM hopGeom hs) as [r'|]; [|discriminate]. injection Er as <-. inversion HO; subst.
      cbn. constructor; [exact (counted_ok h part cs H1 G)|apply IH; auto].
  - split; intros P; rewrite (flat_map_concat_map snd r); set (cs := concat (map snd r)); destruct (countColors_ok cs) as (S & K & V).
    2:{ assert (Z : forall c', ~ In c' (map fst (countColors E colorsOf cs)) -> (length_of colorsOf cs c' <= 0)%Q).
      { intros c' N. rewrite <- V. clear - N. induction (countColors E colorsOf cs) as [|(c1, l1) m IH]; [apply Qle_refl|]. cbn [val].
        destruct (N.eqb_spec c' c1) as [->|Nq]; [exfalso; apply N; left; reflexivity|]. rewrite Qplus_0_l. apply IH. intros X. apply N. right. exact X. }
      destruct (best_zero noc (countColors E colorsOf cs) total P S) as [(B & H)|(l & I & L & H)]; [left; split; [exact B|]|right; split].
      - intros c'. destruct (in_dec N.eq_dec c' (map fst (countColors E colorsOf cs))) as [IK|IK]; [|exact (Z c' IK)].
        apply in_map_iff in IK. destruct IK as ((c2, l2) & E2 & I2). cbn in E2. subst c2. rewrite <- V, (val_key _ _ _ S I2). exact (H _ _ I2).
      - rewrite <- V, (val_key _ _ _ S I). exact L.
      - intros c' Lt. destruct (in_dec N.eq_dec c' (map fst (countColors E colorsOf cs))) as [IK|IK]; [|exact (Z c' IK)].
        apply in_map_iff in IK. destruct IK as ((c2, l2) & E2 & I2). cbn in E2. subst c2. rewrite <- V, (val_key _ _ _ S I2). exact (H _ _ I2 Lt). }
    
    destruct (best_ok noc (countColors E colorsOf cs) total P S) as [(B & H)|(l & I & L & H)].
    + left. split; [exact B|]. intros c' e l J X. assert (IK : In c' (map fst (countColors E colorsOf cs))) by (apply K; eauto).
      apply in_map_iff in IK. destruct IK as ((c2, l2) & E2 & I2). cbn in E2. subst c2. rewrite <- V, (val_key _ _ _ S I2). exact (H _ _ I2).
    + right. set (c := bestColor noc (countColors E colorsOf cs) total) in *.
      assert (Vl : (length_of colorsOf cs c == l)%Q) by (rewrite <- V; exact (val_key _ _ _ S I)).
      split; [apply K; apply in_map_iff; exists (c, l); auto|]. split; [rewrite Vl; exact L|]. intros c'.
      destruct (in_dec N.eq_dec c' (map fst (countColors E colorsOf cs))) as [IK|IK]; [|right; right; intros X; apply IK; apply K; exact X].
      apply in_map_iff in IK. destruct IK as ((c2, l2) & E2 & I2). cbn in E2. subst c2.
      assert (Vl' : (length_of colorsOf cs c' == l2)%Q) by (rewrite <- V; exact (val_key _ _ _ S I2)). rewrite Vl, Vl'. destruct (H _ _ I2); auto.
Qed.
End Shape.
