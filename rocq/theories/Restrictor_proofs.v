From Coq Require Import List Arith Bool Lia Permutation Sorted.
From Verif Require Import ListAux Restrictor_model Restrictor_spec.
Import ListNotations.

Lemma set1_eq : forall A (f : nat -> A) k v, set1 f k v k = v.
Proof. intros. unfold set1. rewrite Nat.eqb_refl. reflexivity. Qed.
Lemma set1_ne : forall A (f : nat -> A) k v x, x <> k -> set1 f k v x = f x.
Proof. intros. unfold set1. destruct (Nat.eqb_spec x k); congruence. Qed.
Lemma set2_eq : forall A (f : nat -> nat -> A) k l v, set2 f k l v k l = v.
Proof. intros. unfold set2. rewrite !Nat.eqb_refl. reflexivity. Qed.
Lemma set2_ne : forall A (f : nat -> nat -> A) k l v x y, ~ (x = k /\ y = l) -> set2 f k l v x y = f x y.
Proof. intros. unfold set2. destruct (Nat.eqb_spec x k), (Nat.eqb_spec y l); cbn; tauto. Qed.

(** * Last announcement, executable *)

Fixpoint lastAnn (h : list rcall) (w n : nat) : option nat :=
  match h with
  | [] => None
  | c :: t =>
      match lastAnn t w n with
      | Some e => Some e
      | None => match c with
                | Relax w' n' e => if (w' =? w) && (n' =? n) then Some e else None
                | Add _ _ _ _ => None
                end
      end
  end.
Lemma lastAnn_app : forall h g w n, lastAnn (h ++ g) w n =
  match lastAnn g w n with Some e => Some e | None => lastAnn h w n end.
Proof.
  induction h as [|c h IH]; intros g w n; cbn; [destruct (lastAnn g w n); auto|].
  rewrite IH. destruct (lastAnn g w n); auto.
Qed.
Lemma lastAnn_none : forall h w n, lastAnn h w n = None <-> never_announced h w n.
Proof.
  unfold never_announced. induction h as [|c h IH]; intros w n; cbn; [tauto|].
  destruct (lastAnn h w n) as [e|] eqn:E.
  - split; [discriminate|]. intros H. exfalso.
    assert (X : lastAnn h w n = None) by (apply IH; intros e' I; apply (H e'); auto). congruence.
  - pose proof (proj1 (IH w n) E) as N. split.
    + intros H e [->|I].
      * rewrite !Nat.eqb_refl in H. discriminate.
      * exact (N e I).
    + intros H. destruct c as [|w' n' e]; auto.
      destruct (Nat.eqb_spec w' w) as [->|]; auto. destruct (Nat.eqb_spec n' n) as [->|]; auto.
      exfalso. apply (H e). auto.
Qed.
Lemma lastAnn_some : forall h w n e, lastAnn h w n = Some e <-> last_announced h w n e.
Proof.
  unfold last_announced. intros h w n e. split.
  - induction h as [|c h IH]; cbn; [discriminate|].
    destruct (lastAnn h w n) as [e'|] eqn:E.
    + intros H. injection H as ->. destruct (IH eq_refl) as [h1 [h2 [-> N]]]. exists (c :: h1), h2. auto.
    + destruct c as [|w' n' e']; [discriminate|].
      destruct (Nat.eqb_spec w' w) as [->|]; [|discriminate]. destruct (Nat.eqb_spec n' n) as [->|]; [|discriminate].
      cbn. intros H. injection H as ->. exists [], h. split; auto. apply lastAnn_none. auto.
  - intros [h1 [h2 [-> N]]]. rewrite lastAnn_app. cbn.
    apply lastAnn_none in N. rewrite N, !Nat.eqb_refl. reflexivity.
Qed.

(** * The rule table as a function of the history *)

Record ent := mkEnt { eF : nat; eW : nat; eK : nat; eEarly : option nat; eLate : option nat }.
Definition target (en : ent) : option nat := match eEarly en with Some e => Some e | None => eLate en end.
Definition asRule (en : ent) : rule := (eF en, target en).
Definition open_ (w : nat) (en : ent) : bool := (eW en =? w) && match eEarly en with None => true | Some _ => false end.
Definition late (w e : nat) (en : ent) : ent :=
  if open_ w en then mkEnt (eF en) (eW en) (eK en) None (Some e) else en.

(** [entries pos via rh]: for the reversed history [rh]. *)
Fixpoint entries (pos : bool) (via : nat) (rh : list rcall) : list ent :=
  match rh with
  | [] => []
  | Add f w v p :: t =>
      if (v =? via) && Bool.eqb p pos
      then entries pos via t ++ [mkEnt f w (length t) (lastAnn (rev t) w via) None]
      else entries pos via t
  | Relax w n e :: t => if n =? via then map (late w e) (entries pos via t) else entries pos via t
  end.
Fixpoint indices (f : ent -> bool) (i : nat) (l : list ent) : list nat :=
  match l with
  | [] => []
  | x :: t => (if f x then [i] else []) ++ indices f (S i) t
  end.
Lemma indices_app : forall f l m i, indices f i (l ++ m) = indices f i l ++ indices f (i + length l) m.
Proof.
  intros f. induction l as [|x l IH]; intros m i; cbn; [rewrite Nat.add_0_r; auto|].
  rewrite IH, <- app_assoc. replace (S i + length l) with (i + S (length l)) by lia. reflexivity.
Qed.
Lemma indices_map : forall f g l i, (forall x, f (g x) = f x) -> indices f i (map g l) = indices f i l.
Proof. intros f g l. induction l as [|x l IH]; intros i H; cbn; auto. rewrite H, IH; auto. Qed.

Lemma patch_indices : forall (f : ent -> bool) e via l pre rules,
  rules via = pre ++ map asRule l ->
  exists q, patch rules (map (fun i => (via, i)) (indices f (length pre) l)) e = Some q /\
    q via = pre ++ map (fun en => if f en then (fst (asRule en), Some e) else asRule en) l /\
    forall n, n <> via -> q n = rules n.
Proof.
  intros f e via. induction l as [|x l IH]; intros pre rules R; cbn [indices map app].
  - exists rules. auto.
  - destruct (f x) eqn:F; cbn [map app].
    + cbn [patch]. rewrite R, app_length. cbn [map length].
      destruct (Nat.ltb_spec (length pre) (length pre + S (length (map asRule l)))); [|lia].
      set (rules1 := set1 _ _ _).
      assert (R1 : rules1 via = (pre ++ [(fst (asRule x), Some e)]) ++ map asRule l).
      { unfold rules1. rewrite set1_eq, <- app_assoc. cbn.
        clear. induction pre as [|y pre IHp]; [reflexivity|]. cbn [length app upd]. f_equal. exact IHp. }
      destruct (IH _ _ R1) as [q [P [Q1 Q2]]]. rewrite app_length in P. cbn in P. rewrite Nat.add_1_r in P.
      exists q. split; auto. split; [rewrite Q1, <- app_assoc; reflexivity|].
      intros n N. rewrite Q2; auto. unfold rules1. apply set1_ne; auto.
    + assert (R1 : rules via = (pre ++ [asRule x]) ++ map asRule l) by (rewrite R, <- app_assoc; auto).
      destruct (IH _ _ R1) as [q [P [Q1 Q2]]]. rewrite app_length in P. cbn in P. rewrite Nat.add_1_r in P.
      exists q. split; auto. split; auto. rewrite Q1, <- app_assoc. reflexivity.
Qed.

Definition inv (rh : list rcall) (r : restr) : Prop :=
  (forall via, rPos r via = map asRule (entries true via rh)) /\
  (forall via, rNeg r via = map asRule (entries false via rh)) /\
  (forall n w, rRlx r n w = lastAnn (rev rh) w n) /\
  (forall n w, rPosD r n w = map (fun i => (n, i)) (indices (open_ w) 0 (entries true n rh))) /\
  (forall n w, rNegD r n w = map (fun i => (n, i)) (indices (open_ w) 0 (entries false n rh))).

Lemma open_late : forall w w' e x, open_ w' (late w e x) = open_ w' x.
Proof.
  intros w w' e x. unfold late. destruct (open_ w x) eqn:O; auto. unfold open_ in *. cbn.
  apply andb_true_iff in O. destruct O as [O1 O2]. destruct (eEarly x); [discriminate|]. reflexivity.
Qed.
Lemma asRule_late : forall w e x, asRule (late w e x) = if open_ w x then (fst (asRule x), Some e) else asRule x.
Proof. intros. unfold late. destruct (open_ w x); reflexivity. Qed.

Lemma inv_relax : forall rh r w n e, inv rh r -> exists r', relax r w n e = Some r' /\ inv (Relax w n e :: rh) r'.
Proof.
  intros rh r w n e [P [Q [X [PD ND]]]]. unfold relax. rewrite PD, ND.
  destruct (patch_indices (open_ w) e n (entries true n rh) [] (rPos r)) as [p [E1 [P1 P2]]]; [apply P|].
  destruct (patch_indices (open_ w) e n (entries false n rh) [] (rNeg r)) as [q [E2 [Q1 Q2]]]; [apply Q|].
  cbn [length] in E1, E2. rewrite E1, E2. eexists. split; [reflexivity|].
  unfold inv. cbn [rPos rNeg rRlx rPosD rNegD entries rev]. repeat split.
  - intros via. destruct (Nat.eqb_spec n via) as [<-|N].
    + rewrite P1. cbn [app]. rewrite map_map. apply map_ext. intros x. symmetry. apply asRule_late.
    + rewrite P2; auto.
  - intros via. destruct (Nat.eqb_spec n via) as [<-|N].
    + rewrite Q1. cbn [app]. rewrite map_map. apply map_ext. intros x. symmetry. apply asRule_late.
    + rewrite Q2; auto.
  - intros m v. rewrite lastAnn_app. cbn. destruct (Nat.eqb_spec w v) as [->|N].
    + destruct (Nat.eqb_spec n m) as [->|N]; cbn.
      * rewrite set2_eq. auto.
      * rewrite set2_ne by (intros [? ?]; congruence). apply X.
    + cbn. rewrite set2_ne by (intros [? ?]; congruence). apply X.
  - intros m v. rewrite PD. destruct (Nat.eqb_spec n m) as [->|N]; auto.
    rewrite indices_map; auto. intros; apply open_late.
  - intros m v. rewrite ND. destruct (Nat.eqb_spec n m) as [->|N]; auto.
    rewrite indices_map; auto. intros; apply open_late.
Qed.

Lemma indices_snoc_add : forall v f w k early l,
  indices (open_ v) 0 (l ++ [mkEnt f w k early None]) =
  indices (open_ v) 0 l ++
    (if w =? v then match early with None => [length l] | Some _ => [] end else []).
Proof.
  intros. rewrite indices_app. cbn. unfold open_. cbn. destruct (w =? v); cbn; auto.
  destruct early; auto.
Qed.
Lemma inv_add : forall rh r f w via p, inv rh r -> inv (Add f w via p :: rh) (addRule r f w via p).
Proof.
  intros rh r f w via p [P [Q [X [PD ND]]]]. unfold addRule. rewrite (X via w).
  assert (LA : forall n v, lastAnn (rev rh ++ [Add f w via p]) v n = lastAnn (rev rh) v n)
    by (intros; rewrite lastAnn_app; reflexivity).
  destruct p; unfold inv; cbn [rPos rNeg rRlx rPosD rNegD entries rev]; repeat split.
  - intros n. rewrite andb_true_r. destruct (Nat.eqb_spec via n) as [<-|N].
    + rewrite set1_eq, map_app, P. cbn. unfold asRule at 3. cbn. destruct (lastAnn (rev rh) w via); reflexivity.
    + rewrite set1_ne; auto.
  - intros n. rewrite andb_false_r. apply Q.
  - intros n v. rewrite LA. apply X.
  - intros n v. rewrite andb_true_r. destruct (Nat.eqb_spec via n) as [<-|N].
    + rewrite indices_snoc_add.
      destruct (lastAnn (rev rh) w via) eqn:L.
      * rewrite PD. destruct (w =? v); rewrite app_nil_r; auto.
      * destruct (Nat.eqb_spec w v) as [->|NE].
        -- rewrite set2_eq, map_app, PD, P, app_length, map_length. cbn. do 3 f_equal. lia.
        -- rewrite set2_ne by (intros [? ?]; congruence). rewrite app_nil_r. apply PD.
    + destruct (lastAnn (rev rh) w via); [apply PD|]. rewrite set2_ne by (intros [? ?]; congruence). apply PD.
  - intros n v. rewrite andb_false_r. apply ND.
  - intros n. rewrite andb_false_r. apply P.
  - intros n. rewrite andb_true_r. destruct (Nat.eqb_spec via n) as [<-|N].
    + rewrite set1_eq, map_app, Q. cbn. unfold asRule at 3. cbn. destruct (lastAnn (rev rh) w via); reflexivity.
    + rewrite set1_ne; auto.
  - intros n v. rewrite LA. apply X.
  - intros n v. rewrite andb_false_r. apply PD.
  - intros n v. rewrite andb_true_r. destruct (Nat.eqb_spec via n) as [<-|N].
    + rewrite indices_snoc_add.
      destruct (lastAnn (rev rh) w via) eqn:L.
      * rewrite ND. destruct (w =? v); rewrite app_nil_r; auto.
      * destruct (Nat.eqb_spec w v) as [->|NE].
        -- rewrite set2_eq, map_app, ND, Q, app_length, map_length. cbn. do 3 f_equal. lia.
        -- rewrite set2_ne by (intros [? ?]; congruence). rewrite app_nil_r. apply ND.
    + destruct (lastAnn (rev rh) w via); [apply ND|]. rewrite set2_ne by (intros [? ?]; congruence). apply ND.
Qed.
Lemma inv_run : forall cs rh r, inv rh r -> exists r', runR r cs = Some r' /\ inv (rev cs ++ rh) r'.
Proof.
  induction cs as [|c cs IH]; intros rh r I; cbn; [eauto|].
  destruct c as [f w via p|w n e].
  - rewrite <- app_assoc. cbn. apply IH. apply inv_add; auto.
  - destruct (inv_relax rh r w n e I) as [r1 [E I1]]. rewrite E, <- app_assoc. cbn. apply IH. auto.
Qed.
Lemma inv_empty : inv [] emptyRestr.
Proof. unfold inv. cbn. repeat split; auto. Qed.
Lemma run_inv : forall h, exists r, runR emptyRestr h = Some r /\ inv (rev h) r.
Proof. intros h. destruct (inv_run h [] emptyRestr inv_empty) as [r [E I]]. rewrite app_nil_r in I. eauto. Qed.

(** * Entries and the history *)

Lemma ent_sound : forall pos via rh en, In en (entries pos via rh) -> exists h1 h2,
  rev rh = h1 ++ Add (eF en) (eW en) via pos :: h2 /\ length h1 = eK en /\ eEarly en = lastAnn h1 (eW en) via /\
  eLate en = match eEarly en with None => lastAnn h2 (eW en) via | Some _ => None end.
Proof.
  intros pos via. induction rh as [|c rh IH]; intros en I; cbn in I; [destruct I|].
  assert (KEEP : forall en', In en' (entries pos via rh) -> eF en' = eF en -> eW en' = eW en -> eK en' = eK en ->
     eEarly en' = eEarly en ->
     (forall h1 h2, rev rh = h1 ++ Add (eF en) (eW en) via pos :: h2 ->
        eLate en' = match eEarly en with None => lastAnn h2 (eW en) via | Some _ => None end ->
        eLate en = match eEarly en with None => lastAnn (h2 ++ [c]) (eW en) via | Some _ => None end) ->
     exists h1 h2, rev (c :: rh) = h1 ++ Add (eF en) (eW en) via pos :: h2 /\ length h1 = eK en /\
       eEarly en = lastAnn h1 (eW en) via /\
       eLate en = match eEarly en with None => lastAnn h2 (eW en) via | Some _ => None end).
  { intros en' I' E1 E2 E3 E4 L. destruct (IH _ I') as [h1 [h2 [H1 [H2 [H3 H4]]]]].
    rewrite E1, E2, E3, E4 in *. exists h1, (h2 ++ [c]). cbn. rewrite H1, <- app_assoc. cbn. repeat split; auto.
    apply (L h1 h2); auto. }
  destruct c as [f w v p|w n e].
  - destruct ((v =? via) && Bool.eqb p pos) eqn:B.
    + apply andb_true_iff in B. destruct B as [B1 B2]. apply Nat.eqb_eq in B1. apply eqb_prop in B2. subst v p.
      apply in_app_iff in I. destruct I as [I|[<-|[]]].
      * apply (KEEP en I); auto. intros h1 h2 _ E. rewrite lastAnn_app. exact E.
      * exists (rev rh), []. cbn. rewrite rev_length. repeat split; auto. destruct (lastAnn (rev rh) w via); auto.
    + apply (KEEP en I); auto. intros h1 h2 _ E. rewrite lastAnn_app. exact E.
  - destruct (Nat.eqb_spec n via) as [->|N].
    + apply in_map_iff in I. destruct I as [en' [E I]]. unfold late in E. destruct (open_ w en') eqn:O.
      * unfold open_ in O. apply andb_true_iff in O. destruct O as [O1 O2]. apply Nat.eqb_eq in O1.
        destruct (eEarly en') eqn:EE; [discriminate|]. subst en. cbn in *.
        apply (KEEP en' I); auto. intros h1 h2 _ _. rewrite lastAnn_app. cbn. rewrite O1, !Nat.eqb_refl. reflexivity.
      * subst en'. apply (KEEP en I); auto. intros h1 h2 _ E. destruct (eEarly en) eqn:EE; auto.
        rewrite lastAnn_app. cbn. unfold open_ in O. rewrite EE, andb_true_r, Nat.eqb_sym in O. rewrite O. exact E.
    + apply (KEEP en I); auto. intros h1 h2 _ E. destruct (eEarly en); auto. rewrite lastAnn_app. cbn.
      apply Nat.eqb_neq in N. rewrite N, andb_false_r. exact E.
Qed.
Lemma ent_complete : forall pos via rh h1 f w h2, rev rh = h1 ++ Add f w via pos :: h2 ->
  exists en, In en (entries pos via rh) /\ eF en = f /\ eW en = w /\ eK en = length h1.
Proof.
  intros pos via. induction rh as [|c rh IH]; intros h1 f w h2 H; cbn in H; [destruct h1; discriminate|].
  destruct (exists_last (l := Add f w via pos :: h2)) as [g [x G]]; [discriminate|].
  rewrite G in H. rewrite app_assoc in H. apply app_inj_tail in H. destruct H as [H ->].
  destruct g as [|y g].
  - cbn in G. injection G as <- ->. rewrite app_nil_r in H. cbn. rewrite Nat.eqb_refl, Bool.eqb_reflx. cbn.
    eexists. split; [apply in_app_iff; right; left; reflexivity|]. cbn. rewrite <- H, rev_length. auto.
  - cbn in G. injection G as <- G. destruct (IH _ _ _ _ H) as [en [I [E1 [E2 E3]]]].
    cbn. destruct x as [f' w' v' p'|w' n' e'].
    + destruct ((v' =? via) && Bool.eqb p' pos); exists en; repeat split; auto. apply in_app_iff; auto.
    + destruct (n' =? via).
      * exists (late w' e' en). split; [apply in_map; auto|]. unfold late. destruct (open_ w' en); cbn; auto.
      * exists en. auto.
Qed.
Lemma ent_sorted : forall pos via rh, StronglySorted (fun a b => eK a < eK b) (entries pos via rh) /\
  forall en, In en (entries pos via rh) -> eK en < length rh.
Proof.
  intros pos via. induction rh as [|c rh [S L]]; cbn; [split; [constructor|intros ? []]|].
  assert (SM : forall g, (forall x, eK (g x) = eK x) ->
    StronglySorted (fun a b => eK a < eK b) (map g (entries pos via rh))).
  { intros g G. induction S as [|a l S IH F]; cbn; [constructor|]. constructor; [apply IH; intros; apply L; cbn; auto|].
    apply Forall_forall. intros y Y. apply in_map_iff in Y. destruct Y as [z [<- Z]]. rewrite !G.
    rewrite Forall_forall in F. auto. }
  destruct c as [f w v p|w n e].
  - destruct ((v =? via) && Bool.eqb p pos).
    + split.
      * clear SM. induction S as [|a l S IH F]; cbn; [constructor; constructor|]. constructor.
        -- apply IH. intros; apply L; cbn; auto.
        -- apply Forall_app. split; auto. constructor; auto. cbn. apply L. cbn; auto.
      * intros en I. apply in_app_iff in I. destruct I as [I|[<-|[]]]; cbn; [apply L in I; lia|lia].
    + split; auto. intros en I. apply L in I. lia.
  - destruct (n =? via).
    + split; [apply SM; intros x; unfold late; destruct (open_ w x); auto|].
      intros en I. apply in_map_iff in I. destruct I as [x [<- I]]. unfold late. specialize (L _ I). destruct (open_ w x); cbn; lia.
    + split; auto. intros en I. apply L in I. lia.
Qed.

Lemma ent_target : forall pos via h en, In en (entries pos via (rev h)) -> forall h1 h2,
  h = h1 ++ Add (eF en) (eW en) via pos :: h2 -> length h1 = eK en ->
  forall e, target en = Some e <-> names h1 h2 (eW en) via e.
Proof.
  intros pos via h en I h1 h2 H L e. destruct (ent_sound _ _ _ _ I) as [g1 [g2 [G [LG [E1 E2]]]]].
  rewrite rev_involutive in G. rewrite H in G.
  assert (h1 = g1 /\ h2 = g2) as [<- <-].
  { assert (length h1 = length g1) by lia. clear - G H0. revert g1 G H0.
    induction h1 as [|x h1 IH]; intros [|y g1] G L; cbn in *; try discriminate.
    - injection G as ->. auto.
    - injection G as -> G. injection L as L. destruct (IH _ G L). subst. auto. }
  unfold target, names. rewrite E2, E1. rewrite <- !lastAnn_some, <- lastAnn_none.
  destruct (lastAnn h1 (eW en) via).
  - split; auto. intros [?|[? _]]; [auto|discriminate].
  - split; auto. intros [?|[_ ?]]; [discriminate|auto].
Qed.

(** * Decisions *)

Lemma posLoop_first : forall l from to b, posLoop (map asRule l) from to = Some b <->
  exists l1 en l2 e, l = l1 ++ en :: l2 /\ eF en = from /\ target en = Some e /\ b = (e =? to) /\
    forall en', In en' l1 -> eF en' = from -> target en' = None.
Proof.
  intros l from to b. split.
  - induction l as [|x l IH]; cbn; [discriminate|].
    destruct (target x) as [e|] eqn:T.
    + destruct (Nat.eqb_spec (eF x) from) as [E|N].
      * intros H. injection H as <-. exists [], x, l, e. repeat split; auto. intros ? [].
      * intros H. destruct (IH H) as [l1 [en [l2 [e' [-> [E [T' [B N']]]]]]]].
        exists (x :: l1), en, l2, e'. repeat split; auto. intros en' [<-|I]; auto. congruence.
    + intros H. destruct (IH H) as [l1 [en [l2 [e' [-> [E [T' [B N']]]]]]]].
      exists (x :: l1), en, l2, e'. repeat split; auto. intros en' [<-|I]; auto.
  - intros [l1 [en [l2 [e [-> [E [T [-> N]]]]]]]]. induction l1 as [|x l1 IH]; cbn.
    + rewrite T. apply Nat.eqb_eq in E. rewrite E. reflexivity.
    + destruct (target x) as [e'|] eqn:T'.
      * destruct (Nat.eqb_spec (eF x) from) as [E'|].
        -- rewrite N in T'; cbn; auto. discriminate.
        -- apply IH. intros; apply N; cbn; auto.
      * apply IH. intros; apply N; cbn; auto.
Qed.
Lemma posLoop_none : forall l from to, posLoop (map asRule l) from to = None <->
  forall en, In en l -> eF en = from -> target en = None.
Proof.
  intros l from to. split.
  - induction l as [|x l IH]; cbn; [intros _ ? []|].
    destruct (target x) as [e|] eqn:T.
    + destruct (Nat.eqb_spec (eF x) from) as [E|N]; [discriminate|].
      intros H en [<-|I] F; [congruence|]. apply IH; auto.
    + intros H en [<-|I] F; auto.
  - induction l as [|x l IH]; cbn; auto. intros H.
    destruct (target x) as [e|] eqn:T; [|apply IH; auto].
    destruct (Nat.eqb_spec (eF x) from) as [E|N]; [|apply IH; auto].
    rewrite H in T; auto. discriminate.
Qed.
Lemma sorted_split_lt : forall l1 en l2 x, StronglySorted (fun a b => eK a < eK b) (l1 ++ en :: l2) ->
  In x (l1 ++ en :: l2) -> eK x < eK en -> In x l1.
Proof.
  intros l1 en l2 x S I L. apply in_app_iff in I. destruct I as [I|[<-|I]]; auto; [lia|].
  exfalso. induction l1 as [|y l1 IH]; cbn in S; inversion S as [|? ? S' F]; subst.
  - rewrite Forall_forall in F. specialize (F _ I). lia.
  - auto.
Qed.
Lemma sorted_split_before : forall l1 en l2 x, StronglySorted (fun a b => eK a < eK b) (l1 ++ en :: l2) ->
  In x l1 -> eK x < eK en.
Proof.
  intros l1 en l2 x S I. induction l1 as [|y l1 IH]; [destruct I|]. cbn in S. inversion S as [|? ? S' F]; subst.
  destruct I as [<-|I]; auto. rewrite Forall_forall in F. apply F, in_app_iff. cbn; auto.
Qed.
Lemma sorted_same_K : forall l x y, StronglySorted (fun a b => eK a < eK b) l -> In x l -> In y l -> eK x = eK y -> x = y.
Proof.
  intros l x y S. induction S as [|a l S IH F]; intros X Y E; [destruct X|]. rewrite Forall_forall in F.
  destruct X as [<-|X], Y as [<-|Y]; auto.
  - specialize (F _ Y). lia.
  - specialize (F _ X). lia.
Qed.

Lemma must_take_iff : forall h from via e,
  must_take h from via e <-> posLoop (map asRule (entries true via (rev h))) from e = Some true.
Proof.
  intros h from via e. destruct (ent_sorted true via (rev h)) as [S LT]. rewrite posLoop_first. split.
  - intros [h1 [w [h2 [H [N F]]]]].
    destruct (ent_complete true via (rev h) h1 from w h2) as [en [I [E1 [E2 E3]]]]; [rewrite rev_involutive; auto|].
    destruct (in_split _ _ I) as [l1 [l2 SP]]. exists l1, en, l2, e. repeat split; auto.
    + apply (ent_target true via h en I h1 h2); subst; auto.
    + rewrite Nat.eqb_refl. auto.
    + intros en' I' F'. destruct (target en') as [e'|] eqn:T; auto. exfalso.
      assert (IN : In en' (entries true via (rev h))) by (rewrite SP; apply in_app_iff; auto).
      destruct (ent_sound _ _ _ _ IN) as [g1 [g2 [G [LG _]]]]. rewrite rev_involutive in G.
      apply (F g1 (eW en') g2 e').
      * rewrite G, F'. auto.
      * rewrite LG, <- E3. rewrite SP in S. eapply sorted_split_before; eauto.
      * apply (ent_target true via h en' IN g1 g2); auto.
  - intros [l1 [en [l2 [e' [SP [F [T [B N]]]]]]]]. symmetry in B. apply Nat.eqb_eq in B. subst e'.
    assert (I : In en (entries true via (rev h))) by (rewrite SP; apply in_app_iff; cbn; auto).
    destruct (ent_sound _ _ _ _ I) as [h1 [h2 [H [L _]]]]. rewrite rev_involutive in H.
    exists h1, (eW en), h2. split; [rewrite H, F; auto|]. split; [apply (ent_target true via h en I h1 h2); auto|].
    intros g1 w' g2 e' G LG NM.
    destruct (ent_complete true via (rev h) g1 from w' g2) as [en' [I' [E1 [E2 E3]]]]; [rewrite rev_involutive; auto|].
    assert (In en' l1).
    { rewrite SP in I', S. eapply sorted_split_lt; eauto. lia. }
    specialize (N _ H0 E1).
    assert (T' : target en' = Some e').
    { apply (ent_target true via h en' I' g1 g2); auto. rewrite E1, E2. auto. rewrite E2. auto. }
    congruence.
Qed.
Lemma must_not_iff : forall h from to via,
  must_not_take h from to via <-> existsb (hits from to) (map asRule (entries false via (rev h))) = true.
Proof.
  intros h from to via. rewrite existsb_exists. split.
  - intros [h1 [w [h2 [H N]]]].
    destruct (ent_complete false via (rev h) h1 from w h2) as [en [I [E1 [E2 E3]]]]; [rewrite rev_involutive; auto|].
    exists (asRule en). split; [apply in_map; auto|]. unfold hits, asRule. cbn.
    assert (T : target en = Some to) by (apply (ent_target false via h en I h1 h2); subst; auto).
    rewrite T, E1, !Nat.eqb_refl. reflexivity.
  - intros [x [I H]]. apply in_map_iff in I. destruct I as [en [<- I]]. unfold hits, asRule in H. cbn in H.
    apply andb_true_iff in H. destruct H as [H1 H2]. apply Nat.eqb_eq in H1.
    destruct (target en) as [e|] eqn:T; [|discriminate]. apply Nat.eqb_eq in H2. subst e.
    destruct (ent_sound _ _ _ _ I) as [h1 [h2 [H [L _]]]]. rewrite rev_involutive in H.
    exists h1, (eW en), h2. split; [rewrite H, H1; auto|]. apply (ent_target false via h en I h1 h2); auto.
Qed.
Lemma posLoop_other : forall l from t1 t2, posLoop l from t1 = None -> posLoop l from t2 = None.
Proof.
  induction l as [|[f [e|]] l IH]; cbn; intros from t1 t2 H; auto; [|eauto].
  destruct (f =? from); [discriminate|eauto].
Qed.
Lemma may_iff : forall h, exists r, runR emptyRestr h = Some r /\
  forall from to via, may r from to via = true <-> turn_allowed h from to via.
Proof.
  intros h. destruct (run_inv h) as [r [E [P [Q _]]]]. exists r. split; auto. intros from to via.
  unfold may, turn_allowed. rewrite P, Q. rewrite must_take_iff, must_not_iff.
  destruct (posLoop (map asRule (entries true via (rev h))) from to) as [b|] eqn:L.
  - destruct b; [tauto|]. split; [discriminate|]. intros [H|[H _]]; [discriminate|]. exfalso.
    pose proof L as L'. apply posLoop_first in L'. destruct L' as [l1 [en [l2 [e [S [F [T [B N]]]]]]]].
    apply (H e). apply must_take_iff. apply posLoop_first. exists l1, en, l2, e. rewrite Nat.eqb_refl. auto.
  - destruct (existsb _ _) eqn:X; cbn.
    + split; [discriminate|]. intros [?|[_ H]]; [discriminate|]. exfalso. auto.
    + split; auto. intros _. right. split; [|discriminate]. intros e H. apply must_take_iff in H.
      rewrite (posLoop_other _ _ _ e L) in H. discriminate.
Qed.

(** * Order of reading *)

(** With one edge per way the table is determined by the registrations and the set of
    announcements. *)
Definition addRuleOf (pos : bool) (via : nat) (h : list rcall) (c : rcall) : list rule :=
  match c with
  | Add f w v p => if (v =? via) && Bool.eqb p pos then [(f, lastAnn h w via)] else []
  | Relax _ _ _ => []
  end.
Lemma one_edge_last : forall h w n e, one_edge_per_way h -> (lastAnn h w n = Some e <-> In (Relax w n e) h).
Proof.
  intros h w n e O. split; intros H.
  - apply lastAnn_some in H. destruct H as [h1 [h2 [-> _]]]. apply in_app_iff. cbn; auto.
  - destruct (lastAnn h w n) as [e'|] eqn:L.
    + f_equal. apply (O w n); auto. apply lastAnn_some in L. destruct L as [h1 [h2 [-> _]]]. apply in_app_iff. cbn; auto.
    + apply lastAnn_none in L. exfalso. eapply L; eauto.
Qed.
Lemma one_edge_sub : forall h g, one_edge_per_way (h ++ g) -> one_edge_per_way h /\ one_edge_per_way g.
Proof. intros h g O. split; intros w n e e' H H'; apply (O w n); apply in_app_iff; auto. Qed.
Lemma one_edge_app : forall h g w n, one_edge_per_way (h ++ g) ->
  (match lastAnn h w n with Some e => Some e | None => lastAnn g w n end) = lastAnn (h ++ g) w n.
Proof.
  intros h g w n O. rewrite lastAnn_app. destruct (lastAnn h w n) eqn:A, (lastAnn g w n) eqn:B; auto.
  destruct (one_edge_sub _ _ O) as [O1 O2]. apply one_edge_last in A; auto. apply one_edge_last in B; auto.
  f_equal. apply (O w n); apply in_app_iff; auto.
Qed.
Lemma entries_one_edge : forall pos via h, one_edge_per_way h ->
  map asRule (entries pos via (rev h)) = flat_map (addRuleOf pos via h) h.
Proof.
  intros pos via h O.
  assert (G : forall h1 h2, h = h1 ++ h2 ->
    map (fun en => (eF en, lastAnn h (eW en) via)) (entries pos via (rev h1)) = flat_map (addRuleOf pos via h) h1).
  { induction h1 as [|c h1 IH] using rev_ind; intros h2 E; [reflexivity|].
    rewrite rev_app_distr. cbn [rev app]. rewrite flat_map_app. cbn [flat_map]. rewrite app_nil_r.
    assert (E' : h = h1 ++ (c :: h2)) by (rewrite E, <- app_assoc; reflexivity).
    rewrite <- (IH _ E'). destruct c as [f w v p|w n e]; cbn [entries addRuleOf].
    - destruct ((v =? via) && Bool.eqb p pos); [rewrite map_app; reflexivity|rewrite app_nil_r; reflexivity].
    - rewrite app_nil_r. destruct (n =? via); auto. rewrite map_map. apply map_ext. intros x. unfold late.
      destruct (open_ w x); reflexivity. }
  rewrite <- (G h [] (eq_sym (app_nil_r h))). apply map_ext_in. intros en I.
  unfold asRule. f_equal. destruct (ent_sound _ _ _ _ I) as [h1 [h2 [H [L [E1 E2]]]]]. rewrite rev_involutive in H.
  unfold target. rewrite E2, E1. rewrite H in O |- *.
  change (h1 ++ Add (eF en) (eW en) via pos :: h2) with (h1 ++ [Add (eF en) (eW en) via pos] ++ h2).
  assert (X : lastAnn (Add (eF en) (eW en) via pos :: h2) (eW en) via = lastAnn h2 (eW en) via)
    by (cbn; destruct (lastAnn h2 (eW en) via); auto).
  rewrite <- (one_edge_app h1 (Add (eF en) (eW en) via pos :: h2)); auto. rewrite X.
  destruct (lastAnn h1 (eW en) via); auto.
Qed.
Definition tableMay (pos neg : list rule) (from to : nat) : bool :=
  match posLoop pos from to with Some b => b | None => negb (existsb (hits from to) neg) end.
Lemma may_table : forall h r, runR emptyRestr h = Some r -> one_edge_per_way h -> forall from to via,
  may r from to via = tableMay (flat_map (addRuleOf true via h) h) (flat_map (addRuleOf false via h) h) from to.
Proof.
  intros h r E O from to via. destruct (run_inv h) as [r' [E' [P [Q _]]]].
  rewrite E in E'. injection E' as <-. unfold may, tableMay. rewrite P, Q, !entries_one_edge; auto.
Qed.
Lemma flat_map_adds : forall pos via h0 h, flat_map (addRuleOf pos via h0) h = flat_map (addRuleOf pos via h0) (filter is_add h).
Proof. intros pos via h0. induction h as [|[f w v p|w n e] h IH]; cbn; auto. rewrite IH. reflexivity. Qed.
Lemma addRuleOf_ext : forall pos via h h', (forall w n, lastAnn h w n = lastAnn h' w n) ->
  forall c, addRuleOf pos via h c = addRuleOf pos via h' c.
Proof. intros pos via h h' E [f w v p|w n e]; cbn; auto. rewrite E. reflexivity. Qed.
Lemma perm_lastAnn : forall h h', Permutation h h' -> one_edge_per_way h ->
  one_edge_per_way h' /\ forall w n, lastAnn h w n = lastAnn h' w n.
Proof.
  intros h h' P O.
  assert (O' : one_edge_per_way h').
  { intros w n e e' A B. apply (O w n); apply (Permutation_in _ (Permutation_sym P)); auto. }
  split; auto. intros w n. destruct (lastAnn h w n) as [e|] eqn:L.
  - symmetry. apply one_edge_last; auto. apply (Permutation_in _ P). apply one_edge_last; auto.
  - symmetry. apply lastAnn_none in L. apply lastAnn_none. intros e I. apply (L e).
    apply (Permutation_in _ (Permutation_sym P)). auto.
Qed.
Lemma order_irrelevant : forall h h' r r', Permutation h h' -> filter is_add h = filter is_add h' ->
  one_edge_per_way h -> runR emptyRestr h = Some r -> runR emptyRestr h' = Some r' ->
  forall from to via, may r from to via = may r' from to via.
Proof.
  intros h h' r r' P F O E E' from to via. destruct (perm_lastAnn _ _ P O) as [O' L].
  rewrite (may_table _ _ E O), (may_table _ _ E' O').
  rewrite !(flat_map_adds _ _ h h), !(flat_map_adds _ _ h' h'), F.
  f_equal; apply flat_map_ext; intros c; apply addRuleOf_ext; auto.
Qed.

(** * Reading the ways meeting at a node *)

Lemma restrCalls_add : forall pos raw wid e n f t v p, In (Add f t v p) (restrCalls pos raw wid e n) <->
  f = e /\ v = n /\ p = pos /\ In (wid, t) raw.
Proof.
  intros. unfold restrCalls. rewrite in_flat_map. split.
  - intros [[a b] [I H]]. cbn in H. destruct (Nat.eqb_spec a wid) as [->|].
    + destruct H as [H|[]]. injection H as -> -> -> ->. auto.
    + destruct (b =? wid); [destruct H as [H|[]]; discriminate|destruct H].
  - intros [-> [-> [-> I]]]. exists (wid, t). split; auto. cbn. rewrite Nat.eqb_refl. cbn; auto.
Qed.
Lemma restrCalls_relax : forall pos raw wid e n w n' e', (forall a b, In (a, b) raw -> a <> b) ->
  In (Relax w n' e') (restrCalls pos raw wid e n) <-> w = wid /\ n' = n /\ e' = e /\ exists f, In (f, wid) raw.
Proof.
  intros pos raw wid e n w n' e' D. unfold restrCalls. rewrite in_flat_map. split.
  - intros [[a b] [I H]]. cbn in H. destruct (Nat.eqb_spec a wid) as [->|].
    + destruct H as [H|[]]; discriminate.
    + destruct (Nat.eqb_spec b wid) as [->|]; [|destruct H].
      destruct H as [H|[]]. injection H as -> -> ->. eauto.
  - intros [-> [-> [-> [f I]]]]. exists (f, wid). split; auto. cbn.
    pose proof (D _ _ I). destruct (Nat.eqb_spec f wid); [congruence|]. rewrite Nat.eqb_refl. cbn; auto.
Qed.

Section ReadAt.
Variable pos neg : list (nat * nat).
Variable n : nat.
Variable segs : list (nat * nat).
Hypothesis W : NoDup (map fst segs).
Hypothesis ED : NoDup (map snd segs).
Hypothesis DP : forall a b, In (a, b) (pos ++ neg) -> a <> b.

Notation H := (readAt pos neg n segs).
Lemma DPp : forall a b, In (a, b) pos -> a <> b. Proof. intros. apply DP, in_app_iff; auto. Qed.
Lemma DPn : forall a b, In (a, b) neg -> a <> b. Proof. intros. apply DP, in_app_iff; auto. Qed.

Lemma readAt_relax : forall w n' e, In (Relax w n' e) H <->
  n' = n /\ In (w, e) segs /\ exists f, In (f, w) (pos ++ neg).
Proof.
  intros w n' e. unfold readAt. rewrite in_flat_map. split.
  - intros [[w' e'] [I X]]. unfold processRestr in X. cbn in X. rewrite in_app_iff in X.
    rewrite !restrCalls_relax in X by (try apply DPp; apply DPn).
    destruct X as [[-> [-> [-> [f F]]]]|[-> [-> [-> [f F]]]]]; repeat split; auto; exists f; apply in_app_iff; auto.
  - intros [-> [I [f F]]]. exists (w, e). split; auto. unfold processRestr. cbn. rewrite in_app_iff.
    rewrite !restrCalls_relax by (try apply DPp; apply DPn).
    apply in_app_iff in F. destruct F as [F|F]; [left|right]; eauto 6.
Qed.
Lemma fst_inj : forall w e e', In (w, e) segs -> In (w, e') segs -> e = e'.
Proof.
  intros w e e' I I'. clear - W I I'. induction segs as [|[a b] l IH]; [destruct I|]. cbn in W. inversion W; subst.
  destruct I as [I|I], I' as [I'|I'].
  - congruence.
  - injection I as -> ->. exfalso. apply H1. apply in_map_iff. exists (w, e'). auto.
  - injection I' as -> ->. exfalso. apply H1. apply in_map_iff. exists (w, e). auto.
  - auto.
Qed.
Lemma snd_inj : forall w w' e, In (w, e) segs -> In (w', e) segs -> w = w'.
Proof.
  intros w w' e I I'. clear - ED I I'. induction segs as [|[a b] l IH]; [destruct I|]. cbn in ED. inversion ED; subst.
  destruct I as [I|I], I' as [I'|I'].
  - congruence.
  - injection I as -> ->. exfalso. apply H1. apply in_map_iff. exists (w', e). auto.
  - injection I' as -> ->. exfalso. apply H1. apply in_map_iff. exists (w, e). auto.
  - auto.
Qed.
Lemma readAt_one_edge : one_edge_per_way H.
Proof. intros w m e e' A B. apply readAt_relax in A, B. destruct A as [_ [A _]], B as [_ [B _]]. eapply fst_inj; eauto. Qed.

Definition edgeOf (w : nat) : option nat := option_map snd (find (fun s => fst s =? w) segs).
Lemma edgeOf_some : forall w e, edgeOf w = Some e <-> In (w, e) segs.
Proof.
  intros w e. unfold edgeOf. split.
  - destruct (find _ segs) as [[a b]|] eqn:F; [|discriminate]. cbn. intros X. injection X as ->.
    apply find_some in F. destruct F as [I X]. cbn in X. apply Nat.eqb_eq in X. subst. auto.
  - intros I. destruct (find _ segs) as [[a b]|] eqn:F.
    + apply find_some in F. destruct F as [I' X]. cbn in X. apply Nat.eqb_eq in X. subst. cbn. f_equal. eapply fst_inj; eauto.
    + exfalso. apply (find_none _ _ F) in I. cbn in I. rewrite Nat.eqb_refl in I. discriminate.
Qed.
Lemma edgeOf_lastAnn : forall f w, In (f, w) (pos ++ neg) -> lastAnn H w n = edgeOf w.
Proof.
  intros f w I. destruct (edgeOf w) as [e|] eqn:E.
  - apply one_edge_last; [apply readAt_one_edge|]. apply readAt_relax. apply edgeOf_some in E. eauto.
  - apply lastAnn_none. intros e X. apply readAt_relax in X. destruct X as [_ [X _]]. apply edgeOf_some in X. congruence.
Qed.

(** The rules of the edge [ef] of way [wf], in the order of the restrictions. *)
Lemma rules_of_edge : forall (p : bool) raw (RAW : raw = if p then pos else neg) wf ef, In (wf, ef) segs ->
  filter (fun r => fst r =? ef) (flat_map (addRuleOf p n H) H) =
  map (fun kv => (ef, edgeOf (snd kv))) (filter (fun kv => fst kv =? wf) raw).
Proof.
  intros p raw RAW wf ef I. set (h := H). unfold readAt in h. assert (HH : h = H) by reflexivity. clearbody h.
  rewrite HH at 2. unfold readAt.
  assert (FA : forall (g : list rcall), filter (fun r => fst r =? ef) (flat_map (addRuleOf p n h) g) =
               flat_map (fun c => filter (fun r => fst r =? ef) (addRuleOf p n h c)) g).
  { induction g as [|c g IHg]; [reflexivity|]. cbn [flat_map]. rewrite filter_app. f_equal. exact IHg. }
  rewrite FA.
  assert (FF : forall A B C (a : A -> list B) (b : B -> list C) l, flat_map b (flat_map a l) = flat_map (fun x => flat_map b (a x)) l).
  { induction l; cbn; auto. rewrite flat_map_app, IHl. reflexivity. }
  rewrite FF.
  assert (ONE : forall s, In s segs ->
    flat_map (fun c => filter (fun r => fst r =? ef) (addRuleOf p n h c)) (processRestr pos neg (fst s) (snd s) n) =
    if snd s =? ef then map (fun kv => (ef, edgeOf (snd kv))) (filter (fun kv => fst kv =? wf) raw) else []).
  { intros [w e] S. cbn [fst snd]. unfold processRestr. rewrite flat_map_app.
    assert (RC : forall q rw, (forall a b, In (a, b) rw -> In (a, b) (pos ++ neg)) ->
      flat_map (fun c => filter (fun r => fst r =? ef) (addRuleOf p n h c)) (restrCalls q rw w e n) =
      if (e =? ef) && Bool.eqb q p then map (fun kv => (ef, edgeOf (snd kv))) (filter (fun kv => fst kv =? wf) rw) else []).
    { intros q rw SUB. unfold restrCalls. rewrite FF. induction rw as [|[a b] rw IH]; cbn [flat_map filter].
      - destruct ((e =? ef) && Bool.eqb q p); reflexivity.
      - rewrite IH by (intros; apply SUB; cbn; auto). cbn [fst snd].
        destruct (Nat.eqb_spec a w) as [->|NA].
        + cbn [flat_map addRuleOf]. rewrite Nat.eqb_refl. cbn [andb]. rewrite app_nil_r.
          destruct (Bool.eqb q p); rewrite ?andb_true_r, ?andb_false_r; cbn [filter fst]; auto.
          destruct (Nat.eqb_spec e ef) as [->|NE]; auto.
          assert (w = wf) by (eapply snd_inj; eauto). subst w. rewrite Nat.eqb_refl. cbn. f_equal. f_equal.
          rewrite HH. eapply edgeOf_lastAnn. apply SUB. cbn; auto.
        + assert (X : flat_map (fun c => filter (fun r => fst r =? ef) (addRuleOf p n h c))
                        (if b =? w then [Relax w n e] else []) = []) by (destruct (b =? w); reflexivity).
          rewrite X. cbn [app]. destruct ((e =? ef) && Bool.eqb q p) eqn:B; auto.
          apply andb_true_iff in B. destruct B as [B _]. apply Nat.eqb_eq in B. subst e.
          assert (w = wf) by (eapply snd_inj; eauto). subst w. apply Nat.eqb_neq in NA. rewrite NA. reflexivity. }
    rewrite !RC by (intros; apply in_app_iff; auto). destruct p; cbn; rewrite ?andb_true_r, ?andb_false_r, ?app_nil_r, RAW; auto. }
  clear FA FF HH. revert I. generalize W, ED. intros W0 E0 I.
  assert (SEL : forall l, incl l segs -> NoDup (map snd l) ->
    flat_map (fun s => flat_map (fun c => filter (fun r => fst r =? ef) (addRuleOf p n h c)) (processRestr pos neg (fst s) (snd s) n)) l =
    if existsb (fun s => snd s =? ef) l then map (fun kv => (ef, edgeOf (snd kv))) (filter (fun kv => fst kv =? wf) raw) else []).
  { induction l as [|s l IH]; intros INC ND; auto. cbn [flat_map existsb]. rewrite ONE by (apply INC; cbn; auto).
    cbn [map] in ND. inversion ND; subst. rewrite IH; auto; [|intros x X; apply INC; cbn; auto].
    destruct (Nat.eqb_spec (snd s) ef) as [E|NE]; cbn; auto.
    replace (existsb (fun s0 => snd s0 =? ef) l) with false; [apply app_nil_r|].
    symmetry. apply not_true_is_false. intros X. apply existsb_exists in X. destruct X as [y [Y1 Y2]]. apply Nat.eqb_eq in Y2.
    apply H1. apply in_map_iff. exists y. split; [congruence|auto]. }
  rewrite SEL; [|apply incl_refl|auto].
  replace (existsb (fun s => snd s =? ef) segs) with true; auto.
  symmetry. apply existsb_exists. exists (wf, ef). cbn. rewrite Nat.eqb_refl. auto.
Qed.

Lemma posLoop_filter : forall l from to, posLoop l from to = posLoop (filter (fun r => fst r =? from) l) from to.
Proof.
  induction l as [|[f [e|]] l IH]; intros from to; cbn; auto.
  - destruct (Nat.eqb_spec f from) as [->|N]; cbn; [rewrite Nat.eqb_refl; auto|auto].
  - destruct (f =? from); cbn; auto.
Qed.
Lemma hits_filter : forall l from to, existsb (hits from to) l = existsb (hits from to) (filter (fun r => fst r =? from) l).
Proof.
  induction l as [|[f t] l IH]; intros from to; cbn; auto. unfold hits at 1. cbn.
  destruct (Nat.eqb_spec f from) as [->|N]; cbn; rewrite IH; auto. unfold hits at 2. cbn. rewrite Nat.eqb_refl. reflexivity.
Qed.

Lemma posLoop_raw_some : forall ef to raw wf, posLoop (map (fun kv => (ef, edgeOf (snd kv))) (filter (fun kv => fst kv =? wf) raw)) ef to = Some true <->
  exists t, mandatory_way raw (map fst segs) wf t /\ edgeOf t = Some to.
Proof.
  intros ef to raw wf. unfold mandatory_way.
  assert (KN : forall w, In w (map fst segs) <-> edgeOf w <> None).
  { intros w. rewrite in_map_iff. split.
    - intros [[a b] [<- X]]. apply edgeOf_some in X. cbn. congruence.
    - destruct (edgeOf w) as [e|] eqn:E; [|congruence]. intros _. apply edgeOf_some in E. exists (w, e). auto. }
  induction raw as [|[a b] raw IH]; cbn [filter map fst snd].
  - cbn. split; [discriminate|]. intros [t [[[|? ?] [p2 [X _]]] _]]; discriminate.
  - destruct (Nat.eqb_spec a wf) as [->|N]; cbn [map posLoop snd].
    + destruct (edgeOf b) as [e|] eqn:E.
      * rewrite Nat.eqb_refl. split.
        -- intros X. injection X as X. apply Nat.eqb_eq in X. subst e. exists b. split; auto.
           exists [], raw. repeat split; auto. apply KN. congruence.
        -- intros [t [[p1 [p2 [X [IN F]]]] T]]. destruct p1 as [|q p1].
           ++ cbn in X. injection X as -> ->. rewrite E in T. injection T as ->. rewrite Nat.eqb_refl. auto.
           ++ cbn in X. injection X as <- X. exfalso. apply (F b); [cbn; auto|]. apply KN. congruence.
      * rewrite IH. split.
        -- intros [t [[p1 [p2 [-> [IN F]]]] T]]. exists t. split; auto. exists ((wf, b) :: p1), p2. repeat split; auto.
           intros t' [X|X]; [injection X as <-; rewrite KN; congruence|auto].
        -- intros [t [[p1 [p2 [X [IN F]]]] T]]. exists t. split; auto. destruct p1 as [|q p1].
           ++ cbn in X. injection X as -> ->. congruence.
           ++ cbn in X. injection X as <- ->. exists p1, p2. repeat split; auto. intros; apply F; cbn; auto.
    + rewrite IH. split.
      * intros [t [[p1 [p2 [-> [IN F]]]] T]]. exists t. split; auto. exists ((a, b) :: p1), p2. repeat split; auto.
        intros t' [X|X]; [injection X as -> <-; congruence|auto].
      * intros [t [[p1 [p2 [X [IN F]]]] T]]. exists t. split; auto. destruct p1 as [|q p1].
        -- cbn in X. injection X as -> -> ->. congruence.
        -- cbn in X. injection X as <- ->. exists p1, p2. repeat split; auto. intros; apply F; cbn; auto.
Qed.
Lemma posLoop_raw_none : forall ef to raw wf, posLoop (map (fun kv => (ef, edgeOf (snd kv))) (filter (fun kv => fst kv =? wf) raw)) ef to = None <->
  forall t, ~ mandatory_way raw (map fst segs) wf t.
Proof.
  intros ef to raw wf. split.
  - intros N t M.
    assert (exists e, edgeOf t = Some e) as [e E].
    { destruct M as [p1 [p2 [_ [IN _]]]]. apply in_map_iff in IN. destruct IN as [[a b] [<- X]]. exists b. apply edgeOf_some. auto. }
    assert (X : posLoop (map (fun kv => (ef, edgeOf (snd kv))) (filter (fun kv => fst kv =? wf) raw)) ef e = Some true)
      by (apply posLoop_raw_some; eauto).
    rewrite (posLoop_other _ _ _ e N) in X. discriminate.
  - intros N. destruct (posLoop _ ef to) as [b|] eqn:L; auto. exfalso.
    assert (exists e, posLoop (map (fun kv => (ef, edgeOf (snd kv))) (filter (fun kv => fst kv =? wf) raw)) ef e = Some true) as [e X].
    { clear - L. induction (filter (fun kv => fst kv =? wf) raw) as [|[x y] l IH]; cbn in *; [discriminate|].
      destruct (edgeOf y) as [e|]; [|auto]. exists e. rewrite !Nat.eqb_refl. auto. }
    apply posLoop_raw_some in X. destruct X as [t [M _]]. eapply N; eauto.
Qed.

Lemma read_at_node : exists r, runR emptyRestr H = Some r /\
  forall wf ef wt et, In (wf, ef) segs -> In (wt, et) segs ->
    (may r ef et n = true <-> way_turn_allowed pos neg (map fst segs) wf wt).
Proof.
  destruct (run_inv H) as [r [E _]]. exists r. split; auto. intros wf ef wt et F T.
  rewrite (may_table _ _ E readAt_one_edge). unfold tableMay.
  rewrite posLoop_filter, hits_filter, (rules_of_edge true pos eq_refl wf ef F), (rules_of_edge false neg eq_refl wf ef F).
  unfold way_turn_allowed.
  pose proof (posLoop_raw_some ef et pos wf) as PS. pose proof (posLoop_raw_none ef et pos wf) as PN.
  destruct (posLoop _ ef et) as [[|]|] eqn:L.
  - split; auto. intros _. left. destruct (proj1 PS eq_refl) as [t [M X]]. apply edgeOf_some in X.
    assert (t = wt) by (eapply snd_inj; eauto). subst; auto.
  - split; [discriminate|]. intros [M|[N _]].
    + assert (Some false = Some true) as X; [|discriminate]. apply PS. exists wt. split; auto. apply edgeOf_some. auto.
    + exfalso. assert (Some false = None) as X; [|discriminate]. apply PN. auto.
  - assert (NM := proj1 PN eq_refl).
    assert (NEG : existsb (hits ef et) (map (fun kv => (ef, edgeOf (snd kv))) (filter (fun kv => fst kv =? wf) neg)) = true <->
                  In (wf, wt) neg).
    { rewrite existsb_exists. split.
      - intros [x [I X]]. apply in_map_iff in I. destruct I as [[a b] [<- I]]. apply filter_In in I. destruct I as [I A].
        cbn in A. apply Nat.eqb_eq in A. subst a. unfold hits in X. cbn in X. rewrite Nat.eqb_refl in X. cbn in X.
        destruct (edgeOf b) as [e|] eqn:B; [|discriminate]. apply Nat.eqb_eq in X. subst e. apply edgeOf_some in B.
        assert (b = wt) by (eapply snd_inj; eauto). subst; auto.
      - intros I. exists (ef, edgeOf wt). split.
        + apply in_map_iff. exists (wf, wt). split; auto. apply filter_In. cbn. rewrite Nat.eqb_refl. auto.
        + unfold hits. cbn. apply edgeOf_some in T. rewrite T, !Nat.eqb_refl. reflexivity. }
    destruct (existsb _ _); cbn.
    + split; [discriminate|]. intros [M|[_ X]]; [exfalso; eapply NM; eauto|]. exfalso. apply X, NEG. auto.
    + split; auto. intros _. right. split; auto. intros X. apply NEG in X. discriminate.
Qed.
End ReadAt.

(** * Splitting and duplicating edges *)

Definition ren (old new x : nat) : nat := if x =? old then new else x.
Lemma posLoop_map : forall (g : nat -> nat) l from to,
  (forall f, In f (map fst l) -> g f = g from -> f = from) ->
  (forall e, In (Some e) (map snd l) -> g e = g to -> e = to) ->
  posLoop (map (fun r => (g (fst r), option_map g (snd r))) l) (g from) (g to) = posLoop l from to.
Proof.
  intros g. induction l as [|[f [e|]] l IH]; intros from to A B; cbn; auto.
  - destruct (Nat.eqb_spec f from) as [->|N].
    + rewrite Nat.eqb_refl. f_equal. destruct (Nat.eqb_spec e to) as [->|NE]; [apply Nat.eqb_refl|].
      apply Nat.eqb_neq. intros X. apply NE, B; cbn; auto.
    + destruct (Nat.eqb_spec (g f) (g from)) as [X|]; [exfalso; apply N, A; cbn; auto|].
      apply IH; intros; [apply A|apply B]; cbn; auto.
  - apply IH; intros; [apply A|apply B]; cbn; auto.
Qed.
Lemma hits_map : forall (g : nat -> nat) l from to,
  (forall f, In f (map fst l) -> g f = g from -> f = from) ->
  (forall e, In (Some e) (map snd l) -> g e = g to -> e = to) ->
  existsb (hits (g from) (g to)) (map (fun r => (g (fst r), option_map g (snd r))) l) = existsb (hits from to) l.
Proof.
  intros g. induction l as [|[f t] l IH]; intros from to A B; cbn; auto. rewrite IH; [|intros; apply A; cbn; auto|intros; apply B; cbn; auto].
  f_equal. unfold hits. cbn. f_equal.
  - destruct (Nat.eqb_spec f from) as [->|N]; [apply Nat.eqb_refl|]. apply Nat.eqb_neq. intros X. apply N, A; cbn; auto.
  - destruct t as [e|]; cbn; auto. destruct (Nat.eqb_spec e to) as [->|N]; [apply Nat.eqb_refl|].
    apply Nat.eqb_neq. intros X. apply N, B; cbn; auto.
Qed.
Definition mentions (l : list rule) (e : nat) : Prop := In e (map fst l) \/ In (Some e) (map snd l).
Definition unmentioned (r : restr) (e via : nat) : Prop := ~ mentions (rPos r via) e /\ ~ mentions (rNeg r via) e.
Lemma mentions_named : forall l e, mentions l e <-> named l e.
Proof.
  intros l e. unfold mentions, named. rewrite !in_map_iff. split.
  - intros [[[f t] [X I]]|[[f t] [X I]]]; cbn in X; subst; eauto 7.
  - intros [f [t [I [->| ->]]]]; [left; exists (e, t)|right; exists (f, Some e)]; auto.
Qed.
Lemma unmentioned_iff : forall r e via, not_named r e via <-> unmentioned r e via.
Proof. intros. unfold not_named, unmentioned. rewrite !mentions_named. tauto. Qed.

Lemma replIn_map : forall old new l, map (replIn old new) l = map (fun r : rule => (ren old new (fst r), option_map (ren old new) (snd r))) l.
Proof.
  intros. apply map_ext. intros [f [e|]]; unfold replIn, ren; cbn; auto. destruct (e =? old); reflexivity.
Qed.
Lemma ren_inj : forall old new f x, f <> new -> x <> new -> ren old new f = ren old new x -> f = x.
Proof. intros old new f x A B. unfold ren. destruct (Nat.eqb_spec f old), (Nat.eqb_spec x old); congruence. Qed.

Lemma tableMay_ren : forall old new p q from to,
  ~ mentions p new -> ~ mentions q new -> from <> new -> to <> new ->
  tableMay (map (replIn old new) p) (map (replIn old new) q) (ren old new from) (ren old new to) = tableMay p q from to.
Proof.
  intros old new p q from to P Q F T. unfold tableMay. rewrite !replIn_map.
  rewrite posLoop_map, hits_map; auto.
  - intros f I. apply ren_inj; auto. intros ->. apply Q. left; auto.
  - intros e I. apply ren_inj; auto. intros ->. apply Q. right; auto.
  - intros f I. apply ren_inj; auto. intros ->. apply P. left; auto.
  - intros e I. apply ren_inj; auto. intros ->. apply P. right; auto.
Qed.

Ltac sets := repeat (rewrite set1_eq || rewrite set1_ne by auto).

Lemma tableMay_eq : forall p q from to, tableMay p q from to =
  match posLoop p from to with Some b => b | None => negb (existsb (hits from to) q) end.
Proof. reflexivity. Qed.

Section Graph.
Variable eFrom eTo : nat -> nat.

(** The piece that touches an end of the split edge. *)
Lemma replace_at_from : forall r old newA newB from to piece,
  (piece = if (eFrom old =? eFrom newA) || (eFrom old =? eTo newA) then newA else newB) ->
  eFrom old <> eTo old -> unmentioned r piece (eFrom old) -> from <> piece -> to <> piece ->
  may (replaceEdge eFrom eTo r old newA newB) (ren old piece from) (ren old piece to) (eFrom old) = may r from to (eFrom old).
Proof.
  intros r old newA newB from to piece -> N [UP UN] F T. unfold replaceEdge.
  destruct ((eFrom old =? eFrom newA) || (eFrom old =? eTo newA)) eqn:C.
  - unfold may, replaceAt. cbn. sets. apply (tableMay_ren old newA); auto.
  - unfold may, replaceAt. cbn. sets. apply (tableMay_ren old newB); auto.
Qed.
Lemma replace_at_to : forall r old newA newB from to piece,
  (piece = if (eFrom old =? eFrom newA) || (eFrom old =? eTo newA) then newB else newA) ->
  eFrom old <> eTo old -> unmentioned r piece (eTo old) -> from <> piece -> to <> piece ->
  may (replaceEdge eFrom eTo r old newA newB) (ren old piece from) (ren old piece to) (eTo old) = may r from to (eTo old).
Proof.
  intros r old newA newB from to piece -> N [UP UN] F T. unfold replaceEdge.
  destruct ((eFrom old =? eFrom newA) || (eFrom old =? eTo newA)) eqn:C.
  - unfold may, replaceAt. cbn. sets. apply (tableMay_ren old newB); auto.
  - unfold may, replaceAt. cbn. sets. apply (tableMay_ren old newA); auto.
Qed.
Lemma replace_elsewhere : forall r old newA newB from to via, via <> eFrom old -> via <> eTo old ->
  may (replaceEdge eFrom eTo r old newA newB) from to via = may r from to via.
Proof.
  intros r old newA newB from to via N1 N2. unfold replaceEdge.
  destruct (if (eFrom old =? eFrom newA) || (eFrom old =? eTo newA) then (newA, newB) else (newB, newA)) as [a b].
  unfold may, replaceAt. cbn. sets. reflexivity.
Qed.

(** The edge a rule was read for: the new edge stands for the old one. *)
Lemma dup_from : forall old new via l, eTo old <> via -> eFrom old = via ->
  map (dupIn eFrom eTo old via new) l = map (fun r : rule => (ren old new (fst r), snd r)) l.
Proof.
  intros old new via l N E. apply map_ext. intros [f [e|]]; unfold dupIn, ren; cbn.
  - rewrite E, Nat.eqb_refl. cbn. rewrite andb_false_r. destruct (Nat.eqb_spec (eTo old) via); [congruence|].
    cbn. rewrite andb_true_r. reflexivity.
  - destruct (Nat.eqb_spec (eTo old) via); [congruence|]. cbn. rewrite andb_true_r. reflexivity.
Qed.
Lemma dup_to : forall old new via l, eFrom old <> via -> eTo old = via ->
  map (dupIn eFrom eTo old via new) l = map (fun r : rule => (fst r, option_map (ren old new) (snd r))) l.
Proof.
  intros old new via l N E. apply map_ext. intros [f [e|]]; unfold dupIn, ren; cbn.
  - rewrite E, Nat.eqb_refl. cbn. rewrite andb_false_r. destruct (Nat.eqb_spec (eFrom old) via); [congruence|].
    cbn. rewrite andb_true_r. destruct (e =? old); reflexivity.
  - rewrite E, Nat.eqb_refl. cbn. rewrite andb_false_r. reflexivity.
Qed.
Lemma tableMay_map2 : forall (g k : nat -> nat) p q from to,
  (forall f, In f (map fst p) \/ In f (map fst q) -> g f = g from -> f = from) ->
  (forall e, In (Some e) (map snd p) \/ In (Some e) (map snd q) -> k e = k to -> e = to) ->
  tableMay (map (fun r => (g (fst r), option_map k (snd r))) p) (map (fun r => (g (fst r), option_map k (snd r))) q) (g from) (k to)
  = tableMay p q from to.
Proof.
  intros g k p q from to A B. unfold tableMay.
  assert (PL : forall l, (forall f, In f (map fst l) -> g f = g from -> f = from) ->
     (forall e, In (Some e) (map snd l) -> k e = k to -> e = to) ->
     posLoop (map (fun r => (g (fst r), option_map k (snd r))) l) (g from) (k to) = posLoop l from to /\
     existsb (hits (g from) (k to)) (map (fun r => (g (fst r), option_map k (snd r))) l) = existsb (hits from to) l).
  { induction l as [|[f t] l IH]; intros A' B'; [auto|].
    destruct IH as [IH1 IH2]; [intros; apply A'; cbn; auto|intros; apply B'; cbn; auto|].
    assert (FE : (g f =? g from) = (f =? from)).
    { destruct (Nat.eqb_spec f from) as [->|N]; [apply Nat.eqb_refl|]. apply Nat.eqb_neq. intros X. apply N, A'; cbn; auto. }
    assert (TE : forall e, t = Some e -> (k e =? k to) = (e =? to)).
    { intros e ->. destruct (Nat.eqb_spec e to) as [->|N]; [apply Nat.eqb_refl|]. apply Nat.eqb_neq. intros X. apply N, B'; cbn; auto. }
    cbn. rewrite IH2. unfold hits at 1 3. cbn. rewrite FE. destruct t as [e|]; cbn.
    - rewrite (TE e eq_refl), IH1. auto.
    - rewrite IH1. auto. }
  destruct (PL p) as [P1 _]; auto. destruct (PL q) as [_ Q2]; auto. rewrite P1, Q2. reflexivity.
Qed.

(** For a turn arriving on [f'] and leaving on [t'] at [via]: the new edge has the
    permissions of the old one. *)
Lemma duplicate_turn : forall r old new f' t' via,
  eFrom new = eTo old -> eTo new = eFrom old -> eFrom old <> eTo old -> old <> new ->
  unmentioned r new via ->
  (f' = old \/ f' = new -> eTo f' = via) -> (t' = old \/ t' = new -> eFrom t' = via) ->
  may (duplicateEdge eFrom eTo r old new) f' t' via = may r (ren new old f') (ren new old t') via.
Proof.
  intros r old new f' t' via EF ET NL NE [UP UN] AR DE. unfold duplicateEdge, may, duplicateAt. cbn.
  assert (RN : forall x, x <> new -> ren new old x = x) by (intros x X; unfold ren; destruct (Nat.eqb_spec x new); congruence).
  assert (RR : ren new old new = old) by (unfold ren; rewrite Nat.eqb_refl; auto).
  assert (BACK : forall x, x <> old -> x = ren old new (ren new old x)).
  { intros x N. unfold ren. destruct (Nat.eqb_spec x new) as [->|]; [rewrite Nat.eqb_refl; auto|]. destruct (Nat.eqb_spec x old); congruence. }
  assert (NN : forall x, ren new old x <> new) by (intros x; unfold ren; destruct (Nat.eqb_spec x new); congruence).
  destruct (Nat.eq_dec via (eFrom old)) as [V|NV].
  - subst via. sets. rewrite !dup_from by auto.
    assert (f' <> old) by (intros ->; specialize (AR (or_introl eq_refl)); congruence).
    assert (t' <> new) by (intros ->; specialize (DE (or_intror eq_refl)); congruence).
    rewrite (RN t') by auto.
    assert (X : forall l : list rule, map (fun r0 => (ren old new (fst r0), snd r0)) l =
                map (fun r0 => (ren old new (fst r0), option_map (fun x => x) (snd r0))) l).
    { intros l. apply map_ext. intros [a [b|]]; reflexivity. }
    rewrite !X.
    pose proof (BACK f' H) as F.
    rewrite <- (tableMay_eq (rPos r (eFrom old))). rewrite <- (tableMay_map2 (ren old new) (fun x => x)); [rewrite <- F; reflexivity| |].
    + intros f I. apply ren_inj; [|apply NN]. intros ->. destruct I; [apply UP|apply UN]; left; auto.
    + auto.
  - destruct (Nat.eq_dec via (eTo old)) as [V|NV'].
    + subst via. sets. rewrite !dup_to by auto.
      assert (t' <> old) by (intros ->; specialize (DE (or_introl eq_refl)); congruence).
      assert (f' <> new) by (intros ->; specialize (AR (or_intror eq_refl)); congruence).
      rewrite (RN f') by auto.
      pose proof (BACK t' H) as F.
      rewrite <- (tableMay_eq (rPos r (eTo old))). rewrite <- (tableMay_map2 (fun x => x) (ren old new)); [rewrite <- F; reflexivity| |].
      * auto.
      * intros e I. apply ren_inj; [|apply NN]. intros ->. destruct I; [apply UP|apply UN]; right; auto.
    + sets. rewrite !RN; auto.
      * intros ->. specialize (DE (or_intror eq_refl)). congruence.
      * intros ->. specialize (AR (or_intror eq_refl)). congruence.
Qed.

Lemma mentions_dup : forall old via new l x, mentions (map (dupIn eFrom eTo old via new) l) x -> x = new \/ mentions l x.
Proof.
  intros old via new l x M. apply mentions_named in M. destruct M as [f [t [I M]]].
  apply in_map_iff in I. destruct I as [[a b] [E I]]. unfold dupIn in E. cbn in E. injection E as E1 E2.
  rewrite mentions_named. unfold named. destruct M as [->| ->].
  - destruct ((a =? old) && negb (eTo old =? via)); [auto|]. right. eauto.
  - destruct b as [b|]; [|discriminate]. destruct ((b =? old) && negb (eFrom old =? via)); injection E2 as <-; [auto|]. right. eauto.
Qed.
Lemma unmentioned_dup : forall r old new via x, x <> new -> unmentioned r x via ->
  unmentioned (duplicateEdge eFrom eTo r old new) x via.
Proof.
  intros r old new via x N [P Q].
  assert (ONE : forall r0 v, ~ mentions (rPos r0 via) x /\ ~ mentions (rNeg r0 via) x ->
    ~ mentions (rPos (duplicateAt eFrom eTo r0 old v new) via) x /\ ~ mentions (rNeg (duplicateAt eFrom eTo r0 old v new) via) x).
  { intros r0 v [A B]. unfold duplicateAt. cbn. destruct (Nat.eq_dec via v) as [->|NV].
    - rewrite !set1_eq. split; intros M; apply mentions_dup in M; tauto.
    - rewrite !set1_ne by auto. auto. }
  unfold unmentioned, duplicateEdge. apply ONE, ONE. auto.
Qed.

(** All opposite edges. *)
Lemma stands_for_cons : forall o n ps e x, NoDup (map fst ((o, n) :: ps) ++ map snd ((o, n) :: ps)) ->
  stands_for ((o, n) :: ps) e x -> exists y, stands_for ps e y /\ ren n o y = x /\ (y = e \/ y <> o /\ y <> n).
Proof.
  intros o n ps e x ND ST.
  assert (NI : ~ In o (map fst ps) /\ ~ In o (map snd ps) /\ ~ In n (map fst ps) /\ ~ In n (map snd ps) /\ o <> n).
  { cbn in ND. inversion ND as [|? ? A B]; subst. apply NoDup_remove in B. destruct B as [_ B].
    rewrite in_app_iff in A, B. cbn in A. repeat split; intuition. }
  destruct NI as [N1 [N2 [N3 [N4 N5]]]]. destruct ST as [[E|I]|[-> NI]].
  - injection E as -> ->. exists e. split; [right; auto|]. unfold ren. rewrite Nat.eqb_refl. auto.
  - exists x. assert (In x (map fst ps)) by (apply in_map_iff; exists (x, e); auto).
    split; [left; auto|]. split; [unfold ren; destruct (Nat.eqb_spec x n); subst; tauto|].
    right. split; intros ->; tauto.
  - cbn in NI. exists x. split; [right; tauto|]. split; auto. unfold ren. destruct (Nat.eqb_spec x n); [subst; tauto|auto].
Qed.
Lemma duplicate_all_turn : forall ps r f t f0 t0 via,
  opposite_pairs eFrom eTo ps -> (forall n, In n (map snd ps) -> unmentioned r n via) ->
  eTo f = via -> eFrom t = via -> stands_for ps f f0 -> stands_for ps t t0 ->
  may (duplicateAll eFrom eTo r ps) f t via = may r f0 t0 via.
Proof.
  induction ps as [|[o n] ps IH]; intros r f t f0 t0 via [ND OP] UN AR DE SF ST.
  - destruct SF as [[]|[-> _]], ST as [[]|[-> _]]. reflexivity.
  - destruct (stands_for_cons _ _ _ _ _ ND SF) as [y [SY [<- CY]]].
    destruct (stands_for_cons _ _ _ _ _ ND ST) as [z [SZ [<- CZ]]].
    assert (NI : o <> n /\ ~ In n (map snd ps) /\ NoDup (map fst ps ++ map snd ps)).
    { cbn in ND. inversion ND as [|? ? A B]; subst. apply NoDup_remove in B. destruct B as [B C].
      rewrite in_app_iff in A, C. cbn in A. repeat split; auto; intuition. }
    destruct NI as [N1 [N2 N3]]. destruct (OP o n) as [E1 [E2 E3]]; [cbn; auto|].
    change (duplicateAll eFrom eTo r ((o, n) :: ps)) with (duplicateAll eFrom eTo (duplicateEdge eFrom eTo r o n) ps).
    rewrite (IH (duplicateEdge eFrom eTo r o n) f t y z via); auto.
    + apply duplicate_turn; auto.
      * apply UN. cbn; auto.
      * intros X. destruct CY as [->|[A B]]; auto. destruct X; contradiction.
      * intros X. destruct CZ as [->|[A B]]; auto. destruct X; contradiction.
    + split; auto. intros o' n' I. apply OP. cbn; auto.
    + intros m I. apply unmentioned_dup; [intros ->; auto|]. apply UN. cbn; auto.
Qed.
End Graph.

(** * Calls at other nodes do not matter *)

Definition atNode (v : nat) (c : rcall) : bool := match c with Add _ _ via _ => via =? v | Relax _ n _ => n =? v end.
Definition strip (en : ent) : ent := mkEnt (eF en) (eW en) 0 (eEarly en) (eLate en).
Lemma lastAnn_filter : forall h w v, lastAnn (filter (atNode v) h) w v = lastAnn h w v.
Proof.
  induction h as [|c h IH]; intros w v; auto. cbn [filter lastAnn]. destruct (atNode v c) eqn:A; cbn [lastAnn]; rewrite IH; auto.
  destruct (lastAnn h w v); auto. destruct c as [|w' n e]; auto. cbn in A. rewrite A, andb_false_r. auto.
Qed.
Lemma filter_rev : forall A (f : A -> bool) l, filter f (rev l) = rev (filter f l).
Proof.
  intros A f. induction l as [|x l IH]; auto. cbn [rev filter]. rewrite filter_app, IH. cbn [filter].
  destruct (f x); cbn; [reflexivity|apply app_nil_r].
Qed.
Lemma entries_filter : forall pos via rh,
  map strip (entries pos via (filter (atNode via) rh)) = map strip (entries pos via rh).
Proof.
  intros pos via. induction rh as [|c rh IH]; auto. cbn [filter]. destruct c as [f w v p|w n e]; cbn [atNode].
  - destruct (Nat.eqb_spec v via) as [->|N]; cbn [entries].
    + rewrite Nat.eqb_refl. cbn [andb]. destruct (Bool.eqb p pos); auto. rewrite !map_app, IH. cbn.
      rewrite <- filter_rev, lastAnn_filter. reflexivity.
    + apply Nat.eqb_neq in N. rewrite N. auto.
  - destruct (n =? via) eqn:N; cbn [entries]; rewrite N; auto.
    assert (X : forall l, map strip (map (late w e) l) = map (late w e) (map strip l)).
    { intros l. rewrite !map_map. apply map_ext. intros x. unfold late, strip, open_. cbn.
      destruct ((eW x =? w) && match eEarly x with Some _ => false | None => true end); reflexivity. }
    rewrite !X, IH. reflexivity.
Qed.
Lemma asRule_strip : forall l, map asRule l = map asRule (map strip l).
Proof. intros. rewrite map_map. reflexivity. Qed.
Lemma may_filter : forall h v r r', runR emptyRestr h = Some r -> runR emptyRestr (filter (atNode v) h) = Some r' ->
  rPos r v = rPos r' v /\ rNeg r v = rNeg r' v.
Proof.
  intros h v r r' E E'. destruct (run_inv h) as [r1 [E1 [P [Q _]]]]. destruct (run_inv (filter (atNode v) h)) as [r2 [E2 [P' [Q' _]]]].
  rewrite E in E1. rewrite E' in E2. injection E1 as <-. injection E2 as <-.
  rewrite P, Q, P', Q', <- !filter_rev. split.
  - rewrite asRule_strip, (asRule_strip (entries true v (filter (atNode v) (rev h)))), entries_filter. reflexivity.
  - rewrite asRule_strip, (asRule_strip (entries false v (filter (atNode v) (rev h)))), entries_filter. reflexivity.
Qed.
Lemma restrCalls_at : forall p raw w e n v, filter (atNode v) (restrCalls p raw w e n) = if n =? v then restrCalls p raw w e n else [].
Proof.
  intros p raw w e n v. unfold restrCalls. induction raw as [|[a b] raw IH]; cbn [flat_map filter fst snd]; [destruct (n =? v); auto|].
  rewrite filter_app, IH. destruct (n =? v) eqn:N.
  - f_equal. destruct (a =? w); cbn [filter atNode]; [rewrite N; auto|]. destruct (b =? w); cbn [filter atNode]; [rewrite N|]; auto.
  - rewrite app_nil_r. destruct (a =? w); cbn [filter atNode]; [rewrite N; auto|]. destruct (b =? w); cbn [filter atNode]; [rewrite N|]; auto.
Qed.
Lemma processRestr_at : forall p q w e n v, filter (atNode v) (processRestr p q w e n) = if n =? v then processRestr p q w e n else [].
Proof. intros. unfold processRestr. rewrite filter_app, !restrCalls_at. destruct (n =? v); auto. Qed.
Lemma readAll_at : forall pos neg segs v, filter (atNode v) (readAll pos neg segs) = readAt (pos v) (neg v) v (meets segs v).
Proof.
  intros pos neg segs v. unfold readAll, readAt, meets. induction segs as [|s segs IH]; auto.
  cbn [flat_map]. rewrite !filter_app, IH, !processRestr_at, !flat_map_app. f_equal. f_equal.
  - destruct (Nat.eqb_spec (sN s) v) as [->|]; cbn [flat_map fst snd]; auto using app_nil_r.
  - destruct (Nat.eqb_spec (sLast s) v) as [->|]; cbn [flat_map fst snd]; auto using app_nil_r.
Qed.
Lemma read_all : forall pos neg segs, exists r, runR emptyRestr (readAll pos neg segs) = Some r /\
  forall v, NoDup (map fst (meets segs v)) -> NoDup (map snd (meets segs v)) -> no_self (pos v ++ neg v) ->
  forall wf ef wt et, In (wf, ef) (meets segs v) -> In (wt, et) (meets segs v) ->
    (may r ef et v = true <-> way_turn_allowed (pos v) (neg v) (map fst (meets segs v)) wf wt).
Proof.
  intros pos neg segs. destruct (run_inv (readAll pos neg segs)) as [r [E _]]. exists r. split; auto.
  intros v W D S wf ef wt et F T.
  destruct (read_at_node (pos v) (neg v) v (meets segs v) W D S) as [r' [E' R]].
  rewrite <- (R wf ef wt et F T). rewrite <- readAll_at in E'. destruct (may_filter _ _ _ _ E E') as [P Q].
  unfold may. rewrite P, Q. tauto.
Qed.

(** The table read from the ways names only edges that were read. *)
Lemma table_names : forall pos neg segs r v e, runR emptyRestr (readAll pos neg segs) = Some r ->
  ~ In e (map sEdge segs) -> unmentioned r e v.
Proof.
  intros pos neg segs r v e E N. destruct (run_inv (readAll pos neg segs)) as [r1 [E1 [P [Q _]]]].
  rewrite E in E1. injection E1 as <-.
  assert (SRC : forall c, In c (readAll pos neg segs) -> match c with Add f _ _ _ => f <> e | Relax _ _ x => x <> e end).
  { intros c I. unfold readAll in I. apply in_flat_map in I. destruct I as [s [S I]].
    assert (NE : sEdge s <> e) by (intros X; apply N, in_map_iff; eauto).
    assert (R : forall p raw n, In c (restrCalls p raw (sWay s) (sEdge s) n) ->
      match c with Add f _ _ _ => f <> e | Relax _ _ x => x <> e end).
    { intros p raw n R. unfold restrCalls in R. apply in_flat_map in R. destruct R as [[a b] [_ R]].
      destruct (_ =? _); [destruct R as [<-|[]]; auto|]. destruct (_ =? _); [destruct R as [<-|[]]; auto|destruct R]. }
    unfold processRestr in I. rewrite !in_app_iff in I. destruct I as [[I|I]|[I|I]]; eapply R; eauto. }
  assert (LA : forall h1 h2 w x, readAll pos neg segs = h1 ++ h2 -> lastAnn h1 w v = Some x \/ lastAnn h2 w v = Some x -> x <> e).
  { intros h1 h2 w x H L. destruct L as [L|L]; apply lastAnn_some in L; destruct L as [g1 [g2 [-> _]]];
    apply (SRC (Relax w v x)); rewrite H; rewrite !in_app_iff; cbn; auto. }
  assert (G : forall p, ~ mentions (map asRule (entries p v (rev (readAll pos neg segs)))) e).
  { intros p M. apply mentions_named in M. destruct M as [f [t [I M]]]. apply in_map_iff in I. destruct I as [en [X I]].
    unfold asRule in X. injection X as <- <-. destruct (ent_sound _ _ _ _ I) as [h1 [h2 [H [L [E1 E2]]]]].
    rewrite rev_involutive in H. destruct M as [M|M].
    - assert (IN : In (Add (eF en) (eW en) v p) (readAll pos neg segs)) by (rewrite H; apply in_app_iff; cbn; auto).
      apply SRC in IN. auto.
    - unfold target in M. rewrite E2, E1 in M. destruct (lastAnn h1 (eW en) v) as [x|] eqn:L1.
      + injection M as ->. eapply LA; eauto.
      + assert (L2 : lastAnn (Add (eF en) (eW en) v p :: h2) (eW en) v = Some e) by (cbn; rewrite M; auto).
        apply (LA h1 (Add (eF en) (eW en) v p :: h2) (eW en) e); auto. }
  split; [rewrite P|rewrite Q]; apply G.
Qed.
Lemma read_and_duplicate : forall eFrom eTo pos neg segs ps, exists r,
  runR emptyRestr (readAll pos neg segs) = Some r /\
  (opposite_pairs eFrom eTo ps -> (forall n, In n (map snd ps) -> ~ In n (map sEdge segs)) ->
   forall v, NoDup (map fst (meets segs v)) -> NoDup (map snd (meets segs v)) -> no_self (pos v ++ neg v) ->
   forall wf ef wt et f t, In (wf, ef) (meets segs v) -> In (wt, et) (meets segs v) ->
     eTo f = v -> eFrom t = v -> stands_for ps f ef -> stands_for ps t et ->
     (may (duplicateAll eFrom eTo r ps) f t v = true <-> way_turn_allowed (pos v) (neg v) (map fst (meets segs v)) wf wt)).
Proof.
  intros eFrom eTo pos neg segs ps. destruct (read_all pos neg segs) as [r [E R]]. exists r. split; auto.
  intros OP FR v W D S wf ef wt et f t IF IT AR DE SF ST.
  rewrite (duplicate_all_turn eFrom eTo ps r f t ef et v); auto.
  intros n I. eapply table_names; eauto.
Qed.

Lemma ren_exchanged : forall old piece e x, exchanged old piece e x -> x = ren old piece e.
Proof.
  intros old piece e x [[-> ->]|[N ->]]; unfold ren; [rewrite Nat.eqb_refl; auto|].
  apply Nat.eqb_neq in N. rewrite N. auto.
Qed.
Lemma split_keeps : forall eFrom eTo r old newA newB at_from at_to,
  eFrom old <> eTo old ->
  (((eFrom old = eFrom newA \/ eFrom old = eTo newA) /\ at_from = newA /\ at_to = newB) \/
   (eFrom old <> eFrom newA /\ eFrom old <> eTo newA /\ at_from = newB /\ at_to = newA)) ->
  not_named r at_from (eFrom old) -> not_named r at_to (eTo old) ->
  (forall f t f' t', f <> at_from -> t <> at_from -> exchanged old at_from f f' -> exchanged old at_from t t' ->
     may (replaceEdge eFrom eTo r old newA newB) f' t' (eFrom old) = may r f t (eFrom old)) /\
  (forall f t f' t', f <> at_to -> t <> at_to -> exchanged old at_to f f' -> exchanged old at_to t t' ->
     may (replaceEdge eFrom eTo r old newA newB) f' t' (eTo old) = may r f t (eTo old)) /\
  (forall f t via, via <> eFrom old -> via <> eTo old ->
     may (replaceEdge eFrom eTo r old newA newB) f t via = may r f t via).
Proof.
  intros eFrom eTo r old newA newB af at_ N C UF UT. apply unmentioned_iff in UF. apply unmentioned_iff in UT.
  assert (B : (af = if (eFrom old =? eFrom newA) || (eFrom old =? eTo newA) then newA else newB) /\
              (at_ = if (eFrom old =? eFrom newA) || (eFrom old =? eTo newA) then newB else newA)).
  { destruct C as [[[E|E] [-> ->]]|[E1 [E2 [-> ->]]]].
    - apply Nat.eqb_eq in E. rewrite E. auto.
    - apply Nat.eqb_eq in E. rewrite E, orb_true_r. auto.
    - apply Nat.eqb_neq in E1. apply Nat.eqb_neq in E2. rewrite E1, E2. auto. }
  destruct B as [B1 B2]. split; [|split].
  - intros f t f' t' F T XF XT. apply ren_exchanged in XF. apply ren_exchanged in XT. subst f' t'.
    apply replace_at_from; auto.
  - intros f t f' t' F T XF XT. apply ren_exchanged in XF. apply ren_exchanged in XT. subst f' t'.
    apply replace_at_to; auto.
  - intros. apply replace_elsewhere; auto.
Qed.
Lemma opposite_keeps : forall eFrom eTo r ps via,
  opposite_pairs eFrom eTo ps -> (forall n, In n (map snd ps) -> not_named r n via) ->
  forall f t f0 t0, eTo f = via -> eFrom t = via -> stands_for ps f f0 -> stands_for ps t t0 ->
    may (duplicateAll eFrom eTo r ps) f t via = may r f0 t0 via.
Proof.
  intros eFrom eTo r ps via OP N f t f0 t0 A D SF ST. apply duplicate_all_turn; auto.
  intros n I. apply unmentioned_iff. auto.
Qed.
