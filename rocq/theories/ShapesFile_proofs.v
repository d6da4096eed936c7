(** Proofs for shapes.txt after a whole run (C41). *)
From Coq Require Import Ascii String List Arith NArith Bool Permutation Lia DecimalString.
From Verif Require Import ListAux StrAux ShapeStore_model ShapeStore_spec ShapeStore_proofs Workers_model Workers_spec Workers_proofs Workers_props ShapesFile_model ShapesFile_spec.
Import ListNotations.
Open Scope nat_scope.

Lemma NoDup_app_intro : forall B (a b : list B), NoDup a -> NoDup b -> (forall x, In x a -> ~ In x b) -> NoDup (a ++ b).
Proof.
  induction a as [|x a IH]; intros b Na Nb H; [exact Nb|]. inversion Na; subst. cbn. constructor.
  - rewrite in_app_iff. intros [X|X]; [contradiction|]. exact (H x (or_introl eq_refl) X).
  - apply IH; auto. intros y Y. apply H. right. exact Y.
Qed.

(** ** Ids of new shapes can be stored *)
Lemma list_ascii_app : forall a b, list_ascii_of_string (a ++ b)%string = list_ascii_of_string a ++ list_ascii_of_string b.
Proof. induction a as [|x a IH]; intros b; cbn; [reflexivity|]. now rewrite IH. Qed.
Lemma digits_ok : forall d b, In b (list_ascii_of_string (NilEmpty.string_of_uint d)) -> ~ In (N_of_ascii b) [32; 9; 10; 11; 12; 13]%N.
Proof.
  induction d; cbn [NilEmpty.string_of_uint list_ascii_of_string]; intros b H; cbn in H; try tauto;
    destruct H as [<-|H]; try (vm_compute; intuition discriminate); auto.
Qed.
Lemma idOf_plain : forall t n, plain (idOf t n).
Proof.
  intros t n. split; [apply idOf_ne|]. intros b B. unfold idOf, toString in B. rewrite !list_ascii_app in B.
  apply in_app_or in B as [B|B].
  - cbn in B. intuition (subst; vm_compute in *; intuition discriminate).
  - apply in_app_or in B as [B|B]; [now apply digits_ok in B|].
    apply in_app_or in B as [B|B]; [|now apply digits_ok in B].
    cbn in B. intuition (subst; vm_compute in *; intuition discriminate).
Qed.

Section P.
Context {D : Type}.
Variable wa wb wd : nat.
Hypothesis W : 0 < wa + wb + wd.
Notation leaf := (leaf (list pt) D).
Notation trip := (trip D).
Notation phase := (phase D).
Notation shared := (shared (list pt) D).

(** ** Threads and container in step *)
Definition holds (c : cont) (s : shared) : Prop := rep c (fun x => In x (sIds _ _ s)) (sStore _ _ s).
Lemma step_holds : forall jobs p s p' s' c, step _ _ jobs p s = Some (p', s') -> holds c s -> holds (fold_left apply (calls D p s) c) s'.
Proof.
  intros jobs p s p' s' c St H. unfold holds in *.
  destruct p; cbn [step calls] in *.
  - destruct (nth_error jobs _).
    + cbv zeta in St. destruct (_ || _); [discriminate|]. injection St as <- <-. exact H.
    + injection St as <- <-. exact H.
  - destruct ls as [|l ls]; [injection St as <- <-; exact H|].
    destruct (lTrips _ _ l); [discriminate|]. destruct (freeId _ _ _ _); [|discriminate]. injection St as <- <-. exact H.
  - destruct ts; [injection St as <- <-; exact H|]. destruct (nth_error _ _); [|discriminate].
    destruct (_ && _); injection St as <- <-; exact H.
  - destruct (nth_error _ _); [|discriminate]. injection St as <- <-. exact H.
  - destruct (nth_error _ _); [|discriminate]. injection St as <- <-. exact H.
  - destruct (nth_error _ _); [|discriminate]. injection St as <- <-. exact H.
  - destruct (nth_error _ _) as [x|]; [|discriminate]. injection St as <- <-. cbn [fold_left apply sStore sIds removeId].
    apply (rep_iff _ (fun y => y <> tShape _ x /\ In y (sIds _ _ s))); [|now apply rep_remove].
    intros y. rewrite filter_In, negb_true_iff, String.eqb_neq. intuition.
  - destruct (nth_error _ _); [|discriminate]. destruct (setDists _ _ _); [|discriminate]. injection St as <- <-. exact H.
  - destruct (nth_error _ _); [|discriminate]. injection St as <- <-. cbn [fold_left apply setTrip sIds sStore].
    unfold Workers_model.addShape. destruct (Workers_model.has (sIds _ _ s) id) eqn:E; cbn [sIds sStore].
    + apply rep_known; [exact H|]. now apply Workers_proofs.has_In.
    + apply (rep_iff _ (fun y => y = id \/ In y (sIds _ _ s))); [cbn; intuition|].
      apply rep_add; [exact H|]. now apply has_false.
  - injection St as <- <-. exact H.
Qed.
Lemma runC_ok : forall jobs sched ths s c ths' s' c', runC D jobs sched ths s c = Some (ths', s', c') -> holds c s ->
  run _ _ jobs sched ths s = Some (ths', s') /\ holds c' s'.
Proof.
  intros jobs. induction sched as [|i r IH]; intros ths s c ths' s' c' R H; cbn [runC run] in *.
  - injection R as <- <- <-. auto.
  - destruct (nth_error ths i); [|eapply IH; eauto].
    destruct (step _ _ jobs p s) as [(p', s1)|] eqn:St; [|discriminate].
    eapply IH; [exact R|]. eapply step_holds; eauto.
Qed.

(** ** One configuration after the other *)
Variable trips0 : list trip.
Variable ids0 : list string.
Variable all : list phase.
Hypothesis PO : phases_ok wa wb wd all trips0.
Hypothesis ID : ids_distinct all trips0.

Lemma sel_dec : forall jobs u, @selected (list pt) D jobs u \/ ~ selected jobs u.
Proof.
  intros jobs u. destruct (in_dec Nat.eq_dec u (flat_map (fun l => lTrips _ _ l) (concat jobs))) as [I|I].
  - left. apply in_flat_map in I. destruct I as (l & J & T). exists l. auto.
  - right. intros (l & J & T). apply I, in_flat_map. exists l. auto.
Qed.
Lemma shape_dec : forall (trips : list trip) y,
  (exists u x, nth_error trips u = Some x /\ tShape _ x = y) \/ (forall u x, nth_error trips u = Some x -> tShape _ x <> y).
Proof.
  intros trips y. destruct (in_dec string_dec y (map (tShape D) trips)) as [I|I].
  - left. apply in_map_iff in I as (x & E & I). apply In_nth_error in I as (u & I). eauto.
  - right. intros u x E C. apply I, in_map_iff. exists x. split; [exact C|]. eapply nth_error_In; eauto.
Qed.

Record inv (dn : list phase) (trips : list trip) (ids : list string) (store : list (string * list pt)) (c : cont) : Prop := {
  v_rep : rep c (fun x => In x ids) store;
  v_ok : Forall (okRec wa wb wd) store;
  v_len : length trips = length trips0;
  v_lens : forall u x x0, nth_error trips u = Some x -> nth_error trips0 u = Some x0 -> length (tDists _ x) = length (tDists _ x0);
  v_trips : forall u x, nth_error trips u = Some x ->
    (nth_error trips0 u = Some x /\ untouched dn u) \/
    (exists l n, leaf_of dn l /\ shaped_by dn u l /\ x = mkTrip D (idOf (lType _ _ l) n) (lDists _ _ l) /\
       In (idOf (lType _ _ l) n) ids /\ In (idOf (lType _ _ l) n, lPts _ _ l) store);
  v_store : forall id ps, In (id, ps) store -> (exists l n, leaf_of dn l /\ id = idOf (lType _ _ l) n /\ ps = lPts _ _ l) /\ ~ In id ids0;
  v_once : NoDup (map fst store);
  v_gone : forall y, In y ids0 -> In y ids \/ exists u x, nth_error trips0 u = Some x /\ tShape _ x = y /\ ~ untouched dn u;
  v_kept : forall u x, untouched dn u -> nth_error trips0 u = Some x -> In (tShape _ x) ids0 -> In (tShape _ x) ids;
  v_ids : forall y, In y ids -> In y ids0 \/ In y (map fst store)
}.

Lemma leaf_of_app : forall (a b : list phase) l, leaf_of a l -> leaf_of (a ++ b) l.
Proof. intros a b l (ph & I & L). exists ph. split; [apply in_or_app; auto|exact L]. Qed.
Lemma untouched_app : forall (a b : list phase) u, untouched (a ++ b) u <-> untouched a u /\ untouched b u.
Proof.
  intros a b u. unfold untouched. split.
  - intros H. split; intros ph I; apply H, in_or_app; auto.
  - intros [A B] ph I. apply in_app_or in I as [I|I]; auto.
Qed.

Lemma phase_step : forall dn ph rest trips ids store c ths s c',
  all = dn ++ ph :: rest -> inv dn trips ids store c ->
  runC D (phJobs _ ph) (phSched _ ph) (fst (start (list pt) D (phN _ ph) 0 ids store trips)) (snd (start (list pt) D (phN _ ph) 0 ids store trips)) c = Some (ths, s, c') ->
  forallb (isDone D) ths = true ->
  inv (dn ++ [ph]) (sTrips _ _ s) (sIds _ _ s) (sStore _ _ s) c'.
Proof.
  intros dn ph rest trips ids store c ths s c' Eall V R Dn.
  assert (Iph : In ph all) by (rewrite Eall; apply in_elt).
  assert (Lph : forall l, In l (concat (phJobs _ ph)) -> leaf_of all l) by (intros l I; exists ph; auto).
  assert (Ldn : forall l, leaf_of dn l -> leaf_of all l) by (intros l I; rewrite Eall; now apply leaf_of_app).
  assert (Types : forall l l', leaf_of dn l -> In l' (concat (phJobs _ ph)) -> lType _ _ l <> lType _ _ l').
  { intros l l' (ph0 & I & L) L'. apply in_split in I as (a & b & Ed).
    apply (po_types _ _ _ _ _ PO a ph0 (b ++ ph :: rest) ph); auto.
    - rewrite Eall, Ed, <- app_assoc. reflexivity.
    - apply in_elt. }
  assert (WO : work_ok (phJobs _ ph) trips).
  { constructor.
    - now apply (po_once _ _ _ _ _ PO).
    - intros l u L U. destruct (po_trips _ _ _ _ _ PO l u (Lph l L) U) as (x0 & E0 & Le).
      assert (Lu : u < length trips) by (rewrite (v_len _ _ _ _ _ V); eapply nth_error_Some; rewrite E0; discriminate).
      apply nth_error_Some in Lu. destruct (nth_error trips u) as [x|] eqn:E; [|congruence].
      exists x. split; [reflexivity|]. rewrite (v_lens _ _ _ _ _ V u x x0 E E0). exact Le.
    - intros l L. apply (po_leaf _ _ _ _ _ PO). auto. }
  assert (NC : no_clash (phJobs _ ph) trips 0).
  { intros u x l n E L Ln. destruct (v_trips _ _ _ _ _ V u x E) as [[E0 _]|(l' & n' & L' & _ & -> & _)].
    - apply (ID u x l n E0). auto.
    - cbn [tShape]. intros C. apply idOf_inj in C as [C _]. now apply (Types l' l L' L). }
  destruct (runC_ok _ _ _ _ _ _ _ _ R) as [R' H'].
  { exact (v_rep _ _ _ _ _ V). }
  destruct (C37_workers (list pt) D (phJobs _ ph) 0 ids store trips WO (phN _ ph) (phSched _ ph)) as (ths2 & s2 & R2 & A).
  rewrite R' in R2. injection R2 as <- <-.
  destruct A as (iss & A).
  { now apply (po_threads _ _ _ _ _ PO). }
  { intros p P. rewrite forallb_forall in Dn. specialize (Dn p P). destruct p; try discriminate. reflexivity. }
  destruct (as_store _ _ _ _ _ _ _ A NC) as (new & Est & Pn).
  assert (Iss : forall id l, In (id, l) iss -> In l (concat (phJobs _ ph))).
  { intros id l I. apply (Permutation_in _ (Permutation_sym (as_leaves _ _ _ _ _ _ _ A))).
    change l with (snd (id, l)). now apply in_map. }
  assert (New : forall id ps, In (id, ps) new <-> exists l, In (id, l) iss /\ ps = lPts _ _ l).
  { intros id ps. split.
    - intros I. apply (Permutation_in _ Pn) in I. apply in_map_iff in I as ((id', l) & E & I). cbn in E. injection E as <- <-. eauto.
    - intros (l & I & ->). apply (Permutation_in _ (Permutation_sym Pn)). apply in_map_iff. exists (id, l). auto. }
  assert (Fresh : forall id l, In (id, l) iss -> ~ In id ids0).
  { intros id l I Y. destruct (as_new _ _ _ _ _ _ _ A NC id l I) as [_ Z].
    destruct (v_gone _ _ _ _ _ V id Y) as [X|(u & x & E & Ex & _)]; [contradiction|].
    destruct (as_form _ _ _ _ _ _ _ A id l I) as (n & _ & En).
    apply (ID u x l n E (Lph l (Iss _ _ I))). congruence. }
  assert (Lens : forall u x x0, nth_error (sTrips _ _ s) u = Some x -> nth_error trips0 u = Some x0 -> length (tDists _ x) = length (tDists _ x0)).
  { intros u x x0 E E0. destruct (sel_dec (phJobs _ ph) u) as [S|S].
    - destruct S as (l & L & U). destruct (po_trips _ _ _ _ _ PO l u (Lph l L) U) as (y & Ey & Le). rewrite E0 in Ey. injection Ey as <-.
      apply (Permutation_in _ (as_leaves _ _ _ _ _ _ _ A)) in L. apply in_map_iff in L as ((id, l') & El & I). cbn in El. subst l'.
      rewrite (as_trips _ _ _ _ _ _ _ A id l u I U) in E. injection E as <-. cbn. auto.
    - rewrite (as_others _ _ _ _ _ _ _ A u S) in E. exact (v_lens _ _ _ _ _ V u x x0 E E0). }
  constructor.
  - exact H'.
  - rewrite Est. apply Forall_app. split; [exact (v_ok _ _ _ _ _ V)|]. apply Forall_forall. intros (id, ps) I.
    apply New in I as (l & I & ->). destruct (as_form _ _ _ _ _ _ _ A id l I) as (n & _ & ->).
    destruct (po_points _ _ _ _ _ PO l (Lph l (Iss _ _ I))) as (A1 & A2 & A3).
    split; [apply idOf_plain|]. split; [exact A1|]. split; [exact A2|exact A3].
  - rewrite (as_count _ _ _ _ _ _ _ A). exact (v_len _ _ _ _ _ V).
  - exact Lens.
  - intros u x E. destruct (sel_dec (phJobs _ ph) u) as [S|S].
    + right. destruct S as (l & L & U). pose proof L as L2.
      apply (Permutation_in _ (as_leaves _ _ _ _ _ _ _ A)) in L. apply in_map_iff in L as ((id, l') & El & I). cbn in El. subst l'.
      rewrite (as_trips _ _ _ _ _ _ _ A id l u I U) in E. injection E as <-.
      destruct (as_form _ _ _ _ _ _ _ A id l I) as (n & _ & ->).
      exists l, n. split; [exists ph; split; [apply in_or_app; right; now left|exact L2]|].
      split; [exists dn, ph, []; repeat split; auto|]. split; [reflexivity|].
      split; [apply (proj1 (as_new _ _ _ _ _ _ _ A NC _ l I))|].
      rewrite Est. apply in_or_app. right. apply New. eauto.
    + rewrite (as_others _ _ _ _ _ _ _ A u S) in E. destruct (v_trips _ _ _ _ _ V u x E) as [[E0 Un]|(l & n & L & Sh & Ex & I1 & I2)].
      * left. split; [exact E0|]. apply untouched_app. split; [exact Un|]. intros ph' [<-|[]]. exact S.
      * right. exists l, n. split; [now apply leaf_of_app|]. split.
        { destruct Sh as (a & ph0 & b & -> & X1 & X2 & X3). exists a, ph0, (b ++ [ph]). rewrite <- app_assoc. repeat split; auto.
          intros ph' I. apply in_app_or in I as [I|[<-|[]]]; auto. }
        split; [exact Ex|]. split.
        { pose proof (as_kept _ _ _ _ _ _ _ A u x S E) as K. rewrite Ex in K. cbn [tShape] in K. auto. }
        rewrite Est. apply in_or_app. now left.
  - intros id ps I. rewrite Est in I. apply in_app_or in I as [I|I].
    + destruct (v_store _ _ _ _ _ V id ps I) as ((l & n & L & E1 & E2) & Nn). split; [|exact Nn]. exists l, n. split; [now apply leaf_of_app|auto].
    + apply New in I as (l & I & ->). split; [|exact (Fresh _ _ I)]. destruct (as_form _ _ _ _ _ _ _ A id l I) as (n & _ & ->).
      exists l, n. split; [|auto]. exists ph. split; [apply in_or_app; right; now left|]. exact (Iss _ _ I).
  - rewrite Est, map_app. apply NoDup_app_intro.
    + exact (v_once _ _ _ _ _ V).
    + apply (Permutation_NoDup (Permutation_sym (Permutation_map fst Pn))). rewrite map_map. cbn [fst]. exact (as_ids _ _ _ _ _ _ _ A).
    + intros id I J. apply in_map_iff in I as ((id1, ps) & E1 & I). apply in_map_iff in J as ((id2, ps2) & E2 & J). cbn in E1, E2. subst id1 id2.
      destruct (v_store _ _ _ _ _ V id ps I) as ((l & n & L & E1 & _) & _).
      apply New in J as (l' & J & _). destruct (as_form _ _ _ _ _ _ _ A id l' J) as (n' & _ & E2).
      rewrite E1 in E2. apply idOf_inj in E2 as [E2 _]. exact (Types l l' L (Iss _ _ J) E2).
  - intros y Y. destruct (in_dec string_dec y (sIds _ _ s)) as [J|J]; [auto|]. right.
    destruct (v_gone _ _ _ _ _ V y Y) as [X|(u & x & E & Ex & Un)].
    + destruct (shape_dec trips y) as [(u & x & E & Ex)|N]; [|exfalso; exact (J (as_unused _ _ _ _ _ _ _ A y X N))].
      destruct (v_trips _ _ _ _ _ V u x E) as [[E0 Un]|(l & n & L & Sh & E1 & I1 & I2)].
      * exists u, x. split; [exact E0|]. split; [exact Ex|]. intros Un'. apply untouched_app in Un' as [_ Un'].
        apply J. rewrite <- Ex. apply (as_kept _ _ _ _ _ _ _ A u x); [apply Un'; now left|exact E|congruence].
      * exfalso. apply (proj2 (v_store _ _ _ _ _ V _ _ I2)). rewrite E1 in Ex. cbn [tShape] in Ex. congruence.
    + exists u, x. split; [exact E|]. split; [exact Ex|]. intros Un'. apply untouched_app in Un' as [Un' _]. contradiction.
  - intros u x Un E I. apply untouched_app in Un as [Un Up].
    assert (Lu : u < length trips) by (rewrite (v_len _ _ _ _ _ V); eapply nth_error_Some; rewrite E; discriminate).
    apply nth_error_Some in Lu. destruct (nth_error trips u) as [x'|] eqn:E'; [|congruence].
    destruct (v_trips _ _ _ _ _ V u x' E') as [[E0 _]|(l & n & L & (a & ph0 & b & -> & X1 & X2 & _) & _)].
    + rewrite E in E0. injection E0 as <-. apply (as_kept _ _ _ _ _ _ _ A u x); [apply Up; now left|exact E'|].
      exact (v_kept _ _ _ _ _ V u x Un E I).
    + exfalso. apply (Un ph0 (in_elt _ _ _)). exists l. auto.
  - intros y Y. destruct (as_no_others _ _ _ _ _ _ _ A y Y) as [X|X].
    + destruct (v_ids _ _ _ _ _ V y X) as [Z|Z]; [auto|]. right. rewrite Est, map_app. apply in_or_app. now left.
    + right. rewrite Est, map_app. apply in_or_app. right. apply in_map_iff in X as ((id, l) & E & I). cbn in E. subst id.
      apply in_map_iff. exists (y, lPts _ _ l). split; [reflexivity|]. apply New. eauto.
Qed.

Lemma phases_inv : forall phs dn trips ids store c trips' ids' store' c', all = dn ++ phs -> inv dn trips ids store c ->
  runPhases D phs trips ids store c = Some (trips', ids', store', c') -> inv all trips' ids' store' c'.
Proof.
  induction phs as [|ph r IH]; intros dn trips ids store c trips' ids' store' c' E V R; cbn [runPhases] in R.
  - injection R as <- <- <- <-. rewrite app_nil_r in E. now subst.
  - destruct (runC D _ _ _ _ _) as [[[ths s] c1]|] eqn:R1; [|discriminate].
    destruct (forallb _ _) eqn:Dn; [|discriminate].
    apply (IH (dn ++ [ph]) (sTrips _ _ s) (sIds _ _ s) (sStore _ _ s) c1); auto.
    + rewrite <- app_assoc. exact E.
    + eapply phase_step; eauto.
Qed.
Lemma regs_rep : forall l c P st, rep c P st -> rep (fold_left apply (map OReg l) c) (fun x => In x l \/ P x) st.
Proof.
  induction l as [|id l IH]; intros c P st R; cbn [map fold_left apply].
  - apply (rep_iff _ P); [cbn; intuition|exact R].
  - apply (rep_iff _ (fun x => In x l \/ (x = id \/ P x))); [cbn; intuition|]. apply IH. now apply rep_reg.
Qed.
Lemma inv_start : inv [] trips0 ids0 [] (fold_left apply (map OReg ids0) newC).
Proof.
  constructor; try (cbn; tauto).
  - apply (rep_iff _ (fun x => In x ids0 \/ False)); [intuition|]. apply regs_rep, rep_new.
  - constructor.
  - intros u x x0 E E0. congruence.
  - intros u x E. left. split; [exact E|]. intros ph [].
  - constructor.
Qed.

Lemma with_id_app : forall id a b, with_id id (a ++ b) = with_id id a ++ with_id id b.
Proof. intros. unfold with_id. apply filter_app. Qed.
Lemma filter_filter : forall {A} (f g : A -> bool) l, filter f (filter g l) = filter (fun x => g x && f x) l.
Proof. induction l as [|x l IH]; cbn; [reflexivity|]. destruct (g x); cbn; rewrite ?IH; reflexivity. Qed.

Lemma whole_ok : forall old trips' rows, (forall x, In x (given old) -> wId x <> ""%string /\ In (wId x) ids0) ->
  wholeRun D wa wb wd all trips0 ids0 old = Some (trips', rows) ->
  shapes_written all trips0 ids0 (given old) trips' rows.
Proof.
  intros old trips' rows Ho R. unfold wholeRun in R.
  destruct (runPhases D all trips0 ids0 [] _) as [[[[tr ids] store] c]|] eqn:RP; [|discriminate].
  pose proof (phases_inv all [] _ _ _ _ _ _ _ _ eq_refl inv_start RP) as V.
  destruct (iterate_rep wa wb wd W c _ store (v_rep _ _ _ _ _ V) (v_ok _ _ _ _ _ V)) as (c' & It & _).
  unfold writeShapes in R. rewrite It in R. injection R as -> <-.
  assert (Hh : forall y, ShapeStore_model.has c y = true <-> In y ids).
  { intros y. rewrite ShapeStore_proofs.has_In. apply (v_rep _ _ _ _ _ V). }
  set (cp := match old with Some rows => copyRows c rows "" "" | None => [] end).
  assert (Ecp : cp = filter (fun x => ShapeStore_model.has c (wId x)) (given old)).
  { unfold cp. destruct old as [rs|]; [|reflexivity]. cbn [given] in *. apply copyRows_ok; auto. intros x X. now apply Ho. }
  rewrite filter_rows.
  (* rows of an id of the input that is still registered *)
  assert (Old : forall y, In y ids0 -> In y ids ->
     with_id y (cp ++ flat_map rows_of (filter (fun e => ShapeStore_model.has c (fst e)) store)) = with_id y (given old)).
  { intros y Y0 Y. rewrite with_id_app, Ecp. unfold with_id. rewrite (filter_rows (fun i => String.eqb i y)).
    rewrite (filter_none (fun e => String.eqb (fst e) y) (filter _ store)).
    2:{ intros (id, ps) X. apply filter_In in X as [X _]. cbn [fst]. apply String.eqb_neq. intros ->.
        exact (proj2 (v_store _ _ _ _ _ V _ _ X) Y0). }
    cbn [flat_map]. rewrite app_nil_r, filter_filter. apply filter_ext. intros x.
    destruct (String.eqb_spec (wId x) y) as [->|_]; [|apply andb_false_r].
    apply Hh in Y. now rewrite Y. }
  constructor.
  - exact (v_len _ _ _ _ _ V).
  - intros u l Sh.
    assert (Lf : leaf_of all l) by (destruct Sh as (a & ph & b & -> & L & _); exists ph; split; [apply in_elt|exact L]).
    assert (U : In u (lTrips _ _ l)) by (destruct Sh as (a & ph & b & _ & _ & U & _); exact U).
    destruct (po_trips _ _ _ _ _ PO l u Lf U) as (x0 & E0 & _).
    assert (Lu : u < length trips') by (rewrite (v_len _ _ _ _ _ V); eapply nth_error_Some; rewrite E0; discriminate).
    apply nth_error_Some in Lu. destruct (nth_error trips' u) as [x|] eqn:E; [|congruence].
    destruct (v_trips _ _ _ _ _ V u x E) as [[_ Un]|(l' & n & L & Sh' & Ex & I1 & I2)].
    { exfalso. destruct Sh as (a & ph & b & Ea & L & _). apply (Un ph); [rewrite Ea; apply in_elt|]. exists l. auto. }
    assert (l' = l).
    { clear - PO Sh Sh'. destruct Sh as (a & ph & b & E1 & L1 & U1 & N1). destruct Sh' as (a' & ph' & b' & E2 & L2 & U2 & N2).
      assert (Ep : ph = ph').
      { rewrite E1 in E2. clear PO E1. revert a' E2. induction a as [|q a IH]; intros [|q' a'] E2; cbn in E2.
        - now injection E2.
        - injection E2 as <- ->. exfalso. apply (N1 ph'); [apply in_elt|]. exists l'. auto.
        - injection E2 as -> <-. exfalso. apply (N2 ph); [apply in_elt|]. exists l. auto.
        - injection E2 as _ E2. exact (IH _ E2). }
      subst ph'. pose proof (po_once _ _ _ _ _ PO ph ltac:(rewrite E1; apply in_elt)) as Nd.
      clear - Nd L1 L2 U1 U2. apply in_split in L1 as (p & q & E). rewrite E in Nd, L2. rewrite flat_map_app in Nd. cbn [flat_map] in Nd.
      apply in_app_or in L2 as [L2|[L2|L2]]; [|auto|].
      - exfalso. apply Workers_proofs.NoDup_app in Nd as (_ & _ & Nd). apply (Nd u); [apply in_flat_map; eauto|apply in_or_app; auto].
      - exfalso. apply Workers_proofs.NoDup_app in Nd as (_ & Nd & _). apply Workers_proofs.NoDup_app in Nd as (_ & _ & Nd).
        apply (Nd u); [exact U1|apply in_flat_map; eauto]. }
    subst l'. exists (idOf (lType _ _ l) n). split; [congruence|].
    rewrite with_id_app, Ecp. unfold with_id.
    rewrite (filter_none (fun x => String.eqb (wId x) (idOf (lType _ _ l) n)) (filter _ (given old))).
    2:{ intros y Y. apply filter_In in Y as [Y _]. apply String.eqb_neq. intros C. apply (proj2 (v_store _ _ _ _ _ V _ _ I2)).
        rewrite <- C. now apply Ho. }
    rewrite (filter_rows (fun i => String.eqb i (idOf (lType _ _ l) n))).
    rewrite (filter_one (idOf (lType _ _ l) n) (lPts _ _ l)).
    + cbn [flat_map app]. apply app_nil_r.
    + pose proof (v_once _ _ _ _ _ V) as Nd. clear - Nd. induction store as [|e st IH]; [constructor|].
      cbn [map] in Nd. inversion Nd as [|? ? N1 N2]; subst. cbn [filter]. destruct (ShapeStore_model.has c (fst e)); [|auto].
      cbn [map]. constructor; [|auto]. intros X. apply N1. apply in_map_iff in X as (e' & Ee & X). apply filter_In in X as [X _].
      rewrite <- Ee. now apply in_map.
    + apply filter_In. split; [exact I2|]. cbn [fst]. now apply Hh.
  - intros u x Un E.
    assert (Lu : u < length trips') by (rewrite (v_len _ _ _ _ _ V); eapply nth_error_Some; rewrite E; discriminate).
    apply nth_error_Some in Lu. destruct (nth_error trips' u) as [x'|] eqn:E'; [|congruence].
    destruct (v_trips _ _ _ _ _ V u x' E') as [[E0 _]|(l & n & L & (a & ph0 & b & Ea & X1 & X2 & _) & _)].
    2:{ exfalso. apply (Un ph0); [rewrite Ea; apply in_elt|]. exists l. auto. }
    rewrite E in E0. injection E0 as <-. split; [reflexivity|]. intros I. apply Old; [exact I|].
    exact (v_kept _ _ _ _ _ V u x Un E I).
  - intros y Y N. apply Old; [exact Y|]. destruct (v_gone _ _ _ _ _ V y Y) as [X|(u & x & E & Ex & _)]; [exact X|].
    exfalso. exact (N u x E Ex).
  - intros x X. apply in_app_or in X as [X|X].
    + left. rewrite Ecp in X. apply filter_In in X. tauto.
    + right. apply in_flat_map in X as ((id, ps) & X & Y). apply filter_In in X as [X _].
      destruct (v_store _ _ _ _ _ V id ps X) as ((l & n & L & _ & E2) & _). exists id, l. rewrite <- E2. auto.
Qed.
End P.
