(** Proofs about the area of the OSM data that is read. *)
From Coq Require Import String List Arith ZArith QArith Bool Lia.
From Verif Require Import ListAux TripTrie_model Cluster_model BBoxIdx_model BBoxIdx_spec Box_model Box_spec.
Import ListNotations.
Open Scope nat_scope.

Lemma Qlt_bool_iff : forall a b, Qlt_bool a b = true <-> (a < b)%Q.
Proof.
  intros a b. unfold Qlt_bool. rewrite negb_true_iff. split; intros H.
  - apply Qnot_le_lt. intros L. apply Qle_bool_iff in L. congruence.
  - destruct (Qle_bool b a) eqn:E; [|reflexivity]. apply Qle_bool_iff in E. exfalso. exact (Qle_not_lt _ _ E H).
Qed.
Lemma maxSpeed_ge : forall vs m v, (In v vs \/ v = m) -> (v <= fold_left (fun m v => if Qlt_bool m v then v else m) vs m)%Q.
Proof.
  induction vs as [|a l IH]; intros m v H; cbn.
  - destruct H as [[]| ->]. apply Qle_refl.
  - destruct (Qlt_bool m a) eqn:E.
    + apply Qlt_bool_iff in E. destruct H as [[->|H]| ->]; [apply IH; auto|apply IH; auto|].
      apply Qle_trans with a; [now apply Qlt_le_weak|apply IH; auto].
    + assert (a <= m)%Q. { apply Qnot_lt_le. intros L. apply Qlt_bool_iff in L. congruence. }
      destruct H as [[->|H1]| ->]; [|apply IH; auto|apply IH; auto].
      apply Qle_trans with m; [assumption|apply IH; auto].
Qed.

Lemma skips_iff : forall mots tid drop t, boxSkips mots tid drop t = false <-> wanted mots tid drop t.
Proof.
  intros mots tid drop t. unfold boxSkips, wanted. rewrite !orb_false_iff, negb_false_iff, Nat.ltb_ge.
  assert (X : existsb (Nat.eqb (fType _ t)) mots = true <-> In (fType _ t) mots).
  { rewrite existsb_exists. split; [intros (x & I & E); apply Nat.eqb_eq in E; now subst|intros I; exists (fType _ t); split; [auto|apply Nat.eqb_refl]]. }
  rewrite X. destruct tid as [k|].
  - rewrite negb_false_iff, Nat.eqb_eq. tauto.
  - rewrite andb_false_iff, !negb_false_iff, String.eqb_eq. tauto.
Qed.

Section Proofs.
Variable M : Z.
Variable pad : box -> box.
Variable area : box -> box -> Z.
Variable hav : pt -> pt -> Q.
Variable emptySecs : Z.
Notation stime := (stime pt).
Notation ftrip := (ftrip pt).
Notation secs := (secs emptySecs).
Notation tripBox := (tripBox hav emptySecs).
Notation gtfsBox := (gtfsBox M pad area hav emptySecs).

Lemma clock_iff : forall t z, clock emptySecs t z <-> z = secs t.
Proof. intros [t|] z; unfold clock, Box_model.secs; split; [intros [H|[H _]]; congruence|intros ->; auto|intros [H|[_ H]]; congruence|auto]. Qed.
Lemma late_iff : forall v time d, (0 < v)%Q -> (late v (time, d) = true <-> hopeless v d time).
Proof.
  intros v time d V. unfold late, hopeless. rewrite Qlt_bool_iff. cbn [fst snd].
  replace ((BUFFER + time) * 3 * STEPS)%Z with (9 * (time + 300))%Z by (unfold BUFFER, STEPS; lia).
  split; intros H.
  - apply (Qmult_lt_r _ _ v V) in H. eapply Qlt_le_trans; [exact H|].
    setoid_replace (d / v * v)%Q with d; [apply Qle_refl|]. field. intros E. rewrite E in V. discriminate.
  - apply (Qmult_lt_r _ _ v V). eapply Qlt_le_trans; [exact H|].
    setoid_replace (d / v * v)%Q with d; [apply Qle_refl|]. field. intros E. rewrite E in V. discriminate.
Qed.
Lemma late_end : forall v, (0 < v)%Q -> late v (INT_MAX, 0%Q) = false.
Proof.
  intros v V. destruct (late v (INT_MAX, 0%Q)) eqn:E; [|reflexivity]. apply (late_iff v INT_MAX 0%Q V) in E. unfold hopeless in E. exfalso.
  apply (Qlt_not_le _ _ E). apply Qmult_le_0_compat; [discriminate|]. now apply Qlt_le_weak.
Qed.

(** The skipped stops are the outliers *)
Lemma skip_iff : forall v sts i s, (0 < v)%Q -> nth_error sts i = Some s ->
  (skipStop hav emptySecs v (match i with O => None | S j => nth_error sts j end) s (nth_error sts (S i)) = true <-> ~ regular hav emptySecs v sts i).
Proof.
  intros v sts i s V N. unfold skipStop. rewrite andb_true_iff. split.
  - intros (A & B) R. destruct i as [|j]; [cbn [toTD] in A; rewrite (late_end v V) in A; discriminate|].
    destruct (nth_error sts j) as [p|] eqn:P; [|cbn [toTD] in A; rewrite (late_end v V) in A; discriminate].
    destruct (nth_error sts (S (S j))) as [n|] eqn:NN; [|cbn [fromTD] in B; rewrite (late_end v V) in B; discriminate].
    cbn [toTD fromTD] in A, B. apply (late_iff v _ _ V) in A. apply (late_iff v _ _ V) in B.
    apply (R j eq_refl). exists p, s, n, (secs (stDep _ p)), (secs (stArr _ s)), (secs (stDep _ s)), (secs (stArr _ n)).
    rewrite !clock_iff. repeat (first [assumption | reflexivity | apply conj]).
  - intros R. destruct i as [|j]. { exfalso. apply R. intros j E. discriminate. }
    destruct (late v (toTD hav emptySecs (nth_error sts j) s)) eqn:A.
    + destruct (late v (fromTD hav emptySecs s (nth_error sts (S (S j))))) eqn:B; [auto|]. exfalso. apply R.
      intros k E O. injection E as <-. destruct O as (p & s' & n & dp & a & d & an & P & S' & NN & C1 & C2 & C3 & C4 & H1 & H2).
      rewrite N in S'. injection S' as <-. rewrite NN in B. cbn [fromTD] in B. apply clock_iff in C1, C2, C3, C4. subst.
      apply (late_iff v _ _ V) in H2. unfold spos in B. congruence.
    + exfalso. apply R.
      intros k E O. injection E as <-. destruct O as (p & s' & n & dp & a & d & an & P & S' & NN & C1 & C2 & C3 & C4 & H1 & H2).
      rewrite N in S'. injection S' as <-. rewrite P in A. cbn [toTD] in A. apply clock_iff in C1, C2, C3, C4. subst.
      apply (late_iff v _ _ V) in H1. unfold spos in A. congruence.
Qed.

(** The first part of a walk over the stops *)
Definition upTo (v : Q) (sts : list stime) (k : nat) (p : pt) : Prop := exists i s, i < k /\ nth_error sts i = Some s /\ sPos _ (stStop _ s) = p /\ regular hav emptySecs v sts i.
Definition boxOK (P : pt -> Prop) (b : box) : Prop := ((forall p, ~ P p) /\ b = minbox M) \/ smallest P b.
Lemma box_step : forall (P P' : pt -> Prop) b q, (- M <= fst q <= M)%Z -> (- M <= snd q <= M)%Z -> boxOK P b ->
  (forall p, P' p <-> P p \/ p = q) -> smallest P' (extendBox (ptBox q) b).
Proof.
  intros P P' b q HX HY [(N & ->)|(A & (p1 & P1 & E1) & (p2 & P2 & E2) & (p3 & P3 & E3) & (p4 & P4 & E4))] I.
  - assert (Q : P' q) by (apply I; auto).
    split; [|repeat split; exists q; split; auto; cbn; lia].
    intros p Hp. apply I in Hp. destruct Hp as [Hp|Hp]; [destruct (N _ Hp)|]. rewrite Hp in *. unfold inside. cbn. lia.
  - assert (Q : P' q) by (apply I; auto). split; [|repeat split].
    + intros p Hp. apply I in Hp. destruct Hp as [Hp| ->]; [apply A in Hp|]; unfold inside in *; cbn; lia.
    + cbn. destruct (Z.min_spec (fst q) (x0 b)) as [(_ & ->)|(_ & ->)]; [exists q; auto|exists p1; split; [apply I; auto|auto]].
    + cbn. destruct (Z.min_spec (snd q) (y0 b)) as [(_ & ->)|(_ & ->)]; [exists q; auto|exists p2; split; [apply I; auto|auto]].
    + cbn. destruct (Z.max_spec (fst q) (x1 b)) as [(_ & ->)|(_ & ->)]; [exists p3; split; [apply I; auto|auto]|exists q; auto].
    + cbn. destruct (Z.max_spec (snd q) (y1 b)) as [(_ & ->)|(_ & ->)]; [exists p4; split; [apply I; auto|auto]|exists q; auto].
Qed.
Lemma smallest_ext : forall (P P' : pt -> Prop) b, (forall p, P p <-> P' p) -> smallest P b -> smallest P' b.
Proof.
  intros P P' b E (A & (p1 & P1 & E1) & (p2 & P2 & E2) & (p3 & P3 & E3) & (p4 & P4 & E4)).
  split; [intros p H; apply A, E, H|]. repeat split; [exists p1|exists p2|exists p3|exists p4]; split; auto; now apply E.
Qed.

Lemma tripBox_inv : forall v sts, (0 < v)%Q -> Forall (fun s => (- M <= fst (sPos _ (stStop _ s)) <= M /\ - M <= snd (sPos _ (stStop _ s)) <= M)%Z) sts ->
  forall rest done cur ds, sts = done ++ rest -> boxOK (upTo v sts (length done)) cur ->
  boxOK (upTo v sts (length sts)) (fst (tripBox v (match length done with O => None | S j => nth_error sts j end) rest cur ds)).
Proof.
  intros v sts V L. induction rest as [|st rest IH]; intros done cur ds E B.
  - cbn. rewrite E, app_nil_r in *. exact B.
  - cbn [Box_model.tripBox].
    assert (NS : nth_error sts (length done) = Some st) by (rewrite E, nth_error_app2, Nat.sub_diag; [reflexivity|lia]).
    assert (HD : hd_error rest = nth_error sts (S (length done))).
    { rewrite E, nth_error_app2 by lia. replace (S (length done) - length done) with 1 by lia. now destruct rest. }
    pose proof (skip_iff v sts (length done) st V NS) as SK. rewrite <- HD in SK.
    specialize (IH (done ++ [st])). rewrite app_length in IH. cbn [length] in IH. replace (length done + 1) with (S (length done)) in IH by lia.
    cbn beta iota in IH. rewrite NS in IH. apply IH; [rewrite <- app_assoc; exact E|].
    assert (LT : forall i, i < S (length done) <-> i < length done \/ i = length done) by (intros; lia).
    destruct (skipStop hav emptySecs v _ st (hd_error rest)) eqn:K.
    + assert (NR : ~ regular hav emptySecs v sts (length done)) by (now apply SK).
      assert (X : forall p, upTo v sts (length done) p <-> upTo v sts (S (length done)) p).
      { intros p. split; intros (i & s & I & A & P & R); exists i, s; (split; [|split; [exact A|split; [exact P|exact R]]]); [lia|]. apply LT in I. destruct I as [I| ->]; [exact I|contradiction]. }
      destruct B as [(N & ->)|B]; [left; split; [intros p H; apply X in H; exact (N _ H)|reflexivity]|right; exact (smallest_ext _ _ _ X B)].
    + right. rewrite Forall_forall in L. destruct (L st (nth_error_In _ _ NS)) as (LX & LY).
      apply (box_step (upTo v sts (length done))); [exact LX|exact LY|exact B|].
      assert (RG : regular hav emptySecs v sts (length done)).
      { intros j Ej O. assert (FT : false = true); [|discriminate]. apply SK. intros R. exact (R j Ej O). }
      intros p. split.
      * intros (i & s & I & A & P & R). apply LT in I. destruct I as [I| ->]; [left; exists i, s; auto|]. right. rewrite NS in A. injection A as <-. now symmetry.
      * intros [(i & s & I & A & P & R)| ->]; [exists i, s; split; [lia|auto]|]. exists (length done), st. repeat split; auto.
Qed.
Lemma tripBox_ok : forall v sts ds, (0 < v)%Q -> sts <> [] -> Forall (fun s => (- M <= fst (sPos _ (stStop _ s)) <= M /\ - M <= snd (sPos _ (stStop _ s)) <= M)%Z) sts ->
  smallest (stops_at hav emptySecs v sts) (fst (tripBox v None sts (minbox M) ds)).
Proof.
  intros v sts ds V N L. pose proof (tripBox_inv v sts V L sts [] (minbox M) ds eq_refl) as B. cbn [length] in B.
  assert (X : forall p, upTo v sts (length sts) p <-> stops_at hav emptySecs v sts p).
  { intros p. split; intros (i & s & H); exists i, s; unfold at_pos in *; decompose [and] H; repeat split; auto. now apply nth_lt in H0. }
  destruct B as [(E & _)|B]; [left; split; [intros p (i & s & I & _); lia|reflexivity]| |exact (smallest_ext _ _ _ X B)].
  exfalso. destruct sts as [|s r]; [now apply N|]. apply (E (sPos _ (stStop _ s))). exists 0, s. repeat split; [cbn; lia|]. intros j Ej. discriminate.
Qed.

Fixpoint gaps (p : stime) (l : list stime) : list Q := match l with [] => [] | s :: r => hav (sPos _ (stStop _ s)) (sPos _ (stStop _ p)) :: gaps s r end.
Lemma tripBox_ds_some : forall v rest p cur ds, snd (tripBox v (Some p) rest cur ds) = ds ++ gaps p rest.
Proof. induction rest as [|s r IH]; intros p cur ds; cbn; [now rewrite app_nil_r|]. rewrite IH, <- app_assoc. reflexivity. Qed.
Lemma tripBox_ds : forall v p rest cur ds, snd (tripBox v None (p :: rest) cur ds) = ds ++ gaps p rest.
Proof. intros. cbn [Box_model.tripBox]. apply tripBox_ds_some. Qed.
Lemma tripBox_fst_ds : forall v rest p cur ds ds', fst (tripBox v p rest cur ds) = fst (tripBox v p rest cur ds').
Proof. induction rest as [|s r IH]; intros p cur ds ds'; cbn; [reflexivity|]. apply IH. Qed.
Lemma gaps_hops : forall rest p, hops hav (p :: rest) (gaps p rest).
Proof.
  induction rest as [|s r IH]; intros p; split.
  - reflexivity.
  - intros [|i] a b A B; [discriminate|destruct i; discriminate].
  - cbn. destruct (IH s) as (L & _). cbn in L. lia.
  - intros [|i] a b A B; cbn in A, B |- *.
    + injection A as <-. injection B as <-. reflexivity.
    + destruct (IH s) as (_ & H). exact (H i a b A B).
Qed.


(** All trips *)
Lemma gtfsBox_ok : forall v mots tid drop trips x ds, (0 < v)%Q -> Forall (located M) trips ->
  exists bs dss,
    fst (gtfsBox trips mots tid drop v (x, ds)) = fold_left (add pad area) bs x /\
    snd (gtfsBox trips mots tid drop v (x, ds)) = ds ++ concat dss /\
    Forall2 (fun t b => smallest (stops_at hav emptySecs v (tSts _ (fTrip _ t))) b) (filter (fun t => negb (boxSkips mots tid drop t)) trips) bs /\
    Forall2 (fun t ds => hops hav (tSts _ (fTrip _ t)) ds) (filter (fun t => negb (boxSkips mots tid drop t)) trips) dss.
Proof.
  intros v mots tid drop. induction trips as [|t r IH]; intros x ds V L.
  - exists [], []. cbn. rewrite app_nil_r. auto.
  - inversion L as [|? ? L1 L2]; subst. unfold Box_model.gtfsBox in *. cbn [fold_left filter]. destruct (boxSkips mots tid drop t) eqn:K; cbn [negb].
    + apply IH; auto.
    + cbn [fst snd]. destruct (tripBox v None (tSts _ (fTrip _ t)) (minbox M) ds) as [b d] eqn:T.
      apply skips_iff in K. destruct K as (_ & LEN & _).
      destruct (tSts _ (fTrip _ t)) as [|s0 sr] eqn:ST; [cbn in LEN; lia|].
      assert (B : smallest (stops_at hav emptySecs v (s0 :: sr)) b).
      { replace b with (fst (tripBox v None (s0 :: sr) (minbox M) ds)) by (now rewrite T). apply tripBox_ok; [auto|discriminate|]. unfold located in L1. now rewrite ST in L1. }
      assert (D : d = ds ++ gaps s0 sr) by (rewrite <- (tripBox_ds v s0 sr (minbox M) ds), T; reflexivity).
      destruct (IH (add pad area x b) d V L2) as (bs & dss & E1 & E2 & F1 & F2).
      exists (b :: bs), (gaps s0 sr :: dss). cbn [fold_left concat]. split; [exact E1|]. split; [rewrite E2, D, <- app_assoc; reflexivity|].
      split; constructor; auto; rewrite ST; auto. apply gaps_hops.
Qed.

(** The area of an extract *)
Lemma extract_ok : forall v mots tid feeds x, (0 < v)%Q -> Forall (Forall (located M)) feeds ->
  exists bs, fold_left (fun x trips => fst (gtfsBox trips mots tid true v (x, []))) feeds x = fold_left (add pad area) bs x /\
    Forall2 (fun t b => smallest (stops_at hav emptySecs v (tSts _ (fTrip _ t))) b) (filter (fun t => negb (boxSkips mots tid true t)) (concat feeds)) bs.
Proof.
  intros v mots tid. induction feeds as [|f r IH]; intros x V L.
  - exists []. cbn. auto.
  - inversion L as [|? ? L1 L2]; subst. cbn [fold_left concat].
    destruct (gtfsBox_ok v mots tid true f x [] V L1) as (bs & dss & E1 & _ & F1 & _).
    destruct (IH (fst (gtfsBox f mots tid true v (x, []))) V L2) as (bs' & E2 & F2). rewrite E1 in E2.
    exists (bs ++ bs'). rewrite fold_left_app. rewrite E1. split; [exact E2|].
    clear - F1 F2. rewrite filter_app. apply Forall2_app; assumption.
Qed.
End Proofs.

Lemma outlier_mono : forall hav emptySecs v v' sts i, (forall a b, 0 <= hav a b)%Q -> (0 < v)%Q -> (v <= v')%Q -> outlier hav emptySecs v' sts i -> outlier hav emptySecs v sts i.
Proof.
  assert (H : forall v v' d time, (0 <= d)%Q -> (0 < v)%Q -> (v <= v')%Q -> hopeless v' d time -> hopeless v d time).
  { intros v v' d time D V L H. unfold hopeless in *.
    destruct (Z_lt_le_dec (9 * (time + 300)) 0) as [N|P].
    - apply Qlt_le_trans with 0%Q; [|exact D]. setoid_replace 0%Q with (0 * v)%Q by ring. apply Qmult_lt_r; [exact V|]. change 0%Q with (inject_Z 0). rewrite <- Zlt_Qlt. exact N.
    - eapply Qle_lt_trans; [|exact H]. rewrite !(Qmult_comm (inject_Z _)). apply Qmult_le_compat_r; [exact L|]. change 0%Q with (inject_Z 0). rewrite <- Zle_Qle. exact P. }
  intros hav es v v' sts i D V L (p & s & n & dp & a & d & an & P & S' & NN & C1 & C2 & C3 & C4 & H1 & H2).
  exists p, s, n, dp, a, d, an. repeat (first [assumption | apply conj]).
  - apply (H v v'); auto.
  - apply (H v v'); auto.
Qed.
