(** C47, C48, C61: the comparison of shapes in shapevl. *)
From Coq Require Import List Arith ZArith QArith Qabs Bool Lia Permutation.
From Verif Require Import ListAux Collect_model Collect_spec Collect_proofs.
Import ListNotations.
Open Scope nat_scope.

(** ** C48: the order of lines *)
(** Lines are equivalent exactly if their points are pairwise nearer than the tolerance. *)
Theorem C48_equivalent : forall dist a b, (forall p q : point, (fst p == fst q)%Q -> (snd p == snd q)%Q -> near dist p q) -> (forall p q, (dist p q == dist q p)%Q) ->
  (lineLt dist a b = false /\ lineLt dist b a = false) <-> close dist a b.
Proof.
  intros dist a b H1 H2. rewrite <- (eqv_close dist H1 H2). unfold lineEqv. rewrite andb_true_iff, !negb_true_iff. tauto.
Qed.
Print Assumptions C48_equivalent.
Theorem C48_asymmetric : forall dist a b, (forall p q, (dist p q == dist q p)%Q) -> lineLt dist a b = true -> lineLt dist b a = false.
Proof. intros dist a b H. apply lineLt_asym. exact H. Qed.
Print Assumptions C48_asymmetric.
(** It is a strict weak order as long as different points are farther apart than the tolerance. *)
Theorem C48_apart : forall dist D, (forall p q : point, (fst p == fst q)%Q -> (snd p == snd q)%Q -> near dist p q) -> (forall p q, (dist p q == dist q p)%Q) -> apart dist D -> StrictWeak D (lineLt dist).
Proof. intros dist D H1 H2 H3. apply lineLt_weak; assumption. Qed.
Print Assumptions C48_apart.
(** In general it is not: for every distance that is |dx| along a parallel and at least |dy|, neither "less" nor "equivalent" is transitive. *)
Theorem C48_order_refuted : forall dist, (forall p q : point, (snd p - snd q <= dist p q)%Q /\ (snd q - snd p <= dist p q)%Q) ->
  (forall x x' y : Q, (x <= x')%Q -> (dist (x, y) (x', y) == x' - x)%Q) ->
  (exists a b c, lineLt dist a b = true /\ lineLt dist b c = true /\ lineLt dist a c = false) /\
  (exists a b c, lineLt dist a b = false /\ lineLt dist b a = false /\ lineLt dist b c = false /\ lineLt dist c b = false /\ lineLt dist a c = true).
Proof.
  intros dist H1 H2.
  assert (F : forall (x x' y y' : Q), (1 <= y' - y)%Q \/ (1 <= y - y')%Q -> far dist (x, y) (x', y') = true).
  { intros x x' y y' H. apply far_not. intros G. unfold near in G. destruct (H1 (x, y) (x', y')) as (G1 & G2). cbn [fst snd] in *. assert (K : (1 <= 1 # 100000)%Q) by (destruct H as [H | H]; [exact (Qle_trans _ _ _ H (Qle_trans _ _ _ G2 G)) | exact (Qle_trans _ _ _ H (Qle_trans _ _ _ G1 G))]). revert K. vm_compute. intros K. apply K. reflexivity. }
  assert (G : forall (x x' y : Q), (x <= x')%Q -> far dist (x, y) (x', y) = Qltb (1 # 100000) (x' - x)).
  { intros x x' y H. unfold far, Qltb. rewrite (Qleb_comp _ _ (H2 x x' y H) _ _ (Qeq_refl _)). reflexivity. }
  split.
  - exists [(0, 0)%Q], [(4 # 1000000, 1)%Q], [(8 # 1000000, 0)%Q]. unfold lineLt. cbn [length ptsLt]. rewrite Nat.eqb_refl.
    rewrite (F 0 (4 # 1000000) 0 1)%Q by (left; vm_compute; discriminate). rewrite (F (4 # 1000000) (8 # 1000000) 1 0)%Q by (right; vm_compute; discriminate). rewrite (G 0 (8 # 1000000) 0)%Q by (vm_compute; discriminate). repeat split; vm_compute; reflexivity.
  - exists [(0, 0)%Q], [(8 # 1000000, 0)%Q], [(16 # 1000000, 0)%Q]. unfold lineLt. cbn [length ptsLt]. rewrite Nat.eqb_refl.
    rewrite (G 0 (8 # 1000000) 0)%Q, (G (8 # 1000000) (16 # 1000000) 0)%Q, (G 0 (16 # 1000000) 0)%Q by (vm_compute; discriminate).
    split; [vm_compute; reflexivity|]. split; [destruct (far dist _ _); vm_compute; reflexivity|]. split; [vm_compute; reflexivity|]. split; [destruct (far dist _ _); vm_compute; reflexivity|]. vm_compute. reflexivity.
Qed.
Print Assumptions C48_order_refuted.
Definition maxDist (p q : point) : Q := let d := (if Qle_bool (fst p) (fst q) then fst q - fst p else fst p - fst q)%Q in let e := (if Qle_bool (snd p) (snd q) then snd q - snd p else snd p - snd q)%Q in if Qle_bool d e then e else d.
Example C48_ex : lineLt maxDist [(0, 0); (1, 2)]%Q [(0, 0); (1, 3)]%Q = true /\ close maxDist [(0, 0)]%Q [(1 # 1000000, 0)]%Q /\
  apart maxDist (fun l => l = [(0, 0); (1, 2)]%Q \/ l = [(0, 0); (1, 3)]%Q).
Proof.
  split; [vm_compute; reflexivity|]. split; [constructor; [vm_compute; discriminate | constructor]|].
  intros a b p q Ha Hb Hp Hq H. destruct Ha as [-> | ->], Hb as [-> | ->]; destruct Hp as [<- | [<- | []]], Hq as [<- | [<- | []]]; try reflexivity; exfalso; revert H; vm_compute; intros H; apply H; reflexivity.
Qed.

(** ** C61: shapes are cut at the stops *)
(** Each segment is the part of the shape between the points at the distances of two successive stops. *)
Theorem C61_segments : forall latLngLen getSegment hav t (s : shape) segs lds, increasing s -> segmentize latLngLen getSegment hav t (map fst s) (map snd s) = Some (segs, lds) ->
  Segs getSegment s (tStops t) segs /\ (forall segs', Segs getSegment s (tStops t) segs' -> segs' = segs) /\ length segs = length (tStops t) - 1.
Proof.
  intros len gs hav t s segs lds Hi H. apply segmentize_ok in H. split; [exact H|]. split; [intros segs' H'; exact (Segs_fun gs s _ segs' segs Hi H' H) | exact (Segs_length gs s _ _ H)].
Qed.
Print Assumptions C61_segments.
(** There is a point for every distance, and only one; no division by zero. *)
Theorem C61_point : forall (s : shape) c, increasing s -> s <> [] -> exists p, cutAt (map fst s) (map snd s) c = Some p /\ At s c p /\ forall q, At s c q -> q = p.
Proof.
  intros s c Hi Hs. destruct (cutAt_some s c Hs) as (p & Hp). exists p. split; [exact Hp|]. apply cutAt_ok in Hp. split; [exact Hp|]. intros q Hq. exact (At_fun s c q p Hi Hq Hp).
Qed.
Print Assumptions C61_point.
Theorem C61_total : forall latLngLen getSegment hav t (s : shape), s <> [] -> exists segs lds, segmentize latLngLen getSegment hav t (map fst s) (map snd s) = Some (segs, lds).
Proof. intros len gs hav t s Hs. destruct (segmentize_some len gs hav t s Hs) as (segs & lds & H & _). exists segs, lds. exact H. Qed.
Print Assumptions C61_total.
(** A shape without points is an access outside of the vector. *)
Theorem C61_empty_refuted : forall latLngLen getSegment hav t, 2 <= length (tStops t) -> segmentize latLngLen getSegment hav t [] [] = None.
Proof. intros len gs hav t H. unfold segmentize. destruct (tStops t) as [|(st & c) [|st2 r]]; cbn [length] in H; try lia. reflexivity. Qed.
Print Assumptions C61_empty_refuted.
Definition exShape : shape := [((0, 0), 0); ((4, 0), 4); ((4, 0), 4); ((4, 2), 6)]%Q.
Example C61_ex : increasing exShape /\ exists segs lds, segmentize (fun _ => 1%Q) (fun _ p q => [p; q]) (fun _ _ => 0%Q) (mkTrip 0 [(0, (-1)%Q); (1, 1%Q); (2, 5%Q); (3, 9%Q)]) (map fst exShape) (map snd exShape) = Some (segs, lds) /\
  Forall2 (Forall2 (fun p q => fst p == fst q /\ snd p == snd q)%Q) segs [[(0, 0); (1, 0)]; [(1, 0); (4, 1)]; [(4, 1); (4, 2)]]%Q.
Proof.
  split.
  - intros l1 l2 l3 p q a b E. unfold exShape in E.
    assert (H : forall i j x y, i < j -> nth_error exShape i = Some x -> nth_error exShape j = Some y -> (snd x <= snd y)%Q).
    { intros i j x y Hij Hi Hj. pose proof (nth_lt _ _ _ _ Hj) as L. unfold exShape in L. cbn [length] in L. do 4 (destruct i as [|i]; [do 4 (destruct j as [|j]; [first [lia | cbn in Hi, Hj; injection Hi as <-; injection Hj as <-; vm_compute; discriminate]|]); lia|]). lia. }
    fold exShape in E. apply (H (length l1) (length l1 + S (length l2)) (p, a) (q, b)); [lia | |]; rewrite E.
    + rewrite nth_error_app2 by lia. rewrite Nat.sub_diag. reflexivity.
    + rewrite nth_error_app2 by lia. replace (length l1 + S (length l2) - length l1) with (S (length l2)) by lia. cbn [nth_error]. rewrite nth_error_app2 by lia. rewrite Nat.sub_diag. reflexivity.
  - eexists _, _. split; [vm_compute; reflexivity|]. repeat constructor; vm_compute; reflexivity.
Qed.

(** ** C47: counters *)
(** Any sequence of calls: all trips are counted, skipped or compared; the counters grow with the threshold and none exceeds the number of trips compared; there are no more results than trips compared, and as many if no trip is given twice. *)
Theorem C47_counts : forall latLngLen simplify tol getSegment hav accFrechet frechet distL dist ks segLen c vs,
  addAll latLngLen simplify tol getSegment hav accFrechet frechet distL dist emptyColl ks segLen = Some (c, vs) ->
  cTrips c = length ks /\ length vs = length ks /\ length (cAn c) = 8 /\
  (forall i j x y, i <= j -> nth_error (cAn c) i = Some x -> nth_error (cAn c) j = Some y -> x <= y) /\
  (forall x, In x (cAn c) -> x + cNoOrig c <= cTrips c) /\
  length (cResults c) + cNoOrig c <= cTrips c /\
  (NoDup (map (fun k => tId (kOldT k)) ks) -> length (cResults c) + cNoOrig c = cTrips c).
Proof.
  intros len simp tol gs hav af fr dl dist ks segLen c vs H. apply addAll_steps in H. destruct H as (os & -> & H & _). destruct (Steps_sums _ _ _ _ H) as (H1 & H2 & _ & _ & H5). cbn [emptyColl cTrips cNoOrig Nat.add] in H1, H2.
  pose proof (Steps_an _ _ _ _ H (fun _ => 0) eq_refl) as Ha. destruct (Steps_count _ _ _ _ H) as (C1 & C2). cbn [emptyColl cResults cNoOrig length Nat.add] in C1, C2.
  split; [exact H1|]. split; [rewrite map_length; exact H5|]. split; [rewrite Ha; reflexivity|]. split; [|split; [|split]].
  - intros i j x y Hij Hx Hy. rewrite Ha, nth_error_map in Hx, Hy. destruct (nth_error thresholds i) as [t|] eqn:Et; [|discriminate]. destruct (nth_error thresholds j) as [t'|] eqn:Et'; [|discriminate]. cbn [option_map Nat.add] in Hx, Hy. injection Hx as <-. injection Hy as <-.
    apply sumOf_le. intros o. apply within_mono. exact (thresholds_inc i j t t' Hij Et Et').
  - intros x Hx. rewrite Ha in Hx. apply in_map_iff in Hx. destruct Hx as (t & <- & _). rewrite H1, H2, <- H5. cbn [Nat.add]. apply within_skipped.
  - lia.
  - intros Hd. rewrite C2; [lia | exact Hd | intros r k []].
Qed.
Print Assumptions C47_counts.
(** If the lines compared are apart: every trip is compared on its own, whatever was compared before; the counters, the sums and the results are those of the outcomes. *)
Theorem C47_outcomes : forall latLngLen simplify tol getSegment hav accFrechet frechet distL dist ks segLen c vs,
  (forall p q : point, (fst p == fst q)%Q -> (snd p == snd q)%Q -> near dist p q) -> (forall p q, (dist p q == dist q p)%Q) -> apart dist (Used simplify tol getSegment ks) ->
  addAll latLngLen simplify tol getSegment hav accFrechet frechet distL dist emptyColl ks segLen = Some (c, vs) ->
  exists os, Forall2 (Outcome latLngLen simplify tol getSegment accFrechet frechet segLen) ks os /\ vs = map avgOf os /\ Report ks os c /\ Results ks os (cResults c).
Proof.
  intros len simp tol gs hav af fr dl dist ks segLen c vs H1 H2 H3 H. destruct (used_D simp tol gs ks) as (Do & Dn).
  destruct (addAll_ok len simp tol gs hav af fr dl dist H1 H2 _ H3 segLen ks emptyColl c vs Do Dn) as (os & G1 & G2 & G3); [constructor; intros a m [] | exact H|].
  exists os. split; [exact G1|]. split; [exact G2|]. split; [apply Steps_report; exact G3 | apply Steps_Results; exact G3].
Qed.
Print Assumptions C47_outcomes.
(** The outcome of a trip is unique. *)
Theorem C47_unique_outcome : forall latLngLen simplify tol getSegment accFrechet frechet segLen k a b, increasing (kNewS k) -> (forall s, kOldS k = Some s -> increasing s) ->
  Outcome latLngLen simplify tol getSegment accFrechet frechet segLen k a -> Outcome latLngLen simplify tol getSegment accFrechet frechet segLen k b ->
  match a, b with None, None => True | Some (x, n, m), Some (x', n', m') => (x == x')%Q /\ n = n' /\ m = m' | _, _ => False end.
Proof. intros len simp tol gs af fr segLen k a b Hn Ho Ha Hb. exact (Outcome_fun len simp tol gs af fr segLen k a b Hn Ho Ha Hb). Qed.
Print Assumptions C47_unique_outcome.
(** The order of the trips makes no difference. *)
Theorem C47_order : forall latLngLen simplify tol getSegment hav accFrechet frechet distL dist ks ks' segLen c vs c' vs',
  (forall p q : point, (fst p == fst q)%Q -> (snd p == snd q)%Q -> near dist p q) -> (forall p q, (dist p q == dist q p)%Q) -> apart dist (Used simplify tol getSegment ks) ->
  (forall k, In k ks -> increasing (kNewS k) /\ forall s, kOldS k = Some s -> increasing s) -> Permutation ks ks' ->
  addAll latLngLen simplify tol getSegment hav accFrechet frechet distL dist emptyColl ks segLen = Some (c, vs) ->
  addAll latLngLen simplify tol getSegment hav accFrechet frechet distL dist emptyColl ks' segLen = Some (c', vs') ->
  cTrips c = cTrips c' /\ cNoOrig c = cNoOrig c' /\ cAn c = cAn c' /\ cUnSum c = cUnSum c' /\ (cAccSum c == cAccSum c')%Q.
Proof.
  intros len simp tol gs hav af fr dl dist ks ks' segLen c vs c' vs' H1 H2 H3 Hinc HP Hc Hc'.
  assert (H3' : apart dist (Used simp tol gs ks')).
  { assert (G : forall l, Used simp tol gs ks' l -> Used simp tol gs ks l).
    { intros l Hl. destruct Hl as [k s segs p Hk Hs Hg | k segs p Hk Hg | k s segs x p Hk Hs Hg Hx | k segs x p Hk Hg Hx]; apply (Permutation_in _ (Permutation_sym HP)) in Hk; [eapply Us_old | eapply Us_new | eapply Us_seg_old | eapply Us_seg_new]; eassumption. }
    intros a b p q Ha Hb. apply (H3 a b p q (G a Ha) (G b Hb)). }
  destruct (C47_outcomes len simp tol gs hav af fr dl dist ks segLen c vs H1 H2 H3 Hc) as (os & F & _ & [R1 R2 R3 R4 R5] & _).
  destruct (C47_outcomes len simp tol gs hav af fr dl dist ks' segLen c' vs' H1 H2 H3' Hc') as (os' & F' & _ & [S1 S2 S3 S4 S5] & _).
  destruct (Forall2_perm _ _ _ _ _ _ HP F) as (os2 & P2 & F2).
  assert (Hsame : Forall2 sameOut os2 os').
  { assert (Hinc' : forall k, In k ks' -> increasing (kNewS k) /\ forall s, kOldS k = Some s -> increasing s) by (intros k Hk; apply Hinc, (Permutation_in _ (Permutation_sym HP)); exact Hk). clear - F2 F' Hinc'. revert os' F'. induction F2 as [|k o ks' os2 Ho F2 IH]; intros os' F'; inversion F' as [|? o' ? os'' Ho' F'']; subst; constructor.
    - destruct (Hinc' k (or_introl eq_refl)) as (I1 & I2). exact (Outcome_fun len simp tol gs af fr segLen k o o' I1 I2 Ho Ho').
    - apply IH; [intros k' Hk'; apply Hinc'; right; exact Hk' | exact F'']. }
  split; [rewrite R1, S1; apply Permutation_length; exact HP|]. split; [rewrite R2, S2, (sumOf_perm _ _ _ _ P2); apply sumOf_same; [apply same_skipped | exact Hsame]|].
  split; [rewrite R3, S3; apply map_ext; intros t; rewrite (sumOf_perm _ _ _ _ P2); apply sumOf_same; [apply same_within | exact Hsame]|].
  split; [rewrite R4, S4, (sumOf_perm _ _ _ _ P2); apply sumOf_same; [apply same_missed | exact Hsame]|].
  rewrite R5, S5, (sumQ_perm _ avgOf _ _ P2). apply sumQ_same. exact Hsame.
Qed.
Print Assumptions C47_order.
(** The statistics printed *)
Theorem C47_stats : forall latLngLen simplify tol getSegment hav accFrechet frechet distL dist ks segLen c vs,
  addAll latLngLen simplify tol getSegment hav accFrechet frechet distL dist emptyColl ks segLen = Some (c, vs) -> NoDup (map (fun k => tId (kOldT k)) ks) ->
  sTrips (getStats c) = sMatched (getStats c) + sWithout (getStats c) /\
  (sMatched (getStats c) = 0 -> forall x, In x (sAvgFr (getStats c) :: sAn (getStats c)) -> x = None) /\
  (sMatched (getStats c) > 0 -> Forall2 (fun n x => exists y, x = Some y /\ (y * nat2Q (sMatched (getStats c)) == nat2Q n * 100)%Q /\ (0 <= y)%Q /\ (y <= 100)%Q) (cAn c) (sAn (getStats c)) /\ exists a, sAvgFr (getStats c) = Some a /\ (a * nat2Q (sMatched (getStats c)) == cAccSum c)%Q).
Proof.
  intros len simp tol gs hav af fr dl dist ks segLen c vs H Hd. destruct (C47_counts _ _ _ _ _ _ _ _ _ _ _ _ _ H) as (H1 & _ & _ & _ & H5 & H6 & H7). specialize (H7 Hd). unfold getStats. cbn [sTrips sMatched sWithout sAvgFr sAn]. split; [lia|]. split.
  - intros H0 x [<- | Hx]; [rewrite H0; reflexivity|]. apply in_map_iff in Hx. destruct Hx as (n & <- & _). rewrite H0. reflexivity.
  - intros Hpos. set (m := length (cResults c)) in *. assert (Hm : (0 < qn m)%Q) by (unfold qn, Qlt; cbn; lia). assert (Hne : Qeq_bool (qn m) 0 = false) by (destruct (Qeq_bool (qn m) 0) eqn:E; [apply Qeq_bool_iff in E; rewrite E in Hm; exfalso; exact (Qlt_irrefl _ Hm) | reflexivity]).
    unfold ratio. rewrite Hne. split.
    + assert (G : forall n, In n (cAn c) -> exists y, Some (qn n / qn m * 100)%Q = Some y /\ (y * nat2Q m == nat2Q n * 100)%Q /\ (0 <= y)%Q /\ (y <= 100)%Q);
        [|revert G; generalize (cAn c); intros l G; induction l as [|n l IH]; cbn [map]; constructor; [apply G; left; reflexivity | apply IH; intros n' Hn'; apply G; right; exact Hn']].
      intros n Hn. exists (qn n / qn m * 100)%Q. split; [reflexivity|]. split; [unfold nat2Q; fold (qn m) (qn n); field; intros E; rewrite E in Hm; exact (Qlt_irrefl _ Hm)|]. specialize (H5 n Hn). assert (Hnm : n <= m) by lia. split.
      * apply Qmult_le_0_compat; [|vm_compute; discriminate]. apply Qle_shift_div_l; [exact Hm|]. unfold qn, Qle; cbn. lia.
      * setoid_replace 100%Q with (1 * 100)%Q at 2 by reflexivity. apply Qmult_le_compat_r; [|vm_compute; discriminate]. apply Qle_shift_div_r; [exact Hm|]. rewrite Qmult_1_l. unfold qn, Qle; cbn. lia.
    + eexists. split; [reflexivity|]. unfold nat2Q. fold (qn m). field. intros E. rewrite E in Hm. exact (Qlt_irrefl _ Hm).
Qed.
Print Assumptions C47_stats.
Theorem C47_median : forall c, cDiffs c <> [] -> exists m, sMedian (getStats c) = Some m /\ Median (cDiffs c) m.
Proof. intros c H. destruct (median_ok (cDiffs c) H) as (m & H1 & H2). exists m. split; [|exact H2]. unfold getStats. cbn [sMedian]. destruct (cDiffs c); [contradiction | exact H1]. Qed.
Print Assumptions C47_median.
(** The median and the average printed are those of the hops of all compared trips: of the differences between the distance of two stops and the length of the new shape between them, and of these distances. *)
Theorem C47_hops : forall latLngLen simplify tol getSegment hav accFrechet frechet distL dist ks segLen c vs,
  addAll latLngLen simplify tol getSegment hav accFrechet frechet distL dist emptyColl ks segLen = Some (c, vs) ->
  exists hs, AllHops latLngLen getSegment hav ks hs /\
  (hs = [] -> sMedian (getStats c) = Some (-1)%Q /\ sAvgHop (getStats c) = Some (-1)%Q) /\
  (hs <> [] -> (exists m, sMedian (getStats c) = Some m /\ Median (map (fun h => Qabs (fst h - snd h)) hs) m) /\
               exists a, sAvgHop (getStats c) = Some a /\ (a * nat2Q (length hs) == fold_right (fun h s => fst h + s) 0 hs)%Q).
Proof.
  intros len simp tol gs hav af fr dl dist ks segLen c vs H. apply addAll_hops in H. destruct H as (hs & H1 & H2 & H3). cbn [emptyColl cDiffs cHops app] in H2, H3. exists hs. split; [exact H1|].
  assert (Ea : forall x, Qabs' x = Qabs x).
  { intros [a b]. unfold Qabs', Qabs, Qle_bool. cbn [Qnum Qden]. rewrite Z.mul_0_l, Z.mul_1_r. destruct (0 <=? a)%Z eqn:E; [apply Z.leb_le in E; rewrite Z.abs_eq by lia; reflexivity | apply Z.leb_gt in E; unfold Qopp; cbn [Qnum Qden]; rewrite Z.abs_neq by lia; reflexivity]. }
  split; [intros ->; cbn [map] in H2, H3; unfold getStats; rewrite H2, H3; split; reflexivity|]. intros Hne. split.
  - assert (Hd : cDiffs c <> []) by (rewrite H2; destruct hs; [contradiction | discriminate]). destruct (C47_median c Hd) as (m & M1 & M2). exists m. split; [exact M1|]. rewrite H2 in M2. erewrite map_ext in M2; [exact M2|]. intros p. cbv beta. apply Ea.
  - unfold getStats. cbn [sAvgHop]. rewrite H3. destruct hs as [|h hs]; [contradiction|]. cbn [map]. rewrite <- (map_cons fst h hs). set (l := h :: hs). rewrite map_length.
    assert (Hp : (0 < qn (length l))%Q) by (unfold qn, Qlt, l; cbn [length Qnum Qden inject_Z]; lia).
    assert (Hz : ~ (qn (length l) == 0)%Q) by (intros E; rewrite E in Hp; exact (Qlt_irrefl _ Hp)).
    unfold ratio. destruct (Qeq_bool (qn (length l)) 0) eqn:E; [apply Qeq_bool_iff in E; contradiction|]. eexists. split; [reflexivity|].
    assert (Es : sumQ (map fst l) = fold_right (fun h s => (fst h + s)%Q) 0%Q l) by (clear; induction l as [|x l IH]; [reflexivity|]; cbn [map sumQ fold_right]; unfold sumQ in IH; rewrite IH; reflexivity).
    rewrite <- Es. change (nat2Q (length l)) with (qn (length l)). field. exact Hz.
Qed.
Print Assumptions C47_hops.
(** No call crashes if the trips of both feeds have the same two or more stops and the shapes have points. *)
Theorem C47_total : forall latLngLen simplify tol getSegment hav accFrechet frechet distL dist ks segLen c, (forall l p q, getSegment l p q <> []) ->
  (forall k, In k ks -> kNewS k <> [] /\ (forall s, kOldS k = Some s -> s <> []) /\ length (tStops (kOldT k)) = length (tStops (kNewT k)) /\ 2 <= length (tStops (kOldT k))) ->
  exists c' vs, addAll latLngLen simplify tol getSegment hav accFrechet frechet distL dist c ks segLen = Some (c', vs).
Proof. intros len simp tol gs hav af fr dl dist ks segLen c. apply addAll_some. Qed.
Print Assumptions C47_total.

(** *** Examples and what does not hold *)
Definition exLen (l : line) : Q := inject_Z (Z.of_nat (length l)) * 5.
Definition exAcc (a b : line) (_ : Q) : Q := match a, b with p :: _, q :: _ => 1000000 * (maxDist p q) | _, _ => 0 end.
Notation exAddAll := (addAll exLen (fun l _ => l) (fun _ => 0%Q) (fun _ p q => [p; q]) (fun _ _ => 1%Q) exAcc exAcc (fun _ _ => 0%Q) maxDist emptyColl).
Definition sh (x : Q) : shape := [((x, 0), 0); ((x, 4), 4)]%Q.
Definition tr (i : nat) : trip := mkTrip i [(0, 0%Q); (1, 4%Q)].
Definition ck (i : nat) (x y : Q) : call := mkCall (tr i) (Some (sh x)) (tr i) (sh y).
Example C47_ex : match exAddAll [ck 0 0 0; ck 1 0 1; mkCall (tr 2) None (tr 2) (sh 0); ck 3 7 8] 1%Q with
  | Some (c, vs) => cTrips c = 4 /\ cNoOrig c = 1 /\ cAn c = [1; 1; 1; 1; 1; 1; 1; 1] /\ length (cResults c) = 3
  | None => False end.
Proof. vm_compute. repeat split. Qed.
(** Two compared trips of one hop each: the stops are 1 apart, the segments of the shapes 10 long. *)
Example C47_hops_ex : exists c vs, exAddAll [ck 0 0 0; mkCall (tr 2) None (tr 2) (sh 0); ck 1 0 1] 1%Q = Some (c, vs) /\
  sMedian (getStats c) = Some (9 # 1)%Q /\ (exists a, sAvgHop (getStats c) = Some a /\ (a == 1)%Q) /\ length (cHops c) = 2.
Proof. eexists _, _. split; [vm_compute; reflexivity|]. split; [vm_compute; reflexivity|]. split; [eexists; split; [vm_compute; reflexivity | vm_compute; reflexivity] | vm_compute; reflexivity]. Qed.
(** "Counters do not exceed the results" needs that no trip is given twice. *)
Theorem C47_twice_refuted : match exAddAll [ck 0 0 0; ck 0 0 0] 1%Q with Some (c, _) => length (cResults c) = 1 /\ cAn c = [2; 2; 2; 2; 2; 2; 2; 2] | None => False end.
Proof. vm_compute. repeat split. Qed.
Print Assumptions C47_twice_refuted.
(** A trip with one stop, or with different numbers of stops in the two feeds, crashes. *)
Theorem C47_crash_refuted : exAddAll [mkCall (mkTrip 0 [(0, 0%Q)]) (Some (sh 0)) (mkTrip 0 [(0, 0%Q)]) (sh 0)] 1%Q = None /\ exAddAll [mkCall (tr 0) (Some (sh 0)) (mkTrip 0 [(0, 0%Q); (1, 2%Q); (2, 4%Q)]) (sh 0)] 1%Q = None.
Proof. split; vm_compute; reflexivity. Qed.
Print Assumptions C47_crash_refuted.
(** Trips whose shapes are nearer than the tolerance get the result of the first; the order then matters. *)
Theorem C48_cache_refuted :
  match exAddAll [ck 0 0 0; ck 1 0 (9 # 1000000)] 1%Q, exAddAll [ck 1 0 (9 # 1000000); ck 0 0 0] 1%Q with
  | Some (_, [a; b]), Some (_, [b'; a']) => (a == 0 /\ b == 0 /\ ~ b' == 0 /\ ~ a' == 0)%Q
  | _, _ => False end.
Proof. vm_compute. repeat split; intros H; discriminate. Qed.
Print Assumptions C48_cache_refuted.
(** Trips that are not compared because they are too short still count for the statistics on hops. *)
Theorem C47_short_refuted : match addAll (fun _ => 1%Q) (fun l _ => l) (fun _ => 0%Q) (fun _ p q => [p; q]) (fun _ _ => 7%Q) exAcc exAcc (fun _ _ => 0%Q) maxDist emptyColl [ck 0 0 0] 1%Q with
  | Some (c, _) => cNoOrig c = 1 /\ cResults c = [] /\ sAvgHop (getStats c) = Some (7 # 1)%Q /\ sMedian (getStats c) = Some (6 # 1)%Q
  | None => False end.
Proof. vm_compute. repeat split. Qed.
Print Assumptions C47_short_refuted.
(** The assumptions of C47_outcomes are met. *)
Lemma Segs_tr : forall i x segs, (0 <= x)%Q -> Segs (fun _ p q => [p; q]) (sh x) (tStops (tr i)) segs -> segs = [[(x + (0 - 0) / (4 - 0) * (x - x), 0 + (0 - 0) / (4 - 0) * (4 - 0)); (x, 4)]]%Q.
Proof.
  intros i x segs Hx H. assert (Hi : increasing (sh x)).
  { intros l1 l2 l3 p q a b E. unfold sh in E. destruct l1 as [|y [|z [|w l1]]]; cbn [app] in E.
    - injection E as <- <- E. destruct l2 as [|y l2]; cbn [app] in E; [injection E as <- <- _; vm_compute; discriminate|]. injection E as _ E. destruct l2; discriminate.
    - injection E as _ <- <- E. destruct l2; discriminate.
    - injection E as _ _ E. destruct l2; discriminate.
    - discriminate. }
  refine (Segs_fun (fun _ p q => [p; q]) (sh x) (tStops (tr i)) _ _ Hi H _). unfold tr. cbn [tStops].
  apply (S_more (fun _ p q => [p; q]) (sh x) (0, 0%Q) (1, 4%Q) [] (x + (0 - 0) / (4 - 0) * (x - x), 0 + (0 - 0) / (4 - 0) * (4 - 0))%Q (x, 4)%Q []); [| | apply S_one].
  - exact (A_between (sh x) 0 (x, 0)%Q (x, 4)%Q 0 4 [] [] eq_refl (Qle_refl 0) eq_refl).
  - exact (A_after (sh x) 4 (x, 4)%Q 4 [((x, 0), 0)]%Q eq_refl (Qle_refl 4)).
Qed.
Example C47_outcomes_ex : (forall p q : point, (fst p == fst q)%Q -> (snd p == snd q)%Q -> near maxDist p q) /\ (forall p q, (maxDist p q == maxDist q p)%Q) /\
  apart maxDist (Used (fun l _ => l) (fun _ => 0%Q) (fun _ p q => [p; q]) [ck 0 0 1]).
Proof.
  assert (Hd : forall a b : Q, ((if Qle_bool a b then b - a else a - b) == (if Qle_bool b a then a - b else b - a))%Q).
  { intros a b. destruct (Qle_bool a b) eqn:E, (Qle_bool b a) eqn:F; try apply Qeq_refl.
    - apply Qle_bool_iff in E, F. rewrite (Qle_antisym _ _ E F). apply Qeq_refl.
    - exfalso. assert (G : (b < a)%Q) by (apply Qltb_lt; unfold Qltb; rewrite E; reflexivity). apply Qlt_le_weak, Qle_bool_iff in G. congruence. }
  split; [|split].
  - intros p q H1 H2. unfold near, maxDist. assert (Z : forall a b : Q, (a == b)%Q -> ((if Qle_bool a b then b - a else a - b) == 0)%Q) by (intros a b H; destruct (Qle_bool a b); rewrite H; ring). destruct (Qle_bool _ (if Qle_bool (snd p) (snd q) then _ else _)); rewrite Z by assumption; vm_compute; discriminate.
  - intros p q. unfold maxDist. pose proof (Hd (fst p) (fst q)) as H1. pose proof (Hd (snd p) (snd q)) as H2. rewrite (Qleb_comp _ _ H1 _ _ H2). destruct (Qle_bool _ (if Qle_bool (snd q) (snd p) then _ else _)); assumption.
  - assert (HU : forall l, Used (fun l _ => l) (fun _ => 0%Q) (fun _ p q => [p; q]) [ck 0 0 1] l -> exists x, (x = 0 \/ x = 1)%Q /\ l = [(x + (0 - 0) / (4 - 0) * (x - x), 0 + (0 - 0) / (4 - 0) * (4 - 0)); (x, 4)]%Q).
    { intros l Hl. destruct Hl as [k s segs p Hk Hs Hg | k segs p Hk Hg | k s segs y p Hk Hs Hg Hy | k segs y p Hk Hg Hy]; destruct Hk as [<- | []]; cbn [ck kOldS kOldT kNewS kNewT] in *; try (injection Hs as <-); apply Segs_tr in Hg; try (vm_compute; discriminate); subst segs.
      - exists 0%Q. split; [left; reflexivity | reflexivity].
      - exists 1%Q. split; [right; reflexivity | reflexivity].
      - destruct Hy as [<- | []]. exists 0%Q. split; [left; reflexivity | reflexivity].
      - destruct Hy as [<- | []]. exists 1%Q. split; [right; reflexivity | reflexivity]. }
    intros a b p q Ha Hb Hp Hq H. apply HU in Ha, Hb. destruct Ha as (x & [-> | ->] & ->), Hb as (y & [-> | ->] & ->); destruct Hp as [<- | [<- | []]], Hq as [<- | [<- | []]]; try reflexivity; exfalso; revert H; vm_compute; intros H; apply H; reflexivity.
Qed.
(** The maximum printed is the greatest of the results, -1 if there are none. *)
Theorem C47_max : forall latLngLen simplify tol getSegment hav accFrechet frechet distL dist ks segLen c vs,
  addAll latLngLen simplify tol getSegment hav accFrechet frechet distL dist emptyColl ks segLen = Some (c, vs) ->
  exists m, sMaxFr (getStats c) = Some m /\ (cResults c = [] -> m = (-1)%Q) /\ (cResults c <> [] -> exists r, In r (cResults c) /\ rDist r = m /\ forall r', In r' (cResults c) -> (rDist r' <= m)%Q).
Proof.
  intros len simp tol gs hav af fr dl dist ks segLen c vs H. apply addAll_steps in H. destruct H as (os & -> & H & _). destruct (Steps_Results _ _ _ H) as [_ _ Ho _]. unfold getStats. cbn [sMaxFr]. destruct (destruct_last _ (cResults c)) as [E | (l & r & E)].
  - rewrite E. exists (-1)%Q. split; [reflexivity|]. split; [reflexivity | intros G; contradiction].
  - rewrite E in *. exists (rDist r). split; [|split; [intros G; destruct l; discriminate|]].
    + destruct (l ++ [r]) eqn:El; [destruct l; discriminate|]. rewrite <- El, app_length, nth_error_app2 by (cbn; lia). replace (length l + length [r] - 1 - length l) with 0 by (cbn; lia). reflexivity.
    + intros _. exists r. split; [apply in_or_app; right; left; reflexivity|]. split; [reflexivity|]. intros r' Hr. apply in_app_or in Hr. destruct Hr as [Hr | [<- | []]]; [|apply Qle_refl]. apply in_split in Hr. destruct Hr as (l1 & l2 & ->). apply (Ho l1 l2 []). rewrite <- app_assoc. reflexivity.
Qed.
Print Assumptions C47_max.
