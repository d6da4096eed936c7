(** Property theorems for edge costs (C18), the transition cost (C23) and the
    distance heuristic (C24). *)
From Coq Require Import List Arith ZArith QArith Qround Qminmax Bool Lia Lqa.
From Verif Require Import Weights_model Weights_spec Weights_proofs.
Import ListNotations.

(** C18: a cost in seconds becomes the least number of tenths of seconds that is not
    smaller, saturating at the largest 32-bit value. *)
Theorem C18_cost_rounds_up_and_saturates : forall c, 0 <= c ->
  exists v, rounds_up (c * 10) v /\ costToInt c = Z.min v u32max.
Proof. exact costToInt_sat. Qed.
Print Assumptions C18_cost_rounds_up_and_saturates.

(** C18: the conversion to 32 bits, which comes before the check of the range, is defined for a cost of 0 and more exactly if the
    cost does not have to saturate. *)
Theorem C18_conversion_defined : forall c, 0 <= c ->
  (costToIntDefined c = true <-> c * 10 <= inject_Z (2 ^ 32 - 1)) /\ (costToIntDefined c = true -> rounds_up (c * 10) (costToInt c)).
Proof.
  intros c C0. destruct (ceil_up (c * 10)) as (A & B). unfold costToIntDefined, costToInt. fold u32max. set (v := Qceiling (c * 10)) in *.
  assert (V0 : (0 <= v)%Z) by (assert (L : inject_Z (-1) < inject_Z v) by (apply Qlt_le_trans with (c * 10); [apply Qlt_le_trans with 0; [reflexivity|lra]|exact B]); rewrite <- Zlt_Qlt in L; lia).
  assert (E : (0 <=? v)%Z && (v <=? u32max)%Z = true <-> (v <= u32max)%Z) by (rewrite andb_true_iff, !Z.leb_le; lia).
  split; [rewrite E; split|].
  - intros L. apply Qle_trans with (Zq v); [exact B|]. unfold Zq. rewrite <- Zle_Qle. exact L.
  - intros L. assert (K : Zq (v - 1) < inject_Z u32max) by (apply Qlt_le_trans with (c * 10); assumption). unfold Zq in K. rewrite <- Zlt_Qlt in K. lia.
  - intros H. apply E in H. destruct (Z.ltb_spec u32max v); [lia|]. split; assumption.
Qed.
Print Assumptions C18_conversion_defined.
(** So the values that saturate do so after undefined behaviour. *)
Theorem C18_saturation_defined_refuted : exists c, 0 <= c /\ costToInt c = (2 ^ 32 - 1)%Z /\ costToIntDefined c = false.
Proof. exists (inject_Z (2 ^ 32)). split; [discriminate|]. split; reflexivity. Qed.
Print Assumptions C18_saturation_defined_refuted.
Example C18_conversion_case : costToIntDefined (7 # 3) = true /\ costToInt (7 # 3) = 24%Z.
Proof. split; reflexivity. Qed.

(** C18: an edge cost, after all cost passes, is a 32-bit value and is never below the
    exact travel time reduced by the configured discounts, unless it saturates. *)
Theorem C18_edge_cost_never_underestimates : forall len speed ow hl sp ec nl,
  0 <= len -> 0 < speed -> 0 < sp -> 0 <= ec -> 0 < nl -> fits len speed ow sp ec ->
  u32 (buildCost len speed ow hl sp ec nl) /\
  (buildCost len speed ow hl sp ec nl = u32max \/
   10 * (len / speed) * ((if Qltb sp 1 then sp else 1) * (if Qltb nl 1 then nl else 1))
     <= Zq (buildCost len speed ow hl sp ec nl)).
Proof. exact buildCost_lower. Qed.
Print Assumptions C18_edge_cost_never_underestimates.

(** C18: the cost passes compute exactly the specified edge cost. *)
Theorem C18_edge_cost_exact : forall len speed ow hl sp ec nl,
  edge_cost len speed ow hl sp ec nl (buildCost len speed ow hl sp ec nl).
Proof. exact buildCost_exact. Qed.
Print Assumptions C18_edge_cost_exact.

(** C18: the heuristic rounds down. *)
Theorem C18_heuristic_rounds_down : forall (P : Type) (dist : P -> P -> Q) pos center maxV tos a,
  exists z, rounds_down (Qmax 0 ((dist (pos a) center / maxV - maxCentD P dist pos center maxV tos) * 10)) z /\
    heurPure P dist pos center maxV tos a = Z.min z u32max.
Proof. intros P dist pos center maxV tos a. exact (heur_min dist pos center maxV tos a). Qed.
Print Assumptions C18_heuristic_rounds_down.

(** C18, finding: saturation before the last pass is not kept: an edge whose exact cost
    exceeds the range gets a small cost if a discount follows. *)
Theorem C18_saturation_kept_refuted : exists len speed nl,
  geomCost len speed = u32max /\ (buildCost len speed false false 1 0 nl < u32max)%Z.
Proof. exists 1000000000, 1, (1 # 2). split; vm_compute; reflexivity. Qed.
Print Assumptions C18_saturation_kept_refuted.

Example C18_example : costToInt (31 # 100) = 4%Z /\ costToInt (4 # 10) = 4%Z /\
  costToInt 500000000 = u32max /\ buildCost 100 20 true false (1 # 2) 3 (3 # 2) = 83%Z /\
  fits 100 20 true (1 # 2) 3.
Proof. repeat split; try (vm_compute; reflexivity); vm_compute; discriminate. Qed.

(** C23: however many evaluations one cost function object made before, each one
    returns the transition cost of the specification ... *)
Theorem C23_cost_is_pure : forall baseCost lineSimis noAttrs eFrom eTo turnCycle deg sharp restricted may o,
  (forall e, u32 (baseCost e)) -> opts_ok o -> forall calls,
  Forall2 (fun ft r => transition_cost baseCost lineSimis noAttrs eFrom eTo turnCycle deg sharp restricted may o (fst ft) (snd ft) r)
    calls (costRun baseCost lineSimis noAttrs eFrom eTo turnCycle deg sharp restricted may o memo0 calls).
Proof. exact costRun_spec. Qed.
Print Assumptions C23_cost_is_pure.

(** ... which determines exactly one value. *)
Theorem C23_cost_is_function : forall baseCost lineSimis noAttrs eFrom eTo turnCycle deg sharp restricted may o f t a b,
  transition_cost baseCost lineSimis noAttrs eFrom eTo turnCycle deg sharp restricted may o f t a ->
  transition_cost baseCost lineSimis noAttrs eFrom eTo turnCycle deg sharp restricted may o f t b -> a = b.
Proof. exact TC_unique. Qed.
Print Assumptions C23_cost_is_function.

(** C23: the cost is a 32-bit value and, unless infinite, at least the cost of the edge
    times the applicable discounts. *)
Theorem C23_cost_lower_bound : forall baseCost lineSimis noAttrs eFrom eTo turnCycle deg sharp restricted may o,
  (forall e, u32 (baseCost e)) -> opts_ok o -> forall f t r,
  transition_cost baseCost lineSimis noAttrs eFrom eTo turnCycle deg sharp restricted may o (Some f) t r ->
  u32 r /\ (r = u32max \/
    Zq (baseCost f) * ((if Qltb (fName o) 1 then fName o else 1) * (if Qltb (fFrom o) 1 then fFrom o else 1)
      * (if Qltb (fTo o) 1 then fTo o else 1)) <= Zq r).
Proof. exact TC_lower. Qed.
Print Assumptions C23_cost_lower_bound.

Definition C23_o := mkOpts 1000 500 (3 # 2) (1 # 2) 1.
Definition C23_base (e : nat) : Z := match e with 0%nat => 101 | 1%nat => u32max | 2%nat => (u32max - 10) | _ => 7 end%Z.
Definition C23_run := costRun C23_base
  (fun e => match e with 0%nat => [mkSimi false true false; mkSimi true false true] | _ => [] end) false
  (fun e => e) (fun e => S e) (fun _ => false) (fun _ => 3%nat) (fun _ f _ => (f =? 0)%nat) (fun _ => true)
  (fun f t _ => negb (t =? 9)%nat) C23_o memo0.
Example C23_example :
  (forall e, u32 (C23_base e)) /\ opts_ok C23_o /\
  C23_run [(Some 0, None); (Some 0, Some (1, 3)); (None, None); (Some 1, None); (Some 2, None);
           (Some 3, None); (Some 0, Some (1, 9))]%nat =
  [51; 1051; 0; u32max; u32max; 6; 1551]%Z.
Proof.
  split; [|split].
  - intros [|[|[|e]]]; unfold u32, u32max; cbn; lia.
  - unfold opts_ok, u32, u32max; cbn. repeat split; try lia; lra.
  - vm_compute. reflexivity.
Qed.

(** C23, finding: a factor of 1 for unmatched line names also switches off the factors
    for unmatched origin and destination. *)
Theorem C23_origin_factor_applies_refuted : exists o sims,
  opts_ok o /\ 1 < fFrom o /\ (forall s, In s sims -> sFrom s = false) /\
  costRun (fun _ => 100%Z) (fun _ => sims) false (fun e => e) (fun e => S e) (fun _ => false) (fun _ => 2%nat)
    (fun _ _ _ => false) (fun _ => false) (fun _ _ _ => true) o memo0 [(Some 0%nat, None)] = [100%Z].
Proof.
  exists (mkOpts 0 0 1 2 1), [mkSimi true false true].
  split; [unfold opts_ok, u32, u32max; cbn; repeat split; try lia; lra|].
  split; [reflexivity|]. split; [intros s [<-|[]]; reflexivity|]. vm_compute. reflexivity.
Qed.
Print Assumptions C23_origin_factor_applies_refuted.

(** C24: memoisation does not change the heuristic. *)
Theorem C24_heuristic_is_pure : forall (P : Type) (dist : P -> P -> Q) pos center maxV tos qs,
  heurRun P dist pos center maxV tos (None, 0%Z) qs = map (heurPure P dist pos center maxV tos) qs.
Proof. intros P dist. exact (heurRun_pure dist). Qed.
Print Assumptions C24_heuristic_is_pure.

(** C24: it never exceeds the cost of any path to any of the targets ... *)
Theorem C24_heuristic_admissible : forall (P : Type) (dist : P -> P -> Q) pos center maxV,
  is_dist dist -> 0 < maxV -> forall tos cost path a t, In t tos -> last (a :: path) a = t ->
  path_all (fun x y => (0 <= cost x y)%Z /\ no_faster dist pos maxV cost x y) (a :: path) ->
  (heurPure P dist pos center maxV tos a <= path_cost cost (a :: path))%Z.
Proof. intros P dist. exact (heur_admissible dist). Qed.
Print Assumptions C24_heuristic_admissible.

(** ... is consistent, and is 0 at each target. *)
Theorem C24_heuristic_consistent : forall (P : Type) (dist : P -> P -> Q) pos center maxV,
  is_dist dist -> 0 < maxV -> forall tos cost a b, (0 <= cost a b)%Z -> no_faster dist pos maxV cost a b ->
  (heurPure P dist pos center maxV tos a <= cost a b + heurPure P dist pos center maxV tos b)%Z.
Proof. intros P dist. exact (heur_consistent dist). Qed.
Print Assumptions C24_heuristic_consistent.
Theorem C24_heuristic_zero_at_target : forall (P : Type) (dist : P -> P -> Q) pos center maxV,
  0 < maxV -> forall tos t, In t tos ->
  heurPure P dist pos center maxV tos t = 0%Z.
Proof. intros P dist. exact (heur_target dist). Qed.
Print Assumptions C24_heuristic_zero_at_target.

(** C24 for the costs the program really uses: edge costs as computed by the graph
    builder, transition costs as computed by the cost function, and a maximum speed that
    is at least each edge's level speed divided by the speed correction factor (C17). *)
Theorem C24_admissible_for_built_graph :
  forall (P : Type) (dist : P -> P -> Q) pos center maxV
    baseCost lineSimis noAttrs eFrom eTo turnCycle deg sharp restricted may o
    len speed againstOneWay hasLines sp ec nl cost,
  is_dist dist -> 0 < maxV -> opts_ok o -> 0 < sp -> 0 <= ec -> 0 < nl ->
  (forall e, baseCost e = u32max \/
     (0 <= len e /\ 0 < speed e /\ fits (len e) (speed e) (againstOneWay e) sp ec /\
      speed e / maxSpeedCorFac o nl sp <= maxV /\
      baseCost e = buildCost (len e) (speed e) (againstOneWay e) (hasLines e) sp ec nl)) ->
  forall tos path a t, In t tos -> last (a :: path) a = t ->
  path_all (fun x y => dist (pos x) (pos y) <= len x /\
     exists n, transition_cost baseCost lineSimis noAttrs eFrom eTo turnCycle deg sharp restricted may o
                 (Some x) (Some (n, y)) (cost x y)) (a :: path) ->
  (heurPure P dist pos center maxV tos a <= path_cost cost (a :: path))%Z.
Proof.
  intros P dist pos center maxV baseCost lineSimis noAttrs eFrom eTo turnCycle deg sharp restricted may o
    len speed ow hl sp ec nl cost Hd HV Ho Hsp Hec Hnl HB tos path a t It L A.
  apply (heur_admissible dist pos center maxV Hd HV tos cost path a t It L).
  assert (HU : forall e, u32 (baseCost e)).
  { intros e. destruct (HB e) as [->|(H1 & H2 & H3 & H4 & ->)]; [unfold u32, u32max; lia|].
    apply buildCost_lower; assumption. }
  assert (Step : forall x y, dist (pos x) (pos y) <= len x -> (exists n,
     transition_cost baseCost lineSimis noAttrs eFrom eTo turnCycle deg sharp restricted may o
                 (Some x) (Some (n, y)) (cost x y)) ->
     (0 <= cost x y)%Z /\ no_faster dist pos maxV cost x y).
  { intros x y D (n & T). destruct (TC_lower _ _ _ _ _ _ _ _ _ _ _ HU Ho _ _ _ T) as [[U1 _] LB].
    split; [exact U1|]. unfold no_faster. destruct (HB x) as [E|(H1 & H2 & H3 & H4 & E)].
    { left. destruct T as [[_ T]|[(T & _)|(T & _)]]; [exact T|contradiction|contradiction]. }
    destruct LB as [LB|LB]; [left; exact LB|].
    destruct (Z.eq_dec (baseCost x) u32max) as [M|M].
    { left. destruct T as [[_ T]|[(T & _)|(T & _)]]; [exact T|contradiction|contradiction]. }
    right.
    destruct (buildCost_lower (len x) (speed x) (ow x) (hl x) sp ec nl H1 H2 Hsp Hec Hnl H3) as [_ [C|C]];
      [congruence|]. rewrite <- E in C.
    destruct Ho as (_ & _ & F1 & F2 & F3).
    pose proof (min1_pos _ F1) as M1. pose proof (min1_pos _ F2) as M2. pose proof (min1_pos _ F3) as M3.
    pose proof (min1_pos _ Hsp) as M4. pose proof (min1_pos _ Hnl) as M5.
    pose proof (unit_mul _ _ (unit_mul _ _ M1 M2) M3) as K1. pose proof (unit_mul _ _ M4 M5) as K2.
    pose proof (unit_mul _ _ K1 K2) as K.
    rewrite maxSpeedCorFac_prod in H4.
    set (k1 := min1 (fName o) * min1 (fFrom o) * min1 (fTo o)) in *.
    set (k2 := min1 sp * min1 nl) in *.
    pose proof (mul_mono_r _ _ _ C K1) as C'.
    assert (S : speed x <= maxV * (k1 * k2)).
    { apply Qmult_le_compat_r with (z := k1 * k2) in H4; [|lra].
      rewrite (Qmult_comm (speed x / (k1 * k2))), Qmult_div_r in H4; lra. }
    assert (W : dist (pos x) (pos y) / maxV <= len x / speed x * (k1 * k2)).
    { apply Qle_shift_div_r; [exact HV|].
      assert (0 <= len x / speed x) by (apply Qle_shift_div_l; lra).
      assert (len x == len x / speed x * speed x) by (field; lra).
      assert (len x / speed x * speed x <= len x / speed x * (maxV * (k1 * k2))).
      { rewrite !(Qmult_comm (len x / speed x)). apply Qmult_le_compat_r; assumption. }
      assert (len x / speed x * (k1 * k2) * maxV == len x / speed x * (maxV * (k1 * k2))) by ring.
      lra. }
    assert (10 * (len x / speed x) * k2 * k1 == 10 * (len x / speed x * (k1 * k2))) by ring.
    unfold min1 in LB, k1. fold k1 in LB. lra. }
  clear L It. revert a A. induction path as [|b path IH]; intros a A; [exact I|].
  destruct A as [[A1 A2] A3]. split; [apply Step; assumption|]. apply IH. exact A3.
Qed.
Print Assumptions C24_admissible_for_built_graph.

(** Non-vacuity: points on a line (halves of metres), three edges of length 7 at speed 2. *)
Definition C24_dist (a b : Z) : Q := Zq (Z.abs (a - b)).
Definition C24_pos (e : nat) : Z := (7 * Z.of_nat e)%Z.
Example C24_example :
  is_dist C24_dist /\
  heurPure Z C24_dist C24_pos 21%Z 4 [3%nat] 0%nat = 52%Z /\
  path_cost (fun a b => costToInt (7 / 2)) [0; 1; 2; 3]%nat = 105%Z /\
  path_all (fun x y => (0 <= costToInt (7 / 2))%Z /\ no_faster C24_dist C24_pos 4 (fun _ _ => costToInt (7 / 2)) x y)
    [0; 1; 2; 3]%nat.
Proof.
  split; [|split; [vm_compute; reflexivity|split; [vm_compute; reflexivity|]]].
  - unfold is_dist, C24_dist. split; [|split].
    + intros a b. apply Zq_nonneg. lia.
    + intros a b. replace (Z.abs (b - a))%Z with (Z.abs (a - b))%Z by lia. reflexivity.
    + intros a b c. rewrite <- Zq_add. apply (proj1 (Zq_le _ _)). lia.
  - cbn [path_all]. repeat (split; [split; [vm_compute; discriminate|right; vm_compute; discriminate]|]). exact I.
Qed.
