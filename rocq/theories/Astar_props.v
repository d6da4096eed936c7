(** C74: the search on the finished network is guided by a bound that is never too high. *)
From Coq Require Import List Arith NArith ZArith QArith Qabs Bool Lia Lqa.
From Verif Require Import Weights_model Weights_spec Weights_proofs OsmGraph_model OsmGraph_spec OsmGraph_proofs OsmGraph_props Finish_model Finish_spec Finish_proofs Finish_props Astar_spec Astar_proofs.
Import ListNotations.
Open Scope Q_scope.

(** C74: [r] is the network built from the OSM graph [g], the speeds divided by the
    correction factor of the options and rounded to float.  The search starts at edge [s]
    and uses the speed recorded for the area of [s], or a greater one.  For every edge [a]
    of the area and every path from there to a target, the bound for [a] is at most the cost
    of the path, as long as that is below [B].  For binary32, where [eps] is 2^-24, the
    limit is 16777215 tenths of a second, about 19 days, if no factor is below 1. *)
Theorem C74_admissible : forall (P : Type) (pos : nat -> P) station turn len simplify speed fl sp ec nl o eps dist B,
  (forall l, 0 <= len l) -> (forall l, 0 < speed l) -> 0 < sp -> 0 <= ec -> 0 < nl -> opts_ok o ->
  (forall a m b, exists m', simplify (a :: m ++ [b]) = a :: m' ++ [b]) -> rounding fl ->
  is_dist dist -> (forall p, dist p p == 0) -> no_shortcut dist len ->
  0 <= eps < 1 -> loses_at_most fl eps ->
  Zq B <= Zq u32max * maxSpeedCorFac o nl sp -> Zq B * eps < 1 ->
  forall g cns, simple g -> graph_ok g -> (forall e, In e (edges g) -> ends_fit pos e) -> (forall e, In e (edges g) -> rev_ (ePl e) = false) ->
  exists r, finish P pos station turn len simplify speed (maxSpeedCorFac o nl sp) fl sp ec nl g cns = Some r /\
  forall place baseCost eFrom eTo, seen pos (net r) place baseCost eFrom eTo ->
  forall lineSimis noAttrs turnCycle deg sharp restricted may cost center s es m maxV,
  nth_error (edges (net r)) s = Some es -> nth_error (maxs r) (compOf (comps r) (from es) - 1) = Some m -> m <= maxV -> 0 < maxV ->
  forall tos path a ea t, In t tos -> last (a :: path) a = t ->
  nth_error (edges (net r)) a = Some ea -> compOf (comps r) (from ea) = compOf (comps r) (from es) ->
  path_all (fun x y => follows (net r) x y /\ exists v,
    transition_cost baseCost lineSimis noAttrs eFrom eTo turnCycle deg sharp restricted may o (Some x) (Some (v, y)) (cost x y)) (a :: path) ->
  (path_cost cost (a :: path) < B)%Z ->
  (heurPure P dist place center maxV tos a <= path_cost cost (a :: path))%Z.
Proof.
  intros P pos station turn len simplify speed fl sp ec nl o eps dist B L0 V0 Sp Ec Nl Ho En Rd Hd Hz Hs He Hf HB HBe g cns S Ok Fit Rv.
  destruct (net_ok pos station turn len simplify speed (maxSpeedCorFac o nl sp) fl sp ec nl g cns S Ok Fit Rv Rd) as (r & E & Er & A).
  assert (Fin : finished pos station turn len simplify speed sp ec nl g (net r)) by (rewrite Er; now apply finished_ok).
  exists r. split; [exact E|]. rewrite <- Er in A.
  intros place baseCost eFrom eTo Sn lineSimis noAttrs turnCycle deg sharp restricted may cost center s es m maxV Es M Mv Vp tos path a ea t It L Ea C St Lt.
  pose proof (go_ends _ (fi_ok _ _ _ _ _ _ _ _ _ _ _ Fin)) as Ends.
  destruct (Ends es (nth_error_In _ _ Es)) as [Ns _]. destruct (Ends ea (nth_error_In _ _ Ea)) as [Na _].
  eapply (astar_admissible pos station turn len simplify speed sp ec nl fl eps dist o L0 V0 Sp Ec Nl Ho Hd Hz Hs He Hf B HB HBe g (net r) _ _ _ Fin A Fit place baseCost eFrom eTo Sn
    lineSimis noAttrs turnCycle deg sharp restricted may cost (from es) m maxV center tos Ns M Mv Vp path a t It L); [|exact St|exact Lt].
  rewrite (sn_from _ _ _ _ _ _ Sn _ _ Ea). apply (ar_same _ _ _ _ _ _ _ A); auto. apply (ar_iff _ _ _ _ _ _ _ A); auto.
Qed.
Print Assumptions C74_admissible.

(** The network of C72_example, on a line, searched from edge 0 - 3 over 3 - 6 to the edge
    that starts at 6.  Names that differ are cheaper, so the speeds are doubled. *)
Definition exDist (a b : nat) : Q := Zq (Z.abs (Z.of_nat a - Z.of_nat b)).
Fixpoint exPlen (l : list nat) : Q :=
  match l with a :: ((b :: _) as t) => exDist a b + exPlen t | _ => 0 end.
Definition exO : ropts := mkOpts 300 600 (1 # 2) 1 1.
Lemma exDist_ok : is_dist exDist.
Proof.
  unfold exDist. split; [|split].
  - intros a b. apply Zq_nonneg. lia.
  - intros a b. replace (Z.abs (Z.of_nat b - Z.of_nat a))%Z with (Z.abs (Z.of_nat a - Z.of_nat b))%Z by lia. reflexivity.
  - intros a b c. rewrite <- Zq_add. apply (proj1 (Zq_le _ _)). lia.
Qed.
Lemma exPlen_nonneg : forall l, 0 <= exPlen l.
Proof.
  induction l as [|a [|b l] IH]; [cbn; lra|cbn; lra|]. change (exPlen (a :: b :: l)) with (exDist a b + exPlen (b :: l)).
  pose proof (proj1 exDist_ok a b). lra.
Qed.
Lemma exPlen_short : no_shortcut exDist exPlen.
Proof.
  intros a m. revert a. induction m as [|x m IH]; intros a b.
  - change (exPlen (a :: [] ++ [b])) with (exDist a b + 0). lra.
  - change (exPlen (a :: (x :: m) ++ [b])) with (exDist a x + exPlen (x :: m ++ [b])). pose proof (IH x b).
    pose proof (proj2 (proj2 exDist_ok) a x b). lra.
Qed.
Definition exNet : option (network nat) := finish nat (fun n => n) exSt (fun _ => false) exPlen (fun l => l) (fun _ => 10%Q) (maxSpeedCorFac exO 1 2) (fun x => x) 2 5 1 exG exNs.
Definition exEdge (i : nat) : option (edge nat) := match exNet with Some r => nth_error (edges (net r)) i | None => None end.
Definition exBase (i : nat) : Z := match exEdge i with Some e => Z.of_N (OsmGraph_model.cost (ePl e)) | None => u32max end.
Definition exOf (f : edge nat -> nat) (i : nat) : nat := match exEdge i with Some e => f e | None => 0%nat end.
Example C74_example : exists r, exNet = Some r /\
  seen (fun n => n) (net r) (exOf from) exBase (exOf from) (exOf to) /\
  path_all (fun x y => follows (net r) x y /\ exists v,
    transition_cost exBase (fun _ => []) true (exOf from) (exOf to) (fun _ => false) (fun _ => 2%nat) (fun _ _ _ => false) (fun _ => false) (fun _ _ _ => true) exO
      (Some x) (Some (v, y)) (exBase x)) [1; 2; 0]%nat /\
  nth_error (maxs r) 0 = Some 20 /\ compOf (comps r) 0 = 1%nat /\ path_cost (fun x _ => exBase x) [1; 2; 0]%nat = 162%Z /\
  heurPure nat exDist (exOf from) 6%nat 20 [0%nat] 1%nat = 3%Z /\ (162 < 16777215)%Z.
Proof.
  destruct (exNet) as [r|] eqn:E; [|vm_compute in E; discriminate]. exists r. split; [reflexivity|].
  assert (Ee : forall i, exEdge i = nth_error (edges (net r)) i) by (intro i; unfold exEdge; now rewrite E).
  split. { constructor; intros i; unfold exOf, exBase; try (intros e N); try (intros N); rewrite Ee, N; reflexivity. }
  vm_compute in E. injection E as <-. split.
  - cbn [path_all]. repeat split.
    + do 2 eexists. cbn. split; [reflexivity|]. split; [reflexivity|]. reflexivity.
    + exists 0%nat. right. right. split; [vm_compute; discriminate|]. exists (exBase 1), 0%Z, 0%Z. split; [reflexivity|]. split; [|vm_compute; reflexivity].
      split; right; (split; [|reflexivity]); [intros (_ & [[H _]|[H _]])|intros (_ & H & _)]; vm_compute in H; try discriminate. repeat (apply le_S_n in H). inversion H.
    + do 2 eexists. cbn. split; [reflexivity|]. split; [reflexivity|]. reflexivity.
    + exists 0%nat. right. right. split; [vm_compute; discriminate|]. exists (exBase 2), 0%Z, 0%Z. split; [reflexivity|]. split; [|vm_compute; reflexivity].
      split; right; (split; [|reflexivity]); [intros (_ & [[H _]|[H _]])|intros (_ & H & _)]; vm_compute in H; try discriminate. repeat (apply le_S_n in H). inversion H.
  - vm_compute. repeat split.
Qed.
(** The hypotheses on the numbers hold with binary32 and this limit. *)
Example C74_applies : exists r, exNet = Some r /\
  forall place baseCost eFrom eTo, seen (fun n => n) (net r) place baseCost eFrom eTo ->
  forall cost center s es m maxV,
  nth_error (edges (net r)) s = Some es -> nth_error (maxs r) (compOf (comps r) (from es) - 1) = Some m -> m <= maxV -> 0 < maxV ->
  forall tos path a ea t, In t tos -> last (a :: path) a = t ->
  nth_error (edges (net r)) a = Some ea -> compOf (comps r) (from ea) = compOf (comps r) (from es) ->
  path_all (fun x y => follows (net r) x y /\ exists v,
    transition_cost baseCost (fun _ => []) true eFrom eTo (fun _ => false) (fun _ => 2%nat) (fun _ _ _ => false) (fun _ => false) (fun _ _ _ => true) exO (Some x) (Some (v, y)) (cost x y)) (a :: path) ->
  (path_cost cost (a :: path) < 16777215)%Z ->
  (heurPure nat exDist place center maxV tos a <= path_cost cost (a :: path))%Z.
Proof.
  destruct (C74_admissible nat (fun n => n) exSt (fun _ => false) exPlen (fun l => l) (fun _ => 10%Q) (fun x => x) 2 5 1 exO (1 # 16777216) exDist 16777215) with (g := exG) (cns := exNs) as (r & E & H);
    try exact exG_simple; try exact exG_ok; try exact exG_fit; try exact exG_norev; try exact ex_round; try exact exDist_ok; try exact exPlen_short; try exact exPlen_nonneg; try (intros; lra).
  - unfold opts_ok, exO, u32, u32max. cbn. repeat split; try lia; lra.
  - intros a m b. exists m. reflexivity.
  - intros p. unfold exDist. replace (Z.abs (Z.of_nat p - Z.of_nat p))%Z with 0%Z by lia. reflexivity.
  - intros x X. lra.
  - vm_compute. discriminate.
  - vm_compute. reflexivity.
  - exists r. split; [exact E|]. intros place baseCost eFrom eTo Sn cost center s es m maxV Es M Mv Vp tos path a ea t It L Ea C St Lt.
    exact (H place baseCost eFrom eTo Sn _ _ _ _ _ _ _ cost center s es m maxV Es M Mv Vp tos path a ea t It L Ea C St Lt).
Qed.
