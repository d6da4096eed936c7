(** C04, C05: the index of bounding boxes. *)
From Coq Require Import List ZArith Bool Lia Permutation.
From Verif Require Import BBoxIdx_model BBoxIdx_spec BBoxIdx_proofs.
Import ListNotations.
Open Scope Z_scope.

(** C04: the full box is the smallest one around all added (padded) boxes, *)
Theorem C04_full : forall M pad area bs, bs <> [] -> Forall (fun b => in_range M (pad b)) bs -> around (map pad bs) (getFullBox (adds M pad area bs)).
Proof. exact full. Qed.
Print Assumptions C04_full.

(** every leaf is the smallest box around a group of added boxes, and every added box is in
    exactly one group, *)
Theorem C04_leafs : forall M pad area bs, bs <> [] -> grouped (map pad bs) (getLeafs (adds M pad area bs)).
Proof. exact leafs_grouped. Qed.
Print Assumptions C04_leafs.

(** a point is reported iff it is in a leaf, and then it is in the full box, *)
Theorem C04_contains : forall M pad area bs p,
  (hasPoint (adds M pad area bs) p = true <-> exists l, In l (getLeafs (adds M pad area bs)) /\ inside p l) /\
  (Forall (fun b => in_range M (pad b)) bs -> hasPoint (adds M pad area bs) p = true -> inside p (getFullBox (adds M pad area bs))).
Proof. intros M pad area bs p. split; [apply has_leaf|apply has_full]. Qed.
Print Assumptions C04_contains.

(** an index without boxes has no points, and the size is the number of boxes. *)
Theorem C04_size : forall M pad area bs, size (adds M pad area bs) = length bs /\ (0 < M -> forall p, hasPoint (adds M pad area []) p = false).
Proof. intros M pad area bs. split; [apply size_ok|]. intros H p. now apply empty_idx. Qed.
Print Assumptions C04_size.

(** C05: every point of an added box is reported, whatever the overlaps. *)
Theorem C05_found : forall M pad area bs b p, In b bs -> inside p (pad b) -> hasPoint (adds M pad area bs) p = true.
Proof. exact has_added. Qed.
Print Assumptions C05_found.

(** C05: if the boxes have no areas in common, nothing else is. *)
Theorem C05_exact : forall M pad area bs p, bs <> [] -> apart area (map pad bs) -> (hasPoint (adds M pad area bs) p = true <-> exists b, In b bs /\ inside p (pad b)).
Proof.
  intros M pad area bs p N A. rewrite (has_leaf M pad area), (apart_leafs M pad area bs N A). split.
  - intros (l & I & H). apply in_map_iff in I. destruct I as (b & <- & I). eauto.
  - intros (b & I & H). exists (pad b). split; [now apply in_map|auto].
Qed.
Print Assumptions C05_exact.

(** Two boxes apart, and one that overlaps both: the point (12, 12) is in the second leaf and
    in the first one after the third box. *)
Definition exPad (b : box) : box := mkBox (x0 b - 1) (y0 b - 1) (x1 b + 1) (y1 b + 1).
Definition exArea (a b : box) : Z := Z.max 0 (Z.min (x1 a) (x1 b) - Z.max (x0 a) (x0 b)) * Z.max 0 (Z.min (y1 a) (y1 b) - Z.max (y0 a) (y0 b)).
Definition exBoxes : list box := [mkBox 0 0 5 5; mkBox 10 10 15 15; mkBox 4 4 12 12].
Example C05_example : hasPoint (adds 1000 exPad exArea exBoxes) (16, 16) = true /\ hasPoint (adds 1000 exPad exArea exBoxes) (17, 16) = false
  /\ getLeafs (adds 1000 exPad exArea exBoxes) = [mkBox (-1) (-1) 6 6; mkBox 3 3 16 16] /\ getFullBox (adds 1000 exPad exArea exBoxes) = mkBox (-1) (-1) 16 16.
Proof. repeat split; reflexivity. Qed.
Example C04_example : around (map exPad exBoxes) (getFullBox (adds 1000 exPad exArea exBoxes)).
Proof. apply C04_full; [discriminate|]. repeat constructor; cbn; lia. Qed.
Example C05_apart_example : apart exArea (map exPad (firstn 2 exBoxes)).
Proof.
  intros i j a b L A B. destruct i as [|[|i]], j as [|[|j]]; cbn in A, B; try lia; try (destruct i; discriminate); try (destruct j; discriminate).
  injection A as <-. injection B as <-. vm_compute. discriminate.
Qed.

(** C05: with overlaps, points outside all boxes are reported too. *)
Theorem C05_exact_refuted : exists bs p, hasPoint (adds 1000 exPad exArea bs) p = true /\ ~ exists b, In b bs /\ inside p (exPad b).
Proof.
  exists [mkBox 0 0 5 5; mkBox 4 4 12 12], (12, 0). split; [reflexivity|]. intros (b & [<-|[<-|[]]] & H); unfold inside in H; cbn in H; lia.
Qed.
Print Assumptions C05_exact_refuted.
