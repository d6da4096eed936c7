(** Specification for the index of bounding boxes (C04, C05). *)
From Coq Require Import List ZArith Permutation.
From Verif Require Import BBoxIdx_model.
Import ListNotations.
Open Scope Z_scope.

(** Point [p] is in box [b]. *)
Definition inside (p : Z * Z) (b : box) : Prop := x0 b <= fst p <= x1 b /\ y0 b <= snd p <= y1 b.
(** [b] is the smallest box around the boxes [l] (at least one): every side touches one. *)
Definition around (l : list box) (b : box) : Prop :=
  (forall a, In a l -> x0 b <= x0 a /\ y0 b <= y0 a /\ x1 a <= x1 b /\ y1 a <= y1 b) /\
  (exists a, In a l /\ x0 a = x0 b) /\ (exists a, In a l /\ y0 a = y0 b) /\ (exists a, In a l /\ x1 a = x1 b) /\ (exists a, In a l /\ y1 a = y1 b).
(** The coordinates are at most [M]. *)
Definition in_range (M : Z) (b : box) : Prop := - M <= x0 b <= M /\ - M <= y0 b <= M /\ - M <= x1 b <= M /\ - M <= y1 b <= M.
(** The boxes [leafs] are those around the members of groups that have every box of [bs] once. *)
Definition grouped (bs leafs : list box) : Prop :=
  exists groups, Permutation (concat groups) bs /\ Forall2 around groups leafs.
(** No two boxes of the list have an area in common. *)
Definition apart (area : box -> box -> Z) (bs : list box) : Prop :=
  forall i j a b, (i < j)%nat -> nth_error bs i = Some a -> nth_error bs j = Some b -> area b a <= 0.
