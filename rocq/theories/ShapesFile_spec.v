(** Specification for shapes.txt after a whole run (C41). *)
From Coq Require Import String List Arith NArith Bool.
From Verif Require Import ShapeStore_model ShapeStore_spec Workers_model Workers_spec ShapesFile_model.
Import ListNotations.
Open Scope nat_scope.

Section Spec.
Context {D : Type}.
Variable wa wb wd : nat.
Notation leaf := (leaf (list pt) D).
Notation trip := (trip D).
Notation phase := (phase D).

Definition leaf_of (phs : list phase) (l : leaf) : Prop := exists ph, In ph phs /\ In l (concat (phJobs _ ph)).
(** The configurations handle different route types; every leaf has trips, of the input,
    and a distance for each of their stop times; a trip is in one leaf of a configuration
    at most; shapes have points. *)
Record phases_ok (phs : list phase) (trips : list trip) : Prop := {
  po_threads : forall ph, In ph phs -> phN _ ph <> 0;
  po_once : forall ph, In ph phs -> NoDup (flat_map (fun l => lTrips _ _ l) (concat (phJobs _ ph)));
  po_trips : forall l u, leaf_of phs l -> In u (lTrips _ _ l) ->
    exists x, nth_error trips u = Some x /\ length (tDists _ x) = length (lDists _ _ l);
  po_leaf : forall l, leaf_of phs l -> lTrips _ _ l <> [];
  po_types : forall a ph b ph', phs = a ++ ph :: b -> In ph' b ->
    forall l l', In l (concat (phJobs _ ph)) -> In l' (concat (phJobs _ ph')) -> lType _ _ l <> lType _ _ l';
  po_points : forall l, leaf_of phs l -> lPts _ _ l <> [] /\ (N.of_nat (length (lPts _ _ l)) < 2 ^ 64)%N /\
    forall p, In p (lPts _ _ l) -> length (pLat p) = wa /\ length (pLng p) = wb /\ length (pDist p) = wd
}.
(** The shape ids of the input are not of the form of those given to new shapes of the
    types handled. *)
Definition ids_distinct (phs : list phase) (trips : list trip) : Prop :=
  forall u x l n, nth_error trips u = Some x -> leaf_of phs l -> tShape _ x <> idOf (lType _ _ l) n.

(** The trip [u] is given its shape by leaf [l]: no later configuration handles it. *)
Definition shaped_by (phs : list phase) (u : nat) (l : leaf) : Prop :=
  exists a ph b, phs = a ++ ph :: b /\ In l (concat (phJobs _ ph)) /\ In u (lTrips _ _ l) /\
    forall ph', In ph' b -> ~ selected (phJobs _ ph') u.
Definition untouched (phs : list phase) (u : nat) : Prop := forall ph, In ph phs -> ~ selected (phJobs _ ph) u.

(** Trips and shapes.txt afterwards. *)
Record shapes_written (phs : list phase) (trips : list trip) (ids : list string) (old : list row) (trips' : list trip) (rows : list row) : Prop := {
  sw_count : length trips' = length trips;
  sw_new : forall u l, shaped_by phs u l -> exists id,
    nth_error trips' u = Some (mkTrip D id (lDists _ _ l)) /\ with_id id rows = rows_of (id, lPts _ _ l);
  sw_old : forall u x, untouched phs u -> nth_error trips u = Some x -> nth_error trips' u = Some x /\
    (In (tShape _ x) ids -> with_id (tShape _ x) rows = with_id (tShape _ x) old);
  (* shapes no trip used remain *)
  sw_unused : forall y, In y ids -> (forall u x, nth_error trips u = Some x -> tShape _ x <> y) -> with_id y rows = with_id y old;
  (* nothing else *)
  sw_rows : forall x, In x rows -> In x old \/ exists id l, leaf_of phs l /\ In x (rows_of (id, lPts _ _ l))
}.
End Spec.
