(** Specification for the assignment of shapes to trips by the workers (C36-C38, C55). *)
From Coq Require Import String List Arith NArith Bool Permutation.
From Verif Require Import Workers_model.
Import ListNotations.
Open Scope nat_scope.

Section Spec.
Context {Pts D : Type}.
Notation leaf := (leaf Pts D).
Notation trip := (trip D).

(** The work: every trip belongs to at most one leaf, leaves have trips, and a leaf has a
    distance for every stop time of its trips. *)
Record work_ok (jobs : list (list leaf)) (trips : list trip) : Prop := {
  wo_once : NoDup (flat_map (fun l => lTrips _ _ l) (concat jobs));
  wo_trips : forall l u, In l (concat jobs) -> In u (lTrips _ _ l) ->
    exists x, nth_error trips u = Some x /\ length (tDists _ x) = length (lDists _ _ l);
  wo_leaf : forall l, In l (concat jobs) -> lTrips _ _ l <> []
}.
Definition selected (jobs : list (list leaf)) (u : nat) : Prop := exists l, In l (concat jobs) /\ In u (lTrips _ _ l).
(** The ids the trips refer to cannot be confused with new ones, which are formed with the
    route types of the leaves. *)
Definition no_clash (jobs : list (list leaf)) (trips : list trip) (cnt : nat) : Prop :=
  forall u x l n, nth_error trips u = Some x -> In l (concat jobs) -> cnt < n -> tShape _ x <> idOf (lType _ _ l) n.

(** The result of the workers.  [iss]: the leaves with the id issued for each. *)
Record assigned (jobs : list (list leaf)) (cnt : nat) (ids : list string) (store : list (string * Pts)) (trips : list trip)
    (iss : list (string * leaf)) (s : shared Pts D) : Prop := {
  (* every leaf of every forest is handled once, under its own id *)
  as_leaves : Permutation (concat jobs) (map snd iss);
  as_ids : NoDup (map fst iss);
  as_form : forall id l, In (id, l) iss -> exists n, cnt < n /\ id = idOf (lType _ _ l) n;
  (* its trips have that id and its distances *)
  as_trips : forall id l u, In (id, l) iss -> In u (lTrips _ _ l) ->
    nth_error (sTrips _ _ s) u = Some (mkTrip D id (lDists _ _ l));
  (* the other trips are as before, and their shapes are still there *)
  as_others : forall u, ~ selected jobs u -> nth_error (sTrips _ _ s) u = nth_error trips u;
  as_count : length (sTrips _ _ s) = length trips;
  as_kept : forall u x, ~ selected jobs u -> nth_error trips u = Some x -> In (tShape _ x) ids -> In (tShape _ x) (sIds _ _ s);
  as_unused : forall y, In y ids -> (forall u x, nth_error trips u = Some x -> tShape _ x <> y) -> In y (sIds _ _ s);
  as_no_others : forall y, In y (sIds _ _ s) -> In y ids \/ In y (map fst iss);
  (* all new shapes are registered and stored, once, if no old id looks like a new one *)
  as_new : no_clash jobs trips cnt -> forall id l, In (id, l) iss -> In id (sIds _ _ s) /\ ~ In id ids;
  as_store : no_clash jobs trips cnt -> exists new, sStore _ _ s = store ++ new /\
    Permutation new (map (fun e => (fst e, lPts _ _ (snd e))) iss)
}.
End Spec.
