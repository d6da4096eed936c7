(** Specification for the search on the finished network (C74). *)
From Coq Require Import List Arith NArith ZArith QArith Bool.
From Verif Require Import Weights_model Weights_spec OsmGraph_model OsmGraph_spec.
Import ListNotations.
Open Scope nat_scope.

Section Spec.
Context {P : Type}.
Variable pos : nat -> P.
Notation graph := (graph P).

(** The search numbers the edges of the network; it sees an edge's base cost, its nodes, and
    for the heuristic the place where the edge starts. *)
Record seen (g : graph) (place : nat -> P) (baseCost : nat -> Z) (eFrom eTo : nat -> nat) : Prop := {
  sn_place : forall i e, nth_error (edges g) i = Some e -> place i = pos (from e);
  sn_cost : forall i e, nth_error (edges g) i = Some e -> baseCost i = Z.of_N (cost (ePl e));
  sn_from : forall i e, nth_error (edges g) i = Some e -> eFrom i = from e;
  sn_to : forall i e, nth_error (edges g) i = Some e -> eTo i = to e;
  (* nothing else has a cost that could be used *)
  sn_none : forall i, nth_error (edges g) i = None -> baseCost i = u32max
}.
(** From edge [i] one can go on to edge [j]. *)
Definition follows (g : graph) (i j : nat) : Prop :=
  exists x y, nth_error (edges g) i = Some x /\ nth_error (edges g) j = Some y /\ to x = from y.

(** Rounding to float loses at most the part [eps]. *)
Definition loses_at_most (fl : Q -> Q) (eps : Q) : Prop := forall x : Q, (0 < x -> (1 - eps) * x <= fl x)%Q.
(** The line between two points is no shorter than their distance. *)
Definition no_shortcut (dist : P -> P -> Q) (len : list P -> Q) : Prop :=
  forall a m b, (dist a b <= len (a :: m ++ [b]))%Q.
End Spec.
