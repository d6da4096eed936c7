(** Specification for the closing of gaps (C19). *)
From Coq Require Import List Arith Bool.
From Verif Require Import OsmGraph_model OsmGraph_spec.
Import ListNotations.
Open Scope nat_scope.

Section Spec.
Context {P : Type}.
Variable station : nat -> bool.
Variable close : nat -> nat -> bool.
Notation graph := (graph P). Notation edge := (edge P).

(** Reachability if gaps of at most one metre are no obstacle. *)
Inductive gap_reach (g : graph) (u : nat) : nat -> Prop :=
| gr_here : gap_reach g u u
| gr_drive : forall v w, gap_reach g u v -> drives g v w -> gap_reach g u w
| gr_gap : forall v w, gap_reach g u v -> close v w = true \/ close w v = true -> gap_reach g u w.

(** [phi u]: the node that has taken the place of [u]. *)
Record gaps_closed (g g' : graph) (phi : nat -> nat) : Prop := {
  gc_stations : forall u, station u = true -> phi u = u;
  gc_near : forall u, gap_reach g u (phi u);
  gc_nodes : forall u, In u (nodes g') <-> In u (nodes g) /\ phi u = u;
  gc_range : forall u, In u (nodes g) -> In (phi u) (nodes g');
  (* nothing is lost *)
  gc_kept : forall u v, reach g u v -> reach g' (phi u) (phi v);
  (* nothing but gaps is bridged *)
  gc_only : forall u v, reach g' u v -> gap_reach g u v
}.
Definition two_ways (g : graph) : Prop := forall e, In e (edges g) -> oneWay (ePl e) = 0.
(** [e] is the only edge at node [n], and not a loop. *)
Definition dangling (g : graph) (n : nat) (e : edge) : Prop :=
  In e (edges g) /\ touches e n /\ from e <> to e /\ forall x, In x (edges g) -> touches x n -> x = e.
End Spec.
