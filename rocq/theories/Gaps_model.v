(** Model of the closing of gaps in the graph.
    Source: /repo/src/pfaedle/osm/OsmBuilder.cpp:1123-1165 (fixGaps).

    Simplifications.
    - The graph is that of OsmGraph_model.  util::DirGraph (not in the checkout): addEdg gives
      the edge that exists if there is one, delNd deletes a node and its edges.
    - [near n]: the nodes the grid gives for [n], in any order (they are ordered by address).
      Nodes deleted from the graph and the grid may be in this list, they have no edges.
    - [close a b]: dist(b, a) <= 1 metre. *)
From Coq Require Import List Arith Bool.
From Verif Require Import OsmGraph_model.
Import ListNotations.
Open Scope nat_scope.

Section Gaps.
Variable P : Type.
Variable station : nat -> bool.
Variable close : nat -> nat -> bool.
Variable near : nat -> list nat.
Notation graph := (graph P). Notation edge := (edge P).

Definition delNd (g : graph) (n : nat) : graph :=
  mkG (filter (fun m => negb (m =? n)) (nodes g)) (filter (fun e => negb (from e =? n) && negb (to e =? n)) (edges g)).

(** OsmBuilder.cpp:1140-1150: the edge of a node of degree 1. *)
Definition theEdge (g : graph) (nb : nat) : option edge :=
  match adjOut P g nb with e :: _ => Some e | [] => match adjIn P g nb with e :: _ => Some e | [] => None end end.

(** OsmBuilder.cpp:1134-1162 *)
Definition joinNode (n : nat) (g : graph) (nb : nat) : graph :=
  if negb (nb =? n) && (deg P g nb =? 1) && close n nb then
    match theEdge g nb with
    | None => g
    | Some e =>
        if negb (station nb) && negb (station n)
        then delNd (addEdg P g (other P e nb) n (ePl e)) nb
        else addEdg P g n nb (ePl e)
    end
  else g.
(** OsmBuilder.cpp:1126-1163 *)
Definition fixGap (g : graph) (n : nat) : graph := if deg P g n =? 1 then fold_left (joinNode n) (near n) g else g.
Definition fixGaps (g : graph) (ns : list nat) : graph := fold_left fixGap ns g.
End Gaps.
