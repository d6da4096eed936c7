(** The network as the hop engines and searches see it: the finished graph together with
    the cost function object. *)
From Coq Require Import List Arith NArith ZArith QArith Bool.
From Verif Require Import Weights_model OsmGraph_model.
Import ListNotations.
Open Scope nat_scope.

Section Net.
Variable P : Type.
Variable g : graph P.
(** The fields of the cost function object, see Weights_model.v; Router.tpp:228, 249, 307,
    316, 472, 516 create it from the attributes of the trie node. *)
Variable baseCost : nat -> Z.
Variable lineSimis : nat -> list simi.
Variable noAttrs : bool.
Variable eFrom eTo : nat -> nat.
Variable turnCycle : nat -> bool.
Variable deg : nat -> nat.
Variable sharp : nat -> nat -> nat -> bool.
Variable restricted : nat -> bool.
Variable may : nat -> nat -> nat -> bool.
Variable o : ropts.

(** Weights.cpp:65-155: the answer to [q] of an object that was asked [hist] before. *)
Definition asked (hist : list (option nat * option (nat * nat))) (q : option nat * option (nat * nat)) : Z :=
  last (costRun baseCost lineSimis noAttrs eFrom eTo turnCycle deg sharp restricted may o memo0 (hist ++ [q])) 0%Z.

(** What moving from edge [i] to edge [j] costs: the search (util's EDijkstra, called in
    Router.tpp:254, 350, 526) goes on from an edge to the edges leaving its end node [n] and
    asks [cost(from, n, to)].  [hist i j]: what was asked before. *)
Definition netStep (hist : nat -> nat -> list (option nat * option (nat * nat))) (i j : nat) : option Z :=
  match nth_error (edges g) i, nth_error (edges g) j with
  | Some x, Some y => if to x =? from y then Some (asked (hist i j) (Some i, Some (to x, j))) else None
  | _, _ => None
  end.
(** Router.tpp:236, 311, 476, 486: [cost(e, 0, 0)]. *)
Definition netCost (hist : nat -> list (option nat * option (nat * nat))) (i : nat) : Z := asked (hist i) (Some i, None).
(** Router.tpp:329-330: the component of the node an edge leaves, and of the one
    it leads to; [c]: the components of the nodes. *)
Definition edgeComp (c : nat -> nat) (end_ : edge P -> nat) (i : nat) : nat :=
  match nth_error (edges g) i with Some e => c (end_ e) | None => 0 end.
End Net.
