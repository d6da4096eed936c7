(** Specification for routing on the finished OSM network (C82). *)
From Coq Require Import List Arith NArith ZArith QArith Bool.
From Verif Require Import TripTrie_model Router_model Router_spec Hops_model Hops_spec OsmGraph_model Optimal_spec.
Import ListNotations.
Open Scope nat_scope.

(** The costs of a network: from an edge one can move on to exactly the edges that start
    where it ends, and this costs what [tc] says of leaving the edge over that node into the
    other edge; a whole edge costs what [tc] says without a next edge.  [tc] is to be
    [transition_cost] of Weights_spec.v. *)
Record network_costs {P : Type} (g : graph P) (tc : option nat -> option (nat * nat) -> Z -> Prop)
    (step : nat -> nat -> option Z) (ecost : nat -> Z) : Prop := {
  nc_step : forall i j w, step i j = Some w <->
    exists x y, nth_error (edges g) i = Some x /\ nth_error (edges g) j = Some y /\ to x = from y /\ tc (Some i) (Some (to x, j)) w;
  nc_cost : forall i, tc (Some i) None (ecost i)
}.

(** What is left of [problem_ok] if the network is that of the program: the searches work,
    positions are fractions of their edges, and no cost leaves 32 bits. *)
Record searches_ok {pos attrs C P : Type} (step : nat -> nat -> nat -> option Z) (ecost : nat -> nat -> Z)
    (search : nat -> nat -> list nat -> Z -> nat -> Z * list nat) (spath : nat -> nat -> nat -> Z -> Z * list nat)
    (limit0 : nat -> nat -> Z) (tnds : list (node pos attrs)) (ecm : list (list (cand C nat P))) : Prop := {
  so_search : forall n, search_ok (step n) (search n);
  so_path : forall n, path_search_ok (step n) (spath n);
  so_progr : forall n i x e, cand_at ecm n i x -> cE _ _ _ x = Some e -> (0 <= cProgr _ _ _ x <= 1)%Q;
  so_limit : forall p n, (0 <= limit0 p n <= 4294967295)%Z;
  so_room : forall n p f x e, parent tnds n p -> ~ stays tnds p n -> cand_at ecm p f x -> cE _ _ _ x = Some e ->
    (8 * limit0 p n + ecost n e < 4294967295)%Z;
  so_fits : forall n p f i x y ef et d, parent tnds n p -> ~ stays tnds p n -> cand_at ecm p f x -> cand_at ecm n i y ->
    cE _ _ _ x = Some ef -> cE _ _ _ y = Some et -> cheapest (step n) ef et d -> (d < 4294967295)%Z -> (d + ecost n et <= 4294967295)%Z
}.
