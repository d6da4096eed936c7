(** Specification for the route found for a trip, seen from the road network (C81).

    A trip is a path in the trip trie.  At each of its nodes one of the candidate
    positions of the stop is chosen; between two stops the vehicle drives through the
    network.  Nothing here mentions the hop engines, the cache or the search. *)
From Coq Require Import List Arith ZArith QArith Bool.
From Verif Require Import HopCache_model TripTrie_model Router_model Router_spec Hops_model Hops_spec.
Import ListNotations.
Open Scope nat_scope.

Section Spec.
Context {pos attrs C P : Type}.
Variable lt : C -> C -> bool.
Variable add : C -> C -> C.
Variable inf : C.
(** What a drive of a given cost adds, from the nodes it joins and the scheduled time. *)
Variable weight : nat -> nat -> Z -> Z -> C.
Variable ofZ : Z -> C.
(** The network as it counts for the drive into a trie node: cost of moving on to a
    following edge, cost of a whole edge. *)
Variable step : nat -> edge -> edge -> option Z.
Variable ecost : nat -> edge -> Z.
Variable tnds : list (node pos attrs).
Variable ecm : list (list (cand C edge P)).
(** Drives into a node must cost less than its limit. *)
Variable lim : nat -> Z.
(** At these nodes the router gives up driving. *)
Variable stuck : nat -> Prop.

(** Driving from candidate [f] of [p] to candidate [i] of [n], with the summands this adds
    to the cost. *)
Definition drive (p n f i : nat) (adds : list C) : Prop :=
  exists x y ef et c, cand_at ecm p f x /\ cand_at ecm n i y /\ cE _ _ _ x = Some ef /\ cE _ _ _ y = Some et /\
    hop_cost (step n) (ecost n) ef et (cProgr _ _ _ x) (cProgr _ _ _ y) c /\ (c < lim n)%Z /\
    adds = [cPen _ _ _ y; weight p n c (cTime _ _ _ y - cTime _ _ _ x)%Z].

Inductive move (p n : nat) : nat -> nat -> list C -> Prop :=
| mv_stay : forall f i x, stays tnds p n -> cand_at ecm n i x -> In f (cPrede _ _ _ x) -> move p n f i [cPen _ _ _ x]
| mv_drive : forall f i adds, ~ stays tnds p n -> drive p n f i adds -> move p n f i adds
(** Giving up: to a position off the network (the first ones of a stop), at a fixed
    price, ... *)
| mv_off : forall f i x y, ~ stays tnds p n -> stuck n -> cand_at ecm p f x -> cand_at ecm n i y ->
    (forall j z, j <= i -> cand_at ecm n j z -> cE _ _ _ z = None) ->
    move p n f i [ofZ ((lim n * 100) mod 4294967296)]
(** ... or to any later position. *)
| mv_jump : forall f i j x y z e, ~ stays tnds p n -> stuck n -> cand_at ecm p f x -> cand_at ecm n i y ->
    1 <= j <= i -> cand_at ecm n j z -> cE _ _ _ z = Some e -> move p n f i [cPen _ _ _ y].

(** The ways of serving a trip up to node [n]: the positions chosen, last first, and the
    cost. *)
Inductive way : nat -> list nat -> C -> Prop :=
| wy_first : forall n i x, first_node tnds n -> cand_at ecm n i x -> way n [i] (cPen _ _ _ x)
| wy_move : forall n p i f is c adds, parent tnds n p -> way p (f :: is) c -> move p n f i adds ->
    way n (i :: f :: is) (fold_left add adds c).

(** Some way reaches [n] by driving, at finite cost. *)
Definition drivable (n : nat) : Prop :=
  exists p f i is c adds, parent tnds n p /\ way p (f :: is) c /\ drive p n f i adds /\
    lt (fold_left add adds c) inf = true.

(** The limit of a node: the one its scheduled time allows, doubled at most three times. *)
Definition limits_from (limit0 : nat -> nat -> Z) : Prop :=
  forall n p, parent tnds n p -> ~ stays tnds p n ->
    exists k, (0 <= k <= 3)%Z /\ lim n = Z.min (2 ^ k * limit0 p n) 4294967295.
(** The router gives up driving exactly where no way can be driven, even with the limit
    doubled three times (or the largest possible one). *)
Definition gives_up_only_then (limit0 : nat -> nat -> Z) : Prop :=
  forall n p, parent tnds n p -> ~ stays tnds p n ->
    (stuck n <-> ~ drivable n) /\
    (stuck n -> lim n = Z.min (8 * limit0 p n) 4294967295).

(** The drives drawn for a way, last one first: from the chosen position to the chosen
    position, along a cheapest path of the network if there is one within the limit; no
    edges if one of the positions is off the network. *)
Inductive drawn : nat -> list nat -> list (hop edge P) -> Prop :=
| dr_first : forall n i, first_node tnds n -> drawn n [i] []
| dr_stay : forall n p i f is hs, parent tnds n p -> stays tnds p n -> drawn p (f :: is) hs -> drawn n (i :: f :: is) hs
| dr_drive : forall n p i f is hs x y h, parent tnds n p -> ~ stays tnds p n -> drawn p (f :: is) hs ->
    cand_at ecm p f x -> cand_at ecm n i y -> starts_at h x -> ends_at h y ->
    (forall ef et c, cE _ _ _ x = Some ef -> cE _ _ _ y = Some et ->
       hop_cost (step n) (ecost n) ef et (cProgr _ _ _ x) (cProgr _ _ _ y) c -> (c < lim n)%Z ->
       exists d, cheapest (step n) ef et d /\ walk (step n) ef et d (rev (hEdges _ _ h))) ->
    (cE _ _ _ x = None \/ cE _ _ _ y = None -> hEdges _ _ h = []) ->
    drawn n (i :: f :: is) (h :: hs).

(** [hs] are the drives of a cheapest way to serve the trip ending at [n]. *)
Definition cheapest_way (n : nat) (hs : list (hop edge P)) : Prop :=
  exists is c, way n is c /\ lt c inf = true /\ drawn n is hs /\ forall is' c', way n is' c' -> lt c' c = false.
End Spec.

(** What is assumed of the point-to-point search: a cheapest walk if there is one below
    the limit. *)
Definition path_search_ok (step : edge -> edge -> option Z) (sp : edge -> edge -> Z -> Z * list edge) : Prop :=
  forall a b lim, let '(c, p) := sp a b lim in
    (cheapest step a b c /\ (c < lim)%Z /\ walk step a b c (rev p)) \/
    ((lim <= c)%Z /\ forall d es, walk step a b d es -> (lim <= d)%Z).

(** The routing problem is well-formed: for each node a proper network and searches that
    work; positions are fractions of their edges, and no cost leaves 32 bits, even with a
    limit doubled three times. *)
Record problem_ok {pos attrs C P : Type} (step : nat -> edge -> edge -> option Z) (ecost : nat -> edge -> Z) (compF compT : edge -> nat)
    (search : nat -> edge -> list edge -> Z -> edge -> Z * list edge) (spath : nat -> edge -> edge -> Z -> Z * list edge)
    (limit0 : nat -> nat -> Z) (tnds : list (node pos attrs)) (ecm : list (list (cand C edge P))) : Prop := {
  po_graph : forall n, graph_ok (step n) (ecost n) compF compT;
  po_search : forall n, search_ok (step n) (search n);
  po_path : forall n, path_search_ok (step n) (spath n);
  po_progr : forall n i x e, cand_at ecm n i x -> cE _ _ _ x = Some e -> (0 <= cProgr _ _ _ x <= 1)%Q;
  po_limit : forall p n, (0 <= limit0 p n <= u32max)%Z;
  po_room : forall n p f x e, parent tnds n p -> ~ stays tnds p n -> cand_at ecm p f x -> cE _ _ _ x = Some e ->
    (8 * limit0 p n + ecost n e < u32max)%Z;
  po_fits : forall n p f i x y ef et d, parent tnds n p -> ~ stays tnds p n -> cand_at ecm p f x -> cand_at ecm n i y ->
    cE _ _ _ x = Some ef -> cE _ _ _ y = Some et -> cheapest (step n) ef et d -> (d < u32max)%Z -> (d + ecost n et <= u32max)%Z
}.
(** The cache is off, or starts empty and one network counts for all nodes. *)
Definition cache_ok (step : nat -> edge -> edge -> option Z) (limit0 : nat -> nat -> Z) (hc : option cache) : Prop :=
  hc = None \/ hc = Some emptyCache /\ (forall n m a b, step n a b = step m a b) /\ forall p n, (2 <= limit0 p n)%Z.
