(** Specification for the way from an OSM file and a feed to shapes along cheapest ways
    (C85), in the words of Whole_spec.v, RealNet_spec.v and Feedway_spec.v. *)
From Coq Require Import Ascii String List Arith NArith ZArith QArith Bool.
From Verif Require Import HopCache_model TripTrie_model Simi_model Router_model Router_spec Hops_model Hops_spec Shapes_spec Ecm_spec Optimal_spec
  Ecm_model Pipeline_model Pipeline_spec Feedway_spec Whole_spec.
From Verif Require Weights_model Weights_spec OsmGraph_model OsmRead_model OsmRead_spec Finish_model Build_model Astar_spec RealNet_spec.
Import ListNotations.
Open Scope nat_scope.
Open Scope list_scope.

Section Spec.
Context {P SI pos C : Type}.
Variable b : @Build_model.built P SI.
Variable W : world pos C P.
Notation trie := (trie pos attrs).
Notation network := (Finish_model.net (Build_model.bNet b)).
(** The cost of moving on to a following edge, for the drive into a node of a trie. *)
Variable step : trie -> nat -> nat -> nat -> option Z.

(** The router works on the network [b]: with its edges and components, and with the costs
    of the program (base cost, line factors, penalties; [transition_cost], C18). *)
Record routes_on (place : nat -> P) (baseCost : nat -> Z) (lineSimis : trie -> nat -> nat -> list Weights_model.simi) (noAttrs : trie -> nat -> bool)
    (turnCycle : nat -> bool) (degree : nat -> nat) (sharp : nat -> nat -> nat -> bool) (restricted : nat -> bool) (may : nat -> nat -> nat -> bool)
    (o : Weights_model.ropts) : Prop := {
  ro_edges : shows_edges b W;
  ro_seen : Astar_spec.seen (Build_model.bPos b) network place baseCost (eFr _ _ _ W) (eTo _ _ _ W);
  ro_comp : forall k e, edge_no b k e ->
    compF _ _ _ W k = OsmGraph_model.compOf (Finish_model.comps (Build_model.bNet b)) (OsmGraph_model.from e) /\
    compT _ _ _ W k = OsmGraph_model.compOf (Finish_model.comps (Build_model.bNet b)) (OsmGraph_model.to e);
  ro_nocomp : forall k, (forall e, ~ edge_no b k e) -> compF _ _ _ W k = compT _ _ _ W k;
  ro_opts : Weights_spec.opts_ok o;
  ro_costs : forall tr n, RealNet_spec.network_costs network
    (Weights_spec.transition_cost baseCost (lineSimis tr n) (noAttrs tr n) (eFr _ _ _ W) (eTo _ _ _ W) turnCycle degree sharp restricted may o)
    (step tr n) (ecost _ _ _ W tr n);
  (* the edges found near a stop, and those found to leave a station, are in the network *)
  ro_near : forall s k, In k (edges _ _ _ W s) -> exists e, edge_no b k e;
  ro_stations : forall s nd k, In nd (stats _ _ _ W s) -> In k (sdOut nd) -> exists e, edge_no b k e
}.
(** The searches work ([slow]: the 1 -> n search, else the n -> n search), and no cost leaves
    32 bits. *)
Record searching (slow : bool) : Prop := {
  se_one : slow = true -> forall tr n, search_ok (step tr n) (search _ _ _ W tr n);
  se_many : slow = false -> forall tr n, searchN_ok (step tr n) (searchN _ _ _ W tr n);
  se_path : forall tr n, path_search_ok (step tr n) (spath _ _ _ W tr n);
  se_limit : forall tr p n, (0 <= limit0 _ _ _ W tr p n <= 4294967295)%Z;
  se_room : forall cs tr cands ecm, trie_made W cs tr -> positions W tr cands ecm ->
    forall n p f x e, parent (nds _ _ tr) n p -> ~ stays (nds _ _ tr) p n -> cand_at ecm p f x -> cE _ _ _ x = Some e ->
    (8 * limit0 _ _ _ W tr p n + ecost _ _ _ W tr n e < 4294967295)%Z;
  se_fits : forall cs tr cands ecm, trie_made W cs tr -> positions W tr cands ecm ->
    forall n p f i x y ef et d, parent (nds _ _ tr) n p -> ~ stays (nds _ _ tr) p n -> cand_at ecm p f x -> cand_at ecm n i y ->
    cE _ _ _ x = Some ef -> cE _ _ _ y = Some et -> cheapest (step tr n) ef et d -> (d < 4294967295)%Z -> (d + ecost _ _ _ W tr n et <= 4294967295)%Z
}.

(** A shape for [t] along edges made of wanted ways of the file, of whose drives [K] holds. *)
Variable c : @OsmRead_model.cfg P.
Variable ns ws rs : list (@OsmRead_spec.elem P).
Variable level : list (string * string) -> nat.
Variable oneway onewayrev : list (string * string) -> bool.
Definition street_way (posAt : list P -> Q -> P) (G : OsmGraph_model.graph P)
    (K : (stop pos -> option (list (cand C nat P))) -> TripTrie_model.trip pos -> list (hop nat P) -> Prop)
    (t : TripTrie_model.trip pos) (ps : list (P * Q * nat)) (ds : list Q) : Prop :=
  exists cands hops parts, shape_by W posAt cands hops parts t ps ds /\
    (forall h k, In h hops -> In k (hEdges _ _ h) -> street_no b c ns ws rs level oneway onewayrev G k) /\
    K cands t hops.
End Spec.
