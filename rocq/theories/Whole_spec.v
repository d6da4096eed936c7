(** Specification for the way from an OSM file and a feed to the shapes (C78). *)
From Coq Require Import Ascii String List Arith NArith ZArith QArith Bool.
From Verif Require Import HopCache_model TripTrie_model Router_model Router_spec Shapes_spec Pipeline_model Pipeline_spec.
From Verif Require OsmRead_model OsmRead_spec OsmGraph_model OsmGraph_spec Finish_model Finish_spec Build_model.
Import ListNotations.
Open Scope nat_scope.
Open Scope list_scope.

(** What is assumed of costs, index structures and the geometry library; nothing is assumed of
    the graph and of its edges. *)
Record library_ok {pos C Pt : Type} (W : world pos C Pt) (posAt : list Pt -> Q -> Pt) : Prop := {
  lb_costs : cost_laws (lt _ _ _ W) (add _ _ _ W) (inf _ _ _ W);
  lb_ofQ : forall q, lt _ _ _ W (ofQ _ _ _ W q) (inf _ _ _ W) = true;
  lb_ofZ : forall z, lt _ _ _ W (ofZ _ _ _ W z) (inf _ _ _ W) = true;
  lb_add : forall a b, lt _ _ _ W a (inf _ _ _ W) = true -> lt _ _ _ W b (inf _ _ _ W) = true -> lt _ _ _ W (add _ _ _ W a b) (inf _ _ _ W) = true;
  lb_near : forall p, near _ _ _ W p p = true;
  lb_enum : forall l x, In x (enumS _ _ _ W l) <-> In x l;
  lb_proj : forall s e, is_share (eproj _ _ _ W s e);
  lb_rounding : rounding (rndF _ _ _ W) (rndD _ _ _ W);
  lb_hav : forall p q, (0 <= hav _ _ _ W p q)%Q;
  lb_geometry : geometry (segment _ _ _ W) (simplify _ _ _ W) posAt;
  lb_segment : forall l a b, l <> [] -> is_share a -> is_share b -> segment _ _ _ W l a b <> []
}.

(** ** The network as the search sees it *)
Section Network.
Context {P SI : Type}.
Variable b : @Build_model.built P SI.
Definition edge_no (k : nat) (e : OsmGraph_model.edge P) : Prop := nth_error (OsmGraph_model.edges (Finish_model.net (Build_model.bNet b))) k = Some e.
(** The numbers of edges of which each starts at the node where the one before it ends. *)
Definition drives (p : list nat) : Prop :=
  (forall k, In k p -> exists e, edge_no k e) /\
  forall l i j r, p = l ++ i :: j :: r -> exists x y, edge_no i x /\ edge_no j y /\ OsmGraph_model.to x = OsmGraph_model.from y.
(** The edges of the world are those of the network: by number, with their nodes and geometries. *)
Record shows_edges {pos C : Type} (W : world pos C P) : Prop := {
  sw_edge : forall k e, edge_no k e ->
    eFr _ _ _ W k = OsmGraph_model.from e /\ eTo _ _ _ W k = OsmGraph_model.to e /\ oneWay _ _ _ W k = OsmGraph_model.oneWay (OsmGraph_model.ePl e) /\
    isRev _ _ _ W k = OsmGraph_model.rev_ (OsmGraph_model.ePl e) /\ geom _ _ _ W k = OsmGraph_model.geom (OsmGraph_model.ePl e) /\
    fromPt _ _ _ W k = Build_model.bPos b (OsmGraph_model.from e) /\ toPt _ _ _ W k = Build_model.bPos b (OsmGraph_model.to e);
  sw_none : forall k, (forall e, ~ edge_no k e) -> geom _ _ _ W k = None
}.
(** The world is that of the network: also, a search that succeeds yields a drive from the one edge to the other. *)
Record shows {pos C : Type} (W : world pos C P) : Prop := {
  sw_edges : shows_edges W;
  sw_search : forall tr n a z lim, (fst (spath _ _ _ W tr n a z lim) < lim)%Z ->
    let p := rev (snd (spath _ _ _ W tr n a z lim)) in p = [] \/ (drives p /\ first_is p a /\ last_is p z)
}.
(** One-way loops lead back to their node (see C72: this can fail for those made of several edges). *)
Definition loops_fit : Prop := forall k e, edge_no k e -> OsmGraph_model.from e = OsmGraph_model.to e -> OsmGraph_model.oneWay (OsmGraph_model.ePl e) <> 0 ->
  OsmGraph_spec.fits (Build_model.bPos b) e.

(** ** Where the streets come from *)
Variable c : @OsmRead_model.cfg P.
Variable ns ws rs : list (@OsmRead_spec.elem P).
Variable level : list (string * string) -> nat.
Variable oneway onewayrev : list (string * string) -> bool.
(** The tags of a way of the file that is wanted. *)
Definition way_tags (a : list (string * string)) : Prop :=
  exists el, In el ws /\ OsmRead_spec.WayWanted c ns rs el /\ a = OsmRead_spec.tags (OsmRead_model.keysW c) el.
(** A piece of such a way: it has its level, and if it is one-way a way says so. *)
Definition of_way (x : OsmGraph_model.edge P) : Prop :=
  (exists a, way_tags a /\ OsmGraph_model.lvl (OsmGraph_model.ePl x) = level a) /\
  (OsmGraph_model.oneWay (OsmGraph_model.ePl x) = 1 -> exists a, way_tags a /\ oneway a = true) /\
  (OsmGraph_model.oneWay (OsmGraph_model.ePl x) = 2 -> exists a, way_tags a /\ onewayrev a = true).
(** The network's edge [k] allows turning at a station, or was made of pieces of wanted ways. *)
Definition street_no (G : OsmGraph_model.graph P) (k : nat) : Prop :=
  exists e, edge_no k e /\ (Finish_spec.turn_edge (Build_model.bStation b) e \/
    exists tr, Finish_spec.traced (Build_model.bStation b) (Build_model.bTurn b) G e tr /\ forall h, In h tr -> of_way (fst h)).
(** A shape for trip [t] that follows such edges. *)
Definition street_shape {pos C : Type} (W : world pos C P) (posAt : list P -> Q -> P) (G : OsmGraph_model.graph P)
    (t : TripTrie_model.trip pos) (ps : list (P * Q * nat)) (ds : list Q) : Prop :=
  exists cands hops parts, shape_by W posAt cands hops parts t ps ds /\
    forall h k, In h hops -> In k (hEdges _ _ h) -> street_no G k.
End Network.
