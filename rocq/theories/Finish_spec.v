(** Specification for the finished network (C72). *)
From Coq Require Import List Arith NArith ZArith QArith Bool.
From Verif Require Import OsmGraph_model OsmGraph_spec Weights_spec.
Import ListNotations.
Open Scope nat_scope.

Section Spec.
Context {P : Type}.
Variable pos : nat -> P.
Variable station turn : nat -> bool.
Variable len : list P -> Q.
Variable simplify : list P -> list P.
Variable speed : nat -> Q.
Variable speedPen entryCost noLinesFac : Q.
Notation edge := (edge P). Notation graph := (graph P).

(** Edge [e] of the network stands for the chain [c] of edges of the OSM graph [g]; if it is
    marked as reversed, its attributes are those of the opposite direction. *)
Record traced (g : graph) (e : edge) (c : list (edge * bool)) : Prop := {
  tr_some : c <> [];
  tr_chain : if rev_ (ePl e) then chain (to e) c (from e) else chain (from e) c (to e);
  tr_in : forall h, In h c -> In (fst h) (edges g);
  tr_level : forall h, In h c -> lvl (ePl (fst h)) = lvl (ePl e);
  tr_lines : forall h, In h c -> lines (ePl (fst h)) = lines (ePl e);
  tr_restr : forall h, In h c -> restr (ePl (fst h)) = restr (ePl e);
  (* an edge with turn restrictions is a single OSM edge, in its direction *)
  tr_single : restr (ePl e) = true -> exists x, c = [(x, true)];
  tr_plain : forall n, In n (between c) -> station n = false /\ turn n = false
}.
(** Its geometry is the line [l] of the chain, simplified; its cost that of the line, with
    the penalties for one-way streets and for the lack of lines. *)
Definition measured (e : edge) (c : list (edge * bool)) : Prop :=
  exists l, geom (ePl e) = Some (simplify l) /\ (from e <> to e -> runs pos c l) /\
    edge_cost (len l) (speed (lvl (ePl e))) (oneWay (ePl e) =? 2) (negb (length (lines (ePl e)) =? 0)) speedPen entryCost noLinesFac (Z.of_N (cost (ePl e))).
(** The edge that allows turning at a station. *)
Definition turn_edge (e : edge) : Prop := from e = to e /\ station (from e) = true /\ cost (ePl e) = 4294967295%N.

Record finished (g g' : graph) : Prop := {
  fi_simple : simple g';
  fi_ok : graph_ok g';
  (* nodes are stations, and nodes with an edge *)
  fi_nodes : forall n, In n (nodes g') <-> In n (nodes g) /\ (station n = true \/ exists e, In e (edges g') /\ touches e n);
  (* every edge has its opposite *)
  fi_opposite : forall e, In e (edges g') -> exists e', In e' (edges g') /\ from e' = to e /\ to e' = from e;
  (* every edge is made from a chain of OSM edges, or allows turning at a station *)
  fi_edges : forall e, In e (edges g') -> turn_edge e \/ exists c, traced g e c /\ measured e c;
  (* nothing that was in the OSM graph is lost *)
  fi_cover : forall x, In x (edges g) -> exists e c, In e (edges g') /\ traced g e c /\ exists d, In (x, d) c;
  (* the geometry of an edge leads from its first to its second node, but for one-way loops *)
  fi_fits : forall e, In e (edges g') -> from e <> to e \/ oneWay (ePl e) = 0 -> OsmGraph_spec.fits pos e;
  (* at a station where an edge leaves one can turn, or leave by two edges *)
  fi_turn : forall n, In n (nodes g') -> station n = true -> (exists e, In e (edges g') /\ from e = n) ->
    exists e, In e (edges g') /\ from e = n /\ (turn_edge e \/ exists e', In e' (edges g') /\ from e' = n /\ to e' <> to e)
}.

(** Driving along the edges, none of which leads against a one-way street. *)
Inductive forward (g : graph) (u : nat) : nat -> Prop :=
| fw_here : forward g u u
| fw_step : forall v w e, forward g u v -> In e (edges g) -> from e = v -> to e = w -> oneWay (ePl e) <> 2 -> forward g u w.
(** If there are edges in both orientations, a street that is one-way against the
    orientation of one is one-way along the other. *)
Definition pairs_agree (g : graph) : Prop :=
  forall e e', In e (edges g) -> In e' (edges g) -> from e' = to e -> to e' = from e -> from e <> to e -> oneWay (ePl e) = 2 -> oneWay (ePl e') = 1.

(** Components [c] of the nodes of the network, and the greatest speeds [ms] of the OSM
    edges in them; [num]: the number of components with more than one node. *)
Variable fl : Q -> Q.
Record areas (g g' : graph) (c : nat -> nat) (ms : list Q) (num : nat) : Prop := {
  ar_some : forall n, In n (nodes g') -> 1 <= c n;
  ar_iff : forall u v, In u (nodes g') -> In v (nodes g') -> (c u = c v <-> connected g u v);
  ar_same : forall u v, In u (nodes g') -> In v (nodes g') -> (connected g u v <-> connected g' u v);
  ar_speed : forall n, In n (nodes g') -> exists m, nth_error ms (c n - 1) = Some m /\
    (forall x, In x (edges g) -> connected g n (from x) -> (fl (speed (lvl (ePl x))) <= m)%Q) /\
    ((m == 0)%Q \/ exists x, In x (edges g) /\ connected g n (from x) /\ (m == fl (speed (lvl (ePl x))))%Q);
  ar_count : exists ks, NoDup ks /\ length ks = num /\
    forall k, In k ks <-> exists u v, In u (nodes g') /\ In v (nodes g') /\ u <> v /\ c u = k /\ c v = k
}.
End Spec.
