(** Specification for turn restrictions in the network built from an OSM file (C77). *)
From Coq Require Import Ascii String List Arith NArith ZArith QArith Bool.
From Verif Require Import OsmGraph_model OsmGraph_spec Build_spec Finish_spec Restrictor_spec.
From Verif Require OsmRead_model OsmRead_spec.
Import ListNotations.
Open Scope nat_scope.
Open Scope list_scope.

(** The (from way, to way) pairs of the mandatory or prohibitive rules at OSM node [id]. *)
Definition rules_at (rules : list (bool * nat * nat * nat)) (mandatory : bool) (id : nat) (l : list (nat * nat)) : Prop :=
  OsmRead_spec.Picked (fun x => fst (fst (fst x)) = mandatory /\ snd (fst (fst x)) = id) (fun x => (snd (fst x), snd x)) rules l.
(** The ways that meet at graph node [v], with the numbers of the edges that were read. *)
Definition arms (segs : list OsmRead_model.seg) (v : nat) : list (nat * nat) :=
  flat_map (fun s => (if OsmRead_model.sgN s =? v then [(OsmRead_model.sgWay s, OsmRead_model.sgEdge s)] else []) ++
                     (if OsmRead_model.sgLast s =? v then [(OsmRead_model.sgWay s, OsmRead_model.sgEdge s)] else [])) segs.

Section Spec.
Context {P : Type}.
Notation edge := (edge P). Notation graph := (graph P).
(** [c]: the pieces in [G] of the [i]-th edge [e] that was read; they meet at new stations. *)
Definition in_pieces (rules : list (bool * nat * nat * nat)) (r : OsmRead_model.graph) (n0 : nat) (station : nat -> bool) (G : graph) (i : nat) (e : OsmRead_model.edge) (c : list edge) : Prop :=
  c <> [] /\ chain (OsmRead_model.eFrom e) (map (fun x => (x, true)) c) (OsmRead_model.eTo e) /\
  (forall x, In x c -> In x (edges G) /\ street rules (OsmRead_model.gSegs r) i e (ePl x)) /\
  forall n, In n (between (map (fun x => (x, true)) c)) -> n0 <= n /\ station n = true.
(** [x]: the piece at node [v]. *)
Definition piece_at (c : list edge) (v : nat) (x : edge) : Prop :=
  (from x = v /\ exists c', c = x :: c') \/ (to x = v /\ exists c', c = c' ++ [x]).
(** Edge [e] of the network was made from a chain that contains [x]. *)
Definition made_with (station turn : nat -> bool) (G : graph) (e x : edge) : Prop :=
  exists tr d, traced station turn G e tr /\ In (x, d) tr.
(** The network punishes exactly the turns that the rules at the OSM node do not allow, at each
    node at which every way has one edge; [barred f t]: after [f] one must not go on with [t]. *)
Definition turns_ruled (rules : list (bool * nat * nat * nat)) (r : OsmRead_model.graph) (O : list (list (nat * nat))) (station turn : nat -> bool)
    (G net : graph) (L : nat -> list edge) (barred : edge -> edge -> Prop) : Prop :=
  forall id v pos neg, In (id, v) (concat O) -> rules_at rules true id pos -> rules_at rules false id neg -> no_self (pos ++ neg) ->
  NoDup (map fst (arms (OsmRead_model.gSegs r) v)) -> NoDup (map snd (arms (OsmRead_model.gSegs r) v)) ->
  forall wf ef wt et e1 e2, In (wf, ef) (arms (OsmRead_model.gSegs r) v) -> In (wt, et) (arms (OsmRead_model.gSegs r) v) ->
  (* edges that were read and not moved because of a gap *)
  nth_error (OsmRead_model.gEdges r) ef = Some e1 -> In (OsmRead_model.eFrom e1) (nodes G) -> In (OsmRead_model.eTo e1) (nodes G) ->
  nth_error (OsmRead_model.gEdges r) et = Some e2 -> In (OsmRead_model.eFrom e2) (nodes G) -> In (OsmRead_model.eTo e2) (nodes G) ->
  (* edges of the network made from their pieces at [v] *)
  forall f t x y, In f (edges net) -> In t (edges net) -> to f = v -> from t = v ->
  piece_at (L ef) v x -> piece_at (L et) v y -> made_with station turn G f x -> made_with station turn G t y ->
  (barred f t <-> ~ way_turn_allowed pos neg (map fst (arms (OsmRead_model.gSegs r) v)) wf wt).
End Spec.
