(** Specification for the network built from an OSM file (C76, C77). *)
From Coq Require Import Ascii String List Arith NArith ZArith QArith Bool.
From Verif Require Import OsmGraph_model OsmGraph_spec.
From Verif Require OsmRead_model OsmRead_spec Snap_spec.
Import ListNotations.
Open Scope nat_scope.
Open Scope list_scope.

Section Spec.
Context {P : Type}.
Notation edge := (edge P). Notation graph := (graph P).

(** ** Streets *)
(** The rule (from way, to way) at an OSM node names way [w]. *)
Definition names_way (rests : list (bool * nat * nat * nat)) (id w : nat) : Prop :=
  exists b f t, In (b, id, f, t) rests /\ (f = w \/ t = w).
(** The [i]-th edge that was read is marked: it is part of a way that a rule at one of its
    nodes names. *)
Definition ruled (rests : list (bool * nat * nat * nat)) (segs : list OsmRead_model.seg) (i : nat) : Prop :=
  exists s, In s segs /\ OsmRead_model.sgEdge s = i /\
    (names_way rests (OsmRead_model.sgId s) (OsmRead_model.sgWay s) \/ names_way rests (OsmRead_model.sgLastId s) (OsmRead_model.sgWay s)).
(** [x] has the attributes of the [i]-th edge [e] that was read. *)
Record street (rests : list (bool * nat * nat * nat)) (segs : list OsmRead_model.seg) (i : nat) (e : OsmRead_model.edge) (x : pl P) : Prop := {
  st_oneway : oneWay x = OsmRead_model.eOneWay e;
  st_level : lvl x = OsmRead_model.eLvl e;
  st_lines : lines x = OsmRead_model.eLines e;
  st_rule : restr x = true <-> ruled rests segs i
}.

(** ** Gaps *)
Variable close : nat -> nat -> bool.
(** [laid e y]: [e] itself, or an edge that was put in its place because there is a gap of at
    most a metre at one of its ends, or an edge that closes such a gap. *)
Inductive laid (e : edge) : edge -> Prop :=
| ld_same : laid e e
| ld_moved : forall y n nb u, laid e y -> close n nb = true -> (from y = nb /\ to y = u) \/ (to y = nb /\ from y = u) -> laid e (mkE u n (ePl y))
| ld_link : forall y n nb, laid e y -> close n nb = true -> touches y nb -> laid e (mkE n nb (ePl y)).

(** ** From the edges that were read to the edges of [g]
    [n0]: number of nodes that were read, [station]: nodes that are stations in the end,
    [station0]: after reading. *)
Variable station0 station : nat -> bool.
Record carries (rests : list (bool * nat * nat * nat)) (r : OsmRead_model.graph) (n0 : nat) (g : graph) : Prop := {
  (* nodes: those that were read, without some near to others, and new stations *)
  ca_known : forall n, In n (nodes g) -> n0 <= n -> station n = true;
  ca_lost : forall n, n < n0 -> ~ In n (nodes g) -> station0 n = false /\ exists m, m < n0 /\ m <> n /\ close m n = true;
  ca_station : forall n, n < n0 -> station0 n = true -> In n (nodes g) /\ station n = true;
  (* each edge is a piece of an edge that was read, or of one that stands in for such an edge *)
  ca_edge : forall x, In x (edges g) -> exists i e y, nth_error (OsmRead_model.gEdges r) i = Some e /\ street rests (OsmRead_model.gSegs r) i e (ePl x) /\
    laid (mkE (OsmRead_model.eFrom e) (OsmRead_model.eTo e) (ePl x)) y /\
    exists c, chain (from y) c (to y) /\ In (x, true) c /\ forall n, In n (between c) -> n0 <= n;
  (* each edge that was read and whose nodes are not lost is there, in pieces that meet at new stations *)
  ca_cover : forall i e, nth_error (OsmRead_model.gEdges r) i = Some e -> In (OsmRead_model.eFrom e) (nodes g) -> In (OsmRead_model.eTo e) (nodes g) ->
    exists c, c <> [] /\ chain (OsmRead_model.eFrom e) c (OsmRead_model.eTo e) /\
      (forall h, In h c -> snd h = true /\ In (fst h) (edges g) /\ street rests (OsmRead_model.gSegs r) i e (ePl (fst h))) /\
      forall n, In n (between c) -> n0 <= n /\ station n = true
}.
End Spec.

(** ** What was read from a file with nodes [ns], ways [ws] and relations [rs] *)
Section Read.
Context {P SI : Type}.
Variable c : @OsmRead_model.cfg P.
Variable ns ws rs : list (@OsmRead_spec.elem P).
Variable level : list (string * string) -> nat.
Variable oneway onewayrev : list (string * string) -> bool.
Variable linesOf : OsmRead_model.rels -> nat -> list nat.
Variable statInfo : nat -> list (string * string) -> option SI.
Variable station blocker turnCycle : list (string * string) -> bool.
(** [rules]: (mandatory, via, from way, to way) *)
Record file_read (r : OsmRead_model.rels) (rules : list (bool * nat * nat * nat)) (wl : list OsmRead_model.way) (g : OsmRead_model.graph)
    (O : list (list (nat * nat))) (s : @OsmRead_model.ngraph P SI) : Prop := {
  (* the rules: those of the wanted relations, in order *)
  fr_rules : exists sel, OsmRead_spec.Picked (fun e => OsmRead_spec.RelWanted c e /\
                 exists pos via f t, OsmRead_spec.Rule (OsmRead_model.posR c) (OsmRead_model.negR c) (OsmRead_spec.relVal c e) pos via f t) (fun e => e) rs sel /\
             Forall2 (fun e x => let '(pos, via, f, t) := x in OsmRead_spec.Rule (OsmRead_model.posR c) (OsmRead_model.negR c) (OsmRead_spec.relVal c e) pos via f t) sel rules;
  (* the ways *)
  fr_ways : OsmRead_spec.Picked (OsmRead_spec.WayWanted c ns rs) (OsmRead_spec.wayVal c) ws wl;
  (* the graph *)
  fr_graph : exists hup has, (forall id, hup id = true <-> OsmRead_spec.NoHup c ns id) /\ (forall id, has id = true <-> OsmRead_spec.InBox c ns id) /\
             OsmRead_spec.GraphOf level oneway onewayrev (linesOf r) hup has wl g O;
  (* its nodes *)
  fr_nodes : exists nl, OsmRead_spec.NodesOk statInfo station blocker turnCycle g O nl s;
  fr_pos : forall id v e, In (id, v) (concat O) -> In e ns -> OsmRead_spec.idOf e = id -> id <> 0 -> ~ OsmRead_spec.NoHup c ns id \/ OsmRead_spec.InBox c ns id ->
           OsmRead_model.pPos (OsmRead_model.ngPay s v) = OsmRead_spec.posOf e
}.
(** Where a node was read; [origin] if its position was not read *)
Definition read_at (origin : P) (s : @OsmRead_model.ngraph P SI) (n : nat) : P :=
  match OsmRead_model.pPos (OsmRead_model.ngPay s n) with Some p => p | None => origin end.
(** Nodes that were read keep their position, stations their info; a missing track may be filled in;
    one can turn where one could in the file, except at nodes that became stations. *)
Variable noTrack : SI -> bool.
Variable takeTrack : SI -> SI -> SI.
Record nodes_keep (origin : P) (s : @OsmRead_model.ngraph P SI) (pos : nat -> P) (info : nat -> option SI) (turn : nat -> bool) : Prop := {
  nk_pos : forall n, n < OsmRead_model.ngSize s -> pos n = read_at origin s n;
  nk_info : forall n i, n < OsmRead_model.ngSize s -> OsmRead_model.pState (OsmRead_model.ngPay s n) = OsmRead_model.Station i -> exists j, info n = Some j /\ Snap_spec.Filled noTrack takeTrack i j;
  nk_turn : forall n, n < OsmRead_model.ngSize s -> (turn n = true -> OsmRead_model.pState (OsmRead_model.ngPay s n) = OsmRead_model.Turn) /\
            (OsmRead_model.pState (OsmRead_model.ngPay s n) = OsmRead_model.Turn -> turn n = true \/ exists i, info n = Some i)
}.
End Read.
