(** Model of the passes that turn the graph read from OSM into the network the router
    uses (pfaedle/osm/OsmBuilder.cpp:140-169, end of [OsmBuilder::read]).

    The passes themselves are those of OsmGraph_model; the costs are those of
    Weights_model.  [g] is the graph after gaps were closed and stops were snapped.
    Simplification: the log messages are not modelled. *)
From Coq Require Import List Arith NArith ZArith QArith Bool.
From Verif Require Import OsmGraph_model Weights_model.
Import ListNotations.
Open Scope nat_scope.

Section Finish.
Variable P : Type.
Variable pos : nat -> P.
Variable station turn : nat -> bool.
(** [EdgePL::getLength], the length of a line, and util::geo::simplify. *)
Variable len : list P -> Q.
Variable simplify : list P -> list P.
(** opts.levelDefSpeed, opts.maxSpeedCorFac, conversion to float. *)
Variable speed : nat -> Q.
Variable corFac : Q.
Variable fl : Q -> Q.
(** opts.oneWaySpeedPen, opts.oneWayEntryCost, opts.noLinesPunishFact. *)
Variable speedPen entryCost noLinesFac : Q.

(** OsmBuilder.cpp:1116-1117: the cost of an edge, a uint32_t. *)
Definition costOf (l : list P) (lv : nat) : N := Z.to_N (geomCost (len l) (speed lv)).
Definition setCost (p : pl P) (c : N) : pl P := mkPl (oneWay p) (restr p) (rev_ p) (lvl p) c (geom p) (lines p).

(** OsmBuilder.cpp:1786-1797 [writeOneWayPens].  Simplification: the loop over the nodes
    and their outgoing edges meets each edge once, so it is a map. *)
Definition oneWayPen (e : edge P) : edge P :=
  if oneWay (ePl e) =? 2
  then mkE (from e) (to e) (setCost (ePl e) (Z.to_N (oneWayCost (Z.of_N (cost (ePl e))) speedPen entryCost)))
  else e.
Definition writeOneWayPens (g : graph P) : graph P := mkG (nodes g) (map oneWayPen (edges g)).

(** OsmBuilder.cpp:1773-1783 [writeNoLinePens]; the same simplification. *)
Definition noLinePen (e : edge P) : edge P :=
  if length (lines (ePl e)) =? 0
  then mkE (from e) (to e) (setCost (ePl e) (Z.to_N (noLinesCost (Z.of_N (cost (ePl e))) noLinesFac)))
  else e.
Definition writeNoLinePens (g : graph P) : graph P := mkG (nodes g) (map noLinePen (edges g)).

(** What [read] leaves: the graph, the edges whose restrictions were duplicated, the
    components of the nodes, their maximum speeds, and the number of components. *)
Record network := mkNet { net : graph P; dup : list (edge P); comps : list (nat * nat); maxs : list Q; num : nat }.

(** OsmBuilder.cpp:140-169; [cns]: the order in which [collapseEdges] meets the nodes, and
    the order of the edges at them.  [None]: a null geometry is followed. *)
Definition finish (g : graph P) (cns : list (nat * bool)) : option network :=
  (* 141 *)
  let g1 := collapse P pos station turn g cns in
  (* 144 *)
  let g2 := writeGeoms P pos costOf g1 in
  (* 147 *)
  let g3 := deleteOrphNds P station g2 in
  (* 152 *)
  match writeComps P (fun l => speed l / corFac)%Q fl g3 with
  | None => None
  | Some (c, ms, n) =>
      (* 155 *)
      match simplifyGeoms P simplify g3 with
      | None => None
      | Some g4 =>
          (* 158 *)
          let (g5, ds) := writeODirEdgs P g4 (nodes g4) in
          (* 161 *)
          let g6 := writeOneWayPens g5 in
          (* 163-166 *)
          let g7 := if Qeq_bool noLinesFac 1 then g6 else writeNoLinePens g6 in
          (* 169 *)
          Some (mkNet (writeSelfEdgs P pos station g7 (nodes g7)) ds c ms n)
      end
  end.
End Finish.
Arguments mkNet {P}. Arguments net {P}. Arguments dup {P}. Arguments comps {P}. Arguments maxs {P}. Arguments num {P}.
