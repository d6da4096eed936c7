(** Model of the whole reading of an OSM file into the network of the router.
    Source: /repo/src/pfaedle/osm/OsmBuilder.cpp:59-181 (read): the parts modelled in
    OsmRead_model (85-121), Gaps_model (132-133), Snap_model (137), Finish_model (140-169)
    and Restrictor_model are put together.

    Simplifications.
    - The parts have their own representation of the graph; the conversions are below.  Nodes
      have the same numbers everywhere.
    - Edges are told apart by their nodes (there is at most one edge from a node to a node, no
      part makes an edge between nodes between which an edge was deleted).  The numbers of
      edges, which stand for their addresses, follow from this.  An address is not used again
      after an edge was deleted.
    - The infos of stations (NodePL::_statInfos) are numbered in the order of the nodes.
    - writeEdgeTracks (127-128, see Tracks_model), the logging and the search in the node grid (131) are left
      out; the nodes that the grid gives are an oracle [near], in any order. *)
From Coq Require Import Ascii String List Arith NArith ZArith QArith Bool.
From Verif Require Import OsmGraph_model Gaps_model Finish_model Restrictor_model.
From Verif Require OsmRead_model Snap_model.
Import ListNotations.
Open Scope nat_scope.


Section Build.
Context {P SI : Type}.
Notation attrmap := (list (string * string)).

(** ** After reading *)
(** OsmBuilder.cpp:742, 754: the rules (from way, to way) at an OSM node *)
Definition rawAt (r : list (bool * nat * nat * nat)) (pos : bool) (id : nat) : list (nat * nat) :=
  map (fun x => (snd (fst x), snd x)) (filter (fun x => Bool.eqb (fst (fst (fst x))) pos && (snd (fst (fst x)) =? id)) r).
(** OsmBuilder.cpp:744-748, 756-760: a rule at [id] is from or to way [w] *)
Definition concerns (r : list (bool * nat * nat * nat)) (id w : nat) : bool :=
  existsb (fun x => (fst x =? w) || (snd x =? w)) (rawAt r true id ++ rawAt r false id).
(** OsmBuilder.cpp:722-723: which edges are marked as restricted *)
Definition marked (r : list (bool * nat * nat * nat)) (segs : list OsmRead_model.seg) (i : nat) : bool :=
  existsb (fun s => (OsmRead_model.sgEdge s =? i) && (concerns r (OsmRead_model.sgId s) (OsmRead_model.sgWay s) || concerns r (OsmRead_model.sgLastId s) (OsmRead_model.sgWay s))) segs.
(** OsmBuilder.cpp:722-723: the calls of the restrictor *)
Definition readCalls (r : list (bool * nat * nat * nat)) (segs : list OsmRead_model.seg) : list rcall :=
  flat_map (fun s =>
    processRestr (rawAt r true (OsmRead_model.sgId s)) (rawAt r false (OsmRead_model.sgId s)) (OsmRead_model.sgWay s) (OsmRead_model.sgEdge s) (OsmRead_model.sgN s) ++
    processRestr (rawAt r true (OsmRead_model.sgLastId s)) (rawAt r false (OsmRead_model.sgLastId s)) (OsmRead_model.sgWay s) (OsmRead_model.sgEdge s) (OsmRead_model.sgLast s)) segs.
(** The payload of an edge, EdgePL.h:97-110: no geometry and no cost yet *)
Definition readPl (rests : list (bool * nat * nat * nat)) (segs : list OsmRead_model.seg) (i : nat) (e : OsmRead_model.edge) : pl P :=
  mkPl (OsmRead_model.eOneWay e) (marked rests segs i) false (OsmRead_model.eLvl e) 0%N None (OsmRead_model.eLines e).
Fixpoint readEdgs (rests : list (bool * nat * nat * nat)) (segs : list OsmRead_model.seg) (i : nat) (es : list OsmRead_model.edge) : list (edge P) :=
  match es with [] => [] | e :: r => mkE (OsmRead_model.eFrom e) (OsmRead_model.eTo e) (readPl rests segs i e) :: readEdgs rests segs (S i) r end.
Definition readGraph (r : OsmRead_model.rels) (g : OsmRead_model.graph) (size : nat) : graph P :=
  mkG (seq 0 size) (readEdgs (OsmRead_model.rests r) (OsmRead_model.gSegs g) 0 (OsmRead_model.gEdges g)).

(** ** Before snapping *)
(** NodePL.h: the position of a new node is [origin] *)
Variable origin : P.
Definition posOf (s : @OsmRead_model.ngraph P SI) (n : nat) : P := match OsmRead_model.pPos (OsmRead_model.ngPay s n) with Some p => p | None => origin end.
Definition infoOf (s : @OsmRead_model.ngraph P SI) (n : nat) : option SI := match OsmRead_model.pState (OsmRead_model.ngPay s n) with OsmRead_model.Station i => Some i | _ => None end.
Definition hasInfo (s : @OsmRead_model.ngraph P SI) (n : nat) : bool := match infoOf s n with Some _ => true | None => false end.
(** the number of the info of a station *)
Definition infoNo (s : @OsmRead_model.ngraph P SI) (n : nat) : nat := length (filter (hasInfo s) (seq 0 n)).
Definition infoList (s : @OsmRead_model.ngraph P SI) : list SI :=
  flat_map (fun n => match infoOf s n with Some i => [i] | None => [] end) (seq 0 (OsmRead_model.ngSize s)).
Definition stateOf (s : @OsmRead_model.ngraph P SI) (n : nat) : Snap_model.nstate :=
  if n <? OsmRead_model.ngSize s
  then match OsmRead_model.pState (OsmRead_model.ngPay s n) with OsmRead_model.Plain => Snap_model.Plain | OsmRead_model.Blocker => Snap_model.Blocker | OsmRead_model.Turn => Snap_model.Turn | OsmRead_model.Station _ => Snap_model.Station (infoNo s n) end
  else Snap_model.Plain.
(** the number of an edge: edges that were read keep theirs, edges that close gaps have new ones *)
Fixpoint number (es : list OsmRead_model.edge) (k : nat) (l : list (edge P)) : list (@Snap_model.edge (pl P)) :=
  match l with
  | [] => []
  | e :: r =>
      Snap_model.mkEdge (match OsmRead_model.findEdge es (from e) (to e) 0 with Some i => i | None => k end) (from e) (to e) (ePl e) :: number es (S k) r
  end.
Definition toSnap (g : OsmRead_model.graph) (s : @OsmRead_model.ngraph P SI) (g1 : graph P) : @Snap_model.st P SI (pl P) :=
  Snap_model.mkSt (OsmRead_model.ngSize s) (posOf s) (stateOf s) (infoList s) (number (OsmRead_model.gEdges g) (length (OsmRead_model.gEdges g)) (edges g1))
    (length (OsmRead_model.gEdges g) + length (edges g1)) [].

(** ** After snapping *)
Definition isStation (s : @Snap_model.st P SI (pl P)) (n : nat) : bool := match Snap_model.state s n with Snap_model.Station _ => true | _ => false end.
Definition isTurn (s : @Snap_model.st P SI (pl P)) (n : nat) : bool := match Snap_model.state s n with Snap_model.Turn => true | _ => false end.
Definition fromSnap (g1 : graph P) (size : nat) (s : @Snap_model.st P SI (pl P)) : graph P :=
  mkG (nodes g1 ++ seq size (Snap_model.size s - size)) (map (fun e => mkE (Snap_model.eFrom e) (Snap_model.eTo e) (Snap_model.ePl e)) (Snap_model.edges s)).
(** The nodes of all edges there were, by number: an edge that was replaced leads from the
    first node of the first to the second node of the second new edge (OsmBuilder.cpp:1331-1336). *)
Definition endsOf (s : @Snap_model.st P SI (pl P)) : nat -> nat * nat :=
  fold_right (fun t f x => if x =? fst (fst t) then (fst (f (snd (fst t))), snd (f (snd t))) else f x)
    (fun x => (Snap_model.fromOf s x, Snap_model.toOf s x)) (Snap_model.told s).
(** OsmBuilder.cpp:1343: the restrictor is told *)
Definition retold (s : @Snap_model.st P SI (pl P)) (t : restr) : restr :=
  fold_left (fun t c => replaceEdge (fun x => fst (endsOf s x)) (fun x => snd (endsOf s x)) t (fst (fst c)) (snd (fst c)) (snd c)) (Snap_model.told s) t.

(** ** The network *)
(** The number of the edge between two nodes *)
Definition snapNo (s : @Snap_model.st P SI (pl P)) (a b : nat) : option nat :=
  option_map Snap_model.eId (find (fun e => (Snap_model.eFrom e =? a) && (Snap_model.eTo e =? b)) (Snap_model.edges s)).
(** OsmBuilder.cpp:1747-1749: the new edges for which rules are duplicated, and their numbers *)
Fixpoint place (ds : list (edge P)) (a b k : nat) : option nat :=
  match ds with [] => None | d :: r => if (from d =? a) && (to d =? b) then Some k else place r a b (S k) end.
Definition dupPairs (s : @Snap_model.st P SI (pl P)) (ds : list (edge P)) : list (nat * nat) :=
  combine (map (fun d => match snapNo s (from d) (to d) with Some i => i | None => 0 end) ds) (seq (Snap_model.nextE s) (length ds)).
(** the number of an edge of the network; those that no rule can name share one *)
Definition netNo (s : @Snap_model.st P SI (pl P)) (ds : list (edge P)) (e : edge P) : nat :=
  match (if rev_ (ePl e) then place ds (to e) (from e) (Snap_model.nextE s) else snapNo s (from e) (to e)) with
  | Some i => i
  | None => Snap_model.nextE s + length ds
  end.
(** the nodes of the edges, by number *)
Definition netEnds (s : @Snap_model.st P SI (pl P)) (ds : list (edge P)) (x : nat) : nat * nat :=
  if x <? Snap_model.nextE s then endsOf s x
  else match nth_error ds (x - Snap_model.nextE s) with Some d => (to d, from d) | None => (0, 0) end.

Record built := mkBuilt {
  bNet : network P; bTable : restr;
  bPos : nat -> P; bStation : nat -> bool; bTurn : nat -> bool; bInfo : nat -> option SI;
  bNo : edge P -> nat                                   (* numbers of edges, as in the table *)
}.

Section Run.
(** OsmRead_model *)
Variable E : nat.
Variable level : attrmap -> nat.
Variable oneway onewayrev : attrmap -> bool.
Variable linesOf : OsmRead_model.rels -> nat -> list nat.
Variable statInfo : nat -> attrmap -> option SI.
Variable station blocker turnCycle : attrmap -> bool.
(** Gaps_model: at most one metre; the grid; the order of the nodes *)
Variable close : P -> P -> bool.
Variable near : graph P -> nat -> list nat.
Variable order : graph P -> list nat.
(** Snap_model *)
Variable hav : P -> P -> Z.
Variable half five : Z.
Variable plus : Z -> Z -> Z.
Variable project : P -> P -> P -> P.
Variable sharpAt : P -> P -> P -> bool.
Variable maxSnapLevel : nat.
Variable maxBlockDistance : Z.
Variable simiEq simiLow : SI -> SI -> bool.
Variable noTrack : SI -> bool.
Variable takeTrack : SI -> SI -> SI.
Variable pick : list Snap_model.cand -> option (Snap_model.cand * list Snap_model.cand).
Variable ord : list (@Snap_model.edge (pl P)) -> list (@Snap_model.edge (pl P)).
Variable cands : @Snap_model.st P SI (pl P) -> P -> Z -> list nat.
Variable ds : list Z.                                   (* opts.maxSnapDistances *)
(** Finish_model *)
Variable len : list P -> Q.
Variable simplify : list P -> list P.
Variable speed : nat -> Q.
Variable corFac : Q.
Variable fl : Q -> Q.
Variable speedPen entryCost noLinesFac : Q.
Variable meets : graph P -> list (nat * bool).          (* the order of the nodes in collapseEdges *)

(** OsmBuilder.cpp:132-169, from the graph that was read to the network *)
Definition buildFrom (r : OsmRead_model.rels) (g : OsmRead_model.graph) (s : @OsmRead_model.ngraph P SI) : option built :=
  let g0 := readGraph r g (OsmRead_model.ngSize s) in
  (* 133 *)
  let g1 := fixGaps P (hasInfo s) (fun a b => close (posOf s b) (posOf s a)) (near g0) g0 (order g0) in
  (* 137 *)
  match Snap_model.snapStats hav half five plus project sharpAt (@lvl P) maxSnapLevel maxBlockDistance simiEq simiLow noTrack takeTrack pick ord cands
          (toSnap g s g1) ds (OsmRead_model.orphans s) with
  | None => None
  | Some s2 =>
      let g2 := fromSnap g1 (OsmRead_model.ngSize s) s2 in
      (* 140-169 *)
      match finish P (Snap_model.geo s2) (isStation s2) (isTurn s2) len simplify speed corFac fl speedPen entryCost noLinesFac g2 (meets g2) with
      | None => None
      | Some net =>
          (* 722-723, 1343, 1749 *)
          match runR emptyRestr (readCalls (OsmRead_model.rests r) (OsmRead_model.gSegs g)) with
          | None => None
          | Some t =>
              let nds := dup net in
              Some (mkBuilt net
                (duplicateAll (fun x => fst (netEnds s2 nds x)) (fun x => snd (netEnds s2 nds x)) (retold s2 t) (dupPairs s2 nds))
                (Snap_model.geo s2) (isStation s2) (isTurn s2) (Snap_model.getSI s2) (netNo s2 nds))
          end
      end
  end.
(** OsmBuilder.cpp:85-169; the loops of the reading make at most [n] rounds *)
Definition build (c : @OsmRead_model.cfg P) (n : nat) (x0 : @OsmRead_model.xml P) : option built :=
  match OsmRead_model.readFile E c (fun b r ws => OsmRead_model.readEdges level oneway onewayrev (linesOf r) (OsmRead_model.hasHup c b) (OsmRead_model.hasBox c b) ws) n x0 with
  | None => None
  | Some (r, _, g, nl) => buildFrom r g (OsmRead_model.readNodes statInfo station blocker turnCycle g nl)
  end.
End Run.
End Build.
