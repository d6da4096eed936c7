(** Model of the passes over the graph after an OSM file was read.
    Source: /repo/src/pfaedle/osm/OsmBuilder.cpp:1108-1120 (writeGeoms), 1551-1561
    (deleteOrphNds), 1564-1576 (edgesSim), 1579-1634 (mergeEdgePL), 1637-1672
    (collapseEdges), 1675-1682 (simplifyGeoms), 1685-1726 (writeComps), 1743-1753
    (writeODirEdgs), 1755-1770 (writeSelfEdgs), /repo/src/pfaedle/trgraph/EdgePL.cpp:67-76
    (revCopy), EdgePL.h:97-126, NodePL.cpp:68-75 (getComp, setComp), NodePL.h:22-24.

    Simplifications.
    - Nodes are numbers; an edge is given by its nodes and its payload.  util::DirGraph (not
      in the checkout) is a list of nodes and a list of edges: there is at most one edge
      from a node to a node (getEdg, addEdg); adjacency lists are the edges of the list
      that begin or end at a node.
    - Positions of nodes, and whether a node is a station or a turning circle, do not change
      in these passes and are functions.  Lines of edges are a list of numbers (sorted
      pointers).
    - The cost of an edge is computed in writeGeoms by a function of its geometry and level
      (C18 is about the cost).  The calls to the restrictor in writeODirEdgs are recorded as
      a list of edges (C12 is about the restrictor). *)
From Coq Require Import List Arith NArith QArith Bool.
Import ListNotations.
Open Scope nat_scope.

Section Graph.
Variable P : Type.

(** EdgePL.h:97-110 *)
Record pl := mkPl { oneWay : nat; restr : bool; rev_ : bool; lvl : nat; cost : N; geom : option (list P); lines : list nat }.
Record edge := mkE { from : nat; to : nat; ePl : pl }.
Record graph := mkG { nodes : list nat; edges : list edge }.

Variable pos : nat -> P.
Variable station turn : nat -> bool.

(** ** util::DirGraph *)
Definition isEdg (a b : nat) (e : edge) : bool := (from e =? a) && (to e =? b).
Definition getEdg (g : graph) (a b : nat) : option edge := find (isEdg a b) (edges g).
Definition addEdg (g : graph) (a b : nat) (p : pl) : graph :=
  match getEdg g a b with Some _ => g | None => mkG (nodes g) (edges g ++ [mkE a b p]) end.
Definition delEdg (g : graph) (a b : nat) : graph := mkG (nodes g) (filter (fun e => negb (isEdg a b e)) (edges g)).
Definition adjOut (g : graph) (n : nat) : list edge := filter (fun e => from e =? n) (edges g).
Definition adjIn (g : graph) (n : nat) : list edge := filter (fun e => to e =? n) (edges g).
Definition deg (g : graph) (n : nat) : nat := length (adjOut g n) + length (adjIn g n).
(** [Edge::getOtherNd] *)
Definition other (e : edge) (n : nat) : nat := if from e =? n then to e else from e.

(** ** collapseEdges *)
Definition isOW (e : edge) : bool := negb (oneWay (ePl e) =? 0).
(** OsmBuilder.cpp:1564-1576 [edgesSim]. *)
Definition edgesSim (a b : edge) : bool :=
  if xorb (isOW a) (isOW b) then false
  else if negb (lvl (ePl a) =? lvl (ePl b)) then false
  else if negb (length (lines (ePl a)) =? length (lines (ePl b))) then false
  else if isOW a && isOW b && (negb (from a =? to b) && negb (to a =? from b)) then false
  else if restr (ePl a) || restr (ePl b) then false
  else if list_eq_dec Nat.eq_dec (lines (ePl a)) (lines (ePl b)) then true else false.

Definition setGeom (p : pl) (l : list P) : pl := mkPl (oneWay p) (restr p) (rev_ p) (lvl p) (cost p) (Some l) (lines p).
Definition geomOf (e : edge) : list P := match geom (ePl e) with Some l => l | None => [pos (from e); pos (to e)] end.
(** OsmBuilder.cpp:1579-1634 [mergeEdgePL]. *)
Definition mergeEdgePL (a b : edge) : pl :=
  let n := if from a =? from b then from a else if from a =? to b then from a else to a in
  let ga := geomOf a in
  if (to a =? n) && (to b =? n) then
    setGeom (ePl a) (ga ++ match geom (ePl b) with Some l => rev l | None => [pos (from b)] end)
  else if (to a =? n) && (from b =? n) then
    setGeom (ePl a) (ga ++ match geom (ePl b) with Some l => l | None => [pos (to b)] end)
  else if (from a =? n) && (to b =? n) then
    setGeom (ePl a) (rev ga ++ match geom (ePl b) with Some l => rev l | None => [pos (from b)] end)
  else
    setGeom (ePl a) (rev ga ++ match geom (ePl b) with Some l => l | None => [pos (to b)] end).

(** OsmBuilder.cpp:1643-1654: the two edges.  [sw]: the order of the two edges in their
    adjacency list, which the code does not control. *)
Definition pick (out inn : list edge) (sw : bool) : option (edge * edge) :=
  match out, inn with
  | [a; b], _ => Some (if sw then (b, a) else (a, b))
  | _, [a; b] => Some (if sw then (b, a) else (a, b))
  | a :: _, b :: _ => Some (a, b)
  | _, _ => None
  end.
Definition hasEdg (g : graph) (a b : nat) : bool := match getEdg g a b with Some _ => true | None => false end.
(** OsmBuilder.cpp:1638-1670, for one node. *)
Definition collapseAt (g : graph) (ns : nat * bool) : graph :=
  let n := fst ns in
  if negb (deg g n =? 2) || station n || turn n then g
  else match pick (adjOut g n) (adjIn g n) (snd ns) with
  | None => g
  | Some (ea, eb) =>
      if hasEdg g (other ea n) (other eb n) then g
      else if hasEdg g (other eb n) (other ea n) then g
      else if edgesSim ea eb then
        let g1 := if isOW ea && negb (other ea n =? from ea)
                  then addEdg g (other eb n) (other ea n) (mergeEdgePL eb ea)
                  else addEdg g (other ea n) (other eb n) (mergeEdgePL ea eb) in
        delEdg (delEdg g1 (from ea) (to ea)) (from eb) (to eb)
      else g
  end.
(** OsmBuilder.cpp:1637-1672 [collapseEdges]. *)
Definition collapse (g : graph) (ns : list (nat * bool)) : graph := fold_left collapseAt ns g.

(** ** Geometries *)
Variable costOf : list P -> nat -> N.
(** OsmBuilder.cpp:1108-1120 [writeGeoms]. *)
Definition writeGeom (e : edge) : edge :=
  mkE (from e) (to e)
    (mkPl (oneWay (ePl e)) (restr (ePl e)) (rev_ (ePl e)) (lvl (ePl e)) (costOf (geomOf e) (lvl (ePl e))) (Some (geomOf e)) (lines (ePl e))).
Definition writeGeoms (g : graph) : graph := mkG (nodes g) (map writeGeom (edges g)).
Variable simplify : list P -> list P.
(** OsmBuilder.cpp:1675-1682 [simplifyGeoms]; a null pointer is followed if there is no
    geometry: [None]. *)
Definition simplifyGeom (e : edge) : option edge :=
  match geom (ePl e) with Some l => Some (mkE (from e) (to e) (setGeom (ePl e) (simplify l))) | None => None end.
Fixpoint mapO {A B : Type} (f : A -> option B) (l : list A) : option (list B) :=
  match l with [] => Some [] | x :: r => match f x, mapO f r with Some y, Some s => Some (y :: s) | _, _ => None end end.
Definition simplifyGeoms (g : graph) : option graph :=
  match mapO simplifyGeom (edges g) with Some es => Some (mkG (nodes g) es) | None => None end.
(** OsmBuilder.cpp:1551-1561 [deleteOrphNds]. *)
Definition deleteOrphNds (g : graph) : graph :=
  mkG (filter (fun n => negb (deg g n =? 0) || station n) (nodes g)) (edges g).

(** ** writeODirEdgs *)
(** EdgePL.cpp:67-76 [revCopy]. *)
Definition revCopy (p : pl) : pl :=
  mkPl (if oneWay p =? 1 then 2 else if oneWay p =? 2 then 1 else oneWay p) (restr p) true (lvl p) (cost p) (geom p) (lines p).
(** OsmBuilder.cpp:1746-1750; the list: edges for which restrictions were duplicated. *)
Definition oDirEdge (s : graph * list edge) (e : edge) : graph * list edge :=
  let (g, ds) := s in
  if hasEdg g (to e) (from e) then s
  else (addEdg g (to e) (from e) (revCopy (ePl e)), if restr (ePl e) then ds ++ [e] else ds).
(** Lines 1744-1745: the edges at [n] when the loop gets to it. *)
Definition oDirNode (s : graph * list edge) (n : nat) : graph * list edge := fold_left oDirEdge (adjOut (fst s) n) s.
Definition writeODirEdgs (g : graph) (ns : list nat) : graph * list edge := fold_left oDirNode ns (g, []).

(** OsmBuilder.cpp:1755-1770 [writeSelfEdgs]; a new edge has the default payload. *)
Definition selfPl (n : nat) : pl := mkPl 0 false false 0 4294967295 (Some [pos n; pos n]) [].
Definition writeSelfEdg (g : graph) (n : nat) : graph :=
  if station n && (length (adjOut g n) =? 1)
  then match getEdg g n n with
       | None => addEdg g n n (selfPl n)
       | Some e => (* an edge that exists is changed *)
           mkG (nodes g) (map (fun e => if isEdg n n e then
             mkE n n (mkPl (oneWay (ePl e)) (restr (ePl e)) (rev_ (ePl e)) (lvl (ePl e)) 4294967295
               (Some (match geom (ePl e) with Some l => l | None => [] end ++ [pos n; pos n])) (lines (ePl e))) else e) (edges g))
       end
  else g.
Definition writeSelfEdgs (g : graph) (ns : list nat) : graph := fold_left writeSelfEdg ns g.

(** ** writeComps *)
(** [speed l]: opts.levelDefSpeed[l] / fac; [fl]: conversion from double to float. *)
Variable speed : nat -> Q.
Variable fl : Q -> Q.
(** Components of the nodes (0: none), and the maximum speeds [NodePL::comps]. *)
Definition compOf (c : list (nat * nat)) (n : nat) : nat := match find (fun x => fst x =? n) c with Some x => snd x | None => 0 end.
Definition setComp (c : list (nat * nat)) (n k : nat) : list (nat * nat) := (n, k) :: c.
Definition upSpeed (m : Q) (e : edge) : Q := if Qlt_le_dec m (speed (lvl (ePl e))) then fl (speed (lvl (ePl e))) else m.
(** Lines 1702-1715: one loop over an adjacency list. *)
Definition visit (c : list (nat * nat)) (n : nat) (s : Q * list nat) (e : edge) : Q * list nat :=
  (upSpeed (fst s) e, if compOf c (other e n) =? 0 then other e n :: snd s else snd s).
(** Lines 1696-1716: the loop over the stack; [k]: the number of the component.  Result:
    components, maximum speed, number of nodes popped; [None] if [fuel] is used up. *)
Fixpoint dfs (g : graph) (fuel k : nat) (c : list (nat * nat)) (m : Q) (num : nat) (q : list nat) : option (list (nat * nat) * Q * nat) :=
  match q with
  | [] => Some (c, m, num)
  | n :: q' =>
      match fuel with
      | 0 => None
      | S f =>
          let c' := setComp c n k in
          let (m', q'') := fold_left (visit c' n) (adjIn g n) (fold_left (visit c' n) (adjOut g n) (m, q')) in
          dfs g f k c' m' (S num) q''
      end
  end.
(** OsmBuilder.cpp:1685-1726 [writeComps]; [ms]: the elements of comps that are done. *)
Fixpoint compsLoop (g : graph) (fuel : nat) (ns : list nat) (c : list (nat * nat)) (ms : list Q) (numC : nat) : option (list (nat * nat) * list Q * nat) :=
  match ns with
  | [] => Some (c, ms ++ [0%Q], numC)
  | n :: r =>
      if compOf c n =? 0
      then match dfs g fuel (S (length ms)) c 0%Q 0 [n] with
           | None => None
           | Some (c', m, num) => compsLoop g fuel r c' (ms ++ [m]) (if 1 <? num then S numC else numC)
           end
      else compsLoop g fuel r c ms numC
  end.
(** The stack loop takes at most one round, and two for each edge. *)
Definition writeComps (g : graph) : option (list (nat * nat) * list Q * nat) :=
  compsLoop g (S (2 * length (edges g))) (nodes g) [] [] 0.
End Graph.
Arguments mkPl {P}. Arguments mkE {P}. Arguments mkG {P}.
Arguments oneWay {P}. Arguments restr {P}. Arguments rev_ {P}. Arguments lvl {P}. Arguments cost {P}. Arguments geom {P}. Arguments lines {P}.
Arguments from {P}. Arguments to {P}. Arguments ePl {P}. Arguments nodes {P}. Arguments edges {P}.
