(** Model of the passes over an OSM file.
    Source: /repo/src/pfaedle/osm/OsmBuilder.cpp:100-121 (the passes of read), 311-422
    (filterWrite), 425-484 (readWriteRels), 487-509 (readWriteWays), 531-568 (readBBoxNds),
    571-597 (nextWayWithId), 600-603 (skipUntil), 606-618 (relKeep), 621-651 (nextWay),
    654-668 (keepWay), 671-682 and 685-736 (readEdges), 768-798 (nextNode), 801-815
    (keepNode), 818-838 (readWriteNds), 841-888 (readNodes), 891-962 (nextRel), 965-981
    (readRels), 984-1022 (readRestr), /repo/src/pfaedle/osm/Osm.h:21-66.

    Simplifications.
    - The XML parser is not in the checkout.  A file is the list of its opening tags with
      their level (the root has level 1), with parsed attributes.  get() and level() are
      those of the last tag that next() found; when next() finds no more, get() stays and
      level() is any number [E].  state() and set_state() remember and restore the place.
    - Tags (an unordered_map) are a list with one entry per key.  Ids are numbers, 0 is "none"
      in the code.  The missing role of a member is the empty string, as in the code.
    - The filters (C06-C08), the needed keys, the bounding boxes (C04, C05), the lines and the
      station info are oracles.  An id set (C01-C03) answers for the ids that were added or
      added as "not in"; for other ids it is an oracle.
    - The graph: nodes are numbers, there is at most one edge from a node to a node, and
      addEdg returns the one that is there (see OsmGraph_model), never null.  The calls of the
      restrictor (C12) are listed as segments.  Tracks of edges are in Tracks_model.
    - filterWrite: the search for the bounds (333-374), the formatting of numbers and the
      escaping of the XML writer are left out: the output is the list of written elements. *)
From Coq Require Import Ascii String List Arith NArith Bool.
Import ListNotations.
Open Scope nat_scope.

Section OsmRead.
Context {P : Type}.                     (* positions *)
Inductive mtype := MNode | MWay | MOther.
Inductive tag :=
| TNode (id : nat) (p : P) | TWay (id : nat) | TRel (id : nat)
| TNd (ref : nat) | TTag (k v : string) | TMember (t : mtype) (ref : nat) (role : string) | TOther.
Record tok := mkTok { lvl : nat; tg : tag }.
Record xml := mkXml { cur : tok; rest : list tok }.
Variable E : nat.
Definition atEof (c : tok) : xml := mkXml (mkTok E (tg c)) [].
(** [xml->level() == 2 || xml->level() == 0] *)
Definition top (c : tok) : bool := (lvl c =? 2) || (lvl c =? 0).

Notation attrmap := (list (string * string)).
(** [attrs[k] = v] *)
Definition put (a : attrmap) (k v : string) : attrmap := filter (fun x => negb (String.eqb (fst x) k)) a ++ [(k, v)].
Definition mem (x : nat) (l : list nat) : bool := existsb (Nat.eqb x) l.

(** Osm.h:25-58 *)
Record way := mkWay { wId : nat; wNodes : list nat; wAttrs : attrmap }.
Record node := mkNode { nId : nat; nPos : option P; nAttrs : attrmap }.
Record rel := mkRel { rId : nat; rNodes : list (nat * string); rWays : list (nat * string); rAttrs : attrmap; rKeep : N }.
Definition noWay : way := mkWay 0 [] [].
Definition noNode : node := mkNode 0 None [].
Definition noRel : rel := mkRel 0 [] [] [] 0.

(** ** Looking for a tag: 600-603 [skipUntil] *)
Fixpoint skipUntil (isS : tag -> bool) (c : tok) (r : list tok) : xml :=
  match r with [] => atEof c | t :: r' => if isS (tg t) then mkXml t r' else skipUntil isS t r' end.
Definition isNode (t : tag) : bool := match t with TNode _ _ => true | _ => false end.
Definition isRel (t : tag) : bool := match t with TRel _ => true | _ => false end.

(** ** 531-568 [readBBoxNds] *)
Section BBox.
Variable inBox : P -> bool.
Variable nohup : string -> string -> bool.
Record bb := mkBB { bIn : list nat; bOut : list nat; bNohup : list nat }.
Fixpoint readBBoxNds (c : tok) (r : list tok) (blk : bool) (id : nat) (s : bb) : bb * xml :=
  let go (blk : bool) (id : nat) (s : bb) := match r with [] => (s, atEof c) | t :: r' => readBBoxNds t r' blk id s end in
  let s := match tg c with
           | TTag k v => if blk && (lvl c =? 3) && negb (id =? 0) && nohup k v then mkBB (bIn s) (bOut s) (bNohup s ++ [id]) else s
           | _ => s
           end in
  if negb (lvl c =? 2) then go blk id s
  else match tg c with
       | TNode i p => go true i (if inBox p then mkBB (bIn s ++ [i]) (bOut s) (bNohup s) else mkBB (bIn s) (bOut s ++ [i]) (bNohup s))
       | _ => if blk then (s, mkXml c r) else go blk id s
       end.
End BBox.
(** OsmIdSet::has *)
Definition idHas (ins outs : list nat) (other : nat -> bool) (id : nat) : bool := if mem id ins then true else if mem id outs then false else other id.

(** ** 606-618 [relKeep].  A RelMap is a list of ids and relation numbers. *)
Notation relmap := (list (nat * nat)).
Definition relsOf (m : relmap) (id : nat) : list nat := map snd (filter (fun x => fst x =? id) m).
Definition relKeep (id : nat) (m : relmap) (flat : list nat) : bool := existsb (fun r => negb (mem r flat)) (relsOf m id).

(** ** Ways *)
Section Ways.
Variable keys : string -> bool.
(** 638-646: the children of a way *)
Definition wayChild (w : way) (c : tok) : way :=
  if negb (wId w =? 0) && (lvl c =? 3)
  then match tg c with
       | TNd ref => mkWay (wId w) (wNodes w ++ [ref]) (wAttrs w)
       | TTag k v => if keys k then mkWay (wId w) (wNodes w) (put (wAttrs w) k v) else w
       | _ => w
       end
  else w.
(** 654-668 [keepWay] *)
Definition keepWay (relK : nat -> bool) (kW dW : attrmap -> bool) (has : nat -> bool) (w : way) : bool :=
  if negb (wId w =? 0) && (1 <? length (wNodes w)) && (relK (wId w) || kW (wAttrs w)) && negb (dW (wAttrs w))
  then existsb has (wNodes w) else false.
Variable keep : way -> bool.
(** 621-651 [nextWay] *)
Fixpoint nextWay (c : tok) (r : list tok) (w : way) : way * xml :=
  let go (w : way) :=
    let w := wayChild w c in
    match r with [] => (if keep w then w else noWay, atEof c) | t :: r' => nextWay t r' w end in
  if top c
  then if keep w then (w, mkXml c r)
       else match tg c with TWay id => go (mkWay id [] []) | _ => (noWay, mkXml c r) end
  else go w.
(** 676, 694: the loop [while ((w = nextWay(...)).id)]; [None]: not within [n] rounds. *)
Fixpoint readWays (n : nat) (x : xml) : option (list way * xml) :=
  match n with
  | O => None
  | S n => let (w, x') := nextWay (cur x) (rest x) noWay in
           if wId w =? 0 then Some ([], x') else match readWays n x' with None => None | Some (ws, x'') => Some (w :: ws, x'') end
  end.
(** 571-597 [nextWayWithId] *)
Fixpoint nextWayWithId (wid : nat) (c : tok) (r : list tok) (w : way) : way * xml :=
  let go (w : way) :=
    let w := wayChild w c in
    match r with [] => (if negb (wId w =? 0) then w else noWay, atEof c) | t :: r' => nextWayWithId wid t r' w end in
  if top c
  then if negb (wId w =? 0) then (w, mkXml c r)
       else match tg c with TWay id => go (if id =? wid then mkWay id (wNodes w) (wAttrs w) else w) | _ => (w, mkXml c r) end
  else go w.
End Ways.

(** ** Nodes *)
Section Nodes.
Variable keys : string -> bool.
(** 789-792 *)
Definition nodeChild (n : node) (c : tok) : node :=
  if negb (nId n =? 0) && (lvl c =? 3)
  then match tg c with TTag k v => if keys k then mkNode (nId n) (nPos n) (put (nAttrs n) k v) else n | _ => n end
  else n.
(** 801-815 [keepNode]; [known], [mult]: nodes.count and multNodes.count *)
Definition keepNode (known mult : nat -> bool) (relK : nat -> bool) (kN dN : attrmap -> bool) (has : nat -> bool) (n : node) : bool :=
  negb (nId n =? 0) && (known (nId n) || mult (nId n) || relK (nId n) || kN (nAttrs n)) &&
  (known (nId n) || has (nId n)) && (known (nId n) || mult (nId n) || negb (dN (nAttrs n))).
(** 768-798 [nextNode] *)
Fixpoint nextNode (keep : node -> bool) (c : tok) (r : list tok) (n : node) : node * xml :=
  let go (n : node) :=
    let n := nodeChild n c in
    match r with [] => (if keep n then n else noNode, atEof c) | t :: r' => nextNode keep t r' n end in
  if top c
  then if keep n then (n, mkXml c r)
       else match tg c with TNode id p => go (mkNode id (Some p) []) | _ => (noNode, mkXml c r) end
  else go n.
(** The loop of readNodes and readWriteNds; [known] grows in readWriteNds. *)
Fixpoint readNds (grow : bool) (keep : list nat -> node -> bool) (n : nat) (known : list nat) (x : xml) : option (list node * list nat * xml) :=
  match n with
  | O => None
  | S n => let (nd, x') := nextNode (keep known) (cur x) (rest x) noNode in
           if nId nd =? 0 then Some ([], known, x')
           else match readNds grow keep n (if grow then nId nd :: known else known) x' with None => None | Some (ns, known', x'') => Some (nd :: ns, known', x'') end
  end.
End Nodes.

(** ** Relations *)
Section Rels.
Variable keys : string -> bool.
(** 921-947 *)
Definition relChild (r : rel) (c : tok) : rel :=
  if (lvl c =? 3) && negb (rId r =? 0)
  then match tg c with
       | TMember MNode ref role => mkRel (rId r) (rNodes r ++ [(ref, role)]) (rWays r) (rAttrs r) (rKeep r)
       | TMember MWay ref role => mkRel (rId r) (rNodes r) (rWays r ++ [(ref, role)]) (rAttrs r) (rKeep r)
       | TTag k v => if keys k then mkRel (rId r) (rNodes r) (rWays r) (put (rAttrs r) k v) (rKeep r) else r
       | _ => r
       end
  else r.
Variable kR dR : attrmap -> N.
(** 900-906, 953-959 *)
Definition keepRel (r : rel) : bool := negb (rId r =? 0) && negb (length (rAttrs r) =? 0) && negb (kR (rAttrs r) =? 0)%N && (dR (rAttrs r) =? 0)%N.
Definition flagged (r : rel) : rel := mkRel (rId r) (rNodes r) (rWays r) (rAttrs r) (kR (rAttrs r)).
(** 891-962 [nextRel] *)
Fixpoint nextRel (c : tok) (l : list tok) (r : rel) : rel * xml :=
  let go (r : rel) :=
    let r := relChild r c in
    match l with [] => (if keepRel r then flagged r else noRel, atEof c) | t :: l' => nextRel t l' r end in
  if top c
  then if keepRel r then (flagged r, mkXml c l)
       else match tg c with TRel id => go (mkRel id [] [] [] 0) | _ => (noRel, mkXml c l) end
  else go r.
(** 970, 430 *)
Fixpoint readRelList (n : nat) (x : xml) : option (list rel * xml) :=
  match n with
  | O => None
  | S n => let (r, x') := nextRel (cur x) (rest x) noRel in
           if rId r =? 0 then Some ([], x') else match readRelList n x' with None => None | Some (rs, x'') => Some (r :: rs, x'') end
  end.
(** 984-1022 [readRestr]; a rule is (positive, via, from, to) *)
Variable posRestr negRestr : attrmap -> bool.
Fixpoint getAttr (a : attrmap) (k : string) : option string := match a with [] => None | (k', v) :: r => if String.eqb k' k then Some v else getAttr r k end.
(** 998-1007; [None]: return *)
Fixpoint fromTo (ws : list (nat * string)) (f t : nat) : option (nat * nat) :=
  match ws with
  | [] => Some (f, t)
  | (w, role) :: r =>
      if String.eqb role "from" && negb (f =? 0) then None
      else let f := if String.eqb role "from" then w else f in
           if String.eqb role "to" && negb (t =? 0) then None
           else let t := if String.eqb role "to" then w else t in
                fromTo r f t
  end.
(** 1009-1014 *)
Fixpoint firstVia (ns : list (nat * string)) : nat := match ns with [] => 0 | (n, role) :: r => if String.eqb role "via" then n else firstVia r end.
Definition readRestr (r : rel) : list (bool * nat * nat * nat) :=
  match getAttr (rAttrs r) "type" with
  | None => []
  | Some t =>
      if negb (String.eqb t "restriction") then []
      else let pos := posRestr (rAttrs r) in
           let neg := negRestr (rAttrs r) in
           if negb pos && negb neg then []
           else match fromTo (rWays r) 0 0 with
                | None => []
                | Some (f, t) =>
                    let via := firstVia (rNodes r) in
                    if negb (f =? 0) && negb (t =? 0) && negb (via =? 0)
                    then if pos then [(true, via, f, t)] else if neg then [(false, via, f, t)] else []
                    else []
                end
  end.
(** 965-981 [readRels] *)
Record rels := mkRels { relAttrs : list attrmap; flat : list nat; nodeRels : relmap; wayRels : relmap; rests : list (bool * nat * nat * nat) }.
Definition addRel (s : rels) (r : rel) : rels :=
  let i := length (relAttrs s) in
  mkRels (relAttrs s ++ [rAttrs r]) (if (N.land (rKeep r) 2 =? 0)%N then flat s else flat s ++ [i])
    (nodeRels s ++ map (fun m => (fst m, i)) (rNodes r)) (wayRels s ++ map (fun m => (fst m, i)) (rWays r)) (rests s ++ readRestr r).
Definition readRels (n : nat) (x : xml) : option (rels * xml) :=
  match readRelList n x with None => None | Some (rs, x') => Some (fold_left addRel rs (mkRels [] [] [] [] []), x') end.
End Rels.

(** ** 685-736 [readEdges] *)
Section Edges.
Variable level : attrmap -> nat.
Variable oneway onewayrev : attrmap -> bool.
Variable linesOf : nat -> list nat.              (* getLines of the relations of a way *)
Record edge := mkEdge { eFrom : nat; eTo : nat; eLines : list nat; eLvl : nat; eOneWay : nat }.
Record seg := mkSegm { sgWay : nat; sgEdge : nat; sgLastId : nat; sgLast : nat; sgId : nat; sgN : nat }.
Record graph := mkGraph { gSize : nat; gEdges : list edge; gNodes : list (nat * nat); gMult : list (nat * nat); gSegs : list seg }.
Definition emptyGraph : graph := mkGraph 0 [] [] [] [].
Fixpoint findEdge (es : list edge) (a b i : nat) : option nat :=
  match es with [] => None | e :: r => if (eFrom e =? a) && (eTo e =? b) then Some i else findEdge r a b (S i) end.
Fixpoint updEdge (es : list edge) (i : nat) (f : edge -> edge) : list edge :=
  match es, i with [], _ => [] | e :: r, O => f e :: r | e :: r, S i => e :: updEdge r i f end.
Definition lookup (m : list (nat * nat)) (k : nat) : option nat := match find (fun x => fst x =? k) m with Some x => Some (snd x) | None => None end.
(** EdgePL::addLine *)
Definition addLine (ls : list nat) (l : nat) : list nat := if mem l ls then ls else ls ++ [l].
(** 725-730: what is set for an edge of way [w] *)
Definition setEdge (w : way) (e : edge) : edge :=
  mkEdge (eFrom e) (eTo e) (fold_left addLine (linesOf (wId w)) (eLines e)) (level (wAttrs w))
    (if onewayrev (wAttrs w) then 2 else if oneway (wAttrs w) then 1 else eOneWay e).
(** 706-716: the node for an id; [None]: continue *)
Definition nodeFor (noHup has : nat -> bool) (g : graph) (nid : nat) : option (nat * graph) :=
  if noHup nid then Some (gSize g, mkGraph (S (gSize g)) (gEdges g) (gNodes g) (gMult g ++ [(nid, gSize g)]) (gSegs g))
  else match lookup (gNodes g) nid with
       | None => if has nid then Some (gSize g, mkGraph (S (gSize g)) (gEdges g) (gNodes g ++ [(nid, gSize g)]) (gMult g) (gSegs g)) else None
       | Some n => Some (n, g)
       end.
(** 719-730 *)
Definition addEdge (w : way) (g : graph) (lastId last nid n : nat) : graph :=
  let es := match findEdge (gEdges g) last n 0 with Some _ => gEdges g | None => gEdges g ++ [mkEdge last n [] 0 0] end in
  let i := match findEdge (gEdges g) last n 0 with Some i => i | None => length (gEdges g) end in
  mkGraph (gSize g) (updEdge es i (setEdge w)) (gNodes g) (gMult g) (gSegs g ++ [mkSegm (wId w) i lastId last nid n]).
(** 705-734 *)
Definition wayStep (noHup has : nat -> bool) (w : way) (s : graph * option (nat * nat)) (nid : nat) : graph * option (nat * nat) :=
  let (g, last) := s in
  match nodeFor noHup has g nid with
  | None => s
  | Some (n, g) => (match last with Some (lastId, l) => addEdge w g lastId l nid n | None => g end, Some (nid, n))
  end.
(** 695-734 *)
Definition wayEdges (noHup has : nat -> bool) (g : graph) (w : way) : graph := fst (fold_left (wayStep noHup has w) (wNodes w) (g, None)).
(** 693-735 *)
Definition readEdges (noHup has : nat -> bool) (ws : list way) : graph := fold_left (wayEdges noHup has) ws emptyGraph.
End Edges.

(** ** 841-888 [readNodes]: the position and state of graph nodes *)
Section Payload.
Context {SI : Type}.
Variable statInfo : nat -> attrmap -> option SI.      (* getStatInfo *)
Variable station blocker turnCycle : attrmap -> bool.
Inductive nstate := Plain | Blocker | Turn | Station (i : SI).
Record payload := mkPay { pPos : option P; pState : nstate }.
Record ngraph := mkNG { ngSize : nat; ngPay : nat -> payload; orphans : list nat }.
Definition setPay (f : nat -> payload) (n : nat) (p : payload) : nat -> payload := fun x => if x =? n then p else f x.
(** 855-863 *)
Definition fill (nd : node) (p : payload) : payload :=
  mkPay (nPos nd)
    (if station (nAttrs nd) then match statInfo (nId nd) (nAttrs nd) with Some i => Station i | None => pState p end
     else if blocker (nAttrs nd) then Blocker else if turnCycle (nAttrs nd) then Turn else pState p).
(** 851-886 *)
Definition readNode (g : graph) (s : ngraph) (nd : node) : ngraph :=
  match lookup (gNodes g) (nId nd) with
  | Some n => mkNG (ngSize s) (setPay (ngPay s) n (fill nd (ngPay s n))) (orphans s)
  | None =>
      match map snd (filter (fun x => fst x =? nId nd) (gMult g)) with
      | [] => if station (nAttrs nd)
              then mkNG (S (ngSize s)) (setPay (ngPay s) (ngSize s) (mkPay (nPos nd) (match statInfo (nId nd) (nAttrs nd) with Some i => Station i | None => Plain end)))
                     (match statInfo (nId nd) (nAttrs nd) with Some _ => orphans s ++ [ngSize s] | None => orphans s end)
              else s
      | ns => mkNG (ngSize s) (fold_left (fun f n => setPay f n (fill nd (f n))) ns (ngPay s)) (orphans s)
      end
  end.
Definition readNodes (g : graph) (nds : list node) : ngraph := fold_left (readNode g) nds (mkNG (gSize g) (fun _ => mkPay None Plain) []).
End Payload.

(** ** The passes of [read], 100-121.  [c0], [r0]: the state of the parser at the beginning;
    [n]: a bound on the rounds of the loops. *)
Record cfg := mkCfg {
  inBox : P -> bool; nohupF : string -> string -> bool;
  keysN : string -> bool; keysW : string -> bool; keysR : string -> bool;
  keepN : attrmap -> bool; dropN : attrmap -> bool; keepW : attrmap -> bool; dropW : attrmap -> bool; keepR : attrmap -> N; dropR : attrmap -> N;
  posR : attrmap -> bool; negR : attrmap -> bool;
  otherBox : nat -> bool; otherHup : nat -> bool     (* the answers of the id sets for other ids *)
}.
Definition hasBox (c : cfg) (b : bb) : nat -> bool := idHas (bIn b) (bOut b) (otherBox c).
Definition hasHup (c : cfg) (b : bb) : nat -> bool := idHas (bNohup b) [] (otherHup c).
Definition keepWayOf (c : cfg) (b : bb) (rs : rels) : way -> bool :=
  keepWay (fun id => relKeep id (wayRels rs) (flat rs)) (keepW c) (dropW c) (hasBox c b).
Definition keepNodeOf (c : cfg) (b : bb) (rs : rels) (mult : nat -> bool) (known : list nat) : node -> bool :=
  keepNode (fun id => mem id known) mult (fun id => relKeep id (nodeRels rs) (flat rs)) (keepN c) (dropN c) (hasBox c b).
(** Relations, ways and nodes that are read; [readGraph], [readPay]: what is made of them. *)
Definition readFile (c : cfg) (readGraph : bb -> rels -> list way -> graph) (n : nat) (x0 : xml) : option (rels * list way * graph * list node) :=
  let nodeBeg := skipUntil isNode (cur x0) (rest x0) in
  let (b, edgesBeg) := readBBoxNds (inBox c) (nohupF c) (cur nodeBeg) (rest nodeBeg) false 0 (mkBB [] [] []) in
  let x := skipUntil isRel (cur edgesBeg) (rest edgesBeg) in
  match readRels (keysR c) (keepR c) (dropR c) (posR c) (negR c) n x with
  | None => None
  | Some (rs, _) =>
      match readWays (keysW c) (keepWayOf c b rs) n edgesBeg with
      | None => None
      | Some (ws, _) =>
          let g := readGraph b rs ws in
          match readNds (keysN c) false (keepNodeOf c b rs (fun id => mem id (map fst (gMult g)))) n (map fst (gNodes g)) nodeBeg with
          | None => None
          | Some (nds, _, _) => Some (rs, ws, g, nds)
          end
      end
  end.

(** ** [filterWrite], 399-419 *)
Inductive out := ONode (n : node) | OWay (w : way) | ORel (id : nat) (nodes ways : list (nat * string)) (a : attrmap).
(** 487-509 [readWriteWays]; [None]: the assertion fails *)
Fixpoint readWriteWays (keys : string -> bool) (ids : list nat) (x : xml) : option (list out * xml) :=
  match ids with
  | [] => Some ([], x)
  | id :: r =>
      let (w, x') := nextWayWithId keys id (cur x) (rest x) noWay in
      if wId w =? 0 then None else match readWriteWays keys r x' with None => None | Some (os, x'') => Some (OWay (mkWay id (wNodes w) (wAttrs w)) :: os, x'') end
  end.
(** 425-484 [readWriteRels]: the sorted list of ways is searched *)
Definition writeRel (ways known : list nat) (r : rel) : list out :=
  let ns := filter (fun m => mem (fst m) known) (rNodes r) in
  let ws := filter (fun m => mem (fst m) ways) (rWays r) in
  match ns, ws with [], [] => [] | _, _ => [ORel (rId r) ns ws (rAttrs r)] end.
Definition filterWrite (c : cfg) (n : nat) (x0 : xml) : option (list out) :=
  let nodeBeg := skipUntil isNode (cur x0) (rest x0) in
  let (b, edgesBeg) := readBBoxNds (inBox c) (nohupF c) (cur nodeBeg) (rest nodeBeg) false 0 (mkBB [] [] []) in
  let x := skipUntil isRel (cur edgesBeg) (rest edgesBeg) in
  match readRels (keysR c) (keepR c) (dropR c) (posR c) (negR c) n x with
  | None => None
  | Some (rs, _) =>
      match readWays (keysW c) (keepWayOf c b rs) n edgesBeg with
      | None => None
      | Some (ws, _) =>
          match readNds (keysN c) true (keepNodeOf c b rs (fun _ => false)) n (flat_map wNodes ws) nodeBeg with
          | None => None
          | Some (nds, known, x1) =>
              match readWriteWays (keysW c) (map wId ws) x1 with
              | None => None
              | Some (os, x2) =>
                  let x3 := skipUntil isRel (cur x2) (rest x2) in
                  match readRelList (keysR c) (keepR c) (dropR c) n x3 with
                  | None => None
                  | Some (rl, _) => Some (map ONode nds ++ os ++ flat_map (writeRel (map wId ws) known) rl)
                  end
              end
          end
      end
  end.
End OsmRead.
