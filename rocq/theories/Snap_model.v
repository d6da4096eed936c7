(** Model of the snapping of stations to edges.
    Source: /repo/src/pfaedle/osm/OsmBuilder.cpp:52-54 (EqSearch), 1196-1259 (depthSearch),
    1262-1271 (isBlocked, eqStatReach), 1274-1290 (getEdgCands), 1293-1356 (snapStation),
    1853-1867 (snapStats), OsmBuilder.h:48-76 (NodeCand, BlockSearch, operator<).

    Simplifications.
    - Distances are integers (finite doubles are multiples of one number); their addition is an
      oracle [plus], so rounding is any.  Positions, haversine, projectOn and the test of
      the angle (innerProd < minAngle) are oracles.
    - std::priority_queue<NodeCand>: a list, and an oracle [pick] for top and pop.
    - Loops have a bound on the rounds; [None]: not within the bound (shown not to happen).
    - Edges have an identity (their address), the two adjacency lists of a node have any order
      [ord].  addEdg with a new node always makes an edge; delEdg(from, to) deletes what
      runs from node to node (the graph has at most one such edge).  Costs of the two new edges
      (OsmBuilder.cpp:1332-1333, 1337-1338) are left out: writeGeoms overwrites them (1113-1114).
      The grid of edges is the list of edges, the grid of stations (sng) is never read.
    - The edges near a station (getEdgCands: in the grid, distance at most d, nearest first)
      are an oracle [cands]. *)
From Coq Require Import List Arith ZArith Bool.
Import ListNotations.
Open Scope nat_scope.

(** ** OsmBuilder.cpp:1196-1259 [depthSearch] *)
Section Search.
Variable efrom eto : nat -> nat.
Variable adjIn adjOut : nat -> list nat.
Variable dp : nat -> Z.                       (* haversine(node, p) *)
Variable len : nat -> Z.                      (* dist(e->getFrom(), e->getTo()) *)
Variable plus : Z -> Z -> Z.
Variable sharp : nat -> nat -> nat -> bool.   (* node, node before, node after: innerProd < minAngle *)
Variable sf : nat -> bool.                    (* sfunc( . , si) *)
Variable maxD maxTurns : Z.
(** OsmBuilder.h:48-53 *)
Record cand := mkCand { cDist : Z; cNode : nat; cEdge : nat; cTurns : Z }.
(** OsmBuilder.h:72-74 [operator<] *)
Definition candLt (a b : cand) : bool := (cTurns b <? cTurns a)%Z || (cDist b <? cDist a)%Z.
Variable pick : list cand -> option (cand * list cand).

Definition mem (x : nat) (l : list nat) : bool := existsb (Nat.eqb x) l.
Definition deg (n : nat) : nat := length (adjIn n) + length (adjOut n).
(** Edge::getOtherNd *)
Definition other (e n : nat) : nat := if efrom e =? n then eto e else efrom e.
(** 1232-1242: the full turn; fromEdge is never null *)
Definition turnAt (c : cand) (m : nat) : Z := if (2 <? deg (cNode c)) && sharp (cNode c) (other (cEdge c) (cNode c)) m then 1%Z else 0%Z.
(** 1218-1255: the loop over the edges of a node; [inl]: returned *)
Fixpoint expand (c : cand) (closed : list nat) (l : list (nat * nat)) (pq : list cand) : nat + list cand :=
  match l with
  | [] => inr pq
  | (edg, m) :: r =>
      if m =? cNode c then expand c closed r pq
      else let k := (cTurns c + turnAt c m)%Z in
           let d := plus (cDist c) (len edg) in
           if ((maxTurns <? 0)%Z || (k <=? maxTurns)%Z) && (d <? maxD)%Z && negb (mem m closed)
           then if sf m then inl m else expand c closed r (pq ++ [mkCand d m edg k])
           else expand c closed r pq
  end.
(** 1218-1228: candidate edges and nodes *)
Definition around (n : nat) : list (nat * nat) := map (fun e => (e, efrom e)) (adjIn n) ++ map (fun e => (e, eto e)) (adjOut n).
(** 1212-1258 *)
Fixpoint search (fuel : nat) (pq : list cand) (closed : list nat) : option (option nat) :=
  match fuel with
  | O => None
  | S fuel =>
      match pick pq with
      | None => Some None
      | Some (c, pq) =>
          if mem (cNode c) closed then search fuel pq closed
          else match expand c (cNode c :: closed) (around (cNode c)) pq with
               | inl m => Some (Some m)
               | inr pq => search fuel pq (cNode c :: closed)
               end
      end
  end.
(** 1196-1210 *)
Definition depthSearch (fuel : nat) (e : nat) : option (option nat) :=
  if (maxD <? dp (efrom e))%Z && (maxD <? dp (eto e))%Z then Some None
  else if (dp (efrom e) <=? maxD)%Z && sf (efrom e) then Some (Some (efrom e))
  else if (dp (eto e) <=? maxD)%Z && sf (eto e) then Some (Some (eto e))
  else search fuel (mkCand (dp (efrom e)) (efrom e) e 0 :: if efrom e =? eto e then [] else [mkCand (dp (eto e)) (eto e) e 0]) [].
End Search.

(** ** Snapping *)
Section Snap.
Context {P I PL : Type}.                     (* positions, station infos, payloads of edges *)
Record edge := mkEdge { eId : nat; eFrom : nat; eTo : nat; ePl : PL }.
Inductive nstate := Plain | Blocker | Turn | Station (k : nat).    (* k: number of the station info, NodePL::_si *)
Record st := mkSt {
  size : nat;                                (* nodes are 0 .. size - 1 *)
  geo : nat -> P; state : nat -> nstate;
  infos : list I;                            (* NodePL::_statInfos *)
  edges : list edge; nextE : nat;
  told : list (nat * nat * nat)              (* the calls of Restrictor::replaceEdge: old, new, new *)
}.
Variable hav : P -> P -> Z.
Variable half five : Z.                      (* .5 and 5 *)
Variable plus : Z -> Z -> Z.
Variable project : P -> P -> P -> P.         (* projectOn(from, p, to) *)
Variable sharpAt : P -> P -> P -> bool.      (* innerProd(node, from, to) < opts.maxAngleSnapReach *)
Variable lvl : PL -> nat.
Variable maxSnapLevel : nat.
Variable maxBlockDistance : Z.
Variable simiEq simiLow : I -> I -> bool.    (* simi > 0.9, simi < 0.5 *)
Variable noTrack : I -> bool.
Variable takeTrack : I -> I -> I.            (* takeTrack a b: a with the track of b *)
Variable pick : list cand -> option (cand * list cand).
Variable ord : list edge -> list edge.

Definition upd {A : Type} (f : nat -> A) (k : nat) (v : A) : nat -> A := fun x => if x =? k then v else f x.
Fixpoint updInfo (l : list I) (k : nat) (f : I -> I) : list I := match l, k with [], _ => [] | x :: r, O => f x :: r | x :: r, S k => x :: updInfo r k f end.
(** NodePL.cpp:113-118 [getSI] *)
Definition getSI (s : st) (n : nat) : option I := match state s n with Station k => nth_error (infos s) k | _ => None end.
Definition isBlocker (s : st) (n : nat) : bool := match state s n with Blocker => true | _ => false end.
Definition hasSI (s : st) (n : nat) : bool := match getSI s n with Some _ => true | None => false end.
Definition findE (s : st) (i : nat) : option edge := find (fun e => eId e =? i) (edges s).
Definition fromOf (s : st) (i : nat) : nat := match findE s i with Some e => eFrom e | None => 0 end.
Definition toOf (s : st) (i : nat) : nat := match findE s i with Some e => eTo e | None => 0 end.
(** OsmBuilder.cpp:52-54 [EqSearch], OsmBuilder.h:65-70 [BlockSearch] *)
Definition eqSearch (s : st) (i : I) (n : nat) : bool := match getSI s n with Some j => simiEq j i | None => false end.
Definition blockSearch (s : st) (i : I) (n : nat) : bool := match getSI s n with Some j => if simiLow j i then true else isBlocker s n | None => isBlocker s n end.
(** [depthSearch] in the graph, with maxFullTurns = 0 *)
Definition searchIn (s : st) (sf : nat -> bool) (p : P) (maxD : Z) (e : nat) : option (option nat) :=
  depthSearch (fromOf s) (toOf s)
    (fun n => map eId (ord (filter (fun e => eTo e =? n) (edges s)))) (fun n => map eId (ord (filter (fun e => eFrom e =? n) (edges s))))
    (fun n => hav (geo s n) p) (fun e => hav (geo s (fromOf s e)) (geo s (toOf s e))) plus
    (fun n a b => sharpAt (geo s n) (geo s a) (geo s b)) sf maxD 0 pick (3 + 2 * length (edges s)) e.

(** NodePL.cpp:107-110 [setSI] *)
Definition setSI (s : st) (n : nat) (i : I) : st :=
  mkSt (size s) (geo s) (upd (state s) n (Station (length (infos s)))) (infos s ++ [i]) (edges s) (nextE s) (told s).
(** 1327-1345: a new node on the edge; [k]: the station info of the station, which is shared *)
Definition split (s : st) (e : edge) (p : P) (k : nat) : st :=
  let n := size s in
  let ne := mkEdge (nextE s) (eFrom e) n (ePl e) in
  let nf := mkEdge (S (nextE s)) n (eTo e) (ePl e) in
  mkSt (S n) (upd (geo s) n p) (upd (state s) n (Station k)) (infos s)
    (filter (fun x => negb ((eFrom x =? eFrom e) && (eTo x =? eTo e))) (edges s ++ [ne; nf])) (S (S (nextE s))) (told s ++ [(eId e, nextE s, S (nextE s))]).
(** 1303-1354: one candidate edge; [g], [k]: position and station info of the NodePL s.
    1327: the position of s is moved. *)
Definition snapEdge (d2 : Z) (k : nat) (x : st * P) (c : nat) : option (st * P) :=
  let (s, g) := x in
  match findE s c, nth_error (infos s) k with
  | Some e, Some i =>
      let geom := project (geo s (eFrom e)) g (geo s (eTo e)) in
      match searchIn s (eqSearch s i) geom d2 c with
      | None => None
      | Some None =>
          if maxSnapLevel <? lvl (ePl e) then Some x
          else match searchIn s (blockSearch s i) geom maxBlockDistance c with
               | None => None
               | Some (Some _) => Some x
               | Some None =>
                   if negb (hasSI s (eFrom e)) && (hav geom (geo s (eFrom e)) <? half)%Z then Some (setSI s (eFrom e) i, g)
                   else if negb (hasSI s (eTo e)) && (hav geom (geo s (eTo e)) <? half)%Z then Some (setSI s (eTo e) i, g)
                   else Some (split s e geom k, geom)
               end
      | Some (Some eq) =>
          if (hav g (geo s eq) <? five)%Z
          then match getSI s eq, state s eq with
               | Some j, Station kk => Some (if noTrack j then mkSt (size s) (geo s) (state s) (updInfo (infos s) kk (fun j => takeTrack j i)) (edges s) (nextE s) (told s) else s, g)
               | _, _ => None                (* null pointer *)
               end
          else Some x
      end
  | _, _ => None                             (* dead edge or no station *)
  end.
Fixpoint snapEdges (d2 : Z) (k : nat) (x : st * P) (cs : list nat) : option (st * P) :=
  match cs with [] => Some x | c :: r => match snapEdge d2 k x c with None => None | Some x => snapEdges d2 k x r end end.
(** 1293-1356 [snapStation] for station node [n]; [cands s g d]: getEdgCands; the distance of the search is 2 * d *)
Variable cands : st -> P -> Z -> list nat.
Definition snapStation (s : st) (n : nat) (d : Z) : option st :=
  match state s n with
  | Station k => match snapEdges (2 * d) k (s, geo s n) (cands s (geo s n) d) with None => None | Some (s, _) => Some s end
  | _ => None                                (* the assertion fails *)
  end.
(** 1853-1867 [snapStats]: all distances, all stations *)
Fixpoint snapAll (s : st) (l : list (Z * nat)) : option st :=
  match l with [] => Some s | (d, n) :: r => match snapStation s n d with None => None | Some s => snapAll s r end end.
Definition snapStats (s : st) (ds : list Z) (stations : list nat) : option st := snapAll s (flat_map (fun d => map (fun n => (d, n)) stations) ds).
End Snap.
