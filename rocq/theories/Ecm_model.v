(** Model of the candidates of a stop and of the candidate lists of a trip trie.
    Source: /repo/src/pfaedle/router/ShapeBuilder.cpp:156-311 (getEdgCands,
    deg2reachable), 770-851 (getECM, timePen, timeExpand), Router.tpp:107-113 (choice of
    the hop engine), TripTrie.h:27-28 (accTime is an int, trips a size_t).

    Simplifications.
    - Penalties are values of the abstract cost type [C]; [ofQ] is the conversion of a
      real number (with whatever rounding), [add] the addition.
    - The grid queries, distances, projections and name comparisons are given: a station
      node is a record of what is read of it, an edge near the stop has a distance and a
      projection.  Gaussian noise (174-187) moves the position used for these queries
      and is part of them.  The candidate cache (157-158) is left out: it maps a stop to the
      result of this function.
    - [std::set<Edge*>] is a list of edges; its iteration order is the oracle [enum].
    - A conversion of a double beyond the range of int and an erased end iterator are
      the outcome [None] (undefined behaviour). *)
From Coq Require Import List Arith ZArith QArith Bool String.
From Verif Require Import ListAux HopCache_model TripTrie_model Router_model Hops_model.
Import ListNotations.
Open Scope nat_scope.

Section Cands.
Variable C : Type.
Variable add : C -> C -> C.
Variable ofQ : Q -> C.
Variable P : Type.
Variable p0 : P.                        (* POINT() *)
Notation E := edge.
Notation cand := (cand C E P).
Notation mkCand := (mkCand C E P).

(** *** deg2reachable *)
Variable eFr eTo : E -> nat.
Variable deg : nat -> nat.
Variable outF outB inF inB : nat -> E.  (* front / back of an adjacency list *)
Variable oneWay : E -> nat.

(** [edgs.count(e)]. *)
Definition mem (e : E) (s : list E) : bool := existsb (Nat.eqb e) s.
(** ShapeBuilder.cpp:289-291 and 301-303: both depend on [e] only. *)
Definition nextFw (e : E) : E := if eTo (outF (eTo e)) =? eFr e then outB (eTo e) else outF (eTo e).
Definition nextBw (e : E) : E := if eFr (inF (eFr e)) =? eTo e then inB (eFr e) else inF (eFr e).
(** ShapeBuilder.cpp:287-296, 299-308: [inl r]: returned [r]; [inr cur]: left the loop. *)
Fixpoint fwLoop (fuel : nat) (e cur : E) (s : list E) : option (E + E) :=
  match fuel with
  | 0 => None
  | S k =>
      if deg (eTo cur) =? 2 then
        let next := nextFw e in
        if (next =? e) || (next =? cur) then Some (inr cur)
        else if oneWay next =? 2 then Some (inr cur)
        else if mem next s then Some (inl next)
        else fwLoop k e next s
      else Some (inr cur)
  end.
Fixpoint bwLoop (fuel : nat) (e cur : E) (s : list E) : option (E + E) :=
  match fuel with
  | 0 => None
  | S k =>
      if deg (eFr cur) =? 2 then
        let next := nextBw e in
        if (next =? e) || (next =? cur) then Some (inr cur)
        else if oneWay next =? 2 then Some (inr cur)
        else if mem cur s then Some (inl next)
        else bwLoop k e next s
      else Some (inr cur)
  end.
(** ShapeBuilder.cpp:282-311; the second loop goes on from where the first one ended.
    [None]: a loop does not end (shown not to happen). *)
Definition deg2reachable (e : E) (s : list E) : option (option E) :=
  match fwLoop 3 e e s with
  | None => None
  | Some (inl r) => Some (Some r)
  | Some (inr cur) =>
      match bwLoop 3 e cur s with
      | None => None
      | Some (inl r) => Some (Some r)
      | Some (inr _) => Some None
      end
  end.

(** *** buildIndex *)
(** ShapeBuilder.cpp:88-97: the edges put into the edge grid; a grid query returns some of
    these.  [nodes]: the nodes of the graph, [adj]: their outgoing edges. *)
Definition indexEdges (maxLvl : nat) (lvl : E -> nat) (nodes : list nat) (adj : nat -> list E) : list E :=
  flat_map (fun n => flat_map (fun e => if maxLvl <? lvl e then [] else if oneWay e =? 2 then [] else [e]) (adj n)) nodes.

(** *** getEdgCands *)
Variable enum : list E -> list E.
(** Misc.h:46-54 and OsmReadOpts: the options read. *)
Variables maxStat maxSnap : Q.
Variables statPen platPen nonStatPen : Q.
Variable useStations : bool.
Variable em : Q -> Q.                   (* emWeight, ShapeBuilder.cpp:1263-1274 *)

(** A station node in the grid cells around the stop: distance, does the name match, its
    track, its outgoing edges. *)
Record statNd := mkStat { sdDist : Q; sdSim : bool; sdTrack : string; sdOut : list E }.
(** ShapeBuilder.cpp:194-227. *)
Definition statCands (platform : string) (sts : list statNd) : list cand :=
  flat_map (fun nd =>
    if Qltb maxStat (sdDist nd) then []
    else
      let nameP := if sdSim nd then 0%Q else statPen in
      let trackP := if negb (String.eqb platform "") && negb (String.eqb (sdTrack nd) "") &&
                       String.eqb (sdTrack nd) platform then platPen else 0%Q in
      flat_map (fun e => if oneWay e =? 2 then []
                         else [mkCand (Some e) (ofQ (em (sdDist nd) + nameP + trackP)%Q) 0%Q p0 0%Z []]) (sdOut nd)) sts.

(** ShapeBuilder.cpp:236-238. *)
Record snap := mkSnap { sel : list E; score : E -> option Q; progr : E -> Q }.
(** Assignment to a map entry. *)
Definition setE {A} (f : E -> A) (k : E) (v : A) : E -> A := fun x => if x =? k then v else f x.
Variable edist : E -> Q.                (* distance of the stop to the edge in meters *)
Variable eproj : E -> Q.                (* projectOn(pos).totalPos *)
Variable isRev : E -> bool.
(** ShapeBuilder.cpp:254-260. *)
Definition select (st : snap) (e : E) : snap :=
  mkSnap (e :: sel st) (setE (score st) e (Some (edist e)))
    (setE (progr st) e (if isRev e then 1 - eproj e else eproj e)%Q).
(** ShapeBuilder.cpp:240-262: one edge of the grid. *)
Definition snapStep (st : snap) (e : E) : option snap :=
  if mem e (sel st) then Some st
  else match deg2reachable e (sel st) with
       | None => None
       | Some r =>
           if Qltb maxSnap (edist e) then Some st
           else match r with
                | None => Some (select st e)
                | Some x =>
                    (* scores[reach] inserts 0 *)
                    let v := match score st x with Some q => q | None => 0%Q end in
                    let st1 := mkSnap (sel st) (setE (score st) x (Some v)) (progr st) in
                    if Qltb (edist e) v then
                      if mem x (sel st)
                      then Some (select (mkSnap (filter (fun y => negb (y =? x)) (sel st))
                                                (setE (score st1) x None) (progr st1)) e)
                      else None
                    else Some st1
                end
       end.
(** ShapeBuilder.cpp:240: the loop. *)
Fixpoint snapLoop (st : snap) (es : list E) : option snap :=
  match es with
  | [] => Some st
  | e :: t => match snapStep st e with None => None | Some st1 => snapLoop st1 t end
  end.
(** ShapeBuilder.cpp:264-271. *)
Definition snapCands (st : snap) : list cand :=
  map (fun e => mkCand (Some e) (ofQ (em (match score st e with Some q => q | None => 0 end) + nonStatPen)%Q) (progr st e) p0 0%Z [])
      (enum (sel st)).
(** ShapeBuilder.cpp:156-279 [getEdgCands]. *)
Definition getEdgCands (p : P) (platform : string) (sts : list statNd) (es : list E) : option (list cand) :=
  match snapLoop (mkSnap [] (fun _ => None) (fun _ => 0%Q)) es with
  | None => None
  | Some st => Some (mkCand None (ofQ 0) 0%Q p 0%Z [] :: (if useStations then statCands platform sts else []) ++ snapCands st)
  end.

(** *** getECM *)
Variables pos attrs : Type.
Notation node := (node pos attrs).

(** The largest int. *)
Definition INT_MAX : Z := 2147483647.
(** ShapeBuilder.cpp:780-782, 794-795: int divided by size_t, i.e. in 64-bit unsigned
    arithmetic, then converted to double and (788, 805) to int. *)
Definition avgT (nd : node) : Z :=
  match nTrips _ _ nd with
  | 0 => 0%Z
  | S _ => ((nAcc _ _ nd mod 2 ^ 64) / Z.of_nat (nTrips _ _ nd))%Z
  end.
(** ShapeBuilder.cpp:827-835. *)
Definition timePen (candTime schedTime : Z) : C :=
  let n := (inject_Z (Z.abs (candTime - schedTime)) / 300)%Q in ofQ (n * n)%Q.
(** ShapeBuilder.cpp:838-851. *)
Definition timeExpand (c : cand) (t : Z) : list cand :=
  [mkCand (cE _ _ _ c) (add (cPen _ _ _ c) (timePen t t)) (cProgr _ _ _ c) (cPoint _ _ _ c) t (cPrede _ _ _ c)].
(** ShapeBuilder.cpp:800-815: the departures of one expanded candidate; [base] is
    [ecm[nid].size()]. *)
Definition depCands (base : nat) (exp : list cand) (diff avgC : Z) : list cand :=
  map (fun c =>
    let t := (cTime _ _ _ c + diff)%Z in
    mkCand (cE _ _ _ c) (timePen (cTime _ _ _ c) avgC) (cProgr _ _ _ c) (cPoint _ _ _ c) t
      (cPrede _ _ _ c ++
       map (fun x => fst x + base) (filter (fun x => (cTime _ _ _ (snd x) <=? t)%Z) (indexed exp)))) exp.

Variable tnds : list node.
Variable cands : stop pos -> option (list cand).   (* getEdgCands of a stop *)

(** ShapeBuilder.cpp:791-816: the children of a node for one candidate. *)
Fixpoint childCands (ecm : list (list cand)) (nid : nat) (exp : list cand) (avg : Z) (chs : list nat)
    : option (list (list cand)) :=
  match chs with
  | [] => Some ecm
  | ch :: t =>
      match nth_error tnds ch, nth_error ecm nid with
      | Some nd, Some own =>
          let avgC := avgT nd in
          let diff := Z.max 0 (avgC - avg) in
          if (avgC <=? INT_MAX)%Z && (ch <? List.length ecm)
          then childCands (upd ch (fun l => l ++ depCands (List.length own) exp diff avgC) ecm) nid exp avg t
          else None
      | _, _ => None
      end
  end.
(** ShapeBuilder.cpp:787-818. *)
Fixpoint candLoop (ecm : list (list cand)) (nid : nat) (avg : Z) (chs : list nat) (cs : list cand)
    : option (list (list cand)) :=
  match cs with
  | [] => Some ecm
  | c :: t =>
      if (avg <=? INT_MAX)%Z then
        let exp := timeExpand c avg in
        match childCands ecm nid exp avg (if nid =? 1 then [] else chs) with
        | None => None
        | Some ecm1 => candLoop (upd nid (fun l => l ++ exp) ecm1) nid avg chs t
        end
      else None
  end.
(** ShapeBuilder.cpp:774-821: one node. *)
Definition ecmNode (ecm : list (list cand)) (nid : nat) : option (list (list cand)) :=
  match nth_error tnds nid with
  | None => None
  | Some nd =>
      if negb (nid =? 1) && negb (nArr _ _ nd) then Some ecm
      else match nRepr _ _ nd with
           | None => None
           | Some s => match cands s with
                       | None => None
                       | Some cs => candLoop ecm nid (avgT nd) (nChilds _ _ nd) cs
                       end
           end
  end.
(** ShapeBuilder.cpp:774: the loop over the nodes. *)
Fixpoint ecmLoop (ecm : list (list cand)) (nids : list nat) : option (list (list cand)) :=
  match nids with
  | [] => Some ecm
  | n :: t => match ecmNode ecm n with None => None | Some ecm1 => ecmLoop ecm1 t end
  end.
(** ShapeBuilder.cpp:770-824 [getECM]. *)
Definition getECM : option (list (list cand)) :=
  ecmLoop (repeat [] (List.length tnds)) (seq 1 (List.length tnds - 1)).
End Cands.

(** *** The hop engines as used by the router *)
Section Ask.
Context {C P pos attrs : Type}.
Variable tnds : list (node pos attrs).
Variable ecm : list (list (cand C edge P)).
Variable invWeight : C -> option Z.     (* None: infinite; TW::invWeight *)
(** Router.tpp:286-287, 316: the oracles of the hop engines depend on the attributes of
    the target node. *)
Variable enum : list edge -> list edge.
Variable ecost : nat -> edge -> Z.
Variable len : edge -> Q.
Variable compF compT : edge -> nat.
Variable search : nat -> edge -> list edge -> Z -> edge -> Z * list edge.
Variable searchN : nat -> list edge -> list edge -> (edge -> Z) -> Z -> Z -> list (edge * (edge * Z)).
Variable needDist allowsFast noFastHops : bool.
(** What the hop engines read of a candidate. *)
Definition asP (c : cand C edge P) : pcand := (cE _ _ _ c, cProgr _ _ _ c).
(** Router.tpp:107-113. *)
Definition askHops (hc : option cache) (p n : nat) (cs : list C) (lim : Z) : list ans * option cache :=
  let froms := nth p ecm [] in
  let tos := nth n ecm [] in
  if noFastHops || negb allowsFast
  then hops enum (ecost n) len compF compT (search n) needDist hc (map asP froms) (map asP tos) lim
  else hopsFast enum (ecost n) compF (searchN n) hc
         (combine (map asP froms) (map invWeight cs)) (map asP tos) lim.
End Ask.
