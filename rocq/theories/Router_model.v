(** Model of [RouterImpl::route]: the dynamic program over the trip trie and the
    retrieval of the chosen hops.
    Source: /repo/src/pfaedle/router/Router.tpp:24-280, Misc.h:26-36 (EdgeCand),
    Misc.h:98-112 (EdgeListHop), Router.h:32-36 (constants).

    Simplifications.
    - Costs (double) are an abstract type [C] with the comparison [lt], the
      addition [add] and the value [inf] (DBL_INF); the theorems state which laws
      of these they use.  Times are integers, as in EdgeCand.
    - The calls of [hops]/[hopsFast] (Router.tpp:126-132) are the oracle [ask]: it
      sees the cache state, the two trie nodes, the costs of the source layer and
      the limit, and returns the entries appended to [costM]/[dists] and a new
      cache state.  [TW::weight], [TW::maxCost] of the hop time, the cost
      function on a start edge and the point-to-point search are oracles, too.
    - Accesses outside a vector and [.at] exceptions are the outcome [None].
    - [rLog] is not in the code: it records what was asked and answered so that
      the theorems can talk about it.
    - [ret] is a std::map in which a leaf without hops has no entry; here such a
      leaf has the entry []. *)
From Coq Require Import List Arith ZArith QArith Qround Bool Lia.
From Verif Require Import ListAux HopCache_model TripTrie_model.
Import ListNotations.
Open Scope nat_scope.

Section Router.
Variables pos attrs : Type.
Variable C : Type.
Variable lt : C -> C -> bool.
Variable add : C -> C -> C.
Variable inf : C.
Variables E P : Type.
Variable p0 : P.
Variable St : Type.

(** Misc.h:26-33. *)
Record cand := mkCand {
  cE : option E; cPen : C; cProgr : Q; cPoint : P; cTime : Z; cPrede : list nat }.
(** An entry of [costM] with the entry of [dists] at the same place: from, to,
    cost, distance. *)
Record ans := mkAns { aFr : nat; aTo : nat; aC : Z; aD : Z }.

Variable ask : St -> nat -> nat -> list C -> Z -> list ans * St.
Variable weight : nat -> nat -> Z -> Z -> Z -> C.   (* from node, to node, c, dist, time *)
Variable ofZ : Z -> C.
Variable limit0 : nat -> nat -> Z.                  (* TW::maxCost(hopTime) *)
Variable startCost : nat -> E -> Z.                 (* costPr(e, 0, 0) for the hop to a node *)
Variable spath : nat -> E -> E -> Z -> Z * list E.  (* EDijkstra::shortestPath *)

Notation node := (node pos attrs).
Variable tnds : list node.
Variable ecm : list (list cand).

(** One layer: costsDAG[nid] and predeDAG[nid] side by side. *)
Definition layer := list (C * option nat).
(** An attempt to improve target [tTo] from source [tFr] by adding [tAdds]. *)
Record trans := mkTrans { tFr : nat; tTo : nat; tAdds : list C }.

(** Router.tpp:153-158 (and 76-80, 175-178, 191-194): one attempt. *)
Definition relax (fr to : layer) (t : trans) : option (layer * bool) :=
  match nth_error fr (tFr t), nth_error to (tTo t) with
  | Some (cf, _), Some (ct, _) =>
      let newC := fold_left add (tAdds t) cf in
      if lt newC ct then Some (upd (tTo t) (fun _ => (newC, Some (tFr t))) to, true)
      else Some (to, false)
  | _, _ => None
  end.
Fixpoint relaxAll (fr to : layer) (ts : list trans) : option (layer * bool) :=
  match ts with
  | [] => Some (to, false)
  | t :: r => match relax fr to t with
              | None => None
              | Some (to1, b1) => match relaxAll fr to1 r with
                                  | None => None
                                  | Some (to2, b2) => Some (to2, b1 || b2)
                                  end
              end
  end.

(** Router.tpp:71-82: transitions inside a stop. *)
Definition inNode (toC : list cand) : list trans :=
  concat (map (fun x => map (fun f => mkTrans f (fst x) [cPen (snd x)]) (cPrede (snd x)))
              (combine (seq 0 (List.length toC)) toC)).

(** Router.tpp:134-154: the attempts for the current [costM]. *)
Fixpoint hopTrans (frNid toNid : nat) (frC toC : list cand) (costM : list ans) : option (list trans) :=
  match costM with
  | [] => Some []
  | a :: r =>
      match nth_error frC (aFr a), nth_error toC (aTo a), hopTrans frNid toNid frC toC r with
      | Some cf, Some ct, Some ts =>
          Some (mkTrans (aFr a) (aTo a)
                  [cPen ct; weight frNid toNid (aC a) (aD a) (cTime ct - cTime cf)%Z] :: ts)
      | _, _, _ => None
      end
  end.

(** Router.tpp:117-167: at most four rounds; [costM] keeps the entries of the
    earlier rounds.  [maxCost]: the limit of the last round. *)
Record dres := mkDres { dSt : St; dLay : layer; dMax : Z; dFound : bool; dTrace : list (Z * list ans) }.
Fixpoint doubling (k : nat) (frNid toNid : nat) (frC toC : list cand) (frL : layer)
    (s : St) (costM : list ans) (toL : layer) (maxCost newMax : Z) : option dres :=
  match k with
  | 0 => Some (mkDres s toL maxCost false [])
  | S k' =>
      let '(a, s1) := ask s frNid toNid (map fst frL) newMax in
      let costM1 := costM ++ a in
      match hopTrans frNid toNid frC toC costM1 with
      | None => None
      | Some ts =>
          match relaxAll frL toL ts with
          | None => None
          | Some (toL1, found) =>
              let newMax1 := (if newMax <=? u32max / 2 then newMax * 2 else u32max)%Z in
              if found then Some (mkDres s1 toL1 newMax true [(newMax, a)])
              else if (newMax1 =? newMax)%Z then Some (mkDres s1 toL1 newMax false [(newMax, a)])
              else match doubling k' frNid toNid frC toC frL s1 costM1 toL1 newMax newMax1 with
                   | None => None
                   | Some d => Some (mkDres (dSt d) (dLay d) (dMax d) (dFound d) ((newMax, a) :: dTrace d))
                   end
          end
      end
  end.

(** Number of leading candidates without an edge (Router.tpp:174-181). *)
Fixpoint nulls (l : list cand) : nat :=
  match l with
  | c :: t => match cE c with None => S (nulls t) | Some _ => 0 end
  | [] => 0
  end.
(** Router.tpp:169-183: the fallback to candidates without an edge; [maxCost * 100] is
    computed in 32 bits. *)
Definition nullTrans (frC toC : list cand) (maxCost : Z) : list trans :=
  concat (map (fun f => map (fun i => mkTrans f i [ofZ (wrap32 (maxCost * 100))]) (seq 0 (nulls toC)))
              (seq 0 (List.length frC))).
(** Router.tpp:185-198: the remaining candidates; position 0 is always skipped. *)
Definition dummyStart (toC : list cand) : nat := S (nulls (tl toC)).
Definition dummyTrans (frC toC : list cand) : list trans :=
  concat (map (fun f => map (fun x => mkTrans f (fst x) [cPen (snd x)])
                            (skipn (dummyStart toC) (combine (seq 0 (List.length toC)) toC)))
              (seq 0 (List.length frC))).

(** What was asked and answered for the hop into a node. *)
Record hinfo := mkHinfo { hTrace : list (Z * list ans); hFailed : bool }.
Record rstate := mkRs { rLay : list layer; rSt : St; rMax : list Z; rLog : list (nat * hinfo) }.

Definition MAX_STEPS : nat := 3.   (* Router.h:36 *)

(** Router.tpp:66-202: one child [toNid] of [frNid]. *)
Definition child (frNid : nat) (r : rstate) (toNid : nat) : option rstate :=
  match nth_error tnds frNid, nth_error tnds toNid, nth_error ecm frNid, nth_error ecm toNid,
        nth_error (rLay r) frNid, nth_error (rLay r) toNid with
  | Some frNd, Some toNd, Some frC, Some toC, Some frL, Some toL =>
      if nArr _ _ frNd && negb (nArr _ _ toNd) then
        match relaxAll frL toL (inNode toC) with
        | None => None
        | Some (toL', _) => Some (mkRs (upd toNid (fun _ => toL') (rLay r)) (rSt r) (rMax r) (rLog r))
        end
      else
        let m0 := limit0 frNid toNid in
        match doubling (S MAX_STEPS) frNid toNid frC toC frL (rSt r) [] toL m0 m0 with
        | None => None
        | Some d =>
            match (if dFound d then Some (dLay d, false)
                   else relaxAll frL (dLay d) (nullTrans frC toC (dMax d) ++ dummyTrans frC toC)) with
            | None => None
            | Some (toL', _) =>
                Some (mkRs (upd toNid (fun _ => toL') (rLay r)) (dSt d)
                        (upd toNid (fun _ => dMax d) (rMax r))
                        ((toNid, mkHinfo (dTrace d) (negb (dFound d))) :: rLog r))
            end
        end
  | _, _, _, _, _, _ => None
  end.
Fixpoint childLoop (frNid : nat) (r : rstate) (cs : list nat) : option rstate :=
  match cs with
  | [] => Some r
  | c :: t => match child frNid r c with
              | None => None
              | Some r1 => childLoop frNid r1 t
              end
  end.

(** Router.tpp:52-203: the loop over the stack (top first). *)
Fixpoint routeLoop (fuel : nat) (stack : list nat) (r : rstate) : option rstate :=
  match stack with
  | [] => Some r
  | n :: rest =>
      match fuel with
      | 0 => None
      | S fuel' =>
          match nth_error tnds n with
          | None => None
          | Some nd => match childLoop n r (nChilds _ _ nd) with
                       | None => None
                       | Some r1 => routeLoop fuel' (rev (nChilds _ _ nd) ++ rest) r1
                       end
          end
      end
  end.

(** Router.tpp:32-41: layers of the nodes 1, 2, ... *)
Fixpoint initLayers (k nid : nat) : option (list layer) :=
  match k with
  | 0 => Some []
  | S k' => match nth_error ecm nid, initLayers k' (S nid) with
            | Some cs, Some r => Some (map (fun _ => (inf, None)) cs :: r)
            | _, _ => None
            end
  end.
(** Router.tpp:46-51: first layers and the initial stack. *)
Fixpoint initFirst (cs : list nat) (ls : list layer) : option (list layer) :=
  match cs with
  | [] => Some ls
  | c :: t => match nth_error ecm c with
              | None => None
              | Some cands => initFirst t (upd c (fun _ => map (fun x => (cPen x, None)) cands) ls)
              end
  end.
Definition solve (s0 : St) : option rstate :=
  match tnds with
  | [] => None
  | rootNd :: _ =>
      match initLayers (List.length tnds - 1) 1 with
      | None => None
      | Some ls =>
          match initFirst (nChilds _ _ rootNd) ([] :: ls) with
          | None => None
          | Some ls1 =>
              routeLoop (List.length tnds) (rev (nChilds _ _ rootNd))
                (mkRs ls1 s0 (repeat 0%Z (List.length tnds)) [])
          end
      end
  end.

(** Router.tpp:205-219: the cheapest last candidate, the first one among equals. *)
Fixpoint argmin (l : layer) (i best : nat) (bestC : C) : nat * C :=
  match l with
  | [] => (best, bestC)
  | (c, _) :: t => if lt c bestC then argmin t (S i) i c else argmin t (S i) best bestC
  end.

(** Misc.h:98-106. *)
Record hop := mkHop {
  hEdges : list E; hStart : option E; hEnd : option E;
  hPrS : Q; hPrE : Q; hPtS : P; hPtE : P }.

(** Router.tpp:240-246: the largest start offset of the source candidates. *)
Definition maxProgr (toNid : nat) (frC : list cand) : Q :=
  fold_left (fun m c => match cE c with
                        | None => m
                        | Some e =>
                            let s := (if Qlt_le_dec 0 (cProgr c) then inject_Z (startCost toNid e) * cProgr c else 0)%Q in
                            if Qlt_le_dec m s then s else m
                        end) frC 0%Q.
(** Router.tpp:248-254: the limit of the search that recovers the path. *)
Definition pathLimit (toNid : nat) (limit : Z) (frC : list cand) : Z :=
  let m := (inject_Z limit + maxProgr toNid frC)%Q in
  if Qlt_le_dec m (inject_Z u32max) then Qfloor m else u32max.
(** Router.tpp:233-275: the hop between two chosen candidates. *)
Definition mkHopOf (toNid : nat) (limit : Z) (frC : list cand) (fr to : cand) : hop :=
  match cE fr, cE to with
  | Some ef, Some et =>
      let '(c, es) := spath toNid ef et (pathLimit toNid limit frC) in
      mkHop (if (c <? pathLimit toNid limit frC)%Z then es else []) (Some ef) (Some et)
        (cProgr fr) (cProgr to) p0 p0
  | Some ef, None => mkHop [] (Some ef) None (cProgr fr) 0 p0 (cPoint to)
  | None, Some et => mkHop [] None (Some et) 0 (cProgr to) (cPoint fr) p0
  | None, None => mkHop [] None None 0 0 (cPoint fr) (cPoint to)
  end.

(** Router.tpp:224-279: walk back from the chosen candidate of a leaf; the hops
    come last-to-first. *)
Fixpoint retrieve (fuel : nat) (r : rstate) (cur front : nat) : option (list hop) :=
  match nth_error (rLay r) cur with
  | None => None
  | Some L =>
      match nth_error L front with
      | None => None
      | Some (_, None) => Some []
      | Some (_, Some frId) =>
          match fuel, nth_error tnds cur with
          | S fuel', Some nd =>
              let par := nParent _ _ nd in
              match nth_error tnds par, nth_error ecm par, nth_error ecm cur with
              | Some pnd, Some frC, Some toC =>
                  if nArr _ _ pnd && negb (nArr _ _ nd) then retrieve fuel' r par frId
                  else
                    match nth_error frC frId, nth_error toC front, retrieve fuel' r par frId with
                    | Some fr, Some to, Some rest =>
                        Some (mkHopOf cur (nth cur (rMax r) 0%Z) frC fr to :: rest)
                    | _, _, _ => None
                    end
              | _, _, _ => None
              end
          | _, _ => None
          end
      end
  end.
Definition leafHops (r : rstate) (leaf : nat) : option (list hop) :=
  match nth_error (rLay r) leaf with
  | None => None
  | Some L => retrieve leaf r leaf (fst (argmin L 0 0 inf))
  end.
Fixpoint allLeaves (r : rstate) (leaves : list nat) : option (list (nat * list hop)) :=
  match leaves with
  | [] => Some []
  | n :: t => match leafHops r n, allLeaves r t with
              | Some h, Some m => Some ((n, h) :: m)
              | _, _ => None
              end
  end.
Definition route (s0 : St) (leaves : list nat) : option (rstate * list (nat * list hop)) :=
  match solve s0 with
  | None => None
  | Some r => match allLeaves r leaves with
              | None => None
              | Some m => Some (r, m)
              end
  end.
End Router.
