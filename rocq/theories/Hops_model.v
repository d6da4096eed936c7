(** Model of [RouterImpl::hops] and [RouterImpl::hopsFast], which compute the costs of
    the hops between two groups of candidates, and of their use of the hop cache.
    Source: /repo/src/pfaedle/router/Router.tpp:283-606.

    Simplifications.
    - Edge pointers are natural numbers.  The iteration order of a
      [std::set<Edge*>] (by address) is the oracle [enum].
    - [EDijkstra::shortestPath] is in a submodule that is not part of the
      checkout; the two calls of it are oracles, the theorems state what they
      assume of it.
    - Progressions, lengths and the doubles computed from them are rationals
      without rounding; converting to uint32_t truncates.
    - A candidate is its edge (if any) and its progression. *)
From Coq Require Import List Arith ZArith QArith Qround Bool Lia.
From Verif Require Import ListAux HopCache_model Router_model.
Import ListNotations.
Open Scope nat_scope.

Definition pcand := (option edge * Q)%type.
Definition Qltb (a b : Q) : bool := if Qlt_le_dec a b then true else false.

Section Hops.
Variable enum : list edge -> list edge.      (* iteration order of a set *)
Variable ecost : edge -> Z.                  (* costF(e, 0, 0) *)
Variable len : edge -> Q.                    (* e->pl().getLength() *)
Variable compF compT : edge -> nat.          (* component of the first / last node of an edge *)
(** 1 -> n search: source, targets, limit (costF.inf()), target; cost and path (last
    edge first). *)
Variable search : edge -> list edge -> Z -> edge -> Z * list edge.
Variable needDist : bool.                    (* TW::NEED_DIST *)

(** Router.tpp:291-301: the edges of a group. *)
Definition edgesOf (g : list pcand) : list edge :=
  enum (concat (map (fun c => match fst c with Some e => [e] | None => [] end) g)).

(** Router.tpp:307-314, 478-485: the largest start offset. *)
Definition maxProgrStart (froms : list pcand) : Q :=
  fold_left (fun m (c : pcand) => match fst c with
                       | None => m
                       | Some e =>
                           let s := (if Qltb 0 (snd c) then inject_Z (ecost e) * snd c else 0)%Q in
                           if Qltb m s then s else m
                       end) froms 0%Q.

(** Router.tpp:326-329. *)
Definition cachedVal (hc : option cache) (a b : edge) : Z * bool :=
  match hc with None => (0%Z, false) | Some c => get c a b end.

(** Router.tpp:330-341: [Some c]: decided without a search; [None]: search. *)
Definition shortcut (hc : option cache) (lim : Z) (eFrom eTo : edge) : option Z :=
  let '(v, ex) := cachedVal hc eFrom eTo in
  if negb (compF eFrom =? compT eTo) then Some lim
  else if (lim <=? (if ex then 1 else 0))%Z then Some lim   (* cached.second >= costF.inf() *)
  else if negb needDist && ex then Some v
  else None.

(** Router.tpp:362-370: the cache after the search from [eFrom]. *)
Definition store (lim : Z) (eFrom : edge) (rem : list edge) (hc : option cache) : option cache :=
  match hc with
  | None => None
  | Some c => Some (fold_left (fun c eTo => match snd (search eFrom rem lim eTo) with
                                            | [] => setMin c eFrom eTo lim
                                            | _ => setEx c eFrom eTo (fst (search eFrom rem lim eTo))
                                            end) rem c)
  end.

(** Router.tpp:373-381: length of a path without its last edge (the path is stored last
    edge first, so index 0 is not counted). *)
Definition pathLen (p : list edge) : Q := fold_right (fun e s => len e + s)%Q 0%Q (tl p).

(** Router.tpp:319-383: one row of [ecm]/[ecmDist] and the cache after it. *)
Record cell := mkCell { ceTo : edge; ceC : Z; ceD : Q }.
Definition row (hc : option cache) (lim : Z) (eTos : list edge) (eFrom : edge) : list cell * option cache :=
  let rem := filter (fun eTo => match shortcut hc lim eFrom eTo with None => true | Some _ => false end) eTos in
  (map (fun eTo => match shortcut hc lim eFrom eTo with
                   | Some v => mkCell eTo v (inject_Z u32max)
                   | None => let '(c, p) := search eFrom rem lim eTo in
                             mkCell eTo c (match p with [] => inject_Z u32max | _ => pathLen p end)
                   end) eTos,
   store lim eFrom rem hc).
Fixpoint rows (hc : option cache) (lim : Z) (eFrs eTos : list edge) : list (edge * list cell) * option cache :=
  match eFrs with
  | [] => ([], hc)
  | eFrom :: t => let '(r, hc1) := row hc lim eTos eFrom in
                  let '(rs, hc2) := rows hc1 lim t eTos in
                  ((eFrom, r) :: rs, hc2)
  end.
(** [ecm[fr][to]]: 0 if there is no entry. *)
Definition lookup (m : list (edge * list cell)) (a b : edge) : Z * Q :=
  match find (fun x => fst x =? a) m with
  | None => (0%Z, 0%Q)
  | Some (_, r) => match find (fun c => ceTo c =? b) r with
                   | None => (0%Z, 0%Q)
                   | Some c => (ceC c, ceD c)
                   end
  end.

(** Router.tpp:399-427, 548-573: the cost of a hop from the path cost, in 32 bits;
    [None]: skipped. *)
Definition trunc32 (q : Q) : Z := wrap32 (Qfloor q).
Definition partial (fr to : edge) (pf pt : Q) (c : Z) : option Z :=
  if fr =? to then
    if Qle_bool pf pt then
      Some (wrap32 (c + wrap32 (trunc32 (inject_Z (ecost to) * pt) - trunc32 (inject_Z (ecost fr) * pf))))
    else None
  else
    let c1 := if Qltb 0 pf then wrap32 (c - trunc32 (inject_Z (ecost fr) * pf)) else c in
    Some (if Qltb 0 pt then wrap32 (c1 + trunc32 (inject_Z (ecost to) * pt)) else c1).
Definition partialDist (fr to : edge) (pf pt : Q) (d : Q) : Q :=
  if fr =? to then d
  else
    let d1 := (if Qltb 0 pf then d - len fr * pf else d)%Q in
    (if Qltb 0 pt then d1 + len to * pt else d1)%Q.

(** Router.tpp:385-433: one entry of the result. *)
Definition entry (m : list (edge * list cell)) (lim : Z) (M : Q) (frId toId : nat) (fr to : pcand) : list ans :=
  match fst fr, fst to with
  | Some ef, Some et =>
      let '(c, d) := lookup m ef et in
      if (lim <=? c)%Z then []
      else match partial ef et (snd fr) (snd to) c with
           | None => []
           | Some c' =>
               if Qltb (inject_Z c') (inject_Z lim - M)
               then [mkAns frId toId c' (if needDist then Qfloor (partialDist ef et (snd fr) (snd to) d) else 0%Z)]
               else []
           end
  | _, _ => []
  end.
Definition indexed {A} (l : list A) : list (nat * A) := combine (seq 0 (List.length l)) l.
Definition entries (m : list (edge * list cell)) (lim : Z) (M : Q) (froms tos : list pcand) : list ans :=
  concat (map (fun f => concat (map (fun t => entry m lim M (fst f) (fst t) (snd f) (snd t)) (indexed tos)))
              (indexed froms)).
(** Router.tpp:283-434 [hops]: the entries appended and the cache afterwards. *)
Definition hops (hc : option cache) (froms tos : list pcand) (maxCost : Z) : list ans * option cache :=
  let M := maxProgrStart froms in
  let lim := addNonOverflow maxCost (trunc32 M) in
  let '(m, hc') := rows hc lim (edgesOf froms) (edgesOf tos) in
  (entries m lim M froms tos, hc').

(** A sequence of calls sharing one cache. *)
Record hcall := mkHcall { hcF : list pcand; hcT : list pcand; hcMax : Z }.
Fixpoint hopsRun (hc : option cache) (calls : list hcall) : list (list ans) :=
  match calls with
  | [] => []
  | x :: t => let '(r, hc1) := hops hc (hcF x) (hcT x) (hcMax x) in r :: hopsRun hc1 t
  end.

(** ** hopsFast *)
(** n -> n search: sources, targets, initial costs, the largest cost of interest, limit
    (costF.inf()); for each target the best source and the cost including its initial
    cost. *)
Variable searchN : list edge -> list edge -> (edge -> Z) -> Z -> Z -> list (edge * (edge * Z)).

(** Router.tpp:578-602 [connected]; both use the first node of the target edge. *)
Definition connectedFr (fr : pcand) (tos : list pcand) : bool :=
  match fst fr with
  | None => false
  | Some e => existsb (fun t => match fst t with None => false | Some e' => compF e =? compF e' end) tos
  end.
Definition connectedTo (froms : list pcand) (to : pcand) : bool :=
  match fst to with
  | None => false
  | Some e => existsb (fun f => match fst f with None => false | Some e' => compF e' =? compF e end) froms
  end.
(** A source candidate with its raw cost: [None] infinite, [Some z]: TW::invWeight. *)
Definition fcand := (pcand * option Z)%type.
Definition liveFr (tos : list pcand) (f : fcand) : bool :=
  match snd f with None => false | Some _ => connectedFr (fst f) tos end.
(** Router.tpp:487-497. *)
Definition prepInit (M : Q) (f : fcand) : option Q :=
  match fst (fst f), snd f with
  | Some e, Some z => Some (inject_Z z + M - inject_Z (ecost e) * snd (fst f))%Q
  | _, _ => None
  end.
(** Router.tpp:499-508: the cheapest initial cost of an edge. *)
Definition initCost (M : Q) (froms : list fcand) (e : edge) : Z :=
  fold_left (fun m f => match fst (fst f), prepInit M f with
                        | Some e', Some q => if (e' =? e) && Qltb q (inject_Z m) then trunc32 q else m
                        | _, _ => m
                        end) froms u32max.
Definition maxOf (l : list Z) : Z :=
  fold_left (fun m x => if negb (x =? u32max)%Z && (m <? x)%Z then x else m) l 0%Z.
Definition minOf (l : list Z) : Z := fold_left (fun m x => if (x <? m)%Z then x else m) l u32max.

(** Router.tpp:437-574 [hopsFast]. *)
Definition hopsFast (hc : option cache) (froms : list fcand) (tos : list pcand) (maxCost : Z)
    : list ans * option cache :=
  let plain := map fst froms in
  let eFrs := edgesOf (map fst (filter (liveFr tos) froms)) in
  let useTo (t : pcand) := connectedTo plain t &&
    negb (match hc, fst t with Some c, Some e => cacheDrop c eFrs e maxCost | _, _ => false end) in
  let eTos := edgesOf (filter useTo tos) in
  match eFrs, eTos with
  | [], _ | _, [] => ([], hc)
  | _, _ =>
      let M := maxProgrStart plain in
      let inits := map (initCost M froms) eFrs in
      let maxInit := maxOf inits in
      let minInit := minOf inits in
      let init e := wrap32 (initCost M froms e - minInit) in
      let lim := addNonOverflow maxCost (trunc32 M) in
      let lim2 := wrap32 (lim + wrap32 (maxInit - minInit)) in
      let costs := searchN eFrs eTos init lim lim2 in
      (concat (map (fun r =>
         let '(et, (ef, c2)) := r in
         if (lim2 <=? c2)%Z then []
         else
           let c := wrap32 (c2 - init ef) in
           if (lim <=? c)%Z then []
           else concat (map (fun f =>
                  concat (map (fun t =>
                    match fst (fst (snd f)), fst (snd t) with
                    | Some e1, Some e2 =>
                        if (e1 =? ef) && (e2 =? et) && liveFr tos (snd f) && useTo (snd t) then
                          match partial ef et (snd (fst (snd f))) (snd (snd t)) c with
                          | None => []
                          | Some c' => if Qltb (inject_Z c') (inject_Z lim - M) then [mkAns (fst f) (fst t) c' 0%Z] else []
                          end
                        else []
                    | _, _ => []
                    end) (indexed tos))) (indexed froms))) costs),
       match hc with
       | None => None
       | Some ca => Some (fold_left (fun ca r => let '(et, (_, c2)) := r in
                             if (lim2 <=? c2)%Z then setMinFrs ca eFrs et lim else ca) costs ca)
       end)
  end.

(** A sequence of calls sharing one cache: the cache afterwards. *)
Record fcall := mkFcall { fcF : list fcand; fcT : list pcand; fcMax : Z }.
Definition fastRun (hc : option cache) (calls : list fcall) : option cache :=
  fold_left (fun hc x => snd (hopsFast hc (fcF x) (fcT x) (fcMax x))) calls hc.
End Hops.
