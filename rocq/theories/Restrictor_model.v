(** Model of the turn restriction table.
    Source: /repo/src/pfaedle/osm/Restrictor.h:18-55, Restrictor.cpp:11-155,
    OsmBuilder.cpp:738-765 (caller).

    Nodes, edges and OSM way ids are numbers (pointer identities).  The maps are
    functions from keys to values: [operator[]] creating an empty entry is not
    observable.  An out-of-range vector index is [None] (undefined behaviour). *)
From Coq Require Import List Arith Bool.
From Verif Require Import ListAux.
Import ListNotations.

(** Restrictor.h:18 [RulePair]: from edge, to edge (null = not read yet). *)
Definition rule := (nat * option nat)%type.

(** Restrictor.h:44-50. *)
Record restr := mkRestr {
  rPos : nat -> list rule;
  rNeg : nat -> list rule;
  rRlx : nat -> nat -> option nat;                 (* node, way -> edge *)
  rPosD : nat -> nat -> list (nat * nat);          (* node, way -> (node, index) *)
  rNegD : nat -> nat -> list (nat * nat)
}.
Definition emptyRestr : restr :=
  mkRestr (fun _ => []) (fun _ => []) (fun _ _ => None) (fun _ _ => []) (fun _ _ => []).

Definition set1 {A} (f : nat -> A) (k : nat) (v : A) : nat -> A := fun x => if x =? k then v else f x.
Definition set2 {A} (f : nat -> nat -> A) (k l : nat) (v : A) : nat -> nat -> A :=
  fun x y => if (x =? k) && (y =? l) then v else f x y.

(** Restrictor.cpp:18-21, 26-29: patch the rules behind a list of paths. *)
Fixpoint patch (rules : nat -> list rule) (paths : list (nat * nat)) (e : nat) : option (nat -> list rule) :=
  match paths with
  | [] => Some rules
  | (n, i) :: t =>
      if i <? length (rules n)
      then patch (set1 rules n (upd i (fun r => (fst r, Some e)) (rules n))) t e
      else None
  end.

(** Restrictor.cpp:11-31 [relax]. *)
Definition relax (r : restr) (wid n e : nat) : option restr :=
  match patch (rPos r) (rPosD r n wid) e with
  | None => None
  | Some p =>
      match patch (rNeg r) (rNegD r n wid) e with
      | None => None
      | Some q => Some (mkRestr p q (set2 (rRlx r) n wid (Some e)) (rPosD r) (rNegD r))
      end
  end.

(** Restrictor.cpp:34-50 [add]. *)
Definition addRule (r : restr) (from to via : nat) (pos : bool) : restr :=
  let toE := rRlx r via to in
  if pos then
    mkRestr (set1 (rPos r) via (rPos r via ++ [(from, toE)])) (rNeg r) (rRlx r)
      (match toE with
       | Some _ => rPosD r
       | None => set2 (rPosD r) via to (rPosD r via to ++ [(via, length (rPos r via ++ [(from, toE)]) - 1)])
       end) (rNegD r)
  else
    mkRestr (rPos r) (set1 (rNeg r) via (rNeg r via ++ [(from, toE)])) (rRlx r) (rPosD r)
      (match toE with
       | Some _ => rNegD r
       | None => set2 (rNegD r) via to (rNegD r via to ++ [(via, length (rNeg r via ++ [(from, toE)]) - 1)])
       end).

(** Restrictor.cpp:58-65: the loop over the mandatory rules; [None] = no decision.
    [to] is an existing edge, so it never equals the null target. *)
Fixpoint posLoop (rs : list rule) (from to : nat) : option bool :=
  match rs with
  | [] => None
  | (f, t) :: rest =>
      match t with
      | Some e => if f =? from then Some (e =? to) else posLoop rest from to
      | None => posLoop rest from to
      end
  end.
(** Restrictor.cpp:66-70. *)
Definition hits (from to : nat) (r : rule) : bool :=
  (fst r =? from) && match snd r with Some e => e =? to | None => false end.
(** Restrictor.cpp:53-72 [may]. *)
Definition may (r : restr) (from to via : nat) : bool :=
  match posLoop (rPos r via) from to with
  | Some b => b
  | None => negb (existsb (hits from to) (rNeg r via))
  end.

(** Restrictor.cpp:138-155: private [replaceEdge] at one node. *)
Definition replIn (old new : nat) (r : rule) : rule :=
  (if fst r =? old then new else fst r,
   match snd r with Some e => if e =? old then Some new else Some e | None => None end).
Definition replaceAt (r : restr) (old via new : nat) : restr :=
  mkRestr (set1 (rPos r) via (map (replIn old new) (rPos r via)))
          (set1 (rNeg r) via (map (replIn old new) (rNeg r via)))
          (rRlx r) (rPosD r) (rNegD r).

Section Graph.
Variable eFrom eTo : nat -> nat.

(** Restrictor.cpp:75-89 [replaceEdge]. *)
Definition replaceEdge (r : restr) (old newA newB : nat) : restr :=
  let '(newFrom, newTo) :=
    if (eFrom old =? eFrom newA) || (eFrom old =? eTo newA) then (newA, newB) else (newB, newA) in
  replaceAt (replaceAt r old (eFrom old) newFrom) old (eTo old) newTo.

(** Restrictor.cpp:107-120 / 121-134. *)
Definition dupIn (old via new : nat) (r : rule) : rule :=
  (if (fst r =? old) && negb (eTo old =? via) then new else fst r,
   match snd r with
   | Some e => if (e =? old) && negb (eFrom old =? via) then Some new else Some e
   | None => None
   end).
(** Restrictor.cpp:99-135: [duplicateEdge] at one node. *)
Definition duplicateAt (r : restr) (old via new : nat) : restr :=
  mkRestr (set1 (rPos r) via (map (dupIn old via new) (rPos r via)))
          (set1 (rNeg r) via (map (dupIn old via new) (rNeg r via)))
          (rRlx r) (rPosD r) (rNegD r).
(** Restrictor.cpp:92-96. *)
Definition duplicateEdge (r : restr) (old new : nat) : restr :=
  duplicateAt (duplicateAt r old (eFrom old) new) old (eTo old) new.

(** OsmBuilder.cpp:1743-1753 [writeODirEdgs]: the (edge, new opposite edge) pairs for
    which the table is told, in the order of the pass. *)
Definition duplicateAll (r : restr) (ps : list (nat * nat)) : restr :=
  fold_left (fun r p => duplicateEdge r (fst p) (snd p)) ps r.
End Graph.

(** A client's calls while the ways are read. *)
Inductive rcall :=
| Add (from to via : nat) (pos : bool)
| Relax (wid n e : nat).
Fixpoint runR (r : restr) (cs : list rcall) : option restr :=
  match cs with
  | [] => Some r
  | Add f t v p :: rest => runR (addRule r f t v p) rest
  | Relax w n e :: rest => match relax r w n e with None => None | Some r' => runR r' rest end
  end.

(** OsmBuilder.cpp:738-765 [processRestr]: the calls made for edge [e] of way [wid] at
    graph node [n], given the (from way, to way) pairs of the mandatory and prohibitive
    restrictions of the OSM node. *)
Definition restrCalls (pos : bool) (raw : list (nat * nat)) (wid e n : nat) : list rcall :=
  flat_map (fun kv => if fst kv =? wid then [Add e (snd kv) n pos]
                      else if snd kv =? wid then [Relax wid n e] else []) raw.
Definition processRestr (rawPos rawNeg : list (nat * nat)) (wid e n : nat) : list rcall :=
  restrCalls true rawPos wid e n ++ restrCalls false rawNeg wid e n.
(** OsmBuilder.cpp:705-734 restricted to one node [n]: the edges touching it, with their
    ways, in the order in which they are read. *)
Definition readAt (rawPos rawNeg : list (nat * nat)) (n : nat) (segs : list (nat * nat)) : list rcall :=
  flat_map (fun s => processRestr rawPos rawNeg (fst s) (snd s) n) segs.

(** OsmBuilder.cpp:705-733: every edge created while the ways are read, with its way and
    its end nodes ([sLast] first), in reading order.  [pos v] / [neg v] are the
    restrictions of the OSM node behind graph node [v]. *)
Record seg := mkSeg { sWay : nat; sEdge : nat; sLast : nat; sN : nat }.
Definition readAll (pos neg : nat -> list (nat * nat)) (segs : list seg) : list rcall :=
  flat_map (fun s => processRestr (pos (sN s)) (neg (sN s)) (sWay s) (sEdge s) (sN s) ++
                     processRestr (pos (sLast s)) (neg (sLast s)) (sWay s) (sEdge s) (sLast s)) segs.
