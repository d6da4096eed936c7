(** Independent reading of the trip trie. *)
From Coq Require Import List Arith ZArith String Bool Lia.
From Verif Require Import TripTrie_model.
Import ListNotations.

Section Spec.
Context {pos : Type}.
Variable near : pos -> pos -> bool.
Context {attrs : Type}.
Variable emptySecs : Z.

(** One trie step of a trip: arrival or departure, the stop, and the time elapsed. *)
Record key := mkKey { kArr : bool; kStop : stop pos; kTime : Z }.

(** The steps of a trip: depart from the first stop, arrive at and depart from each
    intermediate stop, arrive at the last stop. *)
Fixpoint later_keys (start : Z) (sts : list (stime pos)) : list key :=
  match sts with
  | [] => []
  | st :: rest =>
      mkKey true (stStop _ st) (relTime start (stArr _ st)) ::
      match rest with
      | [] => []
      | _ => mkKey false (stStop _ st) (relTime start (stDep _ st)) :: later_keys start rest
      end
  end.
Definition trip_keys (start : Z) (sts : list (stime pos)) : list key :=
  match sts with
  | st :: ((_ :: _) as rest) => mkKey false (stStop _ st) (relTime start (stDep _ st)) :: later_keys start rest
  | _ => []
  end.
(** The start time of a call: the first departure. *)
Definition call_start (c : call pos attrs) : Z :=
  match tSts _ (cTrip _ _ c) with
  | [] => 0%Z
  | st :: _ => match stDep _ st with Some x => x | None => if cDegen _ _ c then emptySecs else 0%Z end
  end.
Definition call_keys (c : call pos attrs) : list key := trip_keys (call_start c) (tSts _ (cTrip _ _ c)).

(** Two stops are the same for the trie. *)
Definition same_stop (a b : stop pos) : Prop :=
  sName _ a = sName _ b /\ sPlat _ a = sPlat _ b /\ near (sPos _ a) (sPos _ b) = true.

(** The nodes [path] are a downward path from node [cur] and spell the keys [ks]. *)
Inductive spells (l : list (node pos attrs)) (timeEx : bool) : nat -> list nat -> list key -> Prop :=
| sp_nil : forall cur, spells l timeEx cur [] []
| sp_cons : forall cur n nd r path k ks,
    nth_error l n = Some nd -> nParent _ _ nd = cur -> n <> 0 ->
    nRepr _ _ nd = Some r -> same_stop r (kStop k) -> nArr _ _ nd = kArr k ->
    (timeEx = true -> nTime _ _ nd = kTime k) ->
    spells l timeEx n path ks -> spells l timeEx cur (n :: path) (k :: ks).

(** The node list is a tree: parents come first, parent and child lists agree,
    arrival and departure nodes alternate, and the root has at most one child. *)
Record tree (l : list (node pos attrs)) : Prop := {
  tr_root : exists nd, nth_error l 0 = Some nd /\ nRepr _ _ nd = None;
  tr_parent : forall n nd, nth_error l n = Some nd -> n <> 0 ->
    nParent _ _ nd < n /\ exists p, nth_error l (nParent _ _ nd) = Some p /\ In n (nChilds _ _ p) /\
      nArr _ _ nd = (if nParent _ _ nd =? 0 then false else negb (nArr _ _ p));
  tr_child : forall p nd c, nth_error l p = Some nd -> In c (nChilds _ _ nd) ->
    c <> 0 /\ exists ndc, nth_error l c = Some ndc /\ nParent _ _ ndc = p;
  tr_nodup : forall p nd, nth_error l p = Some nd -> NoDup (nChilds _ _ nd);
  tr_one : forall nd, nth_error l 0 = Some nd -> nChilds _ _ nd = [] \/ nChilds _ _ nd = [1]
}.

(** The trips listed at a node / the trips that were placed at it, in call order. *)
Fixpoint placed_at (n : nat) (cs : list (call pos attrs)) (ps : list (option (list nat))) : list nat :=
  match cs, ps with
  | c :: cs', Some p :: ps' =>
      (if last p 0 =? n then [tId _ (cTrip _ _ c)] else []) ++ placed_at n cs' ps'
  | _ :: cs', None :: ps' => placed_at n cs' ps'
  | _, _ => []
  end.
(** Number of counted trips (those added in non-degenerate mode) passing through node
    [n], and the sum of their times at [n]. *)
Fixpoint passing (n : nat) (cs : list (call pos attrs)) (ps : list (option (list nat))) : nat :=
  match cs, ps with
  | c :: cs', Some p :: ps' =>
      (if negb (cDegen _ _ c) && existsb (Nat.eqb n) p then 1 else 0) + passing n cs' ps'
  | _ :: cs', None :: ps' => passing n cs' ps'
  | _, _ => 0
  end.
Fixpoint time_at (n : nat) (path : list nat) (ks : list key) : Z :=
  match path, ks with
  | m :: path', k :: ks' => if n =? m then kTime k else time_at n path' ks'
  | _, _ => 0%Z
  end.
Fixpoint sum_times (n : nat) (cs : list (call pos attrs)) (ps : list (option (list nat))) : Z :=
  match cs, ps with
  | c :: cs', Some p :: ps' =>
      ((if negb (cDegen _ _ c) then time_at n p (call_keys c) else 0) + sum_times n cs' ps')%Z
  | _ :: cs', None :: ps' => sum_times n cs' ps'
  | _, _ => 0%Z
  end.
End Spec.
