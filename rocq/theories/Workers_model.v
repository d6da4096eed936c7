(** Model of the worker threads that assign shapes to trips.
    Source: /repo/src/pfaedle/router/ShapeBuilder.cpp:381-447 (shapeify: use counts, start
    of the workers), 548-561 (setShape), 604-615 (getFreeShapeId), 1160-1226 (shapeWorker);
    /repo/src/pfaedle/gtfs/ShapeContainer.tpp:39-96 (remove, has, add).

    Simplifications.
    - The threads run interleaved, one step of one thread at a time; a step is one access
      to shared data or one section under the mutex.  (The accesses to [shpUse] are
      unsynchronised, which C++ calls a data race; they are single loads and stores here.)
    - What routing and drawing a leaf yields (points, stop distances) is part of the leaf;
      Router and Shapes model how it comes about.  The tries of a forest and the leaves of
      a trie are one list per forest.
    - The colours and the transit graph, which are per-thread data, are left out.
    - Outcome [None]: undefined behaviour (access outside a vector, division by zero). *)
From Coq Require Import String List Arith NArith Bool DecimalString.
From Verif Require Import ListAux.
Import ListNotations.
Open Scope nat_scope.

Section Workers.
Variable Pts D : Type.

(** A leaf of a trie: its trips, the type of the route of its first trip, the points and
    the distances computed for it. *)
Record leaf := mkLeaf { lTrips : list nat; lType : nat; lPts : Pts; lDists : list D }.
(** What is kept of a trip: the id of its shape ("" if none), the distances of its stop
    times. *)
Record trip := mkTrip { tShape : string; tDists : list D }.

(** What the threads share: the work counter [at], the shape counter [_curShpCnt], the
    registered shape ids, the stored new shapes, the use counters, the trips. *)
Record shared := mkSh {
  sAt : nat; sCnt : nat; sIds : list string; sStore : list (string * Pts);
  sUse : string -> N; sTrips : list trip }.

(** std::to_string of a non-negative number. *)
Definition toString (n : nat) : string := NilEmpty.string_of_uint (Nat.to_uint n).
(** ShapeBuilder.cpp:609-611, body of the loop. *)
Definition idOf (type n : nat) : string := ("shp_" ++ toString type ++ "_" ++ toString n)%string.
(** ShapeContainer.tpp:61-63 [has]. *)
Definition has (ids : list string) (x : string) : bool := existsb (String.eqb x) ids.
(** ShapeBuilder.cpp:604-615 [getFreeShapeId]; the loop ends after at most one round per
    registered id and one more.  Result: the new counter, with which the id is formed. *)
Fixpoint freeId (fuel : nat) (ids : list string) (type cnt : nat) : option nat :=
  match fuel with
  | 0 => None
  | S f => if has ids (idOf type (S cnt)) then freeId f ids type (S cnt) else Some (S cnt)
  end.

(** ShapeBuilder.cpp:548-556: distance [i] for stop time [i]. *)
Definition setDists (old ds : list D) : option (list D) :=
  if length ds <? length old then None else Some (firstn (length old) ds).
(** ShapeContainer.tpp:73-96 [add] of a shape with points. *)
Definition addShape (s : shared) (x : string) (p : Pts) : shared :=
  if has (sIds s) x then s
  else mkSh (sAt s) (sCnt s) (x :: sIds s) (sStore s ++ [(x, p)]) (sUse s) (sTrips s).
(** ShapeContainer.tpp:40-43 [remove]. *)
Definition removeId (s : shared) (x : string) : shared :=
  mkSh (sAt s) (sCnt s) (filter (fun y => negb (String.eqb x y)) (sIds s)) (sStore s) (sUse s) (sTrips s).
(** [shpUse[x] = v] *)
Definition setUse (s : shared) (x : string) (v : N) : shared :=
  mkSh (sAt s) (sCnt s) (sIds s) (sStore s) (fun y => if String.eqb x y then v else sUse s y) (sTrips s).
Definition setTrip (s : shared) (t : nat) (x : trip) : shared :=
  mkSh (sAt s) (sCnt s) (sIds s) (sStore s) (sUse s) (upd t (fun _ => x) (sTrips s)).

(** Where a thread is.  [id]: the id of the new shape; [l]: the leaf; [t]: the trip at
    hand; [ts]: the trips of the leaf after it; [ls]: the leaves of the forest after [l]. *)
Inductive pc :=
| PFetch                                                     (* 1166-1167 *)
| PLeaves (ls : list leaf)                                   (* 1185-1197 *)
| PTrips (id : string) (l : leaf) (ts : list nat) (ls : list leaf)           (* 1203, 1214 *)
| PLoad (id : string) (l : leaf) (t : nat) (ts : list nat) (ls : list leaf)  (* 1215: load *)
| PStore (id : string) (l : leaf) (t : nat) (ts : list nat) (ls : list leaf) (r : N)  (* 1215: store *)
| PTest (id : string) (l : leaf) (t : nat) (ts : list nat) (ls : list leaf)  (* 1216 *)
| PRem (id : string) (l : leaf) (t : nat) (ts : list nat) (ls : list leaf)   (* 1217-1218 *)
| PDist (id : string) (l : leaf) (t : nat) (ts : list nat) (ls : list leaf)  (* 552-556 *)
| PAdd (id : string) (l : leaf) (t : nat) (ts : list nat) (ls : list leaf)   (* 558-560 *)
| PDone.

(** [size_t] decrement. *)
Definition decr (r : N) : N := if (r =? 0)%N then 18446744073709551615%N else (r - 1)%N.

(** ShapeBuilder.cpp:1160-1226: one step of a thread. *)
Definition step (jobs : list (list leaf)) (p : pc) (s : shared) : option (pc * shared) :=
  match p with
  | PFetch =>
      let s' := mkSh (S (sAt s)) (sCnt s) (sIds s) (sStore s) (sUse s) (sTrips s) in
      match nth_error jobs (sAt s) with
      | None => Some (PDone, s')
      | Some f =>
          (* 1169-1175: progress output *)
          let n := length jobs in
          let st := if n <? 10 then n else 10 in
          if (st =? 0) || (n / st =? 0) then None else Some (PLeaves f, s')
      end
  | PLeaves [] => Some (PFetch, s)
  | PLeaves (l :: ls) =>
      match lTrips l, freeId (S (length (sIds s))) (sIds s) (lType l) (sCnt s) with
      | _ :: _, Some n =>
          Some (PTrips (idOf (lType l) n) l (lTrips l) ls,
                mkSh (sAt s) n (sIds s) (sStore s) (sUse s) (sTrips s))
      | _, _ => None
      end
  | PTrips id l [] ls => Some (PLeaves ls, s)
  | PTrips id l (t :: ts) ls =>
      match nth_error (sTrips s) t with
      | None => None
      | Some x => if negb (String.eqb (tShape x) "") && (0 <? sUse s (tShape x))%N
                  then Some (PLoad id l t ts ls, s) else Some (PDist id l t ts ls, s)
      end
  | PLoad id l t ts ls =>
      match nth_error (sTrips s) t with
      | None => None
      | Some x => Some (PStore id l t ts ls (sUse s (tShape x)), s)
      end
  | PStore id l t ts ls r =>
      match nth_error (sTrips s) t with
      | None => None
      | Some x => Some (PTest id l t ts ls, setUse s (tShape x) (decr r))
      end
  | PTest id l t ts ls =>
      match nth_error (sTrips s) t with
      | None => None
      | Some x => Some (if (sUse s (tShape x) =? 0)%N then PRem id l t ts ls else PDist id l t ts ls, s)
      end
  | PRem id l t ts ls =>
      match nth_error (sTrips s) t with
      | None => None
      | Some x => Some (PDist id l t ts ls, removeId s (tShape x))
      end
  | PDist id l t ts ls =>
      match nth_error (sTrips s) t with
      | None => None
      | Some x => match setDists (tDists x) (lDists l) with
                  | None => None
                  | Some ds => Some (PAdd id l t ts ls, setTrip s t (mkTrip (tShape x) ds))
                  end
      end
  | PAdd id l t ts ls =>
      match nth_error (sTrips s) t with
      | None => None
      | Some x => Some (PTrips id l ts ls, setTrip (addShape s id (lPts l)) t (mkTrip id (tDists x)))
      end
  | PDone => Some (PDone, s)
  end.

(** The threads run as the schedule says. *)
Fixpoint run (jobs : list (list leaf)) (sched : list nat) (ths : list pc) (s : shared) : option (list pc * shared) :=
  match sched with
  | [] => Some (ths, s)
  | i :: r =>
      match nth_error ths i with
      | None => run jobs r ths s
      | Some p => match step jobs p s with
                  | None => None
                  | Some (p', s') => run jobs r (upd i (fun _ => p') ths) s'
                  end
      end
  end.

(** ShapeBuilder.cpp:405-406: use counts. *)
Definition countUse (trips : list trip) : string -> N :=
  fold_left (fun u t => if String.eqb (tShape t) "" then u
                        else (fun y => if String.eqb (tShape t) y then (u y + 1)%N else u y))
            trips (fun _ => 0%N).
(** ShapeBuilder.cpp:433-445: start of the threads. *)
Definition start (n : nat) (cnt : nat) (ids : list string) (store : list (string * Pts)) (trips : list trip) : list pc * shared :=
  (repeat PFetch n, mkSh 0 cnt ids store (countUse trips) trips).
End Workers.
