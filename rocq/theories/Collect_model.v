(** Model of the comparison of shapes in shapevl.
    Source: /repo/src/shapevl/Collector.h:26-43 (lineCmp), 46-130; Collector.cpp:27-254 (add), 257-319 (segmentize),
    322-330 (getLine), 333-346, 444-494 (getStats), 497-537 (getDa); Result.h:17-37.

    Simplifications.
    - Numbers are rational; doubles are not rounded and are never infinite.
    - util::geo (lengths, distances, Frechet distances, simplify, PolyLine::getSegment) is not in the checkout:
      every function of it is a parameter.
    - std::map with the comparison of lines: a look-up finds an entry that is neither less nor greater, the first
      one in the order of insertion.  Which one std::map finds is only defined if the comparison is a strict
      weak order (see C48).
    - upper_bound: the first position with a greater value (defined if the values are sorted).
    - std::nth_element: the element that sorting would put there.
    - Addresses of trips are numbers.
    - [None]: an access outside of a vector or a failed assertion.
    - The report (210-251) and the log are not modelled. *)
From Coq Require Import List Arith ZArith QArith Bool.
Import ListNotations.
Open Scope nat_scope.

Notation point := (Q * Q)%type.
Notation line := (list point).
(** Trips: address, stops and distances travelled *)
Record trip := mkTrip { tId : nat; tStops : list (nat * Q) }.
(** Shapes: points and distances travelled *)
Notation shape := (list (point * Q)).
Definition Qltb (a b : Q) : bool := negb (Qle_bool b a).

Section Collector.
Variable latLngLen : line -> Q.
Variable simplify : line -> Q -> line.
Variable tol : point -> Q.                       (* webMercDistFactor(p) * (0.5 / M_PER_DEG) *)
Variable getSegment : line -> point -> point -> line.
Variable hav : nat -> nat -> Q.                  (* haversine of two stops *)
Variable accFrechet frechet : line -> line -> Q -> Q.
Variable distL : line -> line -> Q.
Variable dist : point -> point -> Q.

(** ** Collector.h:26-43 *)
Definition far (a b : point) : bool := Qltb (1 # 100000) (dist a b).
Definition ptLt (a b : point) : bool := Qltb (fst a) (fst b) || (Qeq_bool (fst a) (fst b) && Qltb (snd a) (snd b)).
Fixpoint ptsLt (a b : line) : bool :=
  match a, b with p :: a, q :: b => if far p q then ptLt p q else ptsLt a b | _, _ => false end.
Definition lineLt (a b : line) : bool := if length a =? length b then ptsLt a b else length a <? length b.
Definition lineEqv (a b : line) : bool := negb (lineLt a b) && negb (lineLt b a).

(** ** Caches (Collector.h:87-91) *)
Section Map.
Variable V : Type.
Fixpoint mfind (m : list (line * V)) (k : line) : option V := match m with [] => None | (k', v) :: r => if lineEqv k' k then Some v else mfind r k end.
Fixpoint mput (m : list (line * V)) (k : line) (v : V) : list (line * V) :=
  match m with [] => [(k, v)] | (k', v') :: r => if lineEqv k' k then (k', v) :: r else (k', v') :: mput r k v end.
End Map.
Arguments mfind {V}. Arguments mput {V}.
Notation cache := (list (line * list (line * Q))).
(** 117-128 (130-141, 143-154, 156-167, 511-524) *)
Definition memo (c : cache) (a b : line) (f : Q) : Q * cache :=
  match mfind c a with
  | Some m => match mfind m b with Some v => (v, c) | None => (f, mput c a (mput m b f)) end
  | None => (f, mput c a [(b, f)])
  end.

(** ** 322-330 *)
Definition getLine (s : shape) : line * list Q := (map fst s, map snd s).
(** ** 257-319 *)
Fixpoint upperBound (l : list Q) (c : Q) : nat := match l with [] => 0 | d :: r => if Qltb c d then 0 else S (upperBound r c) end.
(** 270-285, 291-302 *)
Definition cutAt (l : line) (ds : list Q) (c : Q) : option point :=
  let to := upperBound ds c in
  if length ds <=? to then nth_error l (length l - 1)
  else match to with
       | 0 => nth_error l 0
       | S from => match nth_error l from, nth_error l to, nth_error ds from, nth_error ds to with
                   | Some p, Some q, Some a, Some b => let progr := ((c - a) / (b - a))%Q in Some ((fst p + progr * (fst q - fst p))%Q, (snd p + progr * (snd q - snd p))%Q)
                   | _, _, _, _ => None
                   end
       end.
Fixpoint segFrom (l : line) (ds : list Q) (lastP : point) (lastStop : nat) (sts : list (nat * Q)) : option (list line * list (Q * Q)) :=
  match sts with
  | [] => Some ([], [])
  | (st, c) :: r =>
      match cutAt l ds c with
      | None => None
      | Some curP =>
          let curL := getSegment l lastP curP in
          match segFrom l ds curP st r with None => None | Some (segs, lds) => Some (curL :: segs, (hav lastStop st, latLngLen curL) :: lds) end
      end
  end.
Definition segmentize (t : trip) (l : line) (ds : list Q) : option (list line * list (Q * Q)) :=
  match tStops t with
  | (st, c) :: ((_ :: _) as r) => match cutAt l ds c with None => None | Some p => segFrom l ds p st r end
  | _ => Some ([], [])
  end.

(** ** The collector *)
Record result := mkRes { rTrip : nat; rDist : Q }.
(** Result.h:34-37 *)
Definition resLt (a b : result) : bool := Qltb (rDist a) (rDist b) || (Qeq_bool (rDist a) (rDist b) && (rTrip a <? rTrip b)).
Fixpoint insert (r : result) (l : list result) : list result :=
  match l with [] => [r] | x :: t => if resLt r x then r :: l else if resLt x r then x :: insert r t else l end.
Record coll := mkColl { cTrips : nat; cNoOrig : nat; cResults : list result; cAccSum : Q; cUnSum : nat; cUnLen : Q; cAn : list nat;
  cDiffs : list Q; cHops : list Q; cAccFd : cache; cFd : cache; cD : cache; cLenDiff : cache; cDa : cache }.
(** Collector.h:50-62 *)
Definition emptyColl : coll := mkColl 0 0 [] 0 0 0 [0; 0; 0; 0; 0; 0; 0; 0] [] [] [] [] [] [] [].
(** 193-200 *)
Definition thresholds : list Q := [1 # 10000; 5 # 100; 1 # 10; 2 # 10; 3 # 10; 5 # 10; 7 # 10; 9 # 10].
Fixpoint bump (an : Q) (ts : list Q) (cs : list nat) : list nat :=
  match ts, cs with t :: ts, c :: cs => (if Qle_bool an t then S c else c) :: bump an ts cs | _, _ => [] end.
Definition Qabs' (x : Q) : Q := if Qle_bool 0 x then x else (- x)%Q.
(** 497-537 *)
Fixpoint getDa (a b : list line) (segLen : Q) (c : cache) : option (nat * Q * cache) :=
  match a, b with
  | [], [] => Some (0, 0%Q, c)
  | x :: a, y :: b =>
      match x with
      | [] => None
      | p :: _ =>
          let xs := simplify x (tol p) in
          let ys := simplify y (tol p) in
          let (fd, c) := memo c xs ys (frechet xs ys segLen) in
          match getDa a b segLen c with
          | None => None
          | Some (n, len, c) => Some (if Qle_bool 100 fd then (S n, (latLngLen xs + len)%Q, c) else (n, len, c))
          end
      end
  | _, _ => None
  end.
Definition sumQ (l : list Q) : Q := fold_right Qplus 0%Q l.
Definition noShape (t : trip) : bool := existsb (fun st => Qltb (snd st) 0) (tStops t).
(** 69-83; the length of a line without points is 0, and 0 / 0 > 1000 is false *)
Definition degenerated (l : line) : bool := match l with [] => false | _ => Qltb 1000 (latLngLen l / inject_Z (Z.of_nat (length l))) end.
Definition skip (c : coll) : coll :=
  mkColl (cTrips c) (S (cNoOrig c)) (cResults c) (cAccSum c) (cUnSum c) (cUnLen c) (cAn c) (cDiffs c) (cHops c) (cAccFd c) (cFd c) (cD c) (cLenDiff c) (cDa c).
(** 27-254 [add]; the collector after the call and the value returned *)
Definition add (c : coll) (oldT : trip) (oldS : option shape) (newT : trip) (newS : shape) (segLen : Q) : option (coll * Q) :=
  let c := mkColl (S (cTrips c)) (cNoOrig c) (cResults c) (cAccSum c) (cUnSum c) (cUnLen c) (cAn c) (cDiffs c) (cHops c) (cAccFd c) (cFd c) (cD c) (cLenDiff c) (cDa c) in
  match oldS with
  | None => Some (skip c, 0%Q)
  | Some oldS =>
      if noShape oldT || noShape newT then Some (skip c, 0%Q)
      else
        let (oldL, oldDists) := getLine oldS in
        let (newL, newDists) := getLine newS in
        if degenerated oldL || degenerated newL then Some (skip c, 0%Q)
        else
          match segmentize oldT oldL oldDists, segmentize newT newL newDists with
          | Some (oldSegs, _), Some (newSegs, lds) =>
              let diffs := cDiffs c ++ map (fun p => Qabs' (fst p - snd p)) lds in
              let hops := cHops c ++ map fst lds in
              let oldCut := concat oldSegs in
              let newCut := concat newSegs in
              match oldCut with
              | [] => None
              | p :: _ =>
                  let o := simplify oldCut (tol p) in
                  let n := simplify newCut (tol p) in
                  let (accFd, c1) := memo (cAccFd c) o n (accFrechet o n segLen) in
                  let (_, c2) := memo (cFd c) o n (frechet o n segLen) in
                  let (_, c3) := memo (cD c) o n (distL o n) in
                  let (_, c4) := memo (cLenDiff c) o n (latLngLen o - latLngLen n)%Q in
                  match getDa oldSegs newSegs segLen (cDa c) with
                  | None => None
                  | Some (un, unLen, c5) =>
                      let totL := fold_left (fun s l => (s + latLngLen l)%Q) oldSegs 0%Q in
                      let c := mkColl (cTrips c) (cNoOrig c) (cResults c) (cAccSum c) (cUnSum c) (cUnLen c) (cAn c) diffs hops c1 c2 c3 c4 c5 in
                      if Qltb totL 5 then Some (skip c, 0%Q)
                      else
                        let avgFd := (accFd / totL)%Q in
                        let an := (inject_Z (Z.of_nat un) / inject_Z (Z.of_nat (length oldSegs)))%Q in
                        Some (mkColl (cTrips c) (cNoOrig c) (insert (mkRes (tId oldT) avgFd) (cResults c)) (cAccSum c + avgFd)%Q (cUnSum c + un) (cUnLen c + unLen)%Q
                                (bump an thresholds (cAn c)) (cDiffs c) (cHops c) c1 c2 c3 c4 c5, avgFd)
                  end
              end
          | _, _ => None
          end
  end.
(** A sequence of calls; the values returned *)
Record call := mkCall { kOldT : trip; kOldS : option shape; kNewT : trip; kNewS : shape }.
Fixpoint addAll (c : coll) (ks : list call) (segLen : Q) : option (coll * list Q) :=
  match ks with
  | [] => Some (c, [])
  | k :: r => match add c (kOldT k) (kOldS k) (kNewT k) (kNewS k) segLen with
              | None => None
              | Some (c, v) => match addAll c r segLen with None => None | Some (c, vs) => Some (c, v :: vs) end
              end
  end.

(** ** Statistics: 444-494; [None]: not a number *)
Definition ratio (a b : Q) : option Q := if Qeq_bool b 0 then None else Some (a / b)%Q.
Fixpoint sortIns (x : Q) (l : list Q) : list Q := match l with [] => [x] | y :: t => if Qle_bool x y then x :: l else y :: sortIns x t end.
Definition sortQ (l : list Q) : list Q := fold_right sortIns [] l.
Definition qn (n : nat) : Q := inject_Z (Z.of_nat n).
Record stats := mkStats { sMedian : option Q; sAvgHop : option Q; sTrips : nat; sMatched : nat; sWithout : nat; sAvgFr : option Q; sMaxFr : option Q; sAn : list (option Q) }.
Definition getStats (c : coll) : stats :=
  mkStats (match cDiffs c with [] => Some (-1)%Q | _ => nth_error (sortQ (cDiffs c)) (length (cDiffs c) / 2) end)
          (match cHops c with [] => Some (-1)%Q | _ => ratio (sumQ (cHops c)) (qn (length (cHops c))) end)
          (cTrips c) (length (cResults c)) (cNoOrig c)
          (ratio (cAccSum c) (qn (length (cResults c))))
          (match cResults c with [] => Some (-1)%Q | _ => match nth_error (cResults c) (length (cResults c) - 1) with Some r => Some (rDist r) | None => None end end)
          (map (fun n => match ratio (qn n) (qn (length (cResults c))) with Some x => Some (x * 100)%Q | None => None end) (cAn c)).
End Collector.
