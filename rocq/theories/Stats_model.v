(** Model of the statistics of a run.
    Source: /repo/src/pfaedle/router/Stats.h:16-43, /repo/src/pfaedle/router/ShapeBuilder.cpp:382-392,
    423-429, 449, 483 (shapeify), /repo/src/pfaedle/PfaedleMain.cpp:251-263, 277-292, 355 (the loop over
    the configurations), 388-431 (stats.json).

    Simplifications.
    - size_t and the double counters are unbounded.  The numbers of the feed, the times and the memory
      of stats.json are left out, except for the time for solving.
    - What a configuration gives is the record [crun]: the out-degrees of the nodes of its graph, the
      distances pushed by getGtfsBox (Box_model.cfgBox), the statistics of shapeify.
    - std::map is a list with one entry per key; the order of the entries does not matter here.
    - With -T the program exits before (372). *)
From Coq Require Import Ascii String List Arith QArith Bool.
From Verif Require Import TripTrie_model Simi_model.
From Verif Require Main_model Labels_model.
Import ListNotations.
Open Scope nat_scope.
Open Scope list_scope.

(** Stats.h:16-28 *)
Record stats := mkStats { totNumTrips : nat; numTries : nat; numTrieLeafs : nat; solveTime : Q; dijkstraIters : nat }.
Definition stats0 : stats := mkStats 0 0 0 0%Q 0.
(** Stats.h:30-43 *)
Definition plus (a b : stats) : stats :=
  mkStats (totNumTrips a + totNumTrips b) (numTries a + numTries b) (numTrieLeafs a + numTrieLeafs b)
    (solveTime a + solveTime b)%Q (dijkstraIters a + dijkstraIters b).

(** ShapeBuilder.cpp:382-392, 423-429, 449, 483: [time] is what solving takes, [iters] the counter of
    the searches, set to 0 in 383. *)
Definition shapeifyStats {pos : Type} (fo : list (attrs * list (trie pos attrs))) (time : Q) (iters : nat) : stats :=
  let s1 := fold_left (fun s forest => fold_left (fun s tr => mkStats (totNumTrips s) (S (numTries s)) (numTrieLeafs s + length (ndTrips _ _ tr)) (solveTime s) (dijkstraIters s))
              (snd forest) s) fo stats0 in
  let s2 := fold_left (fun s forest => fold_left (fun s tr => fold_left (fun s trips => mkStats (totNumTrips s + length (snd trips)) (numTries s) (numTrieLeafs s) (solveTime s) (dijkstraIters s))
              (ndTrips _ _ tr) s) (snd forest) s) fo s1 in
  mkStats (totNumTrips s2) (numTries s2) (numTrieLeafs s2) time iters.

Record crun := mkRun { rDegs : list nat; rHops : list Q; rStats : stats }.
(** [graphDimensions[k]]: get or insert, and update *)
Fixpoint upd (m : list (string * (nat * nat))) (k : string) (f : nat * nat -> nat * nat) : list (string * (nat * nat)) :=
  match m with
  | [] => [(k, f (0, 0))]
  | (k', v) :: r => if String.eqb k' k then (k', f v) :: r else (k', v) :: upd r k f
  end.
Record acc := mkAcc { aDims : list (string * (nat * nat)); aHops : list Q; aStats : stats }.
(** 251-254 *)
Definition acc0 : acc := mkAcc [] [] stats0.
(** 277-279, 288-292, 355 *)
Definition account (post : string) (r : crun) (a : acc) : acc :=
  let d1 := upd (aDims a) post (fun v => (length (rDegs r), snd v)) in
  let d2 := fold_left (fun m d => upd m post (fun v => (fst v, snd v + d))) (rDegs r) d1 in
  mkAcc d2 (aHops a ++ rHops r) (plus (aStats a) (rStats r)).

Section Run.
Variable typesOf : string -> list nat.
Variable typeStr : nat -> string.
Variable work : nat -> crun.
(** 256-383: configuration [k] of [n] *)
Fixpoint runFrom (cmd : list nat) (n k : nat) (cfgs : list (list nat)) (a : acc) : acc :=
  match cfgs with
  | [] => a
  | mots :: r =>
      let used := Main_model.motISect mots cmd in
      if length used =? 0 then runFrom cmd n (S k) r a
      else runFrom cmd n (S k) r (account (if 1 <? n then Labels_model.fileNameMotStr typesOf typeStr used else ""%string) (work k) a)
  end.
(** 388-431.  The average is [None] if there is no hop (a division by 0). *)
Record report := mkReport { jDims : list (string * (nat * nat)); jNodes : nat; jEdges : nat; jAvg : option Q; jTries : nat; jLeafs : nat; jIters : nat; jTime : Q }.
Definition statistics (cmd : list nat) (cfgs : list (list nat)) : report :=
  let a := runFrom cmd (length cfgs) 0 cfgs acc0 in
  let '(nd, ed) := fold_left (fun s gd => (fst s + fst (snd gd), snd s + snd (snd gd))) (aDims a) (0, 0) in
  let sum := fold_left Qplus (aHops a) 0%Q in
  mkReport (aDims a) nd ed (if length (aHops a) =? 0 then None else Some (sum / inject_Z (Z.of_nat (length (aHops a))))%Q)
    (numTries (aStats a)) (numTrieLeafs (aStats a)) (dijkstraIters (aStats a)) (solveTime (aStats a)).
End Run.
