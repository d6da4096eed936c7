(** Model of the graphs a run outputs and of their file names.
    Source: /repo/src/pfaedle/PfaedleMain.cpp:256-266 (filePost), 361-381 (--write-graph,
    --write-trgraph), 449-476 (getFileNameMotStr), /repo/src/pfaedle/router/Misc.h:116-123
    (motISect).

    Simplifications.
    - Types are numbers, sets of types are lists without duplicates, in the order of the set.
    - The library's [getTypesFromString] and [getTypeString] are parameters.
    - The content of a file is the number of the configuration whose graph it holds.
    - Only runs without -T in which no configuration ends the program. *)
From Coq Require Import Ascii String List Arith Bool.
From Verif Require Import Main_model.
Import ListNotations.
Open Scope string_scope.
Open Scope list_scope.
Open Scope nat_scope.

(** PfaedleMain.cpp:453-455 *)
Definition names : list string :=
  ["tram"; "subway"; "rail"; "bus"; "ferry"; "cablecar"; "gondola"; "funicular"; "coach"; "trolleybus"; "monorail"].

Section Labels.
Variable typesOf : string -> list nat.
Variable typeStr : nat -> string.

(** PfaedleMain.cpp:457-466: the names written, and what is left of the set. *)
Fixpoint takeNames (ns : list string) (tmp : list nat) : list string * list nat :=
  match ns with
  | [] => ([], tmp)
  | n :: r =>
      let types := typesOf n in
      let isect := motISect tmp types in
      if length isect =? length types
      then let (ts, rest) := takeNames r (filter (fun t => negb (has isect t)) tmp) in (n :: ts, rest)
      else takeNames r tmp
  end.
(** PfaedleMain.cpp:462-463, 469-470: separator and name. *)
Definition addTok (s tok : string) : string :=
  if String.length s =? 0 then (s ++ tok)%string else (s ++ "-" ++ tok)%string.
(** PfaedleMain.cpp:449-476 [getFileNameMotStr]. *)
Definition fileNameMotStr (mots : list nat) : string :=
  let (ns, rest) := takeNames names mots in
  fold_left addTok (ns ++ map typeStr rest) "".

(** PfaedleMain.cpp:256-263: the name of a configuration's transit graph; [n]: the number of
    configurations. *)
Definition trgraphFile (n : nat) (used : list nat) : string :=
  ("trgraph-" ++ (if Nat.ltb 1 n then fileNameMotStr used else "") ++ ".json")%string.
(** PfaedleMain.cpp:256-381: the files written, in this order. *)
Fixpoint writesFrom (wg wt : bool) (cmd : list nat) (n k : nat) (cfgs : list (list nat)) : list (string * nat) :=
  match cfgs with
  | [] => []
  | mots :: r =>
      let used := motISect mots cmd in
      (if length used =? 0 then []
       else (if wg then [("graph.json"%string, k)] else []) ++ (if wt then [(trgraphFile n used, k)] else [])) ++
      writesFrom wg wt cmd n (S k) r
  end.
Definition writes (wg wt : bool) (cmd : list nat) (cfgs : list (list nat)) : list (string * nat) :=
  writesFrom wg wt cmd (length cfgs) 0 cfgs.
End Labels.
