(** Model of the writing of a feed as operations on a file system.
    Source: /repo/src/pfaedle/gtfs/Writer.cpp:33-383 (write), 388-689 (the files; which of
    them are copies of the source), 706-729 (moveIntoZip).

    Simplifications.
    - A file is (directory, name) with contents a list over [B].  The target directory and
      the source may be the same (output in place).  A source that is an archive is a
      directory of its own.
    - A file is written piece by piece, one element a step, so that every prefix is a state
      in which the process can die.  Buffering makes some of these states impossible.  No
      loss of data in a crash of the machine (missing fsync) is modelled.
    - The contents of a file are a function of the feed in memory and of the source file of
      the same name ([render]; every writer function opens only this one); no result: the
      parser throws.
    - [tmpName]: util::getTmpFName (not in the checkout), of the directory's state.
    - libzip: zip_open does not write; the files added are kept (through their open
      handles); zip_close writes the archive ([pack]).  Errors of zip_close are not checked
      (line 377), as are errors in writing to a stream; see [wOk].
    - The directory exists (line 80).  Failure of getTmpFName is not modelled. *)
From Coq Require Import Ascii String List Arith NArith Bool.
Import ListNotations.
Open Scope nat_scope.

Definition key := (string * string)%type.
Definition keyEqb (a b : key) : bool := String.eqb (fst a) (fst b) && String.eqb (snd a) (snd b).
(** The files that exist. *)
Record files (B : Type) := mkFiles { entries : list (key * list B) }.
(** The contents of a file, if it exists; written [fs k]. *)
Definition look (B : Type) (fs : files B) (k : key) : option (list B) :=
  match find (fun e => keyEqb (fst e) k) (entries B fs) with Some (_, c) => Some c | None => None end.
Coercion look : files >-> Funclass.

Section Writing.
Variable B Feed : Type.
Notation files := (files B).
Definition setF (fs : files) (k : key) (c : option (list B)) : files :=
  let rest := filter (fun e => negb (keyEqb (fst e) k)) (entries B fs) in
  mkFiles B (match c with Some c => (k, c) :: rest | None => rest end).

Variable render : Feed -> string -> option (list B) -> option (list B).
(** writeTrips' result (Writer.cpp:644-658); lines 335-336. *)
Variable hasFreqs hasPublisher : Feed -> bool.
Variable tmpName : files -> string -> string.
Variable pack : list (string * list B) -> list B.

(** A file to write: its name, whether the source has to have it, whether the feed asks for
    it. *)
Record task := mkTask { tName : string; tIfSource : bool; tIf : bool }.
(** Writer.cpp:86-361: the files, in order. *)
Definition tasks (m : Feed) : list task :=
  [mkTask "agency.txt" false true; mkTask "stops.txt" false true; mkTask "routes.txt" false true;
   mkTask "calendar.txt" true true; mkTask "calendar_dates.txt" true true; mkTask "transfers.txt" true true;
   mkTask "fare_attributes.txt" true true; mkTask "fare_rules.txt" true true; mkTask "pathways.txt" true true;
   mkTask "levels.txt" true true; mkTask "shapes.txt" false true; mkTask "trips.txt" false true;
   mkTask "frequencies.txt" true (hasFreqs m); mkTask "stop_times.txt" false true;
   mkTask "feed_info.txt" false (hasPublisher m); mkTask "attributions.txt" false true].

(** Where the writer is. *)
Inductive wpc :=
| WTasks (ts : list task)                                        (* before a file *)
| WPut (t : task) (tmp : string) (rest : list B) (bad : bool) (ts : list task)   (* writing its temporary file *)
| WMove (t : task) (tmp : string) (ts : list task)               (* before renaming it *)
| WZip (tmp : string) (rest : list B) (bad : bool)               (* in zip_close *)
| WZipMove (tmp : string)
| WDone | WThrown.
Record wstate := mkW { wFs : files; wPc : wpc; wZip : list (string * list B) }.
(** What the environment does in a step: whether a call that is checked succeeds, whether
    a write, which is not, does. *)
Record outcome := mkOut { cOk : bool; wOk : bool }.

Variable src tgt : string.
(** The name of the archive, if the output is one (Writer.cpp:34-57). *)
Variable zipName : option string.

Definition appendF (fs : files) (k : key) (b : B) : files :=
  setF fs k (match fs k with Some c => Some (c ++ [b]) | None => None end).
(** std::rename *)
Definition renameF (fs : files) (k k' : key) : files := setF (setF fs k' (fs k)) k None.
(** One step. *)
Definition step (m : Feed) (o : outcome) (s : wstate) : wstate :=
  let fs := wFs s in
  match wPc s with
  | WTasks [] =>
      match zipName with
      | None => mkW fs WDone (wZip s)
      | Some z => (* 375-377 *)
          let tmp := tmpName fs z in mkW (setF fs (tgt, tmp) (Some [])) (WZip tmp (pack (wZip s)) false) (wZip s)
      end
  | WTasks (t :: ts) =>
      (* 132-135 and so on: [isGood] *)
      if tIf t && (negb (tIfSource t) || match fs (src, tName t) with Some _ => true | None => false end)
      then if cOk o
           then let tmp := tmpName fs (tName t) in
                match render m (tName t) (fs (src, tName t)) with
                | Some c => mkW (setF fs (tgt, tmp) (Some [])) (WPut t tmp c false ts) (wZip s)
                | None => mkW (setF fs (tgt, tmp) (Some [])) WThrown (wZip s)
                end
           else mkW fs WThrown (wZip s)
      else mkW fs (WTasks ts) (wZip s)
  | WPut t tmp [] bad ts => mkW fs (WMove t tmp ts) (wZip s)
  | WPut t tmp (b :: r) bad ts =>
      if bad then mkW fs (WPut t tmp r true ts) (wZip s)
      else if wOk o then mkW (appendF fs (tgt, tmp) b) (WPut t tmp r false ts) (wZip s)
      else mkW fs (WPut t tmp r true ts) (wZip s)
  | WMove t tmp ts =>
      if cOk o
      then match zipName with
           | None => (* 97-98 *) mkW (renameF fs (tgt, tmp) (tgt, tName t)) (WTasks ts) (wZip s)
           | Some _ => (* 706-729 *)
               mkW (setF fs (tgt, tmp) None) (WTasks ts)
                 (wZip s ++ match fs (tgt, tmp) with Some c => [(tName t, c)] | None => [] end)
           end
      else mkW fs WThrown (wZip s)
  | WZip tmp [] bad => mkW fs (WZipMove tmp) (wZip s)
  | WZip tmp (b :: r) bad =>
      if bad then mkW fs (WZip tmp r true) (wZip s)
      else if wOk o then mkW (appendF fs (tgt, tmp) b) (WZip tmp r false) (wZip s)
      else mkW fs (WZip tmp r true) (wZip s)
  | WZipMove tmp =>
      match zipName with
      | Some z => if cOk o then mkW (renameF fs (tgt, tmp) (tgt, z)) WDone (wZip s) else mkW fs WThrown (wZip s)
      | None => s
      end
  | WDone => s
  | WThrown => s
  end.
(** After the steps [os] (a crash: stop anywhere). *)
Fixpoint run (m : Feed) (os : list outcome) (s : wstate) : wstate :=
  match os with [] => s | o :: r => run m r (step m o s) end.
Definition init (m : Feed) (fs : files) : wstate := mkW fs (WTasks (tasks m)) [].
End Writing.

(** ** What the files are made of *)
(** Writer.cpp:388-689: routes, trips, feed_info and attributions are written from memory;
    shapes and stop_times from both; the other files are copies of the rows of the source. *)
Section Render.
Variable Row Feed : Type.
(** The rows written from memory; the rows of the two mixed files. *)
Variable memRows : Feed -> string -> list Row.
Variable mixRows : Feed -> string -> list Row -> list Row.
(** The csv format: header and rows, and back. *)
Variable B : Type.
Variable printF : string -> list Row -> list B.
Variable parseF : string -> list B -> option (list Row).
Definition inMemory (f : string) : bool := existsb (String.eqb f) ["routes.txt"; "trips.txt"; "feed_info.txt"; "attributions.txt"]%string.
Definition mixed (f : string) : bool := existsb (String.eqb f) ["shapes.txt"; "stop_times.txt"]%string.
(** The rows of the file; a source file that is missing is one without rows for shapes.txt
    (line 619) and an error for the others, here, for simplicity, also if nothing is needed
    from it but the header. *)
Definition renderF (m : Feed) (f : string) (old : option (list B)) : option (list B) :=
  if inMemory f then Some (printF f (memRows m f))
  else match old with
       | None => if String.eqb f "shapes.txt" then Some (printF f (mixRows m f [])) else None
       | Some c => match parseF f c with
                   | None => None
                   | Some rs => Some (printF f (if mixed f then mixRows m f rs else rs))
                   end
       end.
End Render.
