(** Model of reading the command line.
    Source: /repo/src/pfaedle/config/ConfigReader.cpp:123-276 [ConfigReader::read],
    /repo/src/pfaedle/config/PfaedleConfig.h:20-66 [Config] and its initial values,
    /repo/src/pfaedle/PfaedleMain.cpp:477-521 [getCfgPaths].

    Simplifications.
    - [getopt_long] is that of the GNU C library, as documented: options are taken in order, arguments which are
      no options are collected and come after them (it moves them to the end of argv), long names may be
      abbreviated, "--" ends the options.  POSIXLY_CORRECT is not set.  Its code is not in /repo.
    - atof, split, trim, getTypesFromString are functions given to the model; M_PER_DEG is a number.
      Doubles are rationals.
    - Which text of [help], [toString] and the error messages is printed is left out; which of them
      ends the program is [output]. *)
From Coq Require Import Ascii String List Arith QArith Bool.
Import ListNotations.
Open Scope nat_scope.
Open Scope list_scope.

(** ** Tables *)
(** The codes 1, 4, 9.. of ConfigReader.cpp:127-154. *)
Definition num (n : nat) : ascii := ascii_of_nat n.
(** ConfigReader.cpp:127-154 [ops]: name, an argument is required, value returned *)
Definition ops : list (string * bool * ascii) :=
  [("output", true, "o"%char);
   ("input", true, "i"%char);
   ("config", true, "c"%char);
   ("osm-file", true, "x"%char);
   ("drop-shapes", true, "D"%char);
   ("mots", true, "m"%char);
   ("grid-size", true, "g"%char);
   ("box-padding", true, "b"%char);
   ("overpass", false, "a"%char);
   ("osmfilter", false, "f"%char);
   ("osm-out", true, "X"%char);
   ("trip-id", true, "T"%char);
   ("write-graph", false, num 1);
   ("write-trgraph", false, num 4);
   ("dbg-path", true, "d"%char);
   ("version", false, "v"%char);
   ("help", false, "h"%char);
   ("inplace", false, num 9);
   ("no-fast-hops", false, num 10);
   ("no-a-star", false, num 11);
   ("no-trie", false, num 12);
   ("write-colors", false, num 13);
   ("stats", false, num 14);
   ("no-hop-cache", false, num 15);
   ("gaussian-noise", true, num 16);
   ("warn", false, "W"%char);
   ("keep-additional-gtfs-fields", false, "F"%char)]%string.
(** ConfigReader.cpp:157 *)
Definition optstring : string := ":o:hvi:c:x:Dm:g:X:T:d:pP:FWb:".

(** ** getopt_long *)
Definition isColon (c : ascii) : bool := Ascii.eqb c ":"%char.
(** [strchr(optstring, c)]: the letter is an option, and whether ':' follows it *)
Fixpoint letterIn (s : string) (c : ascii) : option bool :=
  match s with
  | EmptyString => None
  | String d r => if Ascii.eqb c d then Some (match r with String e _ => isColon e | EmptyString => false end) else letterIn r c
  end.
Definition letter (c : ascii) : option bool := if isColon c then None else letterIn optstring c.

(** An option found ([optarg] is "" if it has none), or a reply of [getopt_long] which is no option:
    ':' (argument missing), '?' (unknown). *)
Inductive reply := Opt (c : ascii) (arg : string) | Missing | Unknown.

(** The letters of an argument that starts with one '-'.  [inr c]: the last letter is option [c] and needs the
    next argument. *)
Fixpoint letters (s : string) : list reply * option ascii :=
  match s with
  | EmptyString => ([], None)
  | String c r =>
      match letter c with
      | None => ([Unknown], None)
      | Some false => let '(l, e) := letters r in (Opt c EmptyString :: l, e)
      | Some true => match r with EmptyString => ([], Some c) | _ => ([Opt c r], None) end
      end
  end.

(** An argument after "--": the name and what follows '=' *)
Fixpoint nameVal (s : string) : string * option string :=
  match s with
  | EmptyString => (EmptyString, None)
  | String c r => if Ascii.eqb c "="%char then (EmptyString, Some r) else let '(n, v) := nameVal r in (String c n, v)
  end.
Definition opName (x : string * bool * ascii) : string := fst (fst x).
(** The exact name, or else the only one that starts with [n]. *)
Definition lookup (n : string) : option (bool * ascii) :=
  match find (fun x => String.eqb (opName x) n) ops with
  | Some (_, a, c) => Some (a, c)
  | None => match filter (fun x => String.prefix n (opName x)) ops with [(_, a, c)] => Some (a, c) | _ => None end
  end.

(** What an argument is: "-" and what has no '-' in front is no option. *)
Inductive arg := Plain | Dashes | Long (s : string) | Short (s : string).
Definition classify (a : string) : arg :=
  match a with
  | String c (String d r) =>
      if Ascii.eqb c "-"%char
      then if Ascii.eqb d "-"%char then match r with EmptyString => Dashes | _ => Long r end else Short (String d r)
      else Plain
  | _ => Plain
  end.

Definition stop (l : list reply) : bool := existsb (fun r => match r with Opt _ _ => false | _ => true end) l.
(** All replies of [getopt_long], up to the first that is no option, and the arguments left at [optind]. *)
Fixpoint scan (args : list string) : list reply * list string :=
  match args with
  | [] => ([], [])
  | a :: rest =>
      match classify a with
      | Plain => let '(l, ps) := scan rest in (l, a :: ps)
      | Dashes => ([], rest)
      | Long s =>
          let '(n, v) := nameVal s in
          match lookup n, v with
          | None, _ => ([Unknown], [])
          | Some (true, c), Some x => let '(l, ps) := scan rest in (Opt c x :: l, ps)
          | Some (false, c), Some _ => ([Unknown], [])
          | Some (false, c), None => let '(l, ps) := scan rest in (Opt c EmptyString :: l, ps)
          | Some (true, c), None =>
              match rest with
              | [] => ([Missing], [])
              | x :: rest' => let '(l, ps) := scan rest' in (Opt c x :: l, ps)
              end
          end
      | Short s =>
          let '(l, e) := letters s in
          if stop l then (l, [])
          else match e with
               | None => let '(l', ps) := scan rest in (l ++ l', ps)
               | Some d => match rest with
                           | [] => (l ++ [Missing], [])
                           | x :: rest' => let '(l', ps) := scan rest' in (l ++ Opt d x :: l', ps)
                           end
               end
      end
  end.

(** ** ConfigReader::read *)
(** PfaedleConfig.h:46-76 (useHMM, useCaching and solveMethod are never set) *)
Record cfg := mkCfg {
  kDbg : string; kTrip : string; kOut : string; kOsmOut : string; kOsm : string; kParam : string;
  kFeeds : list string; kConfigs : list string; kMots : list nat;
  kDrop : bool; kGraph : bool; kTrGraph : bool; kOverpass : bool; kOsmfilter : bool; kInPlace : bool; kColors : bool;
  kNoFastHops : bool; kNoAStar : bool; kNoTrie : bool; kNoHopCache : bool; kStats : bool; kFields : bool;
  kGrid : Q; kPad : Q; kNoise : Q; kVerbose : nat;
  kMotStr : string; kPrint : bool     (* motStr and printOpts of ConfigReader.cpp:124-125 *)
}.
Inductive output := PrintsVersion | PrintsHelp | SaysMissing | SaysUnknown | SaysError.
Inductive result := Exit (o : output) (code : nat) | Config (c : cfg).

Section Read.
Variable atof : string -> Q.
Variable mPerDeg : Q.
Variable split : string -> ascii -> list string.
Variable trim : string -> string.
Variable typesOf : string -> list nat.

(** PfaedleConfig.h:21-45 *)
Definition cfg0 : cfg :=
  mkCfg "."%string ""%string "gtfs-out"%string ""%string ""%string ""%string [] [] []
        false false false false false false false false false false false false false
        (2000 / mPerDeg)%Q 20000%Q 0%Q 0 "all"%string false.

Definition nl : string := String (ascii_of_nat 10) EmptyString.

(** ConfigReader.cpp:159-264: the switch.  [None]: default *)
Definition set (k : cfg) (c : ascii) (x : string) : output + cfg :=
  let '(mkCfg dbg trip out osmOut osm param feeds configs mots drop graph trg over filt inp col nfh nas ntr nhc st fld grid pad noise verb ms pr) := k in
  if Ascii.eqb c (num 1) then inr (mkCfg dbg trip out osmOut osm param feeds configs mots drop true trg over filt inp col nfh nas ntr nhc st fld grid pad noise verb ms pr)
  else if Ascii.eqb c (num 4) then inr (mkCfg dbg trip out osmOut osm param feeds configs mots drop graph true over filt inp col nfh nas ntr nhc st fld grid pad noise verb ms pr)
  else if Ascii.eqb c (num 10) then inr (mkCfg dbg trip out osmOut osm param feeds configs mots drop graph trg over filt inp col true nas ntr nhc st fld grid pad noise verb ms pr)
  else if Ascii.eqb c (num 11) then inr (mkCfg dbg trip out osmOut osm param feeds configs mots drop graph trg over filt inp col nfh true ntr nhc st fld grid pad noise verb ms pr)
  else if Ascii.eqb c (num 12) then inr (mkCfg dbg trip out osmOut osm param feeds configs mots drop graph trg over filt inp col nfh nas true nhc st fld grid pad noise verb ms pr)
  else if Ascii.eqb c "o" then inr (mkCfg dbg trip x osmOut osm param feeds configs mots drop graph trg over filt inp col nfh nas ntr nhc st fld grid pad noise verb ms pr)
  else if Ascii.eqb c "i" then inr (mkCfg dbg trip out osmOut osm param (feeds ++ [x]) configs mots drop graph trg over filt inp col nfh nas ntr nhc st fld grid pad noise verb ms pr)
  else if Ascii.eqb c "c" then inr (mkCfg dbg trip out osmOut osm param feeds (configs ++ [x]) mots drop graph trg over filt inp col nfh nas ntr nhc st fld grid pad noise verb ms pr)
  else if Ascii.eqb c "x" then inr (mkCfg dbg trip out osmOut x param feeds configs mots drop graph trg over filt inp col nfh nas ntr nhc st fld grid pad noise verb ms pr)
  else if Ascii.eqb c "D" then inr (mkCfg dbg trip out osmOut osm param feeds configs mots true graph trg over filt inp col nfh nas ntr nhc st fld grid pad noise verb ms pr)
  else if Ascii.eqb c "m" then inr (mkCfg dbg trip out osmOut osm param feeds configs mots drop graph trg over filt inp col nfh nas ntr nhc st fld grid pad noise verb x pr)
  else if Ascii.eqb c "g" then inr (mkCfg dbg trip out osmOut osm param feeds configs mots drop graph trg over filt inp col nfh nas ntr nhc st fld (atof x / mPerDeg)%Q pad noise verb ms pr)
  else if Ascii.eqb c "b" then inr (mkCfg dbg trip out osmOut osm param feeds configs mots drop graph trg over filt inp col nfh nas ntr nhc st fld grid (atof x) noise verb ms pr)
  else if Ascii.eqb c "X" then inr (mkCfg dbg trip out x osm param feeds configs mots drop graph trg over filt inp col nfh nas ntr nhc st fld grid pad noise verb ms pr)
  else if Ascii.eqb c "T" then inr (mkCfg dbg x out osmOut osm param feeds configs mots drop graph trg over filt inp col nfh nas ntr nhc st fld grid pad noise verb ms pr)
  else if Ascii.eqb c "P" then inr (mkCfg dbg trip out osmOut osm (param ++ (nl ++ x))%string feeds configs mots drop graph trg over filt inp col nfh nas ntr nhc st fld grid pad noise verb ms pr)
  else if Ascii.eqb c "d" then inr (mkCfg x trip out osmOut osm param feeds configs mots drop graph trg over filt inp col nfh nas ntr nhc st fld grid pad noise verb ms pr)
  else if Ascii.eqb c "a" then inr (mkCfg dbg trip out osmOut osm param feeds configs mots drop graph trg true filt inp col nfh nas ntr nhc st fld grid pad noise verb ms pr)
  else if Ascii.eqb c "f" then inr (mkCfg dbg trip out osmOut osm param feeds configs mots drop graph trg over true inp col nfh nas ntr nhc st fld grid pad noise verb ms pr)
  else if Ascii.eqb c (num 9) then inr (mkCfg dbg trip out osmOut osm param feeds configs mots drop graph trg over filt true col nfh nas ntr nhc st fld grid pad noise verb ms pr)
  else if Ascii.eqb c (num 13) then inr (mkCfg dbg trip out osmOut osm param feeds configs mots drop graph trg over filt inp true nfh nas ntr nhc st fld grid pad noise verb ms pr)
  else if Ascii.eqb c (num 14) then inr (mkCfg dbg trip out osmOut osm param feeds configs mots drop graph trg over filt inp col nfh nas ntr nhc true fld grid pad noise verb ms pr)
  else if Ascii.eqb c (num 15) then inr (mkCfg dbg trip out osmOut osm param feeds configs mots drop graph trg over filt inp col nfh nas ntr true st fld grid pad noise verb ms pr)
  else if Ascii.eqb c (num 16) then inr (mkCfg dbg trip out osmOut osm param feeds configs mots drop graph trg over filt inp col nfh nas ntr nhc st fld grid pad (atof x) verb ms pr)
  else if Ascii.eqb c "W" then inr (mkCfg dbg trip out osmOut osm param feeds configs mots drop graph trg over filt inp col nfh nas ntr nhc st fld grid pad noise 1 ms pr)
  else if Ascii.eqb c "F" then inr (mkCfg dbg trip out osmOut osm param feeds configs mots drop graph trg over filt inp col nfh nas ntr nhc st true grid pad noise verb ms pr)
  else if Ascii.eqb c "v" then inl PrintsVersion
  else if Ascii.eqb c "p" then inr (mkCfg dbg trip out osmOut osm param feeds configs mots drop graph trg over filt inp col nfh nas ntr nhc st fld grid pad noise verb ms true)
  else if Ascii.eqb c "h" then inl PrintsHelp
  else inl SaysError.

(** ConfigReader.cpp:156-265: the loop *)
Fixpoint loop (k : cfg) (l : list reply) : result :=
  match l with
  | [] => Config k
  | Missing :: _ => Exit SaysMissing 1
  | Unknown :: _ => Exit SaysUnknown 1
  | Opt c x :: r =>
      match set k c x with
      | inr k' => loop k' r
      | inl o => Exit o (match o with PrintsVersion | PrintsHelp => 0 | _ => 1 end)
      end
  end.

(** [std::set::insert] *)
Fixpoint insert (x : nat) (l : list nat) : list nat :=
  match l with
  | [] => [x]
  | y :: r => if x <? y then x :: l else if x =? y then l else y :: insert x r
  end.

(** ConfigReader.cpp:123-276 *)
Definition read (args : list string) : result :=
  let '(l, ps) := scan args in
  match loop cfg0 l with
  | Exit o c => Exit o c
  | Config (mkCfg dbg trip out osmOut osm param feeds configs mots drop graph trg over filt inp col nfh nas ntr nhc st fld grid pad noise verb ms pr) =>
      let mots' := fold_left (fun s p => fold_left (fun s m => insert m s) (typesOf (trim p)) s) (split ms ","%char) mots in
      Config (mkCfg dbg trip out osmOut osm param (feeds ++ ps) configs mots' drop graph trg over filt inp col nfh nas ntr nhc st fld grid pad noise verb ms pr)
  end.
End Read.

(** ** PfaedleMain.cpp:477-521 [getCfgPaths] *)
Section CfgPaths.
Variable good : string -> bool.          (* the file can be opened *)
Variables installed home : string.       (* the paths of 483-484 and 496-497 *)
Variable cwd : option string.            (* the path of 513, if getcwd succeeds *)
Definition cfgPaths (given : list string) : list string :=
  match given with
  | _ :: _ => given
  | [] =>
      let r1 := if good installed then [installed] else [] in
      let r2 := if good home then r1 ++ [home] else r1 in
      match cwd with Some c => if good c then r2 ++ [c] else r2 | None => r2 end
  end.
End CfgPaths.
