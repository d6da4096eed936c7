(** Independent reading of the command line. *)
From Coq Require Import Ascii String List Arith QArith Bool Sorted.
From Verif Require Import Args_model.
Import ListNotations.
Open Scope nat_scope.
Open Scope list_scope.

(** ** The options *)
Inductive key :=
| Output | Input | CfgFile | OsmFile | DropShapes | Mots | GridSize | BoxPadding | Overpass | Osmfilter | OsmOut | TripId
| WriteGraph | WriteTrgraph | DbgPath | Version | Help | Inplace | NoFastHops | NoAStar | NoTrie | WriteColors | Stats
| NoHopCache | Noise | Warn | KeepFields | PrintOpts | Param.
Definition key_dec : forall a b : key, {a = b} + {a <> b}.
Proof. decide equality. Defined.
(** The letter of an option. *)
Definition short (k : key) : option ascii :=
  match k with
  | Output => Some "o" | Input => Some "i" | CfgFile => Some "c" | OsmFile => Some "x" | DropShapes => Some "D" | Mots => Some "m"
  | GridSize => Some "g" | BoxPadding => Some "b" | OsmOut => Some "X" | TripId => Some "T" | DbgPath => Some "d" | Version => Some "v"
  | Help => Some "h" | Warn => Some "W" | KeepFields => Some "F" | PrintOpts => Some "p" | Param => Some "P"
  | _ => None
  end%char.
(** The name of an option. *)
Definition long (k : key) : option string :=
  match k with
  | Output => Some "output" | Input => Some "input" | CfgFile => Some "config" | OsmFile => Some "osm-file"
  | DropShapes => Some "drop-shapes" | Mots => Some "mots" | GridSize => Some "grid-size" | BoxPadding => Some "box-padding"
  | Overpass => Some "overpass" | Osmfilter => Some "osmfilter" | OsmOut => Some "osm-out" | TripId => Some "trip-id"
  | WriteGraph => Some "write-graph" | WriteTrgraph => Some "write-trgraph" | DbgPath => Some "dbg-path" | Version => Some "version"
  | Help => Some "help" | Inplace => Some "inplace" | NoFastHops => Some "no-fast-hops" | NoAStar => Some "no-a-star"
  | NoTrie => Some "no-trie" | WriteColors => Some "write-colors" | Stats => Some "stats" | NoHopCache => Some "no-hop-cache"
  | Noise => Some "gaussian-noise" | Warn => Some "warn" | KeepFields => Some "keep-additional-gtfs-fields"
  | PrintOpts | Param => None
  end%string.
(** Options with a value. *)
Definition valued (k : key) : bool :=
  match k with
  | Output | Input | CfgFile | OsmFile | Mots | GridSize | BoxPadding | OsmOut | TripId | DbgPath | Noise | Param => true
  | _ => false
  end.
(** The same for the name: "--drop-shapes" wants a value, -D does not. *)
Definition longValued (k : key) : bool := match k with DropShapes => true | _ => valued k end.

(** ** Arguments *)
Fixpoint has_char (c : ascii) (s : string) : Prop := match s with EmptyString => False | String d r => c = d \/ has_char c r end.
(** A name, or the beginning of it if no other name begins so. *)
Definition names (n : string) (k : key) : Prop :=
  long k = Some n \/
  ((exists t, long k = Some (n ++ t)%string) /\ forall k' t, long k' = Some (n ++ t)%string -> k' = k).
(** Not an option. *)
Definition plain (a : string) : Prop := a = "-"%string \/ forall s, a <> String "-" s.

(** One step of the reading.  [s] are letters still to be read from the current argument, [r] the arguments
    after it.  The step finds an option with its value, or an argument that is no option, or nothing. *)
Inductive takes : string -> list string -> list (key * string) -> list string -> string -> list string -> Prop :=
| tk_letters : forall c s r, c <> "-"%char -> takes "" (String "-" (String c s) :: r) [] [] (String c s) r
| tk_flag : forall k c s r, short k = Some c -> valued k = false -> takes (String c s) r [(k, ""%string)] [] s r
| tk_glued : forall k c s r, short k = Some c -> valued k = true -> s <> ""%string -> takes (String c s) r [(k, s)] [] "" r
| tk_next : forall k c v r, short k = Some c -> valued k = true -> takes (String c "") (v :: r) [(k, v)] [] "" r
| tk_long : forall k n r, ~ has_char "=" n -> names n k -> longValued k = false -> takes "" (("--" ++ n)%string :: r) [(k, ""%string)] [] "" r
| tk_long_eq : forall k n v r, ~ has_char "=" n -> names n k -> longValued k = true ->
    takes "" (("--" ++ n ++ "=" ++ v)%string :: r) [(k, v)] [] "" r
| tk_long_next : forall k n v r, ~ has_char "=" n -> names n k -> longValued k = true ->
    takes "" (("--" ++ n)%string :: v :: r) [(k, v)] [] "" r
| tk_plain : forall a r, plain a -> takes "" (a :: r) [] [a] "" r.
Inductive path : string -> list string -> list (key * string) -> list string -> string -> list string -> Prop :=
| pa_here : forall s r, path s r [] [] s r
| pa_step : forall s r us ps s1 r1 us' ps' s2 r2, takes s r us ps s1 r1 -> path s1 r1 us' ps' s2 r2 -> path s r (us ++ us') (ps ++ ps') s2 r2.

(** The arguments are these options and these other arguments. *)
Inductive line (args : list string) : list (key * string) -> list string -> Prop :=
| ln_all : forall us ps, path "" args us ps "" [] -> line args us ps
| ln_dashes : forall us ps r, path "" args us ps "" ("--"%string :: r) -> line args us (ps ++ r).

(** An option whose value is missing comes next. *)
Inductive missing : string -> list string -> Prop :=
| ms_short : forall k c, short k = Some c -> valued k = true -> missing (String c "") []
| ms_long : forall k n, ~ has_char "=" n -> names n k -> longValued k = true -> missing "" [("--" ++ n)%string].
(** Something that is no option, or an option with a value that must not have one, comes next. *)
Inductive unknown : string -> list string -> Prop :=
| un_short : forall c s r, (forall k, short k <> Some c) -> unknown (String c s) r
| un_long : forall n r, ~ has_char "=" n -> n <> ""%string -> (forall k, ~ names n k) -> unknown "" (("--" ++ n)%string :: r)
| un_long_eq : forall n v r, ~ has_char "=" n -> (forall k, ~ names n k) -> unknown "" (("--" ++ n ++ "=" ++ v)%string :: r)
| un_flag_eq : forall k n v r, ~ has_char "=" n -> names n k -> longValued k = false -> unknown "" (("--" ++ n ++ "=" ++ v)%string :: r).

(** No help and no version is asked for. *)
Definition quiet (us : list (key * string)) : Prop := forall k v, In (k, v) us -> k <> Help /\ k <> Version.

(** ** What the options mean *)
(** The values of an option, in order. *)
Definition values (k : key) (us : list (key * string)) : list string :=
  map snd (filter (fun u => if key_dec (fst u) k then true else false) us).
Definition present (k : key) (us : list (key * string)) : Prop := exists v, In (k, v) us.
Section Meant.
Variable atof : string -> Q.
Variable mPerDeg : Q.
Variable split : string -> ascii -> list string.
Variable trim : string -> string.
Variable typesOf : string -> list nat.
(** The last value of an option, read as a number. *)
Definition lastNum (k : key) (us : list (key * string)) (f : string -> Q) (d : Q) : Q := last (map f (values k us)) d.
Record meant (us : list (key * string)) (ps : list string) (c : cfg) : Prop := {
  mn_out : kOut c = last (values Output us) "gtfs-out"%string;
  mn_osm : kOsm c = last (values OsmFile us) ""%string;
  mn_osmout : kOsmOut c = last (values OsmOut us) ""%string;
  mn_trip : kTrip c = last (values TripId us) ""%string;
  mn_dbg : kDbg c = last (values DbgPath us) "."%string;
  mn_param : kParam c = String.concat "" (map (fun v => String (ascii_of_nat 10) v) (values Param us));
  mn_feeds : kFeeds c = values Input us ++ ps;
  mn_configs : kConfigs c = values CfgFile us;
  mn_motstr : kMotStr c = last (values Mots us) "all"%string;
  mn_mots : forall m, In m (kMots c) <-> exists p, In p (split (last (values Mots us) "all"%string) ","%char) /\ In m (typesOf (trim p));
  mn_sorted : StronglySorted lt (kMots c);
  mn_grid : kGrid c = lastNum GridSize us (fun v => atof v / mPerDeg)%Q (2000 / mPerDeg)%Q;
  mn_pad : kPad c = lastNum BoxPadding us atof 20000%Q;
  mn_noise : kNoise c = lastNum Noise us atof 0%Q;
  mn_drop : kDrop c = true <-> present DropShapes us;
  mn_graph : kGraph c = true <-> present WriteGraph us;
  mn_trgraph : kTrGraph c = true <-> present WriteTrgraph us;
  mn_overpass : kOverpass c = true <-> present Overpass us;
  mn_osmfilter : kOsmfilter c = true <-> present Osmfilter us;
  mn_inplace : kInPlace c = true <-> present Inplace us;
  mn_colors : kColors c = true <-> present WriteColors us;
  mn_fasthops : kNoFastHops c = true <-> present NoFastHops us;
  mn_astar : kNoAStar c = true <-> present NoAStar us;
  mn_trie : kNoTrie c = true <-> present NoTrie us;
  mn_cache : kNoHopCache c = true <-> present NoHopCache us;
  mn_stats : kStats c = true <-> present Stats us;
  mn_fields : kFields c = true <-> present KeepFields us;
  mn_print : kPrint c = true <-> present PrintOpts us;
  mn_verbose : kVerbose c = 1 /\ present Warn us \/ kVerbose c = 0 /\ ~ present Warn us
}.
End Meant.

(** ** Configuration files *)
(** Without -c: the files that exist, the installed one, that of the user, that of the directory. *)
Definition implicit (good : string -> bool) (installed home : string) (cwd : option string) (l : list string) : Prop :=
  exists a b c, l = a ++ b ++ c /\
    (good installed = true /\ a = [installed] \/ good installed = false /\ a = []) /\
    (good home = true /\ b = [home] \/ good home = false /\ b = []) /\
    ((exists d, cwd = Some d /\ good d = true /\ c = [d]) \/ (forall d, cwd = Some d -> good d = false) /\ c = []).
