(** Model of the configuration of vehicle types.
    Source: /repo/src/pfaedle/config/MotConfigReader.cpp:23-744, MotConfig.h:16-25; osm/OsmReadOpts.h:49-198;
    router/Misc.h:35-89, 113-118.

    Simplifications.
    - Numbers are rational; doubles are not rounded.  A division by zero is the outcome [Bad].
    - configparser and util (split, trim) are not in the checkout.  A section maps keys to raw values; the functions
      that interpret a raw value are parameters ([None]: a parse exception).
    - The maps of maps of filters are flattened to lists of (key, value), flags without two entries for one
      (key, value).  Sets of strings are lists; comparisons are those of sets.
    - [Bad]: undefined behaviour (first part of an empty rule, a number that does not fit its type) or an infinite number.
    - [transWeight], the compilation of regular expressions and log messages are not modelled. *)
From Coq Require Import Ascii String List Arith ZArith NArith QArith Qround Bool.
Import ListNotations.
Open Scope string_scope.
Open Scope list_scope.
Open Scope nat_scope.

Inductive res (A : Type) : Type := Ok : A -> res A | Exc : res A | Bad : res A.
Arguments Ok {A}. Arguments Exc {A}. Arguments Bad {A}.
Definition bind {A B : Type} (x : res A) (f : A -> res B) : res B := match x with Ok a => f a | Exc => Exc | Bad => Bad end.
Notation "x <- e ;; k" := (bind e (fun x => k)) (at level 61, e at next level, right associativity).
Fixpoint mapM {A B : Type} (f : A -> res B) (l : list A) : res (list B) :=
  match l with [] => Ok [] | a :: r => b <- f a;; bs <- mapM f r;; Ok (b :: bs) end.

(** ** Rules: OsmReadOpts.h:42-75 *)
Record frule := mkF { fKey : string; fVal : string; fFlags : list string }.
Record drule := mkD { dAttr : string; dRule : frule }.
Notation fmap := (list ((string * string) * N)).
(** 712-722 *)
Definition getKv (kv : string) : string * string :=
  match index 0 "=" kv with
  | None => (kv, "")
  | Some p => (substring 0 p kv, substring (p + 1) (String.length kv - (p + 1)) kv)
  end.
(** 674-703 *)
Definition flagBit (f : string) : N :=
  if String.eqb f "rel_flat" then 2 else if String.eqb f "no_match_nds" then 16 else if String.eqb f "no_match_rels" then 4
  else if String.eqb f "no_match_ways" then 8 else if String.eqb f "mult_val_match" then 32 else 0.
Definition getFlags (fs : list string) : N := fold_left (fun r f => N.lor r (flagBit f)) fs 1%N.
(** 655-665 *)
Definition lastC (s : string) : option ascii := String.get (String.length s - 1) s.
Definition quote : ascii := "'"%char.
Definition unquote (s : string) : string :=
  match String.get 0 s, lastC s with
  | Some a, Some b => if (1 <? String.length s) && Ascii.eqb a quote && Ascii.eqb b quote then substring 1 (String.length s - 2) s else s
  | _, _ => s
  end.
(** 642-671 *)
Definition normRule (a : string) : option (string * string) :=
  match index 0 " -> " a with
  | None => None
  | Some p => Some (unquote (substring 0 p a), unquote (substring (p + 4) (String.length a - (p + 4)) a))
  end.
Fixpoint getNormRules (l : list string) : list (string * string) :=
  match l with [] => [] | a :: r => match normRule a with None => getNormRules r | Some x => x :: getNormRules r end end.
(** MultAttrMap[k].insert: an entry is not replaced *)
Definition keyEqb (a b : string * string) : bool := String.eqb (fst a) (fst b) && String.eqb (snd a) (snd b).
Definition fmInsert (m : fmap) (k : string * string) (f : N) : fmap := if existsb (fun e => keyEqb (fst e) k) m then m else m ++ [(k, f)].

(** ** Settings: OsmReadOpts.h:94-147, Misc.h:35-66 *)
Record lineRules := mkLR { lName : list string; lFrom : list string; lTo : list string; lColor : list string }.
Record osmOpts := mkO { oNoHup : fmap; oKeep : fmap; oLevels : list fmap; oDrop : fmap; oOneWay : fmap; oOneWayRev : fmap; oTwoWay : fmap; oStation : fmap; oBlocker : fmap; oTurnCycle : fmap;
  oStatNorm : list (string * string); oLineNorm : list (string * string); oTrackNorm : list (string * string); oIdNorm : list (string * string);
  oLines : lineRules; oNameRule : list drule; oPlatformRule : list drule; oIdRule : list drule; oEdgePlatform : list drule;
  oSnapLevel : N; oAngleSnap : Q; oSnapDist : Q; oCandDist : Q; oBlockDist : Q; oSpeed : Q; oSpeedFac : Q; oStatDists : list Q; oLevelSpeed : list Q;
  oOneWayPen : Q; oOneWayCost : Q; oNoLines : Q; oTurnAngle : Q; oPosRestr : fmap; oNegRestr : fmap; oNoRestr : fmap }.
Record routOpts := mkR { rFullTurn : N; rTurnAngle : Q; rLine : Q; rLineFrom : Q; rLineTo : Q; rNoLines : Q; rPlatform : Q; rStatUnmatched : Q; rStatDist : Q; rNonStation : Q;
  rTurnRestr : N; rPopReach : bool; rNoSelfHops : bool; rUseStations : bool; rTransition : Q; rTransMethod : string; rEmMethod : string; rSimiMethod : string }.
Record config := mkC { cOsm : osmOpts; cRout : routOpts }.

Section Reader.
Variable split : string -> ascii -> list string.
Variable trim : string -> string.
Variable V : Type.                                   (* raw values of options *)
Variable asStr : V -> string.
Variable asArr : V -> ascii -> list string.
Variable asBool : V -> option bool.
Variable asInt : V -> option Z.
Variable asDouble asPos : V -> option Q.
Variable asDoubles : V -> ascii -> option (list Q).

(** 706-715 *)
Definition getFRule (r : string) : res frule :=
  match split (trim r) "|"%char with [] => Bad | p :: fs => Ok (mkF (fst (getKv p)) (snd (getKv p)) fs) end.
(** 730-738 *)
Definition getDeepAttrRule (r : string) : res drule :=
  match String.get 0 r, index 0 "]" r with
  | Some c, Some p => if Ascii.eqb c "["%char then f <- getFRule (substring 1 (p - 1) r);; Ok (mkD (substring (p + 1) (String.length r - (p + 1)) r) f)
                      else Ok (mkD r (mkF "" "" []))
  | _, _ => Ok (mkD r (mkF "" "" []))
  end.

Variable sec : string -> option V.
Definition lift {A : Type} (x : option A) : res A := match x with Some a => Ok a | None => Exc end.
(** The pattern of 76-82, repeated for every filter *)
Fixpoint addRules (m : fmap) (l : list string) : res fmap :=
  match l with [] => Ok m | s :: r => f <- getFRule s;; addRules (fmInsert m (fKey f, fVal f) (getFlags (fFlags f))) r end.
Definition filt (name : string) : res fmap := match sec name with None => Ok [] | Some v => addRules [] (asArr v " "%char) end.
Definition deep (name : string) : res (list drule) := match sec name with None => Ok [] | Some v => mapM getDeepAttrRule (asArr v " "%char) end.
Definition norms (name : string) : list (string * string) := match sec name with None => [] | Some v => getNormRules (asArr v ";"%char) end.
Definition str (name def : string) : string := match sec name with None => def | Some v => asStr v end.
Definition pos (name : string) (def : Q) : res Q := match sec name with None => Ok def | Some v => lift (asPos v) end.
Definition dbl (name : string) (def : Q) : res Q := match sec name with None => Ok def | Some v => lift (asDouble v) end.
Definition bol (name : string) (def : bool) : res bool := match sec name with None => Ok def | Some v => lift (asBool v) end.
Definition lvl (pre : string) (i : nat) (post : string) : string := (pre ++ String (ascii_of_nat (48 + i)) post)%string.
Definition divQ (a b : Q) : res Q := if Qeq_bool b 0 then Bad else Ok (a / b)%Q.
Definition Qltb (a b : Q) : bool := negb (Qle_bool b a).
Definition trunc (q : Q) : Z := if Qle_bool 0 q then Qfloor q else Qceiling q.
(** Conversion to uint32_t *)
Definition toU32 (q : Q) : res N := if Qle_bool q (-1) || Qle_bool (inject_Z (2 ^ 32)) q then Bad else Ok (Z.to_N (trunc q)).
Definition cap32 (q : Q) : Q := if Qltb (inject_Z (2 ^ 32 - 1)) q then inject_Z (2 ^ 32 - 1) else q.
(** 233-252 *)
Definition lineRule (r : lineRules) (s : string) : lineRules :=
  let (k, v) := getKv s in
  let tags := split v ","%char in
  if String.eqb k "from_name" then mkLR (lName r) tags (lTo r) (lColor r)
  else if String.eqb k "to_name" then mkLR (lName r) (lFrom r) tags (lColor r)
  else if String.eqb k "line_name" then mkLR tags (lFrom r) (lTo r) (lColor r)
  else if String.eqb k "line_color" then mkLR (lName r) (lFrom r) (lTo r) tags else r.
Definition lineRulesOf : lineRules :=
  let d := mkLR [] [] [] ["colour"; "color"]%string in
  match sec "osm_line_relation_tags" with None => d | Some v => fold_left lineRule (asArr v " "%char) d end.
(** 254-259 *)
Definition snapDist : res Q :=
  match sec "osm_max_snap_distance" with None => Ok 50%Q | Some v => l <- lift (asDoubles v ","%char);; Ok (last l 50%Q) end.
(** 286-313, OsmReadOpts.h:132-135 *)
Definition defSpeeds : list Q := [85 * (2777 # 10000); 70 * (2777 # 10000); 55 * (2777 # 10000); 40 * (2777 # 10000); 30 * (2777 # 10000); 20 * (2777 # 10000); 10 * (2777 # 10000); 5 * (2777 # 10000)]%Q.
Definition facSpeed (p : nat * Q) : res (nat * Q) :=
  match sec (lvl "routing_lvl" (fst p) "_fac") with None => Ok p | Some v => f <- lift (asPos v);; x <- divQ 85 f;; Ok (fst p, (x * (2777 # 10000))%Q) end.
Definition avgSpeed (p : nat * Q) : res (nat * Q) :=
  match sec (lvl "osm_lvl" (fst p) "_avg_speed") with None => Ok p | Some v => x <- lift (asPos v);; Ok (fst p, (x * (2777 # 10000))%Q) end.
Definition speeds : res (list Q) := a <- mapM facSpeed (combine (seq 0 8) defSpeeds);; b <- mapM avgSpeed a;; Ok (map snd b).
(** The pattern "1 + deprecated option, or 1" of 315-334 and 400-417 *)
Definition incr (name : string) : res Q := match sec name with None => Ok 1%Q | Some v => x <- lift (asPos v);; Ok (1 + x)%Q end.
(** 344-371 *)
Definition fullTurn (speed0 : Q) : res N :=
  a <- match sec "routing_full_turn_punish" with None => Ok 1000%N | Some v => x <- lift (asPos v);; y <- divQ x speed0;; toU32 (cap32 (y * 10)%Q) end;;
  match sec "routing_full_turn_penalty" with None => Ok a | Some v => x <- lift (asPos v);; toU32 (cap32 (x * 10)%Q) end.
(** 422-457 *)
Definition lineFac (name : string) : res Q :=
  d <- match sec "routing_line_unmatched_punish_fac" with None => Ok 1%Q | Some v => x <- lift (asPos v);; Ok (1 + x / 3)%Q end;;
  pos name d.
(** The pattern of 459-481 and 513-531: the deprecated option is scaled *)
Definition defTransPen : Q := 83 # 10000.
Definition scaled (old new : string) (speed0 : Q) : res Q :=
  d <- match sec old with None => Ok 0%Q | Some v => x <- lift (asPos v);; f <- divQ defTransPen speed0;; Ok (x * f)%Q end;;
  pos new d.
(** 492-511: the default is scaled as well *)
Definition scaledDist (speed0 : Q) : res Q :=
  f <- divQ defTransPen speed0;;
  d <- match sec "routing_station_distance_punish_fac" with None => Ok (0 * f)%Q | Some v => x <- lift (asPos v);; Ok (x * f)%Q end;;
  pos "routing_station_move_penalty_fac" d.
(** 598-624 *)
Definition maxSpeed0 (l : list Q) : Q := fold_left (fun m s => if Qltb m s then s else m) l 0%Q.
Definition corFac (l : list Q) : Q := fold_left (fun m f => if Qltb f 1 then (m * f)%Q else m) l 1%Q.

(** ** 44-625: one section *)
Definition readSec : res config :=
  let em := str "routing_emission_method" "exp" in
  let tm := str "routing_transition_method" "exp" in
  let sm := str "station_similarity_classification_method" "jaccard-geodist" in
  us <- bol "routing_use_stations" true;;
  keep <- filt "osm_filter_keep";;
  lvls <- mapM (fun i => filt (lvl "osm_filter_lvl" i "")) (seq 0 8);;
  drop <- filt "osm_filter_drop";;
  snapLvl <- match sec "osm_max_snap_level" with None => Ok 7%N | Some v => x <- lift (asInt v);; Ok (Z.to_N (x mod 256)) end;;
  nohup <- filt "osm_filter_nohup";;
  ow <- filt "osm_filter_oneway";;
  owr <- filt "osm_filter_oneway_reverse";;
  tw <- filt "osm_filter_undirected";;
  stat <- filt "osm_filter_station";;
  blk <- filt "osm_filter_station_blocker";;
  tc <- filt "osm_filter_turning_circle";;
  posr <- filt "osm_node_positive_restriction";;
  negr <- filt "osm_node_negative_restriction";;
  nor <- filt "osm_filter_no_restriction";;
  nameR <- deep "osm_station_name_attrs";;
  platR <- deep "osm_track_number_tags";;
  idR <- deep "osm_station_id_attrs";;
  edgR <- deep "osm_edge_track_number_tags";;
  let lines := lineRulesOf in
  sd <- snapDist;;
  cd <- dbl "osm_max_station_cand_distance" (sd * 2)%Q;;
  osd <- dbl "osm_max_osm_station_distance" 15%Q;;
  bd <- dbl "osm_max_node_block_distance" (osd / 8)%Q;;
  spd <- speeds;;
  let speed0 := nth 0 spd 0%Q in
  owp0 <- incr "routing_one_way_meter_punish_fac";;
  owp <- pos "osm_one_way_speed_penalty_fac" owp0;;
  owc <- pos "osm_one_way_entry_cost" 0%Q;;
  tr0 <- toU32 (cap32 (owc * 10)%Q);;
  ft <- fullTurn speed0;;
  nsh <- bol "routing_no_self_hops" true;;
  ang <- pos "routing_full_turn_angle" 5%Q;;
  sang <- pos "routing_snap_full_turn_angle" ang;;
  tr <- toU32 (inject_Z (Z.of_N tr0) * 10)%Q;;
  nl0 <- incr "routing_no_lines_punish_fac";;
  nl <- pos "routing_no_lines_penalty_fac" nl0;;
  lu <- lineFac "routing_line_unmatched_time_penalty_fac";;
  lf <- lineFac "routing_line_station_from_unmatched_time_penalty";;
  lt <- lineFac "routing_line_station_to_unmatched_time_penalty";;
  plat <- scaled "routing_platform_unmatched_punish" "routing_platform_unmatched_penalty" speed0;;
  tp <- pos "routing_transition_penalty_fac" defTransPen;;
  sdp <- scaledDist speed0;;
  nsp <- scaled "routing_non_osm_station_punish" "routing_non_station_penalty" speed0;;
  sup <- pos "routing_station_unmatched_penalty" (nsp / 2)%Q;;
  let cor := corFac [lu; lf; lt; nl; owp] in
  ms <- divQ (maxSpeed0 spd) cor;;
  Ok (mkC (mkO nohup keep lvls drop ow owr tw stat blk tc
               (norms "station_normalize_chain") (norms "line_normalize_chain") (norms "track_normalize_chain") (norms "station_id_normalize_chain")
               lines nameR platR idR edgR snapLvl sang sd cd bd ms cor [osd] spd owp owc nl ang posr negr nor)
          (mkR ft ang lu lf lt nl plat sup sdp nsp tr true nsh us tp tm em sm)).
End Reader.

(** ** Comparison: MotConfig.h:23-25, OsmReadOpts.h:149-198, Misc.h:69-89 *)
Definition Qabsd (a b : Q) : Q := if Qle_bool b a then (a - b)%Q else (b - a)%Q.
Definition closeQ (tol a b : Q) : bool := Qltb (Qabsd a b) tol.
Fixpoint all2 {A : Type} (f : A -> A -> bool) (l1 l2 : list A) : bool :=
  match l1, l2 with [], [] => true | a :: r1, b :: r2 => f a b && all2 f r1 r2 | _, _ => false end.
Definition subset {A : Type} (eqb : A -> A -> bool) (a b : list A) : bool := forallb (fun x => existsb (eqb x) b) a.
Definition setEqb {A : Type} (eqb : A -> A -> bool) (a b : list A) : bool := subset eqb a b && subset eqb b a.
Definition entryEqb (a b : (string * string) * N) : bool := keyEqb (fst a) (fst b) && N.eqb (snd a) (snd b).
Definition fmEqb (a b : fmap) : bool := setEqb entryEqb a b.
Definition fruleEqb (a b : frule) : bool := String.eqb (fKey a) (fKey b) && String.eqb (fVal a) (fVal b) && setEqb String.eqb (fFlags a) (fFlags b).
Definition druleEqb (a b : drule) : bool := String.eqb (dAttr a) (dAttr b) && fruleEqb (dRule a) (dRule b).
Definition strsEqb (a b : list string) : bool := all2 String.eqb a b.
Definition linesEqb (a b : lineRules) : bool := strsEqb (lName a) (lName b) && strsEqb (lFrom a) (lFrom b) && strsEqb (lTo a) (lTo b) && strsEqb (lColor a) (lColor b).
Definition normEqb (a b : list (string * string)) : bool := all2 keyEqb a b.
Definition osmEqb (a b : osmOpts) : bool :=
  all2 (closeQ (1 # 10)) (oStatDists a) (oStatDists b) &&
  fmEqb (oNoHup a) (oNoHup b) && fmEqb (oKeep a) (oKeep b) && all2 fmEqb (firstn 7 (oLevels a)) (firstn 7 (oLevels b)) && fmEqb (oDrop a) (oDrop b) &&
  fmEqb (oOneWay a) (oOneWay b) && fmEqb (oOneWayRev a) (oOneWayRev b) && fmEqb (oTwoWay a) (oTwoWay b) && fmEqb (oStation a) (oStation b) &&
  fmEqb (oBlocker a) (oBlocker b) && fmEqb (oTurnCycle a) (oTurnCycle b) &&
  normEqb (oStatNorm a) (oStatNorm b) && normEqb (oLineNorm a) (oLineNorm b) && normEqb (oTrackNorm a) (oTrackNorm b) && linesEqb (oLines a) (oLines b) &&
  all2 druleEqb (oNameRule a) (oNameRule b) && all2 druleEqb (oPlatformRule a) (oPlatformRule b) && N.eqb (oSnapLevel a) (oSnapLevel b) &&
  closeQ (1 # 10) (oAngleSnap a) (oAngleSnap b) && closeQ (1 # 10) (oSnapDist a) (oSnapDist b) && closeQ (1 # 10) (oCandDist a) (oCandDist b) &&
  closeQ (1 # 10) (oBlockDist a) (oBlockDist b) && all2 (closeQ (1 # 10)) (oLevelSpeed a) (oLevelSpeed b) && closeQ (1 # 10) (oOneWayPen a) (oOneWayPen b) &&
  closeQ (1 # 10) (oOneWayCost a) (oOneWayCost b) && closeQ (1 # 10) (oNoLines a) (oNoLines b) && closeQ (1 # 10) (oTurnAngle a) (oTurnAngle b) &&
  closeQ (1 # 10) (oSpeedFac a) (oSpeedFac b) && closeQ (1 # 10) (oSpeed a) (oSpeed b) &&
  fmEqb (oPosRestr a) (oPosRestr b) && fmEqb (oNegRestr a) (oNegRestr b) && fmEqb (oNoRestr a) (oNoRestr b).
Definition routEqb (a b : routOpts) : bool :=
  N.eqb (rFullTurn a) (rFullTurn b) && closeQ (1 # 100) (rTurnAngle a) (rTurnAngle b) && closeQ (1 # 100) (rLine a) (rLine b) &&
  closeQ (1 # 100) (rLineFrom a) (rLineFrom b) && closeQ (1 # 100) (rLineTo a) (rLineTo b) && closeQ (1 # 100) (rNoLines a) (rNoLines b) &&
  closeQ (1 # 100) (rPlatform a) (rPlatform b) && closeQ (1 # 100) (rStatUnmatched a) (rStatUnmatched b) && closeQ (1 # 100) (rStatDist a) (rStatDist b) &&
  N.eqb (rTurnRestr a) (rTurnRestr b) && closeQ (1 # 100) (rTransition a) (rTransition b) && closeQ (1 # 100) (rNonStation a) (rNonStation b) &&
  String.eqb (rTransMethod a) (rTransMethod b) && String.eqb (rEmMethod a) (rEmMethod b) && String.eqb (rSimiMethod a) (rSimiMethod b) &&
  Bool.eqb (rUseStations a) (rUseStations b) && Bool.eqb (rPopReach a) (rPopReach b) && Bool.eqb (rNoSelfHops a) (rNoSelfHops b).
Definition cfgEqb (a b : config) : bool := osmEqb (cOsm a) (cOsm b) && routEqb (cRout a) (cRout b).

(** ** 626-638: sections with equal settings share a configuration; vehicle types are numbers, sets of them lists *)
Fixpoint addMots (ms add : list nat) : list nat := match add with [] => ms | m :: r => addMots (if existsb (Nat.eqb m) ms then ms else ms ++ [m]) r end.
Fixpoint putCfg (cs : list (config * list nat)) (c : config) (mots : list nat) : list (config * list nat) :=
  match cs with
  | [] => [(c, mots)]
  | (ex, ms) :: r => if cfgEqb c ex then (ex, addMots ms mots) :: r else (ex, ms) :: putCfg r c mots
  end.
Section Sections.
Variable split : string -> ascii -> list string.
Variable trim : string -> string.
Variable V : Type.
Variable asStr : V -> string.
Variable asArr : V -> ascii -> list string.
Variable asBool : V -> option bool.
Variable asInt : V -> option Z.
Variable asDouble asPos : V -> option Q.
Variable asDoubles : V -> ascii -> option (list Q).
Variable typesOf : string -> list nat.               (* Route::getTypesFromString *)
(** 44-639; the sections in any order *)
Fixpoint parse (cs : list (config * list nat)) (secs : list (string * (string -> option V))) : res (list (config * list nat)) :=
  match secs with
  | [] => Ok cs
  | (name, s) :: r => if String.eqb name "" then parse cs r
                      else c <- readSec split trim V asStr asArr asBool asInt asDouble asPos asDoubles s;; parse (putCfg cs c (typesOf name)) r
  end.
End Sections.
(** Misc.h:113-118 *)
Definition motISect (a b : list nat) : list nat := filter (fun m => existsb (Nat.eqb m) b) a.
