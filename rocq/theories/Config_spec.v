(** Specification of the configuration of vehicle types. *)
From Coq Require Import Ascii String List Arith ZArith NArith QArith Qround Bool.
From Verif Require Import Config_model.
Import ListNotations.
Open Scope string_scope.
Open Scope list_scope.
Open Scope nat_scope.

(** ** Text *)
Fixpoint has (c : ascii) (s : string) : Prop := match s with EmptyString => False | String a r => a = c \/ has c r end.
Fixpoint join (sep : ascii) (l : list string) : string :=
  match l with [] => "" | [x] => x | x :: r => (x ++ String sep (join sep r))%string end.
Definition blank (c : ascii) : Prop := c = " "%char \/ (9 <= nat_of_ascii c /\ nat_of_ascii c <= 13).
(** What is assumed of util::split and util::trim *)
Definition SplitOk (split : string -> ascii -> list string) : Prop :=
  forall sep l, l <> [] -> last l "" <> "" -> (forall x, In x l -> ~ has sep x) -> split (join sep l) sep = l.
Definition TrimOk (trim : string -> string) : Prop := forall s, (forall c, blank c -> ~ has c s) -> trim s = s.
(** KEY=VALUE, or KEY *)
Definition KeyVal (s k v : string) : Prop := ~ has "=" k /\ (s = (k ++ "=" ++ v)%string \/ (s = k /\ v = "")).
(** The bits of the flags: rel_flat 2, no_match_rels 4, no_match_ways 8, no_match_nds 16, mult_val_match 32; the lowest bit is always set *)
Definition flagTable : list (string * N) := [("rel_flat", 1%N); ("no_match_rels", 2%N); ("no_match_ways", 3%N); ("no_match_nds", 4%N); ("mult_val_match", 5%N)]%string.
Definition Mask (fl : list string) (f : N) : Prop := forall b, N.testbit f b = true <-> (b = 0%N \/ exists n, In (n, b) flagTable /\ In n fl).
(** Text in quotes *)
Inductive Unquoted : string -> string -> Prop :=
| Q_quoted : forall s, Unquoted ("'" ++ s ++ "'")%string s
| Q_plain : forall s, (forall r, s <> ("'" ++ r ++ "'")%string) -> Unquoted s s.
(** The first arrow of a text *)
Definition Arrow (s l r : string) : Prop := s = (l ++ " -> " ++ r)%string /\ forall l' r', s = (l' ++ " -> " ++ r')%string -> String.length l <= String.length l'.
Definition NormRule (s : string) (p : string * string) : Prop := exists l r, Arrow s l r /\ Unquoted l (fst p) /\ Unquoted r (snd p).
Inductive NormRules : list string -> list (string * string) -> Prop :=
| N_nil : NormRules [] []
| N_rule : forall s p l ps, NormRule s p -> NormRules l ps -> NormRules (s :: l) (p :: ps)
| N_skip : forall s l ps, (forall a b, s <> (a ++ " -> " ++ b)%string) -> NormRules l ps -> NormRules (s :: l) ps.

Section Spec.
Variable split : string -> ascii -> list string.
Variable trim : string -> string.
Variable V : Type.
Variable asStr : V -> string.
Variable asArr : V -> ascii -> list string.
Variable asBool : V -> option bool.
Variable asInt : V -> option Z.
Variable asDouble asPos : V -> option Q.
Variable asDoubles : V -> ascii -> option (list Q).

(** KEY=VALUE|FLAG|FLAG *)
Definition Rule (s k v : string) (fl : list string) : Prop := exists p, split (trim s) "|" = p :: fl /\ KeyVal p k v.
(** The flags of the first rule for a key and value *)
Definition FirstRule (l : list string) (k v : string) (f : N) : Prop :=
  exists l1 s l2 fl, l = l1 ++ s :: l2 /\ Rule s k v fl /\ Mask fl f /\ forall s' fl', In s' l1 -> ~ Rule s' k v fl'.
(** [KEY=VALUE|FLAG]ATTRIBUTE or ATTRIBUTE *)
Inductive DeepRule (s : string) : drule -> Prop :=
| D_rel : forall r a k v fl, s = ("[" ++ r ++ "]" ++ a)%string -> ~ has "]" r -> Rule r k v fl -> DeepRule s (mkD a (mkF k v fl))
| D_plain : (forall r a, s <> ("[" ++ r ++ "]" ++ a)%string) -> DeepRule s (mkD s (mkF "" "" [])).

Variable sec : string -> option V.
Definition FilterOf (name : string) (m : fmap) : Prop :=
  NoDup (map fst m) /\ forall k v f, In ((k, v), f) m <-> exists x, sec name = Some x /\ FirstRule (asArr x " ") k v f.
Definition DeepOf (name : string) (l : list drule) : Prop :=
  match sec name with None => l = [] | Some x => Forall2 DeepRule (asArr x " ") l end.
Definition NormOf (name : string) (l : list (string * string)) : Prop :=
  match sec name with None => l = [] | Some x => NormRules (asArr x ";") l end.
Definition StrOf (name def s : string) : Prop := match sec name with None => s = def | Some x => s = asStr x end.
Definition BoolOf (name : string) (def b : bool) : Prop := match sec name with None => b = def | Some x => asBool x = Some b end.
(** The value of an option; otherwise some default *)
Inductive Val (get : V -> option Q) (name : string) (def : Q -> Prop) (x : Q) : Prop :=
| V_set : forall v y, sec name = Some v -> get v = Some y -> (x == y)%Q -> Val get name def x
| V_def : sec name = None -> def x -> Val get name def x.
Notation pos := (Val asPos).
Notation dbl := (Val asDouble).
Notation is := (fun y x : Q => (x == y)%Q).
(** The tags of the last entry NAME=TAG,TAG *)
Definition TagsOf (name : string) (def l : list string) : Prop :=
  match sec "osm_line_relation_tags" with
  | None => l = def
  | Some x => (exists l1 s l2 v, asArr x " " = l1 ++ s :: l2 /\ KeyVal s name v /\ l = split v "," /\ forall s' v', In s' l2 -> ~ KeyVal s' name v') \/
              ((forall s v, In s (asArr x " ") -> ~ KeyVal s name v) /\ l = def)
  end.
Definition digit (i : nat) : string := nth i ["0"; "1"; "2"; "3"; "4"; "5"; "6"; "7"]%string "".
(** Speed of a level in m/s *)
Definition SpeedOf (i : nat) (x : Q) : Prop :=
  exists y, (x == y * (2777 # 10000))%Q /\
  pos ("osm_lvl" ++ digit i ++ "_avg_speed")%string
    (fun y => (exists v f, sec ("routing_lvl" ++ digit i ++ "_fac")%string = Some v /\ asPos v = Some f /\ ~ (f == 0)%Q /\ (y == 85 / f)%Q) \/
              (sec ("routing_lvl" ++ digit i ++ "_fac")%string = None /\ (y == nth i [85; 70; 55; 40; 30; 20; 10; 5] 0)%Q)) y.
(** Ten times a number, cut off at the greatest 32 bit number *)
Definition Tenths (x : Q) (n : N) : Prop :=
  (x * 10 <= inject_Z (2 ^ 32 - 1) -> inject_Z (Z.of_N n) <= x * 10 /\ x * 10 < inject_Z (Z.of_N n + 1))%Q /\ ((inject_Z (2 ^ 32 - 1) < x * 10)%Q -> n = (2 ^ 32 - 1)%N).

(** ** The settings of a section *)
Record OsmOf (o : osmOpts) : Prop := {
  os_nohup : FilterOf "osm_filter_nohup" (oNoHup o);
  os_keep : FilterOf "osm_filter_keep" (oKeep o);
  os_levels : length (oLevels o) = 8 /\ forall i m, nth_error (oLevels o) i = Some m -> FilterOf ("osm_filter_lvl" ++ digit i)%string m;
  os_drop : FilterOf "osm_filter_drop" (oDrop o);
  os_oneway : FilterOf "osm_filter_oneway" (oOneWay o);
  os_onewayrev : FilterOf "osm_filter_oneway_reverse" (oOneWayRev o);
  os_twoway : FilterOf "osm_filter_undirected" (oTwoWay o);
  os_station : FilterOf "osm_filter_station" (oStation o);
  os_blocker : FilterOf "osm_filter_station_blocker" (oBlocker o);
  os_turn : FilterOf "osm_filter_turning_circle" (oTurnCycle o);
  os_pos : FilterOf "osm_node_positive_restriction" (oPosRestr o);
  os_neg : FilterOf "osm_node_negative_restriction" (oNegRestr o);
  os_norestr : FilterOf "osm_filter_no_restriction" (oNoRestr o);
  os_statnorm : NormOf "station_normalize_chain" (oStatNorm o);
  os_linenorm : NormOf "line_normalize_chain" (oLineNorm o);
  os_tracknorm : NormOf "track_normalize_chain" (oTrackNorm o);
  os_idnorm : NormOf "station_id_normalize_chain" (oIdNorm o);
  os_line : TagsOf "line_name" [] (lName (oLines o));
  os_from : TagsOf "from_name" [] (lFrom (oLines o));
  os_to : TagsOf "to_name" [] (lTo (oLines o));
  os_color : TagsOf "line_color" ["colour"; "color"]%string (lColor (oLines o));
  os_name : DeepOf "osm_station_name_attrs" (oNameRule o);
  os_platform : DeepOf "osm_track_number_tags" (oPlatformRule o);
  os_id : DeepOf "osm_station_id_attrs" (oIdRule o);
  os_edge : DeepOf "osm_edge_track_number_tags" (oEdgePlatform o);
  os_snaplevel : match sec "osm_max_snap_level" with None => oSnapLevel o = 7%N | Some v => exists z, asInt v = Some z /\ Z.of_N (oSnapLevel o) = (z mod 256)%Z end;
  os_anglesnap : pos "routing_snap_full_turn_angle" (is (oTurnAngle o)) (oAngleSnap o);
  os_snapdist : match sec "osm_max_snap_distance" with None => (oSnapDist o == 50)%Q | Some v => exists l, asDoubles v "," = Some l /\ (oSnapDist o == last l 50)%Q end;
  os_canddist : dbl "osm_max_station_cand_distance" (is (oSnapDist o * 2)%Q) (oCandDist o);
  os_statdist : exists d, oStatDists o = [d] /\ dbl "osm_max_osm_station_distance" (is 15%Q) d /\ dbl "osm_max_node_block_distance" (is (d / 8)%Q) (oBlockDist o);
  os_speed : length (oLevelSpeed o) = 8 /\ forall i x, nth_error (oLevelSpeed o) i = Some x -> SpeedOf i x;
  os_onewaypen : pos "osm_one_way_speed_penalty_fac" (fun x => exists y, (x == 1 + y)%Q /\ pos "routing_one_way_meter_punish_fac" (is 0%Q) y) (oOneWayPen o);
  os_onewaycost : pos "osm_one_way_entry_cost" (is 0%Q) (oOneWayCost o);
  os_nolines : pos "routing_no_lines_penalty_fac" (fun x => exists y, (x == 1 + y)%Q /\ pos "routing_no_lines_punish_fac" (is 0%Q) y) (oNoLines o);
  os_angle : pos "routing_full_turn_angle" (is 5%Q) (oTurnAngle o)
}.
(** A deprecated option that is scaled with the speed of level 0 *)
Definition Scaled (old new : string) (speed0 x : Q) : Prop :=
  pos new (fun x => exists y, (x == y * ((83 # 10000) / speed0))%Q /\ pos old (is 0%Q) y) x.
Definition LineFac (name : string) (x : Q) : Prop := pos name (fun x => exists y, (x == 1 + y / 3)%Q /\ pos "routing_line_unmatched_punish_fac" (is 0%Q) y) x.
Record RoutOf (speed0 entryCost noLines angle : Q) (r : routOpts) : Prop := {
  ro_fullturn : match sec "routing_full_turn_penalty", sec "routing_full_turn_punish" with
    | Some v, _ => exists x, asPos v = Some x /\ Tenths x (rFullTurn r)
    | None, Some v => exists x, asPos v = Some x /\ Tenths (x / speed0) (rFullTurn r)
    | None, None => rFullTurn r = 1000%N
    end;
  ro_angle : rTurnAngle r = angle;
  ro_line : LineFac "routing_line_unmatched_time_penalty_fac" (rLine r);
  ro_from : LineFac "routing_line_station_from_unmatched_time_penalty" (rLineFrom r);
  ro_to : LineFac "routing_line_station_to_unmatched_time_penalty" (rLineTo r);
  ro_nolines : rNoLines r = noLines;
  ro_platform : Scaled "routing_platform_unmatched_punish" "routing_platform_unmatched_penalty" speed0 (rPlatform r);
  ro_dist : Scaled "routing_station_distance_punish_fac" "routing_station_move_penalty_fac" speed0 (rStatDist r);
  ro_nonstation : Scaled "routing_non_osm_station_punish" "routing_non_station_penalty" speed0 (rNonStation r);
  ro_unmatched : pos "routing_station_unmatched_penalty" (is (rNonStation r / 2)%Q) (rStatUnmatched r);
  ro_restr : exists n, Tenths entryCost n /\ rTurnRestr r = (10 * n)%N;
  ro_pop : rPopReach r = true;
  ro_self : BoolOf "routing_no_self_hops" true (rNoSelfHops r);
  ro_stations : BoolOf "routing_use_stations" true (rUseStations r);
  ro_transition : pos "routing_transition_penalty_fac" (is (83 # 10000)%Q) (rTransition r);
  ro_transm : StrOf "routing_transition_method" "exp" (rTransMethod r);
  ro_em : StrOf "routing_emission_method" "exp" (rEmMethod r);
  ro_simi : StrOf "station_similarity_classification_method" "jaccard-geodist" (rSimiMethod r)
}.
Definition SettingsOf (c : config) : Prop := OsmOf (cOsm c) /\ RoutOf (nth 0 (oLevelSpeed (cOsm c)) 0%Q) (oOneWayCost (cOsm c)) (oNoLines (cOsm c)) (oTurnAngle (cOsm c)) (cRout c).
End Spec.

(** ** The greatest speed *)
(** Some of the elements of a list *)
Inductive Some_of {A : Type} : list A -> list A -> Prop :=
| So_nil : Some_of [] []
| So_keep : forall x a b, Some_of a b -> Some_of (x :: a) (x :: b)
| So_drop : forall x a b, Some_of a b -> Some_of a (x :: b).
Definition product (l : list Q) : Q := fold_right Qmult 1%Q l.

(** The factors that make an edge cheaper or dearer *)
Definition factors (c : config) : list Q := [rLine (cRout c); rLineFrom (cRout c); rLineTo (cRout c); rNoLines (cRout c); oOneWayPen (cOsm c)].
(** The greatest speed, times the product of the factors below 1, is that of the fastest level. *)
Record FastestOf (c : config) : Prop := {
  fa_fac : (oSpeedFac (cOsm c) == product (filter (fun f => negb (Qle_bool 1 f)) (factors c)))%Q;
  fa_nonzero : ~ (oSpeedFac (cOsm c) == 0)%Q;
  fa_speed : exists m, (oSpeed (cOsm c) * oSpeedFac (cOsm c) == m)%Q /\ In m (oLevelSpeed (cOsm c)) /\ forall s, In s (oLevelSpeed (cOsm c)) -> (s <= m)%Q
}.

(** ** Sections that share settings *)
Definition sameSet {A : Type} (a b : list A) : Prop := forall x, In x a <-> In x b.
Definition within (tol a b : Q) : Prop := (a - b < tol)%Q /\ (b - a < tol)%Q.
Definition sameRule (a b : drule) : Prop :=
  dAttr a = dAttr b /\ fKey (dRule a) = fKey (dRule b) /\ fVal (dRule a) = fVal (dRule b) /\ sameSet (fFlags (dRule a)) (fFlags (dRule b)).
Notation near10 := (within (1 # 10)).
Notation near100 := (within (1 # 100)).
(** What is compared; not compared: filter of level 7, rules and normalisation of ids, track numbers of edges *)
Record Agree (a b : config) : Prop := {
  ag_filters : Forall2 sameSet
    ([oNoHup (cOsm a); oKeep (cOsm a); oDrop (cOsm a); oOneWay (cOsm a); oOneWayRev (cOsm a); oTwoWay (cOsm a); oStation (cOsm a); oBlocker (cOsm a); oTurnCycle (cOsm a); oPosRestr (cOsm a); oNegRestr (cOsm a); oNoRestr (cOsm a)] ++ firstn 7 (oLevels (cOsm a)))
    ([oNoHup (cOsm b); oKeep (cOsm b); oDrop (cOsm b); oOneWay (cOsm b); oOneWayRev (cOsm b); oTwoWay (cOsm b); oStation (cOsm b); oBlocker (cOsm b); oTurnCycle (cOsm b); oPosRestr (cOsm b); oNegRestr (cOsm b); oNoRestr (cOsm b)] ++ firstn 7 (oLevels (cOsm b)));
  ag_norms : oStatNorm (cOsm a) = oStatNorm (cOsm b) /\ oLineNorm (cOsm a) = oLineNorm (cOsm b) /\ oTrackNorm (cOsm a) = oTrackNorm (cOsm b);
  ag_lines : oLines (cOsm a) = oLines (cOsm b);
  ag_rules : Forall2 sameRule (oNameRule (cOsm a)) (oNameRule (cOsm b)) /\ Forall2 sameRule (oPlatformRule (cOsm a)) (oPlatformRule (cOsm b));
  ag_level : oSnapLevel (cOsm a) = oSnapLevel (cOsm b);
  ag_osm : Forall2 near10
    [oAngleSnap (cOsm a); oSnapDist (cOsm a); oCandDist (cOsm a); oBlockDist (cOsm a); oOneWayPen (cOsm a); oOneWayCost (cOsm a); oNoLines (cOsm a); oTurnAngle (cOsm a); oSpeedFac (cOsm a); oSpeed (cOsm a)]
    [oAngleSnap (cOsm b); oSnapDist (cOsm b); oCandDist (cOsm b); oBlockDist (cOsm b); oOneWayPen (cOsm b); oOneWayCost (cOsm b); oNoLines (cOsm b); oTurnAngle (cOsm b); oSpeedFac (cOsm b); oSpeed (cOsm b)];
  ag_speeds : Forall2 near10 (oLevelSpeed (cOsm a)) (oLevelSpeed (cOsm b));
  ag_dists : Forall2 near10 (oStatDists (cOsm a)) (oStatDists (cOsm b));
  ag_rout : Forall2 near100
    [rTurnAngle (cRout a); rLine (cRout a); rLineFrom (cRout a); rLineTo (cRout a); rNoLines (cRout a); rPlatform (cRout a); rStatUnmatched (cRout a); rStatDist (cRout a); rTransition (cRout a); rNonStation (cRout a)]
    [rTurnAngle (cRout b); rLine (cRout b); rLineFrom (cRout b); rLineTo (cRout b); rNoLines (cRout b); rPlatform (cRout b); rStatUnmatched (cRout b); rStatDist (cRout b); rTransition (cRout b); rNonStation (cRout b)];
  ag_exact : rFullTurn (cRout a) = rFullTurn (cRout b) /\ rTurnRestr (cRout a) = rTurnRestr (cRout b) /\ rPopReach (cRout a) = rPopReach (cRout b) /\ rNoSelfHops (cRout a) = rNoSelfHops (cRout b) /\ rUseStations (cRout a) = rUseStations (cRout b);
  ag_methods : rTransMethod (cRout a) = rTransMethod (cRout b) /\ rEmMethod (cRout a) = rEmMethod (cRout b) /\ rSimiMethod (cRout a) = rSimiMethod (cRout b)
}.

(** What the sections read, in their order, with their names, become: settings with the vehicle types they apply to *)
Record Merged (typesOf : string -> list nat) (read : list (string * config)) (out : list (config * list nat)) : Prop := {
  (* the settings are those of some of the sections *)
  mg_some : Some_of (map fst out) (map snd read);
  (* every section agrees with some of them *)
  mg_cover : forall n c, In (n, c) read -> exists i ex ms, nth_error out i = Some (ex, ms) /\ Agree c ex;
  (* the types of a section are those of the first settings it agrees with *)
  mg_types : forall i ex ms, nth_error out i = Some (ex, ms) ->
    forall t, In t ms <-> exists n c, In (n, c) read /\ In t (typesOf n) /\ Agree c ex /\ forall j ex' ms', j < i -> nth_error out j = Some (ex', ms') -> ~ Agree c ex';
  (* no settings agree with earlier ones *)
  mg_apart : forall i j a b ms ms', i < j -> nth_error out i = Some (a, ms) -> nth_error out j = Some (b, ms') -> ~ Agree b a
}.
