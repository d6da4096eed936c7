(** C49, C50, C62: the configuration of vehicle types. *)
From Coq Require Import Ascii String List Arith ZArith NArith QArith Qround Bool Lia.
From Verif Require Import ListAux StrAux Config_model Config_spec Config_proofs.
Import ListNotations.
Open Scope string_scope.
Open Scope list_scope.
Open Scope nat_scope.

(** ** Functions that meet the assumptions, used in the examples *)
(** std::getline with a separator *)
Fixpoint cut (c : ascii) (s cur : string) : list string :=
  match s with
  | "" => if String.eqb cur "" then [] else [cur]
  | String a r => if Ascii.eqb a c then cur :: cut c r "" else cut c r (cur ++ String a "")%string
  end.
Definition lineSplit (s : string) (c : ascii) : list string := cut c s "".
Definition isBlank (c : ascii) : bool := Ascii.eqb c " " || ((9 <=? nat_of_ascii c) && (nat_of_ascii c <=? 13)).
Fixpoint ltrim (s : string) : string := match s with "" => "" | String c r => if isBlank c then ltrim r else s end.
Fixpoint rtrim (s : string) : string :=
  match s with "" => "" | String c r => match rtrim r with "" => if isBlank c then "" else String c "" | r' => String c r' end end.
Definition bothTrim (s : string) : string := rtrim (ltrim s).
Lemma cut_skip : forall c x cur r, ~ has c x -> cut c (x ++ r) cur = cut c r (cur ++ x).
Proof.
  intros c x. induction x as [|a x IH]; intros cur r H; cbn [String.append cut]; [rewrite str_app_nil_r; reflexivity|]. cbn [has] in H. destruct (Ascii.eqb_spec a c) as [E | E]; [exfalso; apply H; left; exact E|]. rewrite IH by tauto. rewrite <- str_app_assoc. reflexivity.
Qed.
Lemma lineSplit_ok : SplitOk lineSplit.
Proof.
  intros c l. unfold lineSplit. induction l as [|x l IH]; intros Hne Hlast Hno; [contradiction|]. assert (Hx : ~ has c x) by (apply Hno; left; reflexivity). destruct l as [|y l].
  - cbn [join last] in *. rewrite <- (str_app_nil_r x) at 1. rewrite cut_skip by exact Hx. cbn [cut String.append]. destruct (String.eqb_spec x "") as [E | E]; [contradiction | reflexivity].
  - change (join c (x :: y :: l)) with (x ++ String c (join c (y :: l)))%string. rewrite cut_skip by exact Hx. cbn [cut String.append]. rewrite Ascii.eqb_refl. f_equal. apply IH; [discriminate | exact Hlast | intros z Hz; apply Hno; right; exact Hz].
Qed.
Lemma isBlank_ok : forall c, isBlank c = true <-> blank c.
Proof. intros c. unfold isBlank, blank. rewrite orb_true_iff, andb_true_iff, !Nat.leb_le. destruct (Ascii.eqb_spec c " "); intuition congruence. Qed.
Lemma bothTrim_ok : TrimOk bothTrim.
Proof.
  intros s H. unfold bothTrim. assert (B : forall c r, (forall c', blank c' -> ~ has c' (String c r)) -> isBlank c = false /\ forall c', blank c' -> ~ has c' r).
  { intros c r G. split; [destruct (isBlank c) eqn:E; [|reflexivity]; apply isBlank_ok in E; exfalso; apply (G c E); left; reflexivity | intros c' Hc' Hh; apply (G c' Hc'); right; exact Hh]. }
  assert (R : forall s, (forall c, blank c -> ~ has c s) -> rtrim s = s).
  { clear s H. induction s as [|c r IH]; intros G; [reflexivity|]. destruct (B c r G) as (G1 & G2). cbn [rtrim]. rewrite (IH G2), G1. destruct r; reflexivity. }
  destruct s as [|c r]; [reflexivity|]. destruct (B c r H) as (G1 & G2). cbn [ltrim]. rewrite G1. apply R. exact H.
Qed.

(** ** C49: rules *)
(** Any text is cut at the first "=", in exactly one way. *)
Theorem C49_keyval : forall s, KeyVal s (fst (getKv s)) (snd (getKv s)) /\ forall k v, KeyVal s k v -> getKv s = (k, v).
Proof. intros s. split; [apply getKv_ok | intros k v; apply getKv_fun]. Qed.
Print Assumptions C49_keyval.
Example C49_keyval_ex : getKv "a=b=c" = ("a", "b=c") /\ getKv "a" = ("a", "") /\ getKv "=b" = ("", "b") /\ getKv "" = ("", "").
Proof. vm_compute. repeat split. Qed.

Lemma has_app : forall c a b, has c (a ++ b)%string <-> has c a \/ has c b.
Proof. intros c a b. induction a as [|x a IH]; cbn [String.append has]; [tauto|]. rewrite IH. tauto. Qed.
Lemma has_join : forall c sep l, has c (join sep l) -> c = sep \/ exists x, In x l /\ has c x.
Proof.
  intros c sep l. induction l as [|x l IH]; intros H; [destruct H|]. destruct l as [|y l]; [right; exists x; split; [left; reflexivity | exact H]|]. change (join sep (x :: y :: l)) with (x ++ String sep (join sep (y :: l)))%string in H. apply has_app in H. destruct H as [H | [H | H]]; [right; exists x; split; [left; reflexivity | exact H] | left; symmetry; exact H|].
  destruct (IH H) as [E | (z & Hz & E)]; [left; exact E | right; exists z; split; [right; exact Hz | exact E]].
Qed.
(** A filter rule written as KEY=VALUE|FLAG|FLAG, or KEY|FLAG without a value, is read back. *)
Theorem C49_rule : forall split trim k v (fl : list string) kv, SplitOk split -> TrimOk trim -> (kv = (k ++ "=" ++ v)%string \/ (kv = k /\ v = "")) -> ~ has "=" k ->
  (forall x, In x (kv :: fl) -> ~ has "|" x /\ forall c, blank c -> ~ has c x) -> last (kv :: fl) "" <> "" ->
  getFRule split trim (join "|" (kv :: fl)) = Ok (mkF k v fl).
Proof.
  intros split trim k v fl kv HS HT Hkv Hk Hc Hl. apply getFRule_fun. exists kv. split; [|split; assumption]. rewrite HT; [apply HS; [discriminate | exact Hl | intros x Hx; exact (proj1 (Hc x Hx))]|]. intros c Hb Hh. apply has_join in Hh. destruct Hh as [-> | (x & Hx & Hh)]; [|exact (proj2 (Hc x Hx) c Hb Hh)]. destruct Hb as [E | (E1 & E2)]; [discriminate|]. cbn in E2. lia.
Qed.
Print Assumptions C49_rule.
(** Any rule that is read is of this form; a second reading is impossible. *)
Theorem C49_rule_unique : forall split trim s f, getFRule split trim s = Ok f -> Rule split trim s (fKey f) (fVal f) (fFlags f) /\ forall k v fl, Rule split trim s k v fl -> f = mkF k v fl.
Proof.
  intros split trim s f H. split; [apply getFRule_ok; exact H|]. intros k v fl HR. rewrite (getFRule_fun _ _ _ _ _ _ HR) in H. congruence.
Qed.
Print Assumptions C49_rule_unique.
Example C49_rule_ex : getFRule lineSplit bothTrim "railway=tram|rel_flat|no_match_nds" = Ok (mkF "railway" "tram" ["rel_flat"; "no_match_nds"]).
Proof. exact (C49_rule lineSplit bothTrim "railway" "tram" ["rel_flat"; "no_match_nds"] "railway=tram" lineSplit_ok bothTrim_ok (or_introl eq_refl) ltac:(cbn; intuition discriminate)
  ltac:(intros x [<- | [<- | [<- | []]]]; (split; [cbn; intuition discriminate|]; intros c [-> | (H1 & H2)]; cbn [has]; [intuition discriminate|]; intros H; repeat (destruct H as [<- | H]; [vm_compute in H2; lia|]); destruct H)) ltac:(discriminate)). Qed.
(** The flags of a rule *)
Theorem C49_flags : forall fl, Mask fl (getFlags fl) /\ forall f, Mask fl f -> f = getFlags fl.
Proof. intros fl. split; [apply getFlags_ok|]. intros f H. exact (Mask_fun _ _ _ H (getFlags_ok fl)). Qed.
Print Assumptions C49_flags.
Example C49_flags_ex : getFlags ["no_match_ways"; "unknown"; "rel_flat"; "rel_flat"] = 11%N.
Proof. reflexivity. Qed.
(** Normalisation rules *)
Theorem C49_norm : forall l, NormRules l (getNormRules l) /\ forall ps, NormRules l ps -> ps = getNormRules l.
Proof. intros l. split; [apply getNormRules_ok|]. intros ps H. exact (NormRules_fun _ _ _ H (getNormRules_ok l)). Qed.
Print Assumptions C49_norm.
(** 'A' -> 'B' is read back as A, B if the arrow in the middle is the first one. *)
Theorem C49_norm_quoted : forall a b, (forall l r, ("'" ++ a ++ "' -> '" ++ b ++ "'")%string = (l ++ " -> " ++ r)%string -> String.length a + 2 <= String.length l) ->
  getNormRules ["'" ++ a ++ "' -> '" ++ b ++ "'"]%string = [(a, b)].
Proof.
  intros a b H. symmetry. apply C49_norm. apply N_rule; [|constructor]. exists ("'" ++ a ++ "'")%string, ("'" ++ b ++ "'")%string. split; [|split; constructor]. split.
  - rewrite <- !str_app_assoc. reflexivity.
  - intros l' r' E. specialize (H l' r' E). rewrite !str_app_length. cbn [String.length]. lia.
Qed.
Print Assumptions C49_norm_quoted.
Example C49_norm_ex : getNormRules ["'\s+' -> ' '"; "no rule"; "a -> b -> c"; "'x -> y'"; "' -> '"] = [("\s+", " "); ("a", "b -> c"); ("'x", "y'"); ("'", "'")]%string.
Proof. reflexivity. Qed.
(** Rules for attributes *)
Theorem C49_deep : forall split trim s d, getDeepAttrRule split trim s = Ok d -> DeepRule split trim s d /\ forall d', DeepRule split trim s d' -> d' = d.
Proof. intros split trim s d H. pose proof (getDeep_ok split trim s d H) as HD. split; [exact HD|]. intros d' H'. exact (DeepRule_fun split trim s d' d H' HD). Qed.
Print Assumptions C49_deep.
Example C49_deep_ex : getDeepAttrRule lineSplit bothTrim "[public_transport=stop_area|rel_flat]name" = Ok (mkD "name" (mkF "public_transport" "stop_area" ["rel_flat"])) /\
  getDeepAttrRule lineSplit bothTrim "uic_name" = Ok (mkD "uic_name" (mkF "" "" [])).
Proof. split; reflexivity. Qed.

(** ** C49: the settings of a section *)
Theorem C49_section : forall split trim V asStr asArr asBool asInt asDouble asPos asDoubles sec c, (forall (v : V) y, asPos v = Some y -> (0 <= y)%Q) ->
  readSec split trim V asStr asArr asBool asInt asDouble asPos asDoubles sec = Ok c ->
  SettingsOf split trim V asStr asArr asBool asInt asDouble asPos asDoubles sec c.
Proof. intros split trim V asStr asArr asBool asInt asDouble asPos asDoubles sec c HP H. apply (readSec_ok split trim V asStr asArr asBool asInt asDouble asPos asDoubles sec HP c H). Qed.
Print Assumptions C49_section.

(** Raw values of the examples: text or a number *)
Inductive raw := Txt : string -> raw | Num : Q -> raw.
Definition xStr (v : raw) : string := match v with Txt s => s | Num _ => "" end.
Definition xArr (v : raw) (c : ascii) : list string := match v with Txt s => lineSplit s c | Num _ => [] end.
Definition xBool (v : raw) : option bool := match v with Txt s => if String.eqb s "yes" then Some true else if String.eqb s "no" then Some false else None | Num _ => None end.
Definition xInt (v : raw) : option Z := match v with Num (z # 1) => Some z | _ => None end.
Definition xDbl (v : raw) : option Q := match v with Num q => Some q | _ => None end.
Definition xPos (v : raw) : option Q := match v with Num q => if Qle_bool 0 q then Some q else None | _ => None end.
Definition xDbls (v : raw) (_ : ascii) : option (list Q) := match v with Num q => Some [q] | _ => None end.
Lemma xPos_ok : forall v y, xPos v = Some y -> (0 <= y)%Q.
Proof. intros [s | q] y H; cbn in H; [discriminate|]. destruct (Qle_bool 0 q) eqn:E; [|discriminate]. injection H as <-. apply Qle_bool_iff. exact E. Qed.
Fixpoint opts (l : list (string * raw)) (name : string) : option raw := match l with [] => None | (n, v) :: r => if String.eqb n name then Some v else opts r name end.
Notation xRead := (readSec lineSplit bothTrim raw xStr xArr xBool xInt xDbl xPos xDbls).
Notation xParse := (parse lineSplit bothTrim raw xStr xArr xBool xInt xDbl xPos xDbls).
Definition tram : list (string * raw) :=
  [("osm_filter_keep", Txt "railway=tram|no_match_nds route=tram railway=tram"); ("osm_filter_lvl3", Txt "service=yard"); ("osm_line_relation_tags", Txt "line_name=ref,name from_name=from"); ("station_normalize_chain", Txt "'\.' -> ;' St' -> ' Street'");
   ("osm_lvl1_avg_speed", Num 60%Q); ("routing_lvl2_fac", Num 2%Q); ("osm_max_snap_distance", Num 30%Q); ("routing_non_station_penalty", Num 4%Q); ("routing_use_stations", Txt "no"); ("osm_max_snap_level", Num 300%Q);
   ("osm_one_way_entry_cost", Num (5 # 2)); ("routing_line_unmatched_time_penalty_fac", Num (1 # 2)); ("routing_full_turn_penalty", Num 12%Q); ("osm_station_name_attrs", Txt "name [type=stop_area]name")].
Example C49_section_ex : match xRead (opts tram) with
  | Ok c => oKeep (cOsm c) = [(("railway", "tram"), 17%N); (("route", "tram"), 1%N)]%string /\ oLines (cOsm c) = mkLR ["ref"; "name"] ["from"] [] ["colour"; "color"]%string /\ oStatNorm (cOsm c) = [("\.", ""); (" St", " Street")]%string /\
            nth 3 (oLevels (cOsm c)) [] = [(("service", "yard"), 1%N)]%string /\ map Qred (oLevelSpeed (cOsm c)) = map Qred [85 * 0.2777; 60 * 0.2777; 42.5 * 0.2777; 40 * 0.2777; 30 * 0.2777; 20 * 0.2777; 10 * 0.2777; 5 * 0.2777]%Q /\
            Qred (oCandDist (cOsm c)) = 60%Q /\ Qred (rStatUnmatched (cRout c)) = 2%Q /\ oSnapLevel (cOsm c) = 44%N /\ rUseStations (cRout c) = false /\ rTurnRestr (cRout c) = 250%N /\ rFullTurn (cRout c) = 120%N /\
            Qred (oSpeed (cOsm c)) = Qred (170 * 0.2777) /\ map dAttr (oNameRule (cOsm c)) = ["name"; "name"]%string
  | _ => False
  end.
Proof. vm_compute. repeat split. Qed.
(** Expected, but false: the flags of a rule that is repeated with other flags count. *)
Theorem C49_repeated_rule_refuted : exists s c, xRead s = Ok c /\ s "osm_filter_keep" = Some (Txt "railway=tram railway=tram|rel_flat") /\ oKeep (cOsm c) = [(("railway", "tram"), 1%N)]%string.
Proof. eexists (opts [("osm_filter_keep", Txt "railway=tram railway=tram|rel_flat")]), _. split; [vm_compute; reflexivity | split; reflexivity]. Qed.
Print Assumptions C49_repeated_rule_refuted.
(** Expected, but false: a restricted turn costs what entering a one-way street the wrong way costs ("take the same cost", 335).  It costs ten times as much. *)
Theorem C49_turn_cost_refuted : exists s c, xRead s = Ok c /\ (oOneWayCost (cOsm c) == 1)%Q /\ ~ Tenths (oOneWayCost (cOsm c)) (rTurnRestr (cRout c)) /\ rTurnRestr (cRout c) = 100%N.
Proof.
  eexists (opts [("osm_one_way_entry_cost", Num 1%Q)]), _. split; [vm_compute; reflexivity|]. split; [reflexivity|]. split; [|reflexivity]. intros (H & _). destruct H as (H & _); [vm_compute; discriminate|]. revert H. vm_compute. intros H. apply H. reflexivity.
Qed.
Print Assumptions C49_turn_cost_refuted.
(** Expected, but false: every non-negative cost is accepted.  From 42949673 seconds on, the conversion of the turn cost overflows, although it is cut off. *)
Theorem C49_overflow_refuted : exists s, (forall name, name <> "osm_one_way_entry_cost" -> s name = None) /\ s "osm_one_way_entry_cost" = Some (Num 42949673) /\ xRead s = Bad.
Proof. exists (opts [("osm_one_way_entry_cost", Num 42949673)]). split; [intros name Hn; cbn [opts]; destruct (String.eqb_spec "osm_one_way_entry_cost" name) as [E | E]; [congruence | reflexivity]|]. split; [reflexivity | vm_compute; reflexivity]. Qed.
Print Assumptions C49_overflow_refuted.

(** ** C62: the greatest speed *)
Theorem C62_fastest : forall split trim V asStr asArr asBool asInt asDouble asPos asDoubles sec c, (forall (v : V) y, asPos v = Some y -> (0 <= y)%Q) ->
  readSec split trim V asStr asArr asBool asInt asDouble asPos asDoubles sec = Ok c -> FastestOf c.
Proof.
  intros split trim V asStr asArr asBool asInt asDouble asPos asDoubles sec c HP H. destruct (readSec_ok split trim V asStr asArr asBool asInt asDouble asPos asDoubles sec HP c H) as ((HS & _) & H1 & H2). destruct (os_speed _ _ _ _ _ _ _ _ _ _ HS) as (HL & Hsp). apply fastest; [|intros E; rewrite E in HL; discriminate | exact H1 | exact H2].
  intros s Hs. apply In_nth_error in Hs. destruct Hs as (i & Hi). apply (SpeedOf_nonneg V asPos sec HP i s); [rewrite <- HL; apply nth_error_Some; congruence | exact (Hsp i s Hi)].
Qed.
Print Assumptions C62_fastest.
(** The time of an edge of length d on a level with speed s, multiplied with any of the factors, is at least d divided by the greatest speed. *)
Theorem C62_bound : forall split trim V asStr asArr asBool asInt asDouble asPos asDoubles sec c, (forall (v : V) y, asPos v = Some y -> (0 <= y)%Q) ->
  readSec split trim V asStr asArr asBool asInt asDouble asPos asDoubles sec = Ok c -> (forall f, In f (factors c) -> (0 < f)%Q) ->
  forall s fs d, In s (oLevelSpeed (cOsm c)) -> (0 < s)%Q -> Some_of fs (factors c) -> (0 <= d)%Q -> (d / oSpeed (cOsm c) <= d / s * product fs)%Q.
Proof.
  intros split trim V asStr asArr asBool asInt asDouble asPos asDoubles sec c HP H HF s fs d Hs Hs0 Hfs Hd. destruct (readSec_ok split trim V asStr asArr asBool asInt asDouble asPos asDoubles sec HP c H) as (_ & H1 & H2). change (oSpeedFac (cOsm c) = corFac (factors c)) in H1. apply divQ_ok in H2. destruct H2 as (H2 & H3).
  destruct (corFac_ok _ HF) as (F1 & F2 & F3). specialize (F3 fs Hfs). pose proof (maxSpeed0_ok _ _ Hs) as HM. rewrite <- H1 in *. rewrite H2. set (m := maxSpeed0 (oLevelSpeed (cOsm c))) in *. set (k := oSpeedFac (cOsm c)) in *.
  assert (M0 : (0 < m)%Q) by exact (Qlt_le_trans _ _ _ Hs0 HM). apply (Qle_trans _ (d / s * k)%Q).
  - setoid_replace (d / (m / k))%Q with (d * k * (/ m))%Q by (field; split; intros E; [rewrite E in M0; exact (Qlt_irrefl _ M0) | exact (H3 E)]). setoid_replace (d / s * k)%Q with (d * k * (/ s))%Q by (field; intros E; rewrite E in Hs0; exact (Qlt_irrefl _ Hs0)).
    rewrite !(Qmult_comm (d * k)). apply Qmult_le_compat_r; [|apply Qmult_le_0_compat; [exact Hd | apply Qlt_le_weak; exact F1]].
    setoid_replace (/ m)%Q with (1 / m)%Q by (field; intros E; rewrite E in M0; exact (Qlt_irrefl _ M0)). apply Qle_shift_div_r; [exact M0|]. setoid_replace (/ s * m)%Q with (m / s)%Q by (field; intros E; rewrite E in Hs0; exact (Qlt_irrefl _ Hs0)). apply Qle_shift_div_l; [exact Hs0|]. rewrite Qmult_1_l. exact HM.
  - rewrite !(Qmult_comm (d / s)). apply Qmult_le_compat_r; [exact F3|]. apply Qle_shift_div_l; [exact Hs0 | rewrite Qmult_0_l; exact Hd].
Qed.
Print Assumptions C62_bound.
(** The bound is reached: no smaller greatest speed would do. *)
Theorem C62_tight : forall split trim V asStr asArr asBool asInt asDouble asPos asDoubles sec c, (forall (v : V) y, asPos v = Some y -> (0 <= y)%Q) ->
  readSec split trim V asStr asArr asBool asInt asDouble asPos asDoubles sec = Ok c ->
  exists s fs, In s (oLevelSpeed (cOsm c)) /\ Some_of fs (factors c) /\ (s == oSpeed (cOsm c) * product fs)%Q.
Proof.
  intros split trim V asStr asArr asBool asInt asDouble asPos asDoubles sec c HP H. destruct (C62_fastest split trim V asStr asArr asBool asInt asDouble asPos asDoubles sec c HP H) as [HF _ (m & Hm & Hin & _)]. exists m, (filter (fun f => negb (Qle_bool 1 f)) (factors c)). split; [exact Hin|]. split; [|rewrite <- HF; symmetry; exact Hm].
  generalize (factors c). intros l. induction l as [|f l IH]; cbn [filter]; [constructor|]. destruct (negb (Qle_bool 1 f)); [apply So_keep | apply So_drop]; exact IH.
Qed.
Print Assumptions C62_tight.
Example C62_ex : match xRead (opts tram) with
  | Ok c => (forall f, In f (factors c) -> (0 < f)%Q) /\ (exists s, In s (oLevelSpeed (cOsm c)) /\ (0 < s)%Q) /\ Some_of [1 # 2; 1%Q; 1%Q] (factors c)
  | _ => False
  end.
Proof. vm_compute. split; [intros f H; repeat (destruct H as [<- | H]; [reflexivity|]); destruct H|]. split; [eexists; split; [left; reflexivity | reflexivity]|]. apply So_keep, So_keep, So_drop, So_keep, So_drop, So_nil. Qed.

(** ** C50: sections that share settings *)
Theorem C50_compare : forall a b, cfgEqb a b = true <-> Agree a b.
Proof. exact cfgEqb_ok. Qed.
Print Assumptions C50_compare.
(** Every section is read; its types are those of the first configuration it agrees with. *)
Theorem C50_types : forall split trim V asStr asArr asBool asInt asDouble asPos asDoubles typesOf secs out, (forall (v : V) y, asPos v = Some y -> (0 <= y)%Q) ->
  parse split trim V asStr asArr asBool asInt asDouble asPos asDoubles typesOf [] secs = Ok out ->
  exists read, Forall2 (fun s r => fst r = fst s /\ SettingsOf split trim V asStr asArr asBool asInt asDouble asPos asDoubles (snd s) (snd r) /\ FastestOf (snd r)) (filter (fun s => negb (String.eqb (fst s) "")) secs) read /\ Merged typesOf read out.
Proof.
  intros split trim V asStr asArr asBool asInt asDouble asPos asDoubles typesOf secs out HP H. destruct (parse_ok typesOf split trim V asStr asArr asBool asInt asDouble asPos asDoubles secs [] [] out H (Merged_nil typesOf)) as (new & H1 & H2). exists new. split; [|exact H2]. revert H1. apply Forall2_imp. intros s r (E & HR). split; [exact E|]. split; [exact (C49_section split trim V asStr asArr asBool asInt asDouble asPos asDoubles (snd s) (snd r) HP HR) | exact (C62_fastest split trim V asStr asArr asBool asInt asDouble asPos asDoubles (snd s) (snd r) HP HR)].
Qed.
Print Assumptions C50_types.
Lemma nth_firstn : forall (A : Type) i (l : list A) j, j < i -> nth_error (firstn i l) j = nth_error l j.
Proof. intros A i. induction i as [|i IH]; intros [|x l] [|j] H; cbn; try lia; try reflexivity. apply IH. lia. Qed.
(** In particular every type named by a section is a type of a configuration. *)
Theorem C50_every_type : forall split trim V asStr asArr asBool asInt asDouble asPos asDoubles typesOf (secs : list (string * (string -> option V))) out, (forall (v : V) y, asPos v = Some y -> (0 <= y)%Q) ->
  parse split trim V asStr asArr asBool asInt asDouble asPos asDoubles typesOf [] secs = Ok out ->
  forall n s t, In (n, s) secs -> n <> "" -> In t (typesOf n) -> exists ex ms, In (ex, ms) out /\ In t ms.
Proof.
  intros split trim V asStr asArr asBool asInt asDouble asPos asDoubles typesOf secs out HP H n s t Hin Hn Ht. destruct (C50_types split trim V asStr asArr asBool asInt asDouble asPos asDoubles typesOf secs out HP H) as (read & HF & HM).
  assert (Hf : In (n, s) (filter (fun s => negb (String.eqb (fst s) "")) secs)) by (apply filter_In; split; [exact Hin | cbn [fst]; destruct (String.eqb_spec n ""); [contradiction | reflexivity]]).
  assert (exists c, In (n, c) read) as (c & Hc).
  { clear - HF Hf. induction HF as [|x (n' & c') l l' (E & _) HF IH]; [destruct Hf|]. destruct Hf as [-> | Hf]; [cbn [fst] in E; subst n'; exists c'; left; reflexivity | destruct (IH Hf) as (c & Hc); exists c; right; exact Hc]. }
  destruct HM as [_ H2 H3 _].
  assert (L : forall k ex ms i, i <= k -> nth_error out i = Some (ex, ms) -> Agree c ex -> exists i ex ms, nth_error out i = Some (ex, ms) /\ Agree c ex /\ forall j ex' ms', j < i -> nth_error out j = Some (ex', ms') -> ~ Agree c ex').
  { induction k as [|k IH]; intros ex ms i Hk Hi HA; [exists i, ex, ms; split; [exact Hi|]; split; [exact HA|]; intros j; lia|].
    destruct (existsb (fun p => cfgEqb c (fst p)) (firstn i out)) eqn:E.
    - apply existsb_exists in E. destruct E as ((e & m) & He & Hc'). apply cfgEqb_ok in Hc'. cbn [fst] in Hc'. apply In_nth_error in He. destruct He as (j & Hj). assert (Lj : j < i) by (assert (L : j < length (firstn i out)) by (apply nth_error_Some; congruence); rewrite firstn_length in L; lia).
      apply (IH e m j); [lia | | exact Hc']. rewrite nth_firstn in Hj by exact Lj. exact Hj.
    - exists i, ex, ms. split; [exact Hi|]. split; [exact HA|]. intros j ex' ms' Hj Hn' HA'. assert (T : existsb (fun p => cfgEqb c (fst p)) (firstn i out) = true); [|congruence]. apply existsb_exists. exists (ex', ms'). split; [|apply cfgEqb_ok; exact HA']. apply (nth_error_In _ j). rewrite nth_firstn by exact Hj. exact Hn'. }
  destruct (H2 n c Hc) as (i & ex & ms & Hi & HA). destruct (L i ex ms i (le_n i) Hi HA) as (i' & ex' & ms' & Hi' & HA' & Hno). exists ex', ms'. split; [exact (nth_error_In _ _ Hi') | apply (H3 i' ex' ms' Hi'); exists n, c; split; [exact Hc|]; split; [exact Ht|]; split; assumption].
Qed.
Print Assumptions C50_every_type.
(** The configuration is refused exactly if a section is. *)
Theorem C50_error : forall split trim V asStr asArr asBool asInt asDouble asPos asDoubles typesOf secs,
  (forall out, parse split trim V asStr asArr asBool asInt asDouble asPos asDoubles typesOf [] secs <> Ok out) <->
  exists n s, In (n, s) secs /\ n <> "" /\ forall c, readSec split trim V asStr asArr asBool asInt asDouble asPos asDoubles s <> Ok c.
Proof. intros split trim V asStr asArr asBool asInt asDouble asPos asDoubles typesOf secs. apply parse_err. Qed.
Print Assumptions C50_error.
Theorem C50_sect : forall a b m, In m (motISect a b) <-> In m a /\ In m b.
Proof. exact motISect_ok. Qed.
Print Assumptions C50_sect.

Definition xTypes (n : string) : list nat := if String.eqb n "tram" then [0] else if String.eqb n "rail" then [2] else if String.eqb n "bus" then [3] else if String.eqb n "tram, bus" then [0; 3] else [].
Notation xOut l := (xParse xTypes [] (map (fun p => (fst p, opts (snd p))) l)).
Example C50_types_ex : match xOut [("", []); ("tram", tram); ("rail", []); ("bus", tram)] with
  | Ok [(c, ms); (c', ms')] => ms = [0; 3] /\ ms' = [2] /\ Agree c c /\ ~ Agree c c'
  | _ => False
  end.
Proof. vm_compute. split; [reflexivity|]. split; [reflexivity|]. split; [apply Agree_refl|]. intros A. apply cfgEqb_ok in A. vm_compute in A. discriminate. Qed.
(** Expected, but false: sections that share a configuration have the same settings.  The filter of level 7, the tags with ids or track numbers of edges and the normalisation of ids may differ, *)
Theorem C50_ignored_refuted : forall o : string * raw, In o [("osm_filter_lvl7", Txt "service=yard"); ("osm_station_id_attrs", Txt "ref"); ("osm_edge_track_number_tags", Txt "track"); ("station_id_normalize_chain", Txt "a -> b")] ->
  exists c d, xRead (opts [o]) = Ok c /\ xRead (opts []) = Ok d /\ c <> d /\ xOut [("tram", []); ("rail", [o])] = Ok [(d, [0; 2])].
Proof.
  intros o H. repeat (destruct H as [<- | H]; [eexists _, _; split; [vm_compute; reflexivity|]; split; [vm_compute; reflexivity|]; split; [discriminate | vm_compute; reflexivity]|]). destruct H.
Qed.
Print Assumptions C50_ignored_refuted.
(** and so may factors that are small throughout: a transition penalty more than twice as high. *)
Theorem C50_tolerance_refuted : exists c d, xRead (opts [("routing_transition_penalty_fac", Num (18 # 1000))]) = Ok c /\ xRead (opts []) = Ok d /\ (2 * rTransition (cRout d) < rTransition (cRout c))%Q /\
  xOut [("tram", []); ("rail", [("routing_transition_penalty_fac", Num (18 # 1000))])] = Ok [(d, [0; 2])].
Proof. eexists _, _. split; [vm_compute; reflexivity|]. split; [vm_compute; reflexivity|]. split; [reflexivity | vm_compute; reflexivity]. Qed.
Print Assumptions C50_tolerance_refuted.
(** Expected, but false: the configurations do not depend on the order of the sections. *)
Theorem C50_order_refuted : let s x := [("routing_platform_unmatched_penalty", Num x)] in
  match xOut [("tram", s 1%Q); ("rail", s (1006 # 1000)); ("bus", s (1012 # 1000))], xOut [("rail", s (1006 # 1000)); ("tram", s 1%Q); ("bus", s (1012 # 1000))] with
  | Ok a, Ok b => map snd a = [[0; 2]; [3]] /\ map snd b = [[2; 0; 3]]
  | _, _ => False
  end.
Proof. vm_compute. split; reflexivity. Qed.
Print Assumptions C50_order_refuted.
(** Expected, but false: a vehicle type has one configuration. *)
Theorem C50_two_refuted : match xOut [("tram, bus", []); ("tram", tram)] with Ok [(c, [0; 3]); (d, [0])] => ~ Agree d c | _ => False end.
Proof. vm_compute. intros A. apply cfgEqb_ok in A. vm_compute in A. discriminate. Qed.
Print Assumptions C50_two_refuted.
Example C50_error_ex : xOut [("tram", tram); ("rail", [("osm_lvl1_avg_speed", Num (-1))])] = Exc.
Proof. vm_compute. reflexivity. Qed.
