(** C87: from the command line to the feed that is written. *)
From Coq Require Import Ascii String List Arith ZArith QArith Bool Lia.
From Verif Require Import ListAux Main_model Launch_model Args_spec Launch_spec.
From Verif Require Args_model Args_proofs Args_props Config_model Config_spec Config_proofs Config_props Main_spec Main_proofs Main_props.
Import ListNotations.
Open Scope nat_scope.
Open Scope list_scope.

Section C87.
Variable atof : string -> Q.
Variable mPerDeg : Q.
Variable split : string -> ascii -> list string.
Variable trim : string -> string.
Variable typesOf : string -> list nat.
Variable V : Type.
Variable asStr : V -> string.
Variable asArr : V -> ascii -> list string.
Variable asBool : V -> option bool.
Variable asInt : V -> option Z.
Variable asDouble asPos : V -> option Q.
Variable asDoubles : V -> ascii -> option (list Q).
Variable sections : list string -> string -> option (list (string * (string -> option V))).
Variable good : string -> bool.
Variables installed home : string.
Variable cwd : option string.
Variable no : string -> nat.
Variable feed : nat -> option (list trip).
Variable osmOk : nat -> bool.
Variable filterOk : bool.
Variable writeOk : nat -> bool.
Notation launch := (launch atof mPerDeg split trim typesOf V asStr asArr asBool asInt asDouble asPos asDoubles sections good installed home cwd no feed osmOk filterOk writeOk).
Notation parse := (Config_model.parse split trim V asStr asArr asBool asInt asDouble asPos asDoubles typesOf []).
Notation readSec := (Config_model.readSec split trim V asStr asArr asBool asInt asDouble asPos asDoubles).
Notation wanted := (wanted split trim typesOf).
Notation done := (done split trim typesOf).

(** ** The parts put together *)
Lemma reads : forall args us ps, line args us ps -> quiet us -> exists c files, Args_model.read atof mPerDeg split trim typesOf args = Args_model.Config c /\
  meant atof mPerDeg split trim typesOf us ps c /\ files = Args_model.cfgPaths good installed home cwd (Args_model.kConfigs c) /\ config_files good installed home cwd us files /\ Args_model.kParam c = params us.
Proof.
  intros args us ps L Q. destruct (Args_props.C67_reads atof mPerDeg split trim typesOf args us ps L Q) as (c & R & M). eexists c, _. split; [exact R|]. split; [exact M|]. split; [reflexivity|].
  destruct (Args_props.C67_config_files atof mPerDeg split trim typesOf good installed home cwd args c us ps L R) as (A & B). split; [|exact (mn_param _ _ _ _ _ _ _ _ M)].
  destruct (values CfgFile us) eqn:E.
  - right. assert (N : ~ present CfgFile us) by (intros H; apply Args_proofs.present_values in H; contradiction). split; [exact N|exact (B N)].
  - left. assert (N : present CfgFile us) by (apply Args_proofs.present_values; congruence). split; [exact N|]. rewrite E. exact (A N).
Qed.
Lemma files_one : forall us f f', config_files good installed home cwd us f -> config_files good installed home cwd us f' -> f = f'.
Proof.
  intros us f f' [(A & ->)|(A & B)] [(A' & ->)|(A' & B')]; try contradiction; [reflexivity|].
  destruct B as (a & b & c & -> & Ha & Hb & Hc). destruct B' as (a' & b' & c' & -> & Ha' & Hb' & Hc').
  assert (a = a') by (destruct Ha as [(X & ->)|(X & ->)], Ha' as [(Y & ->)|(Y & ->)]; congruence).
  assert (b = b') by (destruct Hb as [(X & ->)|(X & ->)], Hb' as [(Y & ->)|(Y & ->)]; congruence).
  assert (c = c') by (destruct Hc as [(d & X & X2 & ->)|(X & ->)], Hc' as [(d' & Y & Y2 & ->)|(Y & ->)]; [congruence|specialize (Y d X); congruence|specialize (X d' Y); congruence|reflexivity]).
  congruence.
Qed.
Lemma given_iff : forall s, given s = true <-> s <> ""%string.
Proof. intros s. unfold given. destruct (String.eqb_spec s "") as [->|N]; cbn; split; congruence. Qed.
Lemma given_not : forall s, given s = false <-> s = ""%string.
Proof. intros s. unfold given. destruct (String.eqb_spec s "") as [->|N]; cbn; split; congruence. Qed.
Lemma known_ok : forall l s, In s l -> existsb (String.eqb s) l = true.
Proof. intros l s I. apply existsb_exists. exists s. split; [exact I|apply String.eqb_refl]. Qed.
Lemma types_out : forall secs out, parse secs = Config_model.Ok out -> (forall v y, asPos v = Some y -> (0 <= y)%Q) ->
  forall m, section_type typesOf secs m <-> exists k c, nth_error (map motCfg out) k = Some c /\ In m (cMots c).
Proof.
  intros secs out P HP m. split.
  - intros (n & s & I & N & T). destruct (Config_props.C50_every_type _ _ _ _ _ _ _ _ _ _ _ secs out HP P n s m I N T) as (ex & ms & Io & Im).
    destruct (In_nth_error _ _ Io) as (k & Ek). exists k, (motCfg (ex, ms)). split; [rewrite nth_error_map, Ek; reflexivity|exact Im].
  - intros (k & c & Ek & Im). rewrite nth_error_map in Ek. destruct (nth_error out k) as [(ex & ms)|] eqn:Eo; [|discriminate]. injection Ek as <-. cbn in Im.
    destruct (Config_props.C50_types _ _ _ _ _ _ _ _ _ _ _ secs out HP P) as (read & F & M). apply (Config_spec.mg_types _ _ _ M k ex ms Eo) in Im. destruct Im as (n & c0 & Ir & T & _).
    assert (J : exists s, In (n, s) (filter (fun s => negb (String.eqb (fst s) "")) secs)).
    { clear - F Ir. induction F as [|x y l l' (E & _) F IH]; [destruct Ir|]. destruct Ir as [->|Ir]; [destruct x as [a b]; cbn in E; subst; exists b; left; reflexivity|destruct (IH Ir) as (s & H); exists s; right; exact H]. }
    destruct J as (s & J). apply filter_In in J. destruct J as (J & N). exists n, s. split; [exact J|]. split; [|exact T]. cbn in N. destruct (String.eqb_spec n ""); [discriminate|assumption].
Qed.

(** ** A matching run *)
(** If the program ends with 0, the feed was written once, as the last thing, to the output path or
    in place; each wanted trip has a computed shape, all others are as in the input. *)
Theorem C87_matched : forall args us ps files secs q e, (forall v y, asPos v = Some y -> (0 <= y)%Q) ->
  line args us ps -> quiet us -> matching us -> values Input us ++ ps = [q] -> config_files good installed home cwd us files -> sections files (params us) = Some secs ->
  launch args = Some (e, 0) ->
  exists f ev ts out, e = Ran (ev ++ [EWrite out ts true]) /\ feed (no q) = Some f /\ (forall x, In x ev -> ~ writes x) /\
    (present Inplace us -> out = no q) /\ (~ present Inplace us -> out = no (last (values Output us) "gtfs-out"%string)) /\
    Forall2 (done us secs) f ts.
Proof.
  intros args us ps files secs q e HP L Q (M1 & M2 & M3 & M4 & M5) Fe Cf Se La.
  destruct (reads args us ps L Q) as (c & files' & R & M & Ef & Cf' & Pa). rewrite (files_one _ _ _ Cf' Cf) in Ef.
  unfold Launch_model.launch in La. rewrite R, <- Ef, Pa, Se in La.
  set (o := optsOf no c) in *.
  assert (Pl : Main_spec.plain o).
  { unfold Main_spec.plain, o, optsOf. cbn. rewrite (mn_osmout _ _ _ _ _ _ _ _ M). split; [now apply given_not|].
    pose proof (mn_overpass _ _ _ _ _ _ _ _ M). pose proof (mn_osmfilter _ _ _ _ _ _ _ _ M). destruct (Args_model.kOverpass c), (Args_model.kOsmfilter c); tauto. }
  assert (Tr : oTrip o = None) by (unfold o, optsOf; cbn; rewrite (mn_trip _ _ _ _ _ _ _ _ M), M5; reflexivity).
  destruct (parse secs) as [out| |] eqn:Pr.
  2:{ destruct (main (mkWorld None feed osmOk filterOk writeOk) o) as [ev n] eqn:Em. unfold main in Em. cbn in Em. injection Em as <- <-. discriminate. }
  2: discriminate.
  set (W := mkWorld (Some (map motCfg out)) feed osmOk filterOk writeOk) in *. destruct (main W o) as [ev n] eqn:Em. injection La as <- ->.
  assert (E0 : snd (main W o) = 0) by (rewrite Em; reflexivity). assert (E1 : fst (main W o) = ev) by (rewrite Em; reflexivity).
  destruct (Main_props.C64_success W o Pl Tr) as (S & _). destruct (proj1 S E0) as (p & ts & I).
  destruct (Main_props.C64_written W o p ts true I) as (cfgs & q' & f & ev' & Wc & Of & Wf & _ & Ep & _ & Ee & Nw & Dn & _). injection Wc as <-.
  assert (q' = no q) by (unfold o, optsOf in Of; cbn in Of; rewrite (mn_feeds _ _ _ _ _ _ _ _ M), Fe in Of; cbn in Of; congruence). subst q'.
  exists f, ev', ts, p. split; [rewrite E1 in Ee; congruence|]. split; [exact Wf|]. split; [intros x Ix Hx; destruct x; try exact Hx; exact (Nw _ _ _ Ix)|].
  pose proof (mn_inplace _ _ _ _ _ _ _ _ M) as Ip. change (oInPlace o) with (Args_model.kInPlace c) in Ep.
  split; [intros H; apply Ip in H; rewrite H in Ep; exact Ep|]. split.
  { intros H. destruct (Args_model.kInPlace c); [exfalso; apply H; now apply Ip|]. rewrite Ep. unfold o, optsOf. cbn. now rewrite (mn_out _ _ _ _ _ _ _ _ M). }
  specialize (Dn Tr). revert Dn. clear - M HP Pr. intros Dn. induction Dn as [|t t' f ts (A & B & C & D) Dn IH]; constructor; [|exact IH].
  assert (Fo : forall m, (exists k c, nth_error (map motCfg out) k = Some c /\ Main_spec.for_type o c m) <-> asked_type split trim typesOf us m /\ section_type typesOf secs m).
  { intros m. rewrite (types_out secs out Pr HP). unfold Main_spec.for_type, asked_type. rewrite <- (mn_mots _ _ _ _ _ _ _ _ M m). split.
    - intros (k & c0 & N & H1 & H2). split; [exact H2|]. exists k, c0. auto.
    - intros (H2 & k & c0 & N & H1). exists k, c0. auto. }
  assert (El : Main_spec.eligible o t <-> 2 <= tStops t /\ (present DropShapes us \/ tShape t = NoShape)) by (unfold Main_spec.eligible; change (oDrop o) with (Args_model.kDrop c); rewrite (mn_drop _ _ _ _ _ _ _ _ M); tauto).
  split; [exact A|]. split; [exact B|]. split; [exact C|].
  destruct D as [(E & k & (c0 & N & Ft & _) & Sh)|(E & Sh)].
  - split; [intros _; exists k; exact Sh|]. intros X. exfalso. apply X. apply El in E. destruct (proj1 (Fo (tType t))) as (F1 & F2); [exists k, c0; auto|]. unfold Launch_spec.wanted. tauto.
  - split.
    + intros (W1 & W2 & W3 & W4). exfalso. destruct E as [E|E]; [apply E, El; auto|]. destruct (proj2 (Fo (tType t)) (conj W3 W4)) as (k & c0 & N & Ft). exact (E k c0 N Ft).
    + intros _. destruct t, t'. cbn in *. congruence.
Qed.

(** It ends with 0 if every section can be read and names methods that exist, the feed and the OSM
    data can be read and the feed can be written. *)
Theorem C87_succeeds : forall args us ps files secs q f, (forall v y, asPos v = Some y -> (0 <= y)%Q) ->
  line args us ps -> quiet us -> matching us -> values Input us ++ ps = [q] -> config_files good installed home cwd us files -> sections files (params us) = Some secs ->
  (exists n s, In (n, s) secs /\ n <> ""%string) ->
  (forall n s, In (n, s) secs -> n <> ""%string -> exists c, readSec s = Config_model.Ok c /\
     In (Config_model.rSimiMethod (Config_model.cRout c)) ["bts"; "jaccard"; "jaccard-geodist"; "ed"; "ped"]%string /\
     In (Config_model.rTransMethod (Config_model.cRout c)) ["exp"; "distdiff"; "timenorm"]%string) ->
  feed (no q) = Some f -> (forall k, osmOk k = true) -> (forall p, writeOk p = true) ->
  exists e, launch args = Some (e, 0).
Proof.
  intros args us ps files secs q f HP L Q (M1 & M2 & M3 & M4 & M5) Fe Cf Se (n0 & s0 & In0 & Nn0) Hs Wf Ho Hw.
  destruct (reads args us ps L Q) as (c & files' & R & M & Ef & Cf' & Pa). rewrite (files_one _ _ _ Cf' Cf) in Ef.
  unfold Launch_model.launch. rewrite R, <- Ef, Pa, Se. set (o := optsOf no c).
  destruct (parse secs) as [out| |] eqn:Pr.
  2,3: exfalso; destruct (proj1 (Config_props.C50_error split trim V asStr asArr asBool asInt asDouble asPos asDoubles typesOf secs)) as (n & s & I & N & X); [intros out; rewrite Pr; discriminate|destruct (Hs n s I N) as (c0 & Ec & _); exact (X c0 Ec)].
  set (W := mkWorld (Some (map motCfg out)) feed osmOk filterOk writeOk). destruct (main W o) as [ev n] eqn:Em. exists (Ran ev). f_equal. f_equal.
  assert (Pl : Main_spec.plain o).
  { unfold Main_spec.plain, o, optsOf. cbn. rewrite (mn_osmout _ _ _ _ _ _ _ _ M). split; [now apply given_not|].
    pose proof (mn_overpass _ _ _ _ _ _ _ _ M). pose proof (mn_osmfilter _ _ _ _ _ _ _ _ M). destruct (Args_model.kOverpass c), (Args_model.kOsmfilter c); tauto. }
  assert (Tr : oTrip o = None) by (unfold o, optsOf; cbn; rewrite (mn_trip _ _ _ _ _ _ _ _ M), M5; reflexivity).
  assert (Of : oFeeds o = [no q]) by (unfold o, optsOf; cbn; rewrite (mn_feeds _ _ _ _ _ _ _ _ M), Fe; reflexivity).
  assert (Os : oOsm o = true) by (unfold o, optsOf; cbn; apply given_iff; now rewrite (mn_osm _ _ _ _ _ _ _ _ M)).
  pose proof (Config_proofs.parse_ok typesOf split trim V asStr asArr asBool asInt asDouble asPos asDoubles secs [] [] out Pr (Config_proofs.Merged_nil typesOf)) as (new & Fn & Mn). cbn [app] in Mn.
  assert (Ne : out <> []).
  { intros ->. assert (X : In (n0, s0) (filter (fun s => negb (String.eqb (fst s) "")) secs)) by (apply filter_In; split; [exact In0|cbn; destruct (String.eqb_spec n0 ""); [contradiction|reflexivity]]).
    destruct new as [|[n1 c1] new]; [inversion Fn as [E|]; rewrite <- E in X; destruct X|]. destruct (Config_spec.mg_cover _ _ _ Mn n1 c1 (or_introl eq_refl)) as (i & ex & ms & E & _). destruct i; discriminate. }
  assert (Me : forall x, In x (map motCfg out) -> cSimi x = true /\ cTrans x = true).
  { intros x Ix. apply in_map_iff in Ix. destruct Ix as ([ex ms] & <- & Ix). cbn.
    assert (Iex : In ex (map snd new)).
    { pose proof (Config_spec.mg_some _ _ _ Mn) as So. assert (I2 : In ex (map fst out)) by (change ex with (fst (ex, ms)); now apply in_map). clear - So I2. induction So; cbn in *; tauto. }
    apply in_map_iff in Iex. destruct Iex as ([n1 c1] & <- & I1). cbn.
    assert (J : exists s, In (n1, s) (filter (fun s => negb (String.eqb (fst s) "")) secs) /\ readSec s = Config_model.Ok c1).
    { clear - Fn I1. induction Fn as [|x y l l' (E & E2) F IH]; [destruct I1|]. destruct I1 as [->|I1]; [destruct x as [a b]; cbn in *; subst; exists b; split; [left; reflexivity|exact E2]|destruct (IH I1) as (s & H & H2); exists s; split; [right; exact H|exact H2]]. }
    destruct J as (s & J & Rs). apply filter_In in J. destruct J as (J & N). cbn in N. destruct (Hs n1 s J) as (c2 & Rc & K1 & K2); [destruct (String.eqb_spec n1 ""); [discriminate|assumption]|].
    rewrite Rs in Rc. injection Rc as <-. split; [exact (known_ok _ _ K1)|exact (known_ok _ _ K2)]. }
  clearbody o. pose proof (Main_props.C64_codes W o) as Fo. rewrite Em in Fo. cbn [snd] in Fo. destruct Fo as [(i & X & Hi & HX & _)|(E & _)]; [|congruence].
  unfold Main_spec.codes in Hi. destruct Pl as (P1 & P2 & P3).
  do 14 (try (destruct i as [|i]; [cbn [nth_error] in Hi; injection Hi as <- <-|])); try reflexivity; exfalso; [..|destruct i; discriminate].
  - discriminate.
  - destruct HX as (X & _). congruence.
  - injection HX as HX. destruct out; [congruence|discriminate].
  - destruct HX as (_ & p & Ip & X). rewrite Of in Ip. destruct Ip as [<-|[]]. cbn in X. congruence.
  - rewrite Of in HX. cbn in HX. lia.
  - destruct HX as (X & _). congruence.
  - destruct HX as (i & ts & X & _). congruence.
  - destruct HX as (X & _). congruence.
  - congruence.
  - destruct HX as (cfgs & ts & single & k & c0 & _ & _ & _ & _ & _ & _ & X). cbn in X. rewrite Ho in X. discriminate.
  - destruct HX as (cfgs & ts & single & k & c0 & Wc & _ & _ & (N & _) & _ & X). injection Wc as <-. apply nth_error_In in N. destruct (Me _ N) as (Y & Z). destruct X as [X|X]; congruence.
  - destruct HX as (p & _ & X). cbn in X. rewrite Hw in X. discriminate.
Qed.

(** Whatever the arguments are: a run that does not end with 0 leaves no written feed behind, and a
    command line that is not understood, -h and -v touch nothing. *)
Theorem C87_failure : forall args e n, launch args = Some (e, n) ->
  match e with
  | Stopped o => exists us ps s r, path "" args us ps s r /\ quiet us /\
      ((exists v s' r', takes s r [(Help, v)] [] s' r' \/ takes s r [(Version, v)] [] s' r') /\ n = 0 \/ (missing s r \/ unknown s r) /\ n = 1)
  | Ran ev => (exists us ps, line args us ps /\ quiet us) /\ (n <> 0 -> forall p ts ok, In (EWrite p ts ok) ev -> ok = false /\ n = 8)
  end.
Proof.
  intros args e n La. unfold Launch_model.launch in La. destruct (Args_model.read atof mPerDeg split trim typesOf args) as [o m|c] eqn:R.
  - injection La as <- <-. apply Args_props.C67_exit in R. destruct R as (us & ps & s & r & P & Q & [((v & s' & r' & T) & _ & ->)|[((v & s' & r' & T) & _ & ->)|[(X & _ & ->)|(X & _ & ->)]]]);
    exists us, ps, s, r; (split; [exact P|split; [exact Q|]]); [left; split; [exists v, s', r'; auto|reflexivity]|left; split; [exists v, s', r'; auto|reflexivity]|right; auto|right; auto].
  - assert (K : forall cfgs, (let '(ev, n0) := main (mkWorld cfgs feed osmOk filterOk writeOk) (optsOf no c) in Some (Ran ev, n0)) = Some (e, n) ->
      match e with Stopped _ => False | Ran ev => n <> 0 -> forall p ts ok, In (EWrite p ts ok) ev -> ok = false /\ n = 8 end).
    { intros cfgs H. destruct (main (mkWorld cfgs feed osmOk filterOk writeOk) (optsOf no c)) as [ev n0] eqn:Em. injection H as <- <-. intros N p ts ok I.
      pose proof (Main_props.C64_failure (mkWorld cfgs feed osmOk filterOk writeOk) (optsOf no c)) as F. rewrite Em in F. exact (F N p ts ok I). }
    destruct (Args_props.C67_config atof mPerDeg split trim typesOf args c R) as (us & ps & L & Q & _).
    destruct (sections _ _) as [secs|]; [destruct (parse secs)|]; try discriminate; apply K in La; (destruct e; [contradiction|]); split; eauto.
Qed.
(** ** What else a run puts out *)
Lemma launched : forall args us ps files secs e, line args us ps -> quiet us -> config_files good installed home cwd us files -> sections files (params us) = Some secs -> launch args = Some (e, 0) ->
  exists c out ev, meant atof mPerDeg split trim typesOf us ps c /\ parse secs = Config_model.Ok out /\ e = Ran ev /\
    main (mkWorld (Some (map motCfg out)) feed osmOk filterOk writeOk) (optsOf no c) = (ev, 0).
Proof.
  intros args us ps files secs e L Q Cf Se La. destruct (reads args us ps L Q) as (c & files' & R & M & Ef & Cf' & Pa). rewrite (files_one _ _ _ Cf' Cf) in Ef.
  unfold Launch_model.launch in La. rewrite R, <- Ef, Pa, Se in La. destruct (parse secs) as [out| |] eqn:Pr.
  2:{ exfalso. revert La. unfold main at 1. cbn. intros La. injection La as _ X. discriminate. }
  2: discriminate.
  exists c, out. destruct (main (mkWorld (Some (map motCfg out)) feed osmOk filterOk writeOk) (optsOf no c)) as [ev n] eqn:Em. injection La as <- ->. exists ev. auto.
Qed.
Lemma plain_of : forall us ps c, meant atof mPerDeg split trim typesOf us ps c -> (Main_spec.plain (optsOf no c) <-> last (values OsmOut us) ""%string = ""%string /\ ~ present Overpass us /\ ~ present Osmfilter us).
Proof.
  intros us ps c M. unfold Main_spec.plain, optsOf. cbn. rewrite (mn_osmout _ _ _ _ _ _ _ _ M), given_not.
  pose proof (mn_overpass _ _ _ _ _ _ _ _ M). pose proof (mn_osmfilter _ _ _ _ _ _ _ _ M). destruct (Args_model.kOverpass c), (Args_model.kOsmfilter c); intuition congruence.
Qed.
Lemma kept_types : forall us ps c out k, meant atof mPerDeg split trim typesOf us ps c ->
  (exists cf m, nth_error (map motCfg out) k = Some cf /\ Main_spec.for_type (optsOf no c) cf m) <-> exists cf ms m, nth_error out k = Some (cf, ms) /\ In m ms /\ asked_type split trim typesOf us m.
Proof.
  intros us ps c out k M. unfold Main_spec.for_type, asked_type. split.
  - intros (cf & m & N & A & B). rewrite nth_error_map in N. destruct (nth_error out k) as [(x & ms)|]; [|discriminate]. injection N as <-. exists x, ms, m. split; [reflexivity|]. split; [exact A|]. apply (mn_mots _ _ _ _ _ _ _ _ M). exact B.
  - intros (x & ms & m & N & A & B). exists (motCfg (x, ms)), m. rewrite nth_error_map, N. split; [reflexivity|]. split; [exact A|]. apply (mn_mots _ _ _ _ _ _ _ _ M) in B. exact B.
Qed.
(** A matching run writes a graph for each configuration it matches with --write-graph, a transit graph
    with --write-trgraph, statistics with --stats, and nothing of it without; the configurations it
    matches are those with a type of -m. *)
Theorem C87_extras : forall args us ps files secs ev,
  line args us ps -> quiet us -> matching us -> config_files good installed home cwd us files -> sections files (params us) = Some secs ->
  launch args = Some (Ran ev, 0) ->
  exists out, parse secs = Config_model.Ok out /\
    (forall k, (exists ms, In (EMatch k ms) ev) <-> exists c ms m, nth_error out k = Some (c, ms) /\ In m ms /\ asked_type split trim typesOf us m) /\
    (forall k, In (EGraph k) ev <-> present WriteGraph us /\ exists ms, In (EMatch k ms) ev) /\
    (forall k, In (ETransit k) ev <-> present WriteTrgraph us /\ exists ms, In (EMatch k ms) ev) /\
    (In EStats ev <-> present Stats us).
Proof.
  intros args us ps files secs ev L Q (M1 & M2 & M3 & M4 & M5) Cf Se La.
  destruct (launched _ _ _ _ _ _ L Q Cf Se La) as (c & out & ev' & M & Pr & E & Em). injection E as <-. exists out. split; [exact Pr|].
  set (W := mkWorld (Some (map motCfg out)) feed osmOk filterOk writeOk) in *.
  assert (Pl : Main_spec.plain (optsOf no c)) by (apply (plain_of _ _ _ M); auto).
  assert (Tr : oTrip (optsOf no c) = None) by (unfold optsOf; cbn; rewrite (mn_trip _ _ _ _ _ _ _ _ M), M5; reflexivity).
  destruct (Main_props.C64_outputs W (optsOf no c) Pl Tr) as (G & T & S); [now rewrite Em|]. rewrite Em in G, T, S. cbn [fst] in G, T, S.
  destruct (Main_props.C64_success W (optsOf no c) Pl Tr) as (X & H). rewrite Em in X, H. cbn [fst snd] in X, H. destruct (H eq_refl) as (cf & Ec & K). injection Ec as <-. 
  split; [|split; [|split]].
  - intros k. rewrite <- (kept_types us ps c out k M). split.
    + intros (ms & I).
      destruct (nth_error (map motCfg out) k) as [cf|] eqn:N; [destruct (proj2 (K k cf N)) as (m & Hm); [eauto|]; exists cf, m; auto|].
      exfalso. destruct (proj1 X eq_refl) as (p & ts & Iw). assert (Iw' : In (EWrite p ts true) (fst (main W (optsOf no c)))) by (rewrite Em; exact Iw).
      destruct (Main_props.writes W (optsOf no c) p ts true Iw') as (cfgs & q & f & s & ev0 & WC & OF & WF & A & _ & OS & LP & EP & EO & EC & EE & FI).
      injection WC as <-. unfold Main_spec.asked in A. rewrite Tr in A. subst s. pose proof (Main_proofs.loop_all W (optsOf no c) (map motCfg out) [] f f Tr) as L1. cbn [length app] in L1. rewrite LP in L1.
      destruct L1 as (_ & Ma & _); [clear; induction f; constructor; auto using Main_proofs.becomes_nil|intros j c' Lt; lia|].
      rewrite Em in EE. cbn [fst] in EE. rewrite EE in I. destruct I as [I|I]; [discriminate|]. rewrite !in_app_iff in I. destruct I as [I|[I|[I|[]]]]; [|destruct (oStats (optsOf no c)); [destruct I as [I|[]]; discriminate|destruct I]|discriminate].
      destruct (Ma k ms I) as (_ & c' & (N' & _) & _). congruence.
    + intros (cf & m & N & Hm). apply (K k cf N). eauto.
  - intros k. rewrite G. change (oGraph (optsOf no c)) with (Args_model.kGraph c). now rewrite (mn_graph _ _ _ _ _ _ _ _ M).
  - intros k. rewrite T. change (oTransit (optsOf no c)) with (Args_model.kTrGraph c). now rewrite (mn_trgraph _ _ _ _ _ _ _ _ M).
  - rewrite S. change (oStats (optsOf no c)) with (Args_model.kStats c). exact (mn_stats _ _ _ _ _ _ _ _ M).
Qed.
(** -X, or else --overpass, or else --osmfilter: the program reads the feeds and puts out one thing, for
    exactly the configurations with a type of -m; every type of -m that a section names is covered. *)
Theorem C87_modes : forall args us ps files secs e, (forall v y, asPos v = Some y -> (0 <= y)%Q) ->
  line args us ps -> quiet us -> config_files good installed home cwd us files -> sections files (params us) = Some secs ->
  last (values OsmOut us) ""%string <> ""%string \/ present Overpass us \/ present Osmfilter us ->
  launch args = Some (e, 0) ->
  exists out ks x, parse secs = Config_model.Ok out /\
    (forall k, In k ks <-> exists c ms m, nth_error out k = Some (c, ms) /\ In m ms /\ asked_type split trim typesOf us m) /\
    (forall m, asked_type split trim typesOf us m -> section_type typesOf secs m -> exists k c ms, In k ks /\ nth_error out k = Some (c, ms) /\ In m ms) /\
    let feeds := map no (values Input us ++ ps) in
    e = Ran (map EFeed feeds ++ [x]) /\
    (last (values OsmOut us) ""%string <> ""%string -> x = EExtract ks feeds) /\
    (last (values OsmOut us) ""%string = ""%string -> present Overpass us -> x = EQuery ks feeds) /\
    (last (values OsmOut us) ""%string = ""%string -> ~ present Overpass us -> x = ERules ks).
Proof.
  intros args us ps files secs e HP L Q Cf Se Mo La.
  destruct (launched _ _ _ _ _ _ L Q Cf Se La) as (c & out & ev & M & Pr & -> & Em).
  set (W := mkWorld (Some (map motCfg out)) feed osmOk filterOk writeOk) in *.
  assert (Pl : ~ Main_spec.plain (optsOf no c)) by (rewrite (plain_of _ _ _ M); tauto).
  destruct (Main_props.C64_modes W (optsOf no c) (map motCfg out) Pl eq_refl) as (ev1 & ks & Hk & _ & E1 & E2); [now rewrite Em|]. rewrite Em in E2. cbn [fst] in E2.
  exists out, ks, (if oExtract (optsOf no c) then EExtract ks (oFeeds (optsOf no c)) else if oQuery (optsOf no c) then EQuery ks (oFeeds (optsOf no c)) else ERules ks). split; [exact Pr|]. split; [intros k; rewrite Hk; apply (kept_types us ps c out k M)|]. split.
  { intros m A S. apply (types_out secs out Pr HP) in S. destruct S as (k & cf & N & I). pose proof N as N'. rewrite nth_error_map in N'. destruct (nth_error out k) as [(x & ms)|] eqn:No; [|discriminate]. injection N' as <-.
    exists k, x, ms. split; [|split; [exact No|exact I]]. apply Hk. exists (motCfg (x, ms)), m. split; [exact N|]. split; [exact I|]. apply (mn_mots _ _ _ _ _ _ _ _ M). exact A. }
  cbn zeta. assert (Ef : oFeeds (optsOf no c) = map no (values Input us ++ ps)) by (unfold optsOf; cbn; now rewrite (mn_feeds _ _ _ _ _ _ _ _ M)).
  rewrite Ef in E1, E2. rewrite Ef. split; [rewrite E2, E1; reflexivity|].
  assert (Ee : oExtract (optsOf no c) = given (last (values OsmOut us) ""%string)) by (unfold optsOf; cbn; now rewrite (mn_osmout _ _ _ _ _ _ _ _ M)).
  pose proof (mn_overpass _ _ _ _ _ _ _ _ M) as Ov. change (Args_model.kOverpass c) with (oQuery (optsOf no c)) in Ov.
  rewrite Ee. split; [|split].
  - intros N. now rewrite (proj2 (given_iff _) N).
  - intros N P. rewrite (proj2 (given_not _) N), (proj2 Ov P). reflexivity.
  - intros N P. rewrite (proj2 (given_not _) N). destruct (oQuery (optsOf no c)); [exfalso; apply P; now apply Ov|reflexivity].
Qed.
(** With -T no feed is written and no trip matched if a section and -m name the type of the trip: its way is
    put out, once. *)
Theorem C87_single : forall args us ps files secs q f t l r e, (forall v y, asPos v = Some y -> (0 <= y)%Q) ->
  line args us ps -> quiet us -> values Input us ++ ps = [q] -> config_files good installed home cwd us files -> sections files (params us) = Some secs ->
  last (values OsmOut us) ""%string = ""%string -> ~ present Overpass us -> ~ present Osmfilter us ->
  last (values TripId us) ""%string <> ""%string ->
  feed (no q) = Some f -> f = l ++ t :: r -> tId t = no (last (values TripId us) ""%string) -> Forall (fun x => tId x <> tId t) l ->
  asked_type split trim typesOf us (tType t) -> section_type typesOf secs (tType t) ->
  launch args = Some (e, 0) ->
  exists a k b, e = Ran (a ++ EPath k (tId t) :: b) /\ forall x, In x (a ++ b) -> match x with EPath _ _ | EWrite _ _ _ | EMatch _ _ => False | _ => True end.
Proof.
  intros args us ps files secs q f t l r e HP L Q Fe Cf Se N1 N2 N3 Nt Wf Ef It Nl At St La.
  destruct (launched _ _ _ _ _ _ L Q Cf Se La) as (c & out & ev & M & Pr & -> & Em).
  set (W := mkWorld (Some (map motCfg out)) feed osmOk filterOk writeOk) in *.
  assert (Pl : Main_spec.plain (optsOf no c)) by (apply (plain_of _ _ _ M); auto).
  assert (Of : oFeeds (optsOf no c) = [no q]) by (unfold optsOf; cbn; now rewrite (mn_feeds _ _ _ _ _ _ _ _ M), Fe).
  assert (Tr : oTrip (optsOf no c) = Some (tId t)) by (unfold optsOf; cbn; rewrite (mn_trip _ _ _ _ _ _ _ _ M), (proj2 (given_iff _) Nt), It; reflexivity).
  assert (As : Main_spec.asked (optsOf no c) f (Some t)) by (unfold Main_spec.asked; rewrite Tr; exists t, l, r; auto).
  apply (types_out secs out Pr HP) in St.
  assert (Us : exists k cf, Main_spec.used (optsOf no c) (map motCfg out) (Some t) k cf /\ forall j c', j < k -> ~ Main_spec.used (optsOf no c) (map motCfg out) (Some t) j c').
  { destruct St as (k & cf & N & I).
    assert (U : Main_spec.used (optsOf no c) (map motCfg out) (Some t) k cf) by (split; [exact N|]; split; [exact I|]; apply (mn_mots _ _ _ _ _ _ _ _ M); exact At).
    clear - U. revert cf U. induction k as [k IH] using lt_wf_ind. intros cf U.
    assert (D : (exists j c', j < k /\ Main_spec.used (optsOf no c) (map motCfg out) (Some t) j c') \/ forall j c', j < k -> ~ Main_spec.used (optsOf no c) (map motCfg out) (Some t) j c').
    { clear. induction k as [|k [(j & c' & Lt & U)|IH]]; [right; intros j c' Lt; lia|left; exists j, c'; split; [lia|exact U]|].
      destruct (nth_error (map motCfg out) k) as [cf|] eqn:N.
      - destruct (in_dec Nat.eq_dec (tType t) (cMots cf)) as [I1|I1].
        + destruct (in_dec Nat.eq_dec (tType t) (oMots (optsOf no c))) as [I2|I2]; [left; exists k, cf; split; [lia|]; split; [exact N|split; assumption]|].
          right. intros j c' Lt (N' & _ & I'). destruct (Nat.eq_dec j k) as [->|Ne]; [contradiction|]. apply (IH j c'); [lia|split; [exact N'|split; [|exact I']]]. contradiction.
        + right. intros j c' Lt (N' & U1 & U2). destruct (Nat.eq_dec j k) as [->|Ne]; [congruence|]. apply (IH j c'); [lia|split; [exact N'|split; assumption]].
      - right. intros j c' Lt (N' & U1 & U2). destruct (Nat.eq_dec j k) as [->|Ne]; [congruence|]. apply (IH j c'); [lia|split; [exact N'|split; assumption]]. }
    destruct D as [(j & c' & Lt & Uj)|D]; [exact (IH j Lt c' Uj)|exists k, cf; auto]. }
  destruct Us as (k & cf & U & Fi).
  destruct (Main_props.C64_single W (optsOf no c) (map motCfg out) (no q) f t k cf Pl eq_refl Of Wf As U Fi) as (a & b & E & N); [now rewrite Em|]. rewrite Em in E. cbn [fst] in E.
  exists a, k, b. split; [congruence|exact N].
Qed.
End C87.
Print Assumptions C87_matched.
Print Assumptions C87_succeeds.
Print Assumptions C87_failure.
Print Assumptions C87_extras.
Print Assumptions C87_modes.
Print Assumptions C87_single.

(** ** A sample: pfaedle -x city.osm -c my.cfg -m "tram, bus" feed -o out; the file my.cfg has sections
    for trams and trains, the feed trips of trams (type 0, one without shape, one with, one with a
    single stop), of a train (2) and of a bus (3). *)
Definition vFeed : list trip := [mkTrip 1 0 4 NoShape; mkTrip 2 0 3 (Given 7); mkTrip 3 0 1 NoShape; mkTrip 4 2 3 NoShape; mkTrip 5 3 3 NoShape].
Definition vSecs : list (string * (string -> option Config_props.raw)) := [("tram"%string, Config_props.opts Config_props.tram); ("rail"%string, Config_props.opts [])].
Definition vSections (files : list string) (_ : string) : option (list (string * (string -> option Config_props.raw))) :=
  match files with [f] => if String.eqb f "my.cfg" then Some vSecs else None | _ => None end.
Definition vLaunch : list string -> option (ending * nat) :=
  launch (fun _ => 0%Q) 1%Q Config_props.lineSplit Config_props.bothTrim Config_props.xTypes Config_props.raw Config_props.xStr Config_props.xArr Config_props.xBool Config_props.xInt Config_props.xDbl Config_props.xPos Config_props.xDbls
    vSections (fun _ => true) "installed"%string "home"%string None String.length (fun p => if p =? 4 then Some vFeed else None) (fun _ => true) true (fun _ => true).
Definition vArgs : list string := ["-x"; "city.osm"; "-c"; "my.cfg"; "-m"; "tram, bus"; "feed"; "-oout"]%string.
Definition vUs : list (key * string) := [(OsmFile, "city.osm"); (CfgFile, "my.cfg"); (Mots, "tram, bus"); (Output, "out")]%string.
Example C87_run : vLaunch vArgs = Some (Ran [EFeed 4; EOsm 0; EMatch 0 [0]; EWrite 3 [mkTrip 1 0 4 (Computed 0); mkTrip 2 0 3 (Given 7); mkTrip 3 0 1 NoShape; mkTrip 4 2 3 NoShape; mkTrip 5 3 3 NoShape] true], 0).
Proof. vm_compute. reflexivity. Qed.
Example C87_no_osm : vLaunch ["-c"; "my.cfg"; "feed"]%string = Some (Ran [], 5) /\ vLaunch ["-h"]%string = Some (Stopped Args_model.PrintsHelp, 0) /\ vLaunch ["feed"; "-x"]%string = Some (Stopped Args_model.SaysMissing, 1).
Proof. vm_compute. auto. Qed.
Example C87_line : line vArgs vUs ["feed"%string] /\ quiet vUs /\ matching vUs /\ values Input vUs ++ ["feed"%string] = ["feed"%string] /\
  config_files (fun _ => true) "installed"%string "home"%string None vUs ["my.cfg"%string] /\ vSections ["my.cfg"%string] (params vUs) = Some vSecs.
Proof.
  split.
  { apply ln_all. unfold vArgs.
    eapply (pa_step _ _ [] [] _ _ _ ["feed"%string]); [apply tk_letters; discriminate|].
    eapply (pa_step _ _ [(OsmFile, "city.osm"%string)] [] _ _ _ ["feed"%string]); [apply tk_next; reflexivity|].
    eapply (pa_step _ _ [] [] _ _ _ ["feed"%string]); [apply tk_letters; discriminate|].
    eapply (pa_step _ _ [(CfgFile, "my.cfg"%string)] [] _ _ _ ["feed"%string]); [apply tk_next; reflexivity|].
    eapply (pa_step _ _ [] [] _ _ _ ["feed"%string]); [apply tk_letters; discriminate|].
    eapply (pa_step _ _ [(Mots, "tram, bus"%string)] [] _ _ _ ["feed"%string]); [apply tk_next; reflexivity|].
    eapply (pa_step _ _ [] ["feed"%string] _ _ _ []); [apply tk_plain; right; intros s E; inversion E|].
    eapply (pa_step _ _ [] [] _ _ _ []); [apply tk_letters; discriminate|].
    eapply (pa_step _ _ [(Output, "out"%string)] [] _ _ [] []); [apply tk_glued; [reflexivity|reflexivity|discriminate]|apply pa_here]. }
  split; [intros k v H; cbn in H; repeat (destruct H as [H|H]; [inversion H; split; discriminate|]); destruct H|].
  split; [split; [discriminate|]; split; [reflexivity|]; split; [|split; [|reflexivity]]; intros (v & H); cbn in H; repeat (destruct H as [H|H]; [discriminate|]); destruct H|].
  split; [reflexivity|]. split; [left; split; [exists "my.cfg"%string; cbn; auto|reflexivity]|reflexivity].
Qed.
Example C87_sections : forall n s, In (n, s) vSecs -> n <> ""%string -> exists c, Config_model.readSec Config_props.lineSplit Config_props.bothTrim Config_props.raw Config_props.xStr Config_props.xArr Config_props.xBool Config_props.xInt Config_props.xDbl Config_props.xPos Config_props.xDbls s = Config_model.Ok c /\
     In (Config_model.rSimiMethod (Config_model.cRout c)) ["bts"; "jaccard"; "jaccard-geodist"; "ed"; "ped"]%string /\
     In (Config_model.rTransMethod (Config_model.cRout c)) ["exp"; "distdiff"; "timenorm"]%string.
Proof. intros n s [H|[H|[]]] _; injection H as <- <-; eexists; (split; [vm_compute; reflexivity|]); cbn; auto. Qed.
(** The theorems apply to it. *)
Example C87_sample : exists e, vLaunch vArgs = Some (e, 0) /\ exists ev ts, e = Ran (ev ++ [EWrite 3 ts true]) /\ Forall2 (done Config_props.lineSplit Config_props.bothTrim Config_props.xTypes vUs vSecs) vFeed ts.
Proof.
  destruct C87_line as (L & Q & M & F & C & S).
  destruct (C87_succeeds (fun _ => 0%Q) 1%Q Config_props.lineSplit Config_props.bothTrim Config_props.xTypes Config_props.raw Config_props.xStr Config_props.xArr Config_props.xBool Config_props.xInt Config_props.xDbl Config_props.xPos Config_props.xDbls
    vSections (fun _ => true) "installed"%string "home"%string None String.length (fun p => if p =? 4 then Some vFeed else None) (fun _ => true) true (fun _ => true)
    vArgs vUs ["feed"%string] ["my.cfg"%string] vSecs "feed"%string vFeed Config_props.xPos_ok L Q M F C S) as (e & He); [exists "tram"%string, (Config_props.opts Config_props.tram); split; [left; reflexivity|discriminate]|exact C87_sections|reflexivity|reflexivity|reflexivity|].
  exists e. split; [exact He|].
  destruct (C87_matched _ _ _ _ _ _ _ _ _ _ _ _ _ _ _ _ _ _ _ _ _ _ _ vArgs vUs ["feed"%string] ["my.cfg"%string] vSecs "feed"%string e Config_props.xPos_ok L Q M F C S He) as (f & ev & ts & out & E & Ef & _ & _ & Eo & D).
  exists ev, ts. injection Ef as <-. rewrite E, Eo; [split; [reflexivity|exact D]|]. intros (v & H). cbn in H. repeat (destruct H as [H|H]; [discriminate|]). destruct H.
Qed.
(** Other runs: with outputs on the way, an extract, a query, rules, and a single trip (the ids of trips are
    numbered by the lengths of their names). *)
Example C87_other_runs :
  vLaunch ["-x"; "city.osm"; "-c"; "my.cfg"; "-m"; "tram"; "feed"; "--write-graph"; "--write-trgraph"; "--stats"; "--inplace"]%string =
    Some (Ran [EFeed 4; EOsm 0; EMatch 0 [0]; EGraph 0; ETransit 0; EStats; EWrite 4 [mkTrip 1 0 4 (Computed 0); mkTrip 2 0 3 (Given 7); mkTrip 3 0 1 NoShape; mkTrip 4 2 3 NoShape; mkTrip 5 3 3 NoShape] true], 0) /\
  vLaunch ["-x"; "city.osm"; "-c"; "my.cfg"; "-m"; "tram"; "feed"; "-X"; "small.osm"]%string = Some (Ran [EFeed 4; EExtract [0] [4]], 0) /\
  vLaunch ["-c"; "my.cfg"; "-m"; "tram, rail"; "feed"; "--overpass"; "-i"; "feed"]%string = Some (Ran [EFeed 4; EFeed 4; EQuery [0; 1] [4; 4]], 0) /\
  vLaunch ["-c"; "my.cfg"; "-m"; "rail"; "--osmfilter"]%string = Some (Ran [ERules [1]], 0) /\
  vLaunch ["-x"; "city.osm"; "-c"; "my.cfg"; "feed"; "-T"; "four"; "-m"; "rail"]%string = Some (Ran [EFeed 4; EOsm 1; EPath 1 4], 0).
Proof. vm_compute. repeat split. Qed.
