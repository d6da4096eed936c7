(** C67: the command line. *)
From Coq Require Import Ascii String List Arith QArith Bool Lia Sorted.
From Verif Require Import ListAux Args_model Args_spec Args_proofs.
Import ListNotations.
Open Scope nat_scope.
Open Scope list_scope.

Section C67.
Variable atof : string -> Q.
Variable mPerDeg : Q.
Variable split : string -> ascii -> list string.
Variable trim : string -> string.
Variable typesOf : string -> list nat.
Notation read := (read atof mPerDeg split trim typesOf).
Notation meant := (meant atof mPerDeg split trim typesOf).

(** A command line of options and other arguments gives the configuration these options mean. *)
Theorem C67_reads : forall args us ps, line args us ps -> quiet us -> exists c, read args = Config c /\ meant us ps c.
Proof.
  intros args us ps L Q. eexists. split; [exact (read_line atof mPerDeg split trim typesOf _ _ _ L Q)|]. apply finish_meant.
Qed.

(** The program goes on only with such a command line. *)
Theorem C67_config : forall args c, read args = Config c -> exists us ps, line args us ps /\ quiet us /\ meant us ps c.
Proof.
  intros args c H.
  destruct (kinds args) as [(us & ps & L & Q)|[(us & ps & s & r & P & Q & M)|[(us & ps & s & r & P & Q & M)|[(us & ps & s & r & v & s' & r' & P & Q & T)|(us & ps & s & r & v & s' & r' & P & Q & T)]]]].
  - exists us, ps. split; [exact L|split; [exact Q|]]. rewrite (read_line atof mPerDeg split trim typesOf _ _ _ L Q) in H. inversion H. apply finish_meant.
  - rewrite (read_missing atof mPerDeg split trim typesOf _ _ _ _ _ P Q M) in H. discriminate.
  - rewrite (read_unknown atof mPerDeg split trim typesOf _ _ _ _ _ P Q M) in H. discriminate.
  - rewrite (read_help atof mPerDeg split trim typesOf _ _ _ _ _ _ _ _ P Q T) in H. discriminate.
  - rewrite (read_version atof mPerDeg split trim typesOf _ _ _ _ _ _ _ _ P Q T) in H. discriminate.
Qed.

(** Otherwise the program ends: it prints the help or the version (exit code 0) if one is asked for before anything
    is wrong, and else names what is wrong (exit code 1). *)
Theorem C67_exit : forall args o n, read args = Exit o n <->
  exists us ps s r, path "" args us ps s r /\ quiet us /\
    ( (exists v s' r', takes s r [(Help, v)] [] s' r') /\ o = PrintsHelp /\ n = 0
   \/ (exists v s' r', takes s r [(Version, v)] [] s' r') /\ o = PrintsVersion /\ n = 0
   \/ missing s r /\ o = SaysMissing /\ n = 1
   \/ unknown s r /\ o = SaysUnknown /\ n = 1 ).
Proof.
  intros args o n. split.
  - intros H.
    destruct (kinds args) as [(us & ps & L & Q)|[(us & ps & s & r & P & Q & M)|[(us & ps & s & r & P & Q & M)|[(us & ps & s & r & v & s' & r' & P & Q & T)|(us & ps & s & r & v & s' & r' & P & Q & T)]]]].
    + rewrite (read_line atof mPerDeg split trim typesOf _ _ _ L Q) in H. discriminate.
    + rewrite (read_missing atof mPerDeg split trim typesOf _ _ _ _ _ P Q M) in H. inversion H. exists us, ps, s, r. split; [exact P|split; [exact Q|]]. right; right; left. auto.
    + rewrite (read_unknown atof mPerDeg split trim typesOf _ _ _ _ _ P Q M) in H. inversion H. exists us, ps, s, r. split; [exact P|split; [exact Q|]]. right; right; right. auto.
    + rewrite (read_help atof mPerDeg split trim typesOf _ _ _ _ _ _ _ _ P Q T) in H. inversion H. exists us, ps, s, r. split; [exact P|split; [exact Q|]]. left. split; [exists v, s', r'; exact T|auto].
    + rewrite (read_version atof mPerDeg split trim typesOf _ _ _ _ _ _ _ _ P Q T) in H. inversion H. exists us, ps, s, r. split; [exact P|split; [exact Q|]]. right; left. split; [exists v, s', r'; exact T|auto].
  - intros (us & ps & s & r & P & Q & [((v & s' & r' & T) & -> & ->)|[((v & s' & r' & T) & -> & ->)|[(M & -> & ->)|(M & -> & ->)]]]).
    + exact (read_help atof mPerDeg split trim typesOf _ _ _ _ _ _ _ _ P Q T).
    + exact (read_version atof mPerDeg split trim typesOf _ _ _ _ _ _ _ _ P Q T).
    + exact (read_missing atof mPerDeg split trim typesOf _ _ _ _ _ P Q M).
    + exact (read_unknown atof mPerDeg split trim typesOf _ _ _ _ _ P Q M).
Qed.

(** A command line has one reading. *)
Theorem C67_unambiguous : forall args us ps us' ps', line args us ps -> line args us' ps' -> us = us' /\ ps = ps'.
Proof.
  intros args us ps us' ps' L L'. pose proof (line_scan _ _ _ L) as E. rewrite (line_scan _ _ _ L') in E. inversion E as [[A B]]. split; [|reflexivity].
  clear - A. revert us A. induction us' as [|[k v] us' IH]; intros [|[k1 v1] us] A; cbn in A; try discriminate; [reflexivity|].
  inversion A as [[C D F]]. apply code_inj in C. subst. f_equal. apply IH, F.
Qed.

(** Two ways to write the same options are the same, wherever they stand. *)
Theorem C67_spelling : forall before a b after us ps us0 ps0,
  path "" before us0 ps0 "" [] -> path "" a us ps "" [] -> path "" b us ps "" [] -> read (before ++ a ++ after) = read (before ++ b ++ after).
Proof.
  intros before a b after us ps us0 ps0 P A B. rewrite !read_scan.
  rewrite !(scan_app _ _ _ _ P), (scan_app _ _ _ _ A), (scan_app _ _ _ _ B). reflexivity.
Qed.

(** Where feeds stand among the options does not matter. *)
Theorem C67_feeds_anywhere : forall before feeds options after us0 ps0 us,
  path "" before us0 ps0 "" [] -> (forall a, In a feeds -> plain a) -> path "" options us [] "" [] ->
  read (before ++ feeds ++ options ++ after) = read (before ++ options ++ feeds ++ after).
Proof.
  intros before feeds options after us0 ps0 us P F O.
  assert (path "" feeds [] feeds "" []) as PF.
  { clear - F. induction feeds as [|a l IH]; [constructor|].
    pose proof (pa_step _ _ _ _ _ _ _ _ _ _ (tk_plain a l (F a (or_introl eq_refl))) (IH (fun x I => F x (or_intror I)))) as H. exact H. }
  rewrite !read_scan, !(scan_app _ _ _ _ P).
  rewrite (scan_app _ _ _ _ PF), !(scan_app _ _ _ _ O), (scan_app _ _ _ _ PF).
  unfold pre. cbn [fst snd map app]. reflexivity.
Qed.

(** Options do not influence each other: if every option has the same values in two command lines, in the same
    order, and the other arguments are the same, the configuration is the same. *)
Theorem C67_independent : forall args us ps args' us' c c', line args us ps -> line args' us' ps -> (forall k, values k us = values k us') ->
  read args = Config c -> read args' = Config c' -> c = c'.
Proof.
  intros args us ps args' us' c c' L L' V H H'.
  destruct (C67_config _ _ H) as (u1 & p1 & L1 & _ & M). destruct (C67_config _ _ H') as (u2 & p2 & L2 & _ & M').
  destruct (C67_unambiguous _ _ _ _ _ L L1) as [-> ->]. destruct (C67_unambiguous _ _ _ _ _ L' L2) as [-> <-].
  exact (meant_unique atof mPerDeg split trim typesOf _ _ _ _ _ M M' V).
Qed.

(** Configuration files: those given with -c, in order; only without -c those of the system that exist. *)
Theorem C67_config_files : forall good installed home cwd args c us ps, line args us ps -> read args = Config c ->
  (present CfgFile us -> cfgPaths good installed home cwd (kConfigs c) = values CfgFile us) /\
  (~ present CfgFile us -> implicit good installed home cwd (cfgPaths good installed home cwd (kConfigs c))).
Proof.
  intros good installed home cwd args c us ps L H.
  destruct (C67_config _ _ H) as (u1 & p1 & L1 & _ & M). destruct (C67_unambiguous _ _ _ _ _ L L1) as [<- <-].
  rewrite (mn_configs _ _ _ _ _ _ _ _ M). split; intros P.
  - apply present_values in P. destruct (values CfgFile us); [congruence|reflexivity].
  - assert (values CfgFile us = []) as -> by (destruct (values CfgFile us) eqn:E; [reflexivity|exfalso; apply P, present_values; congruence]).
    unfold implicit, cfgPaths.
    exists (if good installed then [installed] else []), (if good home then [home] else []),
      (match cwd with Some d => if good d then [d] else [] | None => [] end).
    split; [|split; [|split]].
    + destruct (good installed), (good home), cwd as [d|]; try (destruct (good d)); reflexivity.
    + destruct (good installed); auto.
    + destruct (good home); auto.
    + destruct cwd as [d|]; [destruct (good d) eqn:E; [left; exists d; auto|]|]; right; split; try reflexivity; intros d' X; inversion X; subst; exact E.
Qed.
End C67.

(** ** Examples *)
Open Scope string_scope.
Example ex_unknown : unknown "" ["--osm"; "ignored"].
Proof.
  change "--osm" with ("--" ++ "osm"). apply un_long; [cbn; intuition discriminate|discriminate|].
  intros k [H|[_ U]]; [destruct k; discriminate|]. pose proof (U OsmFile "-file" eq_refl). pose proof (U OsmOut "-out" eq_refl). congruence.
Qed.
(** pfaedle feed1 -DWoout --osm-f x.osm -i a.zip -c 1.cfg --mots=rail,bus -c 2.cfg -- -b *)
Example ex_line : line ["feed1"; "-DWoout"; "--osm-f"; "x.osm"; "-i"; "a.zip"; "-c"; "1.cfg"; "--mots=rail,bus"; "-c"; "2.cfg"; "--"; "-b"]
  [(DropShapes, ""); (Warn, ""); (Output, "out"); (OsmFile, "x.osm"); (Input, "a.zip"); (CfgFile, "1.cfg"); (Mots, "rail,bus"); (CfgFile, "2.cfg")]
  ["feed1"; "-b"].
Proof.
  apply (ln_dashes _ _ ["feed1"] ["-b"]).
  eapply (pa_step _ _ [] ["feed1"] _ _ _ []); [apply tk_plain; right; intros s E; inversion E|].
  eapply (pa_step _ _ [] [] _ _ _ []); [apply tk_letters; discriminate|].
  eapply (pa_step _ _ [(DropShapes, "")] [] _ _ _ []); [apply tk_flag; reflexivity|].
  eapply (pa_step _ _ [(Warn, "")] [] _ _ _ []); [apply tk_flag; reflexivity|].
  eapply (pa_step _ _ [(Output, "out")] [] _ _ _ []); [apply tk_glued; [reflexivity|reflexivity|discriminate]|].
  eapply (pa_step _ _ [(OsmFile, "x.osm")] [] _ _ _ []).
  { change "--osm-f" with ("--" ++ "osm-f"). apply tk_long_next; [cbn; intuition discriminate| |reflexivity].
    right. split; [exists "ile"; reflexivity|]. intros k t E. destruct k; cbn in E; inversion E; reflexivity. }
  eapply (pa_step _ _ [] [] _ _ _ []); [apply tk_letters; discriminate|].
  eapply (pa_step _ _ [(Input, "a.zip")] [] _ _ _ []); [apply tk_next; reflexivity|].
  eapply (pa_step _ _ [] [] _ _ _ []); [apply tk_letters; discriminate|].
  eapply (pa_step _ _ [(CfgFile, "1.cfg")] [] _ _ _ []); [apply tk_next; reflexivity|].
  eapply (pa_step _ _ [(Mots, "rail,bus")] [] _ _ _ []).
  { change "--mots=rail,bus" with ("--" ++ "mots" ++ "=" ++ "rail,bus"). apply tk_long_eq; [cbn; intuition discriminate| |reflexivity]. left. reflexivity. }
  eapply (pa_step _ _ [] [] _ _ _ []); [apply tk_letters; discriminate|].
  eapply (pa_step _ _ [(CfgFile, "2.cfg")] [] _ _ _ []); [apply tk_next; reflexivity|].
  apply pa_here.
Qed.
Example ex_quiet : quiet [(DropShapes, ""); (Warn, ""); (Output, "out"); (OsmFile, "x.osm"); (Input, "a.zip"); (CfgFile, "1.cfg"); (Mots, "rail,bus"); (CfgFile, "2.cfg")].
Proof. intros k v H. cbn in H. repeat (destruct H as [H|H]; [inversion H; split; discriminate|]). destruct H. Qed.
Example ex_spellings : path "" ["-oout"] [(Output, "out")] [] "" [] /\ path "" ["-o"; "out"] [(Output, "out")] [] "" [] /\
  path "" ["--output=out"] [(Output, "out")] [] "" [] /\ path "" ["--out"; "out"] [(Output, "out")] [] "" [].
Proof.
  repeat split.
  - eapply (pa_step _ _ [] [] _ _ _ []); [apply tk_letters; discriminate|].
    eapply (pa_step _ _ [(Output, "out")] [] _ _ [] []); [apply tk_glued; [reflexivity|reflexivity|discriminate]|apply pa_here].
  - eapply (pa_step _ _ [] [] _ _ _ []); [apply tk_letters; discriminate|].
    eapply (pa_step _ _ [(Output, "out")] [] _ _ [] []); [apply tk_next; reflexivity|apply pa_here].
  - eapply (pa_step _ _ [(Output, "out")] [] _ _ [] []); [|apply pa_here].
    change "--output=out" with ("--" ++ "output" ++ "=" ++ "out"). apply tk_long_eq; [cbn; intuition discriminate|left; reflexivity|reflexivity].
  - eapply (pa_step _ _ [(Output, "out")] [] _ _ [] []); [|apply pa_here].
    change "--out" with ("--" ++ "out"). apply tk_long_next; [cbn; intuition discriminate| |reflexivity].
    right. split; [exists "put"; reflexivity|]. intros k t E. destruct k; cbn in E; inversion E; reflexivity.
Qed.
Close Scope string_scope.

(** ** Not as documented *)
(** The help shows "-D [ --drop-shapes ]": two names of one option without a value.  The name takes the next argument
    with it. *)
Theorem C67_drop_shapes_refuted : forall atof mPerDeg split trim typesOf,
  ~ (forall before after us ps, path "" before us ps "" [] ->
       read atof mPerDeg split trim typesOf (before ++ ["-D"%string] ++ after) =
       read atof mPerDeg split trim typesOf (before ++ ["--drop-shapes"%string] ++ after)).
Proof.
  intros atof mPerDeg split trim typesOf H. specialize (H [] ["feed"%string] [] [] (pa_here _ _)). cbn [app] in H.
  assert (forall k k', Config k = Config k' -> kFeeds k = kFeeds k') as F by congruence.
  unfold read in H. cbn -[fold_left] in H. apply F in H. discriminate H.
Qed.
(** The help shows "-F [ --keep-additional-gtfs-fields ] arg".  The argument is read as another feed. *)
Theorem C67_keep_fields_refuted : forall atof mPerDeg split trim typesOf,
  ~ (forall v feed c, plain v -> plain feed -> read atof mPerDeg split trim typesOf ["-F"%string; v; feed] = Config c -> kFeeds c = [feed]).
Proof.
  intros atof mPerDeg split trim typesOf H.
  destruct (read atof mPerDeg split trim typesOf ["-F"%string; "1"%string; "feed"%string]) as [o n|c] eqn:E; [unfold read in E; cbn -[fold_left] in E; discriminate|].
  pose proof (H "1"%string "feed"%string c) as F.
  assert (kFeeds c = ["1"%string; "feed"%string]) as G by (unfold read in E; cbn -[fold_left] in E; inversion E; reflexivity).
  rewrite G in F. assert (["1"%string; "feed"%string] = ["feed"%string]) as X; [|discriminate X].
  apply F; [right; intros s X; inversion X|right; intros s X; inversion X|exact E].
Qed.

Print Assumptions C67_reads.
Print Assumptions C67_config.
Print Assumptions C67_exit.
Print Assumptions C67_unambiguous.
Print Assumptions C67_spelling.
Print Assumptions C67_feeds_anywhere.
Print Assumptions C67_independent.
Print Assumptions C67_config_files.
Print Assumptions C67_drop_shapes_refuted.
Print Assumptions C67_keep_fields_refuted.
