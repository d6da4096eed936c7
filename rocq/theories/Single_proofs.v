(** Proofs about the shape of a single trip. *)
From Coq Require Import String List Arith ZArith NArith QArith Bool Permutation Lia.
From Verif Require Import ListAux HopCache_model TripTrie_model TripTrie_spec TripTrie_props Simi_model Simi_spec Simi_proofs Cluster_model Cluster_spec Cluster_proofs Cluster_props
  Router_model Router_spec Router_props Hops_model Ecm_model Ecm_spec Ecm_proofs Ecm_props Shapes_model Shapes_spec Shapes_proofs Shapes_props
  Workers_model Workers_spec Workers_props Pipeline_model Pipeline_spec Pipeline_proofs Single_model Single_spec.
Import ListNotations.
Open Scope nat_scope.

(** The lines of hops. *)
Section Geom.
Context {E Pt C : Type}.
Variable eqE : E -> E -> bool.
Variable geom : E -> option (list Pt).
Variable isRev : E -> bool.
Variable fromPt toPt : E -> Pt.
Variable len : E -> Q.
Variable segment : list Pt -> Q -> Q -> list Pt.
Variable simplify : list Pt -> list Pt.
Variable pos : list Pt -> Q -> Pt.
Lemma geom_some : (forall a b, eqE a b = true <-> a = b) -> geometries_ok geom isRev fromPt toPt -> geometry segment simplify pos ->
  (forall l a b, l <> [] -> is_share a -> is_share b -> segment l a b <> []) ->
  forall hops, chained (C:=C) hops -> Forall (hop_ok fromPt toPt) hops ->
  exists parts cs, getGeom E Pt eqE geom isRev fromPt toPt len segment simplify hops = Some (parts, cs) /\
    length parts = length hops /\ Forall (fun p => p <> []) parts /\
    (Forall forward hops -> Forall2 (part_ok geom isRev fromPt toPt pos) (rev hops) parts /\ meet parts).
Proof.
  intros EQ GO GE SN hops CH HO. apply Forall_rev in HO.
  assert (M : exists r, mapM (hopGeom E Pt eqE geom isRev fromPt toPt len segment simplify) (rev hops) = Some r /\ Forall (fun p => p <> []) (map fst r) /\
    Forall2 (fun h p => forward h -> part_ok geom isRev fromPt toPt pos h p) (rev hops) (map fst r)).
  { clear CH. induction (rev hops) as [|h hs IH]; [exists []; repeat constructor|]. inversion HO as [|? ? H1 H2]; subst.
    destruct (hopGeom_some eqE geom isRev fromPt toPt len segment simplify pos EQ GO GE SN h H1) as (p & cs & E1 & N1 & F1).
    destruct (IH H2) as (r & E2 & N2 & F2). exists ((p, cs) :: r). cbn [mapM]. rewrite E1, E2. split; [reflexivity|]. split; constructor; assumption. }
  destruct M as (r & Er & Nr & Fr). unfold getGeom. rewrite Er. exists (map fst r). eexists. split; [reflexivity|].
  assert (L : length (map fst r) = length hops).
  { rewrite <- (rev_length hops). clear - Fr. induction Fr; cbn; congruence. }
  split; [exact L|]. split; [exact Nr|]. intros FW. apply Forall_rev in FW.
  assert (F2 : Forall2 (part_ok geom isRev fromPt toPt pos) (rev hops) (map fst r)).
  { clear - Fr FW. revert FW. induction Fr; intros FW; constructor; inversion FW; subst; auto. }
  split; [exact F2|]. exact (parts_meet geom isRev fromPt toPt pos _ _ (chained_rev _ CH) F2).
Qed.
End Geom.

Section P.
Context {pos C Pt regex : Type}.
Variable W : world pos C Pt.
Variable posAt : list Pt -> Q -> Pt.
Variable compile : string -> option regex.
Variable replace : regex -> string -> string -> string.
Notation hop := (hop edge Pt).
Notation drawLines := (getGeom edge Pt Nat.eqb (geom _ _ _ W) (isRev _ _ _ W) (fromPt _ _ _ W) (toPt _ _ _ W) (len _ _ _ W) (segment _ _ _ W) (simplify _ _ _ W)).

Lemma single_leaf : forall te t a, tSts _ t <> [] -> exists n, ndTrips _ _ (singleTrie W te t a) = [(n, [tId _ t])].
Proof.
  intros te t a N. unfold singleTrie, TripTrie_model.addTrip, TripTrie_model.add. cbn [negb]. destruct (tSts _ t) as [|s sts] eqn:E; [contradiction|].
  cbn [emptyTrie tripNds length Nat.eqb negb].
  destruct (addLoop_free pos (near _ _ _ W) (s :: sts) (nds _ _ (emptyTrie pos attrs)) 0 (startSecs pos t) a te true) as (l' & n & E').
  rewrite E'. exists n. reflexivity.
Qed.
Lemma single_run : forall te t a, tSts _ t <> [] ->
  runCalls pos (near _ _ _ W) attrs mergeAttrs (emptySecs _ _ _ W) (emptyTrie pos attrs) [mkCall pos attrs t a te false] = (singleTrie W te t a, [true]).
Proof.
  intros te t a N. cbn [TripTrie_model.runCalls cTrip cAttrs cTimeEx cDegen]. pose proof (addTrip_empty pos (near _ _ _ W) (emptySecs _ _ _ W) t a te N) as H. unfold singleTrie.
  destruct (addTrip pos (near _ _ _ W) attrs mergeAttrs (emptySecs _ _ _ W) (emptyTrie pos attrs) t a te false) as (tr, b). cbn in H. subst b. reflexivity.
Qed.

Hypothesis WK : world_ok W posAt.

(** The hops of a single trip. *)
Lemma single_hops : forall te t a, 2 <= length (tSts _ t) -> times_ok W t ->
  forall hc, exists n hops hc' parts cs, shapeifyTrie W hc (singleTrie W te t a) = Some ([(n, hops)], hc') /\
    ndTrips _ _ (singleTrie W te t a) = [(n, [tId _ t])] /\ drawLines hops = Some (parts, cs) /\
    serves (stopCands W) (near _ _ _ W) (map (stStop _) (tSts _ t)) (rev hops) /\
    length parts = length hops /\ Forall (fun p => p <> []) parts /\ parts <> [] /\
    (Forall forward hops -> Forall2 (part_ok (geom _ _ _ W) (isRev _ _ _ W) (fromPt _ _ _ W) (toPt _ _ _ W) posAt) (rev hops) parts /\ meet parts).
Proof.
  intros te t a L2 TO hc. assert (NE : tSts _ t <> []) by (destruct (tSts _ t); cbn in L2; [lia|discriminate]).
  pose proof (single_run te t a NE) as H. destruct (single_leaf te t a NE) as (n & Nd). set (tr := singleTrie W te t a) in *.
  destruct (C34_trips_get_hops C (lt _ _ _ W) (Pipeline_model.add _ _ _ W) (inf _ _ _ W) (ofQ _ _ _ W) (ofZ _ _ _ W) Pt (noPoint _ _ _ W) pos attrs (near _ _ _ W) mergeAttrs
    (emptySecs _ _ _ W) (weight _ _ _ W tr) (limit0 _ _ _ W tr) (startCost _ _ _ W tr) (spath _ _ _ W tr)
    (eFr _ _ _ W) (eTo _ _ _ W) (deg _ _ _ W) (outF _ _ _ W) (outB _ _ _ W) (inF _ _ _ W) (inB _ _ _ W) (oneWay _ _ _ W) (enumS _ _ _ W)
    (maxStat _ _ _ W) (maxSnap _ _ _ W) (statPen _ _ _ W) (platPen _ _ _ W) (nonStatPen _ _ _ W) (useStations _ _ _ W) (em _ _ _ W)
    (edist _ _ _ W) (eproj _ _ _ W) (isRev _ _ _ W) (point _ _ _ W) (stats _ _ _ W) (edges _ _ _ W)
    (invWeight _ _ _ W) (enum _ _ _ W) (ecost _ _ _ W tr) (len _ _ _ W) (compF _ _ _ W) (compT _ _ _ W) (search _ _ _ W tr) (searchN _ _ _ W tr)
    (needDist _ _ _ W) (allowsFast _ _ _ W) (noFastHops _ _ _ W)
    (wk_costs _ _ WK) (wk_ofQ _ _ WK) (wk_ofZ _ _ WK) (wk_add _ _ WK) (wk_near _ _ WK) (wk_enum _ _ WK) _ tr _ 2147483647%Z H) as (ecm & Ge & TC & R).
  { intros c [<-|[]]. exact L2. } { lia. } { intros c k [<-|[]] K. exact (TO a te false k K). } { cbn. lia. }
  destruct (R hc) as (r & m & Ro & Mf & Y & ps & Lps & Rs & Pl & Sv). clear R.
  pose proof (C26_built_trie_is_tree pos (near _ _ _ W) attrs mergeAttrs (emptySecs _ _ _ W) (wk_near _ _ WK) _ tr _ H) as T.
  rewrite Nd in Mf. cbn in Mf. destruct m as [|(n', hops) [|]]; try discriminate Mf. injection Mf as ->.
  destruct ps as [|[p|] [|]]; try discriminate. specialize (Sv 0 _ p eq_refl eq_refl). cbn [cTrip] in Sv. destruct Sv as ((hs & [Ih|[]]) & Sv). injection Ih as En Eh.
  destruct (Sv hops ltac:(left; congruence)) as (Se & Ch).
  destruct (Y n hops (or_introl eq_refl)) as (is & Yi & _).
  pose proof (yields_hop_ok (startCost _ _ _ W tr) (spath _ _ _ W tr) (nds _ _ tr) ecm (fromPt _ _ _ W) (toPt _ _ _ W)
      (cand_share W posAt WK (nds _ _ tr) ecm T TC)
      ltac:(intros n' a' b lim X; destruct (wk_paths _ _ WK tr n' a' b lim X) as [Z|Z];
            [left; apply (f_equal (@rev _)) in Z; rewrite rev_involutive in Z; exact Z|right; exact Z]) _ _ _ _ Yi) as HO.
  destruct (geom_some (C:=C) Nat.eqb (geom _ _ _ W) (isRev _ _ _ W) (fromPt _ _ _ W) (toPt _ _ _ W) (len _ _ _ W) (segment _ _ _ W) (simplify _ _ _ W)
      posAt Nat.eqb_eq (wk_geometries _ _ WK) (wk_geometry _ _ WK) (wk_segment _ _ WK) hops Ch HO) as (parts & cs & G & Lp & Np & Fo).
  exists n, hops, (rSt _ _ r), parts, cs. split; [|repeat split; try assumption].
  - unfold shapeifyTrie.
    change (getECM _ _ _ _ _ _ _ (stopCands W)) with (getECM C (Pipeline_model.add _ _ _ W) (ofQ _ _ _ W) Pt pos attrs (nds _ _ tr) (fun s => stopCands W s)).
    unfold stopCands. rewrite Ge, Ro. reflexivity.
  - exact (proj1 Se).
  - exact (proj2 Se).
  - intros X. rewrite X in Lp. destruct Se as (Le & _). rewrite map_length, rev_length in Le. cbn [length] in Lp. pose proof (eq_trans Le (f_equal S (eq_sym Lp))) as Z. lia.
  - apply Fo; assumption.
  - apply Fo; assumption.
Qed.

Lemma rattrs_some : forall (st : cst regex) t, tSts _ (fTrip _ t) <> [] -> exists a st', getRAttrs pos regex replace st t = Some (a, st').
Proof.
  intros st t N. unfold getRAttrs. destruct (tabGet _ _); [eauto|]. destruct (tSts _ (fTrip _ t)); [contradiction|].
  destruct (lineName _ _ _ _ _) as (nm, ln). destruct (norm _ _ _ _) as (fr, sn). destruct (norm _ _ _ _) as (to, sn2). eauto.
Qed.
Lemma single_path : forall o (st : cst regex) t, 2 <= length (tSts _ (fTrip _ t)) -> times_ok W (fTrip _ t) ->
  exists lines, shapeL W replace o st t = Some lines /\ path_for W posAt (fTrip _ t) lines.
Proof.
  intros o st t L2 TO. assert (NE : tSts _ (fTrip _ t) <> []) by (destruct (tSts _ (fTrip _ t)); cbn in L2; [lia|discriminate]).
  destruct (rattrs_some st t NE) as (a & st' & Ea).
  destruct (single_hops (oTimeEx o) (fTrip _ t) a L2 TO None) as (n & hops & hc' & parts & cs & E1 & _ & E2 & Se & Lp & Np & _ & Fo).
  exists parts. unfold shapeL, shapeifyTrip. rewrite Ea, E1, E2. split; [reflexivity|].
  exists (stopCands W), (rev hops). split; [exact (cands_ok W posAt WK)|]. split; [exact Se|]. split; [rewrite rev_length; exact Lp|].
  split; [destruct Se as (Le & _); rewrite map_length, rev_length in Le; rewrite Lp; symmetry; exact Le|]. split; [exact Np|].
  intros Fw. apply Fo. apply Forall_rev in Fw. rewrite rev_involutive in Fw. exact Fw.
Qed.
End P.

(** Too few stops. *)
Section Short.
Context {pos C Pt regex : Type}.
Variable W : world pos C Pt.
Variable replace : regex -> string -> string -> string.
Lemma single_short : forall o (st : cst regex) t, length (tSts _ (fTrip _ t)) < 2 -> shapeL W replace o st t = None.
Proof.
  intros o st t L. unfold shapeL. destruct (getRAttrs pos regex replace st t) as [(a, st')|]; [|reflexivity].
  unfold shapeifyTrip, singleTrie, TripTrie_model.addTrip, TripTrie_model.add. cbn [negb].
  destruct (tSts _ (fTrip _ t)) as [|s [|]]; cbn in L; [reflexivity| |lia].
  reflexivity.
Qed.
End Short.

(** The full run for a single selected trip. *)
Section Full.
Context {pos C Pt regex : Type}.
Variable W : world pos C Pt.
Variable posAt : list Pt -> Q -> Pt.
Variable compile : string -> option regex.
Variable replace : regex -> string -> string -> string.
Hypothesis WK : world_ok W posAt.

Lemma chosen_one : forall o (ts : list (ftrip pos)) t, NoDup (map (tOf pos) ts) -> In t ts -> Cluster_spec.selected o t ->
  (forall t', In t' ts -> Cluster_spec.selected o t' -> t' = t) -> chosen pos o ts = [t].
Proof.
  intros o ts t ND I Se Un.
  assert (ND' : NoDup (chosen pos o ts)) by (apply NoDup_filter; apply NoDup_map_inv in ND; exact ND).
  assert (A : In t (chosen pos o ts)) by (apply chosen_in; auto).
  assert (B : forall x, In x (chosen pos o ts) -> x = t) by (intros x X; apply chosen_in in X; destruct X; auto).
  destruct (chosen pos o ts) as [|x [|y l]]; [destruct A|rewrite (B x (or_introl eq_refl)); reflexivity|].
  exfalso. inversion ND' as [|? ? N1 N2]; subst. apply N1. left. rewrite (B x (or_introl eq_refl)), (B y (or_intror (or_introl eq_refl))). reflexivity.
Qed.
Lemma result_one : forall o L S (ts : list (ftrip pos)) t, chosen pos o ts = [t] ->
  result pos (near _ _ _ W) (emptySecs _ _ _ W) regex replace o L S ts =
    [(pureAttrs pos regex replace (nRules _ L) (nRules _ S) t,
      [singleTrie W (oTimeEx o) (fTrip _ t) (pureAttrs pos regex replace (nRules _ L) (nRules _ S) t)])].
Proof.
  intros o L S ts t E. unfold result, chosenPairs. rewrite E. set (a := pureAttrs pos regex replace (nRules _ L) (nRules _ S) t).
  cbn [map pushAll fold_left fst snd mapPush]. unfold final, stage. cbn [map fst].
  assert (M : mapAt [(a, [fTrip _ t])] a = Some [fTrip _ t]) by (apply mapAt_in; [repeat constructor|left; reflexivity]).
  fold a. f_equal. f_equal. match goal with |- context [match ?m with Some _ => _ | None => _ end] => replace m with (Some [fTrip _ t]) by (symmetry; exact M) end. reflexivity.
Qed.

Lemma full_one : forall o f dists M L S t, feed_ok W o f dists M -> In t (fTrips _ f) -> Cluster_spec.selected o t ->
  (forall t', In t' (fTrips _ f) -> Cluster_spec.selected o t' -> t' = t) -> noHopCache _ _ _ W = true ->
  exists jobs lines l, jobsOf W (map (fType pos) (fTrips _ f)) (result pos (near _ _ _ W) (emptySecs _ _ _ W) regex replace o L S (fTrips _ f)) = Some jobs /\
    concat jobs = [l] /\ lTrips _ _ l = [tId _ (fTrip _ t)] /\ map (fun p => fst (fst p)) (lPts _ _ l) = concat lines /\
    forall st, okSt pos regex compile replace (fTrips _ f) L S st -> shapeL W replace o st t = Some lines.
Proof.
  intros o f dists M L S t FK I Se Un NH.
  assert (ND : NoDup (map (tOf pos) (fTrips _ f))).
  { apply NoDup_nth_error. intros i j Li Ei. rewrite map_length in Li. rewrite !nth_error_map in Ei.
    destruct (nth_error (fTrips _ f) i) as [x|] eqn:Ex; [|apply nth_error_None in Ex; lia]. destruct (nth_error (fTrips _ f) j) as [y|] eqn:Ey; [|discriminate].
    injection Ei as Ei. unfold tOf in Ei. rewrite (fk_ids _ _ _ _ _ FK i x Ex), (fk_ids _ _ _ _ _ FK j y Ey) in Ei. exact Ei. }
  rewrite (result_one o L S _ t (chosen_one o _ t ND I Se Un)). set (a := pureAttrs pos regex replace (nRules _ L) (nRules _ S) t).
  assert (L2 : 2 <= length (tSts _ (fTrip _ t))) by (destruct Se as (_ & X & _); exact X).
  assert (TO : times_ok W (fTrip _ t)).
  { intros a' te dg k K. pose proof (fk_times _ _ _ _ _ FK t a' te dg k I Se K) as B. destruct (fk_sum _ _ _ _ _ FK) as [M0 MS].
    destruct (fTrips _ f) as [|x xs]; [destruct I|]. cbn [length] in MS. rewrite Nat2Z.inj_succ in MS. nia. }
  destruct (single_hops W posAt WK (oTimeEx o) (fTrip _ t) a L2 TO None) as (n & hops & hc' & parts & cs & E1 & Nd & E2 & Se2 & Lp & Np & Pne & Fo).
  apply In_nth_error in I. destruct I as (u & Eu). pose proof (fk_ids _ _ _ _ _ FK u t Eu) as Id.
  assert (Dr : exists ps ds c, drawShape W hops = Some (ps, ds, c) /\ map (fun p => fst (fst p)) ps = concat parts).
  { unfold drawShape, getGtfsShape. rewrite E2.
    destruct (getMeasure Pt (hav _ _ _ W) (rndF _ _ _ W) (rndD _ _ _ W) parts) as [ms|] eqn:Em.
    2:{ destruct parts as [|[|p l] r]; [contradiction|inversion Np; contradiction|discriminate]. }
    destruct (lineLoop_some parts ms 0) as (ps & ds & El); [intros _; destruct parts as [|[|p l] r]; [exact Logic.I|inversion Np; contradiction|exact Logic.I]| |].
    { pose proof (marks_len _ _ _ _ _ (getMeasure_ok _ _ _ _ _ Em)) as Ln. rewrite !rev_length in Ln. cbn. lia. }
    rewrite El. do 3 eexists. split; [reflexivity|]. exact (me_points _ _ _ _ _ _ (loop_measured _ _ _ (wk_rounding _ _ WK) (wk_hav _ _ WK) _ _ _ _ Em El)). }
  destruct Dr as (ps & ds & c & Ed & Mp).
  cbn [jobsOf forestLeaves]. rewrite NH, E1, Nd. cbn [leavesOf at_]. rewrite Nat.eqb_refl, Id, nth_error_map, Eu. cbn [option_map]. rewrite Ed.
  eexists _, parts, _. split; [reflexivity|]. cbn [concat app]. split; [reflexivity|]. split; [reflexivity|]. split; [exact Mp|].
  intros st OK. destruct (getRAttrs_val pos regex compile replace (fTrips _ f) L S st t OK ND (nth_error_In _ _ Eu)) as (st' & Ea & _).
  { destruct (tSts _ (fTrip _ t)); cbn in L2; [lia|discriminate]. }
  unfold shapeL. rewrite Ea. fold a. unfold shapeifyTrip. rewrite E1, E2. reflexivity.
Qed.
End Full.
