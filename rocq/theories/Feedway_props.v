(** C84: the shapes of a feed follow cheapest (with the default engine: driven) ways. *)
From Coq Require Import String List Arith ZArith NArith QArith Qround Bool Permutation Lia.
From Verif Require Import ListAux HopCache_model TripTrie_model TripTrie_spec Simi_model Simi_spec Simi_proofs Cluster_model Cluster_spec Cluster_props
  Router_model Router_spec Router_props Hops_model Hops_spec Hops_proofs Hops_props Ecm_model Ecm_spec Shapes_model Shapes_spec Shapes_props
  Workers_model Workers_spec Workers_props Optimal_spec Optimal_proofs Optimal_props Default_spec Pipeline_model Pipeline_spec Pipeline_proofs Pipeline_props
  Whole_proofs Feedway_spec Feedway_proofs.
Import ListNotations.
Open Scope nat_scope.

(** With the 1 -> n hop engine: once the clustering workers are done, nothing goes wrong
    under any schedule of the shape workers, and when these are done every selected trip
    has a new shape along the drives of a cheapest way to serve its stops. *)
Theorem C84_shapes_take_cheapest_ways : forall (pos C Pt regex : Type) (W : world pos C Pt) posAt step w (compile : string -> option regex) replace ops L S o f dists M,
  world_ok W posAt -> costs_as_given W w -> net_ok W step -> caching_ok W step ->
  noFastHops _ _ _ W || negb (allowsFast _ _ _ W) = true ->
  feed_ok W o f dists M -> 0 < oThreads o ->
  In L (fst (runNorm regex compile replace [] ops)) -> In S (fst (runNorm regex compile replace [] ops)) ->
  forall cs st' fo rest, clusterTrips pos (near _ _ _ W) (emptySecs _ _ _ W) regex replace o (mkC _ L S []) f cs = Some (st', fo, rest) ->
  (forall p, In p rest -> p = []) ->
  forall ws cnt ids store, exists ths s, build W replace o (mkC _ L S []) f cs ws cnt ids store dists = Some (rest, ths, s) /\
    ((forall p, In p ths -> p = PDone _ _) -> shaped (cheapest_shape W posAt step w) o f dists cnt ids store s).
Proof.
  intros pos C Pt regex W posAt step w compile replace ops L S o f dists M WK CG NO CO Slow FK TH IL IS cs st' fo rest Cl Dn ws cnt ids store.
  destruct (feed_known pos C Pt regex W posAt compile replace ops L S o f dists M WK FK TH IL IS _ _ (known_cheapest W posAt step w WK CG NO Slow CO)
    (cache_start W step) cs st' fo rest Cl Dn ws cnt ids store) as (ths & s & B & Sh).
  exists ths, s. split; [exact B|]. intros D. exact (shaped_imp _ _ _ _ (known_is_cheapest W posAt step w) _ _ _ _ _ _ _ (Sh D)).
Qed.
Print Assumptions C84_shapes_take_cheapest_ways.

(** With the default engine, with or without the hop cache: ... along the drives of a way
    to serve its stops, at the price it has in the network. *)
Theorem C84_shapes_are_driven : forall (pos C Pt regex : Type) (W : world pos C Pt) posAt step w (compile : string -> option regex) replace ops L S o f dists M,
  world_ok W posAt -> costs_as_given W w -> fast_net_ok W step ->
  noFastHops _ _ _ W = false -> allowsFast _ _ _ W = true ->
  feed_ok W o f dists M -> 0 < oThreads o ->
  In L (fst (runNorm regex compile replace [] ops)) -> In S (fst (runNorm regex compile replace [] ops)) ->
  forall cs st' fo rest, clusterTrips pos (near _ _ _ W) (emptySecs _ _ _ W) regex replace o (mkC _ L S []) f cs = Some (st', fo, rest) ->
  (forall p, In p rest -> p = []) ->
  forall ws cnt ids store, exists ths s, build W replace o (mkC _ L S []) f cs ws cnt ids store dists = Some (rest, ths, s) /\
    ((forall p, In p ths -> p = PDone _ _) -> shaped (driven_shape W posAt step w) o f dists cnt ids store s).
Proof.
  intros pos C Pt regex W posAt step w compile replace ops L S o f dists M WK CG NO NF AF FK TH IL IS cs st' fo rest Cl Dn ws cnt ids store.
  destruct (feed_known pos C Pt regex W posAt compile replace ops L S o f dists M WK FK TH IL IS _ _ (known_driven W posAt step w WK CG NO NF AF)
    I cs st' fo rest Cl Dn ws cnt ids store) as (ths & s & B & Sh).
  exists ths, s. split; [exact B|]. intros D. exact (shaped_imp _ _ _ _ (known_is_driven W posAt step w) _ _ _ _ _ _ _ (Sh D)).
Qed.
Print Assumptions C84_shapes_are_driven.

(** Non-vacuity: the feed of C58_case on a line of streets of cost 15; each stop can be
    served from two streets.  [slow]: the 1 -> n engine. *)
Definition qW (slow : bool) : world nat (option Z) Q := mkW nat (option Z) Q
  Nat.eqb 0%Z
  xlt xadd None (fun q => Some (Qfloor q)) (fun z => Some z)
  (fun e => e) S (fun _ => 3) (fun n => n) (fun n => n) (fun n => pred n) (fun n => pred n) (fun _ => 0)
  (fun _ => 10%Q) (fun _ => false) (fun _ => None) (fun e => inject_Z (10 * Z.of_nat e)) (fun e => inject_Z (10 * Z.of_nat (S e)))
  lcomp lcomp (fun _ => [])
  (fun l => l) 100 50 7 3 20 true (fun q => q)
  (fun s e => if e =? sPos _ s then 10%Q else 12%Q) (fun _ _ => (1 # 2)%Q) (fun s => inject_Z (10 * Z.of_nat (sPos _ s)))
  (fun s => []) (fun s => [S (sPos _ s); sPos _ s])
  (fun _ _ _ c _ _ => Some c) (fun _ _ _ => 500%Z)
  (fun _ _ => lcost 15) (fun _ _ a b lim => lsearch 15 a [] lim b)
  (fun x => x) lenum (fun _ _ => lcost 15)
  (fun _ _ => lsearch 15) (fun _ _ => lsearchN 15)
  false true slow false
  0%Q xseg (fun l => l) xhav Qred Qred 0%N.
Lemma qworld_ok : forall slow, world_ok (qW slow) xpos.
Proof.
  intros sl. pose proof pworld_ok as P. constructor.
  - exact xlaws.
  - reflexivity.
  - reflexivity.
  - intros [a|] [b|] X Y; try discriminate; reflexivity.
  - apply Nat.eqb_refl.
  - intros; split; auto.
  - intros s e. split; vm_compute; discriminate.
  - intros tr n a b lim H. change (spath _ _ _ (qW sl) tr n a b lim) with (lsearch 15 a [] lim b) in *. unfold lsearch in *.
    destruct (Nat.leb_spec a b) as [Lab|Lab]; cbn [andb] in *; [|left; reflexivity]. destruct (ldist 15 a b <? lim)%Z; [|left; reflexivity]. right. cbn [snd].
    rewrite rev_involutive.
    split; [apply ppath_ok|]. split; [exists (seq (S a) (b - a)); reflexivity|]. exists (seq a (b - a)). rewrite seq_S. f_equal. f_equal. lia.
  - exact xrounding.
  - exact xhav_pos.
  - exact (wk_geometries _ _ P).
  - exact xgeometry.
  - exact (wk_segment _ _ P).
Qed.
Definition qbuild slow := build (qW slow) xrepl xo (mkC _ xL xS []) pfeed [0; 0; 0; 0; 1; 1; 1; 1] (alt 60) 0 ["old"; "x"]%string [] pdists.
Definition qres slow := match qbuild slow with
  | Some (rest, ths, s) => Some (rest, ths, map (fun x => (tShape _ x, map Qred (tDists _ x))) (sTrips _ _ s),
      map (fun x => (fst x, map (fun p => Qred (fst (fst p))) (snd x))) (sStore _ _ s))
  | None => None
  end.
Lemma line_fits : forall a b d, cheapest (lstep 15) a b d -> (d < 4294967295)%Z -> (d + lcost 15 b <= 4294967295)%Z.
Proof.
  intros a b d [(es & X) _] L. apply line_walk in X. destruct X as (_ & -> & _). unfold ldist, lcost in *. lia.
Qed.
Example C84_case : forall slow,
  world_ok (qW slow) xpos /\ costs_as_given (qW slow) (fun _ _ _ c _ => Some c) /\ feed_ok (qW slow) xo pfeed pdists 240 /\ 0 < oThreads xo /\
  net_ok (qW slow) (fun _ _ => lstep 15) /\ caching_ok (qW slow) (fun _ _ => lstep 15) /\ fast_net_ok (qW slow) (fun _ _ => lstep 15) /\
  noFastHops _ _ _ (qW slow) = slow /\ allowsFast _ _ _ (qW slow) = true /\
  qres slow = Some ([[]; []], [PDone _ _; PDone _ _],
    [("shp_3_2", [0; 0; 10]); ("shp_3_3", [0; 0; 20]); ("old", [9; 9]); ("", [9]); ("shp_3_1", [0; 0]); ("", [9; 9]); ("shp_3_2", [0; 0; 10])]%string%Q,
    [("shp_3_1", [35; 35]); ("shp_3_2", [25; 25; 25; 30; 30; 35]); ("shp_3_3", [25; 25; 25; 30; 30; 40; 40; 45])]%string%Q).
Proof.
  intros slow. split; [exact (qworld_ok slow)|]. split; [split; [reflexivity|reflexivity|exact line_enum]|]. split.
  { destruct C58_case as (_ & [F1 F2 F3 F4] & _). constructor; assumption. }
  split; [unfold xo; cbn; lia|].
  assert (Tr : forall cs tr, trie_made (qW slow) cs tr -> tree (nds _ _ tr)).
  { intros cs tr (rs & H). exact (Router_props.C26_built_trie_is_tree nat Nat.eqb attrs mergeAttrs 0%Z Nat.eqb_refl cs tr rs H). }
  split.
  { intros cs tr cands ecm Tm [Co Tc]. split.
    - intros n0. apply line_graph. unfold u32max. lia.
    - intros n0. apply line_search.
    - intros n0. apply line_path.
    - exact (cand_share_any (qW slow) xpos (qworld_ok slow) cands Co (nds _ _ tr) ecm (Tr cs tr Tm) Tc).
    - intros p n. unfold u32max. cbn. lia.
    - intros. unfold u32max. cbn. unfold lcost. lia.
    - intros n p f i x y ef et d _ _ _ _ _ _ Ch L. exact (line_fits _ _ _ Ch L). }
  split; [right; split; [reflexivity|intros; cbn; lia]|]. split.
  { intros cs tr cands ecm Tm [Co Tc]. split.
    - intros n0. apply line_graph. unfold u32max. lia.
    - intros n0. apply line_searchN.
    - intros n0. apply line_path.
    - exact (cand_share_any (qW slow) xpos (qworld_ok slow) cands Co (nds _ _ tr) ecm (Tr cs tr Tm) Tc).
    - intros p n. cbn. lia.
    - intros. cbn. unfold lcost. lia.
    - intros n p f i x y ef et d _ _ _ _ _ _ Ch L. exact (line_fits _ _ _ Ch L). }
  split; [reflexivity|]. split; [reflexivity|]. destruct slow; vm_compute; reflexivity.
Qed.
