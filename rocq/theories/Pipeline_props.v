(** From the trips of the feed to their shapes: C55, C58. *)
From Coq Require Import String List Arith ZArith NArith QArith Qround Bool Permutation Lia.
From Verif Require Import ListAux HopCache_model TripTrie_model TripTrie_spec Simi_model Simi_spec Simi_proofs Cluster_model Cluster_spec Cluster_props
  Router_model Router_spec Router_props Hops_model Ecm_model Ecm_spec Shapes_model Shapes_spec Shapes_props
  Workers_model Workers_spec Workers_props Pipeline_model Pipeline_spec Pipeline_proofs.
Import ListNotations.
Open Scope nat_scope.

Lemma nodup_ids : forall pos (f : feed pos), (forall u t, nth_error (fTrips _ f) u = Some t -> tId _ (fTrip _ t) = u) ->
  NoDup (map (fun t => tId _ (fTrip _ t)) (fTrips _ f)).
Proof.
  intros pos f H. apply NoDup_nth_error. intros i j L E. rewrite map_length in L. rewrite !nth_error_map in E.
  destruct (nth_error (fTrips _ f) i) as [a|] eqn:Ea; [|apply nth_error_None in Ea; lia]. destruct (nth_error (fTrips _ f) j) as [b|] eqn:Eb; [|discriminate].
  injection E as E. rewrite (H i a Ea), (H j b Eb) in E. exact E.
Qed.

(** C58: from trips to shapes.  Once the clustering workers are done, nothing goes wrong
    under any schedule of the shape workers, and when these are done every selected trip
    has a new shape that serves its stops, with a distance for each; every other trip is
    as before. *)
Theorem C58_feed_to_shapes : forall (pos C Pt regex : Type) (W : world pos C Pt) posAt (compile : string -> option regex) replace ops L S o f dists M,
  world_ok W posAt -> feed_ok W o f dists M -> 0 < oThreads o ->
  In L (fst (runNorm regex compile replace [] ops)) -> In S (fst (runNorm regex compile replace [] ops)) ->
  forall cs st' fo rest, clusterTrips pos (near _ _ _ W) (emptySecs _ _ _ W) regex replace o (mkC _ L S []) f cs = Some (st', fo, rest) ->
  (forall p, In p rest -> p = []) ->
  forall ws cnt ids store, exists ths s, build W replace o (mkC _ L S []) f cs ws cnt ids store dists = Some (rest, ths, s) /\
    ((forall p, In p ths -> p = PDone _ _) -> shaped (shape_for W posAt) o f dists cnt ids store s).
Proof.
  intros pos C Pt regex W posAt compile replace ops L S o f dists M WK FK TH IL IS cs st' fo rest Cl Dn ws cnt ids store.
  destruct (C55_clusters (near _ _ _ W) (emptySecs _ _ _ W) compile replace ops L S o f IL IS (nodup_ids _ f (fk_ids _ _ _ _ _ FK)) TH cs) as (st2 & fo2 & rest2 & Cl2 & CL).
  rewrite Cl in Cl2. injection Cl2 as <- <- <-. specialize (CL Dn).
  destruct (jobs_ok W posAt WK o f dists M FK fo (cl_trie_of W o f fo _ _ CL)) as (jobs & Ej & Fl & Hl).
  destruct (work W posAt o f dists M fo _ _ FK CL jobs Fl Hl) as [WO _].
  destruct (C37_workers _ Q jobs cnt ids store _ WO (oThreads o) ws) as (ths & s & R & A).
  exists ths, s. split; [unfold build; rewrite Cl, Ej, R; reflexivity|]. intros D. destruct (A ltac:(lia) D) as (iss & As).
  exact (assigned_shaped W posAt o f dists M fo _ _ FK CL jobs cnt ids store iss s Fl Hl As).
Qed.
Print Assumptions C58_feed_to_shapes.

(** C58: the computation ends: there is a schedule of the clustering workers that lets
    them finish, and then every schedule that gives the shape workers enough turns lets
    these finish. *)
Theorem C58_ends : forall (pos C Pt regex : Type) (W : world pos C Pt) posAt (compile : string -> option regex) replace ops L S o f dists M,
  world_ok W posAt -> feed_ok W o f dists M -> 0 < oThreads o ->
  In L (fst (runNorm regex compile replace [] ops)) -> In S (fst (runNorm regex compile replace [] ops)) ->
  forall cnt ids store, exists cs turns, forall ws, (forall i, i < oThreads o -> turns <= count_occ Nat.eq_dec ws i) ->
  exists rest ths s, build W replace o (mkC _ L S []) f cs ws cnt ids store dists = Some (rest, ths, s) /\
    (forall p, In p rest -> p = []) /\ (forall p, In p ths -> p = PDone _ _) /\ shaped (shape_for W posAt) o f dists cnt ids store s.
Proof.
  intros pos C Pt regex W posAt compile replace ops L S o f dists M WK FK TH IL IS cnt ids store.
  destruct (C38_workers_finish (near _ _ _ W) (emptySecs _ _ _ W) compile replace ops L S o f IL IS (nodup_ids _ f (fk_ids _ _ _ _ _ FK)) TH) as (cs & st' & fo & rest & Cl & Dn).
  destruct (C55_clusters (near _ _ _ W) (emptySecs _ _ _ W) compile replace ops L S o f IL IS (nodup_ids _ f (fk_ids _ _ _ _ _ FK)) TH cs) as (st2 & fo2 & rest2 & Cl2 & CL).
  rewrite Cl in Cl2. injection Cl2 as <- <- <-. specialize (CL Dn).
  destruct (jobs_ok W posAt WK o f dists M FK fo (cl_trie_of W o f fo _ _ CL)) as (jobs & Ej & Fl & Hl).
  destruct (C38_shape_workers_finish _ Q jobs cnt ids store (tripsOf (fTrips _ f) dists 0) (oThreads o)) as (turns & T).
  exists cs, turns. intros ws F.
  destruct (C58_feed_to_shapes pos C Pt regex W posAt compile replace ops L S o f dists M WK FK TH IL IS cs st' fo rest Cl Dn ws cnt ids store) as (ths & s & B & Sh).
  exists rest, ths, s. split; [exact B|]. split; [exact Dn|]. unfold build in B. rewrite Cl, Ej in B.
  destruct (run _ _ _ _ _ _) as [(ths', s')|] eqn:R; [|discriminate]. injection B as -> ->.
  pose proof (T ws F ths s R) as D. split; [exact D|exact (Sh D)].
Qed.
Print Assumptions C58_ends.

(** C55: exactly the selected trips are given new shapes; the others keep their shape, in
    the feed and in the shape container, and their distances. *)
Theorem C55_only_selected_trips_change : forall (pos C Pt regex : Type) (W : world pos C Pt) posAt (compile : string -> option regex) replace ops L S o f dists M,
  world_ok W posAt -> feed_ok W o f dists M -> 0 < oThreads o ->
  In L (fst (runNorm regex compile replace [] ops)) -> In S (fst (runNorm regex compile replace [] ops)) ->
  forall cs st' fo rest, clusterTrips pos (near _ _ _ W) (emptySecs _ _ _ W) regex replace o (mkC _ L S []) f cs = Some (st', fo, rest) ->
  (forall p, In p rest -> p = []) ->
  forall ws cnt ids store ths s, build W replace o (mkC _ L S []) f cs ws cnt ids store dists = Some (rest, ths, s) ->
  (forall p, In p ths -> p = PDone _ _) -> (forall t ty k, In t (fTrips _ f) -> cnt < k -> fShape _ t <> idOf ty k) ->
  forall u t, nth_error (fTrips _ f) u = Some t -> exists id ds, nth_error (sTrips _ _ s) u = Some (mkTrip Q id ds) /\
    (~ Cluster_spec.selected o t -> id = fShape _ t /\ ds = dists u /\ (In id ids -> In id (sIds _ _ s))) /\
    (Cluster_spec.selected o t -> id <> fShape _ t /\ ~ In id ids /\ In id (sIds _ _ s)).
Proof.
  intros pos C Pt regex W posAt compile replace ops L S o f dists M WK FK TH IL IS cs st' fo rest Cl Dn ws cnt ids store ths s B D NC u t E.
  destruct (C58_feed_to_shapes pos C Pt regex W posAt compile replace ops L S o f dists M WK FK TH IL IS cs st' fo rest Cl Dn ws cnt ids store) as (ths' & s' & B' & Sh).
  rewrite B in B'. injection B' as <- <-. specialize (Sh D).
  assert (Dec : Cluster_spec.selected o t \/ ~ Cluster_spec.selected o t).
  { destruct (skipped pos o t) eqn:X; [right|left]; [intros Y; apply (proj2 (Cluster_proofs.skipped_selected pos o t)) in Y; congruence|].
    apply (proj1 (Cluster_proofs.skipped_selected pos o t)). exact X. }
  destruct Dec as [Se|Se].
  - destruct (sh_selected _ _ _ _ _ _ _ _ Sh u t E Se) as (id & n & ps & ds & En & _ & Ln & (ty & Ei) & K). destruct (K NC) as (K1 & K2 & _).
    exists id, ds. split; [exact En|]. split; [contradiction|]. intros _. split; [|auto]. intros X. apply (NC t ty n); [eapply nth_error_In; exact E|exact Ln|congruence].
  - destruct (sh_others _ _ _ _ _ _ _ _ Sh u t E Se) as [En K]. exists (fShape _ t), (dists u). split; [exact En|]. split; [auto|]. intros X. contradiction.
Qed.
Print Assumptions C55_only_selected_trips_change.

(** ** A concrete case
    Stops along a line of streets; street [e] leads from [10 e] to [10 e + 10]. *)
Definition ppath (a b : edge) : list edge := rev (seq a (S (b - a))).
Definition pWc (noCache : bool) : world nat (option Z) Q := mkW nat (option Z) Q
  Nat.eqb 0%Z
  xlt xadd None (fun q => Some (Qfloor q)) (fun z => Some z)
  (fun e => e) S (fun _ => 3) (fun n => n) (fun n => n) (fun n => pred n) (fun n => pred n) (fun _ => 0)
  (fun _ => 10%Q) (fun _ => false) (fun _ => None) (fun e => inject_Z (10 * Z.of_nat e)) (fun e => inject_Z (10 * Z.of_nat (S e)))
  (fun _ => 1) (fun _ => 1) (fun _ => [])
  (fun l => l) 100 50 7 3 20 true (fun q => q)
  (fun _ _ => 10%Q) (fun _ _ => (1 # 2)%Q) (fun s => inject_Z (10 * Z.of_nat (sPos _ s)))
  (fun s => []) (fun s => [sPos _ s])
  (fun _ _ _ c _ _ => Some c) (fun _ _ _ => 500%Z)
  (fun _ _ _ => 40%Z) (fun _ _ a b lim => if a <=? b then (40%Z, ppath a b) else (lim, []))
  (fun x => x) (fun l => l) (fun _ _ _ => 40%Z)
  (fun _ _ a _ lim b => if a <=? b then (40%Z, ppath a b) else (lim, [])) (fun _ _ _ _ _ _ _ => [])
  false false true noCache
  0%Q xseg (fun l => l) xhav Qred Qred 0%N.
Definition pW := pWc false.
Lemma ppath_ok : forall n a, path (fromPt _ _ _ pW) (toPt _ _ _ pW) (seq a n).
Proof. induction n as [|[|n] IH]; intros a; cbn; auto. split; [reflexivity|]. exact (IH (S a)). Qed.
Lemma xhav_pos : forall p q : Q, (0 <= xhav p q)%Q.
Proof.
  assert (K : forall a b : Q, (a <= b)%Q -> (0 <= b - a)%Q).
  { intros a b H. apply (Qplus_le_l _ _ a). setoid_replace (b - a + a)%Q with b by ring. rewrite Qplus_0_l. exact H. }
  intros p q. unfold xhav. destruct (Qlt_le_dec p q) as [X|X]; rewrite Qred_correct; apply K; [apply Qlt_le_weak|]; exact X.
Qed.
Lemma pworldc_ok : forall nc, world_ok (pWc nc) xpos.
Proof.
  intros nc. constructor.
  - exact xlaws.
  - reflexivity.
  - reflexivity.
  - intros [a|] [b|] X Y; try discriminate; reflexivity.
  - apply Nat.eqb_refl.
  - intros; split; auto.
  - intros s e. split; vm_compute; discriminate.
  - intros tr n a b lim H. change (spath _ _ _ (pWc nc) tr n a b lim) with (if a <=? b then (40%Z, ppath a b) else (lim, [])) in *.
    destruct (Nat.leb_spec a b) as [Lab|Lab]; [|left; reflexivity]. right. cbn [snd]. unfold ppath. rewrite rev_involutive.
    split; [apply ppath_ok|]. split; [exists (seq (S a) (b - a)); reflexivity|]. exists (seq a (b - a)). rewrite seq_S. f_equal. f_equal. lia.
  - exact xrounding.
  - exact xhav_pos.
  - intros e l H. cbn in H. subst l. split; [eexists; reflexivity|eexists [_]; reflexivity].
  - exact xgeometry.
  - intros l a b _ _ _. cbn. unfold xseg. destruct (Qlt_le_dec b a); discriminate.
Qed.
Example pworld_ok : world_ok pW xpos.
Proof. exact (pworldc_ok false). Qed.
Definition ptrip (i : nat) (ss : list (stop nat)) (sh rs ts rl : string) (ty : nat) : ftrip nat :=
  mkFt nat (TripTrie_model.mkTrip nat i (map (fun s => Cluster_props.xst s (Z.of_nat (60 * sPos _ s))) ss)) sh ty rs ts rl.
Definition pfeed := mkFeed nat [xA; xB; xC; xD]
  [ptrip 0 [xA; xB; xC] "" "Bus 1" "" "" 3; ptrip 1 [xA; xB; xD] "" "1" "" "" 3; ptrip 2 [xA; xB] "old" "1" "" "" 3;
   ptrip 3 [xB] "" "1" "" "" 3; ptrip 4 [xB; xC] "" "" "S2" "x" 3; ptrip 5 [xC; xD] "" "1" "" "" 0; ptrip 6 [xA; xB; xC] "" "1" "" "" 3]%string.
Definition pdists (u : nat) : list Q := match u with 0 | 1 | 6 => [9; 9; 9]%Q | 3 => [9]%Q | _ => [9; 9]%Q end.
Definition pbuild := build pW xrepl xo (mkC _ xL xS []) pfeed [0; 0; 0; 0; 1; 1; 1; 1] (alt 60) 0 ["old"; "x"]%string [] pdists.
Example C58_case : world_ok pW xpos /\ feed_ok pW xo pfeed pdists 240 /\ 0 < oThreads xo /\
  (forall t ty k, In t (fTrips _ pfeed) -> 0 < k -> fShape _ t <> idOf ty k) /\
  match pbuild with
  | Some (rest, ths, s) => rest = [[]; []] /\ ths = [PDone _ _; PDone _ _] /\
      sIds _ _ s = ["shp_3_3"; "shp_3_2"; "shp_3_1"; "old"; "x"]%string /\
      map (fun x => (tShape _ x, map Qred (tDists _ x))) (sTrips _ _ s) =
        [("shp_3_2", [0; 10; 20]); ("shp_3_3", [0; 10; 30]); ("old", [9; 9]); ("", [9]); ("shp_3_1", [0; 10]); ("", [9; 9]); ("shp_3_2", [0; 10; 20])]%string%Q /\
      map (fun x => (fst x, map (fun p => Qred (fst (fst p))) (snd x))) (sStore _ _ s) =
        [("shp_3_1", [25; 30; 30; 35]); ("shp_3_2", [15; 20; 20; 25; 25; 30; 30; 35]); ("shp_3_3", [15; 20; 20; 25; 25; 30; 30; 40; 40; 45])]%string%Q
  | None => False
  end.
Proof.
  split; [exact pworld_ok|]. split; [|split; [unfold xo; cbn; lia|split]].
  - constructor.
    + intros u t E. do 7 (destruct u as [|u]; [cbn in E; injection E as <-; reflexivity|]). destruct u; discriminate E.
    + intros u t E. do 7 (destruct u as [|u]; [cbn in E; injection E as <-; reflexivity|]). destruct u; discriminate E.
    + intros t a te dg k I _ K. cbn in I.
      repeat (destruct I as [<-|I]; [vm_compute in K; repeat (destruct K as [<-|K]; [vm_compute; split; discriminate|]); contradiction|]). contradiction.
    + vm_compute. split; discriminate.
  - intros t ty k I _ C. cbn in I. repeat (destruct I as [<-|I]; [discriminate C|]). contradiction.
  - vm_compute. repeat split.
Qed.
