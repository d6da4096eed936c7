(** The shape of a single trip: C73. *)
From Coq Require Import String List Arith ZArith NArith QArith Qround Bool Permutation Lia.
From Verif Require Import ListAux HopCache_model TripTrie_model TripTrie_spec Simi_model Simi_spec Simi_proofs Cluster_model Cluster_spec Cluster_proofs Cluster_props
  Router_model Router_spec Router_props Hops_model Ecm_model Ecm_spec Shapes_model Shapes_spec Shapes_props
  Workers_model Workers_spec Workers_props Pipeline_model Pipeline_spec Pipeline_proofs Pipeline_props Single_model Single_spec Single_proofs.
Import ListNotations.
Open Scope nat_scope.

(** C73: for a trip with at least two stops there is a path: a line for every two
    consecutive stops, along a hop between candidates of these, each starting where the
    one before it ends. *)
Theorem C73_path : forall (pos C Pt regex : Type) (W : world pos C Pt) posAt (replace : regex -> string -> string -> string) o st t,
  world_ok W posAt -> 2 <= length (tSts _ (fTrip _ t)) -> times_ok W (fTrip _ t) ->
  exists lines, shapeL W replace o st t = Some lines /\ path_for W posAt (fTrip _ t) lines.
Proof. intros pos C Pt regex W posAt replace o st t WK L2 TO. exact (single_path W posAt replace WK o st t L2 TO). Qed.
Print Assumptions C73_path.

(** C73, finding: the trip may have fewer stops (the full run leaves such trips alone);
    then the outcome is undefined. *)
Theorem C73_short_trips_refuted : forall (pos C Pt regex : Type) (W : world pos C Pt) (replace : regex -> string -> string -> string) o st t,
  length (tSts _ (fTrip _ t)) < 2 -> shapeL W replace o st t = None /\ ~ Cluster_spec.selected o t.
Proof.
  intros pos C Pt regex W replace o st t L. split; [exact (single_short W replace o st t L)|]. intros (_ & X & _). lia.
Qed.
Print Assumptions C73_short_trips_refuted.

(** C73: what is drawn for one trip is what the full run stores, if that has only this
    trip to do and uses no hop cache. *)
Theorem C73_agrees : forall (pos C Pt regex : Type) (W : world pos C Pt) posAt (compile : string -> option regex) replace ops L S o f dists M t,
  world_ok W posAt -> feed_ok W o f dists M -> 0 < oThreads o ->
  In L (fst (runNorm regex compile replace [] ops)) -> In S (fst (runNorm regex compile replace [] ops)) ->
  In t (fTrips _ f) -> Cluster_spec.selected o t -> (forall t', In t' (fTrips _ f) -> Cluster_spec.selected o t' -> t' = t) -> noHopCache _ _ _ W = true ->
  forall cs ws cnt ids store rest ths s, build W replace o (mkC _ L S []) f cs ws cnt ids store dists = Some (rest, ths, s) ->
  (forall p, In p rest -> p = []) -> (forall p, In p ths -> p = PDone _ _) ->
  (forall t ty k, In t (fTrips _ f) -> cnt < k -> fShape _ t <> idOf ty k) ->
  exists lines id ps ds, shapeL W replace o (mkC _ L S []) t = Some lines /\
    nth_error (sTrips _ _ s) (tId _ (fTrip _ t)) = Some (mkTrip Q id ds) /\
    sStore _ _ s = store ++ [(id, ps)] /\ map (fun p => fst (fst p)) ps = concat lines.
Proof.
  intros pos C Pt regex W posAt compile replace ops L S o f dists M t WK FK TH IL IS I Se Un NH cs ws cnt ids store rest ths s B Dr Dn NCf.
  assert (OL : norm_ok regex compile replace L) by (apply (run_ok regex compile replace ops [] (fun n (X : In n []) => match X with end)); exact IL).
  assert (OS : norm_ok regex compile replace S) by (apply (run_ok regex compile replace ops [] (fun n (X : In n []) => match X with end)); exact IS).
  destruct (cluster_main pos (near _ _ _ W) (emptySecs _ _ _ W) regex compile replace o (mkC _ L S []) f OL OS eq_refl (nodup_ids _ f (fk_ids _ _ _ _ _ FK)) TH)
    as (st' & OK & _ & _ & Cl & _).
  destruct (Cl cs) as (fo & rest' & Ec & Fo). clear Cl.
  unfold build in B. rewrite Ec in B. destruct (jobsOf W (map (fType pos) (fTrips _ f)) fo) as [jobs|] eqn:Ej; [|discriminate].
  destruct (run _ _ _ _ _ _) as [(ths', s')|] eqn:R; [|discriminate]. injection B as -> -> ->.
  specialize (Fo Dr). cbn [cLine cStat] in *.
  destruct (full_one W posAt compile replace WK o f dists M L S t FK I Se Un NH) as (jobs' & lines & l & Ej' & Cj & Lt & Mp & Sl).
  rewrite <- Fo in Ej'. rewrite Ej in Ej'. injection Ej' as <-.
  destruct (C55_clusters (near _ _ _ W) (emptySecs _ _ _ W) compile replace ops L S o f IL IS (nodup_ids _ f (fk_ids _ _ _ _ _ FK)) TH cs) as (st2 & fo2 & rest2 & Cl2 & CL).
  rewrite Ec in Cl2. injection Cl2 as <- <- <-. specialize (CL Dr).
  destruct (jobs_ok W posAt WK o f dists M FK fo (cl_trie_of W o f fo _ _ CL)) as (jobs2 & Ej2 & Fl & Hl). rewrite Ej in Ej2. injection Ej2 as <-.
  destruct (work W posAt o f dists M fo _ _ FK CL jobs Fl Hl) as [WO _].
  destruct (C37_workers _ Q jobs cnt ids store _ WO (oThreads o) ws) as (ths2 & s2 & R2 & A).
  rewrite R in R2. injection R2 as <- <-. destruct (A ltac:(lia) Dn) as (iss & As).
  pose proof (as_leaves _ _ _ _ _ _ _ As) as Pl. rewrite Cj in Pl. apply Permutation_length_1_inv in Pl. destruct iss as [|(id, l') [|]]; try discriminate Pl.
  injection Pl as ->.
  assert (NC : no_clash jobs (tripsOf (fTrips _ f) dists 0) cnt).
  { intros v x l0 k Ex _ Lk. rewrite tripsOf_nth in Ex. destruct (nth_error (fTrips _ f) v) as [t'|] eqn:Ev; [|discriminate].
    injection Ex as <-. cbn. apply NCf; [eapply nth_error_In; exact Ev|exact Lk]. }
  destruct (as_store _ _ _ _ _ _ _ As NC) as (new & En & P). cbn [map fst snd] in P. apply Permutation_sym, Permutation_length_1_inv in P. subst new.
  exists lines, id, (lPts _ _ l), (lDists _ _ l). split.
  - apply Sl. split; [apply sameN_refl; assumption|]. split; [apply sameN_refl; assumption|]. intros t' a _ X. discriminate X.
  - split; [apply (as_trips _ _ _ _ _ _ _ As id l); [left; reflexivity|rewrite Lt; left; reflexivity]|]. split; [exact En|exact Mp].
Qed.
Print Assumptions C73_agrees.

(** ** A concrete case
    The stops and streets of the example for C58; only trip 0 is selected. *)
Definition sT := ptrip 0 [xA; xB; xC] "" "Bus 1" "" "" 3.
Definition sfeed := mkFeed nat [xA; xB; xC; xD] [sT; ptrip 1 [xA; xB] "old" "1" "" "" 3; ptrip 2 [xB] "" "1" "" "" 3; ptrip 3 [xC; xD] "" "1" "" "" 0]%string.
Definition sdists (u : nat) : list Q := match u with 0 => [9; 9; 9]%Q | 2 => [9]%Q | _ => [9; 9]%Q end.
Definition sbuild := build (pWc true) xrepl xo (mkC _ xL xS []) sfeed [0; 0; 0; 0; 1; 1; 1; 1] (alt 60) 0 ["old"]%string [] sdists.
Example C73_case : world_ok (pWc true) xpos /\ feed_ok (pWc true) xo sfeed sdists 240 /\ 0 < oThreads xo /\ times_ok (pWc true) (fTrip _ sT) /\
  Cluster_spec.selected xo sT /\ (forall t', In t' (fTrips _ sfeed) -> Cluster_spec.selected xo t' -> t' = sT) /\
  (forall t ty k, In t (fTrips _ sfeed) -> 0 < k -> fShape _ t <> idOf ty k) /\
  option_map (map (map Qred)) (shapeL (pWc true) xrepl xo (mkC _ xL xS []) sT) = Some [[15; 20; 20; 25]; [25; 30; 30; 35]]%Q /\
  match sbuild with
  | Some (rest, ths, s) => rest = [[]; []] /\ ths = [PDone _ _; PDone _ _] /\
      nth_error (sTrips _ _ s) 0 = Some (mkTrip Q "shp_3_1" [0; 10; 20]%Q) /\
      map (fun x => (fst x, map (fun p => Qred (fst (fst p))) (snd x))) (sStore _ _ s) = [("shp_3_1", [15; 20; 20; 25; 25; 30; 30; 35]%Q)]%string
  | None => False
  end.
Proof.
  split; [exact (pworldc_ok true)|]. split; [|split; [unfold xo; cbn; lia|split; [|split; [|split; [|split]]]]].
  - constructor.
    + intros u t E. do 4 (destruct u as [|u]; [cbn in E; injection E as <-; reflexivity|]). destruct u; discriminate E.
    + intros u t E. do 4 (destruct u as [|u]; [cbn in E; injection E as <-; reflexivity|]). destruct u; discriminate E.
    + intros t a te dg k I _ K. cbn in I.
      repeat (destruct I as [<-|I]; [vm_compute in K; repeat (destruct K as [<-|K]; [vm_compute; split; discriminate|]); contradiction|]). contradiction.
    + vm_compute. split; discriminate.
  - intros a te dg k K. vm_compute in K. repeat (destruct K as [<-|K]; [vm_compute; split; discriminate|]). contradiction.
  - apply (Cluster_proofs.skipped_selected nat xo sT). reflexivity.
  - intros t' I Se. apply (Cluster_proofs.skipped_selected nat xo t') in Se. cbn in I. repeat (destruct I as [<-|I]; [first [reflexivity|discriminate Se]|]). contradiction.
  - intros t ty k I _ C. cbn in I. repeat (destruct I as [<-|I]; [discriminate C|]). contradiction.
  - vm_compute. repeat split.
Qed.
Example C73_short_case : shapeL (pWc true) xrepl xo (mkC _ xL xS []) (ptrip 2 [xB] "" "1" "" "" 3) = None.
Proof. apply C73_short_trips_refuted. cbn. lia. Qed.
