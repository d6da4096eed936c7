(** C79: from the feed to shapes.txt and stop_times.txt. *)
From Coq Require Import Ascii String List Arith NArith ZArith QArith Qround Bool Lia.
From Verif Require Import ListAux ShapeStore_model ShapeStore_spec HopCache_model TripTrie_model TripTrie_spec Simi_model Simi_props Cluster_model Cluster_spec Cluster_props
  Router_model Shapes_model Shapes_props Workers_model Workers_spec Workers_props
  Pipeline_model Pipeline_spec Pipeline_props ShapesFile_model StopTimesFile_model StopTimesFile_spec Output_model Output_spec Output_proofs.
Import ListNotations.
Open Scope nat_scope.
Open Scope list_scope.

(** C79: any number of configurations for different route types, each with its own network,
    number of threads and schedules.  After a run, shapes.txt has, under the id the trip
    refers to, the points of a shape that serves the stops of the trip in the network
    of its configuration; stop_times.txt has the distances along it; trips that no
    configuration selects keep their shapes and distances; nothing else is in the files. *)
Theorem C79_feed_to_files : forall (pos C Pt regex X : Type) (compile : string -> option regex) replace (enc : Pt * Q * nat -> pt) posAt
  (f : feed pos) dists wa wb wd (cs : list (@config pos C Pt regex)) sids old ids seqs (rows : list (strow Q X)), 0 < wa + wb + wd ->
  (forall p, length (pLat (enc p)) = wa /\ length (pLng (enc p)) = wb /\ length (pDist (enc p)) = wd) ->
  Forall (config_ok compile replace posAt f dists) cs -> apart cs ->
  (forall u t, nth_error (fTrips _ f) u = Some t -> length (dists u) = length (tSts _ (fTrip _ t))) ->
  (forall t ty n, In t (fTrips _ f) -> fShape _ t <> idOf ty n) ->
  (forall x, In x old -> wId x <> ""%string /\ In (wId x) sids) -> read_from rows (tripsOf (fTrips _ f) dists 0) ids seqs ->
  forall trips' shapes rows', outputFiles replace enc wa wb wd cs f dists sids (Some old) ids seqs rows = Some (trips', shapes, rows') ->
  output_ok enc (serving posAt) cs f dists sids old ids seqs rows trips' shapes rows'.
Proof.
  intros pos C Pt regex X compile replace enc posAt f dists wa wb wd cs sids old ids seqs rows Pw We CK Ap Ld Nc Ho Rf trips' shapes rows' R.
  exact (output_main compile replace enc posAt f dists wa wb wd cs sids old ids seqs rows Pw We CK Ap Ld Nc Ho Rf trips' shapes rows' R).
Qed.
Print Assumptions C79_feed_to_files.

(** C79: the same for a feed without shapes.txt: the file written has the new shapes alone. *)
Theorem C79_no_shapes_file : forall (pos C Pt regex X : Type) (compile : string -> option regex) replace (enc : Pt * Q * nat -> pt) posAt
  (f : feed pos) dists wa wb wd (cs : list (@config pos C Pt regex)) sids ids seqs (rows : list (strow Q X)), 0 < wa + wb + wd ->
  (forall p, length (pLat (enc p)) = wa /\ length (pLng (enc p)) = wb /\ length (pDist (enc p)) = wd) ->
  Forall (config_ok compile replace posAt f dists) cs -> apart cs ->
  (forall u t, nth_error (fTrips _ f) u = Some t -> length (dists u) = length (tSts _ (fTrip _ t))) ->
  (forall t ty n, In t (fTrips _ f) -> fShape _ t <> idOf ty n) ->
  read_from rows (tripsOf (fTrips _ f) dists 0) ids seqs ->
  forall trips' shapes rows', outputFiles replace enc wa wb wd cs f dists sids None ids seqs rows = Some (trips', shapes, rows') ->
  output_ok enc (serving posAt) cs f dists sids [] ids seqs rows trips' shapes rows'.
Proof.
  intros pos C Pt regex X compile replace enc posAt f dists wa wb wd cs sids ids seqs rows Pw We CK Ap Ld Nc Rf trips' shapes rows' R.
  refine (C79_feed_to_files pos C Pt regex X compile replace enc posAt f dists wa wb wd cs sids [] ids seqs rows Pw We CK Ap Ld Nc _ Rf trips' shapes rows' R).
  intros x [].
Qed.
Print Assumptions C79_no_shapes_file.

(** C79: the same with what else is known of the shapes that serve a trip in a network, for example,
    by C78_shapes_follow_streets, that they lead along streets of the OSM file. *)
Theorem C79_with_more_known : forall (pos C Pt regex X : Type) (compile : string -> option regex) replace (enc : Pt * Q * nat -> pt) posAt
  (f : feed pos) dists wa wb wd (cs : list (@config pos C Pt regex)) sids old ids seqs (rows : list (strow Q X)) (good : @config pos C Pt regex -> TripTrie_model.trip pos -> list (Pt * Q * nat) -> list Q -> Prop), 0 < wa + wb + wd ->
  (forall p, length (pLat (enc p)) = wa /\ length (pLng (enc p)) = wb /\ length (pDist (enc p)) = wd) ->
  Forall (config_ok compile replace posAt f dists) cs -> apart cs ->
  (forall u t, nth_error (fTrips _ f) u = Some t -> length (dists u) = length (tSts _ (fTrip _ t))) ->
  (forall t ty n, In t (fTrips _ f) -> fShape _ t <> idOf ty n) ->
  (forall x, In x old -> wId x <> ""%string /\ In (wId x) sids) -> read_from rows (tripsOf (fTrips _ f) dists 0) ids seqs ->
  (forall g t ps ds, In g cs -> shape_for (cWorld g) (posAt (cWorld g)) t ps ds -> good g t ps ds) ->
  forall trips' shapes rows', outputFiles replace enc wa wb wd cs f dists sids (Some old) ids seqs rows = Some (trips', shapes, rows') ->
  output_ok enc good cs f dists sids old ids seqs rows trips' shapes rows'.
Proof.
  intros pos C Pt regex X compile replace enc posAt f dists wa wb wd cs sids old ids seqs rows good Pw We CK Ap Ld Nc Ho Rf Gd trips' shapes rows' R.
  apply (output_imp enc f dists (serving posAt)); [exact Gd|].
  exact (output_main compile replace enc posAt f dists wa wb wd cs sids old ids seqs rows Pw We CK Ap Ld Nc Ho Rf trips' shapes rows' R).
Qed.
Print Assumptions C79_with_more_known.

(** C79: the run ends with files written: the threads can be scheduled such that they
    finish, unless a shape does not fit into memory. *)
Theorem C79_ends : forall (pos C Pt regex X : Type) (compile : string -> option regex) replace (enc : Pt * Q * nat -> pt) posAt
  (f : feed pos) dists wa wb wd (cs : list (@config pos C Pt regex)) sids old ids seqs (rows : list (strow Q X)), 0 < wa + wb + wd ->
  (forall p, length (pLat (enc p)) = wa /\ length (pLng (enc p)) = wb /\ length (pDist (enc p)) = wd) ->
  Forall (config_ok compile replace posAt f dists) cs -> apart cs ->
  (forall u t, nth_error (fTrips _ f) u = Some t -> length (dists u) = length (tSts _ (fTrip _ t))) ->
  (forall t ty n, In t (fTrips _ f) -> fShape _ t <> idOf ty n) ->
  (forall x, In x old -> wId x <> ""%string /\ In (wId x) sids) -> read_from rows (tripsOf (fTrips _ f) dists 0) ids seqs ->
  (exists g, In g cs /\ huge posAt f g) \/
  exists cs' o, Forall2 same_but cs cs' /\ outputFiles replace enc wa wb wd cs' f dists sids (Some old) ids seqs rows = Some o.
Proof.
  intros pos C Pt regex X compile replace enc posAt f dists wa wb wd cs sids old ids seqs rows Pw We CK Ap Ld Nc Ho Rf.
  destruct (configs_can compile replace enc posAt f dists cs [] _ sids [] (fold_left apply (map OReg sids) newC) CK (now0 f dists Ld)) as [H|(cs' & r & F & R)]; [auto|].
  right. destruct (output_can compile replace enc posAt f dists wa wb wd cs' sids old ids seqs rows Pw We) with (r := r) as (o & O).
  all: try assumption. 1: eapply same_cok; eassumption. 1: eapply same_apart; eassumption. exists cs', o. auto.
Qed.
Print Assumptions C79_ends.

(** ** A concrete case: the feed of C58_case, with a configuration for buses (type 3) and one for trams (0);
    existing shapes are replaced *)
Definition qbyte (q : Q) : list ascii := [ascii_of_N (Z.to_N (Qfloor q))].
Definition qenc (p : Q * Q * nat) : pt := mkPt (qbyte (fst (fst p))) (qbyte 0) (qbyte (snd (fst p))).
Definition qopts (ty : nat) : copts := mkOpts true [3; 0] [ty] false false 2.
Definition qcs : list (@config nat (option Z) Q string) :=
  [mkConf pW (qopts 3) xL xS (concat (repeat [0; 1] 8)) (alt 70); mkConf (pWc true) (qopts 0) xL xS (concat (repeat [0; 1] 8)) (alt 40)].
Definition qids : list string := ["a"; "b"; "c"; "d"; "e"; "f"; "g"]%string.
Definition qseqs : list (list N) := [[1; 2; 3]; [1; 2; 3]; [1; 2]; [1]; [4; 7]; [1; 2]; [1; 2; 3]]%N.
Definition qrow (t : string) (n : N) : strow Q nat := mkSt Q nat t n 9%Q 0.
Definition qrows : list (strow Q nat) := [qrow "d" 1; qrow "f" 2; qrow "f" 1; qrow "c" 1; qrow "c" 2; qrow "e" 4; qrow "e" 7]%string%N.
Definition qold : list row := [mkRow "old" 1 (qenc (7%Q, 0%Q, 0)); mkRow "x" 1 (qenc (8%Q, 0%Q, 0)); mkRow "old" 2 (qenc (9%Q, 0%Q, 1))]%string.
Definition qout := outputFiles xrepl qenc 1 1 1 qcs pfeed pdists ["old"; "x"]%string (Some qold) qids qseqs qrows.
Lemma qnorms : In xL (fst (runNorm string xcomp xrepl [] xops)) /\ In xS (fst (runNorm string xcomp xrepl [] xops)).
Proof. split; vm_compute; auto. Qed.
Lemma qfeed : forall nc ty, feed_ok (pWc nc) (qopts ty) pfeed pdists 240.
Proof.
  intros nc ty. constructor.
  - intros u t E. do 7 (destruct u as [|u]; [cbn in E; injection E as <-; reflexivity|]). destruct u; discriminate E.
  - intros u t E. do 7 (destruct u as [|u]; [cbn in E; injection E as <-; reflexivity|]). destruct u; discriminate E.
  - intros t a te dg k I _ K. cbn in I.
    repeat (destruct I as [<-|I]; [vm_compute in K; repeat (destruct K as [<-|K]; [vm_compute; split; discriminate|]); contradiction|]). contradiction.
  - vm_compute. split; discriminate.
Qed.
Example C79_case : Forall (config_ok xcomp xrepl (fun _ => xpos) pfeed pdists) qcs /\ apart qcs /\
  (forall u t, nth_error (fTrips _ pfeed) u = Some t -> length (pdists u) = length (tSts _ (fTrip _ t))) /\
  (forall t ty n, In t (fTrips _ pfeed) -> fShape _ t <> idOf ty n) /\ (forall x, In x qold -> wId x <> ""%string /\ In (wId x) ["old"; "x"]%string) /\
  read_from qrows (tripsOf (fTrips _ pfeed) pdists 0) qids qseqs /\
  match qout with
  | Some (trips, shapes, rows) =>
      map (fun x => (tShape _ x, map Qred (tDists _ x))) trips =
        [("shp_3_2", [0; 10; 20]); ("shp_3_3", [0; 10; 30]); ("shp_3_4", [0; 10]); ("", [9]); ("shp_3_1", [0; 10]); ("shp_0_1", [0; 10]); ("shp_3_2", [0; 10; 20])]%string%Q /\
      map (fun x => (wId x, wSeq x, map N_of_ascii (pLat (wPt x)))) (with_id "shp_0_1" shapes) =
        [("shp_0_1", 1, [35]); ("shp_0_1", 2, [40]); ("shp_0_1", 3, [40]); ("shp_0_1", 4, [45])]%string%N /\
      with_id "old" shapes = [] /\ with_id "x" shapes = with_id "x" qold /\
      map (fun x => (sTrip x, sSeq x, Qred (sDist x))) rows =
        [("d", 1, 9%Q); ("f", 2, 10%Q); ("f", 1, 0%Q); ("c", 1, 0%Q); ("c", 2, 10%Q); ("e", 4, 0%Q); ("e", 7, 10%Q)]%string%N
  | None => False
  end.
Proof.
  split; [|split; [|split; [|split; [|split; [|split]]]]].
  - apply Forall_cons; [|apply Forall_cons; [|constructor]]; constructor; cbn [cWorld cOpts cLineN cStatN].
    + exact pworld_ok.
    + exists 240%Z. exact (qfeed false 3).
    + cbn. lia.
    + exists xops. exact qnorms.
    + exact (pworldc_ok true).
    + exists 240%Z. exact (qfeed true 0).
    + cbn. lia.
    + exists xops. exact qnorms.
  - cbn. split; [|auto]. intros g' ty [<-|[]] (_ & [<-|[]]) (_ & [X|[]]). discriminate X.
  - exact (fk_dists _ _ _ _ _ (qfeed false 3)).
  - intros t ty k I C. cbn in I. repeat (destruct I as [<-|I]; [discriminate C|]). contradiction.
  - intros x I. cbn in I. intuition (subst; cbn; try discriminate; auto).
  - split; [reflexivity|]. split; [reflexivity|]. split; [repeat constructor; cbn; intuition discriminate|]. split; [|split].
    + intros u ns x En Ex.
      do 7 (destruct u as [|u]; [cbn in En, Ex; injection En; injection Ex; intros; subst; cbn; split; [reflexivity|]; (split; [repeat constructor; cbn; intuition discriminate|]); intros n I; cbn in I; intuition (subst; reflexivity)|]).
      now destruct u.
    + intros r I. split; cbn in I; intuition (subst; cbn; try discriminate; auto 10).
    + intros u ns x i n d r En Ex Ei Ed I Er Es.
      assert (sDist r = 9%Q) as -> by (cbn in I; intuition (subst; reflexivity)).
      do 7 (destruct u as [|u]; [cbn in Ex; injection Ex; intros; subst; cbn in Ed; destruct i as [|[|[|i]]]; cbn in Ed; try congruence; now destruct i|]).
      now destruct u.
  - vm_compute. repeat split.
Qed.
