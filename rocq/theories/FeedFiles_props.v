(** C89: the files of the feed that is written. *)
From Coq Require Import Ascii String List Arith NArith ZArith QArith Bool Lia.
From Verif Require Import StrAux ShapeStore_model ShapeStore_spec TripTrie_model Simi_model Cluster_model Cluster_spec Workers_model Pipeline_model Pipeline_spec StopTimesFile_model StopTimesFile_spec
  Writing_model Writing_spec Writing_props Output_model Output_spec Output_props FeedFiles_model FeedFiles_spec FeedFiles_proofs.
From Verif Require Cluster_props Pipeline_props.
Import ListNotations.
Open Scope nat_scope.
Open Scope list_scope.

(** C89: after a success, in a directory of its own or in place, the files that pfaedle does not compute are those of the
    source, line by line; routes.txt and trips.txt have one line for each route and trip of the feed; there is an
    attribution; nothing else changed. *)
Theorem C89_feed_on_disk : forall (D X V R TX I : Type) wa wb wd tmpName pack src tgt (m : mem D R TX I) (fs0 : files (line D X V R TX I)),
  fresh_names tgt tmpName None ->
  forall os, no_write_error os ->
  let s := run _ _ (render D X V R TX I wa wb wd) tmpName pack src tgt None m os (init _ _ (hasFreqs D X V R TX I) (hasPublisher D R TX I) m fs0) in
  wPc _ s = WDone _ -> on_disk src tgt m fs0 (wFs _ s).
Proof.
  intros D X V R TX I wa wb wd tmpName pack src tgt m fs0 Fr os W s E.
  destruct (C43_directory_done _ _ (render D X V R TX I wa wb wd) (hasFreqs D X V R TX I) (hasPublisher D R TX I) tmpName pack src tgt m fs0 Fr os W E) as (Ch & Al).
  exact (written_ok wa wb wd src tgt m fs0 _ Ch Al).
Qed.
Print Assumptions C89_feed_on_disk.

(** C89, for an archive: unpacked into any directory it gives the files of [C89_feed_on_disk], and no other file changed. *)
Theorem C89_archive : forall (D X V R TX I : Type) wa wb wd tmpName pack src tgt z (m : mem D R TX I) (fs0 : files (line D X V R TX I)),
  fresh_names tgt tmpName (Some z) ->
  forall os, no_write_error os ->
  let s := run _ _ (render D X V R TX I wa wb wd) tmpName pack src tgt (Some z) m os (init _ _ (hasFreqs D X V R TX I) (hasPublisher D R TX I) m fs0) in
  wPc _ s = WDone _ -> exists es, wFs _ s (tgt, z) = Some (pack es) /\ (forall k, k <> (tgt, z) -> wFs _ s k = fs0 k) /\
    forall dir, on_disk src dir m fs0 (unpacked dir es fs0).
Proof.
  intros D X V R TX I wa wb wd tmpName pack src tgt z m fs0 Fr os W s E.
  destruct (proj2 (C43_archive _ _ (render D X V R TX I wa wb wd) (hasFreqs D X V R TX I) (hasPublisher D R TX I) tmpName pack src tgt z m fs0 Fr os W) E) as (es & Me & (Ch1 & Ch2 & _)).
  exists es. split; [apply Ch1; split; reflexivity|]. split; [intros k N; apply Ch2; [intros c (A & _); contradiction|discriminate]|].
  intros dir. destruct (unpacked_changed _ _ _ src m fs0 es dir Me) as (Ch & Al). exact (written_ok wa wb wd src dir m fs0 _ Ch Al).
Qed.
Print Assumptions C89_archive.

(** The files of a run, on any disk that has them in a directory. *)
Lemma run_disk : forall (pos C Pt regex X V R TX I : Type) (compile : string -> option regex) replace (enc : Pt * Q * nat -> pt) posAt
  (f : feed pos) dists wa wb wd (cs : list (@config pos C Pt regex)) sids old ids seqs (rows : list (strow Q X)), 0 < wa + wb + wd ->
  (forall p, length (pLat (enc p)) = wa /\ length (pLng (enc p)) = wb /\ length (pDist (enc p)) = wd) ->
  Forall (config_ok compile replace posAt f dists) cs -> apart cs ->
  (forall u t, nth_error (fTrips _ f) u = Some t -> length (dists u) = length (tSts _ (fTrip _ t))) ->
  (forall t ty n, In t (fTrips _ f) -> fShape _ t <> idOf ty n) ->
  (forall o x, old = Some o -> In x o -> wId x <> ""%string /\ In (wId x) sids) -> read_from rows (tripsOf (fTrips _ f) dists 0) ids seqs ->
  (* the run *)
  forall trips' ids' store c, runConfigs replace enc cs f (tripsOf (fTrips _ f) dists 0) sids [] (fold_left apply (map OReg sids) newC) = Some (trips', ids', store, c) ->
  forall src tgt (m : mem Q R TX I) (fs0 fs : files (line Q X V R TX I)),
  in_memory m ids seqs trips' c -> fs0 (src, "shapes.txt"%string) = option_map (map LShape) old -> fs0 (src, "stop_times.txt"%string) = Some (map LTime rows) ->
  changed tgt None fs0 fs (new_files (render Q X V R TX I wa wb wd) (hasFreqs Q X V R TX I) (hasPublisher Q R TX I) src tgt m fs0 feed_files) None ->
  all_rendered (render Q X V R TX I wa wb wd) (hasFreqs Q X V R TX I) (hasPublisher Q R TX I) src m fs0 feed_files ->
  exists shapes rows', fs (tgt, "shapes.txt"%string) = Some (map LShape shapes) /\ fs (tgt, "stop_times.txt"%string) = Some (map LTime rows') /\
    output_ok enc (serving posAt) cs f dists sids (match old with Some o => o | None => [] end) ids seqs rows trips' shapes rows' /\
    exists ls, fs (tgt, "trips.txt"%string) = Some ls /\ length ls = length (fTrips _ f) /\
      forall u id x, nth_error ids u = Some id -> nth_error trips' u = Some x -> exists tx, nth_error ls u = Some (LTrip id (tShape _ x) tx).
Proof.
  intros pos C Pt regex X V R TX I compile replace enc posAt f dists wa wb wd cs sids old ids seqs rows Pw We CK Ap Ld Nc Ho Rf trips' ids' store c Rn
    src tgt m fs0 fs Im Es Et Ch Al.
  destruct (shapes_stops wa wb wd src tgt m fs0 _ old rows Ch Al Es Et) as (shapes & c' & rows' & Ws & Wt & Fs & Ft).
  exists shapes, rows'. split; [exact Fs|]. split; [exact Ft|].
  rewrite (im_cont _ _ _ _ _ Im) in Ws. rewrite (feed_memory _ _ _ _ _ Im) in Wt.
  assert (O : output_ok enc (serving posAt) cs f dists sids (match old with Some o => o | None => [] end) ids seqs rows trips' shapes rows').
  { destruct old as [old|].
    - apply (C79_feed_to_files pos C Pt regex X compile replace enc posAt f dists wa wb wd cs sids old ids seqs rows Pw We CK Ap Ld Nc (fun x J => Ho old x eq_refl J) Rf).
      unfold outputFiles. rewrite Rn, Ws, Wt. reflexivity.
    - apply (C79_no_shapes_file pos C Pt regex X compile replace enc posAt f dists wa wb wd cs sids ids seqs rows Pw We CK Ap Ld Nc Rf).
      unfold outputFiles. rewrite Rn, Ws, Wt. reflexivity. }
  split; [exact O|].
  destruct (od_trips _ _ _ _ _ (written_ok wa wb wd src tgt m fs0 _ Ch Al)) as (ls & El & F2). exists ls. split; [exact El|].
  pose proof (im_trips _ _ _ _ _ Im) as L. split; [rewrite <- (oo_count _ _ _ _ _ _ _ _ _ _ _ _ _ O), L; symmetry; clear - F2; induction F2; cbn; auto|].
  intros u id x Ei Ex. assert (Lu : u < length (mTrips m)) by (rewrite <- L; apply nth_error_Some; congruence).
  destruct (nth_error (mTrips m) u) as [t|] eqn:Em; [|apply nth_error_None in Em; lia].
  destruct (nth_error seqs u) as [ns|] eqn:En; [|apply nth_error_None in En; rewrite (im_seqs _ _ _ _ _ Im) in En; lia].
  destruct (im_each _ _ _ _ _ Im u t id ns x Em Ei En Ex) as (<- & <- & _). exists (mRest t).
  clear - F2 Em. revert u Em. induction F2 as [|a b la lb Hab F2 IH]; intros [|u] Em; cbn in *; try discriminate; [injection Em as <-; now rewrite Hab|auto].
Qed.

(** C89, C79, C43: if the trips and shapes of a run over all configurations are written, then the files on the disk say:
    a trip that a configuration selects refers, in trips.txt, to a shape that serves its stops, the points of which
    are in shapes.txt, the distances along which are in stop_times.txt; any other trip is as in the source. *)
Theorem C89_run_on_disk : forall (pos C Pt regex X V R TX I : Type) (compile : string -> option regex) replace (enc : Pt * Q * nat -> pt) posAt
  (f : feed pos) dists wa wb wd (cs : list (@config pos C Pt regex)) sids old ids seqs (rows : list (strow Q X)), 0 < wa + wb + wd ->
  (forall p, length (pLat (enc p)) = wa /\ length (pLng (enc p)) = wb /\ length (pDist (enc p)) = wd) ->
  Forall (config_ok compile replace posAt f dists) cs -> apart cs ->
  (forall u t, nth_error (fTrips _ f) u = Some t -> length (dists u) = length (tSts _ (fTrip _ t))) ->
  (forall t ty n, In t (fTrips _ f) -> fShape _ t <> idOf ty n) ->
  (forall x, In x old -> wId x <> ""%string /\ In (wId x) sids) -> read_from rows (tripsOf (fTrips _ f) dists 0) ids seqs ->
  (* the run *)
  forall trips' ids' store c, runConfigs replace enc cs f (tripsOf (fTrips _ f) dists 0) sids [] (fold_left apply (map OReg sids) newC) = Some (trips', ids', store, c) ->
  (* the writer *)
  forall tmpName pack src tgt (m : mem Q R TX I) (fs0 : files (line Q X V R TX I)) os,
  in_memory m ids seqs trips' c -> fs0 (src, "shapes.txt"%string) = Some (map LShape old) -> fs0 (src, "stop_times.txt"%string) = Some (map LTime rows) ->
  fresh_names tgt tmpName None -> no_write_error os ->
  let s := run _ _ (render Q X V R TX I wa wb wd) tmpName pack src tgt None m os (init _ _ (hasFreqs Q X V R TX I) (hasPublisher Q R TX I) m fs0) in
  wPc _ s = WDone _ ->
  exists shapes rows', wFs _ s (tgt, "shapes.txt"%string) = Some (map LShape shapes) /\ wFs _ s (tgt, "stop_times.txt"%string) = Some (map LTime rows') /\
    output_ok enc (serving posAt) cs f dists sids old ids seqs rows trips' shapes rows' /\
    exists ls, wFs _ s (tgt, "trips.txt"%string) = Some ls /\ length ls = length (fTrips _ f) /\
      forall u id x, nth_error ids u = Some id -> nth_error trips' u = Some x -> exists tx, nth_error ls u = Some (LTrip id (tShape _ x) tx).
Proof.
  intros pos C Pt regex X V R TX I compile replace enc posAt f dists wa wb wd cs sids old ids seqs rows Pw We CK Ap Ld Nc Ho Rf trips' ids' store c Rn
    tmpName pack src tgt m fs0 os Im Es Et Fr W s E.
  assert (Ho' : forall o x, (Some old) = Some o -> In x o -> wId x <> ""%string /\ In (wId x) sids) by (intros o x Eo; injection Eo as <-; apply Ho).
  destruct (C43_directory_done _ _ (render Q X V R TX I wa wb wd) (hasFreqs Q X V R TX I) (hasPublisher Q R TX I) tmpName pack src tgt m fs0 Fr os W E) as (Ch & Al).
  exact (run_disk pos C Pt regex X V R TX I compile replace enc posAt f dists wa wb wd cs sids (Some old) ids seqs rows Pw We CK Ap Ld Nc Ho' Rf trips' ids' store c Rn src tgt m fs0 _ Im Es Et Ch Al).
Qed.
Print Assumptions C89_run_on_disk.

(** C89: the same for a source without shapes.txt. *)
Theorem C89_run_no_shapes : forall (pos C Pt regex X V R TX I : Type) (compile : string -> option regex) replace (enc : Pt * Q * nat -> pt) posAt
  (f : feed pos) dists wa wb wd (cs : list (@config pos C Pt regex)) sids ids seqs (rows : list (strow Q X)), 0 < wa + wb + wd ->
  (forall p, length (pLat (enc p)) = wa /\ length (pLng (enc p)) = wb /\ length (pDist (enc p)) = wd) ->
  Forall (config_ok compile replace posAt f dists) cs -> apart cs ->
  (forall u t, nth_error (fTrips _ f) u = Some t -> length (dists u) = length (tSts _ (fTrip _ t))) ->
  (forall t ty n, In t (fTrips _ f) -> fShape _ t <> idOf ty n) ->
  read_from rows (tripsOf (fTrips _ f) dists 0) ids seqs ->
  (* the run *)
  forall trips' ids' store c, runConfigs replace enc cs f (tripsOf (fTrips _ f) dists 0) sids [] (fold_left apply (map OReg sids) newC) = Some (trips', ids', store, c) ->
  (* the writer *)
  forall tmpName pack src tgt (m : mem Q R TX I) (fs0 : files (line Q X V R TX I)) os,
  in_memory m ids seqs trips' c -> fs0 (src, "shapes.txt"%string) = None -> fs0 (src, "stop_times.txt"%string) = Some (map LTime rows) ->
  fresh_names tgt tmpName None -> no_write_error os ->
  let s := run _ _ (render Q X V R TX I wa wb wd) tmpName pack src tgt None m os (init _ _ (hasFreqs Q X V R TX I) (hasPublisher Q R TX I) m fs0) in
  wPc _ s = WDone _ ->
  exists shapes rows', wFs _ s (tgt, "shapes.txt"%string) = Some (map LShape shapes) /\ wFs _ s (tgt, "stop_times.txt"%string) = Some (map LTime rows') /\
    output_ok enc (serving posAt) cs f dists sids [] ids seqs rows trips' shapes rows' /\
    exists ls, wFs _ s (tgt, "trips.txt"%string) = Some ls /\ length ls = length (fTrips _ f) /\
      forall u id x, nth_error ids u = Some id -> nth_error trips' u = Some x -> exists tx, nth_error ls u = Some (LTrip id (tShape _ x) tx).
Proof.
  intros pos C Pt regex X V R TX I compile replace enc posAt f dists wa wb wd cs sids ids seqs rows Pw We CK Ap Ld Nc Rf trips' ids' store c Rn
    tmpName pack src tgt m fs0 os Im Es Et Fr W s E.
  assert (Ho' : forall o x, None = Some o -> In x o -> wId x <> ""%string /\ In (wId x) sids) by (intros o x Eo; discriminate Eo).
  destruct (C43_directory_done _ _ (render Q X V R TX I wa wb wd) (hasFreqs Q X V R TX I) (hasPublisher Q R TX I) tmpName pack src tgt m fs0 Fr os W E) as (Ch & Al).
  exact (run_disk pos C Pt regex X V R TX I compile replace enc posAt f dists wa wb wd cs sids None ids seqs rows Pw We CK Ap Ld Nc Ho' Rf trips' ids' store c Rn src tgt m fs0 _ Im Es Et Ch Al).
Qed.
Print Assumptions C89_run_no_shapes.

(** C89: the same for an archive, unpacked into any directory. *)
Theorem C89_run_archive : forall (pos C Pt regex X V R TX I : Type) (compile : string -> option regex) replace (enc : Pt * Q * nat -> pt) posAt
  (f : feed pos) dists wa wb wd (cs : list (@config pos C Pt regex)) sids old ids seqs (rows : list (strow Q X)), 0 < wa + wb + wd ->
  (forall p, length (pLat (enc p)) = wa /\ length (pLng (enc p)) = wb /\ length (pDist (enc p)) = wd) ->
  Forall (config_ok compile replace posAt f dists) cs -> apart cs ->
  (forall u t, nth_error (fTrips _ f) u = Some t -> length (dists u) = length (tSts _ (fTrip _ t))) ->
  (forall t ty n, In t (fTrips _ f) -> fShape _ t <> idOf ty n) ->
  (forall x, In x old -> wId x <> ""%string /\ In (wId x) sids) -> read_from rows (tripsOf (fTrips _ f) dists 0) ids seqs ->
  (* the run *)
  forall trips' ids' store c, runConfigs replace enc cs f (tripsOf (fTrips _ f) dists 0) sids [] (fold_left apply (map OReg sids) newC) = Some (trips', ids', store, c) ->
  (* the writer *)
  forall tmpName pack src tgt z (m : mem Q R TX I) (fs0 : files (line Q X V R TX I)) os,
  in_memory m ids seqs trips' c -> fs0 (src, "shapes.txt"%string) = Some (map LShape old) -> fs0 (src, "stop_times.txt"%string) = Some (map LTime rows) ->
  fresh_names tgt tmpName (Some z) -> no_write_error os ->
  let s := run _ _ (render Q X V R TX I wa wb wd) tmpName pack src tgt (Some z) m os (init _ _ (hasFreqs Q X V R TX I) (hasPublisher Q R TX I) m fs0) in
  wPc _ s = WDone _ ->
  exists es, wFs _ s (tgt, z) = Some (pack es) /\ forall dir,
  exists shapes rows', unpacked dir es fs0 (dir, "shapes.txt"%string) = Some (map LShape shapes) /\ unpacked dir es fs0 (dir, "stop_times.txt"%string) = Some (map LTime rows') /\
    output_ok enc (serving posAt) cs f dists sids old ids seqs rows trips' shapes rows' /\
    exists ls, unpacked dir es fs0 (dir, "trips.txt"%string) = Some ls /\ length ls = length (fTrips _ f) /\
      forall u id x, nth_error ids u = Some id -> nth_error trips' u = Some x -> exists tx, nth_error ls u = Some (LTrip id (tShape _ x) tx).
Proof.
  intros pos C Pt regex X V R TX I compile replace enc posAt f dists wa wb wd cs sids old ids seqs rows Pw We CK Ap Ld Nc Ho Rf trips' ids' store c Rn
    tmpName pack src tgt z m fs0 os Im Es Et Fr W s E.
  assert (Ho' : forall o x, (Some old) = Some o -> In x o -> wId x <> ""%string /\ In (wId x) sids) by (intros o x Eo; injection Eo as <-; apply Ho).
  destruct (proj2 (C43_archive _ _ (render Q X V R TX I wa wb wd) (hasFreqs Q X V R TX I) (hasPublisher Q R TX I) tmpName pack src tgt z m fs0 Fr os W) E) as (es & Me & (Ch1 & _)).
  exists es. split; [apply Ch1; split; reflexivity|]. intros dir. destruct (unpacked_changed _ _ _ src m fs0 es dir Me) as (Ch & Al).
  exact (run_disk pos C Pt regex X V R TX I compile replace enc posAt f dists wa wb wd cs sids (Some old) ids seqs rows Pw We CK Ap Ld Nc Ho' Rf trips' ids' store c Rn src dir m fs0 _ Im Es Et Ch Al).
Qed.
Print Assumptions C89_run_archive.

(** C89: if the files of the source can be read and no operation fails, the feed is written. *)
Theorem C89_succeeds : forall (pos C Pt regex X V R TX I : Type) replace (enc : Pt * Q * nat -> pt)
  (f : feed pos) dists wa wb wd (cs : list (@config pos C Pt regex)) sids old ids seqs (rows : list (strow Q X)) trips' ids' store c shapes rows',
  runConfigs replace enc cs f (tripsOf (fTrips _ f) dists 0) sids [] (fold_left apply (map OReg sids) newC) = Some (trips', ids', store, c) ->
  outputFiles replace enc wa wb wd cs f dists sids old ids seqs rows = Some (trips', shapes, rows') ->
  forall tmpName pack src tgt zipName (m : mem Q R TX I) (fs0 : files (line Q X V R TX I)),
  in_memory m ids seqs trips' c -> readable src fs0 old rows -> fresh_names tgt tmpName zipName ->
  exists n, wPc _ (run _ _ (render Q X V R TX I wa wb wd) tmpName pack src tgt zipName m (repeat (mkOut true true) n) (init _ _ (hasFreqs Q X V R TX I) (hasPublisher Q R TX I) m fs0)) = WDone _.
Proof.
  intros pos C Pt regex X V R TX I replace enc f dists wa wb wd cs sids old ids seqs rows trips' ids' store c shapes rows' Rn Ro tmpName pack src tgt zipName m fs0 Im Rd Fr.
  apply C43_writer_ends; [exact Fr|]. unfold outputFiles in Ro. rewrite Rn in Ro.
  destruct (writeShapes wa wb wd c old) as [(sh, c')|] eqn:Ws; [|discriminate]. destruct (writeStopTimes Q X (feedOf Q trips' ids seqs) rows) as [ro|] eqn:Wt; [|discriminate].
  apply (rendered_ok wa wb wd src m fs0 old rows sh c' ro Rd); [now rewrite (im_cont _ _ _ _ _ Im)|now rewrite (feed_memory _ _ _ _ _ Im)].
Qed.
Print Assumptions C89_succeeds.

(** ** A concrete case: the run of C79_case, written in place *)
Definition gtmp {B} (fs : files B) (f : string) : string :=
  (".pfaedle-tmp-" ++ f ++ xs (longest (map (fun e => String.length (snd (fst e))) (entries _ fs))))%string.
Lemma gtmp_fresh : forall B tgt, @fresh_names B tgt gtmp None.
Proof.
  intros B tgt fs f. split; [|split; [|discriminate]].
  - destruct (fs (tgt, gtmp fs f)) as [c|] eqn:E; [|reflexivity]. exfalso. apply look_some in E.
    apply (in_map (fun e => String.length (snd (fst e)))) in E. cbn [fst snd] in E. apply longest_le in E.
    unfold gtmp in E. rewrite !str_app_length, xs_length in E. cbn [String.length] in E. lia.
  - unfold gtmp, feed_files. cbn. intuition discriminate.
Qed.
Notation gline := (line Q nat nat nat nat nat).
Definition grun := runConfigs Cluster_props.xrepl qenc qcs Pipeline_props.pfeed (tripsOf (fTrips _ Pipeline_props.pfeed) Pipeline_props.pdists 0) ["old"; "x"]%string [] (fold_left apply (map OReg ["old"; "x"]%string) newC).
Definition gmem : mem Q nat nat nat :=
  match grun with
  | Some (trips, _, _, c) => mkMem Q nat nat nat [11; 12] (map (fun e => mkM Q nat (fst (fst e)) (tShape _ (snd e)) 5 (if String.eqb (fst (fst e)) "c" then 1 else 0) (combine (snd (fst e)) (tDists _ (snd e)))) (combine (combine qids qseqs) trips)) c "me" "" 8
  | None => mkMem Q nat nat nat [] [] newC "" "" 0
  end.
Definition gfs0 : files gline := mkFiles _
  [(("d", "agency.txt"), [LCopy 1]); (("d", "stops.txt"), [LCopy 2; LCopy 3]); (("d", "routes.txt"), [LRoute 1]); (("d", "calendar.txt"), [LCopy 4]);
   (("d", "frequencies.txt"), [LCopy 6]); (("d", "feed_info.txt"), [LInfo "you" "" 1]);
   (("d", "shapes.txt"), map LShape qold); (("d", "stop_times.txt"), map LTime qrows); (("d", "notes.txt"), [LCopy 7])]%string.
Definition gdone := run _ _ (render Q nat nat nat nat nat 1 1 1) gtmp (fun _ => []) "d"%string "d"%string None gmem (repeat (mkOut true true) 120) (init _ _ (hasFreqs Q nat nat nat nat nat) (hasPublisher Q nat nat nat) gmem gfs0).
Example C89_case : (exists trips ids store c, grun = Some (trips, ids, store, c) /\ in_memory gmem qids qseqs trips c) /\
  gfs0 ("d", "shapes.txt")%string = Some (map LShape qold) /\ gfs0 ("d", "stop_times.txt")%string = Some (map LTime qrows) /\
  readable "d"%string gfs0 (Some qold) qrows /\ wPc _ gdone = WDone _ /\
  map (fun f => wFs _ gdone ("d"%string, f)) ["agency.txt"; "stops.txt"; "routes.txt"; "calendar.txt"; "levels.txt"; "frequencies.txt"; "feed_info.txt"; "notes.txt"; "trips.txt"]%string =
    [Some [LCopy 1]; Some [LCopy 2; LCopy 3]; Some [LRoute 11; LRoute 12]; Some [LCopy 4]; None; Some [LCopy 6]; Some [LInfo "you" "" 1]; Some [LCopy 7];
     Some [LTrip "a" "shp_3_2" 5; LTrip "b" "shp_3_3" 5; LTrip "c" "shp_3_4" 5; LTrip "d" "" 5; LTrip "e" "shp_3_1" 5; LTrip "f" "shp_0_1" 5; LTrip "g" "shp_3_2" 5]]%string.
Proof.
  split; [|split; [reflexivity|split; [reflexivity|split; [|split; vm_compute; reflexivity]]]].
  { unfold gmem. remember grun as g eqn:Eg. destruct g as [(((trips, ids), store), c)|]; [|exfalso; vm_compute in Eg; discriminate].
  exists trips, ids, store, c. split; [reflexivity|]. assert (L : length trips = 7) by (assert (H : match grun with Some (t, _, _, _) => length t = 7 | None => False end) by (vm_compute; reflexivity); rewrite <- Eg in H; exact H).
  clear Eg. do 7 (destruct trips as [|? trips]; [discriminate L|]). destruct trips; [|discriminate L]. constructor; try reflexivity.
  intros u tt id ns xx Et Ei En Ex. do 7 (destruct u as [|u]; [cbn in Et, Ei, En, Ex; injection Et as <-; injection Ei as <-; injection En as <-; injection Ex as <-; cbn; auto|]). destruct u; discriminate. }
  constructor; try reflexivity.
  - intros g [<-|[<-|[]]]; vm_compute; discriminate.
  - intros g l x J E K. assert (A : l = [LCopy 1] \/ l = [LCopy 2; LCopy 3] \/ l = [LCopy 4] \/ l = [LCopy 6]) by (cbn in J; decompose [or] J; subst; vm_compute in E; try discriminate; try tauto; injection E as <-; auto).
    decompose [or] A; subst; cbn in K; decompose [or] K; subst; try tauto; eexists; reflexivity.
Qed.
Lemma gtmp_zip : forall B tgt, @fresh_names B tgt gtmp (Some "out.zip"%string).
Proof.
  intros B tgt fs f. destruct (gtmp_fresh B tgt fs f) as (A & N & _). split; [exact A|]. split; [exact N|]. unfold gtmp. cbn. congruence.
Qed.
Example C89_archive_case :
  let s := run _ _ (render Q nat nat nat nat nat 1 1 1) gtmp (fun es => flat_map snd es) "d"%string "e"%string (Some "out.zip"%string) gmem (repeat (mkOut true true) 200) (init _ _ (hasFreqs Q nat nat nat nat nat) (hasPublisher Q nat nat nat) gmem gfs0) in
  wPc _ s = WDone _ /\ option_map (firstn 6) (wFs _ s ("e", "out.zip")%string) = Some [LCopy 1; LCopy 2; LCopy 3; LRoute 11; LRoute 12; LCopy 4].
Proof. split; vm_compute; reflexivity. Qed.
