(** C42: stop_times.txt. *)
From Coq Require Import Ascii String List Arith NArith Bool Lia.
From Verif Require Import ShapeStore_model ShapeStore_spec ShapeStore_proofs ShapeStore_props Workers_model Workers_spec ShapesFile_model ShapesFile_spec ShapesFile_proofs ShapesFile_props StopTimesFile_model StopTimesFile_spec StopTimesFile_proofs.
Import ListNotations.
Open Scope nat_scope.

(** C42: stop_times.txt has the rows of the input, in their order, whatever this is; only
    the distance of a row changes, to that of the stop time of its trip with its sequence
    number. *)
Theorem C42_stop_times : forall (D X : Type) (trips : list (string * list (N * D))) (rows : list (strow D X)),
  trips_ok trips -> rows_ok trips rows ->
  exists o, writeStopTimes D X trips rows = Some o /\ Forall2 (row_written trips) rows o.
Proof. exact @stop_times_ok. Qed.
Print Assumptions C42_stop_times.

(** C42, C41: after a run with any configurations, threads and schedules: the rows of a
    trip that was given a shape have the distances computed for it, and the rows of the
    other trips are as they were; and shapes.txt has the points for both (C41). *)
Theorem C42_whole_run : forall (D X : Type) wa wb wd, 0 < wa + wb + wd ->
  forall (trips : list (trip D)) sids phs old, phases_ok wa wb wd phs trips -> ids_distinct phs trips ->
  (forall x, In x old -> wId x <> ""%string /\ In (wId x) sids) ->
  forall (rows : list (strow D X)) ids seqs, read_from rows trips ids seqs ->
  forall trips' shapes, wholeRun D wa wb wd phs trips sids (Some old) = Some (trips', shapes) ->
  exists rows', wholeFiles D X wa wb wd phs trips sids (Some old) ids seqs rows = Some (trips', shapes, rows') /\
    shapes_written phs trips sids old trips' shapes /\ dists_written phs ids seqs rows rows'.
Proof. exact @files_ok. Qed.
Print Assumptions C42_whole_run.

(** C42, C41: the same for a feed without shapes.txt. *)
Theorem C42_no_shapes_file : forall (D X : Type) wa wb wd, 0 < wa + wb + wd ->
  forall (trips : list (trip D)) sids phs, phases_ok wa wb wd phs trips -> ids_distinct phs trips ->
  forall (rows : list (strow D X)) ids seqs, read_from rows trips ids seqs ->
  forall trips' shapes, wholeRun D wa wb wd phs trips sids None = Some (trips', shapes) ->
  exists rows', wholeFiles D X wa wb wd phs trips sids None ids seqs rows = Some (trips', shapes, rows') /\
    shapes_written phs trips sids [] trips' shapes /\ dists_written phs ids seqs rows rows'.
Proof.
  intros D X wa wb wd W trips sids phs PO ID rows ids seqs Rf trips' shapes R.
  refine (files_ok wa wb wd W trips sids phs [] PO ID _ rows ids seqs Rf trips' shapes R). intros x [].
Qed.
Print Assumptions C42_no_shapes_file.

(** ** A concrete case: the run of C41_case; the rows are not sorted by trip *)
Definition zrow (t : string) (s : N) (d : nat) : strow nat nat := mkSt nat nat t s d 7.
Definition zrows : list (strow nat nat) :=
  [zrow "t0" 1 0; zrow "t1" 4 0; zrow "t0" 2 0; zrow "t4" 9 0; zrow "t4" 10 0; zrow "t1" 5 0; zrow "t2" 0 0; zrow "t2" 1 0; zrow "t3" 1 0; zrow "t3" 2 0]%string.
Definition zids : list string := ["t0"; "t1"; "t2"; "t3"; "t4"]%string.
Definition zseqs : list (list N) := [[1; 2]; [4; 5]; [0; 1]; [1; 2]; [9; 10]]%N.
Example C42_case : read_from zrows xtrips zids zseqs /\
  exists t s, wholeFiles nat nat 1 1 1 xphs xtrips ["a"; "b"; "c"]%string (Some xold) zids zseqs zrows = Some (t, s,
  [zrow "t0" 1 0; zrow "t1" 4 0; zrow "t0" 2 5; zrow "t4" 9 0; zrow "t4" 10 9; zrow "t1" 5 0; zrow "t2" 0 0; zrow "t2" 1 5; zrow "t3" 1 0; zrow "t3" 2 8])%string.
Proof.
  split.
  - split; [reflexivity|]. split; [reflexivity|]. split; [repeat constructor; cbn; intuition discriminate|]. split; [|split].
    + intros u ns x En Ex.
      do 5 (destruct u as [|u]; [cbn in En, Ex; injection En; injection Ex; intros; subst; cbn; split; [reflexivity|]; (split; [repeat constructor; cbn; intuition discriminate|]); intros n I; cbn in I; intuition (subst; reflexivity)|]).
      now destruct u.
    + intros r I. split; cbn in I; intuition (subst; cbn; try discriminate; auto 10).
    + intros u ns x i n d r En Ex Ei Ed I Er Es.
      assert (sDist r = 0) as -> by (cbn in I; intuition (subst; reflexivity)).
      do 5 (destruct u as [|u]; [cbn in Ex; injection Ex; intros; subst; cbn in Ed; destruct i as [|[|i]]; cbn in Ed; [congruence..|now destruct i]|]).
      now destruct u.
  - do 2 eexists. vm_compute. reflexivity.
Qed.

(** ** Findings *)
(** C42: sequence numbers are compared as 16 bits (StopTime.h:53).  With numbers from 65536 on the
    new distance is not written. *)
Theorem C42_long_sequence_refuted : exists (trips : list (string * list (N * nat))) (rows o : list (strow nat nat)),
  NoDup (map fst trips) /\ (forall id sts, In (id, sts) trips -> NoDup (map fst sts)) /\ rows_ok trips rows /\
  writeStopTimes nat nat trips rows = Some o /\ ~ Forall2 (row_written trips) rows o.
Proof.
  exists [("t", [(65536%N, 0); (65537%N, 300)])]%string, [zrow "t" 65536 5; zrow "t" 65537 6]%string. eexists.
  split; [repeat constructor; cbn; intuition|]. split; [|split; [|split; [vm_compute; reflexivity|]]].
  - intros id sts [E|[]]. injection E; intros; subst. repeat constructor; cbn; intuition discriminate.
  - intros r [<-|[<-|[]]]; cbn; (split; [discriminate|eauto]).
  - intros F. inversion F; subst. destruct H2 as (_ & _ & _ & H). destruct (H _ (or_introl eq_refl)) as (H1 & _).
    specialize (H1 0 (or_introl eq_refl)). discriminate H1.
Qed.
Print Assumptions C42_long_sequence_refuted.

(** C42: a row of a trip that is not in the feed (the parser has to exclude this) and an
    empty trip id in the first row follow a null pointer. *)
Theorem C42_unknown_trip_refuted : exists (trips : list (string * list (N * nat))) (rows : list (strow nat nat)),
  trips_ok trips /\ writeStopTimes nat nat trips rows = None.
Proof.
  exists [("t", [(1%N, 0)])]%string, [zrow "t" 1 5; zrow "u" 1 6]%string. split; [|reflexivity].
  constructor; cbn.
  - repeat constructor; cbn; intuition.
  - intros id sts [E|[]]. injection E; intros; subst. split; [repeat constructor; cbn; intuition|]. cbn. intros n d [E'|[]]. injection E'; intros; subst. reflexivity.
Qed.
Print Assumptions C42_unknown_trip_refuted.
Theorem C42_empty_trip_id_refuted : exists (trips : list (string * list (N * nat))) (rows : list (strow nat nat)),
  trips_ok trips /\ (forall r, In r rows -> exists sts, In (sTrip r, sts) trips) /\ writeStopTimes nat nat trips rows = None.
Proof.
  exists [(""%string, [(1%N, 0)])], [zrow "" 1 5]%string. split; [|split; [|reflexivity]].
  - constructor; cbn.
    + repeat constructor; cbn; intuition.
    + intros id sts [E|[]]. injection E; intros; subst. split; [repeat constructor; cbn; intuition|]. cbn. intros n d [E'|[]]. injection E'; intros; subst. reflexivity.
  - intros r [<-|[]]. cbn. eauto.
Qed.
Print Assumptions C42_empty_trip_id_refuted.
