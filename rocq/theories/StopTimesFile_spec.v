(** Specification for stop_times.txt (C42). *)
From Coq Require Import String List Arith NArith Bool.
From Verif Require Import ShapeStore_model ShapeStore_spec Workers_model Workers_spec ShapesFile_model ShapesFile_spec StopTimesFile_model.
Import ListNotations.
Open Scope nat_scope.

Section Spec.
Context {D X : Type}.
Notation strow := (strow D X).

(** The trips of the feed: different ids; a trip's sequence numbers are different and fit
    into 16 bits. *)
Record trips_ok (trips : list (string * list (N * D))) : Prop := {
  tk_ids : NoDup (map fst trips);
  tk_seqs : forall id sts, In (id, sts) trips -> NoDup (map fst sts) /\ forall n d, In (n, d) sts -> (n < 65536)%N
}.
(** Every row belongs to a trip of the feed, the id of which is not empty. *)
Definition rows_ok (trips : list (string * list (N * D))) (rows : list strow) : Prop :=
  forall r, In r rows -> sTrip r <> ""%string /\ exists sts, In (sTrip r, sts) trips.

(** The row written for a row of the input: only the distance differs; it is that of the
    stop time of the trip with the row's sequence number, or the old one if there is none. *)
Definition row_written (trips : list (string * list (N * D))) (r r' : strow) : Prop :=
  sTrip r' = sTrip r /\ sSeq r' = sSeq r /\ sRest r' = sRest r /\
  forall sts, In (sTrip r, sts) trips ->
    (forall d, In (sSeq r, d) sts -> sDist r' = d) /\
    ((forall d, ~ In (sSeq r, d) sts) -> sDist r' = sDist r).

(** After a whole run: the row for stop time [i] of trip [u] has distance [i] of the leaf
    that shaped the trip; rows of other trips are as they were (their stop times were read
    from these rows). *)
Record dists_written (phs : list (phase D)) (ids : list string) (seqs : list (list N)) (rows rows' : list strow) : Prop := {
  dw_rows : Forall2 (fun r r' => sTrip r' = sTrip r /\ sSeq r' = sSeq r /\ sRest r' = sRest r) rows rows';
  dw_new : forall k r r' u l ns i d, nth_error rows k = Some r -> nth_error rows' k = Some r' ->
    shaped_by phs u l -> nth_error ids u = Some (sTrip r) -> nth_error seqs u = Some ns ->
    nth_error ns i = Some (sSeq r) -> nth_error (lDists _ _ l) i = Some d -> sDist r' = d;
  dw_old : forall k r r' u, nth_error rows k = Some r -> nth_error rows' k = Some r' ->
    untouched phs u -> nth_error ids u = Some (sTrip r) -> sDist r' = sDist r
}.
(** The stop times of the trips were read from the rows. *)
Definition read_from (rows : list strow) (trips : list (trip D)) (ids : list string) (seqs : list (list N)) : Prop :=
  length ids = length trips /\ length seqs = length trips /\ NoDup ids /\
  (forall u ns x, nth_error seqs u = Some ns -> nth_error trips u = Some x -> length ns = length (tDists _ x) /\ NoDup ns /\ forall n, In n ns -> (n < 65536)%N) /\
  (forall r, In r rows -> sTrip r <> ""%string /\ In (sTrip r) ids) /\
  forall u ns x i n d r, nth_error seqs u = Some ns -> nth_error trips u = Some x -> nth_error ns i = Some n ->
    nth_error (tDists _ x) i = Some d -> In r rows -> nth_error ids u = Some (sTrip r) -> sSeq r = n -> sDist r = d.
End Spec.
