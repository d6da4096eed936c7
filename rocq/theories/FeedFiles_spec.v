(** Specification of the files of a feed after a run (C89). *)
From Coq Require Import Ascii String List Arith NArith Bool.
From Verif Require Import ShapeStore_model Workers_model StopTimesFile_model Writing_model Writing_spec FeedFiles_model.
Import ListNotations.
Open Scope nat_scope.
Open Scope list_scope.

(** The disk after the files [es] were unpacked into a directory. *)
Definition unpacked {B} (dir : string) (es : list (string * list B)) (fs0 : files B) : files B :=
  mkFiles B (map (fun e => ((dir, fst e), snd e)) es ++ entries B fs0).

Section Spec.
Context {D X V R TX I : Type}.
Notation line := (line D X V R TX I).
Notation mem := (mem D R TX I).
Notation files := (files line).
Variable src tgt : string.

(** The disk [fs] after feed [m], which was read from [src], was written to [tgt]; [fs0]: the disk before. *)
Record on_disk (m : mem) (fs0 fs : files) : Prop := {
  (* copies, line by line *)
  od_required : forall f, In f ["agency.txt"; "stops.txt"]%string -> fs0 (src, f) <> None /\ fs (tgt, f) = fs0 (src, f);
  od_optional : forall f, In f ["calendar.txt"; "calendar_dates.txt"; "transfers.txt"; "fare_attributes.txt"; "fare_rules.txt"; "pathways.txt"; "levels.txt"]%string ->
    (fs0 (src, f) <> None -> fs (tgt, f) = fs0 (src, f)) /\ (fs0 (src, f) = None -> fs (tgt, f) = fs0 (tgt, f));
  od_frequencies : forall f, f = "frequencies.txt"%string ->
    (fs0 (src, f) <> None -> (exists t, In t (mTrips m) /\ mFreqs t <> 0) -> fs (tgt, f) = fs0 (src, f)) /\
    (fs0 (src, f) = None \/ (forall t, In t (mTrips m) -> mFreqs t = 0) -> fs (tgt, f) = fs0 (tgt, f));
  (* a line for each route and trip *)
  od_routes : exists ls, fs (tgt, "routes.txt"%string) = Some ls /\ Forall2 (fun r l => l = LRoute r) (mRoutes m) ls;
  od_trips : exists ls, fs (tgt, "trips.txt"%string) = Some ls /\ Forall2 (fun t l => l = LTrip (mId t) (mShape t) (mRest t)) (mTrips m) ls;
  (* the publisher, if there is one *)
  od_info : (mName m <> ""%string -> mUrl m <> ""%string -> fs (tgt, "feed_info.txt"%string) = Some [LInfo (mName m) (mUrl m) (mInfo m)]) /\
    (mName m = ""%string \/ mUrl m = ""%string -> fs (tgt, "feed_info.txt"%string) = fs0 (tgt, "feed_info.txt"%string));
  (* OpenStreetMap is named as a producer of the data *)
  od_attribution : fs (tgt, "attributions.txt"%string) = Some [LAttr "OpenStreetMap contributors" "https://www.openstreetmap.org/copyright" 1 0 0];
  (* nothing else *)
  od_other : forall k, fst k <> tgt \/ ~ In (snd k) feed_files -> fs k = fs0 k
}.

(** The feed in memory after a run: the trips have the shapes and distances [trips'], the container is [c]. *)
Record in_memory (m : mem) (ids : list string) (seqs : list (list N)) (trips' : list (trip D)) (c : cont) : Prop := {
  im_cont : mCont m = c;
  im_ids : length ids = length (mTrips m);
  im_seqs : length seqs = length (mTrips m);
  im_trips : length trips' = length (mTrips m);
  im_each : forall u t id ns x, nth_error (mTrips m) u = Some t -> nth_error ids u = Some id -> nth_error seqs u = Some ns -> nth_error trips' u = Some x ->
    mId t = id /\ mShape t = tShape _ x /\ mSts t = combine ns (tDists _ x)
}.

(** The files of the source can be read: they have the lines [old] and [rows] of shapes and stop times, agency.txt and
    stops.txt are there, and the files that are copied have lines of their own kind. *)
Record readable (fs0 : files) (old : option (list row)) (rows : list (strow D X)) : Prop := {
  rd_shapes : fs0 (src, "shapes.txt"%string) = option_map (map LShape) old;
  rd_times : fs0 (src, "stop_times.txt"%string) = Some (map LTime rows);
  rd_required : forall f, In f ["agency.txt"; "stops.txt"]%string -> fs0 (src, f) <> None;
  rd_lines : forall f l x, In f ["agency.txt"; "stops.txt"; "calendar.txt"; "calendar_dates.txt"; "transfers.txt"; "fare_attributes.txt"; "fare_rules.txt"; "pathways.txt"; "levels.txt"; "frequencies.txt"]%string ->
    fs0 (src, f) = Some l -> In x l -> exists v, x = LCopy v
}.
End Spec.
