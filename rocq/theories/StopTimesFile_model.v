(** Model of the writing of stop_times.txt, after a whole run.
    Source: /repo/src/pfaedle/gtfs/Writer.cpp:661-689 (writeStopTimes),
    /repo/src/pfaedle/gtfs/StopTime.h:25-58 (a sequence number is returned as uint16_t).

    Simplifications.
    - A row is its trip id, sequence number, distance, and the rest (abstract).
    - The trips of the feed are a list of ids with their stop times (sequence number as
      parsed, distance); [get] finds the (first) trip with an id.
    - Outcome [None]: undefined behaviour (null pointer followed). *)
From Coq Require Import Ascii String List Arith NArith Bool.
From Verif Require Import ShapeStore_model Workers_model ShapesFile_model.
Import ListNotations.
Open Scope nat_scope.

Section StopTimes.
Variable D X : Type.
(** cppgtfs flat::StopTime. *)
Record strow := mkSt { sTrip : string; sSeq : N; sDist : D; sRest : X }.

(** StopTime.h:53 [getSeq]: a uint16_t, of the sequence number [n], a uint32_t. *)
Definition getSeq (n : N) : N := (n mod 65536)%N.
(** TripFeed.h / cppgtfs ContContainer [get]: null if there is no such trip. *)
Fixpoint getTrip (trips : list (string * list (N * D))) (id : string) : option (list (N * D)) :=
  match trips with
  | [] => None
  | (i, sts) :: r => if String.eqb i id then Some sts else getTrip r id
  end.
(** Writer.cpp:682-685. *)
Definition newDist (st : strow) (sts : list (N * D)) : D :=
  fold_left (fun d s => if (getSeq (fst s) =? sSeq st)%N then snd s else d) sts (sDist st).
Definition setDist (st : strow) (d : D) : strow := mkSt (sTrip st) (sSeq st) d (sRest st).
(** Writer.cpp:676-688; [cur]: the trip, [None] if null. *)
Fixpoint writeRows (trips : list (string * list (N * D))) (rows : list strow) (curId : string) (cur : option (list (N * D))) : option (list strow) :=
  match rows with
  | [] => Some []
  | st :: r =>
      let cur' := if String.eqb curId (sTrip st) then cur else getTrip trips (sTrip st) in
      match cur' with
      | None => None
      | Some sts =>
          match writeRows trips r (sTrip st) cur' with
          | None => None
          | Some o => Some (setDist st (newDist st sts) :: o)
          end
      end
  end.
(** Writer.cpp:661-689. *)
Definition writeStopTimes (trips : list (string * list (N * D))) (rows : list strow) : option (list strow) :=
  writeRows trips rows "" None.

(** ** With the trips of a whole run *)
(** The feed: trip [u] has the [u]-th id and sequence numbers; the distances are those of
    the trip after the run. *)
Definition feedOf (trips : list (trip D)) (ids : list string) (seqs : list (list N)) : list (string * list (N * D)) :=
  map (fun e => (fst (fst e), combine (snd (fst e)) (tDists _ (snd e)))) (combine (combine ids seqs) trips).
(** PfaedleMain.cpp:256-384, 433-443: shapes.txt and stop_times.txt after a run. *)
Definition wholeFiles (wa wb wd : nat) (phs : list (phase D)) (trips : list (trip D)) (shapeIds : list string)
    (old : option (list row)) (ids : list string) (seqs : list (list N)) (rows : list strow)
    : option (list (trip D) * list row * list strow) :=
  match wholeRun D wa wb wd phs trips shapeIds old with
  | None => None
  | Some (trips', shapes) =>
      match writeStopTimes (feedOf trips' ids seqs) rows with
      | None => None
      | Some o => Some (trips', shapes, o)
      end
  end.
End StopTimes.
Arguments sTrip {D X} s. Arguments sSeq {D X} s. Arguments sDist {D X} s. Arguments sRest {D X} s.
