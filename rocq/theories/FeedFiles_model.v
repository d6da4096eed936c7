(** Model of the files of a feed as they are written after a run.
    Source: /repo/src/pfaedle/gtfs/Writer.cpp:282, 294-295 (frequencies), 330-331 (feed_info), 383-658 (the
    functions that write a file).  Writing models in which order and how the files get to the disk, for any
    contents; here are the contents.

    Simplifications.
    - A file is a list of lines, a line is a record of cppgtfs's flat types; what is not used by pfaedle is
      abstract ([V]: lines that are only copied; [R]: routes; [TX], [X], [I]: the other fields of trips, stop
      times, feed_info).  The CSV format is not modelled: writing a record and parsing it is the identity.
    - The parser throws ([None]) on a line that is not of the file's type, and if agency.txt, stops.txt
      or stop_times.txt is missing (a required column is).
    - The containers are lists, in the order in which they are enumerated. *)
From Coq Require Import Ascii String List Arith NArith Bool.
From Verif Require Import ShapeStore_model StopTimesFile_model.
Import ListNotations.
Open Scope nat_scope.
Open Scope list_scope.

Section Files.
Variable D X V R TX I : Type.
Inductive line :=
| LCopy (v : V)
| LRoute (r : R)
| LTrip (id shape : string) (x : TX)
| LShape (r : row)
| LTime (r : strow D X)
| LInfo (name url : string) (i : I)
| LAttr (org url : string) (producer operator authority : nat).

(** cppgtfs Trip, as far as it is used: id, shape id, other fields, number of frequencies, stop times. *)
Record mtrip := mkM { mId : string; mShape : string; mRest : TX; mFreqs : nat; mSts : list (N * D) }.
(** cppgtfs FeedB *)
Record mem := mkMem { mRoutes : list R; mTrips : list mtrip; mCont : cont; mName : string; mUrl : string; mInfo : I }.

(** The loops [while (p.nextX(...))]. *)
Fixpoint parse {A} (as_ : line -> option A) (l : list line) : option (list A) :=
  match l with
  | [] => Some []
  | x :: r => match as_ x, parse as_ r with Some a, Some t => Some (a :: t) | _, _ => None end
  end.
Definition asCopy (x : line) : option V := match x with LCopy v => Some v | _ => None end.
Definition asShape (x : line) : option row := match x with LShape r => Some r | _ => None end.
Definition asTime (x : line) : option (strow D X) := match x with LTime r => Some r | _ => None end.

(** 419-487 (pathways, levels, agency, stops), 504-604 (calendar, calendar dates, frequencies, transfers, fares, fare rules). *)
Definition copyFile (src : option (list line)) : option (list line) :=
  match src with
  | None => None
  | Some l => match parse asCopy l with None => None | Some vs => Some (map LCopy vs) end
  end.
(** 490-501 *)
Definition writeRoutes (m : mem) : list line := map LRoute (mRoutes m).
(** 644-658: the lines and the result *)
Definition writeTrips (m : mem) : list line * bool :=
  fold_left (fun o t => (fst o ++ [LTrip (mId t) (mShape t) (mRest t)], if 0 <? mFreqs t then true else snd o)) (mTrips m) ([], false).
(** 397-416 *)
Definition writeFeedInfo (m : mem) : list line := [LInfo (mName m) (mUrl m) (mInfo m)].
(** 383-394 *)
Definition writeAttribution : list line := [LAttr "OpenStreetMap contributors" "https://www.openstreetmap.org/copyright" 1 0 0].
(** 282 *)
Definition hasFreqs (m : mem) : bool := snd (writeTrips m).
(** 330-331 *)
Definition hasPublisher (m : mem) : bool := negb (String.eqb (mUrl m) "") && negb (String.eqb (mName m) "").

Variable wa wb wd : nat.
(** 607-641, with ShapeStore_model.writeShapes *)
Definition shapesFile (m : mem) (src : option (list line)) : option (list line) :=
  match (match src with None => Some None | Some l => match parse asShape l with None => None | Some rows => Some (Some rows) end end) with
  | None => None
  | Some old => match writeShapes wa wb wd (mCont m) old with None => None | Some (rows, _) => Some (map LShape rows) end
  end.
(** 661-688, with StopTimesFile_model.writeStopTimes *)
Definition stopTimesFile (m : mem) (src : option (list line)) : option (list line) :=
  match src with
  | None => None
  | Some l =>
      match parse asTime l with
      | None => None
      | Some rows => match writeStopTimes D X (map (fun t => (mId t, mSts t)) (mTrips m)) rows with None => None | Some o => Some (map LTime o) end
      end
  end.
(** 86-361: which function writes which file. *)
Definition render (m : mem) (f : string) (src : option (list line)) : option (list line) :=
  if String.eqb f "routes.txt" then Some (writeRoutes m)
  else if String.eqb f "trips.txt" then Some (fst (writeTrips m))
  else if String.eqb f "shapes.txt" then shapesFile m src
  else if String.eqb f "stop_times.txt" then stopTimesFile m src
  else if String.eqb f "feed_info.txt" then Some (writeFeedInfo m)
  else if String.eqb f "attributions.txt" then Some writeAttribution
  else copyFile src.
End Files.
Arguments LCopy {D X V R TX I}. Arguments LRoute {D X V R TX I}. Arguments LTrip {D X V R TX I}. Arguments LShape {D X V R TX I}.
Arguments LTime {D X V R TX I}. Arguments LInfo {D X V R TX I}. Arguments LAttr {D X V R TX I}.
Arguments mId {D TX}. Arguments mShape {D TX}. Arguments mRest {D TX}. Arguments mFreqs {D TX}. Arguments mSts {D TX}.
Arguments mRoutes {D R TX I}. Arguments mTrips {D R TX I}. Arguments mCont {D R TX I}. Arguments mName {D R TX I}. Arguments mUrl {D R TX I}. Arguments mInfo {D R TX I}.
