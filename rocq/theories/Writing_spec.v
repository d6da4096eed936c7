(** Specification for the files on disk while a feed is written (C43). *)
From Coq Require Import String List Arith NArith Bool.
From Verif Require Import Writing_model.
Import ListNotations.
Open Scope nat_scope.

(** The files of a feed, in the order in which they are written. *)
Definition feed_files : list string :=
  ["agency.txt"; "stops.txt"; "routes.txt"; "calendar.txt"; "calendar_dates.txt"; "transfers.txt"; "fare_attributes.txt";
   "fare_rules.txt"; "pathways.txt"; "levels.txt"; "shapes.txt"; "trips.txt"; "frequencies.txt"; "stop_times.txt";
   "feed_info.txt"; "attributions.txt"]%string.
Definition always_written : list string :=
  ["agency.txt"; "stops.txt"; "routes.txt"; "shapes.txt"; "trips.txt"; "stop_times.txt"; "attributions.txt"]%string.
Definition copied_if_there : list string :=
  ["calendar.txt"; "calendar_dates.txt"; "transfers.txt"; "fare_attributes.txt"; "fare_rules.txt"; "pathways.txt"; "levels.txt"]%string.

Section Spec.
Context {B Feed : Type}.
Variable render : Feed -> string -> option (list B) -> option (list B).
Variable hasFreqs hasPublisher : Feed -> bool.
Variable src tgt : string.
Notation files := (files B).

(** The files that are to be written for feed [m], given the source in [fs0]. *)
Definition wanted (m : Feed) (fs0 : files) (f : string) : Prop :=
  In f always_written \/
  (In f copied_if_there /\ fs0 (src, f) <> None) \/
  (f = "frequencies.txt"%string /\ hasFreqs m = true /\ fs0 (src, f) <> None) \/
  (f = "feed_info.txt"%string /\ hasPublisher m = true).

(** The contract of getTmpFName: the name of no file, of no file of a feed, and not that
    of the archive. *)
Definition fresh_names (tmpName : files -> string -> string) (zipName : option string) : Prop :=
  forall (fs : files) f, fs (tgt, tmpName fs f) = None /\ ~ In (tmpName fs f) feed_files /\ zipName <> Some (tmpName fs f).
Definition no_write_error (os : list outcome) : Prop := forall o, In o os -> wOk o = true.

(** The disk is as it was, except for the files in [new], which have these contents, and
    for a left-over temporary file, which is new and none of those to be written. *)
Definition changed (zipName : option string) (fs0 fs : files) (new : key -> list B -> Prop) (left : option string) : Prop :=
  (forall k c, new k c -> fs k = Some c) /\
  (forall k, (forall c, ~ new k c) -> (forall tmp, left = Some tmp -> k <> (tgt, tmp)) -> fs k = fs0 k) /\
  (forall tmp, left = Some tmp -> fs0 (tgt, tmp) = None /\ ~ In tmp feed_files /\ zipName <> Some tmp).
(** The new contents of a file: computed from the feed and from the source as it was at the
    start. *)
Definition contents (m : Feed) (fs0 : files) (f : string) (c : list B) : Prop := render m f (fs0 (src, f)) = Some c.
(** The files of [a] are new (those that are wanted). *)
Definition new_files (m : Feed) (fs0 : files) (a : list string) (k : key) (c : list B) : Prop :=
  exists f, In f a /\ wanted m fs0 f /\ k = (tgt, f) /\ contents m fs0 f c.
Definition all_rendered (m : Feed) (fs0 : files) (a : list string) : Prop :=
  forall f, In f a -> wanted m fs0 f -> exists c, contents m fs0 f c.

(** The members of the archive: the files wanted, in order, complete. *)
Inductive members (m : Feed) (fs0 : files) : list string -> list (string * list B) -> Prop :=
| mb_nil : members m fs0 [] []
| mb_in : forall f c a es, wanted m fs0 f -> contents m fs0 f c -> members m fs0 a es -> members m fs0 (f :: a) ((f, c) :: es)
| mb_out : forall f a es, ~ wanted m fs0 f -> members m fs0 a es -> members m fs0 (f :: a) es.
Definition no_files (k : key) (c : list B) : Prop := False.
Definition only_file (k : key) (c : list B) (k' : key) (c' : list B) : Prop := k' = k /\ c' = c.
End Spec.
