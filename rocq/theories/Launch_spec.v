(** Specification for a run from the command line (C87). *)
From Coq Require Import Ascii String List Arith Bool.
From Verif Require Import Main_model.
From Verif Require Import Args_spec.
Import ListNotations.
Open Scope nat_scope.
Open Scope list_scope.

(** The configuration files: those of -c, or those of the system. *)
Definition config_files (good : string -> bool) (installed home : string) (cwd : option string) (us : list (key * string)) (files : list string) : Prop :=
  present CfgFile us /\ files = values CfgFile us \/ ~ present CfgFile us /\ implicit good installed home cwd files.
(** The text of -P, each on a line of its own. *)
Definition params (us : list (key * string)) : string := String.concat "" (map (fun v => String (ascii_of_nat 10) v) (values Param us)).
(** A run that matches a feed with an OSM file: -x is given, -X, --overpass, --osmfilter and -T are not. *)
Definition matching (us : list (key * string)) : Prop :=
  last (values OsmFile us) ""%string <> ""%string /\ last (values OsmOut us) ""%string = ""%string /\
  ~ present Overpass us /\ ~ present Osmfilter us /\ last (values TripId us) ""%string = ""%string.
Section Wanted.
Variable split : string -> ascii -> list string.
Variable trim : string -> string.
Variable typesOf : string -> list nat.
(** Type [m] is one of -m, which lists names separated by commas. *)
Definition asked_type (us : list (key * string)) (m : nat) : Prop :=
  exists p, In p (split (last (values Mots us) "all"%string) ","%char) /\ In m (typesOf (trim p)).
(** Type [m] is named by a section. *)
Definition section_type {S : Type} (secs : list (string * S)) (m : nat) : Prop := exists n s, In (n, s) secs /\ n <> ""%string /\ In m (typesOf n).
(** Trip [t] is to be matched. *)
Definition wanted {S : Type} (us : list (key * string)) (secs : list (string * S)) (t : trip) : Prop :=
  2 <= tStops t /\ (present DropShapes us \/ tShape t = NoShape) /\ asked_type us (tType t) /\ section_type secs (tType t).
(** Wanted trips get a computed shape, the others stay as they are. *)
Definition done {S : Type} (us : list (key * string)) (secs : list (string * S)) (t t' : trip) : Prop :=
  tId t' = tId t /\ tType t' = tType t /\ tStops t' = tStops t /\
  (wanted us secs t -> exists k, tShape t' = Computed k) /\ (~ wanted us secs t -> t' = t).
End Wanted.
Definition writes (e : event) : Prop := match e with EWrite _ _ _ => True | _ => False end.
