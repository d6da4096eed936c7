(** Specification for the area of the OSM data that is read (C63). *)
From Coq Require Import String List ZArith QArith.
From Verif Require Import TripTrie_model Cluster_model BBoxIdx_model BBoxIdx_spec Box_model.
Import ListNotations.
Open Scope Z_scope.

Section Spec.
Variable hav : pt -> pt -> Q.
Variable emptySecs : Z.
Variable v : Q.                       (* maximum speed *)
Notation stime := (stime pt).
Notation ftrip := (ftrip pt).

(** The position of a stop time; a time in seconds. *)
Definition at_pos (s : stime) (p : pt) : Prop := sPos _ (stStop _ s) = p.
Definition clock (t : option Z) (z : Z) : Prop := t = Some z \/ t = None /\ z = emptySecs.
(** [d] metres in [time] seconds is impossible even with 5 minutes more, nine times that long. *)
Definition hopeless (d : Q) (time : Z) : Prop := (inject_Z (9 * (time + 300)) * v < d)%Q.
(** The [i]-th stop can neither be reached from the one before nor left to the one after it. *)
Definition outlier (sts : list stime) (i : nat) : Prop :=
  exists p s n dp a d an, nth_error sts i = Some p /\ nth_error sts (S i) = Some s /\ nth_error sts (S (S i)) = Some n /\
    clock (stDep _ p) dp /\ clock (stArr _ s) a /\ clock (stDep _ s) d /\ clock (stArr _ n) an /\
    hopeless (hav (sPos _ (stStop _ s)) (sPos _ (stStop _ p))) (a - dp) /\ hopeless (hav (sPos _ (stStop _ s)) (sPos _ (stStop _ n))) (an - d).
(** Position [p] is that of a stop of the trip that is not such an outlier. *)
Definition regular (sts : list stime) (i : nat) : Prop := forall j, i = S j -> ~ outlier sts j.
Definition stops_at (sts : list stime) (p : pt) : Prop := exists i s, nth_error sts i = Some s /\ at_pos s p /\ regular sts i.
(** The distances between consecutive stops. *)
Definition hops (sts : list stime) (ds : list Q) : Prop :=
  length sts = S (length ds) /\ forall i a b, nth_error sts i = Some a -> nth_error sts (S i) = Some b -> nth_error ds i = Some (hav (sPos _ (stStop _ b)) (sPos _ (stStop _ a))).
End Spec.

(** [b] is the smallest box around the points with [P] (at least one). *)
Definition smallest (P : pt -> Prop) (b : box) : Prop :=
  (forall p, P p -> inside p b) /\
  (exists p, P p /\ fst p = x0 b) /\ (exists p, P p /\ snd p = y0 b) /\ (exists p, P p /\ fst p = x1 b) /\ (exists p, P p /\ snd p = y1 b).
(** The trip is one of those to be matched: the single trip asked for, or any trip without a
    shape (any trip, if shapes are dropped); its type is selected and it has two stops. *)
Definition wanted (mots : list nat) (tid : option nat) (drop : bool) (t : ftrip pt) : Prop :=
  In (fType _ t) mots /\ (2 <= length (tSts _ (fTrip _ t)))%nat /\
  match tid with Some k => tId _ (fTrip _ t) = k | None => drop = true \/ fShape _ t = ""%string end.
(** All stops are within the coordinates [-M .. M]. *)
Definition located (M : Z) (t : ftrip pt) : Prop :=
  Forall (fun s => - M <= fst (sPos _ (stStop _ s)) <= M /\ - M <= snd (sPos _ (stStop _ s)) <= M) (tSts _ (fTrip _ t)).
(** Padding a larger box gives a larger box, and a box is in its padded one. *)
Definition within (a b : box) : Prop := x0 b <= x0 a /\ y0 b <= y0 a /\ x1 a <= x1 b /\ y1 a <= y1 b.
Definition padding (pad : box -> box) : Prop := (forall b, within b (pad b)) /\ (forall a b, within a b -> within (pad a) (pad b)).
(** The points around position [p] that padding adds. *)
Definition around_stop (pad : box -> box) (p q : pt) : Prop := inside q (pad (mkBox (fst p) (snd p) (fst p) (snd p))).
