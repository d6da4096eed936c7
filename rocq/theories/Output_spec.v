(** Specification of trips, shapes.txt and stop_times.txt after a run (C79). *)
From Coq Require Import String List Arith NArith ZArith QArith Bool.
From Verif Require Import ShapeStore_model ShapeStore_spec HopCache_model TripTrie_model Simi_model Cluster_model Cluster_spec Router_model Workers_model
  Pipeline_model Pipeline_spec ShapesFile_model StopTimesFile_model StopTimesFile_spec Output_model.
Import ListNotations.
Open Scope nat_scope.

Section Spec.
Context {pos C Pt regex X : Type}.
Variable compile : string -> option regex.
Variable replace : regex -> string -> string -> string.
Variable enc : Pt * Q * nat -> pt.
Notation config := (@config pos C Pt regex).
(** The point at a share of the length of a line, in the geometry of a network. *)
Variable posAt : world pos C Pt -> list Pt -> Q -> Pt.

(** The route types a configuration is for. *)
Definition handles (g : config) (ty : nat) : Prop := In ty (oMots (cOpts g)) /\ In ty (oCfgMots (cOpts g)).
(** A configuration whose network, costs and geometry are as assumed for C58, for this feed,
    with normalizers that were read from it. *)
Record config_ok (f : feed pos) (dists : nat -> list Q) (g : config) : Prop := {
  ck_world : world_ok (cWorld g) (posAt (cWorld g));
  ck_feed : exists M, feed_ok (cWorld g) (cOpts g) f dists M;
  ck_threads : 0 < oThreads (cOpts g);
  ck_norms : exists ops, In (cLineN g) (fst (runNorm regex compile replace [] ops)) /\ In (cStatN g) (fst (runNorm regex compile replace [] ops))
}.
(** No two configurations are for one route type. *)
Fixpoint apart (cs : list config) : Prop :=
  match cs with [] => True | g :: r => (forall g' ty, In g' r -> handles g ty -> ~ handles g' ty) /\ apart r end.

(** The same configuration with its threads scheduled in another way. *)
Definition same_but (g g' : config) : Prop := cWorld g' = cWorld g /\ cOpts g' = cOpts g /\ cLineN g' = cLineN g /\ cStatN g' = cStatN g.
(** A trip of the feed has a shape that does not fit into memory. *)
Definition huge (f : feed pos) (g : config) : Prop := exists t ps ds, In t (fTrips _ f) /\
  shape_for (cWorld g) (posAt (cWorld g)) (fTrip _ t) ps ds /\ (2 ^ 64 <= N.of_nat (length ps))%N.

(** Trips and files after the run; [good]: the shapes that serve a trip in the network of a configuration. *)
Variable good : config -> TripTrie_model.trip pos -> list (Pt * Q * nat) -> list Q -> Prop.
Record output_ok (cs : list config) (f : feed pos) (dists : nat -> list Q) (sids : list string) (old : list row) (ids : list string) (seqs : list (list N))
    (rows : list (strow Q X)) (trips' : list (Workers_model.trip Q)) (shapes : list row) (rows' : list (strow Q X)) : Prop := {
  oo_count : length trips' = length (fTrips _ f);
  (* a trip that a configuration selects refers to a shape, made in the network of this
     configuration, that serves its stops; shapes.txt has the points of this shape, and
     stop_times.txt the distances along it *)
  oo_new : forall g u t, In g cs -> nth_error (fTrips _ f) u = Some t -> selected (cOpts g) t -> exists id ps ds,
    nth_error trips' u = Some (mkTrip Q id ds) /\ good g (fTrip _ t) ps ds /\
    with_id id shapes = rows_of (id, map enc ps) /\
    forall k r r' ns i, nth_error rows k = Some r -> nth_error rows' k = Some r' -> nth_error ids u = Some (sTrip r) ->
      nth_error seqs u = Some ns -> nth_error ns i = Some (sSeq r) -> nth_error ds i = Some (sDist r');
  (* any other trip refers to its old shape, with its old points and distances *)
  oo_old : forall u t, nth_error (fTrips _ f) u = Some t -> (forall g, In g cs -> ~ selected (cOpts g) t) ->
    nth_error trips' u = Some (mkTrip Q (fShape _ t) (dists u)) /\
    (In (fShape _ t) sids -> with_id (fShape _ t) shapes = with_id (fShape _ t) old) /\
    forall k r r', nth_error rows k = Some r -> nth_error rows' k = Some r' -> nth_error ids u = Some (sTrip r) -> sDist r' = sDist r;
  (* shapes no trip used remain *)
  oo_unused : forall y, In y sids -> (forall t, In t (fTrips _ f) -> fShape _ t <> y) -> with_id y shapes = with_id y old;
  (* shapes.txt has no other rows *)
  oo_shapes : forall x, In x shapes -> In x old \/ exists id ps ds g t, In g cs /\ In t (fTrips _ f) /\ selected (cOpts g) t /\
    good g (fTrip _ t) ps ds /\ In x (rows_of (id, map enc ps));
  (* in stop_times.txt, only distances differ *)
  oo_rows : Forall2 (fun r r' => sTrip r' = sTrip r /\ sSeq r' = sSeq r /\ sRest r' = sRest r) rows rows'
}.
End Spec.
(** As in C58. *)
Definition serving {pos C Pt regex} (posAt : world pos C Pt -> list Pt -> Q -> Pt) (g : @config pos C Pt regex) := shape_for (cWorld g) (posAt (cWorld g)).
