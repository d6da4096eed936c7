(** Specification of the whole computation from trips to shapes (C55, C58). *)
From Coq Require Import String List Arith ZArith NArith QArith Bool.
From Verif Require Import HopCache_model TripTrie_model TripTrie_spec Simi_model Cluster_model Cluster_spec Router_model Router_spec
  Ecm_model Ecm_spec Shapes_model Shapes_spec Workers_model Pipeline_model.
Import ListNotations.
Open Scope nat_scope.

Section Spec.
Context {pos C Pt : Type}.
Variable W : world pos C Pt.
(** The point at a share of the length of a line. *)
Variable posAt : list Pt -> Q -> Pt.
Notation near := (near _ _ _ W).
Notation lt := (lt _ _ _ W).
Notation add := (add _ _ _ W).
Notation inf := (inf _ _ _ W).

(** What is assumed of costs, graph, searches and geometry. *)
Record world_ok : Prop := {
  wk_costs : cost_laws lt add inf;
  wk_ofQ : forall q, lt (ofQ _ _ _ W q) inf = true;
  wk_ofZ : forall z, lt (ofZ _ _ _ W z) inf = true;
  wk_add : forall a b, lt a inf = true -> lt b inf = true -> lt (add a b) inf = true;
  wk_near : forall p, near p p = true;
  wk_enum : forall l x, In x (enumS _ _ _ W l) <-> In x l;
  (* the closest point on an edge is on it *)
  wk_proj : forall s e, is_share (eproj _ _ _ W s e);
  (* a search that succeeds yields a path between the edges asked for *)
  wk_paths : forall tr n a b lim, (fst (spath _ _ _ W tr n a b lim) < lim)%Z ->
    let p := rev (snd (spath _ _ _ W tr n a b lim)) in p = [] \/
    (path (fromPt _ _ _ W) (toPt _ _ _ W) p /\ first_is p a /\ last_is p b);
  wk_rounding : rounding (rndF _ _ _ W) (rndD _ _ _ W);
  wk_hav : forall p q, (0 <= hav _ _ _ W p q)%Q;
  wk_geometries : geometries_ok (geom _ _ _ W) (isRev _ _ _ W) (fromPt _ _ _ W) (toPt _ _ _ W);
  wk_geometry : geometry (segment _ _ _ W) (simplify _ _ _ W) posAt;
  wk_segment : forall l a b, l <> [] -> is_share a -> is_share b -> segment _ _ _ W l a b <> []
}.

(** Trips are numbered in the order of the feed; every stop time has a distance; the
    times of a trip are between 0 and [M] seconds after its start, and the sum over all
    trips fits into an int. *)
Record feed_ok (o : copts) (f : feed pos) (dists : nat -> list Q) (M : Z) : Prop := {
  fk_ids : forall u t, nth_error (fTrips _ f) u = Some t -> tId _ (fTrip _ t) = u;
  fk_dists : forall u t, nth_error (fTrips _ f) u = Some t -> length (dists u) = length (tSts _ (fTrip _ t));
  fk_times : forall t a te dg k, In t (fTrips _ f) -> selected o t ->
    In k (call_keys (emptySecs _ _ _ W) (mkCall pos attrs (fTrip _ t) a te dg)) -> (0 <= kTime k <= M)%Z;
  fk_sum : (0 <= M)%Z /\ (Z.of_nat (length (fTrips _ f)) * M <= 2147483647)%Z
}.

(** How the candidates of a stop relate to it. *)
Definition cands_of (cands : stop pos -> option (list (cand C edge Pt))) : Prop :=
  forall s, exists cs, cands s = Some cs /\
    stop_cands (ofQ _ _ _ W) (oneWay _ _ _ W) (maxStat _ _ _ W) (maxSnap _ _ _ W) (statPen _ _ _ W) (platPen _ _ _ W) (nonStatPen _ _ _ W)
      (useStations _ _ _ W) (em _ _ _ W) (edist _ _ _ W s) (eproj _ _ _ W s) (isRev _ _ _ W) (point _ _ _ W s) (sPlat _ s)
      (stats _ _ _ W s) (edges _ _ _ W s) cs.

(** The edges of a hop are those that a successful search from its start to its end edge found. *)
Definition searched (h : hop edge Pt) : Prop :=
  hEdges _ _ h <> [] -> exists tr n a b lim, hStart _ _ h = Some a /\ hEnd _ _ h = Some b /\
    (fst (spath _ _ _ W tr n a b lim) < lim)%Z /\ hEdges _ _ h = snd (spath _ _ _ W tr n a b lim).

(** A shape for the trip [t]: points [ps] and stop distances [ds], made of [parts] that belong to [hops]. *)
Definition shape_by (cands : stop pos -> option (list (cand C edge Pt))) (hops : list (hop edge Pt)) (parts : list (list Pt))
    (t : TripTrie_model.trip pos) (ps : list (Pt * Q * nat)) (ds : list Q) : Prop :=
  cands_of cands /\
  (* one hop for every two consecutive stops, between candidates of these *)
  serves cands near (map (stStop _) (tSts _ t)) hops /\ Forall searched hops /\
  (* one part per hop; measures grow along the points; a distance for every stop *)
  length parts = length hops /\ measured (hav _ _ _ W) (rndF _ _ _ W) (rndD _ _ _ W) parts ps ds /\
  length ds = length (tSts _ t) /\
  (* the parts follow the hops and join (if no hop goes back on its edge) *)
  (Forall forward hops -> Forall2 (part_ok (geom _ _ _ W) (isRev _ _ _ W) (fromPt _ _ _ W) (toPt _ _ _ W) posAt) hops parts /\ meet parts).
Definition shape_for (t : TripTrie_model.trip pos) (ps : list (Pt * Q * nat)) (ds : list Q) : Prop :=
  exists cands hops parts, shape_by cands hops parts t ps ds.
End Spec.

(** The feed afterwards; [good]: the shapes that serve a trip. *)
Section Feed.
Context {pos Pt : Type}.
Variable good : TripTrie_model.trip pos -> list (Pt * Q * nat) -> list Q -> Prop.
Record shaped (o : copts) (f : feed pos) (dists : nat -> list Q) (cnt : nat) (ids : list string) (store : list (string * list (Pt * Q * nat)))
    (s : shared (list (Pt * Q * nat)) Q) : Prop := {
  sh_count : length (sTrips _ _ s) = length (fTrips _ f);
  (* trips that were not selected are as before, and their shapes are still there *)
  sh_others : forall u t, nth_error (fTrips _ f) u = Some t -> ~ selected o t ->
    nth_error (sTrips _ _ s) u = Some (mkTrip Q (fShape _ t) (dists u)) /\ (In (fShape _ t) ids -> In (fShape _ t) (sIds _ _ s));
  (* selected trips have a new shape, registered and stored, that serves their stops *)
  sh_selected : forall u t, nth_error (fTrips _ f) u = Some t -> selected o t -> exists id n ps ds,
    nth_error (sTrips _ _ s) u = Some (mkTrip Q id ds) /\ good (fTrip _ t) ps ds /\ cnt < n /\ (exists ty, id = idOf ty n) /\
    ((forall t' ty k, In t' (fTrips _ f) -> cnt < k -> fShape _ t' <> idOf ty k) ->
      In id (sIds _ _ s) /\ ~ In id ids /\ In (id, ps) (sStore _ _ s))
}.
End Feed.
