(** Specification for the candidates of stops and of trie nodes (C34). *)
From Coq Require Import String List Arith ZArith QArith Bool.
From Verif Require Import HopCache_model TripTrie_model TripTrie_spec Router_model Router_spec Ecm_model.
Import ListNotations.
Open Scope nat_scope.

Section Spec.
Context {C P : Type}.
Variable ofQ : Q -> C.
Notation cand := (cand C edge P).

(** *** The candidates of one stop *)
Section Stop.
Variable oneWay : edge -> nat.
Variables maxStat maxSnap statPen platPen nonStatPen : Q.
Variable useStations : bool.
Variable em : Q -> Q.
Variables edist eproj : edge -> Q.
Variable isRev : edge -> bool.
Variable p : P.
Variable platform : string.
Variable sts : list statNd.
Variable es : list edge.

(** A candidate at the start of an edge that leaves a station near the stop. *)
Definition station_cand (nd : statNd) (e : edge) (c : cand) : Prop :=
  cE _ _ _ c = Some e /\ cProgr _ _ _ c = 0%Q /\ exists np tp : Q,
    cPen _ _ _ c = ofQ (em (sdDist nd) + np + tp)%Q /\
    np = (if sdSim nd then 0 else statPen)%Q /\
    (platform <> "" -> sdTrack nd = platform -> tp = platPen)%string /\
    (platform = "" \/ sdTrack nd <> platform -> tp = 0%Q)%string.
(** A candidate at the position on an edge closest to the stop, as a fraction of the
    edge in its own direction. *)
Definition snapped_cand (e : edge) (c : cand) : Prop :=
  cE _ _ _ c = Some e /\ cPen _ _ _ c = ofQ (em (edist e) + nonStatPen)%Q /\
  cProgr _ _ _ c = (if isRev e then 1 - eproj e else eproj e)%Q.
Definition near_station (nd : statNd) (e : edge) : Prop :=
  useStations = true /\ In nd sts /\ (sdDist nd <= maxStat)%Q /\ In e (sdOut nd) /\ oneWay e <> 2.
Definition near_edge (e : edge) : Prop := In e es /\ (edist e <= maxSnap)%Q.

Record stop_cands (cs : list cand) : Prop := {
  sc_fresh : forall c, In c cs -> cTime _ _ _ c = 0%Z /\ cPrede _ _ _ c = [];
  sc_null : exists c rest, cs = c :: rest /\ cE _ _ _ c = None /\ cPen _ _ _ c = ofQ 0 /\ cPoint _ _ _ c = p /\
    forall x, In x rest -> cE _ _ _ x <> None;
  sc_sound : forall c e, In c cs -> cE _ _ _ c = Some e ->
    (exists nd, near_station nd e /\ station_cand nd e c) \/ (near_edge e /\ snapped_cand e c);
  sc_station : forall nd e, near_station nd e -> exists c, In c cs /\ station_cand nd e c;
  (** No edge near the stop is closer than all snapped candidates. *)
  sc_snap : forall e, near_edge e -> exists e' c, In c cs /\ near_edge e' /\ snapped_cand e' c /\ (edist e' <= edist e)%Q
}.
End Stop.

(** *** The candidates of all trie nodes *)
Section Trie.
Context {pos attrs : Type}.
Variable add : C -> C -> C.
Variable tnds : list (node pos attrs).
Variable cands : stop pos -> option (list cand).

(** The mean time at a node, rounded down. *)
Definition mean_time (nd : node pos attrs) (t : Z) : Prop :=
  (nTrips _ _ nd = 0%nat -> t = 0%Z) /\
  (nTrips _ _ nd <> 0%nat -> t * Z.of_nat (nTrips _ _ nd) <= nAcc _ _ nd < (t + 1) * Z.of_nat (nTrips _ _ nd))%Z.
Definition same_place (x y : cand) : Prop :=
  cE _ _ _ x = cE _ _ _ y /\ cProgr _ _ _ x = cProgr _ _ _ y /\ cPoint _ _ _ x = cPoint _ _ _ y.
(** The arrival of stop candidate [c] at time [t]. *)
Definition arrival (t : Z) (c x : cand) : Prop :=
  same_place x c /\ cTime _ _ _ x = t /\ cPrede _ _ _ x = [] /\
  exists z : Q, (z == 0)%Q /\ cPen _ _ _ x = add (cPen _ _ _ c) (ofQ z).
(** The departure [x] at the mean time [d] after the arrival [y], the [i]-th candidate,
    at the mean time [t]. *)
Definition departure (t d : Z) (i : nat) (y x : cand) : Prop :=
  same_place x y /\ cTime _ _ _ x = Z.max t d /\ cPrede _ _ _ x = [i] /\
  exists z : Q, (z == (inject_Z (t - d) / 300) * (inject_Z (t - d) / 300))%Q /\ cPen _ _ _ x = ofQ z.

Record trie_cands (ecm : list (list cand)) : Prop := {
  tc_length : length ecm = length tnds;
  tc_root : nth_error ecm 0 = Some [];
  (** First departures and arrivals: the candidates of the stop at the mean time. *)
  tc_arr : forall n nd, n <> 0 -> nth_error tnds n = Some nd -> n = 1 \/ nArr _ _ nd = true ->
    exists s cs xs t, nRepr _ _ nd = Some s /\ cands s = Some cs /\ nth_error ecm n = Some xs /\
      mean_time nd t /\ Forall2 (arrival t) cs xs;
  (** Later departures: the candidates of the arrival, each continuing its own. *)
  tc_dep : forall n nd pn, 1 < n -> nth_error tnds n = Some nd -> nArr _ _ nd = false -> nth_error tnds (nParent _ _ nd) = Some pn ->
    exists ys xs t d, nth_error ecm (nParent _ _ nd) = Some ys /\ nth_error ecm n = Some xs /\
      mean_time pn t /\ mean_time nd d /\ length xs = length ys /\
      forall i x y, nth_error xs i = Some x -> nth_error ys i = Some y -> departure t d i y x
}.

(** *** Hops of a trip *)
Variable near : pos -> pos -> bool.
(** [h] leads from a candidate of stop [a] to a candidate of stop [b] (of stops that are
    the same as these for the trie). *)
Definition joins (a b : stop pos) (h : hop edge P) : Prop :=
  exists ra rb ca cb x y, same_stop near ra a /\ same_stop near rb b /\ cands ra = Some ca /\ cands rb = Some cb /\
    In x ca /\ In y cb /\ starts_at h x /\ ends_at h y.
(** One hop for every two consecutive stops, in the order of the stops. *)
Definition serves (stops : list (stop pos)) (hs : list (hop edge P)) : Prop :=
  length stops = S (length hs) /\
  forall k h, nth_error hs k = Some h -> exists a b,
    nth_error stops k = Some a /\ nth_error stops (S k) = Some b /\ joins a b h.
End Trie.
End Spec.
