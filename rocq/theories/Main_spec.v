(** Specification for a run of the program (C64). *)
From Coq Require Import List Arith.
From Verif Require Import Main_model.
Import ListNotations.

(** Of the conditions [l], the first that holds has [c]; if none holds, [c] is [d]. *)
Definition first_of (l : list (Prop * nat)) (d c : nat) : Prop :=
  (exists i P, nth_error l i = Some (P, c) /\ P /\ forall j P' c', j < i -> nth_error l j = Some (P', c') -> ~ P') \/
  (c = d /\ forall j P' c', nth_error l j = Some (P', c') -> ~ P').

Section Spec.
Variable W : world.
Variable o : opts.
Variable cfgs : list mcfg.          (* the configurations read *)

(** The configuration is for type [m], and the type is selected. *)
Definition for_type (c : mcfg) (m : nat) : Prop := In m (cMots c) /\ In m (oMots o).
(** The [k]-th configuration is used; [single] is the trip asked for with -T. *)
Definition used (single : option trip) (k : nat) (c : mcfg) : Prop :=
  nth_error cfgs k = Some c /\ match single with None => exists m, for_type c m | Some t => for_type c (tType t) end.
(** OSM data is read for it: there is a stop. *)
Definition needs_osm (single : option trip) (ts : list trip) (c : mcfg) : Prop :=
  exists t, In t ts /\ for_type c (tType t) /\ 1 <= tStops t /\ match single with None => True | Some s => tId t = tId s end.
(** It cannot be used because of the OSM data, or because of the methods it names. *)
Definition bad_osm (single : option trip) (ts : list trip) (k : nat) (c : mcfg) : Prop := needs_osm single ts c /\ wOsm W k = false.
Definition bad_method (c : mcfg) : Prop := cSimi c = false \/ cTrans c = false.
(** The run gets to the [k]-th configuration: all used ones before are fine, and with -T there is none. *)
Definition reaches (single : option trip) (ts : list trip) (k : nat) : Prop :=
  forall j c, j < k -> used single j c -> single = None /\ ~ bad_osm single ts j c /\ ~ bad_method c.

(** What becomes of a trip: it is matched with the configurations for its type if it has two
    stops, and no shape or shapes are dropped; the last of them counts in this case, the first
    one otherwise. *)
Definition eligible (t : trip) : Prop := 2 <= tStops t /\ (oDrop o = true \/ tShape t = NoShape).
Definition matched_by (t : trip) (k : nat) : Prop :=
  exists c, nth_error cfgs k = Some c /\ for_type c (tType t) /\
    forall j c', nth_error cfgs j = Some c' -> for_type c' (tType t) -> if oDrop o then j <= k else k <= j.
Definition becomes (t t' : trip) : Prop :=
  tId t' = tId t /\ tType t' = tType t /\ tStops t' = tStops t /\
  ((eligible t /\ exists k, matched_by t k /\ tShape t' = Computed k) \/
   ((~ eligible t \/ forall k c, nth_error cfgs k = Some c -> ~ for_type c (tType t)) /\ tShape t' = tShape t)).
End Spec.

(** [single] is the trip asked for in the first feed [ts]: the first with that id. *)
Definition asked (o : opts) (ts : list trip) (single : option trip) : Prop :=
  match oTrip o with
  | None => single = None
  | Some i => exists t l r, single = Some t /\ tId t = i /\ ts = l ++ t :: r /\ Forall (fun x => tId x <> i) l
  end.
(** The first feed, and a run that is none of -X, -a, -f. *)
Definition first_feed (W : world) (o : opts) (ts : list trip) : Prop := exists p r, oFeeds o = p :: r /\ wFeed W p = Some ts.
Definition plain (o : opts) : Prop := oExtract o = false /\ oQuery o = false /\ oRules o = false.

(** The exit codes. *)
Definition codes (W : world) (o : opts) : list (Prop * nat) :=
  [ (wCfgs W = None, 6);
    (oOsm o = false /\ oQuery o = false /\ oRules o = false, 5);
    (wCfgs W = Some [], 9);
    ((length (oFeeds o) = 1 \/ oExtract o = true \/ oQuery o = true) /\ exists p, In p (oFeeds o) /\ wFeed W p = None, 4);
    (2 <= length (oFeeds o) /\ oExtract o = false /\ oQuery o = false, 2);
    (oTrip o <> None /\ oFeeds o = [], 1);
    ((exists i ts, oTrip o = Some i /\ first_feed W o ts /\ Forall (fun t => tId t <> i) ts), 3);
    (oExtract o = true /\ wFilter W = false, 7);
    (~ plain o, 0);
    (oFeeds o = [], 1);
    ((exists cfgs ts single k c, wCfgs W = Some cfgs /\ first_feed W o ts /\ asked o ts single /\ used o cfgs single k c /\ reaches W o cfgs single ts k /\ bad_osm W o single ts k c), 7);
    ((exists cfgs ts single k c, wCfgs W = Some cfgs /\ first_feed W o ts /\ asked o ts single /\ used o cfgs single k c /\ reaches W o cfgs single ts k /\ bad_method c), 1);
    ((exists cfgs ts t k c, wCfgs W = Some cfgs /\ first_feed W o ts /\ asked o ts (Some t) /\ used o cfgs (Some t) k c), 0);
    ((exists p, oFeeds o = [p] /\ wWrite W (if oInPlace o then p else oOut o) = false), 8) ].
