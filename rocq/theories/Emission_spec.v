(** Specification: what nearness to a stop is worth (C80). *)
From Coq Require Import String List Arith QArith.
From Verif Require Import HopCache_model Router_model Ecm_model.
Import ListNotations.
Open Scope nat_scope.

(** What a distance [d] costs with method [m] and factor [f]. *)
Record distance_cost (m : string) (f d q : Q) : Prop := {
  dc_exp : m = "exp"%string -> (q == f * d)%Q;
  dc_norm : m = "norm"%string -> (q == (f * d) * (f * d) / 2)%Q;
  dc_other : m <> "exp"%string -> m <> "norm"%string -> (q == d)%Q
}.

Section Spec.
Context {C P : Type}.
Variable lt : C -> C -> bool.
Notation cand := (cand C edge P).
Variables maxSnap : Q.
Variable edist : edge -> Q.
Variable sts : list statNd.
Variable es : list edge.

(** A candidate that can only be there because of the street [e]. *)
Definition of_street (e : edge) (c : cand) : Prop :=
  cE _ _ _ c = Some e /\ forall nd, In nd sts -> ~ In e (sdOut nd).
(** A candidate that can only be there because of the station node [nd]. *)
Definition of_station (nd : statNd) (c : cand) : Prop :=
  In nd sts /\ exists e, cE _ _ _ c = Some e /\ In e (sdOut nd) /\
    (forall nd', In nd' sts -> In e (sdOut nd') -> nd' = nd) /\ ~ (In e es /\ (edist e <= maxSnap)%Q).
Definition not_dearer (a b : cand) : Prop := lt (cPen _ _ _ b) (cPen _ _ _ a) = false.

Record nearer_not_dearer (cs : list cand) : Prop := {
  nd_street : forall a b e f, In a cs -> In b cs -> of_street e a -> of_street f b -> (edist e <= edist f)%Q -> not_dearer a b;
  nd_station : forall a b n m, In a cs -> In b cs -> of_station n a -> of_station m b ->
    sdSim n = sdSim m -> sdTrack n = sdTrack m -> (sdDist n <= sdDist m)%Q -> not_dearer a b;
  (** A station whose name matches is not dearer than one that does not and is not nearer. *)
  nd_name : forall a b n m, In a cs -> In b cs -> of_station n a -> of_station m b ->
    sdSim n = true -> sdTrack n = sdTrack m -> (sdDist n <= sdDist m)%Q -> not_dearer a b;
  (** The position of the stop itself is not dearer than any other candidate. *)
  nd_self : forall a b, In a cs -> In b cs -> cE _ _ _ a = None -> not_dearer a b
}.
End Spec.
