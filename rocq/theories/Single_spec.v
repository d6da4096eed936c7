(** Specification of the shape of a single trip (C73). *)
From Coq Require Import String List Arith ZArith NArith QArith Bool.
From Verif Require Import HopCache_model TripTrie_model TripTrie_spec Simi_model Cluster_model Cluster_spec Router_model Router_spec
  Ecm_model Ecm_spec Shapes_model Shapes_spec Workers_model Pipeline_model Pipeline_spec.
Import ListNotations.
Open Scope nat_scope.

Section Spec.
Context {pos C Pt : Type}.
Variable W : world pos C Pt.
Variable posAt : list Pt -> Q -> Pt.

(** The times of the trip are between 0 and the largest int. *)
Definition times_ok (t : TripTrie_model.trip pos) : Prop := forall a te dg k,
  In k (call_keys (emptySecs _ _ _ W) (mkCall pos attrs t a te dg)) -> (0 <= kTime k <= 2147483647)%Z.

(** A path for the trip [t]: a non-empty line for every two consecutive stops. *)
Definition path_for (t : TripTrie_model.trip pos) (lines : list (list Pt)) : Prop :=
  exists cands hops,
    cands_of W cands /\
    (* one hop for every two consecutive stops, between candidates of these *)
    serves cands (near _ _ _ W) (map (stStop _) (tSts _ t)) hops /\
    length lines = length hops /\ S (length lines) = length (tSts _ t) /\ Forall (fun l => l <> []) lines /\
    (* the lines follow the hops and join (if no hop goes back on its edge) *)
    (Forall forward hops -> Forall2 (part_ok (geom _ _ _ W) (isRev _ _ _ W) (fromPt _ _ _ W) (toPt _ _ _ W) posAt) hops lines /\ meet lines).
End Spec.
