(** Specification for the route found with the default hop engine (C83), in the words of
    Optimal_spec.v. *)
From Coq Require Import List Arith ZArith QArith Bool.
From Verif Require Import HopCache_model TripTrie_model Router_model Router_spec Hops_model Hops_spec Optimal_spec.
Import ListNotations.
Open Scope nat_scope.

(** [problem_ok] with the n -> n search instead of the 1 -> n search. *)
Record fast_problem_ok {pos attrs C P : Type} (step : nat -> edge -> edge -> option Z) (ecost : nat -> edge -> Z) (compF compT : edge -> nat)
    (searchN : nat -> list edge -> list edge -> (edge -> Z) -> Z -> Z -> list (edge * (edge * Z))) (spath : nat -> edge -> edge -> Z -> Z * list edge)
    (limit0 : nat -> nat -> Z) (tnds : list (node pos attrs)) (ecm : list (list (cand C edge P))) : Prop := {
  fp_graph : forall n, graph_ok (step n) (ecost n) compF compT;
  fp_search : forall n, searchN_ok (step n) (searchN n);
  fp_path : forall n, path_search_ok (step n) (spath n);
  fp_progr : forall n i x e, cand_at ecm n i x -> cE _ _ _ x = Some e -> (0 <= cProgr _ _ _ x <= 1)%Q;
  fp_limit : forall p n, (0 <= limit0 p n <= 4294967295)%Z;
  fp_room : forall n p f x e, parent tnds n p -> ~ stays tnds p n -> cand_at ecm p f x -> cE _ _ _ x = Some e ->
    (8 * limit0 p n + ecost n e < 4294967295)%Z;
  fp_fits : forall n p f i x y ef et d, parent tnds n p -> ~ stays tnds p n -> cand_at ecm p f x -> cand_at ecm n i y ->
    cE _ _ _ x = Some ef -> cE _ _ _ y = Some et -> cheapest (step n) ef et d -> (d < 4294967295)%Z -> (d + ecost n et <= 4294967295)%Z
}.
(** The router gives up driving only after the last limit. *)
Definition gives_up_last {pos attrs : Type} (tnds : list (node pos attrs)) (lim : nat -> Z) (stuck : nat -> Prop) (limit0 : nat -> nat -> Z) : Prop :=
  forall n p, parent tnds n p -> ~ stays tnds p n -> stuck n -> lim n = Z.min (8 * limit0 p n) 4294967295.
(** Every step of a way to [n] at which driving was not given up is driven: the hops of
    the trip, last first, and whether the network was used for each. *)
Inductive driven {pos attrs C P : Type} (step : nat -> edge -> edge -> option Z) (tnds : list (node pos attrs)) (ecm : list (list (cand C edge P))) (stuck : nat -> Prop)
  : nat -> list nat -> list (hop edge P) -> Prop :=
| dv_first : forall n i, first_node tnds n -> driven step tnds ecm stuck n [i] []
| dv_stay : forall n p i f is hs, parent tnds n p -> stays tnds p n -> driven step tnds ecm stuck p (f :: is) hs -> driven step tnds ecm stuck n (i :: f :: is) hs
| dv_drive : forall n p i f is hs x y h, parent tnds n p -> ~ stays tnds p n -> driven step tnds ecm stuck p (f :: is) hs ->
    cand_at ecm p f x -> cand_at ecm n i y -> starts_at h x -> ends_at h y ->
    (~ stuck n -> exists ef et d, cE _ _ _ x = Some ef /\ cE _ _ _ y = Some et /\ cheapest (step n) ef et d /\ walk (step n) ef et d (rev (hEdges _ _ h))) ->
    driven step tnds ecm stuck n (i :: f :: is) (h :: hs).
