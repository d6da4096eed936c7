(** Specification of the ways taken by the trips of a feed (C84), in the words of
    Optimal_spec.v and Default_spec.v. *)
From Coq Require Import String List Arith ZArith NArith QArith Bool.
From Verif Require Import HopCache_model TripTrie_model TripTrie_spec Simi_model Cluster_model Router_model Router_spec Hops_model Hops_spec
  Ecm_model Ecm_spec Shapes_model Shapes_spec Optimal_spec Default_spec Pipeline_model Pipeline_spec.
Import ListNotations.
Open Scope nat_scope.

Section Spec.
Context {pos C Pt : Type}.
Variable W : world pos C Pt.
Variable posAt : list Pt -> Q -> Pt.
Notation trie := (trie pos attrs).
(** The network as it counts at the nodes of a trie: cost of moving on to a following edge. *)
Variable step : trie -> nat -> edge -> edge -> option Z.
(** What a drive of a given cost adds, from the nodes it joins and the scheduled time. *)
Variable w : trie -> nat -> nat -> Z -> Z -> C.

(** The costs the router works with: the length of a drive does not count. *)
Record costs_as_given : Prop := {
  cg_weight : forall tr, weight _ _ _ W tr = (fun p n c _ t => w tr p n c t);
  cg_start : forall tr, startCost _ _ _ W tr = ecost _ _ _ W tr;
  cg_enum : enumerates (enum _ _ _ W)
}.
(** [tr] is a trie made of trips, [ecm] has the positions for its nodes. *)
Definition trie_made (cs : list (call pos attrs)) (tr : trie) : Prop :=
  exists rs, runCalls pos (near _ _ _ W) attrs mergeAttrs (emptySecs _ _ _ W) (emptyTrie pos attrs) cs = (tr, rs).
Definition positions (tr : trie) (cands : stop pos -> option (list (cand C edge Pt))) (ecm : list (list (cand C edge Pt))) : Prop :=
  cands_of W cands /\ trie_cands (ofQ _ _ _ W) (add _ _ _ W) (nds _ _ tr) cands ecm.
(** The routing problems are well-formed, for the n -> n and the 1 -> n search. *)
Definition fast_net_ok : Prop := forall cs tr cands ecm, trie_made cs tr -> positions tr cands ecm ->
  fast_problem_ok (step tr) (ecost _ _ _ W tr) (compF _ _ _ W) (compT _ _ _ W) (searchN _ _ _ W tr) (spath _ _ _ W tr) (limit0 _ _ _ W tr) (nds _ _ tr) ecm.
Definition net_ok : Prop := forall cs tr cands ecm, trie_made cs tr -> positions tr cands ecm ->
  problem_ok (step tr) (ecost _ _ _ W tr) (compF _ _ _ W) (compT _ _ _ W) (search _ _ _ W tr) (spath _ _ _ W tr) (limit0 _ _ _ W tr) (nds _ _ tr) ecm.
(** The hop cache is off, or one network counts everywhere and every limit is at least 2. *)
Definition caching_ok : Prop := noHopCache _ _ _ W = true \/
  (forall tr tr' n m a b, step tr n a b = step tr' m a b) /\ forall tr p n, (2 <= limit0 _ _ _ W tr p n)%Z.

(** The trip [t] ends at node [n] of the trie [tr]. *)
Definition ends_in (t : TripTrie_model.trip pos) (tr : trie) (n : nat) : Prop :=
  exists cs c, trie_made cs tr /\ In c cs /\ cTrip _ _ c = t /\ In (tId _ t) (listAt (ndTrips _ _ tr) n).

(** [hops] are the drives of a way to serve the stops of [t] that can be driven as priced ... *)
Definition driven_hops (cands : stop pos -> option (list (cand C edge Pt))) (t : TripTrie_model.trip pos) (hops : list (hop edge Pt)) : Prop :=
  exists tr n ecm lim stuck is c, ends_in t tr n /\ positions tr cands ecm /\
    limits_from (nds _ _ tr) lim (limit0 _ _ _ W tr) /\ gives_up_last (nds _ _ tr) lim stuck (limit0 _ _ _ W tr) /\
    way (add _ _ _ W) (w tr) (ofZ _ _ _ W) (step tr) (ecost _ _ _ W tr) (nds _ _ tr) ecm lim stuck n is c /\ lt _ _ _ W c (inf _ _ _ W) = true /\
    drawn (step tr) (ecost _ _ _ W tr) (nds _ _ tr) ecm lim n is (rev hops) /\ driven (step tr) (nds _ _ tr) ecm stuck n is (rev hops).
(** ... of a cheapest one. *)
Definition cheapest_hops (cands : stop pos -> option (list (cand C edge Pt))) (t : TripTrie_model.trip pos) (hops : list (hop edge Pt)) : Prop :=
  exists tr n ecm lim stuck, ends_in t tr n /\ positions tr cands ecm /\
    limits_from (nds _ _ tr) lim (limit0 _ _ _ W tr) /\
    gives_up_only_then (lt _ _ _ W) (add _ _ _ W) (inf _ _ _ W) (w tr) (ofZ _ _ _ W) (step tr) (ecost _ _ _ W tr) (nds _ _ tr) ecm lim stuck (limit0 _ _ _ W tr) /\
    cheapest_way (lt _ _ _ W) (add _ _ _ W) (inf _ _ _ W) (w tr) (ofZ _ _ _ W) (step tr) (ecost _ _ _ W tr) (nds _ _ tr) ecm lim stuck n (rev hops).
(** The shape [ps], [ds] of the trip [t] follows such drives. *)
Definition driven_shape (t : TripTrie_model.trip pos) (ps : list (Pt * Q * nat)) (ds : list Q) : Prop :=
  exists cands hops parts, shape_by W posAt cands hops parts t ps ds /\ driven_hops cands t hops.
Definition cheapest_shape (t : TripTrie_model.trip pos) (ps : list (Pt * Q * nat)) (ds : list Q) : Prop :=
  exists cands hops parts, shape_by W posAt cands hops parts t ps ds /\ cheapest_hops cands t hops.
End Spec.
