(** Property theorems: C12, C13. *)
From Coq Require Import List Arith Bool Permutation.
From Verif Require Import Restrictor_model Restrictor_spec Restrictor_proofs.
Import ListNotations.

(** For every interleaving of registrations and announcements: the calls are safe and a turn
    is permitted iff the rules known from the history permit it. *)
Theorem C12_table_means_history : forall h, exists r, runR emptyRestr h = Some r /\
  forall from to via, may r from to via = true <-> turn_allowed h from to via.
Proof. exact may_iff. Qed.
Print Assumptions C12_table_means_history.

Example table_case : exists r,
  runR emptyRestr [Add 10 2 5 true; Relax 2 5 20; Add 11 3 5 false; Relax 3 5 30; Add 12 9 5 true] = Some r /\
  may r 10 20 5 = true /\ may r 10 30 5 = false /\ may r 11 30 5 = false /\ may r 11 20 5 = true /\ may r 12 30 5 = true.
Proof. eexists. split; [reflexivity|]. vm_compute. auto 6. Qed.

(** With one edge per way and node, announcements may come at any time. *)
Theorem C12_order_irrelevant : forall h h' r r', Permutation h h' -> filter is_add h = filter is_add h' ->
  one_edge_per_way h -> runR emptyRestr h = Some r -> runR emptyRestr h' = Some r' ->
  forall from to via, may r from to via = may r' from to via.
Proof. exact order_irrelevant. Qed.
Print Assumptions C12_order_irrelevant.

Example order_case : exists h h', Permutation h h' /\ filter is_add h = filter is_add h' /\
  one_edge_per_way h /\ h <> h' /\ exists a, In a h /\ is_add a = true.
Proof.
  exists [Add 10 2 5 true; Relax 2 5 20], [Relax 2 5 20; Add 10 2 5 true].
  split; [apply perm_swap|]. split; [reflexivity|]. split.
  - intros w n e e' [A|[A|[]]] [B|[B|[]]]; try discriminate. congruence.
  - split; [discriminate|]. exists (Add 10 2 5 true). cbn; auto.
Qed.

(** Reading the ways, in whatever order: at a node where every way has one edge, a turn is
    permitted iff the restrictions between the ways permit it. *)
Theorem C12_reading_order_irrelevant : forall pos neg segs, exists r,
  runR emptyRestr (readAll pos neg segs) = Some r /\
  forall v, NoDup (map fst (meets segs v)) -> NoDup (map snd (meets segs v)) -> no_self (pos v ++ neg v) ->
  forall wf ef wt et, In (wf, ef) (meets segs v) -> In (wt, et) (meets segs v) ->
    (may r ef et v = true <-> way_turn_allowed (pos v) (neg v) (map fst (meets segs v)) wf wt).
Proof. exact read_all. Qed.
Print Assumptions C12_reading_order_irrelevant.

(** Three ways meeting at node 5: way 1 must continue on way 3, way 2 must not enter 1. *)
Definition exSegs : list seg := [mkSeg 1 10 4 5; mkSeg 2 20 5 6; mkSeg 3 30 7 5].
Definition exPos (v : nat) : list (nat * nat) := if v =? 5 then [(1, 9); (1, 3)] else [].
Definition exNeg (v : nat) : list (nat * nat) := if v =? 5 then [(2, 1)] else [].
Example reading_case : NoDup (map fst (meets exSegs 5)) /\ NoDup (map snd (meets exSegs 5)) /\
  no_self (exPos 5 ++ exNeg 5) /\ length (meets exSegs 5) = 3 /\
  exists r, runR emptyRestr (readAll exPos exNeg exSegs) = Some r /\
    may r 10 20 5 = false /\ may r 10 30 5 = true /\ may r 20 10 5 = false /\ may r 30 10 5 = true.
Proof.
  split; [repeat constructor; cbn; intuition discriminate|].
  split; [repeat constructor; cbn; intuition discriminate|].
  split; [intros a b I; cbn in I; intuition congruence|].
  split; [reflexivity|]. eexists. split; [reflexivity|]. vm_compute. auto.
Qed.

(** A way with two edges at a node makes the outcome depend on the reading order. *)
Theorem C12_two_edges_refuted : exists pos neg segs segs' r r',
  Permutation segs segs' /\ NoDup (map sEdge segs) /\ no_self (pos 5 ++ neg 5) /\
  runR emptyRestr (readAll pos neg segs) = Some r /\ runR emptyRestr (readAll pos neg segs') = Some r' /\
  may r 10 20 5 <> may r' 10 20 5.
Proof.
  exists (fun _ => []), (fun v => if v =? 5 then [(1, 2)] else []),
    [mkSeg 1 10 4 5; mkSeg 2 20 6 5; mkSeg 2 21 5 7], [mkSeg 2 20 6 5; mkSeg 1 10 4 5; mkSeg 2 21 5 7].
  eexists. eexists. split; [apply perm_swap|].
  split; [repeat constructor; cbn; intuition discriminate|].
  split; [intros a b I; cbn in I; intuition congruence|].
  split; [reflexivity|]. split; [reflexivity|]. vm_compute. discriminate.
Qed.
Print Assumptions C12_two_edges_refuted.

(** A prohibited turn from a way back onto itself stays permitted. *)
Theorem C12_same_way_refuted : exists pos neg segs r,
  NoDup (map fst (meets segs 5)) /\ NoDup (map snd (meets segs 5)) /\ In (1, 1) (neg 5) /\ pos 5 = [] /\
  In (1, 10) (meets segs 5) /\
  runR emptyRestr (readAll pos neg segs) = Some r /\ may r 10 10 5 = true.
Proof.
  exists (fun _ => []), (fun v => if v =? 5 then [(1, 1)] else []), [mkSeg 1 10 4 5; mkSeg 2 20 6 5].
  eexists. split; [repeat constructor; cbn; intuition discriminate|].
  split; [repeat constructor; cbn; intuition discriminate|]. cbn. repeat split; auto.
Qed.
Print Assumptions C12_same_way_refuted.

(** Splitting an edge: at each end the piece touching it takes over every turn of the old
    edge, all other turns keep their permission. *)
Theorem C13_split_keeps_turns : forall eFrom eTo r old newA newB at_from at_to,
  eFrom old <> eTo old ->
  (((eFrom old = eFrom newA \/ eFrom old = eTo newA) /\ at_from = newA /\ at_to = newB) \/
   (eFrom old <> eFrom newA /\ eFrom old <> eTo newA /\ at_from = newB /\ at_to = newA)) ->
  not_named r at_from (eFrom old) -> not_named r at_to (eTo old) ->
  (forall f t f' t', f <> at_from -> t <> at_from -> exchanged old at_from f f' -> exchanged old at_from t t' ->
     may (replaceEdge eFrom eTo r old newA newB) f' t' (eFrom old) = may r f t (eFrom old)) /\
  (forall f t f' t', f <> at_to -> t <> at_to -> exchanged old at_to f f' -> exchanged old at_to t t' ->
     may (replaceEdge eFrom eTo r old newA newB) f' t' (eTo old) = may r f t (eTo old)) /\
  (forall f t via, via <> eFrom old -> via <> eTo old ->
     may (replaceEdge eFrom eTo r old newA newB) f t via = may r f t via).
Proof. exact split_keeps. Qed.
Print Assumptions C13_split_keeps_turns.

(** Edge 10 from node 4 to 5 is split at node 8 into 100 and 101. *)
Definition exFrom (e : nat) : nat := if e =? 10 then 4 else if e =? 100 then 4 else if e =? 101 then 8 else if e =? 1010 then 5 else 5.
Definition exTo (e : nat) : nat := if e =? 10 then 5 else if e =? 100 then 8 else if e =? 101 then 5 else if e =? 1010 then 4 else 6.
Example split_case : exists r, runR emptyRestr (readAll exPos exNeg exSegs) = Some r /\
  exFrom 10 <> exTo 10 /\ exFrom 10 = exFrom 100 /\ not_named r 100 4 /\ not_named r 101 5 /\
  may r 10 20 5 = false /\ may (replaceEdge exFrom exTo r 10 100 101) 101 20 5 = false.
Proof.
  eexists. split; [reflexivity|].
  split; [cbn; discriminate|]. split; [reflexivity|].
  split; [apply unmentioned_iff; apply (table_names exPos exNeg exSegs); [reflexivity|cbn; intuition discriminate]|].
  split; [apply unmentioned_iff; apply (table_names exPos exNeg exSegs); [reflexivity|cbn; intuition discriminate]|].
  vm_compute. auto.
Qed.

(** Adding opposite edges: a turn that arrives and leaves over old or new edges is permitted
    iff it was for the old edges. *)
Theorem C13_opposite_keeps_turns : forall eFrom eTo r ps via,
  opposite_pairs eFrom eTo ps -> (forall n, In n (map snd ps) -> not_named r n via) ->
  forall f t f0 t0, eTo f = via -> eFrom t = via -> stands_for ps f f0 -> stands_for ps t t0 ->
    may (duplicateAll eFrom eTo r ps) f t via = may r f0 t0 via.
Proof. exact opposite_keeps. Qed.
Print Assumptions C13_opposite_keeps_turns.

(** From the ways to the directed graph. *)
Theorem C13_restrictions_in_directed_graph : forall eFrom eTo pos neg segs ps, exists r,
  runR emptyRestr (readAll pos neg segs) = Some r /\
  (opposite_pairs eFrom eTo ps -> (forall n, In n (map snd ps) -> ~ In n (map sEdge segs)) ->
   forall v, NoDup (map fst (meets segs v)) -> NoDup (map snd (meets segs v)) -> no_self (pos v ++ neg v) ->
   forall wf ef wt et f t, In (wf, ef) (meets segs v) -> In (wt, et) (meets segs v) ->
     eTo f = v -> eFrom t = v -> stands_for ps f ef -> stands_for ps t et ->
     (may (duplicateAll eFrom eTo r ps) f t v = true <->
      way_turn_allowed (pos v) (neg v) (map fst (meets segs v)) wf wt)).
Proof. exact read_and_duplicate. Qed.
Print Assumptions C13_restrictions_in_directed_graph.

(** The opposite edge 1010 of edge 10 inherits the prohibition to enter way 1. *)
Definition dFrom (e : nat) : nat := if e =? 10 then 4 else if e =? 1010 then 5 else if e =? 20 then 5 else if e =? 2020 then 6 else if e =? 30 then 7 else 5.
Definition dTo (e : nat) : nat := if e =? 10 then 5 else if e =? 1010 then 4 else if e =? 20 then 6 else if e =? 2020 then 5 else if e =? 30 then 5 else 7.
Definition exPairs : list (nat * nat) := [(10, 1010); (20, 2020); (30, 3030)].
Example opposite_case : opposite_pairs dFrom dTo exPairs /\
  stands_for exPairs 2020 20 /\ stands_for exPairs 1010 10 /\ dTo 2020 = 5 /\ dFrom 1010 = 5 /\
  (forall n, In n (map snd exPairs) -> ~ In n (map sEdge exSegs)) /\
  exists r, runR emptyRestr (readAll exPos exNeg exSegs) = Some r /\
    may (duplicateAll dFrom dTo r exPairs) 2020 1010 5 = false /\
    may (duplicateAll dFrom dTo r exPairs) 2020 3030 5 = true.
Proof.
  split; [|split; [left; cbn; auto|split; [left; cbn; auto|split; [reflexivity|split; [reflexivity|split]]]]].
  - split; [repeat constructor; cbn; intuition discriminate|].
    intros o n I. cbn in I. destruct I as [E|[E|[E|[]]]]; injection E as <- <-; vm_compute; repeat split; discriminate.
  - intros n I. cbn in I. cbn. intuition (subst; discriminate).
  - eexists. split; [reflexivity|]. vm_compute. auto.
Qed.
