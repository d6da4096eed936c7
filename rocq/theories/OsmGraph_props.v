(** C14-C17: the passes over the OSM graph. *)
From Coq Require Import List Arith NArith QArith Bool Permutation Lia.
From Verif Require Import ListAux OsmGraph_model OsmGraph_spec OsmGraph_proofs.
Import ListNotations.
Open Scope nat_scope.

(** C14, C15: collapsing edges replaces chains of edges by edges.  The line of the new edge
    is the lines of the edges of the chain one after the other, from its first node to its
    second; level, lines and one-way flag are those of the chain; every edge is in exactly
    one chain.  [ns]: any order of the nodes, and of the two edges at a node. *)
Theorem C14_collapse : forall (P : Type) (pos : nat -> P) station turn g ns,
  simple g -> (forall e, In e (edges g) -> ends_fit pos e) -> collapsed pos station turn g (collapse P pos station turn g ns).
Proof. intros P pos station turn g ns. apply collapse_ok. Qed.
Print Assumptions C14_collapse.

(** C15: nodes that are left can be reached from each other as before, without violating
    one-way rules; if no edge to be driven along meets one to be driven against its
    direction head to tail. *)
Theorem C15_reachable : forall (P : Type) (pos : nat -> P) station turn ns g, simple g -> codes_ok g -> codes_agree g -> forall u v,
  (station u = true \/ turn u = true \/ exists e, In e (edges (collapse P pos station turn g ns)) /\ touches e u) ->
  (station v = true \/ turn v = true \/ exists e, In e (edges (collapse P pos station turn g ns)) /\ touches e v) ->
  (reach g u v <-> reach (collapse P pos station turn g ns) u v).
Proof. intros P pos station turn ns g. apply reach_collapse. Qed.
Print Assumptions C15_reachable.

(** A graph: 0 - 1 - 2 - 3 with edges in both orientations, one of them with a geometry,
    a one-way street 3 -> 4 -> 5 -> 6 -> 0, station 3. *)
Definition exP (ow l : nat) (gm : option (list nat)) : pl nat := mkPl ow false false l 0%N gm [7].
Definition exG : graph nat :=
  mkG [0; 1; 2; 3; 4; 5; 6]
    [mkE 1 0 (exP 0 2 (Some [1; 10; 0])); mkE 1 2 (exP 0 2 None); mkE 3 2 (exP 0 2 (Some [3; 32; 23; 2]));
     mkE 3 4 (exP 1 1 None); mkE 4 5 (exP 1 1 (Some [4; 45; 5])); mkE 5 6 (exP 1 1 None); mkE 6 0 (exP 1 3 None)].
Definition exSt (n : nat) : bool := n =? 3.
Definition exNs : list (nat * bool) := [(0, false); (1, true); (2, false); (3, false); (4, true); (5, false); (6, true)].
Example exG_collapsed : collapse nat (fun n => n) exSt (fun _ => false) exG exNs =
  mkG [0; 1; 2; 3; 4; 5; 6] [mkE 6 0 (exP 1 3 None); mkE 0 3 (exP 0 2 (Some [0; 10; 1; 1; 2; 2; 23; 32; 3])); mkE 3 6 (exP 1 1 (Some [3; 4; 4; 45; 5; 6]))].
Proof. vm_compute. reflexivity. Qed.
Example exG_simple : simple exG.
Proof. unfold simple. cbn. repeat constructor; cbn; intuition congruence. Qed.
Example exG_fit : forall e, In e (edges exG) -> ends_fit (fun n => n) e.
Proof. cbn. intros e H. repeat (destruct H as [<-|H]; [cbn; try exact Logic.I; first [now exists [10]|now exists [32; 23]|now exists [45]]|]). easy. Qed.
Example exG_codes : codes_ok exG.
Proof. intros e H. cbn in H. repeat (destruct H as [<-|H]; [cbn; lia|]). easy. Qed.
Example exG_agree : codes_agree exG.
Proof.
  assert (K : forall e, In e (edges exG) -> oneWay (ePl e) = 0 \/ oneWay (ePl e) = 1). { intros e H. cbn in H. repeat (destruct H as [<-|H]; [cbn; auto|]). easy. }
  intros n a b (Ia & Ib & _) Oa Ob. destruct (K a Ia), (K b Ib); congruence.
Qed.
Example C14_C15_example : collapsed (fun n => n) exSt (fun _ => false) exG (collapse nat (fun n => n) exSt (fun _ => false) exG exNs) /\ (reach exG 3 0 <-> reach (collapse nat (fun n => n) exSt (fun _ => false) exG exNs) 3 0).
Proof.
  split; [apply C14_collapse; [exact exG_simple|exact exG_fit]|].
  apply C15_reachable; [exact exG_simple|exact exG_codes|exact exG_agree|now left|]. right. right. rewrite exG_collapsed. eexists. split; [left; reflexivity|]. cbn. now right.
Qed.

(** C14 is false for two one-way edges a -> b and b -> a: they are merged to an edge from a to a,
    whose geometry does not begin at a. *)
Theorem C14_loop_refuted : exists (g : graph nat) ns, simple g /\ (forall e, In e (edges g) -> ends_fit (fun n => n) e) /\ codes_ok g /\ codes_agree g /\
  exists e, In e (edges (collapse nat (fun n => n) (fun n => n =? 0) (fun _ => false) g ns)) /\ ~ ends_fit (fun n => n) e.
Proof.
  exists (mkG [0; 1] [mkE 0 1 (exP 1 1 None); mkE 1 0 (exP 1 1 None)]), [(1, false)].
  split; [unfold simple; cbn; repeat constructor; cbn; intuition congruence|]. split; [cbn; intros e H; repeat (destruct H as [<-|H]; [exact Logic.I|]); easy|].
  assert (K : forall e, In e (edges (mkG [0; 1] [mkE 0 1 (exP 1 1 None); mkE 1 0 (exP 1 1 None)])) -> oneWay (ePl e) = 1). { intros e H. cbn in H. repeat (destruct H as [<-|H]; [reflexivity|]). easy. }
  split; [intros e H; rewrite (K e H); lia|]. split; [intros n a b (Ia & Ib & _) _ _; rewrite (K a Ia), (K b Ib); reflexivity|].
  eexists. split; [vm_compute; left; reflexivity|]. cbn. intros (m & E). discriminate.
Qed.
Print Assumptions C14_loop_refuted.

(** C15 is false if a street marked as one-way along its direction meets one that is marked
    as one-way against its direction: the merged edge can be driven. *)
Theorem C15_codes_refuted : exists (g : graph nat) ns, simple g /\ codes_ok g /\ (forall e, In e (edges g) -> ends_fit (fun n => n) e) /\
  reach (collapse nat (fun n => n) (fun n => negb (n =? 1)) (fun _ => false) g ns) 0 2 /\ ~ reach g 0 2.
Proof.
  exists (mkG [0; 1; 2] [mkE 0 1 (exP 1 1 None); mkE 1 2 (exP 2 1 None)]), [(1, false)].
  split; [unfold simple; cbn; repeat constructor; cbn; intuition congruence|].
  split; [intros e H; cbn in H; repeat (destruct H as [<-|H]; [cbn; lia|]); easy|]. split; [cbn; intros e H; repeat (destruct H as [<-|H]; [exact Logic.I|]); easy|]. split.
  - eapply re_step; [apply re_here|]. eexists. split; [vm_compute; left; reflexivity|]. cbn. left. repeat split; lia.
  - intros R. assert (K : forall x, reach (mkG [0; 1; 2] [mkE 0 1 (exP 1 1 None); mkE 1 2 (exP 2 1 None)]) 0 x -> x <> 2); [|now apply (K 2)].
    intros x Rx. induction Rx as [|v w Rv IH (e & I & D)]; [discriminate|]. cbn in I. destruct I as [<-|[<-|[]]]; cbn in D; lia.
Qed.
Print Assumptions C15_codes_refuted.

(** C16: every edge has an opposite edge; the new edges are the mirrored ones, nothing else
    changes, and exactly the restricted edges that get one are given to the restrictor. *)
Theorem C16_two_way : forall (P : Type) (g : graph P) ns, simple g -> (forall e, In e (edges g) -> In (from e) ns) ->
  two_way g (fst (writeODirEdgs P g ns)) (snd (writeODirEdgs P g ns)).
Proof. intros P g ns. apply two_way_ok. Qed.
Print Assumptions C16_two_way.

(** C16: after the passes that write the geometries, simplify them and add opposite edges,
    every edge has a line in its direction from its first node to its second; the other
    attributes stay, the costs are those of the lines before simplifying. *)
Theorem C16_geometries : forall (P : Type) (pos : nat -> P) costOf simplify g ns,
  (forall a m b, exists m', simplify (a :: m ++ [b]) = a :: m' ++ [b]) -> simple g -> (forall e, In e (edges g) -> In (from e) ns) ->
  (forall e, In e (edges g) -> rev_ (ePl e) = false) ->
  exists g1, simplifyGeoms P simplify (writeGeoms P pos costOf g) = Some g1 /\
    map (fun e => (from e, to e, (oneWay (ePl e), restr (ePl e), lvl (ePl e), lines (ePl e)))) (edges g1) = map (fun e => (from e, to e, (oneWay (ePl e), restr (ePl e), lvl (ePl e), lines (ePl e)))) (edges g) /\
    (forall e, In e (edges g) -> exists e1, In e1 (edges g1) /\ from e1 = from e /\ to e1 = to e /\ cost (ePl e1) = costOf (shape pos e) (lvl (ePl e))) /\
    two_way g1 (fst (writeODirEdgs P g1 ns)) (snd (writeODirEdgs P g1 ns)) /\
    forall e1, In e1 (edges (fst (writeODirEdgs P g1 ns))) ->
      (forall e, In e (edges g) -> (from e = from e1 /\ to e = to e1) \/ (from e = to e1 /\ to e = from e1) -> ends_fit pos e) -> fits pos e1.
Proof. intros P pos costOf simplify g ns. apply geoms_ok. Qed.
Print Assumptions C16_geometries.

(** C16: stations with exactly one outgoing edge get a self-edge with the greatest cost,
    and nothing else changes; if such an edge is not a loop already. *)
Theorem C16_self_edges : forall (P : Type) (pos : nat -> P) station g ns, NoDup ns -> simple g ->
  (forall e, In e (edges g) -> from e = to e -> station (from e) = true -> exists x, In x (edges g) /\ from x = from e /\ x <> e) ->
  exists ns', self_edges pos station g (writeSelfEdgs P pos station g ns) ns ns'.
Proof. intros P pos station g ns. apply (self_edges_ok pos station (fun _ => true)). Qed.
Print Assumptions C16_self_edges.

(** The loop at a station is changed otherwise: its cost becomes the greatest. *)
Theorem C16_self_edges_refuted : exists (g : graph nat) ns e, NoDup ns /\ simple g /\ In e (edges g) /\ ~ In e (edges (writeSelfEdgs nat (fun n => n) (fun _ => true) g ns)).
Proof.
  exists (mkG [0] [mkE 0 0 (exP 0 1 (Some [0; 1; 2; 0]))]), [0], (mkE 0 0 (exP 0 1 (Some [0; 1; 2; 0]))).
  split; [repeat constructor; easy|]. split; [unfold simple; cbn; repeat constructor; easy|]. split; [now left|]. vm_compute. intuition discriminate.
Qed.
Print Assumptions C16_self_edges_refuted.

(** A graph where one edge has an opposite edge, one is a restricted one-way edge. *)
Definition exG2 : graph nat :=
  mkG [0; 1; 2; 3] [mkE 0 1 (exP 0 2 (Some [0; 5; 1])); mkE 1 0 (exP 0 2 None); mkE 2 1 (mkPl 1 true false 2 0%N None []); mkE 2 3 (exP 2 0 (Some [2; 8; 9; 3]))].
Example exG2_simple : simple exG2.
Proof. unfold simple. cbn. repeat constructor; cbn; intuition congruence. Qed.
Definition exSimp (l : list nat) : list nat := match l with a :: b :: r => [a; last (b :: r) 0] | _ => l end.
Example exSimp_ends : forall a m b, exists m', exSimp (a :: m ++ [b]) = a :: m' ++ [b].
Proof. intros a m b. exists []. unfold exSimp. destruct m as [|c m]; [reflexivity|]. cbn [app]. change (c :: m ++ [b]) with ((c :: m) ++ [b]). now rewrite last_last. Qed.
Example exG2_rev : (forall e, In e (edges exG2) -> rev_ (ePl e) = false) /\ (forall e, In e (edges exG2) -> In (from e) [3; 2; 1; 0]) /\ (forall e, In e (edges exG2) -> ends_fit (fun n => n) e).
Proof.
  split; [|split]; cbn; intros e H; (repeat (destruct H as [<-|H]; [cbn; auto|]); try easy).
  - now exists [5].
  - now exists [8; 9].
Qed.
Example exG2_after : writeODirEdgs nat exG2 [3; 2; 1; 0] =
  (mkG [0; 1; 2; 3] (edges exG2 ++ [mkE 1 2 (mkPl 2 true true 2 0%N None []); mkE 3 2 (mkPl 1 false true 0 0%N (Some [2; 8; 9; 3]) [7])]), [mkE 2 1 (mkPl 1 true false 2 0%N None [])]).
Proof. vm_compute. reflexivity. Qed.
Example C16_example : two_way exG2 (fst (writeODirEdgs nat exG2 [3; 2; 1; 0])) (snd (writeODirEdgs nat exG2 [3; 2; 1; 0])) /\
  (exists g1, simplifyGeoms nat exSimp (writeGeoms nat (fun n => n) (fun l v => N.of_nat (length l + v)) exG2) = Some g1 /\
    forall e1, In e1 (edges (fst (writeODirEdgs nat g1 [3; 2; 1; 0]))) -> fits (fun n => n) e1) /\
  exists ns', self_edges (fun n => n) (fun n => n <? 2) exG2 (writeSelfEdgs nat (fun n => n) (fun n => n <? 2) exG2 [0; 1; 2; 3]) [0; 1; 2; 3] ns'.
Proof.
  destruct exG2_rev as (R & C & F). split; [apply C16_two_way; [exact exG2_simple|exact C]|]. split.
  - destruct (C16_geometries nat (fun n => n) (fun l v => N.of_nat (length l + v)) exSimp exG2 [3; 2; 1; 0] exSimp_ends exG2_simple C R) as (g1 & E & _ & _ & _ & Fit).
    exists g1. split; [exact E|]. intros e1 I1. apply Fit; auto.
  - apply C16_self_edges; [repeat constructor; cbn; intuition congruence|exact exG2_simple|]. intros e I L. cbn in I. repeat (destruct I as [<-|I]; [discriminate L|]). easy.
Qed.

(** C17: the search ends, and gives the connected components, their greatest speeds and the
    number of components with more than one node. *)
Theorem C17_components : forall (P : Type) speed fl, rounding fl -> forall g : graph P, graph_ok g ->
  exists c ms num, writeComps P speed fl g = Some (c, ms, num) /\ components speed fl g (compOf c) ms num.
Proof. intros P speed fl Rd g. apply comps_ok. exact Rd. Qed.
Print Assumptions C17_components.

(** Two components with edges, and an isolated node; the speed of level n is n. *)
Definition exG3 : graph nat :=
  mkG [4; 0; 5; 1; 2; 3] [mkE 0 1 (exP 0 2 None); mkE 2 1 (exP 0 5 None); mkE 2 0 (exP 1 2 None); mkE 3 4 (exP 0 1 None); mkE 3 3 (exP 0 0 None)].
Example exG3_ok : graph_ok exG3.
Proof. constructor; [repeat constructor; cbn; intuition congruence|]. intros e H. cbn in H. repeat (destruct H as [<-|H]; [cbn; intuition|]). easy. Qed.
Example ex_round : rounding (fun x => x).
Proof. constructor; intros; auto; reflexivity. Qed.
Definition exSpeed (l : nat) : Q := inject_Z (Z.of_nat l).
Example exG3_comps : match writeComps nat exSpeed (fun x => x) exG3 with Some (c, ms, num) => map (compOf c) [0; 1; 2; 3; 4; 5] = [2; 2; 2; 1; 1; 3] /\ ms = [1; 5; 0; 0]%Q /\ num = 2 | None => False end.
Proof. vm_compute. repeat split. Qed.
Example C17_example : exists c ms num, writeComps nat exSpeed (fun x => x) exG3 = Some (c, ms, num) /\ components exSpeed (fun x => x) exG3 (compOf c) ms num.
Proof. apply C17_components; [exact ex_round|exact exG3_ok]. Qed.
