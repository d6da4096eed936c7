(** C19: closing gaps in the graph. *)
From Coq Require Import List Arith NArith Bool Lia.
From Verif Require Import ListAux OsmGraph_model OsmGraph_spec OsmGraph_proofs Gaps_model Gaps_spec Gaps_proofs.
Import ListNotations.
Open Scope nat_scope.

(** C19: without one-way edges, whatever could be reached can be reached, from and to the nodes
    that have taken the place of deleted ones, and nothing but gaps of at most one metre is
    bridged.  [near], [ns]: any orders. *)
Theorem C19_both_ways : forall (P : Type) station close near ns (g : graph P), two_ways g -> (forall n e, In e (edges g) -> touches e n -> In n (nodes g)) ->
  exists phi, gaps_closed station close g (fixGaps P station close near g ns) phi.
Proof. intros P station close near ns g. apply gaps_ok. Qed.
Print Assumptions C19_both_ways.

(** C19: an edge (one-way or not) that ends at a dangling node is moved to the other node and
    keeps its direction, *)
Theorem C19_end : forall (P : Type) station close (g : graph P) n nb e, simple g -> dangling g nb e -> to e = nb -> n <> nb -> close n nb = true ->
  station n = false -> station nb = false -> (forall x, In x (edges g) -> ~ (from x = from e /\ to x = n)) ->
  forall x, In x (edges (joinNode P station close n g nb)) <-> (In x (edges g) /\ x <> e) \/ x = mkE (from e) n (ePl e).
Proof. intros P station close g n nb e. apply (join_end station close (fun _ => [])). Qed.
Print Assumptions C19_end.

(** and a station is connected by a new edge. *)
Theorem C19_station : forall (P : Type) station close (g : graph P) n nb e, simple g -> dangling g nb e -> n <> nb -> close n nb = true ->
  (station n = true \/ station nb = true) -> (forall x, In x (edges g) -> ~ (from x = n /\ to x = nb)) ->
  edges (joinNode P station close n g nb) = edges g ++ [mkE n nb (ePl e)].
Proof. intros P station close g n nb e. apply join_station. Qed.
Print Assumptions C19_station.

(** Two streets 0 - 1 and 2 - 3 with a gap between 1 and 2. *)
Definition exW (ow : nat) : pl nat := mkPl ow false false 1 0%N None [].
Definition exGap (ow : nat) : graph nat := mkG [0; 1; 2; 3] [mkE 0 1 (exW ow); mkE 2 3 (exW ow)].
Definition exClose (a b : nat) : bool := ((a =? 1) && (b =? 2)) || ((a =? 2) && (b =? 1)).
Definition exNear (n : nat) : list nat := if n =? 1 then [1; 2] else if n =? 2 then [1; 2] else [n].
Example C19_example : exists phi, gaps_closed (fun _ => false) exClose (exGap 0) (fixGaps nat (fun _ => false) exClose exNear (exGap 0) [0; 1; 2; 3]) phi.
Proof.
  apply C19_both_ways.
  - intros e H. cbn in H. repeat (destruct H as [<-|H]; [reflexivity|]). easy.
  - intros n e H T. cbn in H. destruct H as [<-|[<-|[]]]; destruct T as [<-|<-]; cbn; auto.
Qed.
Example C19_example_graph : fixGaps nat (fun _ => false) exClose exNear (exGap 0) [0; 1; 2; 3] = mkG [0; 1; 3] [mkE 0 1 (exW 0); mkE 3 1 (exW 0)].
Proof. vm_compute. reflexivity. Qed.
Example exGap_dangling : simple (exGap 1) /\ dangling (exGap 1) 1 (mkE 0 1 (exW 1)).
Proof.
  split; [unfold simple; cbn; repeat constructor; cbn; intuition congruence|]. split; [now left|]. split; [now right|]. split; [discriminate|].
  intros x H T. cbn in H. destruct H as [<-|[<-|[]]]; [reflexivity|]. destruct T; discriminate.
Qed.
Example C19_end_example : forall x, In x (edges (joinNode nat (fun _ => false) exClose 2 (exGap 1) 1)) <-> (In x (edges (exGap 1)) /\ x <> mkE 0 1 (exW 1)) \/ x = mkE 0 2 (exW 1).
Proof.
  apply (C19_end nat (fun _ => false) exClose (exGap 1) 2 1 (mkE 0 1 (exW 1))); try apply exGap_dangling; try reflexivity; try discriminate.
  intros x H. cbn in H. destruct H as [<-|[<-|[]]]; cbn; lia.
Qed.
Example C19_station_example : edges (joinNode nat (fun n => n =? 2) exClose 2 (exGap 1) 1) = edges (exGap 1) ++ [mkE 2 1 (exW 1)].
Proof.
  apply (C19_station nat (fun n => n =? 2) exClose (exGap 1) 2 1 (mkE 0 1 (exW 1))); try apply exGap_dangling; try reflexivity; try discriminate; [now left|].
  intros x H. cbn in H. destruct H as [<-|[<-|[]]]; cbn; lia.
Qed.

(** C19 is false if the one-way edge begins at the node that is deleted: the edge from 2 to 3
    becomes one from 3 to 1, so that 3 cannot be reached any more.  In the other order of the
    nodes all is well. *)
Theorem C19_flip_refuted : exists (g : graph nat) near, simple g /\
  reach g 2 3 /\ ~ In 2 (nodes (fixGaps nat (fun _ => false) exClose near g [0; 1; 2; 3])) /\
  (forall u, u <> 3 -> ~ reach (fixGaps nat (fun _ => false) exClose near g [0; 1; 2; 3]) u 3) /\
  drives (fixGaps nat (fun _ => false) exClose near g [0; 1; 2; 3]) 3 1 /\ reach (fixGaps nat (fun _ => false) exClose near g [3; 2; 1; 0]) 0 3.
Proof.
  exists (exGap 1), exNear. split; [apply exGap_dangling|]. split.
  { eapply re_step; [apply re_here|]. exists (mkE 2 3 (exW 1)). cbn. split; [auto|]. left. repeat split; lia. }
  assert (E : fixGaps nat (fun _ => false) exClose exNear (exGap 1) [0; 1; 2; 3] = mkG [0; 1; 3] [mkE 0 1 (exW 1); mkE 3 1 (exW 1)]) by (vm_compute; reflexivity).
  rewrite E. split; [cbn; lia|]. split; [|split].
  - intros u N0 R. assert (K : forall x, reach (mkG [0; 1; 3] [mkE 0 1 (exW 1); mkE 3 1 (exW 1)]) u x -> x = u \/ x = 1).
    { intros x Rx. induction Rx as [|v w Rv IH (e & I & D)]; [auto|]. cbn in I. destruct I as [<-|[<-|[]]]; cbn in D; lia. }
    destruct (K 3 R); congruence.
  - exists (mkE 3 1 (exW 1)). cbn. split; [auto|]. left. repeat split; lia.
  - assert (E' : fixGaps nat (fun _ => false) exClose exNear (exGap 1) [3; 2; 1; 0] = mkG [0; 2; 3] [mkE 2 3 (exW 1); mkE 0 2 (exW 1)]) by (vm_compute; reflexivity). rewrite E'.
    eapply re_step; [eapply re_step; [apply re_here|]|].
    + exists (mkE 0 2 (exW 1)). cbn. split; [auto|]. left. repeat split; lia.
    + exists (mkE 2 3 (exW 1)). cbn. split; [auto|]. left. repeat split; lia.
Qed.
Print Assumptions C19_flip_refuted.

(** C19 is false if one of the nodes is a station and the one-way edge of the other ends there:
    the new edge leads the wrong way. *)
Theorem C19_station_refuted : exists (g : graph nat) near, simple g /\ gap_reach exClose g 0 3 /\
  ~ reach (fixGaps nat (fun n => n =? 2) exClose near g [3; 2; 1; 0]) 0 3 /\ drives (fixGaps nat (fun n => n =? 2) exClose near g [3; 2; 1; 0]) 2 1.
Proof.
  exists (exGap 1), exNear. split; [apply exGap_dangling|]. split.
  { apply (gr_drive _ _ _ 2); [apply (gr_gap _ _ _ 1); [apply (gr_drive _ _ _ 0); [apply gr_here|]|]|].
    - exists (mkE 0 1 (exW 1)). cbn. split; [auto|]. left. repeat split; lia.
    - left. reflexivity.
    - exists (mkE 2 3 (exW 1)). cbn. split; [auto|]. left. repeat split; lia. }
  assert (E : fixGaps nat (fun n => n =? 2) exClose exNear (exGap 1) [3; 2; 1; 0] = mkG [0; 1; 2; 3] [mkE 0 1 (exW 1); mkE 2 3 (exW 1); mkE 2 1 (exW 1)]) by (vm_compute; reflexivity).
  rewrite E. split.
  - intros R. assert (K : forall x, reach (mkG [0; 1; 2; 3] [mkE 0 1 (exW 1); mkE 2 3 (exW 1); mkE 2 1 (exW 1)]) 0 x -> x = 0 \/ x = 1).
    { intros x Rx. induction Rx as [|v w Rv IH (e & I & D)]; [auto|]. cbn in I. destruct I as [<-|[<-|[<-|[]]]]; cbn in D; lia. }
    destruct (K 3 R); congruence.
  - exists (mkE 2 1 (exW 1)). cbn. split; [auto|]. left. repeat split; lia.
Qed.
Print Assumptions C19_station_refuted.
