(** C20, C21: the payloads of edges and nodes. *)
From Coq Require Import List Arith NArith Bool Lia.
From Verif Require Import ListAux Payload_model Payload_spec Payload_proofs.
Import ListNotations.
Open Scope nat_scope.

(** C20: no possible history uses or frees an object that is not there; every payload shows
    its geometry and lines; geometries and lines live exactly as long as they are used. *)
Theorem C20_memory : forall (P : Type) (os : list (op P)), possible os -> exists m, run (Some empty) os = Some m /\ memory_ok os m.
Proof. intros P os. apply memory. Qed.
Print Assumptions C20_memory.

(** C20: when no payload lives, no geometry lives, and of the lines only those that no payload
    ever used. *)
Theorem C20_no_leak : forall (P : Type) (os : list (op P)) m, possible os -> run (Some empty) os = Some m -> (forall i, ~ live m i) ->
  (forall a, heap m a = None) /\ forall l, tl m l = true -> unused os l.
Proof. intros P os m. apply no_leak. Qed.
Print Assumptions C20_no_leak.

(** C20: a copy has the geometry of the original; a change of the copy leaves the original. *)
Theorem C20_deep_copy : forall (P : Type) (os : list (op P)) i j a f m0 m1 m2, possible (os ++ [Copy i j false a; Edit i f]) ->
  run (Some empty) os = Some m0 -> run (Some m0) [Copy i j false a] = Some m1 -> run (Some m1) [Edit i f] = Some m2 ->
  geomOf m1 i = geomOf m0 j /\ geomOf m2 j = geomOf m0 j.
Proof. intros P os i j a f m0 m1 m2. apply deep_copy. Qed.
Print Assumptions C20_deep_copy.

(** Payload 0 gets points and a line, 1 is a flat copy, 2 a deep one; 0 is destroyed. *)
Definition exOps : list (op nat) := [New 0; AddPoint 0 7 100; NewLine 50; AddLine 0 50; Copy 1 0 true 101; Copy 2 0 false 101; Edit 1 (fun l => l ++ [8]); Destroy 0; AddLine 2 50; Destroy 2].
Lemma possible_step : forall (P : Type) (os : list (op P)) o m, possible os -> run (Some empty) os = Some m -> can m o -> possible (os ++ [o]).
Proof.
  intros P os o m Po R C o1 o' o2 m' E R'. destruct o2 as [|x o2] using rev_ind.
  - apply app_inj_tail in E. destruct E as (<- & <-). congruence.
  - clear IHo2. change (o1 ++ o' :: o2 ++ [x]) with (o1 ++ (o' :: o2) ++ [x]) in E. rewrite app_assoc in E. apply app_inj_tail in E. destruct E as (-> & _). apply (Po o1 o' o2); auto.
Qed.
Lemma possible_nil : forall P : Type, possible (@nil (op P)).
Proof. intros P [|? ?] ? ? ? E; discriminate. Qed.
Ltac can_tac := repeat match goal with
  | |- _ /\ _ => split
  | |- ~ live _ _ => let p := fresh "p" in let H := fresh "H" in intros (p & H); cbn in H; repeat (destruct H as [H|H]; [discriminate|]); exact H
  | |- live _ _ => eexists; cbn; eauto
  | |- exists _ _, In _ _ => do 2 eexists; cbn; eauto
  | |- _ => reflexivity
  end.
Lemma exOps_possible : possible exOps.
Proof.
  change exOps with ((((((((((@nil (op nat) ++ [New 0]) ++ [AddPoint 0 7 100]) ++ [NewLine 50]) ++ [AddLine 0 50]) ++ [Copy 1 0 true 101]) ++ [Copy 2 0 false 101]) ++ [Edit 1 (fun l => l ++ [8])]) ++ [Destroy 0]) ++ [AddLine 2 50]) ++ [Destroy 2]).
  do 10 (eapply possible_step; [|vm_compute; reflexivity|cbn [can]; can_tac]). apply possible_nil.
Qed.
Example C20_example : match run (Some empty) exOps with None => False | Some m => geomOf m 1 = Some (Some [7; 8]) /\ linesOf m 1 = Some [50] /\ geomOf m 2 = None /\ heap m 100 <> None /\ heap m 101 = None /\ tl m 50 = true end.
Proof. vm_compute. repeat split; discriminate. Qed.

(** C20: an assignment would break this: the geometry is freed while the other payload uses it. *)
Theorem C20_assignment_refuted : exists (os : list (op nat)) m m1 m2, possible os /\ run (Some empty) os = Some m /\ assign m 1 0 = Some m1 /\ run (Some m1) [Destroy 0] = Some m2 /\
  live m2 1 /\ geomOf m2 1 = None /\ run (Some m2) [Destroy 1] = None.
Proof.
  exists [New 0; New 1; AddPoint 0 7 100]. do 3 eexists. split.
  - change [New 0; New 1; AddPoint 0 7 100] with (((@nil (op nat) ++ [New 0]) ++ [New 1]) ++ [AddPoint 0 7 100]). do 3 (eapply possible_step; [|vm_compute; reflexivity|cbn [can]; can_tac]). apply possible_nil.
  - split; [vm_compute; reflexivity|]. split; [vm_compute; reflexivity|]. split; [vm_compute; reflexivity|]. split; [eexists; cbn; eauto|]. split; vm_compute; reflexivity.
Qed.
Print Assumptions C20_assignment_refuted.

(** C21: every node is what the last call made of it, and the station info of a station is its
    own or the one of the node it was copied from. *)
Theorem C21_states : forall (I : Type) (os : list (nop I)), (created os < 4294967294)%N -> forall n, seen_as (nrun os) n (n_run os).
Proof. intros I os H. apply nodes_ok. exact H. Qed.
Print Assumptions C21_states.

(** C21: other nodes are not affected. *)
Theorem C21_others : forall (I : Type) (os : list (nop I)) n k, n <> k -> (forall o, In o [SetNoStat n; SetTurn n; SetBlocker n] ->
    isBlocker (nrun (os ++ [o])) k = isBlocker (nrun os) k /\ isTurnCycle (nrun (os ++ [o])) k = isTurnCycle (nrun os) k /\ getSI (nrun (os ++ [o])) k = getSI (nrun os) k).
Proof. intros I os n k. apply others. Qed.
Print Assumptions C21_others.

Example C21_example : seen_as (nrun [SetSI 3 10; SetSI 4 20; CopyNode 5 3; SetBlocker 4; EditSI 5 S; SetTurn 6]) 3 (n_run [SetSI 3 10; SetSI 4 20; CopyNode 5 3; SetBlocker 4; EditSI 5 S; SetTurn 6])
  /\ n_state (n_run [SetSI 3 10; SetSI 4 20; CopyNode 5 3; SetBlocker 4; EditSI 5 S; SetTurn 6]) 3 = Station 0 /\ getSI (nrun [SetSI 3 10; SetSI 4 20; CopyNode 5 3; SetBlocker 4; EditSI 5 S; SetTurn 6]) 3 = Some (Some 11).
Proof. split; [|split; reflexivity]. apply C21_states. reflexivity. Qed.

(** C21: with one info more the new station is a turning circle. *)
Theorem C21_bound_refuted : exists os : list (nop nat), created os = 4294967294%N /\ ~ seen_as (nrun os) 0 (n_run os) /\ isTurnCycle (nrun os) 0 = true.
Proof.
  exists (repeat (SetSI 0 0) (N.to_nat 4294967294)). destruct (at_bound 0) as (A & B & C). auto.
Qed.
Print Assumptions C21_bound_refuted.
