(** C71: the transit graph written with --write-trgraph. *)
From Coq Require Import Ascii String List Arith Bool Lia Permutation.
From Verif Require Import NetGraph_model NetGraph_spec NetGraph_proofs.
Import ListNotations.
Open Scope nat_scope.

(** Under every schedule of any number of threads, and however maps are iterated: if every reversed edge on a way has
    its opposite (C16), nothing fails, and once the threads are done the graph shows the part of the network the
    matched trips use, with each trip as often as it goes along an edge. *)
Theorem C71_graph : forall (Pt Ln : Type) isRev fromN toN getEdg (pos : nat -> Pt) (geo : nat -> Ln) ord jobs n sched,
  (forall g, Permutation g (ord g)) ->
  (forall hops ts x, In (hops, ts) (concat jobs) -> In x (concat hops) -> exists e, along isRev fromN toN getEdg x e) ->
  exists s, run isRev fromN toN getEdg jobs n sched = Some s /\
  (n <> 0 -> joined s ->
   exists ng nds es, transitGraph Pt Ln isRev fromN toN getEdg pos geo ord jobs n sched = Some ng /\
     depicts Pt Ln isRev fromN toN getEdg pos geo (concat jobs) ng nds es).
Proof.
  intros Pt Ln isRev fromN toN getEdg pos geo ord jobs n sched OP FW.
  destruct (run_some isRev fromN toN getEdg jobs n sched) as [s R].
  { intros h ts x A B. destruct (FW h ts x A B) as [e E]. apply fwd_along in E. rewrite E. discriminate. }
  exists s. split; auto. intros N J.
  destruct (transit_depicts Pt Ln isRev fromN toN getEdg pos geo ord OP jobs n sched s R N J) as (ng & nds & es & A & B & _). eauto.
Qed.
Print Assumptions C71_graph.

(** The threads finish once each has had a turn for every job and one more. *)
Theorem C71_finishes : forall isRev fromN toN getEdg jobs n sched s,
  run isRev fromN toN getEdg jobs n sched = Some s ->
  (forall i, i < n -> length jobs < count_occ Nat.eq_dec sched i) -> joined s.
Proof.
  intros isRev fromN toN getEdg jobs n sched s R H.
  assert (forall sch s0 k, (forall i g, nth_error (thr s0) i = Some (false, g) -> k i <= at_ s0 /\ k i <= length jobs) ->
    forall s, fold_left (fun s i => bindO s (fun s => step isRev fromN toN getEdg jobs s i)) sch (Some s0) = Some s ->
    forall i g, nth_error (thr s) i = Some (false, g) -> k i + count_occ Nat.eq_dec sch i <= length jobs) as G.
  { clear. induction sch as [|j sch IH]; intros s0 k K s E i g N; cbn [fold_left bindO] in E.
    - injection E as <-. simpl. destruct (K i g N). lia.
    - destruct (step isRev fromN toN getEdg jobs s0 j) as [s1|] eqn:S1; [|rewrite run_none in E; discriminate].
      assert (forall i g, nth_error (thr s1) i = Some (false, g) ->
                (if j =? i then S (k i) else k i) <= at_ s1 /\ (if j =? i then S (k i) else k i) <= length jobs) as K1.
      { clear - K S1. intros i g N. unfold step in S1. destruct (nth_error (thr s0) j) as [[[|] g0]|] eqn:Nj.
        - injection S1 as <-. destruct (j =? i) eqn:Eji; [apply Nat.eqb_eq in Eji; subst; congruence|apply (K i g); auto].
        - destruct (nth_error jobs (at_ s0)) as [job|] eqn:Njob.
          + destruct (work isRev fromN toN getEdg job g0) as [g1|]; simpl in S1; [|discriminate]. injection S1 as <-. simpl in *.
            rewrite nth_update in N. destruct (j =? i) eqn:Eji.
            * apply Nat.eqb_eq in Eji. subst j. destruct (K i g0 Nj). assert (at_ s0 < length jobs) by (apply nth_error_Some; congruence). lia.
            * destruct (K i g N). lia.
          + injection S1 as <-. simpl in *. rewrite nth_update in N. destruct (j =? i) eqn:Eji.
            * destruct (i <? length (thr s0)); discriminate.
            * destruct (K i g N). lia.
        - injection S1 as <-. destruct (j =? i) eqn:Eji; [apply Nat.eqb_eq in Eji; subst; congruence|apply (K i g); auto]. }
      pose proof (IH s1 (fun i => if j =? i then S (k i) else k i) K1 s E i g N) as C. cbn beta in C. simpl.
      destruct (Nat.eq_dec j i) as [->|Nji]; [rewrite Nat.eqb_refl in C; lia|]. apply Nat.eqb_neq in Nji. rewrite Nji in C. lia. }
  intros [[|] g] I; auto. exfalso. destruct (In_nth_error _ _ I) as [i N].
  assert (i < n) as L by (rewrite <- (run_length _ _ _ _ _ _ _ _ R); apply nth_error_Some; congruence).
  assert (0 + count_occ Nat.eq_dec sched i <= length jobs) as C.
  { apply (G sched (start n) (fun _ => 0) ltac:(intros; simpl; lia) s R i g N). }
  specialize (H i L). lia.
Qed.
Print Assumptions C71_finishes.

(** Where no two used edges connect the same two nodes, every used edge is shown exactly once; where no used edge is
    a loop, every node is shown exactly once. *)
Theorem C71_complete : forall (Pt Ln : Type) isRev fromN toN getEdg (pos : nat -> Pt) (geo : nat -> Ln) leaves ng nds es,
  depicts Pt Ln isRev fromN toN getEdg pos geo leaves ng nds es ->
  ((forall e e', used isRev fromN toN getEdg leaves e -> used isRev fromN toN getEdg leaves e' -> same_ends fromN toN e e' -> e = e') ->
   forall e, In e es <-> used isRev fromN toN getEdg leaves e) /\
  ((forall e, used isRev fromN toN getEdg leaves e -> fromN e <> toN e) -> NoDup nds).
Proof.
  intros Pt Ln isRev fromN toN getEdg pos geo leaves ng nds es (A & B & C & D & E & F & G). split.
  - intros H e. split; auto. intro U. destruct (F e U) as (e' & I & S). rewrite (H e e' U (E _ I) S). exact I.
  - intro H. apply NoDup_nth_error. intros i j L X. destruct (nth_error nds i) as [v|] eqn:Ni; [|apply nth_error_None in Ni; lia].
    destruct (B i j v Ni (eq_sym X)) as [Y|(e & U & P & Q)]; auto. exfalso. apply (H e U). congruence.
Qed.
Print Assumptions C71_complete.

(** The attributes: the number of times trips go along the edge, and the names of exactly the trips that do. *)
Theorem C71_attributes : forall (Pt Ln : Type) isRev fromN toN getEdg (pos : nat -> Pt) (geo : nat -> Ln) ord jobs n sched s,
  (forall g, Permutation g (ord g)) -> run isRev fromN toN getEdg jobs n sched = Some s -> n <> 0 -> joined s ->
  exists ng nds es, transitGraph Pt Ln isRev fromN toN getEdg pos geo ord jobs n sched = Some ng /\
    depicts Pt Ln isRev fromN toN getEdg pos geo (concat jobs) ng nds es /\
    Forall2 (fun e d =>
      (forall k, all_travels isRev fromN toN getEdg e (concat jobs) k -> numTrips Ln d = k) /\
      forall nameOf, NoDup (names Ln nameOf d) /\
        forall x, In x (names Ln nameOf d) <->
          exists hops ts t, In (hops, ts) (concat jobs) /\ In t ts /\ nameOf t = x /\ exists y, In y (concat hops) /\ along isRev fromN toN getEdg y e)
      es (ngEdges _ _ ng).
Proof.
  intros Pt Ln isRev fromN toN getEdg pos geo ord jobs n sched s OP R N J.
  destruct (transit_depicts Pt Ln isRev fromN toN getEdg pos geo ord OP jobs n sched s R N J) as (ng & nds & es & A & B & C).
  exists ng, nds, es. split; auto. split; auto. destruct B as (_ & _ & _ & _ & _ & _ & G).
  revert G C. generalize (ngEdges Pt Ln ng) as ds. clear A. induction es as [|e es IH]; intros ds G C; inversion G; subst; constructor.
  - inversion C; subst. split; [auto|]. intro nameOf. split; [apply NoDup_nodup|].
    match goal with Sh : shows _ _ _ _ _ _ _ _ e ?d |- _ => destruct Sh as (_ & _ & _ & Tr) end.
    intro x. unfold names. rewrite nodup_In, in_map_iff.
    assert (forall ls t, (exists k, travels isRev fromN toN getEdg e t ls k /\
              (0 < k <-> exists hops ts, In (hops, ts) ls /\ In t ts /\ exists y, In y (concat hops) /\ along isRev fromN toN getEdg y e))) as T.
    { assert (forall l, exists k, passes isRev fromN toN getEdg e l k /\ (0 < k <-> exists y, In y l /\ along isRev fromN toN getEdg y e)) as P.
      { clear; induction l as [|y l (k & K & I)]; [exists 0; split; [constructor|]; split; [lia|intros (y & [] & _)]|].
        assert (along isRev fromN toN getEdg y e \/ ~ along isRev fromN toN getEdg y e) as [Y|Y].
        { rewrite <- fwd_along. destruct (fwd isRev fromN toN getEdg y) as [z|]; [|right; discriminate].
          destruct (Nat.eq_dec z e) as [->|Nz]; [auto|right; congruence]. }
        - exists (S k). split; [constructor; auto|]. split; [intros _; exists y; simpl; auto|lia].
        - exists k. split; [apply ps_no; auto|]. rewrite I. split; intros (z & Z1 & Z2); [exists z; simpl; auto|].
          destruct Z1 as [->|Z1]; [contradiction|]. exists z. auto. }
      induction ls as [|[h ts] ls IHl]; intro t.
      - exists 0. split; [constructor|]. split; [lia|intros (h & ts & [] & _)].
      - destruct (IHl t) as (m & M & Im). destruct (P (concat h)) as (k & K & Ik).
        exists (k * count_occ Nat.eq_dec ts t + m). split; [constructor; auto|]. split.
        + intro Pz. assert (0 < m \/ 0 < k * count_occ Nat.eq_dec ts t) as [Q|Q] by lia.
          * apply Im in Q. destruct Q as (h' & ts' & Q1 & Q2). exists h', ts'. simpl. auto.
          * exists h, ts. split; [left; auto|]. split; [apply (count_occ_In Nat.eq_dec); nia|apply Ik; nia].
        + intros (h' & ts' & [Q|Q] & Q2 & Q3).
          * injection Q as <- <-. apply (count_occ_In Nat.eq_dec) in Q2. apply Ik in Q3. nia.
          * assert (0 < m) by (apply Im; exists h', ts'; auto). lia. }
    split.
    + intros (t & E & I). destruct (T (concat jobs) t) as (k & K & Ik). apply (count_occ_In Nat.eq_dec) in I. rewrite (Tr t k K) in I.
      apply Ik in I. destruct I as (h & ts & Q1 & Q2 & Q3). exists h, ts, t. auto.
    + intros (h & ts & t & Q1 & Q2 & E & Q3). exists t. split; auto. destruct (T (concat jobs) t) as (k & K & Ik).
      apply (count_occ_In Nat.eq_dec). rewrite (Tr t k K). apply Ik. exists h, ts. auto.
  - apply IH; auto. inversion C; subst; auto.
Qed.
Print Assumptions C71_attributes.

(** Neither the number of threads nor the schedule nor the iteration order matters: where no two used edges connect
    the same nodes, each line of one result is in the other, with the same trips. *)
Theorem C71_independent : forall (Pt Ln : Type) isRev fromN toN getEdg (pos : nat -> Pt) (geo : nat -> Ln) leaves ng nds es ng' nds' es',
  depicts Pt Ln isRev fromN toN getEdg pos geo leaves ng nds es ->
  depicts Pt Ln isRev fromN toN getEdg pos geo leaves ng' nds' es' ->
  (forall e e', used isRev fromN toN getEdg leaves e -> used isRev fromN toN getEdg leaves e' -> same_ends fromN toN e e' -> e = e') ->
  length (ngEdges _ _ ng) = length (ngEdges _ _ ng') /\
  forall d, In d (ngEdges _ _ ng) -> exists d', In d' (ngEdges _ _ ng') /\ neGeom _ d = neGeom _ d' /\
    nth_error (ngNodes _ _ ng) (neFrom _ d) = nth_error (ngNodes _ _ ng') (neFrom _ d') /\
    nth_error (ngNodes _ _ ng) (neTo _ d) = nth_error (ngNodes _ _ ng') (neTo _ d') /\
    Permutation (neTrips _ d) (neTrips _ d').
Proof.
  intros Pt Ln isRev fromN toN getEdg pos geo leaves ng nds es ng' nds' es' H H' U.
  pose proof (proj1 (C71_complete _ _ _ _ _ _ _ _ _ _ _ _ H) U) as K. pose proof (proj1 (C71_complete _ _ _ _ _ _ _ _ _ _ _ _ H') U) as K'.
  destruct H as (A & _ & _ & D & _ & _ & G). destruct H' as (A' & _ & _ & D' & _ & _ & G').
  assert (forall (X Y : Type) (R : X -> Y -> Prop) l m, Forall2 R l m -> length l = length m) as FL by (induction 1; simpl; auto).
  assert (forall (X Y : Type) (R : X -> Y -> Prop) l m y, Forall2 R l m -> In y m -> exists x, In x l /\ R x y) as FB.
  { intros X Y R l m y F. induction F; intros []; [subst; eexists; split; [left|]; eauto|]. destruct (IHF H0) as (z & Z1 & Z2). exists z. simpl. auto. }
  assert (forall (X Y : Type) (R : X -> Y -> Prop) l m x, Forall2 R l m -> In x l -> exists y, In y m /\ R x y) as FF.
  { intros X Y R l m y F. induction F; intros []; [subst; eexists; split; [left|]; eauto|]. destruct (IHF H0) as (z & Z1 & Z2). exists z. simpl. auto. }
  split.
  - rewrite <- (FL _ _ _ _ _ G), <- (FL _ _ _ _ _ G'). apply Permutation_length, NoDup_Permutation; auto. intro e. rewrite K, K'. tauto.
  - intros d I. destruct (FB _ _ _ _ _ _ G I) as (e & Ie & (S1 & S2 & S3 & S4)). apply K in Ie. apply K' in Ie.
    destruct (FF _ _ _ _ _ _ G' Ie) as (d' & Id & (T1 & T2 & T3 & T4)). exists d'. split; auto. split; [congruence|].
    rewrite <- A, <- A', !nth_error_map, S1, S2, T1, T2. split; auto. split; auto.
    apply (Permutation_count_occ Nat.eq_dec). intro t.
    assert (exists k, travels isRev fromN toN getEdg e t leaves k) as [k Tk].
    { assert (forall l, exists k, passes isRev fromN toN getEdg e l k) as P.
      { induction l as [|y l (k & P)]; [exists 0; constructor|].
        assert (along isRev fromN toN getEdg y e \/ ~ along isRev fromN toN getEdg y e) as [Y|Y].
        { rewrite <- fwd_along. destruct (fwd isRev fromN toN getEdg y) as [z|]; [|right; discriminate].
          destruct (Nat.eq_dec z e) as [->|Nz]; [auto|right; congruence]. }
        - exists (S k). constructor; auto.
        - exists k. apply ps_no; auto. }
      clear -P. induction leaves as [|[h ts] ls (m & M)]; [exists 0; constructor|]. destruct (P (concat h)) as (k & Pk).
      eexists. constructor; eauto. }
    rewrite (S4 t k Tk), (T4 t k Tk). reflexivity.
Qed.
Print Assumptions C71_independent.

(** ** An example: a line 0 - 1 - 2 with the edges 1 (from 0 to 1), 2 (its opposite), 3 (from 1 to 2), 4 (its opposite) *)
Definition xRev (e : nat) : bool := Nat.even e.
Definition xFrom (e : nat) : nat := nth e [0; 0; 1; 1; 2; 0; 1; 2] 0.
Definition xTo (e : nat) : nat := nth e [0; 1; 0; 2; 1; 0; 0; 2] 0.
Definition xEdg (a b : nat) : option nat := match a, b with 0, 1 => Some 1 | 1, 0 => Some 2 | 1, 2 => Some 3 | 2, 1 => Some 4 | _, _ => None end.
Definition xJobs : list (list leaf) := [[([[1]; [3]], [10; 11])]; [([[4; 2]], [12])]].
Example C71_case : exists s, run xRev xFrom xTo xEdg xJobs 2 [1; 0; 1; 0] = Some s /\ joined s /\
  transitGraph nat nat xRev xFrom xTo xEdg (fun v => v) (fun e => e) (fun g => rev g) xJobs 2 [1; 0; 1; 0] =
    Some (mkNG _ _ [1; 2; 0] [mkNE _ 0 1 3 [10; 11; 12]; mkNE _ 2 0 1 [10; 11; 12]]).
Proof. eexists. split; [vm_compute; reflexivity|]. split; [|reflexivity]. intros t [<-|[<-|[]]]; reflexivity. Qed.
Example C71_case_hyps : (forall g : tgraph, Permutation g (rev g)) /\
  (forall hops ts x, In (hops, ts) (concat xJobs) -> In x (concat hops) -> exists e, along xRev xFrom xTo xEdg x e).
Proof.
  split; [apply Permutation_rev|]. intros h ts x [A|[A|[]]]; injection A as <- <-; simpl; intros [<-|[<-|[]]]; eexists; apply fwd_along; reflexivity.
Qed.

(** ** What does not hold *)
(** "num_trips is the number of trips that use the edge": the edge a stop lies on is the last of one hop and the first
    of the next, so a trip that stops there counts twice. *)
Theorem C71_num_trips_refuted : exists ng d,
  transitGraph nat nat xRev xFrom xTo xEdg (fun v => v) (fun e => e) (fun g => g) [[([[1]; [1; 3]], [10])]] 1 [0; 0] = Some ng /\
  In d (ngEdges _ _ ng) /\ neGeom _ d = 1 /\ numTrips nat d = 2.
Proof. do 2 eexists. split; [vm_compute; reflexivity|]. split; [left; reflexivity|]. split; reflexivity. Qed.
Print Assumptions C71_num_trips_refuted.
(** "Every used edge is shown": of two mapped edges in opposite directions between the same nodes only one is, and its
    trips are lost. *)
Definition oFrom (e : nat) : nat := if e =? 1 then 0 else 1.
Definition oTo (e : nat) : nat := if e =? 1 then 1 else 0.
Theorem C71_opposite_refuted : exists ng,
  transitGraph nat nat (fun _ => false) oFrom oTo (fun _ _ => None) (fun v => v) (fun e => e) (fun g => g) [[([[1]], [10]); ([[2]], [11])]] 1 [0; 0] = Some ng /\
  used (fun _ => false) oFrom oTo (fun _ _ => None) [([[1]], [10]); ([[2]], [11])] 2 /\
  forall d, In d (ngEdges _ _ ng) -> neGeom _ d <> 2 /\ ~ In 11 (neTrips _ d).
Proof.
  eexists. split; [vm_compute; reflexivity|]. split.
  - exists [[2]], [11], 2. split; [right; left; reflexivity|]. split; [left; reflexivity|]. left. auto.
  - intros d [<-|[]]. split; [discriminate|]. intros [H|[]]. discriminate.
Qed.
Print Assumptions C71_opposite_refuted.
(** "Every node is shown once": not the node of a loop, as it is added at the ends of lines. *)
Theorem C71_loop_refuted : exists ng,
  transitGraph nat nat (fun _ => false) (fun _ => 5) (fun _ => 5) (fun _ _ => None) (fun v => v) (fun e => e) (fun g => g) [[([[1]], [10])]] 1 [0; 0] = Some ng /\
  ngNodes _ _ ng = [5; 5].
Proof. eexists. split; [vm_compute; reflexivity|]. reflexivity. Qed.
Print Assumptions C71_loop_refuted.
