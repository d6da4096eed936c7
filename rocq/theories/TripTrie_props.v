(** Property theorems for the trip trie (C31, C32, C33). *)
From Coq Require Import String List Arith ZArith Bool Lia.
From Verif Require Import ListAux TripTrie_model TripTrie_spec TripTrie_proofs.
Import ListNotations.

(** C31: after any history of adds the node list is a tree, every accepted trip has one
    path in it that spells its stops, and the trips listed at a node are exactly the
    accepted trips whose path ends there, in call order. *)
Theorem C31_trips_stored_at_their_node : forall (pos : Type) (near : pos -> pos -> bool) (attrs : Type) mergeA emptySecs,
  (forall p, near p p = true) -> forall cs tr rs,
  runCalls pos near attrs mergeA emptySecs (emptyTrie pos attrs) cs = (tr, rs) ->
  tree (nds _ _ tr) /\ exists ps : list (option (list nat)),
    rs = map (fun p => match p with Some _ => true | None => false end) ps /\
    Forall2 (fun c p => match p with
                        | Some p => spells near (nds _ _ tr) (cTimeEx _ _ c) 0 p (call_keys emptySecs c)
                        | None => True end) cs ps /\
    (forall n, listAt (ndTrips _ _ tr) n = placed_at n cs ps).
Proof.
  intros pos near attrs mergeA emptySecs NR cs tr rs H.
  destruct (trie_history near mergeA emptySecs NR cs tr rs H) as (T & ps & R & F & _ & P & _).
  split; [exact T|]. exists ps. auto.
Qed.
Print Assumptions C31_trips_stored_at_their_node.

(** C31: trips listed at one node share the whole path (hence, stop by stop, agree with
    the same representative stops) and have the same number of stops. *)
Theorem C31_same_node_same_stops : forall (pos : Type) (near : pos -> pos -> bool) (attrs : Type) mergeA emptySecs cs tr rs,
  runCalls pos near attrs mergeA emptySecs (emptyTrie pos attrs) cs = (tr, rs) ->
  forall i j ci cj, nth_error cs i = Some ci -> nth_error cs j = Some cj ->
  nth_error rs i = Some true -> nth_error rs j = Some true -> forall pi pj,
  spells near (nds _ _ tr) (cTimeEx _ _ ci) 0 pi (call_keys emptySecs ci) ->
  spells near (nds _ _ tr) (cTimeEx _ _ cj) 0 pj (call_keys emptySecs cj) ->
  last pi 0 = last pj 0 ->
  pi = pj /\ length (tSts _ (cTrip _ _ ci)) = length (tSts _ (cTrip _ _ cj)).
Proof. intros pos near attrs mergeA emptySecs. exact (trie_same_node near mergeA emptySecs). Qed.
Print Assumptions C31_same_node_same_stops.

(** C31: trips with the same stops (and, if times matter, the same times) end at the
    same node, whatever was added between them. *)
Theorem C31_equal_trips_same_node : forall (pos : Type) (near : pos -> pos -> bool) (attrs : Type) mergeA emptySecs,
  (forall p, near p p = true) -> forall cs tr rs,
  runCalls pos near attrs mergeA emptySecs (emptyTrie pos attrs) cs = (tr, rs) ->
  exists ps : list (option (list nat)),
    rs = map (fun p => match p with Some _ => true | None => false end) ps /\
    (forall n, listAt (ndTrips _ _ tr) n = placed_at n cs ps) /\
    forall i j ci cj pi pj, nth_error cs i = Some ci -> nth_error cs j = Some cj ->
      nth_error ps i = Some (Some pi) -> nth_error ps j = Some (Some pj) ->
      call_keys emptySecs ci = call_keys emptySecs cj -> cTimeEx _ _ ci = cTimeEx _ _ cj -> pi = pj.
Proof.
  intros pos near attrs mergeA emptySecs NR cs tr rs H.
  destruct (trie_history near mergeA emptySecs NR cs tr rs H) as (T & ps & R & F & E & P & _).
  exists ps. auto.
Qed.
Print Assumptions C31_equal_trips_same_node.

(** C32: the counter of each node is the number of counted trips whose path passes
    through it, its accumulated time the sum of their times there. *)
Theorem C32_counters_exact : forall (pos : Type) (near : pos -> pos -> bool) (attrs : Type) mergeA emptySecs,
  (forall p, near p p = true) -> forall cs tr rs,
  runCalls pos near attrs mergeA emptySecs (emptyTrie pos attrs) cs = (tr, rs) ->
  exists ps : list (option (list nat)),
    rs = map (fun p => match p with Some _ => true | None => false end) ps /\
    Forall2 (fun c p => match p with
                        | Some p => spells near (nds _ _ tr) (cTimeEx _ _ c) 0 p (call_keys emptySecs c)
                        | None => True end) cs ps /\
    forall n nd, nth_error (nds _ _ tr) n = Some nd ->
      nTrips _ _ nd = passing n cs ps /\ nAcc _ _ nd = sum_times emptySecs n cs ps.
Proof.
  intros pos near attrs mergeA emptySecs NR cs tr rs H.
  destruct (trie_history near mergeA emptySecs NR cs tr rs H) as (T & ps & R & F & _ & P & C).
  exists ps. auto.
Qed.
Print Assumptions C32_counters_exact.

(** C33: a refused trip leaves the trie as it was. *)
Theorem C33_rejected_trip_no_effect : forall (pos : Type) (near : pos -> pos -> bool) (attrs : Type) mergeA emptySecs,
  (forall p, near p p = true) -> forall cs tr rs,
  runCalls pos near attrs mergeA emptySecs (emptyTrie pos attrs) cs = (tr, rs) ->
  forall c tr', addTrip pos near attrs mergeA emptySecs tr (cTrip _ _ c) (cAttrs _ _ c) (cTimeEx _ _ c) (cDegen _ _ c) = (tr', false) ->
  tr' = tr.
Proof. intros pos near attrs mergeA emptySecs NR. exact (trie_reject near mergeA emptySecs NR). Qed.
Print Assumptions C33_rejected_trip_no_effect.

(** Non-vacuity: three trips sharing a prefix, one refused, one degenerate. *)
Definition tstop (n : nat) : stop nat :=
  mkStop nat (match n with 0 => "A" | 1 => "B" | 2 => "C" | _ => "D" end)%string "" n.
Definition tst (n : nat) (t : Z) : stime nat := mkSt nat (tstop n) (Some t) (Some (t + 10)%Z).
Definition tcall (i : nat) (sts : list (stime nat)) (d : bool) : call nat unit :=
  mkCall nat unit (mkTrip nat i sts) tt false d.
Definition trie_calls : list (call nat unit) :=
  [tcall 0 [tst 0 100; tst 1 200; tst 2 300] false; tcall 1 [tst 0 1000; tst 1 1110; tst 3 1300] false;
   tcall 2 [tst 1 100; tst 2 200] false; tcall 3 [tst 0 5; tst 1 6; tst 2 7] true; tcall 4 [tst 0 5; tst 1 6] true].
Definition trie_run := runCalls nat Nat.eqb unit (fun a _ => a) 0 (emptyTrie nat unit) trie_calls.
Example trie_example :
  (forall p, Nat.eqb p p = true) /\ snd trie_run = [true; true; false; true; false] /\
  map (fun nd => (nParent _ _ nd, nTrips _ _ nd, nAcc _ _ nd)) (nds _ _ (fst trie_run)) =
    [(0, 0, 0%Z); (0, 2, 0%Z); (1, 2, 190%Z); (2, 2, 210%Z); (3, 1, 190%Z); (3, 1, 290%Z)] /\
  listAt (ndTrips _ _ (fst trie_run)) 4 = [0; 3] /\ listAt (ndTrips _ _ (fst trie_run)) 5 = [1].
Proof. split; [apply Nat.eqb_refl|]. vm_compute. auto. Qed.

(** C32, finding: for a stop without times the time of day of the trip's start is
    accumulated instead of an elapsed time; here the middle stop is recorded as reached
    after 36000 s although the last stop is reached after 600 s. *)
Theorem C32_missing_time_is_elapsed_refuted : exists c : call nat unit,
  let tr := fst (runCalls nat Nat.eqb unit (fun a _ => a) 0 (emptyTrie nat unit) [c]) in
  exists mid fin, nth_error (nds _ _ tr) 2 = Some mid /\ nth_error (nds _ _ tr) 4 = Some fin /\
    nAcc _ _ mid = 36000%Z /\ nAcc _ _ fin = 600%Z.
Proof.
  exists (tcall 0 [mkSt nat (tstop 0) None (Some 36000%Z); mkSt nat (tstop 1) None None; mkSt nat (tstop 2) (Some 36600%Z) None] false).
  cbn zeta. vm_compute. eexists _, _. split; [reflexivity|]. split; [reflexivity|]. split; reflexivity.
Qed.
Print Assumptions C32_missing_time_is_elapsed_refuted.

(** Finding: a trip with a single stop is accepted and stored at the root node. *)
Theorem C31_single_stop_at_root_refuted : exists c : call nat unit,
  let tr := fst (runCalls nat Nat.eqb unit (fun a _ => a) 0 (emptyTrie nat unit) [c]) in
  length (tSts _ (cTrip _ _ c)) = 1 /\ listAt (ndTrips _ _ tr) 0 = [7].
Proof. exists (tcall 7 [tst 0 100] false). vm_compute. auto. Qed.
Print Assumptions C31_single_stop_at_root_refuted.
