(** Selection and clustering of trips, distribution of work: C29, C38, C55, C56. *)
From Coq Require Import String List Arith ZArith Bool Lia Permutation.
From Verif Require Import TripTrie_model Simi_model Simi_spec Simi_proofs Cluster_model Cluster_spec Cluster_proofs.
Import ListNotations.
Open Scope nat_scope.

(** Work items are dealt in turn to the workers. *)
Theorem C38_round_robin : forall A n (l : list A), 0 < n -> exists parts, deal n 0 l (repeat [] n) = Some parts /\ dealt n l parts.
Proof. exact deal_dealt. Qed.
Print Assumptions C38_round_robin.
Example round_robin_example : deal 3 0 [0; 1; 2; 3; 4; 5; 6] (repeat [] 3) = Some [[0; 3; 6]; [1; 4]; [2; 5]].
Proof. reflexivity. Qed.
(** Without a hardware thread nothing can be dealt (undefined behaviour). *)
Theorem C38_no_threads_refuted : forall A (x : A) l, deal 0 0 (x :: l) (repeat [] 0) = None.
Proof. reflexivity. Qed.
Print Assumptions C38_no_threads_refuted.

(** The candidate cache built by any number of workers answers like the computation it
    caches, for the stops in it and for all others. *)
Theorem C38_candidate_cache : forall (S V : Type) (eqS : S -> S -> bool) (cands : S -> V),
  (forall a b, eqS a b = true <-> a = b) -> forall n stops, 0 < n -> exists cache,
  buildCandCache S V eqS cands n stops [] = Some cache /\
  (forall s, In s stops -> getC S V eqS cache s = Some (cands s)) /\
  (forall s, getCached S V eqS cands cache s = cands s).
Proof.
  intros S V eqS cands H n stops Hn. destruct (buildCandCache_ok S V eqS H cands n stops Hn) as (c & E & A & B).
  exists c. split; [exact E|]. split; [exact B|]. intros s. unfold getCached. destruct (getC S V eqS c s) eqn:G; [exact (A s v G)|reflexivity].
Qed.
Print Assumptions C38_candidate_cache.
Example candidate_cache_example :
  buildCandCache nat nat Nat.eqb (fun s => s * s) 2 [3; 1; 2] [] = Some [(3, 9); (2, 4); (1, 1)].
Proof. reflexivity. Qed.

Section Theorems.
Context {pos : Type}.
Variable near : pos -> pos -> bool.
Variable emptySecs : Z.
Context {regex : Type}.
Variable compile : string -> option regex.
Variable replace : regex -> string -> string -> string.

(** For every schedule of the workers clustering never fails, and when the workers are
    done the trips are clustered. *)
Theorem C55_clusters : forall ops L S o f,
  In L (fst (runNorm regex compile replace [] ops)) -> In S (fst (runNorm regex compile replace [] ops)) ->
  NoDup (map (fun t => tId _ (fTrip _ t)) (fTrips _ f)) -> 0 < oThreads o ->
  forall sched, exists st' fo rest, clusterTrips pos near emptySecs regex replace o (mkC _ L S []) f sched = Some (st', fo, rest) /\
  ((forall p, In p rest -> p = []) ->
   clustered near emptySecs (normalised regex compile replace (nOrig _ L)) (normalised regex compile replace (nOrig _ S)) o (fTrips _ f) fo).
Proof.
  intros ops L S o f IL IS ND TH sched.
  assert (OL : norm_ok regex compile replace L) by (apply (run_ok regex compile replace ops [] (fun n (X : In n []) => match X with end)); exact IL).
  assert (OS : norm_ok regex compile replace S) by (apply (run_ok regex compile replace ops [] (fun n (X : In n []) => match X with end)); exact IS).
  destruct (cluster_main pos near emptySecs regex compile replace o (mkC _ L S []) f OL OS eq_refl ND TH) as (st' & _ & _ & _ & H & _).
  destruct (H sched) as (fo & rest & E & D). exists st', fo, rest. split; [exact E|]. intros X. rewrite (D X).
  apply result_clustered; assumption.
Qed.

(** The result does not depend on the schedule or on the number of threads. *)
Theorem C38_schedule_irrelevant : forall ops L S d ms cm te nt n1 n2 f,
  In L (fst (runNorm regex compile replace [] ops)) -> In S (fst (runNorm regex compile replace [] ops)) ->
  NoDup (map (fun t => tId _ (fTrip _ t)) (fTrips _ f)) -> 0 < n1 -> 0 < n2 ->
  forall s1 s2 st1 fo1 r1 st2 fo2 r2,
  clusterTrips pos near emptySecs regex replace (mkOpts d ms cm te nt n1) (mkC _ L S []) f s1 = Some (st1, fo1, r1) ->
  clusterTrips pos near emptySecs regex replace (mkOpts d ms cm te nt n2) (mkC _ L S []) f s2 = Some (st2, fo2, r2) ->
  (forall p, In p r1 -> p = []) -> (forall p, In p r2 -> p = []) -> st1 = st2 /\ fo1 = fo2.
Proof.
  intros ops L S d ms cm te nt n1 n2 f IL IS ND T1 T2 s1 s2 st1 fo1 r1 st2 fo2 r2 H1 H2 D1 D2.
  assert (OL : norm_ok regex compile replace L) by (apply (run_ok regex compile replace ops [] (fun n (X : In n []) => match X with end)); exact IL).
  assert (OS : norm_ok regex compile replace S) by (apply (run_ok regex compile replace ops [] (fun n (X : In n []) => match X with end)); exact IS).
  split; [exact (cluster_state _ _ _ _ _ _ _ _ _ _ _ _ _ _ _ _ _ _ _ _ _ _ H1 H2)|].
  destruct (cluster_main pos near emptySecs regex compile replace (mkOpts d ms cm te nt n1) (mkC _ L S []) f OL OS eq_refl ND T1) as (? & _ & _ & _ & X1 & _).
  destruct (cluster_main pos near emptySecs regex compile replace (mkOpts d ms cm te nt n2) (mkC _ L S []) f OL OS eq_refl ND T2) as (? & _ & _ & _ & X2 & _).
  destruct (X1 s1) as (f1 & q1 & E1 & Y1). destruct (X2 s2) as (f2 & q2 & E2 & Y2). rewrite H1 in E1. rewrite H2 in E2.
  injection E1 as _ <- <-. injection E2 as _ <- <-. rewrite (Y1 D1), (Y2 D2). reflexivity.
Qed.

(** There are schedules in which the workers finish. *)
Theorem C38_workers_finish : forall ops L S o f,
  In L (fst (runNorm regex compile replace [] ops)) -> In S (fst (runNorm regex compile replace [] ops)) ->
  NoDup (map (fun t => tId _ (fTrip _ t)) (fTrips _ f)) -> 0 < oThreads o ->
  exists sched st' fo rest, clusterTrips pos near emptySecs regex replace o (mkC _ L S []) f sched = Some (st', fo, rest) /\
    forall p, In p rest -> p = [].
Proof.
  intros ops L S o f IL IS ND TH.
  assert (OL : norm_ok regex compile replace L) by (apply (run_ok regex compile replace ops [] (fun n (X : In n []) => match X with end)); exact IL).
  assert (OS : norm_ok regex compile replace S) by (apply (run_ok regex compile replace ops [] (fun n (X : In n []) => match X with end)); exact IS).
  destruct (cluster_main pos near emptySecs regex compile replace o (mkC _ L S []) f OL OS eq_refl ND TH) as (st' & _ & _ & _ & _ & s & fo & r & E & D).
  exists s, st', fo, r. auto.
Qed.

(** All nodes of the tries of a group carry the same attributes, so all lookups in the
    hop cache of a group are for one cost structure. *)
Theorem C29_one_cost_structure : forall ops L S o f,
  In L (fst (runNorm regex compile replace [] ops)) -> In S (fst (runNorm regex compile replace [] ops)) ->
  NoDup (map (fun t => tId _ (fTrip _ t)) (fTrips _ f)) -> 0 < oThreads o ->
  forall sched st' fo rest, clusterTrips pos near emptySecs regex replace o (mkC _ L S []) f sched = Some (st', fo, rest) ->
  (forall p, In p rest -> p = []) ->
  forall k tries tr1 tr2 n1 n2 s1 s2, In (k, tries) fo -> In tr1 tries -> In tr2 tries ->
  In n1 (nds _ _ tr1) -> In n2 (nds _ _ tr2) -> nRepr _ _ n1 = Some s1 -> nRepr _ _ n2 = Some s2 ->
  nAttrs _ _ n1 = Some k /\ nAttrs _ _ n1 = nAttrs _ _ n2.
Proof.
  intros ops L S o f IL IS ND TH sched st' fo rest E D k tries tr1 tr2 n1 n2 s1 s2 I I1 I2 J1 J2 R1 R2.
  destruct (C55_clusters ops L S o f IL IS ND TH sched) as (st2 & fo2 & r2 & E2 & C). rewrite E in E2. injection E2 as <- <- <-.
  specialize (C D). rewrite (cl_nodes _ _ _ _ _ _ _ C k tries tr1 n1 s1 I I1 J1 R1), (cl_nodes _ _ _ _ _ _ _ C k tries tr2 n2 s2 I I2 J2 R2). auto.
Qed.

(** After clustering, looking up the attributes of a trip to be routed or normalising
    the name of a stop of the feed writes nothing. *)
Theorem C56_warm_after_clustering : forall ops L S o f,
  In L (fst (runNorm regex compile replace [] ops)) -> In S (fst (runNorm regex compile replace [] ops)) ->
  NoDup (map (fun t => tId _ (fTrip _ t)) (fTrips _ f)) -> 0 < oThreads o ->
  forall sched st' fo rest, clusterTrips pos near emptySecs regex replace o (mkC _ L S []) f sched = Some (st', fo, rest) ->
  (forall t, In t (fTrips _ f) -> selected o t -> exists a, getRAttrs pos regex replace st' t = Some (a, st') /\
     trip_attrs (normalised regex compile replace (nOrig _ L)) (normalised regex compile replace (nOrig _ S)) t a) /\
  (forall s, In s (fStops _ f) -> exists v, norm regex replace (cStat _ st') (sName _ s) = (v, cStat _ st') /\
     normalised regex compile replace (nOrig _ S) (sName _ s) v).
Proof.
  intros ops L S o f IL IS ND TH sched st' fo rest E.
  assert (OL : norm_ok regex compile replace L) by (apply (run_ok regex compile replace ops [] (fun n (X : In n []) => match X with end)); exact IL).
  assert (OS : norm_ok regex compile replace S) by (apply (run_ok regex compile replace ops [] (fun n (X : In n []) => match X with end)); exact IS).
  destruct (cluster_main pos near emptySecs regex compile replace o (mkC _ L S []) f OL OS eq_refl ND TH) as (st2 & (_ & (OS2 & R2 & _) & OT) & T & C & H & _).
  destruct (H sched) as (fo2 & r2 & E2 & _). rewrite E in E2. injection E2 as <- <- <-. cbn [cLine cStat] in *. split.
  - intros t It Se. destruct (T t It Se) as (a & Ta). exists a. unfold getRAttrs. fold (tOf pos t). rewrite Ta. split; [reflexivity|].
    rewrite (OT t a It Ta). apply pureAttrs_spec; [exact OL|exact OS|exact (selected_long pos o t Se)].
  - intros s Is. destruct (C s Is) as (v & G). exists v. assert (N : norm regex replace (cStat _ st') (sName _ s) = (v, cStat _ st')) by (unfold norm; rewrite G; reflexivity).
    split; [exact N|]. destruct (norm_step regex compile replace _ _ _ _ OS2 N) as (X & _). rewrite R2 in X. exact X.
Qed.
End Theorems.
Print Assumptions C55_clusters.
Print Assumptions C38_schedule_irrelevant.
Print Assumptions C38_workers_finish.
Print Assumptions C29_one_cost_structure.
Print Assumptions C56_warm_after_clustering.

(** ** Example: two workers, three groups *)
Definition xcomp (s : string) : option string := if String.eqb s "" then None else Some s.
Definition xrepl (re f s : string) : string := if String.eqb s re then f else s.
Definition xops := [ONew [("Bus 1", "1")]%string; ONew [("Main Street", "main st")]%string].
Definition xL := nth 0 (fst (runNorm string xcomp xrepl [] xops)) (defaultNorm string).
Definition xS := nth 1 (fst (runNorm string xcomp xrepl [] xops)) (defaultNorm string).
Definition xstop (n : string) (p : nat) := mkStop nat n ""%string p.
Definition xA := xstop "Main Street" 1. Definition xB := xstop "Hbf" 2. Definition xC := xstop "Zoo" 3. Definition xD := xstop "Uni" 4.
Definition xst (s : stop nat) (t : Z) := mkSt nat s (Some t) (Some t).
Definition xtrip (i : nat) (ss : list (stop nat)) (sh rs ts rl : string) (ty : nat) : ftrip nat :=
  mkFt nat (mkTrip nat i (map (fun s => xst s 0) ss)) sh ty rs ts rl.
Definition xfeed := mkFeed nat [xA; xB; xC; xD]
  [xtrip 10 [xA; xB; xC] "" "Bus 1" "" "" 3; xtrip 11 [xA; xB; xD] "" "1" "" "" 3; xtrip 12 [xA; xB] "old" "1" "" "" 3;
   xtrip 13 [xB] "" "1" "" "" 3; xtrip 14 [xB; xC] "" "" "S2" "x" 3; xtrip 15 [xD; xA] "" "" "" "Long" 3;
   xtrip 16 [xD; xA] "" "1" "" "" 0; xtrip 17 [xA; xC] "" "1" "" "" 3]%string.
Definition xo := mkOpts false [3] [3; 1] false false 2.
Definition xrun (o : copts) (sched : list nat) := clusterTrips nat Nat.eqb 0 string xrepl o (mkC _ xL xS []) xfeed sched.
Definition xview (r : option (cst string * list (attrs * list (trie nat attrs)) * list (list (cstep nat)))) :=
  match r with
  | Some (_, fo, rest) => Some (map (fun g => (fst g, map (ndTrips _ _) (snd g))) fo, map (@length _) rest)
  | None => None
  end.
Example cluster_example :
  In xL (fst (runNorm string xcomp xrepl [] xops)) /\ In xS (fst (runNorm string xcomp xrepl [] xops)) /\
  NoDup (map (fun t => tId _ (fTrip _ t)) (fTrips _ xfeed)) /\ 0 < oThreads xo /\
  xview (xrun xo [0; 0; 1; 1; 1; 1; 0]) = Some (
    [(mkAttrs "s2" "hbf" ["zoo"], [[(2, [14])]]);
     (mkAttrs "1" "main st" ["zoo"], [[(4, [10]); (5, [11]); (6, [17])]]);
     (mkAttrs "long" "uni" ["main st"], [[(2, [15])]])], [0; 0])%string /\
  xview (xrun xo [1; 0]) = Some (
    [(mkAttrs "s2" "hbf" ["zoo"], [[(2, [14])]]); (mkAttrs "1" "main st" ["zoo"], [[(4, [10])]]);
     (mkAttrs "long" "uni" ["main st"], [])], [1; 2])%string /\
  xview (xrun (mkOpts false [3] [3; 1] false true 2) [0; 0; 1; 1; 1; 1; 0]) = Some (
    [(mkAttrs "s2" "hbf" ["zoo"], [[(2, [14])]]);
     (mkAttrs "1" "main st" ["zoo"], [[(4, [10])]; [(4, [11])]; [(2, [17])]]);
     (mkAttrs "long" "uni" ["main st"], [[(2, [15])]])], [0; 0])%string.
Proof.
  split; [left; reflexivity|]. split; [right; left; reflexivity|].
  split; [repeat (constructor; [cbn; intuition discriminate|]); constructor|]. split; [unfold xo; cbn; lia|].
  split; [reflexivity|]. split; reflexivity.
Qed.

(** A trip need not be routed with the name of its own last stop: the nodes of its trie
    carry the attributes of the first trip of the group only (trip 11 ends at "uni"). *)
Theorem C55_own_headsign_refuted : exists o f sched st fo rest k tries,
  clusterTrips nat Nat.eqb 0 string xrepl o (mkC _ xL xS []) f sched = Some (st, fo, rest) /\ (forall p, In p rest -> p = []) /\
  In (k, tries) fo /\ In 11 (listed [(k, tries)]) /\
  (exists t a, In t (fTrips _ f) /\ tId _ (fTrip _ t) = 11 /\ trip_attrs (normalised string xcomp xrepl (nOrig _ xL)) (normalised string xcomp xrepl (nOrig _ xS)) t a /\
     forall x, In x (lineTo a) -> ~ In x (lineTo k)).
Proof.
  exists xo, xfeed, [0; 0; 1; 1; 1; 1; 0]. do 3 eexists. exists (mkAttrs "1" "main st" ["zoo"%string]). eexists.
  split; [vm_compute; reflexivity|]. split; [intros p [<-|[<-|[]]]; reflexivity|]. split; [right; left; reflexivity|].
  split; [vm_compute; tauto|]. exists (xtrip 11 [xA; xB; xD] "" "1" "" "" 3)%string, (mkAttrs "1" "main st" ["uni"%string]).
  split; [cbn; tauto|]. split; [reflexivity|]. split.
  - exact (pureAttrs_spec nat string xcomp xrepl xL xS (xtrip 11 [xA; xB; xD] "" "1" "" "" 3)%string
      (run_ok string xcomp xrepl xops [] (fun n (X : In n []) => match X with end) xL (or_introl eq_refl))
      (run_ok string xcomp xrepl xops [] (fun n (X : In n []) => match X with end) xS (or_intror (or_introl eq_refl))) ltac:(discriminate)).
  - intros x [<-|[]] [H|[]]. discriminate H.
Qed.
Print Assumptions C55_own_headsign_refuted.
