(** Assignment of shapes by the workers: C36, C37, C38. *)
From Coq Require Import Ascii String List Arith NArith Bool Permutation Lia.
From Verif Require Import ListAux Workers_model Workers_spec Workers_proofs.
Import ListNotations.
Open Scope nat_scope.

(** C36: the search for an id ends, after at most one round per registered id and one
    more; it yields the first id after the counter that is not registered. *)
Theorem C36_search_ends : forall ids ty cnt, exists n, freeId (S (length ids)) ids ty cnt = Some n /\
  cnt < n /\ ~ In (idOf ty n) ids /\ forall k, cnt < k < n -> In (idOf ty k) ids.
Proof. intros ids ty cnt. destruct (freeId_some ids ty cnt) as (n & E). exists n. split; [exact E|]. exact (freeId_ok _ _ _ _ _ E). Qed.
Print Assumptions C36_search_ends.
(** The id determines the type and the number, so different numbers give different ids. *)
Theorem C36_id_injective : forall t n t' n', idOf t n = idOf t' n' -> t = t' /\ n = n'.
Proof. exact idOf_inj. Qed.
Print Assumptions C36_id_injective.
Example free_id_example : freeId 4 ["shp_3_1"; "x"; "shp_3_2"]%string 3 0 = Some 3 /\ idOf 3 3 = "shp_3_3"%string /\ idOf 11 120 = "shp_11_120"%string.
Proof. vm_compute. auto. Qed.

(** C36, C37, C38: under every schedule of any number of workers nothing goes wrong on the
    way, and when all workers are done every leaf was handled once under an id of its own,
    the trips of the leaves have the new shape, all other trips are unchanged, the old
    shapes of those are still there, and (if no old id looks like a new one) all new
    shapes are registered and stored once. *)
Theorem C37_workers : forall (Pts D : Type) (jobs : list (list (leaf Pts D))) cnt ids store trips, work_ok jobs trips ->
  forall n sched, exists ths s,
  run Pts D jobs sched (fst (start Pts D n cnt ids store trips)) (snd (start Pts D n cnt ids store trips)) = Some (ths, s) /\
  (n <> 0 -> (forall p, In p ths -> p = PDone _ _) -> exists iss, assigned jobs cnt ids store trips iss s).
Proof. intros Pts D jobs cnt ids store trips WO. exact (workers_safe jobs cnt ids store trips WO). Qed.
Print Assumptions C37_workers.

(** C36: the issued ids are pairwise different, and none is an id of the feed. *)
Theorem C36_issued_ids : forall (Pts D : Type) (jobs : list (list (leaf Pts D))) cnt ids store trips, work_ok jobs trips -> no_clash jobs trips cnt ->
  forall n sched ths s, run Pts D jobs sched (fst (start Pts D n cnt ids store trips)) (snd (start Pts D n cnt ids store trips)) = Some (ths, s) ->
  n <> 0 -> (forall p, In p ths -> p = PDone _ _) ->
  exists iss, Permutation (concat jobs) (map snd iss) /\ NoDup (map fst iss) /\
    forall id l, In (id, l) iss -> ~ In id ids /\
      forall u, In u (lTrips _ _ l) -> exists ds, nth_error (sTrips _ _ s) u = Some (mkTrip D id ds).
Proof.
  intros Pts D jobs cnt ids store trips WO NC n sched ths s R N AD.
  destruct (C37_workers Pts D jobs cnt ids store trips WO n sched) as (ths' & s' & R' & H). rewrite R in R'. injection R' as <- <-.
  destruct (H N AD) as (iss & A). exists iss. split; [exact (as_leaves _ _ _ _ _ _ _ A)|]. split; [exact (as_ids _ _ _ _ _ _ _ A)|].
  intros id l I. split; [exact (proj2 (as_new _ _ _ _ _ _ _ A NC id l I))|]. intros u U. exists (lDists _ _ l). exact (as_trips _ _ _ _ _ _ _ A id l u I U).
Qed.
Print Assumptions C36_issued_ids.

(** C37: every shape id a trip refers to afterwards is registered. *)
Theorem C37_no_dangling_reference : forall (Pts D : Type) (jobs : list (list (leaf Pts D))) cnt ids store trips, work_ok jobs trips -> no_clash jobs trips cnt ->
  (forall u x, nth_error trips u = Some x -> tShape _ x = ""%string \/ In (tShape _ x) ids) ->
  forall n sched ths s, run Pts D jobs sched (fst (start Pts D n cnt ids store trips)) (snd (start Pts D n cnt ids store trips)) = Some (ths, s) ->
  n <> 0 -> (forall p, In p ths -> p = PDone _ _) ->
  forall u x, nth_error (sTrips _ _ s) u = Some x -> tShape _ x = ""%string \/ In (tShape _ x) (sIds _ _ s).
Proof.
  intros Pts D jobs cnt ids store trips WO NC OK n sched ths s R N AD u x E.
  destruct (C37_workers Pts D jobs cnt ids store trips WO n sched) as (ths' & s' & R' & H). rewrite R in R'. injection R' as <- <-.
  destruct (H N AD) as (iss & A).
  assert (Dec : selected jobs u \/ ~ selected jobs u).
  { destruct (in_dec Nat.eq_dec u (flat_map (fun l => lTrips _ _ l) (concat jobs))) as [I|I].
    - left. apply in_flat_map in I. destruct I as (l & J & T). exists l. auto.
    - right. intros (l & J & T). apply I, in_flat_map. exists l. auto. }
  destruct Dec as [(l & J & T)|NS].
  - apply (Permutation_in _ (as_leaves _ _ _ _ _ _ _ A)) in J. apply in_map_iff in J. destruct J as ([id l'] & El & J). cbn in El. subst l'.
    rewrite (as_trips _ _ _ _ _ _ _ A id l u J T) in E. injection E as <-. right. cbn. exact (proj1 (as_new _ _ _ _ _ _ _ A NC id l J)).
  - rewrite (as_others _ _ _ _ _ _ _ A u NS) in E. destruct (OK u x E) as [X|X]; [auto|]. right. exact (as_kept _ _ _ _ _ _ _ A u x NS E X).
Qed.
Print Assumptions C37_no_dangling_reference.

(** C38: there is a number of turns after which every worker has finished, however the
    workers are scheduled. *)
Theorem C38_shape_workers_finish : forall (Pts D : Type) (jobs : list (list (leaf Pts D))) cnt ids store trips,
  forall n, exists turns, forall sched, (forall i, i < n -> turns <= count_occ Nat.eq_dec sched i) ->
  forall ths s, run Pts D jobs sched (fst (start Pts D n cnt ids store trips)) (snd (start Pts D n cnt ids store trips)) = Some (ths, s) ->
  forall p, In p ths -> p = PDone _ _.
Proof. intros Pts D jobs cnt ids store trips. exact (workers_end jobs cnt ids store trips). Qed.
Print Assumptions C38_shape_workers_finish.
(** C38: each leaf of each forest is processed exactly once. *)
Theorem C38_each_leaf_once : forall (Pts D : Type) (jobs : list (list (leaf Pts D))) cnt ids store trips, work_ok jobs trips ->
  forall n, n <> 0 -> exists turns, forall sched, (forall i, i < n -> turns <= count_occ Nat.eq_dec sched i) ->
  exists ths s iss, run Pts D jobs sched (fst (start Pts D n cnt ids store trips)) (snd (start Pts D n cnt ids store trips)) = Some (ths, s) /\
    Permutation (concat jobs) (map snd iss) /\ NoDup (map fst iss) /\
    forall id l u, In (id, l) iss -> In u (lTrips _ _ l) -> nth_error (sTrips _ _ s) u = Some (mkTrip D id (lDists _ _ l)).
Proof.
  intros Pts D jobs cnt ids store trips WO n N. destruct (C38_shape_workers_finish Pts D jobs cnt ids store trips n) as (turns & T).
  exists turns. intros sched F. destruct (C37_workers Pts D jobs cnt ids store trips WO n sched) as (ths & s & R & H).
  destruct (H N (T sched F ths s R)) as (iss & A). exists ths, s, iss. split; [exact R|]. split; [exact (as_leaves _ _ _ _ _ _ _ A)|].
  split; [exact (as_ids _ _ _ _ _ _ _ A)|]. exact (as_trips _ _ _ _ _ _ _ A).
Qed.
Print Assumptions C38_each_leaf_once.

(** C37: with one worker the use counters are exact: an old shape whose trips were all
    given new shapes is removed. *)
Theorem C37_one_worker_removes_unused : forall (Pts D : Type) (jobs : list (list (leaf Pts D))) cnt ids store trips, work_ok jobs trips -> no_clash jobs trips cnt ->
  forall sched ths s, run Pts D jobs sched (fst (start Pts D 1 cnt ids store trips)) (snd (start Pts D 1 cnt ids store trips)) = Some (ths, s) ->
  (forall p, In p ths -> p = PDone _ _) ->
  forall y, y <> ""%string -> (exists u x, nth_error trips u = Some x /\ tShape _ x = y) ->
  (forall u x, nth_error trips u = Some x -> tShape _ x = y -> selected jobs u) -> ~ In y (sIds _ _ s).
Proof. intros Pts D jobs cnt ids store trips WO NC. exact (one_worker jobs cnt ids store trips WO NC). Qed.
Print Assumptions C37_one_worker_removes_unused.

(** ** A case: two forests, three leaves, two workers; trip 4 is not selected and keeps
    the shape it shares with trip 0. *)
Definition xl (ts : list nat) (p : nat) (ds : list nat) : leaf nat nat := mkLeaf nat nat ts 3 p ds.
Definition xjobs : list (list (leaf nat nat)) := [[xl [0; 1] 100 [0; 7]; xl [2] 101 [0; 8; 9]]; [xl [3] 102 [0; 4]]].
Definition xt (s : string) (n : nat) : trip nat := mkTrip nat s (repeat 99 n).
Definition xtrips : list (trip nat) := [xt "a" 2; xt "b" 2; xt "" 3; xt "" 2; xt "a" 2]%string.
Definition xids : list string := ["a"; "b"; "shp_3_1"; "z"]%string.
Definition alt (n : nat) : list nat := concat (repeat [0; 1] n).
Lemma xjobs_ok : work_ok xjobs xtrips.
Proof.
  constructor.
  - vm_compute. repeat constructor; cbn; intuition congruence.
  - intros l u L U. vm_compute in L. destruct L as [<-|[<-|[<-|[]]]]; vm_compute in U; intuition (subst; vm_compute; eauto).
  - intros l L. vm_compute in L. destruct L as [<-|[<-|[<-|[]]]]; discriminate.
Qed.
Lemma clash_free : forall (Pts D : Type) (jobs : list (list (leaf Pts D))) (trips : list (trip D)) cnt, forallb (fun x => match tShape _ x with String "s" _ => false | _ => true end) trips = true -> no_clash jobs trips cnt.
Proof.
  intros Pts D jobs trips cnt H u x l n E _ _ C. rewrite forallb_forall in H. specialize (H x (nth_error_In _ _ E)). rewrite C in H.
  discriminate H.
Qed.
Example workers_example :
  work_ok xjobs xtrips /\ no_clash xjobs xtrips 0 /\
  (forall u x, nth_error xtrips u = Some x -> tShape _ x = ""%string \/ In (tShape _ x) xids) /\
  match run nat nat xjobs (alt 40) (fst (start nat nat 2 0 xids [("a", 1)]%string xtrips)) (snd (start nat nat 2 0 xids [("a", 1)]%string xtrips)) with
  | Some (ths, s) => ths = [PDone _ _; PDone _ _] /\
      sTrips _ _ s = [mkTrip nat "shp_3_2" [0; 7]; mkTrip nat "shp_3_2" [0; 7]; mkTrip nat "shp_3_4" [0; 8; 9]; mkTrip nat "shp_3_3" [0; 4]; xt "a" 2]%string /\
      sIds _ _ s = ["shp_3_4"; "shp_3_2"; "shp_3_3"; "a"; "shp_3_1"; "z"]%string
  | None => False
  end.
Proof.
  split; [exact xjobs_ok|]. split; [apply clash_free; reflexivity|]. split.
  - intros u x E. apply nth_error_In in E. cbn in E. intuition (subst; cbn; auto).
  - vm_compute. auto.
Qed.

(** ** Findings *)
(** C36: an id freed by removing an old shape can be issued again: here the new shape of
    the second trip is stored under the id of the old shape of the first, whose points are
    still stored, so that both are written under one id.  One worker, shapes dropped, feed
    with ids as pfaedle issues them. *)
Definition yjobs : list (list (leaf nat nat)) := [[xl [0] 100 [0; 7]; xl [1] 101 [0; 8]]].
Definition ytrips : list (trip nat) := [xt "shp_3_2" 2; xt "shp_3_3" 2]%string.
Theorem C36_reissued_id_refuted : exists (jobs : list (list (leaf nat nat))) cnt ids store trips sched ths s,
  work_ok jobs trips /\ (forall u x, nth_error trips u = Some x -> In (tShape _ x) ids) /\ incl ids (map fst store) /\
  run nat nat jobs sched (fst (start nat nat 1 cnt ids store trips)) (snd (start nat nat 1 cnt ids store trips)) = Some (ths, s) /\
  ths = [PDone _ _] /\
  exists id u ds, nth_error (sTrips _ _ s) u = Some (mkTrip nat id ds) /\ In id ids /\ In id (sIds _ _ s) /\
    length (filter (fun e => String.eqb (fst e) id) (sStore _ _ s)) = 2.
Proof.
  exists yjobs, 0, ["shp_3_2"; "shp_3_3"]%string, [("shp_3_2", 1); ("shp_3_3", 2)]%string, ytrips, (repeat 0 30).
  eexists _, _. split.
  { constructor.
    - vm_compute. repeat constructor; cbn; intuition congruence.
    - intros l u L U. vm_compute in L. destruct L as [<-|[<-|[]]]; vm_compute in U; intuition (subst; vm_compute; eauto).
    - intros l L. vm_compute in L. destruct L as [<-|[<-|[]]]; discriminate. }
  split; [intros u x E; apply nth_error_In in E; cbn in E; intuition (subst; cbn; auto)|].
  split; [apply incl_refl|]. split; [vm_compute; reflexivity|]. split; [reflexivity|].
  exists "shp_3_2"%string, 1, [0; 8]. vm_compute. auto 8.
Qed.
Print Assumptions C36_reissued_id_refuted.

(** C37: two workers can both find the counter of an old shape at zero and both remove
    it; if the id was issued again in between, the new shape is lost and its trip refers
    to no shape. *)
Definition zjobs : list (list (leaf nat nat)) := [[xl [0] 100 [0; 7]; xl [2] 102 [0; 9]]; [xl [1] 101 [0; 8]]].
Definition ztrips : list (trip nat) := [xt "shp_3_3" 2; xt "shp_3_3" 2; xt "" 2]%string.
Definition zsched : list nat := [0; 0; 0; 0; 0;  1; 1; 1; 1; 1;  0; 1] ++ repeat 0 20 ++ repeat 1 12 ++ repeat 0 5.
Theorem C37_double_remove_refuted : exists (jobs : list (list (leaf nat nat))) cnt ids store trips sched ths s,
  work_ok jobs trips /\ (forall u x, nth_error trips u = Some x -> tShape _ x = ""%string \/ In (tShape _ x) ids) /\
  run nat nat jobs sched (fst (start nat nat 2 cnt ids store trips)) (snd (start nat nat 2 cnt ids store trips)) = Some (ths, s) /\
  ths = [PDone _ _; PDone _ _] /\
  exists id u ds, nth_error (sTrips _ _ s) u = Some (mkTrip nat id ds) /\ id <> ""%string /\ ~ In id (sIds _ _ s).
Proof.
  exists zjobs, 0, ["shp_3_3"]%string, [("shp_3_3", 1)]%string, ztrips, zsched.
  eexists _, _. split.
  { constructor.
    - vm_compute. repeat constructor; cbn; intuition congruence.
    - intros l u L U. vm_compute in L. destruct L as [<-|[<-|[<-|[]]]]; vm_compute in U; intuition (subst; vm_compute; eauto).
    - intros l L. vm_compute in L. destruct L as [<-|[<-|[<-|[]]]]; discriminate. }
  split; [intros u x E; apply nth_error_In in E; cbn in E; intuition (subst; cbn; auto)|].
  split; [vm_compute; reflexivity|]. split; [reflexivity|].
  exists "shp_3_3"%string, 2, [0; 9]. split; [vm_compute; reflexivity|]. split; [discriminate|]. vm_compute. intuition discriminate.
Qed.
Print Assumptions C37_double_remove_refuted.

(** C37: with two workers an update of the counter can be lost, and an old shape no trip
    refers to any more survives. *)
Definition wjobs : list (list (leaf nat nat)) := [[xl [0] 100 [0; 7]]; [xl [1] 101 [0; 8]]].
Definition wtrips : list (trip nat) := [xt "old" 2; xt "old" 2]%string.
Theorem C37_unused_shape_survives_refuted : exists (jobs : list (list (leaf nat nat))) cnt ids store trips sched ths s,
  work_ok jobs trips /\ no_clash jobs trips cnt /\
  run nat nat jobs sched (fst (start nat nat 2 cnt ids store trips)) (snd (start nat nat 2 cnt ids store trips)) = Some (ths, s) /\
  ths = [PDone _ _; PDone _ _] /\
  exists y, (exists u x, nth_error trips u = Some x /\ tShape _ x = y) /\ In y (sIds _ _ s) /\
    forall u x, nth_error (sTrips _ _ s) u = Some x -> tShape _ x <> y.
Proof.
  exists wjobs, 0, ["old"]%string, [("old", 1)]%string, wtrips, (alt 20).
  eexists _, _. split.
  { constructor.
    - vm_compute. repeat constructor; cbn; intuition congruence.
    - intros l u L U. vm_compute in L. destruct L as [<-|[<-|[]]]; vm_compute in U; intuition (subst; vm_compute; eauto).
    - intros l L. vm_compute in L. destruct L as [<-|[<-|[]]]; discriminate. }
  split; [apply clash_free; reflexivity|]. split; [vm_compute; reflexivity|]. split; [reflexivity|].
  exists "old"%string. split; [exists 0; eexists; split; reflexivity|]. split; [vm_compute; auto|].
  intros u x E. apply nth_error_In in E. vm_compute in E. destruct E as [<-|[<-|[]]]; discriminate.
Qed.
Print Assumptions C37_unused_shape_survives_refuted.
