(** C65, C66: the evaluation tool. *)
From Coq Require Import Ascii String List Arith ZArith QArith Bool Lia Sorted Permutation.
From Verif Require Import ListAux StrAux TripTrie_model TripTrie_spec Shapevl_model Shapevl_spec ShapevlU_proofs Shapevl_proofs.
Import ListNotations.
Open Scope nat_scope.
Open Scope list_scope.

(** ** C65: the evaluation *)
(** When all threads have ended, whatever their number and schedule, every collector was given exactly the
    comparisons of its own feed, in the order of the trips. *)
Theorem C65_results : forall (shp C : Type) addC motOk (fs : list (nat -> option (option shp))) jobs (empty : C) k sched, 0 < k ->
  let s := run shp C addC motOk (map Some fs) jobs sched (start shp C empty (map Some fs) k) in
  joined shp C s -> sExit _ _ s = false /\ Forall2 (evaluated addC motOk empty jobs) fs (sColls _ _ s).
Proof.
  intros shp C addC motOk fs jobs empty k sched K s J.
  pose proof (inv_run addC motOk (map Some fs) jobs empty sched _ (inv_start addC motOk (map Some fs) jobs empty k)) as I.
  assert (X : sExit _ _ s = false).
  { destruct (sExit _ _ s) eqn:X; [|reflexivity]. apply (i_exit _ _ _ _ _ _ I) in X. apply in_map_iff in X. destruct X as (? & X & _). discriminate. }
  split; [exact X|].
  assert (L : List.length (sThr _ _ s) = k) by (unfold s; rewrite thr_len; cbn; apply repeat_length).
  pose proof (joined_done _ _ _ _ _ k s I K L J X) as F. clear - F. remember (map Some fs) as l eqn:E. revert fs E.
  induction F as [|o c l m (ft & -> & ->) F IH]; intros [|f fs] E; try discriminate; constructor.
  - inversion E; subst. apply evaluated_fold.
  - apply IH. inversion E. reflexivity.
Qed.
Print Assumptions C65_results.

(** A feed that cannot be read ends the program, and nothing else does. *)
Theorem C65_exit : forall (shp C : Type) addC motOk (feeds : list (option (nat -> option (option shp)))) jobs (empty : C) k sched, 0 < k ->
  let s := run shp C addC motOk feeds jobs sched (start shp C empty feeds k) in
  (sExit _ _ s = true -> In None feeds) /\ (joined shp C s -> sExit _ _ s = false -> ~ In None feeds).
Proof.
  intros shp C addC motOk feeds jobs empty k sched K s.
  pose proof (inv_run addC motOk feeds jobs empty sched _ (inv_start addC motOk feeds jobs empty k)) as I.
  split; [exact (i_exit _ _ _ _ _ _ I)|]. intros J X N.
  assert (L : List.length (sThr _ _ s) = k) by (unfold s; rewrite thr_len; cbn; apply repeat_length).
  pose proof (joined_done _ _ _ _ _ k s I K L J X) as F. apply In_nth_error in N. destruct N as (i & N).
  destruct (nth_error (sColls _ _ s) i) as [c|] eqn:Ec.
  - destruct (Forall2_nth _ _ _ _ _ _ _ _ F N Ec) as (ft & Y & _). discriminate.
  - apply nth_error_None in Ec. apply nth_lt in N. pose proof (i_len _ _ _ _ _ _ I) as LL. fold s in LL. lia.
Qed.
Print Assumptions C65_exit.

(** The threads end: it is enough that each of them gets as many turns as there are feeds times trips, and a few more. *)
Theorem C65_ends : forall (shp C : Type) addC motOk (feeds : list (option (nat -> option (option shp)))) jobs (empty : C) k sched,
  (forall t, t < k -> List.length feeds * (2 + List.length jobs) + k <= count_occ Nat.eq_dec sched t) ->
  let s := run shp C addC motOk feeds jobs sched (start shp C empty feeds k) in sExit _ _ s = true \/ joined shp C s.
Proof. intros shp C addC motOk feeds jobs empty k sched H. apply ends. exact H. Qed.
Print Assumptions C65_ends.

(** At no time two threads use the same collector. *)
Theorem C65_no_race : forall (shp C : Type) addC motOk (feeds : list (option (nat -> option (option shp)))) jobs (empty : C) k sched,
  let s := run shp C addC motOk feeds jobs sched (start shp C empty feeds k) in
  forall t u f ft js gt ks, nth_error (sThr _ _ s) t = Some (Work f ft js) -> nth_error (sThr _ _ s) u = Some (Work f gt ks) -> t = u.
Proof.
  intros shp C addC motOk feeds jobs empty k sched s.
  exact (i_one _ _ _ _ _ _ (inv_run addC motOk feeds jobs empty sched _ (inv_start addC motOk feeds jobs empty k))).
Qed.
Print Assumptions C65_no_race.

(** The number of threads is what hardware_concurrency() says, which may be 0: then nothing is evaluated. *)
Definition exFeed (t : nat) : option (option nat) := if t <? 3 then Some (if t =? 1 then None else Some (10 + t)) else None.
Definition exAdd (c : list (nat * nat * nat)) (t n s : nat) := c ++ [(t, n, s)].
Theorem C65_no_threads_refuted :
  let s := run nat _ exAdd (fun _ => true) [Some exFeed] [(0, 1)] [] (start nat _ [] [Some exFeed] 0) in
  joined _ _ s /\ sExit _ _ s = false /\ ~ Forall2 (evaluated exAdd (fun _ => true) [] [(0, 1)]) [exFeed] (sColls _ _ s).
Proof.
  split; [intros t x E; cbn in E; destruct t; discriminate|]. split; [reflexivity|]. intros F. inversion F as [|? ? ? ? (l & A & B) _]; subst.
  inversion A as [|? ? ? ? ? _ _ A'|? ? ? ? [X|[X|X]] _]; subst; try discriminate. inversion B as [|? ? ? ? ? _ E1 E2].
  unfold exAdd in E2. destruct c; discriminate.
Qed.
Print Assumptions C65_no_threads_refuted.
Example C65_ex : let fs := [exFeed; (fun _ => None)] in
  let s := run nat _ exAdd (fun t => negb (t =? 2)) (map Some fs) [(0, 1); (1, 1); (2, 2); (7, 1)] (concat (repeat [0; 1; 1; 0] 12)) (start nat _ [] (map Some fs) 2) in
  joined _ _ s /\ sColls _ _ s = [[(0, 1, 10)]; []].
Proof. split; [intros [|[|t]] x E; vm_compute in E; [congruence|congruence|destruct t; discriminate]|reflexivity]. Qed.

(** With --unique, the trips are split into groups of trips that stop at the same places, and each group is
    compared once, by its first trip. *)
Theorem C65_unique : forall (pos : Type) (near : pos -> pos -> bool), (forall p, near p p = true) -> forall gs,
  exists groups, grouping near gs groups /\ Forall2 represents groups (chosen pos near true gs).
Proof. intros pos near R gs. exact (unique_groups near R gs). Qed.
Print Assumptions C65_unique.
(** The weights add up to the number of trips with stops. *)
Theorem C65_weights : forall (pos : Type) (near : pos -> pos -> bool), (forall p, near p p = true) -> forall gs,
  list_sum (map snd (chosen pos near true gs)) = List.length (filter (fun g => match stops g with [] => false | _ => true end) gs).
Proof.
  intros pos near R gs. destruct (C65_unique pos near R gs) as (groups & G & F). rewrite <- (Permutation_length (gr_all _ _ _ G)). clear G.
  induction F as [|grp r groups rs (g & _ & _ & E) F IH]; [reflexivity|]. cbn [map concat list_sum fold_right]. rewrite app_length, E. unfold list_sum in IH. lia.
Qed.
Print Assumptions C65_weights.

Definition exStop (n : string) (p : nat) : stop nat := mkStop nat n "" p.
Definition exTrip (id : nat) (l : list (stop nat)) : trip nat := mkTrip nat id (map (fun s => mkSt nat s None None) l).
Example C65_unique_ex :
  let a := exStop "A" 0 in let b := exStop "B" 1 in let c := exStop "C" 2 in
  chosen nat Nat.eqb true [mkG nat (exTrip 0 [a; b]) 5; mkG nat (exTrip 1 [a; c]) 5; mkG nat (exTrip 2 [a; b]) 5; mkG nat (exTrip 3 [b; c]) 5; mkG nat (exTrip 4 [a; b]) 6; mkG nat (exTrip 5 []) 6; mkG nat (exTrip 6 [b; c]) 5]
  = [(0, 2); (1, 1); (3, 2); (4, 1)].
Proof. reflexivity. Qed.
(** Trips of a single stop are all taken to be the same, wherever they stop. *)
Theorem C65_single_stop_refuted : exists gs : list (gtrip nat), chosen nat Nat.eqb true gs = [(0, 2)] /\
  (forall groups, Forall2 represents groups (chosen nat Nat.eqb true gs) -> grouping Nat.eqb gs groups -> ~ forall grp, In grp groups -> same_places Nat.eqb grp).
Proof.
  exists [mkG nat (exTrip 0 [exStop "A" 0]) 5; mkG nat (exTrip 1 [exStop "B" 1]) 5]. split; [reflexivity|]. intros groups F G H.
  assert (L : List.length groups = 1). { change (chosen nat Nat.eqb true [mkG nat (exTrip 0 [exStop "A" 0]) 5; mkG nat (exTrip 1 [exStop "B" 1]) 5]) with [(0, 2)] in F. inversion F as [|? ? ? ? _ F']; subst. inversion F'; subst. reflexivity. }
  destruct groups as [|grp [|]]; cbn in L; try lia. pose proof (gr_all _ _ _ G) as P. cbn in P. rewrite app_nil_r in P.
  destruct (H grp (or_introl eq_refl)) as (rep & S).
  assert (A : In (mkG nat (exTrip 0 [exStop "A" 0]) 5) grp) by (apply (Permutation_in _ (Permutation_sym P)); left; reflexivity).
  assert (B : In (mkG nat (exTrip 1 [exStop "B" 1]) 5) grp) by (apply (Permutation_in _ (Permutation_sym P)); right; left; reflexivity).
  apply S in A. apply S in B. cbn in A, B. inversion A as [|r ? ? ? (X & _) _]; subst. inversion B as [|? ? ? ? (Y & _) _]; subst. cbn in X, Y. congruence.
Qed.
Print Assumptions C65_single_stop_refuted.

(** ** C66: the program *)
(** Every list of arguments is read in exactly one way, and the options are those meant by it. *)
Theorem C66_args : forall realpath atoi args, exists l e, reads realpath args l e /\ (forall l' e', reads realpath args l' e' -> l' = l /\ e' = e) /\
  match e with
  | All => exists o, parse realpath atoi opts0 args = POpts o /\ meant atoi l o
  | Help => parse realpath atoi opts0 args = PExit 0
  | _ => parse realpath atoi opts0 args = PExit 1
  end.
Proof.
  intros realpath atoi args. destruct (reads_ex realpath (List.length args) args (le_n _)) as (l & e & H). exists l, e. split; [exact H|].
  split; [exact (reads_fun realpath atoi args l e H)|]. pose proof (parse_reads realpath atoi args l e H opts0) as P. destruct e; cbn [fin] in P; try exact P.
  exists (fold_left (appl atoi) l opts0). split; [exact P|]. exact (fold_meant realpath atoi l (reads_well realpath args l All H)).
Qed.
Print Assumptions C66_args.
Example C66_args_ex : reads (fun s => if (s =? "x")%string then None else Some (String.append "/" s)) ["-g"; "truth"; "b"; "--json"; "a"; "b"; "-m"; "bus"]%string
    [Val "-g" "truth"; Path "/b"; Flag "--json"; Path "/a"; Path "/b"; Val "-m" "bus"] All /\
  exists o, parse (fun s => if (s =? "x")%string then None else Some (String.append "/" s)) (fun _ => 0%Z) opts0 ["-g"; "truth"; "b"; "--json"; "a"; "b"; "-m"; "bus"]%string = POpts o /\ oFeeds o = ["/a"; "/b"]%string.
Proof.
  split; [|eexists; split; [reflexivity|reflexivity]].
  repeat first [apply rd_val; [cbn; tauto|] | apply rd_flag; [cbn; tauto|] | apply rd_path; [cbn; intuition discriminate|reflexivity|] | apply rd_all].
Qed.

Section Result.
Context {shp C : Type}.
Variable addC : Q -> C -> nat -> nat -> shp -> C.
Variable empty : C.
Context {pos : Type}.
Variable near : pos -> pos -> bool.
Variable parseFeed : string -> option (nat -> option (option shp)).
Variable motOk : string -> nat -> bool.
Variable mPerDeg : Q.
(** The trips that are to be compared. *)
Definition trips_of (o : opts) (gs : list (gtrip pos)) (jobs : list (nat * nat)) : Prop :=
  if oUniq o then exists groups, grouping near gs groups /\ Forall2 represents groups jobs else jobs = map (fun g => (idOf g, 1)) gs.
(** The collectors of all feeds. *)
Definition results (o : opts) (gs : list (gtrip pos)) (cs : list C) : Prop :=
  exists jobs, trips_of o gs jobs /\
  Forall2 (fun p c => exists ft, parseFeed p = Some ft /\
    evaluated (addC (match oSeg o with None => (25 / mPerDeg)%Q | Some n => inject_Z n end)) (motOk (oMots o)) empty jobs ft c) (oFeeds o) cs.
End Result.

Lemma forallb_joined : forall shp C (s : state shp C), forallb (fun t => match t with Done => true | _ => false end) (sThr _ _ s) = true <-> joined shp C s.
Proof.
  intros shp C s. rewrite forallb_forall. unfold joined. split.
  - intros H t x E. apply nth_error_In in E. specialize (H x E). destruct x; try discriminate. reflexivity.
  - intros H x J. apply In_nth_error in J. destruct J as (t & E). rewrite (H t x E). reflexivity.
Qed.
(** The result of the program: help ends it with 0; a bad argument, no ground truth or a feed that cannot be
    read with 1; else it prints what the collectors of the given feeds have, in the order of the paths. *)
Theorem C66_result : forall (shp C : Type) addC (empty : C) getStats (pos : Type) (near : pos -> pos -> bool) realpath atoi ground (parseFeed : string -> option (nat -> option (option shp))) motOk mPerDeg args k sched,
  (forall p, near p p = true) -> 0 < k -> exists l e, reads realpath args l e /\
  match main shp C addC empty getStats pos near realpath atoi ground parseFeed motOk mPerDeg args k sched with
  | RRuns _ => True
  | RExit _ n => (n = 0 /\ e = Help) \/
      (n = 1 /\ e <> Help /\ (e = All -> exists o, meant atoi l o /\ (oGround o = ""%string \/ ground (oGround o) = None \/ exists p, In (Path p) l /\ parseFeed p = None)))
  | RPrint _ summary out => e = All /\ exists o gs cs, meant atoi l o /\ ground (oGround o) = Some gs /\ oJson o = false /\ summary = oSumm o /\
      results addC empty near parseFeed motOk mPerDeg o gs cs /\ out = combine (oFeeds o) cs
  | RJson _ out => e = All /\ exists o gs cs, meant atoi l o /\ ground (oGround o) = Some gs /\ oJson o = true /\
      results addC empty near parseFeed motOk mPerDeg o gs cs /\ out = json (oAvg o) (combine (oFeeds o) (map getStats cs))
  end.
Proof.
  intros shp C addC empty getStats pos near realpath atoi ground parseFeed motOk mPerDeg args k sched NR K.
  destruct (C66_args realpath atoi args) as (l & e & H & _ & M). exists l, e. split; [exact H|]. unfold main.
  destruct e as [| |a|a].
  - destruct M as (o & -> & M). destruct (String.eqb_spec (oGround o) "") as [G|G].
    { right. split; [reflexivity|]. split; [discriminate|]. intros _. exists o. auto. }
    destruct (ground (oGround o)) as [gs|] eqn:Eg.
    2: { right. split; [reflexivity|]. split; [discriminate|]. intros _. exists o. auto. }
    cbv zeta. set (feeds := map parseFeed (oFeeds o)). set (s := run _ _ _ _ _ _ _ _).
    pose proof (C65_exit shp C (addC (segLen mPerDeg (oSeg o))) (motOk (oMots o)) feeds (chosen pos near (oUniq o) gs) empty k sched K) as X. cbv zeta in X. fold s in X.
    destruct (sExit _ _ s) eqn:Ex.
    { right. split; [reflexivity|]. split; [discriminate|]. intros _. exists o. split; [exact M|]. right. right. destruct X as [X _]. specialize (X eq_refl).
      unfold feeds in X. apply in_map_iff in X. destruct X as (p & E & J). exists p. split; [|exact E]. apply (mn_feeds _ _ _ M). exact J. }
    destruct (forallb _ (sThr _ _ s)) eqn:Fa; [|exact Logic.I]. apply forallb_joined in Fa.
    assert (R : results addC empty near parseFeed motOk mPerDeg o gs (sColls _ _ s)).
    { exists (chosen pos near (oUniq o) gs). split.
      - unfold trips_of. destruct (oUniq o); [apply (C65_unique pos near NR gs)|reflexivity].
      - assert (Q : exists fs, feeds = map Some fs).
        { destruct X as [_ X]. specialize (X Fa eq_refl). revert X. generalize feeds. induction feeds0 as [|f r IH]; intros N; [exists []; reflexivity|].
          destruct IH as (fs & ->); [intros J; apply N; right; exact J|]. destruct f as [f|]; [exists (f :: fs); reflexivity|exfalso; apply N; left; reflexivity]. }
        destruct Q as (fs & Q). unfold s in *. rewrite Q in *.
        destruct (C65_results shp C (addC (segLen mPerDeg (oSeg o))) (motOk (oMots o)) fs (chosen pos near (oUniq o) gs) empty k sched K Fa) as [_ F].
        unfold feeds in Q. clear - F Q. revert F. generalize (sColls _ _ (run shp C (addC (segLen mPerDeg (oSeg o))) (motOk (oMots o)) (map Some fs) (chosen pos near (oUniq o) gs) sched (start shp C empty (map Some fs) k))).
        revert fs Q. generalize (oFeeds o). intros l. induction l as [|p l IH]; intros [|f fs] Q cs F; try discriminate; inversion F; subst; constructor.
        + cbn in Q. inversion Q. exists f. split; [assumption|]. assumption.
        + apply (IH fs); [inversion Q; reflexivity|assumption]. }
    destruct (oJson o) eqn:Ej.
    + split; [reflexivity|]. exists o, gs, (sColls _ _ s). auto 10.
    + split; [reflexivity|]. exists o, gs, (sColls _ _ s). auto 10.
  - rewrite M. left. auto.
  - rewrite M. right. split; [reflexivity|]. split; [discriminate|]. intros; discriminate.
  - rewrite M. right. split; [reflexivity|]. split; [discriminate|]. intros; discriminate.
Qed.
Print Assumptions C66_result.

(** The result depends neither on the number of threads nor on the schedule. *)
Theorem C66_deterministic : forall (shp C : Type) addC (empty : C) getStats (pos : Type) (near : pos -> pos -> bool) realpath atoi ground (parseFeed : string -> option (nat -> option (option shp))) motOk mPerDeg args k k' sched sched', 0 < k -> 0 < k' ->
  let r := main shp C addC empty getStats pos near realpath atoi ground parseFeed motOk mPerDeg args k sched in
  let r' := main shp C addC empty getStats pos near realpath atoi ground parseFeed motOk mPerDeg args k' sched' in
  r <> RRuns _ -> r' <> RRuns _ -> r = r'.
Proof.
  intros shp C addC empty getStats pos near realpath atoi ground parseFeed motOk mPerDeg args k k' sched sched' K K'. cbv zeta. unfold main.
  destruct (parse realpath atoi opts0 args) as [n|o]; [reflexivity|]. destruct (oGround o =? "")%string; [reflexivity|]. destruct (ground (oGround o)) as [gs|]; [|reflexivity].
  cbv zeta. set (feeds := map parseFeed (oFeeds o)). set (jobs := chosen pos near (oUniq o) gs). set (ad := addC (segLen mPerDeg (oSeg o))).
  pose proof (C65_exit shp C ad (motOk (oMots o)) feeds jobs empty k sched K) as X. pose proof (C65_exit shp C ad (motOk (oMots o)) feeds jobs empty k' sched' K') as X'. cbv zeta in X, X'.
  pose proof (inv_run ad (motOk (oMots o)) feeds jobs empty sched _ (inv_start ad (motOk (oMots o)) feeds jobs empty k)) as I.
  pose proof (inv_run ad (motOk (oMots o)) feeds jobs empty sched' _ (inv_start ad (motOk (oMots o)) feeds jobs empty k')) as I'.
  assert (L : List.length (sThr _ _ (run shp C ad (motOk (oMots o)) feeds jobs sched (start shp C empty feeds k))) = k) by (rewrite thr_len; cbn; apply repeat_length).
  assert (L' : List.length (sThr _ _ (run shp C ad (motOk (oMots o)) feeds jobs sched' (start shp C empty feeds k'))) = k') by (rewrite thr_len; cbn; apply repeat_length).
  set (s := run shp C ad (motOk (oMots o)) feeds jobs sched (start shp C empty feeds k)) in *. set (s' := run shp C ad (motOk (oMots o)) feeds jobs sched' (start shp C empty feeds k')) in *. clearbody s s'.
  destruct (sExit _ _ s) eqn:E, (sExit _ _ s') eqn:E'; [reflexivity| | |].
  - destruct (forallb _ (sThr _ _ s')) eqn:F'; [|intros; contradiction]. apply forallb_joined in F'. intros _ _. exfalso. exact (proj2 X' F' eq_refl (proj1 X eq_refl)).
  - destruct (forallb _ (sThr _ _ s)) eqn:F'; [|intros; contradiction]. apply forallb_joined in F'. intros _ _. exfalso. exact (proj2 X F' eq_refl (proj1 X' eq_refl)).
  - destruct (forallb _ (sThr _ _ s)) eqn:F; [|intros; contradiction]. destruct (forallb _ (sThr _ _ s')) eqn:F'; [|intros; contradiction]. apply forallb_joined in F, F'. intros _ _.
    pose proof (joined_done _ _ _ _ _ k s I K L F E) as J. pose proof (joined_done _ _ _ _ _ k' s' I' K' L' F' E') as J'.
    assert (Q : sColls _ _ s = sColls _ _ s').
    { clear - J J'. revert J'. generalize (sColls _ _ s'). induction J as [|x c l m (ft & -> & ->) J IH]; intros cs J'; inversion J' as [|? ? ? ? (ft' & Y & ->) J2]; subst; [reflexivity|]. inversion Y; subst. f_equal. apply IH. assumption. }
    rewrite Q. reflexivity.
Qed.
Print Assumptions C66_deterministic.
(** It ends. *)
Theorem C66_ends : forall (shp C : Type) addC (empty : C) getStats (pos : Type) (near : pos -> pos -> bool) realpath atoi ground (parseFeed : string -> option (nat -> option (option shp))) motOk mPerDeg args k,
  exists turns, forall sched, (forall t, t < k -> turns <= count_occ Nat.eq_dec sched t) ->
  main shp C addC empty getStats pos near realpath atoi ground parseFeed motOk mPerDeg args k sched <> RRuns _.
Proof.
  intros shp C addC empty getStats pos near realpath atoi ground parseFeed motOk mPerDeg args k. unfold main.
  destruct (parse realpath atoi opts0 args) as [n|o]; [exists 0; discriminate|]. destruct (oGround o =? "")%string; [exists 0; discriminate|]. destruct (ground (oGround o)) as [gs|]; [|exists 0; discriminate].
  cbv zeta. exists (List.length (map parseFeed (oFeeds o)) * (2 + List.length (chosen pos near (oUniq o) gs)) + k). intros sched T.
  destruct (C65_ends shp C (addC (segLen mPerDeg (oSeg o))) (motOk (oMots o)) _ _ empty k sched T) as [X|X].
  - rewrite X. discriminate.
  - apply forallb_joined in X. rewrite X. destruct (sExit _ _ _); [discriminate|]. destruct (oJson o); discriminate.
Qed.
Print Assumptions C66_ends.
Example C66_ex :
  let gs := [mkG nat (exTrip 0 [exStop "A" 0; exStop "B" 1]) 5; mkG nat (exTrip 2 [exStop "A" 0; exStop "B" 1]) 5] in
  let pf := fun p => if (p =? "bad")%string then None else Some exFeed in
  let m := main nat (list (nat * nat * nat)) (fun _ => exAdd) [] (fun c => [("num-trips"%string, inject_Z (Z.of_nat (List.length c)))]) nat Nat.eqb (fun s => Some s) (fun _ => 7%Z) (fun p => if (p =? "t")%string then Some gs else None) pf (fun _ _ => true) 111111 in
  m ["-g"; "t"; "y"; "x"; "y"]%string 2 (concat (repeat [0; 1] 20)) = RPrint _ false [("x"%string, [(0, 1, 10); (2, 1, 12)]); ("y"%string, [(0, 1, 10); (2, 1, 12)])] /\
  m ["-g"; "t"; "y"; "x"; "--unique"]%string 1 (repeat 0 20) = RPrint _ false [("x"%string, [(0, 2, 10)]); ("y"%string, [(0, 2, 10)])] /\
  m ["-g"; "t"; "y"; "bad"]%string 3 (concat (repeat [0; 2] 20)) = RExit _ 1.
Proof. vm_compute. repeat split. Qed.

(** The average of the feeds has the keys of the statistics and the mean of the values. *)
Theorem C66_average : forall res K, 2 <= List.length res -> NoDup K -> (forall f m, In (f, m) res -> map fst m = K) ->
  exists a, json true res = OStats a /\ map fst a = K /\
  forall k v, In (k, v) a -> exists s, sum_stat k res s /\ (v * inject_Z (Z.of_nat (List.length res)) == s)%Q.
Proof.
  intros res K L ND H.
  assert (St : forall f m k, In (f, m) res -> In k K -> has_stat m k (stat m k)).
  { intros f m k J Jk. rewrite <- (H f m J) in Jk. unfold stat, has_stat. destruct (find (fun kv => (fst kv =? k)%string) m) as [[k' v]|] eqn:F.
    - apply find_some in F. destruct F as [F E]. apply String.eqb_eq in E. cbn in E. subst k'. exact F.
    - exfalso. apply in_map_iff in Jk. destruct Jk as ((k' & v) & E & Jk). cbn in E. subst k'. pose proof (find_none _ _ F _ Jk) as N. cbn in N. rewrite String.eqb_refl in N. discriminate. }
  assert (Sum : forall k, In k K -> exists s, sum_stat k res s /\ (fold_left (fun a r => a + stat (snd r) k) res 0 == s)%Q).
  { intros k Jk. assert (G : forall r x, (forall f m, In (f, m) r -> has_stat m k (stat m k)) -> exists s, sum_stat k r s /\ (fold_left (fun a r => a + stat (snd r) k) r x == x + s)%Q).
    { induction r as [|[f m] r IH]; intros x Hr.
      - exists 0%Q. split; [constructor|]. cbn. ring.
      - destruct (IH (x + stat m k)%Q) as (s & S1 & S2); [intros f' m' J; apply (Hr f' m'); right; exact J|].
        exists (stat m k + s)%Q. split; [eapply ss_cons; [apply (Hr f m); left; reflexivity|exact S1|reflexivity]|]. cbn [fold_left snd]. rewrite S2. ring. }
    destruct (G res 0%Q) as (s & S1 & S2); [intros f m J; exact (St f m k J Jk)|]. exists s. split; [exact S1|]. rewrite S2. ring. }
  destruct res as [|[f0 s0] [|r1 res]]; cbn [List.length] in L; try lia. set (res' := (f0, s0) :: r1 :: res) in *.
  assert (J0 : json true res' = OStats (map (fun kv => (fst kv, (fold_left (fun a r => a + stat (snd r) (fst kv)) res' 0) / inject_Z (Z.of_nat (List.length res')))%Q) s0)) by reflexivity.
  assert (K0 : map fst s0 = K) by (apply (H f0 s0); left; reflexivity).
  eexists. split; [exact J0|]. split; [rewrite map_map; cbn [fst]; exact K0|].
  intros k v J. apply in_map_iff in J. destruct J as ((k' & v') & E & J). cbn [fst] in E. inversion E; subst k' v. clear E.
  destruct (Sum k) as (s & S1 & S2); [rewrite <- K0; apply in_map_iff; exists (k, v'); auto|]. exists s. split; [exact S1|].
  assert (NZ : ~ (inject_Z (Z.of_nat (List.length res')) == 0)%Q). { unfold Qeq, inject_Z. cbn [Qnum Qden]. unfold res'. cbn [List.length]. lia. }
  assert (D : forall x n, (x == s -> ~ n == 0 -> x / n * n == s)%Q) by (intros x n Hx Hn; rewrite <- Hx; field; exact Hn).
  exact (D _ _ S2 NZ).
Qed.
Print Assumptions C66_average.
Example C66_average_ex : exists a, json true [("x"%string, [("n"%string, 4%Q); ("m"%string, 1%Q)]); ("y"%string, [("n"%string, 2%Q); ("m"%string, 0%Q)])] = OStats a /\ Forall2 (fun p q => fst p = fst q /\ (snd p == snd q)%Q) a [("n"%string, 3%Q); ("m"%string, (1 # 2)%Q)].
Proof. eexists. split; [reflexivity|]. repeat constructor. Qed.
(** Without feeds, the average reads a collector that is not there. *)
Theorem C66_average_none_refuted : forall (shp C : Type) addC (empty : C) getStats (pos : Type) (near : pos -> pos -> bool) realpath atoi ground (parseFeed : string -> option (nat -> option (option shp))) motOk mPerDeg k gs,
  ground "t"%string = Some gs -> exists turns, forall sched, (forall t, t < k -> turns <= count_occ Nat.eq_dec sched t) ->
  main shp C addC empty getStats pos near realpath atoi ground parseFeed motOk mPerDeg ["-g"; "t"; "--json"; "--avg"]%string k sched = RJson _ OUndef.
Proof.
  intros shp C addC empty getStats pos near realpath atoi ground parseFeed motOk mPerDeg k gs G. unfold main. cbn [parse String.eqb Ascii.eqb Bool.eqb orb oGround oFeeds oUniq oSeg oMots oJson oAvg opts0 map]. rewrite G. cbv zeta.
  exists (0 * (2 + List.length (chosen pos near false gs)) + k). intros sched T.
  destruct (C65_ends shp C (addC (segLen mPerDeg None)) (motOk "all"%string) [] (chosen pos near false gs) empty k sched T) as [X|X].
  - exfalso. apply (i_exit _ _ _ _ _ _ (inv_run (addC (segLen mPerDeg None)) (motOk "all"%string) [] (chosen pos near false gs) empty sched _ (inv_start _ _ _ _ _ k))) in X. destruct X.
  - apply forallb_joined in X. rewrite X.
    destruct (sExit _ _ _) eqn:E; [|reflexivity].
    exfalso. apply (i_exit _ _ _ _ _ _ (inv_run (addC (segLen mPerDeg None)) (motOk "all"%string) [] (chosen pos near false gs) empty sched _ (inv_start _ _ _ _ _ k))) in E. destruct E.
Qed.
Print Assumptions C66_average_none_refuted.

(** The report streams are kept in a vector, and the collectors keep pointers into it: with one feed the stream is
    there, with two or more the first collector's is not where it was. *)
Theorem C66_reports_refuted : forall n,
  (n = 1 -> reports n = (mkStr 1 1 1, [(1, 0)])) /\
  (2 <= n -> exists g, nth_error (snd (reports n)) 0 = Some (g, 0) /\ g < vGen (fst (reports n))).
Proof.
  intros n. split; [intros ->; reflexivity|]. intros L. destruct n as [|[|n]]; try lia. unfold reports. cbn [open].
  set (v1 := emplace (mkStr 0 0 0)). change v1 with (mkStr 1 1 1). pose proof (open_gen n (emplace (mkStr 1 1 1))) as O. cbn in O.
  change (emplace (mkStr 1 1 1)) with (mkStr 2 2 2). destruct (open (mkStr 2 2 2) n) as [v2 ps] eqn:E. specialize (O (le_n _)).
  cbn. exists 1. split; [reflexivity|]. destruct O as (O & _). lia.
Qed.
Print Assumptions C66_reports_refuted.
(** Naming the documented default of the segment length changes it, by the factor M_PER_DEG. *)
Theorem C66_segment_refuted : forall mPerDeg : Q, (1 < mPerDeg)%Q -> ~ (segLen mPerDeg (Some 25%Z) == segLen mPerDeg None)%Q /\ (segLen mPerDeg None * mPerDeg == segLen mPerDeg (Some 25%Z))%Q.
Proof.
  intros m H. assert (NZ : ~ (m == 0)%Q). { intros E. rewrite E in H. revert H. vm_compute. discriminate. }
  assert (E : (segLen m None * m == segLen m (Some 25%Z))%Q). { unfold segLen, inject_Z. field. exact NZ. }
  split; [|exact E]. intros X. rewrite <- X in E. unfold segLen, inject_Z in E.
  assert (Y : (m == 1)%Q). { setoid_replace m with ((25 # 1) * m / (25 # 1))%Q by field. rewrite E. reflexivity. }
  rewrite Y in H. revert H. vm_compute. discriminate.
Qed.
Print Assumptions C66_segment_refuted.
