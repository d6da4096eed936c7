(** Proofs about the files after a run (C79). *)
From Coq Require Import String List Arith NArith ZArith QArith Bool Permutation Lia.
From Verif Require Import ListAux ShapeStore_model ShapeStore_spec ShapeStore_proofs HopCache_model TripTrie_model Simi_model Cluster_model Cluster_spec Cluster_props
  Router_model Shapes_spec Workers_model Workers_spec Workers_proofs Workers_props
  Pipeline_model Pipeline_spec Pipeline_proofs Pipeline_props ShapesFile_model ShapesFile_spec ShapesFile_proofs
  StopTimesFile_model StopTimesFile_spec StopTimesFile_proofs Output_model Output_spec.
Import ListNotations.
Open Scope nat_scope.

Lemma nth_ext' : forall A (l k : list A), (forall u, nth_error l u = nth_error k u) -> l = k.
Proof.
  induction l as [|x l IH]; intros [|y k] H; [reflexivity|specialize (H 0); discriminate|specialize (H 0); discriminate|].
  pose proof (H 0) as H0. injection H0 as <-. f_equal. apply IH. intros u. exact (H (S u)).
Qed.
Lemma nth_combine : forall A B (l : list A) (k : list B) u,
  nth_error (combine l k) u = match nth_error l u, nth_error k u with Some a, Some b => Some (a, b) | _, _ => None end.
Proof.
  induction l as [|a l IH]; intros [|b k] [|u]; cbn; try reflexivity; [destruct (nth_error l u); reflexivity|apply IH].
Qed.

Section P.
Context {pos C Pt regex X : Type}.
Variable compile : string -> option regex.
Variable replace : regex -> string -> string -> string.
Variable enc : Pt * Q * nat -> pt.
Notation config := (@config pos C Pt regex).
Variable posAt : world pos C Pt -> list Pt -> Q -> Pt.
Notation points := (list (Pt * Q * nat)).

(** ** Types of leaves *)
Section Types.
Variable W : world pos C Pt.
Definition typed (types : list nat) (l : leaf points Q) : Prop := exists u, In u (lTrips _ _ l) /\ nth_error types u = Some (lType _ _ l).
Lemma leaves_typed : forall types m nd ls, leavesOf W types m nd = Some ls -> Forall (typed types) ls.
Proof.
  induction nd as [|(n, ids) nd IH]; intros ls H; cbn [leavesOf] in H; [injection H as <-; constructor|].
  destruct ids as [|u0 ids]; [discriminate|]. destruct (at_ m n); [|discriminate]. destruct (nth_error types u0) eqn:E; [|discriminate].
  destruct (leavesOf W types m nd); [|discriminate]. destruct (drawShape W l) as [((ps, ds), col)|]; [|discriminate]. injection H as <-.
  constructor; [exists u0; cbn; auto|auto].
Qed.
Lemma forest_typed : forall types tries hc ls, forestLeaves W types hc tries = Some ls -> Forall (typed types) ls.
Proof.
  induction tries as [|tr tries IH]; intros hc ls H; cbn [forestLeaves] in H; [injection H as <-; constructor|].
  destruct (shapeifyTrie W hc tr) as [(m, hc1)|]; [|discriminate]. destruct (leavesOf W types m _) eqn:E; [|discriminate].
  destruct (forestLeaves W types hc1 tries) eqn:E2; [|discriminate]. injection H as <-. apply Forall_app. split; [eapply leaves_typed; exact E|eapply IH; exact E2].
Qed.
Lemma jobs_typed : forall types fo jobs, jobsOf W types fo = Some jobs -> Forall (typed types) (concat jobs).
Proof.
  induction fo as [|(k, tries) fo IH]; intros jobs H; cbn [jobsOf] in H; [injection H as <-; constructor|].
  destruct (forestLeaves W types _ tries) eqn:E; [|discriminate]. destruct (jobsOf W types fo) eqn:E2; [|discriminate]. injection H as <-.
  cbn. apply Forall_app. split; [eapply forest_typed; exact E|auto].
Qed.
End Types.

Variable f : feed pos.
Variable dists : nat -> list Q.
Notation trips0 := (tripsOf (fTrips _ f) dists 0).

Lemma refeed_nth : forall trips u, nth_error (fTrips _ (refeed f trips)) u = match nth_error (fTrips _ f) u, nth_error trips u with
  | Some t, Some x => Some (mkFt pos (fTrip _ t) (tShape _ x) (fType _ t) (fRShort _ t) (fShort _ t) (fRLong _ t)) | _, _ => None end.
Proof.
  intros trips u. unfold refeed. cbn. rewrite nth_error_map, nth_combine. destruct (nth_error (fTrips _ f) u), (nth_error trips u); reflexivity.
Qed.

(** The trips after the configurations [D]. *)
Record now (D : list config) (trips : list (Workers_model.trip Q)) : Prop := {
  n_len : length trips = length (fTrips _ f);
  n_each : forall u t x, nth_error (fTrips _ f) u = Some t -> nth_error trips u = Some x ->
    length (tDists _ x) = length (tSts _ (fTrip _ t)) /\
    (tShape _ x = fShape _ t \/ (tShape _ x <> ""%string /\ exists g, In g D /\ handles g (fType _ t)))
}.
Lemma now_nth : forall D trips u t, now D trips -> nth_error (fTrips _ f) u = Some t -> exists x, nth_error trips u = Some x.
Proof. intros D trips u t N E. apply nth_ex. rewrite (n_len _ _ N). eapply nth_lt. exact E. Qed.

Definition distsIn (trips : list (Workers_model.trip Q)) (u : nat) : list Q := match nth_error trips u with Some x => tDists _ x | None => [] end.
Lemma refeed_trips : forall D trips, now D trips -> tripsOf (fTrips _ (refeed f trips)) (distsIn trips) 0 = trips.
Proof.
  intros D trips N. apply nth_ext'. intros u. rewrite tripsOf_nth, refeed_nth. cbn. unfold distsIn.
  destruct (nth_error (fTrips _ f) u) as [t|] eqn:E.
  - destruct (now_nth _ _ _ _ N E) as (x & Ex). rewrite Ex. destruct x; reflexivity.
  - symmetry. apply nth_error_None. rewrite (n_len _ _ N). apply nth_error_None. exact E.
Qed.
Lemma sel_back : forall D trips o u t t', now D trips -> nth_error (fTrips _ f) u = Some t -> nth_error (fTrips _ (refeed f trips)) u = Some t' ->
  fTrip _ t' = fTrip _ t /\ fType _ t' = fType _ t /\ (Cluster_spec.selected o t' -> Cluster_spec.selected o t) /\
  (Cluster_spec.selected o t -> (forall g, In g D -> ~ handles g (fType _ t)) -> Cluster_spec.selected o t').
Proof.
  intros D trips o u t t' N E E'. rewrite refeed_nth, E in E'. destruct (nth_error trips u) as [x|] eqn:Ex; [|discriminate]. injection E' as <-.
  destruct (n_each _ _ N u t x E Ex) as (_ & Sx). split; [reflexivity|]. split; [reflexivity|]. unfold Cluster_spec.selected. cbn. split.
  - intros (A & B). split; [|exact B]. destruct A as [A|A]; [auto|]. destruct Sx as [Sx|(Sx & _)]; [|contradiction]. right. congruence.
  - intros (A & B) H. split; [|exact B]. destruct A as [A|A]; [auto|]. destruct Sx as [Sx|(_ & g & I & Hg)]; [right; congruence|]. exfalso. exact (H g I Hg).
Qed.
Lemma refeed_ok : forall D trips (W : world pos C Pt) o M, now D trips -> feed_ok W o f dists M -> feed_ok W o (refeed f trips) (distsIn trips) M.
Proof.
  intros D trips W o M N FK.
  assert (Back : forall u t', nth_error (fTrips _ (refeed f trips)) u = Some t' -> exists t, nth_error (fTrips _ f) u = Some t).
  { intros u t' E. rewrite refeed_nth in E. destruct (nth_error (fTrips _ f) u) as [t|]; [eauto|discriminate]. }
  constructor.
  - intros u t' E. destruct (Back u t' E) as (t & Et). destruct (sel_back D trips o u t t' N Et E) as (-> & _). exact (fk_ids _ _ _ _ _ FK u t Et).
  - intros u t' E. destruct (Back u t' E) as (t & Et). destruct (sel_back D trips o u t t' N Et E) as (-> & _). destruct (now_nth _ _ _ _ N Et) as (x & Ex).
    unfold distsIn. rewrite Ex. exact (proj1 (n_each _ _ N u t x Et Ex)).
  - intros t' a te dg k I Se K. apply In_nth_error in I. destruct I as (u & E). destruct (Back u t' E) as (t & Et).
    destruct (sel_back D trips o u t t' N Et E) as (Q1 & _ & Q2 & _). rewrite Q1 in K. exact (fk_times _ _ _ _ _ FK t a te dg k (nth_error_In _ _ Et) (Q2 Se) K).
  - destruct (fk_sum _ _ _ _ _ FK) as [M0 MS]. split; [exact M0|]. replace (length (fTrips _ (refeed f trips))) with (length (fTrips _ f)); [exact MS|].
    unfold refeed. cbn. rewrite map_length, combine_length, (n_len _ _ N). lia.
Qed.

(** ** What a configuration gives the workers to do *)
Record gives (D : list config) (g : config) (ph : phase Q) (trips : list (Workers_model.trip Q)) : Prop := {
  gv_n : phN _ ph = oThreads (cOpts g);
  gv_work : work_ok (phJobs _ ph) trips;
  gv_type : forall l, In l (concat (phJobs _ ph)) -> exists u t, In u (lTrips _ _ l) /\ nth_error (fTrips _ f) u = Some t /\ lType _ _ l = fType _ t /\ handles g (fType _ t);
  gv_leaf : forall l, In l (concat (phJobs _ ph)) -> exists ps, lPts _ _ l = map enc ps /\ (N.of_nat (length ps) < 2 ^ 64)%N /\
    forall u, In u (lTrips _ _ l) -> exists t, nth_error (fTrips _ f) u = Some t /\ Cluster_spec.selected (cOpts g) t /\
      shape_for (cWorld g) (posAt (cWorld g)) (fTrip _ t) ps (lDists _ _ l);
  gv_sel : forall u t, nth_error (fTrips _ f) u = Some t -> Cluster_spec.selected (cOpts g) t -> (forall g', In g' D -> ~ handles g' (fType _ t)) ->
    Workers_spec.selected (phJobs _ ph) u
}.
Lemma concat_enc : forall jobs : list (list (leaf points Q)), concat (map (map (encLeaf enc)) jobs) = map (encLeaf enc) (concat jobs).
Proof. intros jobs. symmetry. apply concat_map. Qed.
Lemma enc_work : forall (jobs : list (list (leaf points Q))) trips, work_ok jobs trips -> work_ok (map (map (encLeaf enc)) jobs) trips.
Proof.
  intros jobs trips WO.
  assert (Un : forall l', In l' (concat (map (map (encLeaf enc)) jobs)) -> exists l, l' = encLeaf enc l /\ In l (concat jobs)).
  { intros l' I. rewrite concat_enc in I. apply in_map_iff in I. destruct I as (l & <- & I). eauto. }
  constructor.
  - rewrite concat_enc. replace (flat_map (fun l => lTrips (list pt) Q l) (map (encLeaf enc) (concat jobs))) with (flat_map (lTrips _ _) (concat jobs)); [exact (wo_once _ _ WO)|].
    generalize (concat jobs) as ls. induction ls as [|l ls IH]; cbn; [reflexivity|]. rewrite IH. reflexivity.
  - intros l' u I Iu. destruct (Un l' I) as (l & -> & Il). exact (wo_trips _ _ WO l u Il Iu).
  - intros l' I. destruct (Un l' I) as (l & -> & Il). exact (wo_leaf _ _ WO l Il).
Qed.

Lemma phase_gives : forall D g trips ph, now D trips -> config_ok compile replace posAt f dists g ->
  phaseOf replace enc g (refeed f trips) = Some ph -> gives D g ph trips.
Proof.
  intros D g trips ph N CK Ph. destruct (ck_feed _ _ _ _ _ _ CK) as (M & FK0). pose proof (refeed_ok D trips _ _ M N FK0) as FK.
  destruct (ck_norms _ _ _ _ _ _ CK) as (ops & IL & IS). pose proof (ck_world _ _ _ _ _ _ CK) as WK.
  unfold phaseOf in Ph.
  destruct (C55_clusters (near _ _ _ (cWorld g)) (emptySecs _ _ _ (cWorld g)) compile replace ops (cLineN g) (cStatN g) (cOpts g) (refeed f trips) IL IS
    (nodup_ids _ _ (fk_ids _ _ _ _ _ FK)) (ck_threads _ _ _ _ _ _ CK) (cClust g)) as (st & fo & rest & Cl & CL).
  rewrite Cl in Ph. destruct (ended rest) eqn:En; [|discriminate].
  assert (Dn : forall p, In p rest -> p = []).
  { intros p I. unfold ended in En. rewrite forallb_forall in En. specialize (En p I). destruct p; [reflexivity|discriminate]. }
  specialize (CL Dn). destruct (jobs_ok _ _ WK (cOpts g) (refeed f trips) (distsIn trips) M FK fo (cl_trie_of _ _ _ fo _ _ CL)) as (jobs & Ej & Fl & Hl).
  rewrite Ej in Ph. destruct (forallb _ (concat jobs)) eqn:Sm; [|discriminate]. injection Ph as <-.
  destruct (work _ _ _ _ _ M fo _ _ FK CL jobs Fl Hl) as [WO Sel]. rewrite (refeed_trips D trips N) in WO.
  assert (Lf : forall l, In l (concat jobs) -> forall u, In u (lTrips _ _ l) -> exists t, nth_error (fTrips _ f) u = Some t /\ Cluster_spec.selected (cOpts g) t /\
      shape_for (cWorld g) (posAt (cWorld g)) (fTrip _ t) (lPts _ _ l) (lDists _ _ l)).
  { intros l I u Iu. destruct (proj2 (Hl l I) u Iu) as (t' & E' & Se & Sf). pose proof E' as E2. rewrite refeed_nth in E2.
    destruct (nth_error (fTrips _ f) u) as [t|] eqn:Et; [|discriminate]. destruct (sel_back D trips (cOpts g) u t t' N Et E') as (Q1 & _ & Q2 & _).
    exists t. rewrite <- Q1. auto. }
  assert (Un : forall l', In l' (concat (map (map (encLeaf enc)) jobs)) -> exists l, l' = encLeaf enc l /\ In l (concat jobs)).
  { intros l' I. rewrite concat_enc in I. apply in_map_iff in I. destruct I as (l & <- & I). eauto. }
  assert (Up : forall l, In l (concat jobs) -> In (encLeaf enc l) (concat (map (map (encLeaf enc)) jobs))).
  { intros l I. rewrite concat_enc. apply in_map. exact I. }
  constructor; cbn [phN phJobs].
  - reflexivity.
  - exact (enc_work jobs trips WO).
  - intros l' I. destruct (Un l' I) as (l & -> & Il). pose proof (jobs_typed _ _ _ _ Ej) as Ty. rewrite Forall_forall in Ty. destruct (Ty l Il) as (u & Iu & Eu).
    destruct (Lf l Il u Iu) as (t & Et & Se & _). exists u, t. split; [exact Iu|]. split; [exact Et|]. cbn. split; [|exact (proj2 (proj2 Se))].
    rewrite nth_error_map, refeed_nth, Et in Eu. destruct (nth_error trips u); [|discriminate]. cbn in Eu. congruence.
  - intros l' I. destruct (Un l' I) as (l & -> & Il). exists (lPts _ _ l). split; [reflexivity|]. split; [|exact (Lf l Il)].
    rewrite forallb_forall in Sm. apply N.ltb_lt. exact (Sm l Il).
  - intros u t E Se Nh. destruct (now_nth _ _ _ _ N E) as (x & Ex).
    assert (exists t', nth_error (fTrips _ (refeed f trips)) u = Some t') as (t' & E') by (rewrite refeed_nth, E, Ex; eauto).
    destruct (sel_back D trips (cOpts g) u t t' N E E') as (_ & _ & _ & Q3). apply (proj2 (Sel u t' E')) in Q3; [|exact Se|exact Nh].
    destruct Q3 as (l & Il & Iu). exists (encLeaf enc l). split; [exact (Up l Il)|exact Iu].
Qed.

(** ** One configuration after the other *)
Lemma runC_run : forall jobs sched (ths : list (pc (list pt) Q)) s c ths' s' c', runC Q jobs sched ths s c = Some (ths', s', c') ->
  run _ _ jobs sched ths s = Some (ths', s').
Proof.
  intros jobs. induction sched as [|i r IH]; intros ths s c ths' s' c' R; cbn [runC run] in *; [injection R as <- <- <-; reflexivity|].
  destruct (nth_error ths i); [|eapply IH; exact R]. destruct (step _ _ jobs p s) as [(p', s1)|]; [|discriminate]. eapply IH. exact R.
Qed.
Lemma next_now : forall D g ph trips ids store c trips' ids' store' c', now D trips -> gives D g ph trips -> 0 < phN _ ph ->
  runPhases Q [ph] trips ids store c = Some (trips', ids', store', c') -> now (D ++ [g]) trips'.
Proof.
  intros D g ph trips ids store c trips' ids' store' c' N G Pn R. cbn [runPhases] in R.
  destruct (runC Q _ _ _ _ c) as [((ths, s), c1)|] eqn:RC; [|discriminate]. destruct (forallb (isDone Q) ths) eqn:Dn; [|discriminate]. injection R as <- <- <- <-.
  apply runC_run in RC. destruct (C37_workers _ Q (phJobs _ ph) 0 ids store trips (gv_work _ _ _ _ G) (phN _ ph) (phSched _ ph)) as (ths2 & s2 & R2 & A).
  rewrite RC in R2. injection R2 as <- <-. destruct A as (iss & A); [lia| |].
  { intros p I. rewrite forallb_forall in Dn. specialize (Dn p I). destruct p; try discriminate. reflexivity. }
  constructor; [rewrite (as_count _ _ _ _ _ _ _ A); exact (n_len _ _ N)|]. intros u t x E Ex.
  destruct (sel_dec (phJobs _ ph) u) as [(l & Il & Iu)|NS].
  - pose proof Il as Il0. apply (Permutation_in _ (as_leaves _ _ _ _ _ _ _ A)) in Il. apply in_map_iff in Il. destruct Il as ((id, l') & El & Il). cbn in El. subst l'.
    rewrite (as_trips _ _ _ _ _ _ _ A id l u Il Iu) in Ex. injection Ex as <-. cbn. destruct (gv_leaf _ _ _ _ G l Il0) as (ps & _ & _ & Hu).
    destruct (Hu u Iu) as (t2 & E2 & Se & (cd & h & p & _ & _ & _ & _ & _ & Ld & _)). rewrite E in E2. injection E2 as <-. split; [exact Ld|]. right.
    destruct (as_form _ _ _ _ _ _ _ A id l Il) as (n & _ & ->). split; [apply idOf_ne|]. exists g. split; [apply in_or_app; right; left; reflexivity|]. exact (proj2 (proj2 Se)).
  - rewrite (as_others _ _ _ _ _ _ _ A u NS) in Ex. destruct (n_each _ _ N u t x E Ex) as (Ln & [Sx|(Sx & g' & I & Hg)]); (split; [exact Ln|]); [auto|].
    right. split; [exact Sx|]. exists g'. split; [apply in_or_app; auto|exact Hg].
Qed.

(** The phases of the configurations; [D]: those before. *)
Inductive phasesFor : list config -> list config -> list (phase Q) -> Prop :=
| pf_nil : forall D, phasesFor D [] []
| pf_cons : forall D g cs ph phs trips, now D trips -> gives D g ph trips -> phasesFor (D ++ [g]) cs phs -> phasesFor D (g :: cs) (ph :: phs).

Lemma configs_phases : forall cs D trips ids store c r, Forall (config_ok compile replace posAt f dists) cs -> now D trips ->
  runConfigs replace enc cs f trips ids store c = Some r -> exists phs, phasesFor D cs phs /\ runPhases Q phs trips ids store c = Some r.
Proof.
  induction cs as [|g cs IH]; intros D trips ids store c r CK N R; cbn [runConfigs] in R; [exists []; split; [constructor|exact R]|].
  inversion CK as [|? ? CK1 CK2]; subst. destruct (phaseOf replace enc g (refeed f trips)) as [ph|] eqn:Ph; [|discriminate].
  pose proof (phase_gives D g trips ph N CK1 Ph) as G. destruct (runPhases Q [ph] trips ids store c) as [(((trips', ids'), store'), c')|] eqn:R1; [|discriminate].
  assert (Pn : 0 < phN _ ph) by (rewrite (gv_n _ _ _ _ G); exact (ck_threads _ _ _ _ _ _ CK1)).
  pose proof (next_now D g ph trips ids store c trips' ids' store' c' N G Pn R1) as N'.
  destruct (IH (D ++ [g]) trips' ids' store' c' r CK2 N' R) as (phs & Pf & Rp). exists (ph :: phs). split; [econstructor; eassumption|].
  cbn [runPhases] in R1 |- *. destruct (runC Q _ _ _ _ c) as [((ths, s), c1)|]; [|discriminate]. destruct (forallb (isDone Q) ths); [|discriminate].
  injection R1 as <- <- <- <-. exact Rp.
Qed.

Lemma pf_in : forall D cs phs, phasesFor D cs phs -> forall ph, In ph phs -> exists D' g trips, In g cs /\ now D' trips /\ gives D' g ph trips.
Proof. induction 1 as [|D g cs ph phs trips N G _ IH]; intros ph' []; [subst; exists D, g, trips; cbn; auto|]. destruct (IH ph' H) as (D' & g' & tr & I & X'). exists D', g', tr. cbn. auto. Qed.
Lemma pf_types : forall D cs phs, phasesFor D cs phs -> apart cs -> forall a ph b ph', phs = a ++ ph :: b -> In ph' b ->
  forall l l', In l (concat (phJobs _ ph)) -> In l' (concat (phJobs _ ph')) -> lType _ _ l <> lType _ _ l'.
Proof.
  induction 1 as [|D g cs ph phs trips N G Pf IH]; intros Ap a p b p' E I l l' Il Il'; [now destruct a|]. destruct Ap as [Ap1 Ap2].
  destruct a as [|q a]; cbn in E; injection E; intros; subst; [|exact (IH Ap2 _ _ _ _ eq_refl I l l' Il Il')].
  destruct (pf_in _ _ _ Pf p' I) as (D' & g' & tr & Ig & _ & G'). destruct (gv_type _ _ _ _ G l Il) as (u & t & _ & _ & -> & Hg).
  destruct (gv_type _ _ _ _ G' l' Il') as (u' & t' & _ & _ & -> & Hg'). intros Eq. rewrite Eq in Hg. exact (Ap1 g' _ Ig Hg Hg').
Qed.
(** A trip that a configuration selects is shaped by this configuration. *)
Lemma pf_shaped : forall D cs phs, phasesFor D cs phs -> apart cs -> (forall g g' ty, In g D -> In g' cs -> handles g ty -> ~ handles g' ty) ->
  forall g u t, In g cs -> nth_error (fTrips _ f) u = Some t -> Cluster_spec.selected (cOpts g) t ->
  exists l ps, shaped_by phs u l /\ lPts _ _ l = map enc ps /\ shape_for (cWorld g) (posAt (cWorld g)) (fTrip _ t) ps (lDists _ _ l).
Proof.
  induction 1 as [|D g0 cs ph phs trips N G Pf IH]; intros Ap Dc g u t I E Se; [destruct I|]. destruct Ap as [Ap1 Ap2]. pose proof (proj2 (proj2 Se)) as Hg.
  destruct I as [->|I].
  - destruct (gv_sel _ _ _ _ G u t E Se) as (l & Il & Iu).
    { intros g' Ig' Hg'. exact (Dc g' g _ Ig' (or_introl eq_refl) Hg' Hg). }
    destruct (gv_leaf _ _ _ _ G l Il) as (ps & Ep & _ & Hu). destruct (Hu u Iu) as (t2 & E2 & _ & Sf). rewrite E in E2. injection E2 as <-.
    exists l, ps. split; [|auto]. exists [], ph, phs. split; [reflexivity|]. split; [exact Il|]. split; [exact Iu|]. intros p' Ip' (l2 & Il2 & Iu2).
    destruct (pf_in _ _ _ Pf p' Ip') as (D' & g' & tr & Ig & _ & G'). destruct (gv_leaf _ _ _ _ G' l2 Il2) as (ps2 & _ & _ & Hu2).
    destruct (Hu2 u Iu2) as (t2 & E2 & Se2 & _). rewrite E in E2. injection E2 as <-. exact (Ap1 g' _ Ig Hg (proj2 (proj2 Se2))).
  - destruct (IH Ap2) with (g := g) (u := u) (t := t) as (l & ps & (a & p & b & -> & Il & Iu & Ub) & Sf); [|exact I|exact E|exact Se|].
    { intros g1 g2 ty I1 I2 H1. apply in_app_or in I1. destruct I1 as [I1|[<-|[]]]; [apply (Dc g1 g2 ty I1 (or_intror I2) H1)|exact (Ap1 g2 ty I2 H1)]. }
    exists l, ps. split; [|exact Sf]. exists (ph :: a), p, b. auto.
Qed.

(** ** The run ends *)

Lemma run_runC : forall jobs sched (ths : list (pc (list pt) Q)) s c ths' s', run _ _ jobs sched ths s = Some (ths', s') ->
  exists c', runC Q jobs sched ths s c = Some (ths', s', c').
Proof.
  intros jobs. induction sched as [|i r IH]; intros ths s c ths' s' R; cbn [runC run] in *; [injection R as <- <-; eauto|].
  destruct (nth_error ths i); [|eapply IH; exact R]. destruct (step _ _ jobs p s) as [(p', s1)|]; [|discriminate]. eapply IH. exact R.
Qed.
Lemma turns_sched : forall turns n, exists sched, forall i, i < n -> turns <= count_occ Nat.eq_dec sched i.
Proof.
  intros turns n. exists (concat (repeat (seq 0 n) turns)). intros i Li. induction turns as [|k IH]; [lia|]. cbn [repeat concat].
  rewrite count_occ_app. assert (0 < count_occ Nat.eq_dec (seq 0 n) i); [|lia]. apply count_occ_In. apply in_seq. lia.
Qed.
Lemma phase_can : forall D g trips, now D trips -> config_ok compile replace posAt f dists g -> forall ids0 store c,
  huge posAt f g \/ exists cc cw ph trips' ids' store' c',
  phaseOf replace enc (mkConf (cWorld g) (cOpts g) (cLineN g) (cStatN g) cc cw) (refeed f trips) = Some ph /\
  runPhases Q [ph] trips ids0 store c = Some (trips', ids', store', c').
Proof.
  intros D g trips N CKg ids0 store c. destruct (ck_feed _ _ _ _ _ _ CKg) as (M & FK0). pose proof (refeed_ok D trips _ _ M N FK0) as FK.
  destruct (ck_norms _ _ _ _ _ _ CKg) as (ops & IL & IS). pose proof (ck_world _ _ _ _ _ _ CKg) as WK.
  destruct (C38_workers_finish (near _ _ _ (cWorld g)) (emptySecs _ _ _ (cWorld g)) compile replace ops (cLineN g) (cStatN g) (cOpts g) (refeed f trips) IL IS
    (nodup_ids _ _ (fk_ids _ _ _ _ _ FK)) (ck_threads _ _ _ _ _ _ CKg)) as (cc & st & fo & rest & Cl & Dn).
  destruct (C55_clusters (near _ _ _ (cWorld g)) (emptySecs _ _ _ (cWorld g)) compile replace ops (cLineN g) (cStatN g) (cOpts g) (refeed f trips) IL IS
    (nodup_ids _ _ (fk_ids _ _ _ _ _ FK)) (ck_threads _ _ _ _ _ _ CKg) cc) as (st2 & fo2 & rest2 & Cl2 & CL).
  rewrite Cl in Cl2. injection Cl2 as <- <- <-. specialize (CL Dn).
  destruct (jobs_ok _ _ WK (cOpts g) (refeed f trips) (distsIn trips) M FK fo (cl_trie_of _ _ _ fo _ _ CL)) as (jobs & Ej & Fl & Hl).
  destruct (forallb (fun l => N.ltb (N.of_nat (length (lPts _ _ l))) (2 ^ 64)) (concat jobs)) eqn:Sm.
  2:{ left. assert (exists l, In l (concat jobs) /\ N.ltb (N.of_nat (length (lPts _ _ l))) (2 ^ 64) = false) as (l & Il & Bg).
      { clear - Sm. induction (concat jobs) as [|l ls IH]; [discriminate|]. cbn [forallb] in Sm. destruct (N.ltb _ _) eqn:E; [|exists l; cbn; auto].
        destruct (IH Sm) as (l' & I' & E'). exists l'. cbn. auto. }
      apply N.ltb_ge in Bg. destruct (Hl l Il) as (Ne & Hu). destruct (lTrips _ _ l) as [|u us]; [contradiction|]. destruct (Hu u (or_introl eq_refl)) as (t' & E' & _ & Sf).
      pose proof E' as E2. rewrite refeed_nth in E2. destruct (nth_error (fTrips _ f) u) as [t|] eqn:Et; [|discriminate].
      destruct (sel_back D trips (cOpts g) u t t' N Et E') as (Q1 & _). rewrite Q1 in Sf. exists t, (lPts _ _ l), (lDists _ _ l). split; [eapply nth_error_In; exact Et|auto]. }
  right. set (jb := map (map (encLeaf enc)) jobs). pose proof (C38_shape_workers_finish _ Q jb 0 ids0 store trips (oThreads (cOpts g))) as (turns & T).
  destruct (turns_sched turns (oThreads (cOpts g))) as (cw & Cw).
  assert (Ph : phaseOf replace enc (mkConf (cWorld g) (cOpts g) (cLineN g) (cStatN g) cc cw) (refeed f trips) = Some (mkPhase Q jb (oThreads (cOpts g)) cw)).
  { unfold phaseOf. cbn [cWorld cOpts cLineN cStatN cClust cWork]. rewrite Cl.
    assert (ended rest = true) as -> by (unfold ended; apply forallb_forall; intros p I; rewrite (Dn p I); reflexivity). rewrite Ej, Sm. reflexivity. }
  exists cc, cw, (mkPhase Q jb (oThreads (cOpts g)) cw).
  assert (WO : work_ok jb trips).
  { destruct (work _ _ _ _ _ M fo _ _ FK CL jobs Fl Hl) as [WO _]. rewrite (refeed_trips D trips N) in WO. exact (enc_work jobs trips WO). }
  destruct (C37_workers _ Q jb 0 ids0 store trips WO (oThreads (cOpts g)) cw) as (ths & s & R & _). pose proof (T cw Cw ths s R) as Dt.
  destruct (run_runC _ _ _ _ c _ _ R) as (c' & RC). exists (sTrips _ _ s), (sIds _ _ s), (sStore _ _ s), c'. split; [exact Ph|].
  cbn [runPhases phN phJobs phSched]. rewrite RC.
  assert (forallb (isDone Q) ths = true) as -> by (apply forallb_forall; intros p I; rewrite (Dt p I); reflexivity). reflexivity.
Qed.
Lemma same_ok : forall g g', same_but g g' -> config_ok compile replace posAt f dists g -> config_ok compile replace posAt f dists g'.
Proof.
  intros g g' (E1 & E2 & E3 & E4) H. constructor; rewrite ?E1, ?E2, ?E3, ?E4;
    [exact (ck_world _ _ _ _ _ _ H)|exact (ck_feed _ _ _ _ _ _ H)|exact (ck_threads _ _ _ _ _ _ H)|exact (ck_norms _ _ _ _ _ _ H)].
Qed.
Lemma configs_can : forall ks D trips ids0 store c, Forall (config_ok compile replace posAt f dists) ks -> now D trips ->
  (exists g, In g ks /\ huge posAt f g) \/ exists ks' r, Forall2 same_but ks ks' /\ runConfigs replace enc ks' f trips ids0 store c = Some r.
Proof.
  induction ks as [|g ks IH]; intros D trips ids0 store c Ck N; [right; exists []; eexists; split; [constructor|reflexivity]|].
  inversion Ck as [|? ? Ck1 Ck2]; subst. destruct (phase_can D g trips N Ck1 ids0 store c) as [Hg|(cc & cw & ph & trips' & ids' & store' & c' & Ph & R)]; [left; exists g; cbn; auto|].
  set (g' := mkConf (cWorld g) (cOpts g) (cLineN g) (cStatN g) cc cw) in *. assert (Sb : same_but g g') by (repeat split).
  pose proof (same_ok g g' Sb Ck1) as Ck'. pose proof (phase_gives D g' trips ph N Ck' Ph) as G.
  assert (Pn : 0 < phN _ ph) by (rewrite (gv_n _ _ _ _ G); exact (ck_threads _ _ _ _ _ _ Ck')).
  pose proof (next_now D g' ph trips _ _ _ _ _ _ _ N G Pn R) as N'.
  destruct (IH (D ++ [g']) trips' ids' store' c' Ck2 N') as [(g1 & I & Hg)|(ks' & r & F & Rc)]; [left; exists g1; cbn; auto|].
  right. exists (g' :: ks'), r. split; [constructor; assumption|]. cbn [runConfigs]. rewrite Ph, R. exact Rc.
Qed.

(** ** The files *)
Section Files.
Variables wa wb wd : nat.
Variable cs : list config.
Variables (sids : list string) (old : list row) (ids : list string) (seqs : list (list N)) (rows : list (strow Q X)).
Hypothesis Pw : 0 < wa + wb + wd.
Hypothesis We : forall p, length (pLat (enc p)) = wa /\ length (pLng (enc p)) = wb /\ length (pDist (enc p)) = wd.
Hypothesis CK : Forall (config_ok compile replace posAt f dists) cs.
Hypothesis Ap : apart cs.
Hypothesis Ld : forall u t, nth_error (fTrips _ f) u = Some t -> length (dists u) = length (tSts _ (fTrip _ t)).
Hypothesis Nc : forall t ty n, In t (fTrips _ f) -> fShape _ t <> idOf ty n.
Hypothesis Ho : forall x, In x old -> wId x <> ""%string /\ In (wId x) sids.
Hypothesis Rf : read_from rows trips0 ids seqs.

Lemma now0 : now [] trips0.
Proof.
  constructor; [apply tripsOf_len|]. intros u t x E Ex. rewrite tripsOf_nth, E in Ex. injection Ex as <-. cbn. split; [exact (Ld u t E)|auto].
Qed.
Lemma pf_leaf : forall phs, phasesFor [] cs phs -> forall l, leaf_of phs l -> exists D g ph tr, In g cs /\ In ph phs /\ now D tr /\ gives D g ph tr /\ In l (concat (phJobs _ ph)).
Proof.
  intros phs Pf l (ph & I & Il). destruct (pf_in _ _ _ Pf ph I) as (D & g & tr & Ig & Nw & G). exists D, g, ph, tr. auto.
Qed.
Lemma pf_ok : forall phs, phasesFor [] cs phs -> phases_ok wa wb wd phs trips0 /\ ids_distinct phs trips0.
Proof.
  intros phs Pf. pose proof (pf_leaf phs Pf) as Lf.
  assert (PO : phases_ok wa wb wd phs trips0).
  { constructor.
    - intros ph I. destruct (pf_in _ _ _ Pf ph I) as (D & g & tr & Ig & Nw & G). rewrite (gv_n _ _ _ _ G). rewrite Forall_forall in CK. pose proof (ck_threads _ _ _ _ _ _ (CK g Ig)). lia.
    - intros ph I. destruct (pf_in _ _ _ Pf ph I) as (D & g & tr & Ig & Nw & G). exact (wo_once _ _ (gv_work _ _ _ _ G)).
    - intros l u L Iu. destruct (Lf l L) as (D & g & ph & tr & Ig & Ip & Nw & G & Il). destruct (gv_leaf _ _ _ _ G l Il) as (ps & _ & _ & Hu).
      destruct (Hu u Iu) as (t & E & _ & (cd & h & p & _ & _ & _ & _ & _ & Ld2 & _)). exists (mkTrip Q (fShape _ t) (dists u)). rewrite tripsOf_nth, E. split; [reflexivity|]. cbn.
      rewrite (Ld u t E). symmetry. exact Ld2.
    - intros l L. destruct (Lf l L) as (D & g & ph & tr & Ig & Ip & Nw & G & Il). exact (wo_leaf _ _ (gv_work _ _ _ _ G) l Il).
    - exact (pf_types _ _ _ Pf Ap).
    - intros l L. destruct (Lf l L) as (D & g & ph & tr & Ig & Ip & Nw & G & Il). destruct (gv_leaf _ _ _ _ G l Il) as (ps & Ep & Sm & Hu).
      rewrite Ep, map_length. split; [|split; [exact Sm|]].
      + pose proof (wo_leaf _ _ (gv_work _ _ _ _ G) l Il) as Ne. destruct (lTrips _ _ l) as [|u0 us]; [contradiction|].
        destruct (Hu u0 (or_introl eq_refl)) as (t & _ & _ & (cd & h & p & _ & _ & _ & _ & Me & _)). destruct (me_first _ _ _ _ _ _ Me) as (q & tl & ->). discriminate.
      + intros p I. apply in_map_iff in I. destruct I as (q & <- & _). exact (We q). }
  assert (ID : ids_distinct phs trips0).
  { intros u x l n Ex _. rewrite tripsOf_nth in Ex. destruct (nth_error (fTrips _ f) u) as [t|] eqn:E; [|discriminate]. injection Ex as <-. cbn. apply Nc. eapply nth_error_In. exact E. }
  auto.
Qed.
Lemma output_main : forall trips' shapes rows', outputFiles replace enc wa wb wd cs f dists sids (Some old) ids seqs rows = Some (trips', shapes, rows') ->
  output_ok enc (serving posAt) cs f dists sids old ids seqs rows trips' shapes rows'.
Proof.
  intros trips' shapes rows' R. unfold outputFiles in R.
  destruct (runConfigs replace enc cs f trips0 sids [] _) as [(((tr1, ids1), st1), c1)|] eqn:RC; [|discriminate].
  destruct (configs_phases cs [] trips0 sids [] _ _ CK now0 RC) as (phs & Pf & Rp).
  destruct (writeShapes wa wb wd c1 (Some old)) as [(sh, rest)|] eqn:Ws; [|discriminate].
  destruct (writeStopTimes Q X _ rows) as [rows1|] eqn:Wt; [|discriminate]. injection R as -> -> ->.
  pose proof (pf_leaf phs Pf) as Lf. destruct (pf_ok phs Pf) as [PO ID].
  assert (WR : wholeRun Q wa wb wd phs trips0 sids (Some old) = Some (trips', shapes)) by (unfold wholeRun; rewrite Rp, Ws; reflexivity).
  destruct (files_ok wa wb wd Pw trips0 sids phs old PO ID Ho rows ids seqs Rf trips' shapes WR) as (rows2 & WF & SW & DW).
  unfold wholeFiles in WF. rewrite WR, Wt in WF. injection WF as <-.
  assert (Back : forall u t, nth_error (fTrips _ f) u = Some t -> (forall g, In g cs -> ~ Cluster_spec.selected (cOpts g) t) -> untouched phs u).
  { intros u t E NS ph I (l & Il & Iu). destruct (pf_in _ _ _ Pf ph I) as (D & g & tr & Ig & Nw & G). destruct (gv_leaf _ _ _ _ G l Il) as (ps & _ & _ & Hu).
    destruct (Hu u Iu) as (t2 & E2 & Se & _). rewrite E in E2. injection E2 as <-. exact (NS g Ig Se). }
  constructor.
  - rewrite (sw_count _ _ _ _ _ _ SW), tripsOf_len. reflexivity.
  - intros g u t Ig E Se. destruct (pf_shaped [] cs phs Pf Ap ltac:(intros ? ? ? []) g u t Ig E Se) as (l & ps & Sb & Ep & Sf).
    destruct (sw_new _ _ _ _ _ _ SW u l Sb) as (id & Et & Wi). exists id, ps, (lDists _ _ l). split; [exact Et|]. split; [exact Sf|]. split; [rewrite Wi, Ep; reflexivity|].
    intros k r r' ns i Er Er' Eu En Ei.
    assert (exists d, nth_error (lDists _ _ l) i = Some d) as (d & Ed).
    { apply nth_ex. destruct Sf as (cd & h & p & _ & _ & _ & _ & _ & Ld2 & _). rewrite Ld2, <- (Ld u t E). destruct Rf as (_ & _ & _ & Rl & _).
      destruct (Rl u ns (mkTrip Q (fShape _ t) (dists u)) En ltac:(rewrite tripsOf_nth, E; reflexivity)) as (Ln & _). cbn in Ln. rewrite <- Ln. eapply nth_lt. exact Ei. }
    rewrite Ed. f_equal. symmetry. exact (dw_new _ _ _ _ _ DW k r r' u l ns i d Er Er' Sb Eu En Ei Ed).
  - intros u t E NS. pose proof (Back u t E NS) as Ut. destruct (sw_old _ _ _ _ _ _ SW u (mkTrip Q (fShape _ t) (dists u)) Ut ltac:(rewrite tripsOf_nth, E; reflexivity)) as (A & B).
    split; [exact A|]. split; [exact B|]. intros k r r' Er Er' Eu. exact (dw_old _ _ _ _ _ DW k r r' u Er Er' Ut Eu).
  - intros y Iy Ny. apply (sw_unused _ _ _ _ _ _ SW y Iy). intros u x Ex. rewrite tripsOf_nth in Ex. destruct (nth_error (fTrips _ f) u) as [t|] eqn:E; [|discriminate].
    injection Ex as <-. cbn. apply Ny. eapply nth_error_In. exact E.
  - intros x Ix. destruct (sw_rows _ _ _ _ _ _ SW x Ix) as [I|(id & l & L & I)]; [auto|]. right. destruct (Lf l L) as (D & g & ph & tr & Ig & Ip & Nw & G & Il).
    destruct (gv_leaf _ _ _ _ G l Il) as (ps & Ep & _ & Hu). pose proof (wo_leaf _ _ (gv_work _ _ _ _ G) l Il) as Ne. destruct (lTrips _ _ l) as [|u0 us]; [contradiction|].
    destruct (Hu u0 (or_introl eq_refl)) as (t & E & Se & Sf). exists id, ps, (lDists _ _ l), g, t. rewrite <- Ep. split; [exact Ig|]. split; [eapply nth_error_In; exact E|auto].
  - exact (dw_rows _ _ _ _ _ DW).
Qed.
Lemma shapes_can : forall phs, phasesFor [] cs phs -> forall tr ids1 st1 c1, runPhases Q phs trips0 sids [] (fold_left apply (map OReg sids) newC) = Some (tr, ids1, st1, c1) ->
  exists sh rest, writeShapes wa wb wd c1 (Some old) = Some (sh, rest).
Proof.
  intros phs Pf tr ids1 st1 c1 R. destruct (pf_ok phs Pf) as [PO ID].
  pose proof (phases_inv wa wb wd trips0 sids phs PO ID phs [] _ _ _ _ _ _ _ _ eq_refl (inv_start wa wb wd trips0 sids) R) as V.
  destruct (iterate_rep wa wb wd Pw c1 _ st1 (v_rep _ _ _ _ _ _ _ _ _ _ V) (v_ok _ _ _ _ _ _ _ _ _ _ V)) as (c' & It & _).
  unfold writeShapes. rewrite It. eauto.
Qed.
Lemma output_can : forall r, runConfigs replace enc cs f trips0 sids [] (fold_left apply (map OReg sids) newC) = Some r ->
  exists o, outputFiles replace enc wa wb wd cs f dists sids (Some old) ids seqs rows = Some o.
Proof.
  intros (((tr1, ids1), st1), c1) RC. destruct (configs_phases cs [] trips0 sids [] _ _ CK now0 RC) as (phs & Pf & Rp).
  destruct (shapes_can phs Pf _ _ _ _ Rp) as (sh & rest & Ws). destruct (pf_ok phs Pf) as [PO ID].
  assert (WR : wholeRun Q wa wb wd phs trips0 sids (Some old) = Some (tr1, sh)) by (unfold wholeRun; rewrite Rp, Ws; reflexivity).
  destruct (files_ok wa wb wd Pw trips0 sids phs old PO ID Ho rows ids seqs Rf tr1 sh WR) as (rows2 & WF & _).
  unfold wholeFiles in WF. rewrite WR in WF. unfold outputFiles. rewrite RC, Ws. destruct (writeStopTimes Q X _ rows) as [rows1|]; [eauto|discriminate].
Qed.
End Files.
Lemma same_handles : forall (g g' : config) ty, same_but g g' -> handles g ty <-> handles g' ty.
Proof. intros g g' ty (_ & E & _). unfold handles. rewrite E. tauto. Qed.
Lemma same_apart : forall ks ks' : list config, Forall2 same_but ks ks' -> apart ks -> apart ks'.
Proof.
  induction 1 as [|g g' ks ks' Sb F IH]; cbn; [auto|]. intros (A & B). split; [|auto]. intros h' ty I Hg. apply (same_handles _ _ ty Sb) in Hg.
  assert (exists h, In h ks /\ same_but h h') as (h & Ih & Sh).
  { clear - F I. induction F as [|a b l k S F IH]; [destruct I|]. destruct I as [<-|I]; [exists a; cbn; auto|]. destruct (IH I) as (h & X1 & X2). exists h. cbn. auto. }
  intros Hh. apply (same_handles _ _ ty Sh) in Hh. exact (A h ty Ih Hg Hh).
Qed.
Lemma same_cok : forall ks ks', Forall2 same_but ks ks' -> Forall (config_ok compile replace posAt f dists) ks -> Forall (config_ok compile replace posAt f dists) ks'.
Proof. induction 1 as [|g g' ks ks' Sb F IH]; intros H; [constructor|]. inversion H; subst. constructor; [eapply same_ok; eassumption|auto]. Qed.
Lemma output_imp : forall (A B : config -> TripTrie_model.trip pos -> points -> list Q -> Prop) (cs : list config) sids old ids seqs (rows : list (strow Q X)) trips' shapes rows',
  (forall g t ps ds, In g cs -> A g t ps ds -> B g t ps ds) ->
  output_ok enc A cs f dists sids old ids seqs rows trips' shapes rows' -> output_ok enc B cs f dists sids old ids seqs rows trips' shapes rows'.
Proof.
  intros A B cs sids old ids seqs rows trips' shapes rows' AB [H1 H2 H3 H4 H5 H6]. constructor; try assumption.
  - intros g u t I E Se. destruct (H2 g u t I E Se) as (id & ps & ds & X1 & X2 & X3). exists id, ps, ds. split; [exact X1|]. split; [now apply AB|exact X3].
  - intros x Ix. destruct (H5 x Ix) as [X0|(id & ps & ds & g & t & X1 & X2 & X3 & X4 & X5)]; [auto|]. right. exists id, ps, ds, g, t. split; [exact X1|]. split; [exact X2|]. split; [exact X3|]. split; [now apply AB|exact X5].
Qed.
End P.
