(** C63: the area of the OSM data that is read for a feed. *)
From Coq Require Import Ascii String List Arith ZArith QArith Bool Lia.
From Verif Require Import ListAux TripTrie_model Cluster_model BBoxIdx_model BBoxIdx_spec BBoxIdx_proofs BBoxIdx_props Box_model Box_spec Box_proofs.
Import ListNotations.
Open Scope nat_scope.
Open Scope list_scope.

Section Props.
Variable M : Z.
Variable pad : box -> box.
Variable area : box -> box -> Z.
Variable hav : pt -> pt -> Q.
Variable emptySecs : Z.
Notation cfgBox := (cfgBox M pad area hav emptySecs).
Notation extractBox := (extractBox M pad area hav emptySecs).
Notation stops_at := (stops_at hav emptySecs).
Notation regular := (regular hav emptySecs).

(** One box is added for every trip to be matched, in the order of the feed, and no other: the
    smallest around the stops that are no outliers. *)
Theorem C63_boxes : forall trips mots tid drop v ds0, (0 < v)%Q -> Forall (located M) trips ->
  exists pick bs,
    (forall t, pick t = true <-> wanted mots tid drop t) /\
    fst (cfgBox trips mots tid drop v ds0) = adds M pad area bs /\
    Forall2 (fun t b => smallest (stops_at v (tSts _ (fTrip _ t))) b) (filter pick trips) bs.
Proof.
  intros trips mots tid drop v ds0 V L. destruct (gtfsBox_ok M pad area hav emptySecs v mots tid drop trips (newIdx M) ds0 V L) as (bs & dss & E & _ & F & _).
  exists (fun t => negb (boxSkips mots tid drop t)), bs. split; [|split; [exact E|exact F]]. intros t. rewrite negb_true_iff. exact (skips_iff mots tid drop t).
Qed.

(** The hop distances are those between consecutive stops of these trips, after those of
    earlier configurations. *)
Theorem C63_hops : forall trips mots tid drop v ds0, (0 < v)%Q -> Forall (located M) trips ->
  exists pick dss,
    (forall t, pick t = true <-> wanted mots tid drop t) /\
    snd (cfgBox trips mots tid drop v ds0) = ds0 ++ concat dss /\
    Forall2 (fun t ds => hops hav (tSts _ (fTrip _ t)) ds) (filter pick trips) dss.
Proof.
  intros trips mots tid drop v ds0 V L. destruct (gtfsBox_ok M pad area hav emptySecs v mots tid drop trips (newIdx M) ds0 V L) as (bs & dss & _ & E & _ & F).
  exists (fun t => negb (boxSkips mots tid drop t)), dss. split; [|split; [exact E|exact F]]. intros t. rewrite negb_true_iff. exact (skips_iff mots tid drop t).
Qed.

Lemma found : forall bs b p q v sts, padding pad -> In b bs -> smallest (stops_at v sts) b -> stops_at v sts p -> around_stop pad p q -> hasPoint (adds M pad area bs) q = true.
Proof.
  intros bs b p q v sts (_ & P) I (S & _) H A. apply (C05_found M pad area bs b q I).
  specialize (S p H). unfold around_stop in A. specialize (P (mkBox (fst p) (snd p) (fst p) (snd p)) b). unfold within, inside in *. cbn in P.
  destruct P as (P1 & P2 & P3 & P4); [repeat split; lia|]. lia.
Qed.

(** Every stop of every trip to be matched is in the area read, with the padding around it,
    unless it is an outlier. *)
Theorem C63_covered : forall trips mots tid drop v ds0 t i s q, (0 < v)%Q -> padding pad -> Forall (located M) trips ->
  In t trips -> wanted mots tid drop t -> nth_error (tSts _ (fTrip _ t)) i = Some s -> regular v (tSts _ (fTrip _ t)) i ->
  around_stop pad (sPos _ (stStop _ s)) q -> hasPoint (fst (cfgBox trips mots tid drop v ds0)) q = true.
Proof.
  intros trips mots tid drop v ds0 t i s q V P L I W N R A.
  destruct (C63_boxes trips mots tid drop v ds0 V L) as (pick & bs & PK & E & F). rewrite E.
  assert (IF : In t (filter pick trips)) by (apply filter_In; split; [exact I|now apply PK]).
  apply In_nth_error in IF. destruct IF as (k & K).
  assert (KB : exists b, nth_error bs k = Some b /\ smallest (stops_at v (tSts _ (fTrip _ t))) b).
  { clear - F K. revert k K. induction F as [|x y l l' H F IH]; intros k K; [destruct k; discriminate|]. destruct k as [|k]; cbn in K |- *; [injection K as <-; eauto|auto]. }
  destruct KB as (b & NB & SB). apply (found bs b (sPos _ (stStop _ s)) q v (tSts _ (fTrip _ t)) P (nth_error_In _ _ NB) SB); [|exact A].
  exists i, s. repeat split; auto.
Qed.

(** The first and the last stop are never left out. *)
Theorem C63_ends : forall v sts i, i = 0 \/ S i = length sts -> regular v sts i.
Proof.
  intros v sts i H j E (p & s & n & dp & a & d & an & _ & _ & N & _). subst i. apply nth_lt in N. destruct H; lia.
Qed.

(** The trips that are matched (see C55) are those. *)
Theorem C63_matched : forall o (t : ftrip pt), (forall m, In m (oMots o) -> In m (oCfgMots o)) ->
  (skipped pt o t = false <-> wanted (oMots o) None (oDrop o) t).
Proof.
  intros o t S. unfold skipped, wanted. rewrite !orb_false_iff, !negb_false_iff, Nat.ltb_ge, andb_false_iff, !negb_false_iff, String.eqb_eq.
  assert (X : forall l, existsb (Nat.eqb (fType _ t)) l = true <-> In (fType _ t) l).
  { intros l. rewrite existsb_exists. split; [intros (x & I & E); apply Nat.eqb_eq in E; now subst|intros I; exists (fType _ t); split; [auto|apply Nat.eqb_refl]]. }
  rewrite !X. split; [tauto|]. intros (A & B & C). split; [auto|]. split; [exact A|apply S, A].
Qed.

(** The area of an extract covers the stops of all feeds that any later run with types among
    the given ones, any configuration and either treatment of shapes needs. *)
Theorem C63_extract : forall feeds cmd vs trips mots drop v t i s q, (forall a b, 0 <= hav a b)%Q -> (0 < v)%Q -> In v vs ->
  padding pad -> Forall (Forall (located M)) feeds -> (forall m, In m mots -> In m cmd) ->
  In trips feeds -> In t trips -> wanted mots None drop t -> nth_error (tSts _ (fTrip _ t)) i = Some s -> regular v (tSts _ (fTrip _ t)) i ->
  around_stop pad (sPos _ (stStop _ s)) q -> hasPoint (extractBox feeds cmd None vs) q = true.
Proof.
  intros feeds cmd vs trips mots drop v t i s q D V IV P L SUB IT I W N R A.
  assert (LE : (v <= maxSpeed vs)%Q) by (apply maxSpeed_ge; auto).
  assert (VM : (0 < maxSpeed vs)%Q) by (eapply Qlt_le_trans; eauto).
  destruct (extract_ok M pad area hav emptySecs (maxSpeed vs) cmd None feeds (newIdx M) VM L) as (bs & E & F).
  unfold Box_model.extractBox. rewrite E. fold (adds M pad area bs).
  assert (IF : In t (filter (fun t => negb (boxSkips cmd None true t)) (concat feeds))).
  { apply filter_In. split; [apply in_concat; eauto|]. rewrite negb_true_iff. apply skips_iff. destruct W as (W1 & W2 & _). repeat split; auto. }
  apply In_nth_error in IF. destruct IF as (k & K).
  assert (KB : exists b, nth_error bs k = Some b /\ smallest (stops_at (maxSpeed vs) (tSts _ (fTrip _ t))) b).
  { clear - F K. revert k K. induction F as [|x y l l' H F IH]; intros k K; [destruct k; discriminate|]. destruct k as [|k]; cbn in K |- *; [injection K as <-; eauto|auto]. }
  destruct KB as (b & NB & SB). apply (found bs b (sPos _ (stStop _ s)) q (maxSpeed vs) (tSts _ (fTrip _ t)) P (nth_error_In _ _ NB) SB); [|exact A].
  exists i, s. repeat split; auto. intros j EJ O. apply (R j EJ). revert O. now apply outlier_mono.
Qed.
End Props.
Print Assumptions C63_boxes.
Print Assumptions C63_hops.
Print Assumptions C63_covered.
Print Assumptions C63_ends.
Print Assumptions C63_matched.
Print Assumptions C63_extract.

(** Nothing is read if there is no trip to be matched. *)
Theorem C63_only : forall M pad area hav emptySecs trips mots tid drop v ds0 q, (0 < v)%Q -> Forall (located M) trips -> (0 < M)%Z ->
  (forall t, wanted mots tid drop t -> ~ In t trips) -> hasPoint (fst (cfgBox M pad area hav emptySecs trips mots tid drop v ds0)) q = false.
Proof.
  intros M pad area hav es trips mots tid drop v ds0 q V L PM NO.
  destruct (C63_boxes M pad area hav es trips mots tid drop v ds0 V L) as (pick & bs & PK & E & F). rewrite E.
  destruct (filter pick trips) as [|t r] eqn:FI.
  - inversion F; subst. exact (proj2 (C04_size M pad area []) PM q).
  - exfalso. assert (I : In t (filter pick trips)) by (rewrite FI; left; reflexivity). apply filter_In in I. destruct I as (I & K). apply (NO t); [now apply PK|exact I].
Qed.
Print Assumptions C63_only.

(** A trip with a shape, one without, and one whose third of four stops is far away. *)
Definition exSt (x y : Z) (a : Z) : stime pt := mkSt _ (mkStop _ "s"%string ""%string (x, y)) (Some a) (Some a).
Definition exT (id : nat) (sh : string) (sts : list (stime pt)) : ftrip pt := mkFt _ (mkTrip _ id sts) sh 3 "1"%string ""%string ""%string.
Definition exHav (a b : pt) : Q := inject_Z (Z.abs (fst a - fst b) + Z.abs (snd a - snd b)).
Definition exTrips : list (ftrip pt) :=
  [exT 0 "x" [exSt 8 8 0; exSt 13 13 60]; exT 1 "" [exSt 0 0 0; exSt 5 5 60]; exT 2 "" [exSt 4 4 0; exSt 6 4 60; exSt 500000 500000 120; exSt 12 12 180]].
Definition exRun (drop : bool) : idx * list Q := cfgBox 1000000 exPad exArea exHav 0 exTrips [3] None drop 10 [].
Example C63_example : map (fun b => (x0 b, y0 b, x1 b, y1 b)) (getLeafs (fst (exRun false))) = [(-1, -1, 13, 13)%Z] /\
  hasPoint (fst (exRun false)) (500000, 500000)%Z = false /\ size (fst (exRun false)) = 2 /\ size (fst (exRun true)) = 3 /\
  snd (exRun false) = map inject_Z [10; 2; 999990; 999976]%Z.
Proof. vm_compute. repeat split. Qed.
Example C63_hypotheses : padding exPad /\ Forall (located 1000000) exTrips /\ (forall a b, 0 <= exHav a b)%Q /\ wanted [3] None false (exT 1 "" [exSt 0 0 0; exSt 5 5 60]) /\
  outlier exHav 0 10 [exSt 4 4 0; exSt 6 4 60; exSt 500000 500000 120; exSt 12 12 180] 1 /\ regular exHav 0 10 [exSt 4 4 0; exSt 6 4 60; exSt 500000 500000 120; exSt 12 12 180] 1.
Proof.
  split; [split; intros; unfold within in *; cbn; lia|]. split; [repeat constructor; cbn; lia|]. split.
  { intros a b. unfold exHav. change 0%Q with (inject_Z 0). rewrite <- Zle_Qle. lia. }
  split; [repeat split; cbn; auto|]. split.
  - exists (exSt 6 4 60), (exSt 500000 500000 120), (exSt 12 12 180), 60%Z, 120%Z, 120%Z, 180%Z. cbn. unfold clock, hopeless. repeat split; auto; vm_compute; reflexivity.
  - intros j E (p & s & n & dp & a & d & an & P & S' & N & C1 & C2 & C3 & C4 & H1 & H2). injection E as <-. cbn in P, S', N. injection P as <-. injection S' as <-. injection N as <-.
    destruct C1 as [C1|[C1 _]]; [|discriminate]. destruct C2 as [C2|[C2 _]]; [|discriminate]. injection C1 as <-. injection C2 as <-. vm_compute in H1. discriminate.
Qed.

(** An extract does not cover everything that is read without it: the index joins overlapping
    boxes, and joins other ones if there are more trips.  Here (12, 0) is read when the feed is
    matched, and is not in the extract. *)
Definition exPair : list (ftrip pt) := [exT 0 "x" [exSt 8 8 0; exSt 13 13 60]; exT 1 "" [exSt 0 0 0; exSt 5 5 60]; exT 2 "" [exSt 4 4 0; exSt 12 12 180]].
Theorem C63_extract_all_refuted : exists trips q,
  hasPoint (fst (cfgBox 1000000 exPad exArea exHav 0 trips [3] None false 10 [])) q = true /\
  hasPoint (extractBox 1000000 exPad exArea exHav 0 [trips] [3] None [10%Q]) q = false.
Proof. exists exPair, (12, 0)%Z. vm_compute. auto. Qed.
Print Assumptions C63_extract_all_refuted.

(** A stop next to its neighbours is left out if the times run backwards. *)
Theorem C63_backwards_refuted : exists t p, wanted [3] None true t /\ (exists s, In s (tSts _ (fTrip _ t)) /\ sPos _ (stStop _ s) = p) /\
  (forall s s', In s (tSts _ (fTrip _ t)) -> In s' (tSts _ (fTrip _ t)) -> exHav (sPos _ (stStop _ s)) (sPos _ (stStop _ s')) <= 20)%Q /\
  hasPoint (fst (cfgBox 1000000 exPad exArea exHav 0 [t] [3] None true 10 [])) p = false.
Proof.
  exists (exT 0 "" [exSt 0 0 1000; exSt 10 10 500; exSt 0 0 0]), (10, 10)%Z. split; [repeat split; cbn; auto|]. split; [eexists; split; [right; left; reflexivity|reflexivity]|]. split.
  - intros s s' I I'. cbn in I, I'. destruct I as [<-|[<-|[<-|[]]]], I' as [<-|[<-|[<-|[]]]]; vm_compute; discriminate.
  - vm_compute. reflexivity.
Qed.
Print Assumptions C63_backwards_refuted.
