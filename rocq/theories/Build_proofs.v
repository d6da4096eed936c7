(** Proofs about the network built from an OSM file. *)
From Coq Require Import Ascii String List Arith NArith ZArith QArith Bool Lia Permutation.
From Verif Require Import ListAux OsmGraph_model OsmGraph_spec OsmGraph_proofs Gaps_model Gaps_spec Gaps_proofs Restrictor_model Restrictor_spec Restrictor_proofs Finish_model Finish_spec Finish_proofs Build_model Build_spec.
From Verif Require OsmRead_model OsmRead_spec OsmRead_proofs Snap_model Snap_spec Snap_proofs.
Import ListNotations.
Open Scope nat_scope.
Open Scope list_scope.

Lemma NoDup_app_intro : forall B (a b : list B), NoDup a -> NoDup b -> (forall x, In x a -> ~ In x b) -> NoDup (a ++ b).
Proof.
  induction a as [|y a IH]; intros b Na Nb D; [exact Nb|]. inversion Na as [|? ? N1 N2]; subst. cbn. constructor.
  - rewrite in_app_iff. intros [I|I]; [auto|]. apply (D y); [now left|exact I].
  - apply IH; auto. intros x I. apply D. now right.
Qed.
(** * Gaps, with one-way edges *)
Section Gaps.
Context {P : Type}.
Variable station : nat -> bool.
Variable close : nat -> nat -> bool.
Variable near : nat -> list nat.
Notation graph := (graph P). Notation edge := (edge P).
Notation joinNode := (joinNode P station close).
Notation fixGap := (fixGap P station close near).
Notation fixGaps := (fixGaps P station close near).

Lemma del_in' : forall (g : graph) n x, In x (edges (delNd P g n)) <-> In x (edges g) /\ ~ touches x n.
Proof. exact (del_in station close near). Qed.
Lemma add_simple : forall (g : graph) a b p, simple g -> simple (addEdg P g a b p).
Proof.
  intros g a b p S0. unfold addEdg. destruct (getEdg P g a b) eqn:G; [exact S0|]. unfold simple. cbn [edges]. rewrite map_app. cbn [map from to].
  apply NoDup_snoc; [exact S0|]. intros I. apply in_map_iff in I. destruct I as (x & E & I). injection E as E1 E2.
  unfold getEdg in G. pose proof (find_none _ _ G x I) as F. unfold isEdg in F. rewrite E1, E2, !Nat.eqb_refl in F. discriminate.
Qed.
Lemma del_simple : forall (g : graph) n, simple g -> simple (delNd P g n).
Proof. intros g n S0. unfold simple, delNd. cbn [edges]. now apply NoDup_map_filter. Qed.
Lemma add_ok : forall (g : graph) a b p, graph_ok g -> In a (nodes g) -> In b (nodes g) -> graph_ok (addEdg P g a b p).
Proof.
  intros g a b p [N0 E0] A B. constructor; rewrite add_nodes; [exact N0|]. intros e I. apply add_in in I. destruct I as [I| ->]; [auto|]. cbn. auto.
Qed.
Lemma del_ok : forall (g : graph) n, graph_ok g -> graph_ok (delNd P g n).
Proof.
  intros g n [N0 E0]. constructor; [cbn; now apply NoDup_filter|]. intros e I. apply del_in' in I. destruct I as (I & T). destruct (E0 e I) as (A & B).
  assert (Fn : from e <> n) by (intros X; apply T; now left). assert (Tn : to e <> n) by (intros X; apply T; now right).
  cbn. rewrite !filter_In, !negb_true_iff, !Nat.eqb_neq. auto.
Qed.
(** What holds after any number of steps. *)
Record mended (g g' : graph) : Prop := {
  md_simple : simple g';
  md_ok : graph_ok g';
  md_nodes : forall n, In n (nodes g') -> In n (nodes g);
  md_lost : forall n, In n (nodes g) -> ~ In n (nodes g') -> station n = false /\ exists m, In m (nodes g) /\ m <> n /\ close m n = true;
  md_kept : forall e, In e (edges g) -> In (from e) (nodes g') -> In (to e) (nodes g') -> In e (edges g');
  md_edge : forall x, In x (edges g') -> exists e, In e (edges g) /\ laid close e x
}.
Lemma mended_refl : forall g, simple g -> graph_ok g -> mended g g.
Proof. intros g S0 O0. constructor; auto; [tauto|]. intros x I. exists x. split; [auto|constructor]. Qed.
Lemma join_mended : forall g0 n g nb, mended g0 g -> In n (nodes g) -> mended g0 (joinNode n g nb) /\ In n (nodes (joinNode n g nb)).
Proof.
  intros g0 n g nb M Nn. split.
  2: { unfold Gaps_model.joinNode. destruct (negb (nb =? n) && _ && _) eqn:C; [|exact Nn]. destruct (theEdge P g nb); [|exact Nn]. rewrite !andb_true_iff, negb_true_iff, Nat.eqb_neq in C. destruct (_ && _); [cbn|]; rewrite add_nodes; [|exact Nn]. rewrite filter_In, negb_true_iff, Nat.eqb_neq. split; [exact Nn|]. intros ->. tauto. }
  unfold Gaps_model.joinNode. destruct (negb (nb =? n) && (deg P g nb =? 1) && close n nb) eqn:C; [|exact M].
  apply andb_prop in C. destruct C as (C & Cl). apply andb_prop in C. destruct C as (Ne & D). apply negb_true_iff, Nat.eqb_neq in Ne. apply Nat.eqb_eq in D.
  destruct (deg_one g nb D) as (e & Da & ->). destruct Da as (Ie & Te & Nl & _). destruct M as [S0 O0 N0 L0 K0 E0].
  destruct (go_ends _ O0 e Ie) as (Fe & Toe).
  assert (Ot : In (other P e nb) (nodes g) /\ ((from e = nb /\ to e = other P e nb) \/ (to e = nb /\ from e = other P e nb))).
  { unfold other. destruct (from e =? nb) eqn:F; [apply Nat.eqb_eq in F; auto|]. apply Nat.eqb_neq in F. destruct Te as [X|X]; [congruence|auto]. }
  destruct Ot as (Io & Oe).
  destruct (negb (station nb) && negb (station n)) eqn:St.
  - apply andb_prop in St. destruct St as (St & _). apply negb_true_iff in St. constructor.
    + now apply del_simple, add_simple.
    + apply del_ok, add_ok; auto.
    + cbn. rewrite add_nodes. intros m I. apply filter_In in I. apply N0, I.
    + intros m Im Nm. cbn in Nm. rewrite add_nodes, filter_In, negb_true_iff, Nat.eqb_neq in Nm.
      destruct (in_dec Nat.eq_dec m (nodes g)) as [Ig|Ng]; [|now apply L0]. assert (m = nb) as -> by (destruct (Nat.eq_dec m nb); tauto).
      split; [exact St|]. exists n. auto.
    + intros x Ix Fx Tx. cbn in Fx, Tx. rewrite add_nodes, filter_In, negb_true_iff, Nat.eqb_neq in Fx, Tx. apply del_in'. split.
      * apply add_keeps. apply K0; tauto.
      * intros [X|X]; tauto.
    + intros x Ix. apply del_in' in Ix. destruct Ix as (Ix & _). apply add_in in Ix. destruct Ix as [Ix| ->]; [auto|].
      destruct (E0 e Ie) as (e0 & I0 & L). exists e0. split; [exact I0|]. now apply (ld_moved close e0 e n nb).
  - constructor.
    + now apply add_simple.
    + apply add_ok; auto. destruct Te as [<-|<-]; auto.
    + rewrite add_nodes. auto.
    + rewrite add_nodes. auto.
    + rewrite add_nodes. intros x Ix Fx Tx. apply add_keeps. auto.
    + intros x Ix. apply add_in in Ix. destruct Ix as [Ix| ->]; [auto|].
      destruct (E0 e Ie) as (e0 & I0 & L). exists e0. split; [exact I0|]. now apply (ld_link close e0 e n nb).
Qed.
Lemma joins_mended : forall n l g0 g, mended g0 g -> In n (nodes g) -> mended g0 (fold_left (joinNode n) l g).
Proof. induction l as [|nb l IH]; intros g0 g M Nn; [exact M|]. cbn [fold_left]. destruct (join_mended g0 n g nb M Nn). auto. Qed.
Lemma gaps_mended : forall ns g0 g, mended g0 g -> mended g0 (fold_left fixGap ns g).
Proof.
  induction ns as [|n ns IH]; intros g0 g M; [exact M|]. cbn [fold_left]. apply IH. unfold Gaps_model.fixGap. destruct (deg P g n =? 1) eqn:D; [|exact M].
  apply joins_mended; [exact M|]. apply Nat.eqb_eq in D. destruct (deg_one g n D) as (e & (Ie & Te & _) & _). destruct (go_ends _ (md_ok _ _ M) e Ie). destruct Te as [<-|<-]; auto.
Qed.
Lemma fixGaps_mended : forall ns g, simple g -> graph_ok g -> mended g (fixGaps g ns).
Proof. intros ns g S0 O0. apply gaps_mended. now apply mended_refl. Qed.
Lemma laid_pl : forall (e x : edge), laid close e x -> ePl x = ePl e.
Proof. intros e x L. induction L; auto. Qed.
End Gaps.

(** * The graph that was read *)
Section Read.
Context {P : Type}.
Notation graph := (graph P). Notation edge := (edge P).
Lemma rawAt_in : forall r b id f t, In (f, t) (rawAt r b id) <-> In (b, id, f, t) r.
Proof.
  intros r b id f t. unfold rawAt. rewrite in_map_iff. split.
  - intros ([[[b' id'] f'] t'] & E & I). apply filter_In in I. cbn in *. destruct I as (I & C). apply andb_prop in C. destruct C as (C1 & C2).
    apply Bool.eqb_prop in C1. apply Nat.eqb_eq in C2. injection E as <- <-. now subst.
  - intros I. exists (b, id, f, t). split; [reflexivity|]. apply filter_In. split; [exact I|]. cbn. now rewrite Bool.eqb_reflx, Nat.eqb_refl.
Qed.
Lemma concerns_iff : forall r id w, concerns r id w = true <-> names_way r id w.
Proof.
  intros r id w. unfold concerns, names_way. rewrite existsb_exists. split.
  - intros ([f t] & I & C). cbn in C. apply orb_prop in C. rewrite !Nat.eqb_eq in C. apply in_app_or in I. destruct I as [I|I]; apply rawAt_in in I; eauto 6.
  - intros (b & f & t & I & C). exists (f, t). split.
    + apply in_or_app. destruct b; [left|right]; now apply rawAt_in.
    + cbn. apply orb_true_iff. now rewrite !Nat.eqb_eq.
Qed.
Lemma marked_iff : forall r segs i, marked r segs i = true <-> ruled r segs i.
Proof.
  intros r segs i. unfold marked, ruled. rewrite existsb_exists. split; intros (s & I & C); exists s; split; auto.
  - apply andb_prop in C. destruct C as (C1 & C2). apply Nat.eqb_eq in C1. apply orb_prop in C2. split; [auto|]. now rewrite <- !concerns_iff.
  - destruct C as (C1 & C2). apply andb_true_iff. split; [now apply Nat.eqb_eq|]. apply orb_true_iff. now rewrite !concerns_iff.
Qed.
Definition readE rests segs (i : nat) (e : OsmRead_model.edge) : edge := mkE (OsmRead_model.eFrom e) (OsmRead_model.eTo e) (readPl rests segs i e).
Lemma readPl_street : forall rests segs i e, street rests segs i e (readPl (P := P) rests segs i e).
Proof. intros. constructor; try reflexivity. apply marked_iff. Qed.
Lemma readEdgs_nth : forall rests segs es k i, nth_error (readEdgs (P := P) rests segs k es) i = option_map (readE rests segs (k + i)) (nth_error es i).
Proof.
  induction es as [|e es IH]; intros k [|i]; cbn; try reflexivity; [now rewrite Nat.add_0_r|]. rewrite IH. now replace (S k + i) with (k + S i) by lia.
Qed.
Lemma readEdgs_in : forall rests segs es x, In x (readEdgs (P := P) rests segs 0 es) <-> exists i e, nth_error es i = Some e /\ x = readE rests segs i e.
Proof.
  intros rests segs es x. split.
  - intros I. apply In_nth_error in I. destruct I as (i & I). rewrite readEdgs_nth in I. destruct (nth_error es i) as [e|] eqn:N; [|discriminate]. injection I as <-. eauto.
  - intros (i & e & N & ->). apply (nth_error_In _ i). rewrite readEdgs_nth, N. reflexivity.
Qed.
Lemma readEdgs_pairs : forall rests segs es k, map (fun e => (from e, to e)) (readEdgs (P := P) rests segs k es) = map (fun e => (OsmRead_model.eFrom e, OsmRead_model.eTo e)) es.
Proof. induction es as [|e es IH]; intros k; [reflexivity|]. cbn. now rewrite IH. Qed.
(** What the reading of ways and nodes guarantees. *)
Record readable (g : OsmRead_model.graph) (n0 : nat) : Prop := {
  rb_once : NoDup (map (fun e => (OsmRead_model.eFrom e, OsmRead_model.eTo e)) (OsmRead_model.gEdges g));
  rb_ends : forall e, In e (OsmRead_model.gEdges g) -> OsmRead_model.eFrom e < n0 /\ OsmRead_model.eTo e < n0
}.
Lemma readGraph_simple : forall r g n0, readable g n0 -> simple (readGraph (P := P) r g n0).
Proof. intros r g n0 R. unfold simple, readGraph. cbn [edges]. rewrite readEdgs_pairs. apply R. Qed.
Lemma readGraph_ok : forall r g n0, readable g n0 -> graph_ok (readGraph (P := P) r g n0).
Proof.
  intros r g n0 R. constructor; cbn; [apply seq_NoDup|]. intros x I. apply readEdgs_in in I. destruct I as (i & e & N & ->). cbn. rewrite !in_seq.
  destruct (rb_ends _ _ R e (nth_error_In _ _ N)). lia.
Qed.
(** Numbers *)
Lemma findEdge_some : forall es a b k i, OsmRead_model.findEdge es a b k = Some i -> k <= i /\ exists e, nth_error es (i - k) = Some e /\ OsmRead_model.eFrom e = a /\ OsmRead_model.eTo e = b.
Proof.
  induction es as [|e es IH]; intros a b k i H; cbn in H; [discriminate|].
  destruct ((OsmRead_model.eFrom e =? a) && (OsmRead_model.eTo e =? b)) eqn:C.
  - injection H as <-. apply andb_prop in C. rewrite !Nat.eqb_eq in C. split; [lia|]. exists e. rewrite Nat.sub_diag. tauto.
  - apply IH in H. destruct H as (L & e' & N & H). split; [lia|]. exists e'. replace (i - k) with (S (i - S k)) by lia. auto.
Qed.
Lemma findEdge_none : forall es a b k, OsmRead_model.findEdge es a b k = None -> forall e, In e es -> ~ (OsmRead_model.eFrom e = a /\ OsmRead_model.eTo e = b).
Proof.
  induction es as [|x es IH]; intros a b k H e I; [destruct I|]. cbn in H. destruct ((OsmRead_model.eFrom x =? a) && (OsmRead_model.eTo x =? b)) eqn:C; [discriminate|].
  destruct I as [<-|I]; [|eapply IH; eauto]. intros (A & B). rewrite A, B, !Nat.eqb_refl in C. discriminate.
Qed.
Lemma findEdge_hit : forall es a b i e, NoDup (map (fun e => (OsmRead_model.eFrom e, OsmRead_model.eTo e)) es) -> nth_error es i = Some e ->
  OsmRead_model.eFrom e = a -> OsmRead_model.eTo e = b -> OsmRead_model.findEdge es a b 0 = Some i.
Proof.
  intros es a b i e N H A B. destruct (OsmRead_model.findEdge es a b 0) as [j|] eqn:F.
  - apply findEdge_some in F. destruct F as (_ & e' & N' & A' & B'). rewrite Nat.sub_0_r in N'. f_equal.
    rewrite NoDup_nth_error in N. apply N; [rewrite map_length; apply nth_error_Some; congruence|].
    rewrite !nth_error_map, N', H. cbn. now rewrite A, B, A', B'.
  - exfalso. apply (findEdge_none _ _ _ _ F e (nth_error_In _ _ H)). auto.
Qed.
Lemma number_in : forall es l k x, In x (number (P := P) es k l) -> In (mkE (Snap_model.eFrom x) (Snap_model.eTo x) (Snap_model.ePl x)) l /\
  (OsmRead_model.findEdge es (Snap_model.eFrom x) (Snap_model.eTo x) 0 = Some (Snap_model.eId x) \/ k <= Snap_model.eId x < k + length l).
Proof.
  induction l as [|e l IH]; intros k x I; [destruct I|]. cbn in I. destruct I as [<-|I].
  - cbn [Snap_model.eFrom Snap_model.eTo Snap_model.ePl Snap_model.eId]. split; [left; now destruct e|]. destruct (OsmRead_model.findEdge es (from e) (to e) 0); [now left|right; cbn; lia].
  - apply IH in I. destruct I as (I & D). split; [now right|]. destruct D as [D|D]; [now left|right]. cbn [length]. lia.
Qed.
Lemma number_map : forall es l k, map (fun x => mkE (Snap_model.eFrom x) (Snap_model.eTo x) (Snap_model.ePl x)) (number (P := P) es k l) = l.
Proof. induction l as [|e l IH]; intros k; [reflexivity|]. cbn. rewrite IH. now destruct e. Qed.
Lemma number_ids : forall es l k, NoDup (map (fun e => (OsmRead_model.eFrom e, OsmRead_model.eTo e)) es) -> NoDup (map (fun e => (from e, to e)) l) -> length es <= k ->
  NoDup (map Snap_model.eId (number (P := P) es k l)).
Proof.
  intros es l k Ne. revert k. induction l as [|e l IH]; intros k Nl Hk; [constructor|]. cbn in Nl. inversion Nl as [|? ? N1 N2]; subst.
  cbn [number map Snap_model.eId]. constructor; [|apply IH; [exact N2|lia]].
  intros I. apply in_map_iff in I. destruct I as (x & E & I). apply number_in in I. destruct I as (I & D).
  assert (Small : forall a b i, OsmRead_model.findEdge es a b 0 = Some i -> i < length es).
  { intros a b i F. apply findEdge_some in F. destruct F as (_ & e' & N' & _). rewrite Nat.sub_0_r in N'. apply nth_error_Some. congruence. }
  destruct (OsmRead_model.findEdge es (from e) (to e) 0) as [i|] eqn:F.
  - destruct D as [D|D]; [|pose proof (Small _ _ _ F); lia]. rewrite E in D. apply N1.
    apply findEdge_some in F. apply findEdge_some in D. destruct F as (_ & e1 & F1 & F2 & F3). destruct D as (_ & e2 & D1 & D2 & D3). rewrite D1 in F1. injection F1 as ->.
    apply in_map_iff. eexists. split; [|exact I]. cbn. congruence.
  - destruct D as [D|D]; [|lia]. apply Small in D. lia.
Qed.
End Read.

(** * Before snapping *)
Section Before.
Context {P SI : Type}.
Variable origin : P.
Variable s : @OsmRead_model.ngraph P SI.
Lemma infoList_length : forall n l, flat_map (fun n => match infoOf s n with Some i => [i] | None => [] end) (seq 0 n) = l -> length l = infoNo s n.
Proof.
  intros n l <-. unfold infoNo. generalize (seq 0 n). induction l as [|m l IH]; [reflexivity|]. cbn. unfold hasInfo at 1. destruct (infoOf s m); cbn; now rewrite IH.
Qed.
Lemma infoNo_lt : forall n m, n < m -> hasInfo s n = true -> infoNo s n < infoNo s m.
Proof.
  intros n m L H. unfold infoNo. replace m with (n + S (m - S n)) by lia. rewrite seq_app, filter_app, app_length. cbn. rewrite H. cbn. lia.
Qed.
Lemma infoNo_nth : forall n i, n < OsmRead_model.ngSize s -> infoOf s n = Some i -> nth_error (infoList s) (infoNo s n) = Some i.
Proof.
  intros n i L H. unfold infoList. replace (OsmRead_model.ngSize s) with (n + S (OsmRead_model.ngSize s - S n)) by lia. rewrite seq_app, flat_map_app. cbn [plus seq flat_map]. rewrite H.
  rewrite nth_error_app2; rewrite (infoList_length n _ eq_refl); [|lia]. rewrite Nat.sub_diag. reflexivity.
Qed.
Lemma state_station : forall n k, stateOf s n = Snap_model.Station k -> n < OsmRead_model.ngSize s /\ hasInfo s n = true /\ k = infoNo s n.
Proof.
  intros n k H. unfold stateOf in H. destruct (n <? OsmRead_model.ngSize s) eqn:L; [|discriminate]. apply Nat.ltb_lt in L. unfold hasInfo, infoOf.
  destruct (OsmRead_model.pState (OsmRead_model.ngPay s n)); try discriminate. injection H as <-. auto.
Qed.
Lemma station_state : forall n, n < OsmRead_model.ngSize s -> hasInfo s n = true -> stateOf s n = Snap_model.Station (infoNo s n).
Proof.
  intros n L H. unfold stateOf. apply Nat.ltb_lt in L. rewrite L. unfold hasInfo, infoOf in H. now destruct (OsmRead_model.pState (OsmRead_model.ngPay s n)).
Qed.
Lemma toSnap_ok : forall (g : OsmRead_model.graph) (g1 : graph P), readable g (OsmRead_model.ngSize s) -> simple g1 -> graph_ok g1 -> (forall n, In n (nodes g1) -> n < OsmRead_model.ngSize s) ->
  Snap_spec.Ok (toSnap origin g s g1).
Proof.
  intros g g1 R S1 O1 N1. constructor; cbn.
  - apply number_ids; [apply R|exact S1|lia].
  - intros e I. apply number_in in I. destruct I as (_ & [F|L]); [|exact (proj2 L)]. apply findEdge_some in F. destruct F as (_ & e' & N & _).
    rewrite Nat.sub_0_r in N. apply Nat.lt_le_trans with (length (OsmRead_model.gEdges g)); [apply nth_error_Some; congruence|lia].
  - intros x y Ix Iy F T. apply (Snap_proofs.NoDup_id (number (OsmRead_model.gEdges g) (length (OsmRead_model.gEdges g)) (edges g1))); auto; [apply number_ids; [apply R|exact S1|lia]|].
    pose proof (number_map (P := P) (OsmRead_model.gEdges g) (edges g1) (length (OsmRead_model.gEdges g))) as M.
    apply In_nth_error in Ix. apply In_nth_error in Iy. destruct Ix as (i & Ix), Iy as (j & Iy). enough (i = j) as -> by congruence.
    unfold simple in S1. rewrite NoDup_nth_error in S1. apply S1.
    + rewrite <- M, !map_length. apply nth_error_Some. congruence.
    + rewrite <- M, !nth_error_map, Ix, Iy. cbn. now rewrite F, T.
  - intros e I. apply number_in in I. destruct I as (I & _). destruct (go_ends _ O1 _ I) as (A & B). cbn in *. auto.
  - intros n k H. apply state_station in H. destruct H as (L & H & ->). rewrite (infoList_length (OsmRead_model.ngSize s) (infoList s) eq_refl). now apply infoNo_lt.
Qed.
End Before.

(** * Snapping, with the numbers of edges *)
Section Told.
Context {P I PL : Type}.
Notation edge := (@Snap_model.edge PL).
Notation st := (@Snap_model.st P I PL).
(** [Splits f N A T A']: from the living edges [A] and the next number [N] on, the edges of
    [T] were replaced; [f]: the nodes of all edges. *)
Inductive Splits (f : nat -> nat * nat) (lim : nat) : nat -> (nat -> Prop) -> list (nat * nat * nat) -> (nat -> Prop) -> Prop :=
| Sp_nil : forall N (A A' : nat -> Prop), (forall x, A x <-> A' x) -> Splits f lim N A [] A'
| Sp_cons : forall N (A : nat -> Prop) o T A', A o -> o < N -> fst (f N) = fst (f o) -> snd (f (S N)) = snd (f o) -> snd (f N) = fst (f (S N)) -> lim <= snd (f N) ->
    Splits f lim (S (S N)) (fun x => (A x /\ x <> o) \/ x = N \/ x = S N) T A' -> Splits f lim N A ((o, N, S N) :: T) A'.
Definition living (s : st) (x : nat) : Prop := In x (map Snap_model.eId (Snap_model.edges s)).
(** ... as an invariant *)
Record Tale (s0 s : st) : Prop := {
  ta_size : Snap_model.size s0 <= Snap_model.size s;
  ta_tale : exists f T, Snap_model.told s = Snap_model.told s0 ++ T /\ Splits f (Snap_model.size s0) (Snap_model.nextE s0) (living s0) T (living s) /\
    Snap_model.nextE s = Snap_model.nextE s0 + 2 * length T /\
    (forall e, In e (Snap_model.edges s0) -> f (Snap_model.eId e) = (Snap_model.eFrom e, Snap_model.eTo e)) /\
    (forall e, In e (Snap_model.edges s) -> f (Snap_model.eId e) = (Snap_model.eFrom e, Snap_model.eTo e))
}.
Lemma Splits_ext : forall f f' lim N A T A', Splits f lim N A T A' -> (forall x, x < N + 2 * length T -> f x = f' x) -> Splits f' lim N A T A'.
Proof.
  intros f f' lim N A T A' H. induction H as [N A A' E|N A o T A' Ho Hl H1 H2 H3 H4 H IH]; intros X; [now constructor|].
  cbn [length] in X. constructor; auto; try (rewrite <- !X by lia; assumption). apply IH. intros x L. apply X. lia.
Qed.
Lemma Splits_A : forall f lim N (A B : nat -> Prop) T A', (forall x, A x <-> B x) -> Splits f lim N A T A' -> Splits f lim N B T A'.
Proof.
  intros f lim N A B T A' E H. revert B E. induction H as [N A A' E0|N A o T A' Ho Hl H1 H2 H3 H4 H IH]; intros B E.
  - constructor. intros x. rewrite <- E. apply E0.
  - constructor; auto; [now apply E|]. apply IH. intros x. rewrite E. tauto.
Qed.
Lemma Splits_snoc : forall f lim N A T (A' : nat -> Prop) o (A'' : nat -> Prop), Splits f lim N A T A' -> A' o -> o < N + 2 * length T ->
  let M := N + 2 * length T in
  fst (f M) = fst (f o) -> snd (f (S M)) = snd (f o) -> snd (f M) = fst (f (S M)) -> lim <= snd (f M) ->
  (forall x, A'' x <-> (A' x /\ x <> o) \/ x = M \/ x = S M) -> Splits f lim N A (T ++ [(o, M, S M)]) A''.
Proof.
  intros f lim N A T A' o A'' H. induction H as [N A A' E|N A q T A' Ho Hl H1 H2 H3 H4 H IH]; intros Ao L M F1 F2 F3 F4 E''.
  - cbn [app]. unfold M in *. cbn [length] in *. rewrite Nat.mul_0_r, Nat.add_0_r in *. constructor; auto; [now apply E|]. constructor. intros x. rewrite E'', E. tauto.
  - cbn [app]. constructor; auto. unfold M in *. cbn [length] in *. replace (N + 2 * S (length T)) with (S (S N) + 2 * length T) in * by lia. now apply IH.
Qed.
Lemma Tale_refl : forall s : st, Snap_spec.Ok s -> Tale s s.
Proof.
  intros s HO. constructor; [lia|].
  exists (fun x => match find (fun e => Snap_model.eId e =? x) (Snap_model.edges s) with Some e => (Snap_model.eFrom e, Snap_model.eTo e) | None => (0, 0) end), [].
  rewrite app_nil_r. split; [reflexivity|]. split; [constructor; tauto|]. split; [cbn; lia|].
  assert (H : forall e, In e (Snap_model.edges s) -> match find (fun x => Snap_model.eId x =? Snap_model.eId e) (Snap_model.edges s) with Some e => (Snap_model.eFrom e, Snap_model.eTo e) | None => (0, 0) end = (Snap_model.eFrom e, Snap_model.eTo e)); [|split; exact H].
  intros e He. pose proof (Snap_proofs.findE_In s e HO He) as F. unfold Snap_model.findE in F. now rewrite F.
Qed.
Variable lvl : PL -> nat.
Variable mL : nat.
Variable noTrack : I -> bool.
Variable takeTrack : I -> I -> I.
Notation Step := (Snap_proofs.Step lvl mL noTrack takeTrack).
Lemma Step_Tale : forall s0 s k c s', Snap_spec.Ok s0 -> Snap_spec.Ok s -> Tale s0 s -> Step s k c s' -> Tale s0 s'.
Proof.
  intros s0 s k c s' HO0 HO HT H. destruct H as [c | c kk j i Hj Hn | c n i Hi Hn Hs | e p He Hl]; try exact HT.
  - destruct HT as [A B]. constructor; [exact A|exact B].
  - destruct HT as [A B]. constructor; [exact A|exact B].
  - destruct HT as [A (f & T & E1 & E2 & E3 & E4 & E5)]. constructor; [cbn; lia|].
    set (N := Snap_model.nextE s) in *. set (n := Snap_model.size s).
    exists (fun x => if x =? N then (Snap_model.eFrom e, n) else if x =? S N then (n, Snap_model.eTo e) else f x), (T ++ [(Snap_model.eId e, N, S N)]).
    assert (Old : forall x, x < N -> (if x =? N then (Snap_model.eFrom e, n) else if x =? S N then (n, Snap_model.eTo e) else f x) = f x).
    { intros x L. now rewrite (proj2 (Nat.eqb_neq x N)), (proj2 (Nat.eqb_neq x (S N))) by lia. }
    pose proof (Snap_spec.ok_new _ HO e He) as Le. fold N in Le.
    split; [cbn; now rewrite E1, <- app_assoc|]. split; [|split; [|split]].
    + rewrite E3. replace (Snap_model.nextE s0 + 2 * length T) with N by (exact E3).
      pose proof (Splits_snoc (fun x => if x =? N then (Snap_model.eFrom e, n) else if x =? S N then (n, Snap_model.eTo e) else f x)
        (Snap_model.size s0) (Snap_model.nextE s0) (living s0) T (living s) (Snap_model.eId e) (living (Snap_model.split s e p k))) as K.
      cbn zeta in K. rewrite <- E3 in K. fold N in K. replace (S N =? N) with false in K by (symmetry; apply Nat.eqb_neq; lia).
      rewrite (Old _ Le), (E5 e He), !Nat.eqb_refl in K. cbn [fst snd] in K. apply K; auto.
      * apply (Splits_ext f); [exact E2|]. intros x L. rewrite <- E3 in L. fold N in L. symmetry. now apply Old.
      * unfold living. now apply in_map.
      * intros x. unfold living. rewrite (Snap_proofs.split_edges s e p k HO He), map_app, in_app_iff. cbn [map In Snap_model.eId]. fold N. rewrite in_map_iff. split.
        -- intros [(y & <- & Iy)|[<-|[<-|[]]]]; auto. apply filter_In in Iy. destruct Iy as (Iy & C). apply negb_true_iff, Nat.eqb_neq in C. left. split; [now apply in_map|exact C].
        -- intros [(Ix & C)|[-> | ->]]; auto. left. apply in_map_iff in Ix. destruct Ix as (y & <- & Iy). exists y. split; [reflexivity|]. apply filter_In. split; [exact Iy|]. now apply negb_true_iff, Nat.eqb_neq.
    + cbn. fold N. rewrite app_length. cbn. lia.
    + intros x Ix. rewrite Old; [now apply E4|]. pose proof (Snap_spec.ok_new _ HO0 x Ix). lia.
    + intros x Ix. rewrite (Snap_proofs.split_edges s e p k HO He), in_app_iff in Ix. destruct Ix as [Ix|[<-|[<-|[]]]].
      * apply filter_In in Ix. destruct Ix as (Ix & _). rewrite Old; [now apply E5|]. now apply (Snap_spec.ok_new _ HO).
      * cbn. fold N. now rewrite Nat.eqb_refl.
      * cbn [Snap_model.eId Snap_model.eFrom Snap_model.eTo]. fold N. rewrite (proj2 (Nat.eqb_neq (S N) N)), Nat.eqb_refl by lia. reflexivity.
Qed.
End Told.

(** * After snapping *)
Section After.
Context {P SI : Type}.
Variable origin : P.
Variable s : @OsmRead_model.ngraph P SI.
Variable r : OsmRead_model.rels.
Variable g : OsmRead_model.graph.
Variable close : nat -> nat -> bool.
Variable lv : pl P -> nat.
Variable mL : nat.
Variable noTrack : SI -> bool.
Variable takeTrack : SI -> SI -> SI.
Notation n0 := (OsmRead_model.ngSize s).
Notation g0 := (readGraph (P := P) r g n0).
Variable g1 : graph P.
Variable s2 : @Snap_model.st P SI (pl P).
Notation s1 := (toSnap origin g s g1).
Notation g2 := (fromSnap g1 n0 s2).
Hypothesis Hr : readable g n0.
Hypothesis Hm : mended (hasInfo s) close g0 g1.
Hypothesis Ho : Snap_spec.Ok s2.
Hypothesis Hk : Snap_spec.Kept noTrack takeTrack lv mL s1 s2.
Notation conv := (fun e : @Snap_model.edge (pl P) => mkE (Snap_model.eFrom e) (Snap_model.eTo e) (Snap_model.ePl e)).

Lemma g1_small : forall n, In n (nodes g1) -> n < n0.
Proof. intros n I. apply (md_nodes _ _ _ _ Hm) in I. cbn in I. apply in_seq in I. lia. Qed.
Lemma s1_edge : forall e, In e (Snap_model.edges s1) <-> In (conv e) (edges g1) /\ In e (number (OsmRead_model.gEdges g) (length (OsmRead_model.gEdges g)) (edges g1)).
Proof. intros e. cbn. split; [|tauto]. intros I. split; [|exact I]. now apply number_in in I. Qed.
Lemma chain_of : forall (q : pl P) a b l mid, Snap_spec.Chain q a b l mid ->
  l <> [] /\ chain a (map (fun x => (conv x, true)) l) b /\ between (map (fun x => (conv x, true)) l) = mid /\ forall x, In x l -> Snap_model.ePl x = q.
Proof.
  intros q a b l mid C. induction C as [e E|e b l mid E C (N & IH1 & IH2 & IH3)].
  - split; [discriminate|]. split; [cbn; auto|]. split; [reflexivity|]. intros x [<-|[]]. exact E.
  - split; [discriminate|]. split; [cbn; auto|]. split.
    + cbn [map between]. destruct (map (fun x => (conv x, true)) l) eqn:M; [destruct l; [congruence|discriminate]|]. rewrite IH2. reflexivity.
    + intros x [<-|I]; auto.
Qed.
Lemma chain_ends : forall (q : pl P) a b l mid x, Snap_spec.Chain q a b l mid -> In x l -> (Snap_model.eFrom x = a \/ In (Snap_model.eFrom x) mid) /\ (Snap_model.eTo x = b \/ In (Snap_model.eTo x) mid).
Proof.
  intros q a b l mid x C. induction C as [e E|e b l mid E C IH]; intros I.
  - destruct I as [<-|[]]. auto.
  - destruct I as [<-|I]; [cbn; auto|]. destruct (IH I) as ([A|A] & [B|B]); cbn; auto.
Qed.
(** the edges after snapping, by the edges before *)
Lemma s2_edge : forall x, In x (Snap_model.edges s2) -> exists e l mid, In e (edges g1) /\ Snap_spec.Chain (ePl e) (from e) (to e) l mid /\ In x l /\
  (forall y, In y l -> In y (Snap_model.edges s2)) /\ forall n, In n mid -> n0 <= n < Snap_model.size s2.
Proof.
  intros x I. destruct (Snap_spec.kp_edges _ _ _ _ _ _ Hk) as (T & L & M & _ & HL & HM & PL & PM & HE).
  apply (Permutation_in _ (Permutation_sym PL)) in I. apply in_concat in I. destruct I as (l & Il & Ix). apply In_nth_error in Il. destruct Il as (i & Il).
  destruct (nth_error (Snap_model.edges s1) i) as [e|] eqn:Ne.
  2: { apply nth_error_None in Ne. assert (i < length L) by (apply nth_error_Some; congruence). lia. }
  destruct (HE i e Ne) as (l' & mid & Il' & Im & C & _). rewrite Il in Il'. injection Il' as <-.
  exists (conv e), l, mid. split; [apply s1_edge; eapply nth_error_In; eauto|]. split; [exact C|]. split; [exact Ix|]. split.
  - intros y Iy. apply (Permutation_in _ PL). apply in_concat. exists l. split; [eapply nth_error_In; eauto|exact Iy].
  - intros n In0. assert (X : In n (concat M)) by (apply in_concat; exists mid; split; [eapply nth_error_In; eauto|exact In0]).
    apply (Permutation_in _ PM) in X. apply in_seq in X. cbn in X. lia.
Qed.
Lemma s2_has : forall e, In e (edges g1) -> exists l mid, Snap_spec.Chain (ePl e) (from e) (to e) l mid /\
  (forall y, In y l -> In y (Snap_model.edges s2)) /\ forall n, In n mid -> n0 <= n < Snap_model.size s2.
Proof.
  intros e I. destruct (Snap_spec.kp_edges _ _ _ _ _ _ Hk) as (T & L & M & _ & HL & HM & PL & PM & HE).
  pose proof (number_map (P := P) (OsmRead_model.gEdges g) (edges g1) (length (OsmRead_model.gEdges g))) as Mp.
  rewrite <- Mp in I. apply in_map_iff in I. destruct I as (e' & <- & I). change (In e' (Snap_model.edges s1)) in I. apply In_nth_error in I. destruct I as (i & I).
  destruct (HE i e' I) as (l & mid & Il & Im & C & _). exists l, mid. split; [exact C|]. split.
  - intros y Iy. apply (Permutation_in _ PL). apply in_concat. exists l. split; [eapply nth_error_In; eauto|exact Iy].
  - intros n In0. assert (X : In n (concat M)) by (apply in_concat; exists mid; split; [eapply nth_error_In; eauto|exact In0]).
    apply (Permutation_in _ PM) in X. apply in_seq in X. cbn in X. lia.
Qed.
Lemma g2_simple : simple g2.
Proof.
  unfold simple, fromSnap. cbn [edges]. rewrite map_map. cbn [from to].
  pose proof (Snap_spec.ok_ids _ Ho) as N. pose proof (Snap_spec.ok_pair _ Ho) as Pr. revert N Pr. generalize (Snap_model.edges s2). intros l.
  induction l as [|e l IH]; intros N Pr; [constructor|]. cbn in *. inversion N as [|? ? N1 N2]; subst. constructor; [|apply IH; auto].
  intros I. apply in_map_iff in I. destruct I as (x & E & I). injection E as E1 E2. apply N1. rewrite (Pr e x); auto. now apply in_map.
Qed.
Lemma g2_ok : graph_ok g2.
Proof.
  constructor; cbn.
  - apply NoDup_app_intro; [apply (go_nodes _ (md_ok _ _ _ _ Hm))|apply seq_NoDup|]. intros x I J. apply g1_small in I. apply in_seq in J. lia.
  - intros e I. apply in_map_iff in I. destruct I as (x & <- & I). cbn. destruct (s2_edge x I) as (e & l & mid & Ie & C & Ix & _ & Hmid).
    destruct (go_ends _ (md_ok _ _ _ _ Hm) e Ie) as (A & B). rewrite !in_app_iff, !in_seq.
    destruct (chain_ends _ _ _ _ _ _ C Ix) as ([F|F] & [T|T]); try (apply Hmid in F); try (apply Hmid in T); rewrite ?F, ?T in *; split; auto; right; lia.
Qed.
Lemma g2_plain : forall x, In x (edges g2) -> exists i e, nth_error (OsmRead_model.gEdges g) i = Some e /\ ePl x = readPl (OsmRead_model.rests r) (OsmRead_model.gSegs g) i e.
Proof.
  intros x I. cbn in I. apply in_map_iff in I. destruct I as (x' & <- & I). cbn. destruct (s2_edge x' I) as (e & l & mid & Ie & C & Ix & _).
  destruct (chain_of _ _ _ _ _ C) as (_ & _ & _ & Pl). rewrite (Pl x' Ix). destruct (md_edge _ _ _ _ Hm e Ie) as (e0 & I0 & Ld).
  rewrite (laid_pl close e0 e Ld). cbn in I0. apply readEdgs_in in I0. destruct I0 as (i & e' & N & ->). exists i, e'. auto.
Qed.
Lemma station_new : forall n, n0 <= n < Snap_model.size s2 -> isStation s2 n = true.
Proof. intros n L. unfold isStation. destruct (Snap_spec.kp_new _ _ _ _ _ _ Hk n L) as (k & ->). reflexivity. Qed.
Lemma after_carries : carries close (hasInfo s) (isStation s2) (OsmRead_model.rests r) g n0 g2.
Proof.
  constructor.
  - intros n I L. cbn in I. apply in_app_or in I. destruct I as [I|I]; [apply g1_small in I; lia|]. apply in_seq in I. apply station_new. lia.
  - intros n L N. assert (N' : ~ In n (nodes g1)) by (intros I; apply N; cbn; apply in_or_app; now left).
    destruct (md_lost _ _ _ _ Hm n) as (A & m & Im & B); [cbn; apply in_seq; lia|exact N'|]. split; [exact A|]. exists m. cbn in Im. apply in_seq in Im. split; [lia|exact B].
  - intros n L St. split.
    + destruct (in_dec Nat.eq_dec n (nodes g1)) as [I|I]; [cbn; apply in_or_app; now left|]. destruct (md_lost _ _ _ _ Hm n) as (A & _); [cbn; apply in_seq; lia|exact I|congruence].
    + pose proof (station_state s n L St) as X. unfold isStation. rewrite (Snap_proofs.Kept_station _ _ _ _ s1 s2 n _ Hk L X). reflexivity.
  - intros x I. cbn in I. apply in_map_iff in I. destruct I as (x' & <- & I). destruct (s2_edge x' I) as (y & l & mid & Iy & C & Ix & Il & Hmid).
    destruct (chain_of _ _ _ _ _ C) as (Ne & Ch & Bt & Pl). destruct (md_edge _ _ _ _ Hm y Iy) as (e0 & I0 & Ld).
    cbn in I0. apply readEdgs_in in I0. destruct I0 as (i & e & N & ->). exists i, e, y. split; [exact N|]. cbn [ePl]. rewrite (Pl x' Ix).
    pose proof (laid_pl close _ _ Ld) as Ep. split; [rewrite Ep; apply readPl_street|]. split; [rewrite Ep; exact Ld|].
    exists (map (fun x => (conv x, true)) l). split; [exact Ch|]. split.
    + apply in_map_iff. exists x'. split; [|exact Ix]. now rewrite (Pl x' Ix).
    + rewrite Bt. intros n Im. now apply Hmid.
  - intros i e N F T. assert (Ie : In (readE (OsmRead_model.rests r) (OsmRead_model.gSegs g) i e) (edges g1)).
    { destruct (rb_ends _ _ Hr e (nth_error_In _ _ N)) as (LF & LT). cbn in F, T. rewrite in_app_iff, in_seq in F, T.
      apply (md_kept _ _ _ _ Hm); [cbn; apply readEdgs_in; eauto| |]; cbn; [destruct F; [auto|lia]|destruct T; [auto|lia]]. }
    destruct (s2_has _ Ie) as (l & mid & C & Il & Hmid). destruct (chain_of _ _ _ _ _ C) as (Ne & Ch & Bt & Pl).
    exists (map (fun x => (conv x, true)) l). split; [destruct l; [congruence|discriminate]|]. split; [exact Ch|]. split.
    + intros h I. apply in_map_iff in I. destruct I as (x & <- & Ix). cbn [fst snd]. split; [reflexivity|]. split; [cbn; apply in_map_iff; exists x; auto|]. cbn [ePl]. rewrite (Pl x Ix). apply readPl_street.
    + rewrite Bt. intros n Im. apply Hmid in Im. split; [lia|]. now apply station_new.
Qed.
End After.

(** * All together *)
Section All.
Context {P SI : Type}.
Variable origin : P.
Variable close : P -> P -> bool.
Variable near : graph P -> nat -> list nat.
Variable order : graph P -> list nat.
Variable hav : P -> P -> Z.
Variable half five : Z.
Variable plus : Z -> Z -> Z.
Variable project : P -> P -> P -> P.
Variable sharpAt : P -> P -> P -> bool.
Variable maxSnapLevel : nat.
Variable maxBlockDistance : Z.
Variable simiEq simiLow : SI -> SI -> bool.
Variable noTrack : SI -> bool.
Variable takeTrack : SI -> SI -> SI.
Variable pick : list Snap_model.cand -> option (Snap_model.cand * list Snap_model.cand).
Variable ord : list (@Snap_model.edge (pl P)) -> list (@Snap_model.edge (pl P)).
Variable cands : @Snap_model.st P SI (pl P) -> P -> Z -> list nat.
Variable ds : list Z.
Variable len : list P -> Q.
Variable simplify : list P -> list P.
Variable speed : nat -> Q.
Variable corFac : Q.
Variable fl : Q -> Q.
Variable sp ec nl : Q.
Variable meets : graph P -> list (nat * bool).
Notation buildFrom := (buildFrom origin close near order hav half five plus project sharpAt maxSnapLevel maxBlockDistance simiEq simiLow noTrack takeTrack pick ord cands ds
  len simplify speed corFac fl sp ec nl meets).
Hypothesis Hpick : forall l, match pick l with None => l = [] | Some (c, r) => Permutation l (c :: r) end.
Hypothesis Hord : forall l, Permutation (ord l) l.
Hypothesis Hcands : forall (s : @Snap_model.st P SI (pl P)) p d, Snap_spec.Ok s -> NoDup (cands s p d) /\ forall c, In c (cands s p d) -> Snap_spec.present s c.
Hypothesis L0 : forall l, (0 <= len l)%Q.
Hypothesis V0 : forall l, (0 < speed l)%Q.
Hypothesis Sp : (0 < sp)%Q.
Hypothesis Ec : (0 <= ec)%Q.
Hypothesis Nl : (0 < nl)%Q.
Hypothesis En : forall a m b, exists m', simplify (a :: m ++ [b]) = a :: m' ++ [b].
Hypothesis Rd : rounding fl.
Variable r : OsmRead_model.rels.
Variable g : OsmRead_model.graph.
Variable s : @OsmRead_model.ngraph P SI.
Hypothesis Hr : readable g (OsmRead_model.ngSize s).
Hypothesis Hor : forall n, In n (OsmRead_model.orphans s) -> n < OsmRead_model.ngSize s /\ hasInfo s n = true.
Notation near1 := (fun a b => close (posOf origin s b) (posOf origin s a)).
Notation g1 := (fixGaps P (hasInfo s) near1 (near (readGraph r g (OsmRead_model.ngSize s))) (readGraph r g (OsmRead_model.ngSize s)) (order (readGraph r g (OsmRead_model.ngSize s)))).
Lemma g1_mended : mended (hasInfo s) near1 (readGraph r g (OsmRead_model.ngSize s)) g1.
Proof. apply fixGaps_mended; [now apply readGraph_simple|now apply readGraph_ok]. Qed.
Lemma buildFrom_ok : exists b s2,
  buildFrom r g s = Some b /\
  Snap_spec.Ok s2 /\ Snap_spec.Kept noTrack takeTrack (@lvl P) maxSnapLevel (toSnap origin g s g1) s2 /\ Tale (toSnap origin g s g1) s2 /\
  finish P (Snap_model.geo s2) (isStation s2) (isTurn s2) len simplify speed corFac fl sp ec nl (fromSnap g1 (OsmRead_model.ngSize s) s2) (meets (fromSnap g1 (OsmRead_model.ngSize s) s2)) = Some (bNet b) /\
  carries near1 (hasInfo s) (isStation s2) (OsmRead_model.rests r) g (OsmRead_model.ngSize s) (fromSnap g1 (OsmRead_model.ngSize s) s2) /\
  finished (Snap_model.geo s2) (isStation s2) (isTurn s2) len simplify speed sp ec nl (fromSnap g1 (OsmRead_model.ngSize s) s2) (net (bNet b)) /\
  areas (fun l => speed l / corFac)%Q fl (fromSnap g1 (OsmRead_model.ngSize s) s2) (net (bNet b)) (compOf (comps (bNet b))) (maxs (bNet b)) (num (bNet b)) /\
  (bPos b = Snap_model.geo s2 /\ bStation b = isStation s2 /\ bTurn b = isTurn s2 /\ bInfo b = Snap_model.getSI s2 /\ bNo b = netNo s2 (dup (bNet b))) /\
  exists t, runR emptyRestr (readCalls (OsmRead_model.rests r) (OsmRead_model.gSegs g)) = Some t /\
    bTable b = duplicateAll (fun x => fst (netEnds s2 (dup (bNet b)) x)) (fun x => snd (netEnds s2 (dup (bNet b)) x)) (retold s2 t) (dupPairs s2 (dup (bNet b))).
Proof.
  pose proof g1_mended as Hm.
  assert (O1 : Snap_spec.Ok (toSnap origin g s g1)).
  { apply toSnap_ok; [exact Hr|apply Hm|apply Hm|]. intros n I. eapply g1_small; eauto. }
  destruct (Snap_proofs.snapStats_inv hav half five plus project sharpAt (@lvl P) maxSnapLevel maxBlockDistance simiEq simiLow noTrack takeTrack pick ord Hpick Hord cands Hcands
    (fun s2 => Tale (toSnap origin g s g1) s2)) with (s := toSnap origin g s g1) (ds := ds) (stations := OsmRead_model.orphans s) as (s2 & E2 & O2 & K2 & T2).
  { intros sa k c sb Oa Ta Hs. eapply Step_Tale; eauto. }
  { exact O1. }
  { intros n I. destruct (Hor n I) as (A & B). split; [exact A|]. exists (infoNo s n). cbn. now apply station_state. }
  { now apply Tale_refl. }
  pose proof (g2_simple s g1 s2 O2) as S2.
  pose proof (g2_ok origin s r g near1 (@lvl P) maxSnapLevel noTrack takeTrack g1 s2 Hm K2) as Ok2.
  assert (Fit : forall e, In e (edges (fromSnap g1 (OsmRead_model.ngSize s) s2)) -> ends_fit (Snap_model.geo s2) e).
  { intros e I. destruct (g2_plain origin s r g near1 (@lvl P) maxSnapLevel noTrack takeTrack g1 s2 Hm K2 e I) as (i & e' & _ & Ep). unfold ends_fit. now rewrite Ep. }
  assert (Rv : forall e, In e (edges (fromSnap g1 (OsmRead_model.ngSize s) s2)) -> rev_ (ePl e) = false).
  { intros e I. destruct (g2_plain origin s r g near1 (@lvl P) maxSnapLevel noTrack takeTrack g1 s2 Hm K2 e I) as (i & e' & _ & Ep). now rewrite Ep. }
  destruct (net_ok (Snap_model.geo s2) (isStation s2) (isTurn s2) len simplify speed corFac fl sp ec nl _ (meets (fromSnap g1 (OsmRead_model.ngSize s) s2)) S2 Ok2 Fit Rv Rd) as (nt & En1 & En2 & Ar).
  destruct (may_iff (readCalls (OsmRead_model.rests r) (OsmRead_model.gSegs g))) as (t & Et & _).
  eexists _, s2. unfold Build_model.buildFrom. rewrite E2, En1, Et. split; [reflexivity|]. cbn [bNet bTable bPos bStation bTurn bInfo bNo].
  split; [exact O2|]. split; [exact K2|]. split; [exact T2|]. split; [reflexivity|].
  split; [eapply after_carries; eauto|]. split; [rewrite En2; now apply finished_ok|]. split; [rewrite En2; exact Ar|]. split; [auto|]. exists t. auto.
Qed.
End All.

(** * The file *)
Section File.
Context {P SI : Type}.
Lemma hasInfo_iff : forall (s : @OsmRead_model.ngraph P SI) m, hasInfo s m = true <-> exists i, OsmRead_model.pState (OsmRead_model.ngPay s m) = OsmRead_model.Station i.
Proof.
  intros s m. unfold hasInfo, infoOf. destruct (OsmRead_model.pState (OsmRead_model.ngPay s m)) as [| |i|] eqn:E; split; intros H; try discriminate; try (destruct H as (j & H); discriminate); eauto.
Qed.
Lemma nodes_kept : forall (origin : P) (s : @OsmRead_model.ngraph P SI) g g1 noTrack takeTrack lv mL s2, Snap_spec.Ok s2 -> Snap_spec.Kept noTrack takeTrack lv mL (toSnap origin g s g1) s2 ->
  nodes_keep noTrack takeTrack origin s (Snap_model.geo s2) (Snap_model.getSI s2) (isTurn s2).
Proof.
  intros origin s g g1 noTrack takeTrack lv mL s2 O2 K. constructor.
  - intros n L. rewrite (proj2 (Snap_spec.kp_nodes _ _ _ _ _ _ K) n L). reflexivity.
  - intros n i L H. assert (Hi : infoOf s n = Some i) by (unfold infoOf; now rewrite H).
    assert (Hs : hasInfo s n = true) by (unfold hasInfo; now rewrite Hi).
    pose proof (Snap_proofs.Kept_station _ _ _ _ _ s2 n _ K L (station_state s n L Hs)) as St.
    destruct (proj2 (Snap_spec.kp_infos _ _ _ _ _ _ K) (infoNo s n) i (infoNo_nth s n i L Hi)) as (j & Ej & F).
    exists j. split; [|exact F]. unfold Snap_model.getSI. now rewrite St.
  - intros n L. pose proof (Snap_spec.kp_state _ _ _ _ _ _ K n L) as D. unfold isTurn. cbn [toSnap Snap_model.state] in D. unfold stateOf in D. rewrite (proj2 (Nat.ltb_lt _ _) L) in D. split.
    + intros Tn. destruct D as [D|(_ & k & _ & D)]; rewrite D in Tn; [|discriminate]. destruct (OsmRead_model.pState (OsmRead_model.ngPay s n)); try discriminate. reflexivity.
    + intros E. rewrite E in D. destruct D as [D|(_ & k & _ & D)]; [left; now rewrite D|right].
      pose proof (Snap_spec.ok_info _ O2 n k D) as Lk. apply nth_error_Some in Lk. unfold Snap_model.getSI. rewrite D. destruct (nth_error (Snap_model.infos s2) k) as [j|]; [now exists j|easy].
Qed.
Lemma rules_sel : forall (c : @OsmRead_model.cfg P) rs rl, OsmRead_spec.Picked (OsmRead_spec.RelWanted c) (OsmRead_spec.relVal c) rs rl ->
  (forall e m, In e rs -> In m (OsmRead_spec.wayMembers e) -> fst m <> 0) ->
  exists sel, OsmRead_spec.Picked (fun e => OsmRead_spec.RelWanted c e /\
                 exists pos via f t, OsmRead_spec.Rule (OsmRead_model.posR c) (OsmRead_model.negR c) (OsmRead_spec.relVal c e) pos via f t) (fun e => e) rs sel /\
             Forall2 (fun e x => let '(pos, via, f, t) := x in OsmRead_spec.Rule (OsmRead_model.posR c) (OsmRead_model.negR c) (OsmRead_spec.relVal c e) pos via f t) sel
               (flat_map (OsmRead_model.readRestr (OsmRead_model.posR c) (OsmRead_model.negR c)) rl).
Proof.
  intros c rs rl H. induction H as [|e es l W H IH|e es l W H IH]; intros Hm.
  - exists []. split; constructor.
  - destruct IH as (sel & A & B); [intros x m Ix; apply Hm; now right|].
    assert (R : forall pos via f t, In (pos, via, f, t) (OsmRead_model.readRestr (OsmRead_model.posR c) (OsmRead_model.negR c) (OsmRead_spec.relVal c e)) <->
      OsmRead_spec.Rule (OsmRead_model.posR c) (OsmRead_model.negR c) (OsmRead_spec.relVal c e) pos via f t).
    { intros. apply OsmRead_proofs.restr_rule; [apply OsmRead_proofs.tags_unique|]. intros m. apply (Hm e m). now left. }
    pose proof (OsmRead_proofs.restr_one (OsmRead_model.posR c) (OsmRead_model.negR c) (OsmRead_spec.relVal c e)) as One. cbn [flat_map].
    destruct (OsmRead_model.readRestr (OsmRead_model.posR c) (OsmRead_model.negR c) (OsmRead_spec.relVal c e)) as [|x [|y q]]; cbn in One; [| |lia].
    + exists sel. split; [|exact B]. constructor; [|exact A]. intros (_ & pos & via & f & t & Ru). apply R in Ru. easy.
    + destruct x as [[[pos via] f] t]. exists (e :: sel). split.
      * apply (OsmRead_spec.P_take _ (fun e => e) e es sel); [|exact A]. split; [exact W|]. exists pos, via, f, t. apply R. now left.
      * cbn. constructor; [|exact B]. apply R. now left.
  - destruct IH as (sel & A & B); [intros x m Ix; apply Hm; now right|]. exists sel. split; [|exact B]. constructor; [|exact A]. tauto.
Qed.
Lemma neighbours_in : forall (A : Type) (l : list A) a b, In (a, b) (OsmRead_spec.neighbours l) -> In a l /\ In b l.
Proof.
  induction l as [|x [|y q] IH]; intros a b H; try easy. destruct H as [H|H].
  - injection H as <- <-. cbn. auto.
  - destruct (IH _ _ H). cbn in *. tauto.
Qed.
Lemma file_start : forall E (c : @OsmRead_model.cfg P) ns ws rs (pre : list OsmRead_model.tok) n c0 level oneway onewayrev linesOf (statInfo : nat -> list (string * string) -> option SI) station blocker turnCycle,
  Forall OsmRead_spec.nodeElem ns -> Forall OsmRead_spec.wayElem ws -> Forall OsmRead_spec.relElem rs -> Forall OsmRead_spec.noNodes pre -> ns <> [] -> ws <> [] ->
  length ns < n -> length ws < n -> length rs < n -> NoDup (map OsmRead_spec.idOf ns) -> (forall e m, In e rs -> In m (OsmRead_spec.wayMembers e) -> fst m <> 0) ->
  exists r wl g nl O,
    OsmRead_model.readFile E c (fun b r ws => OsmRead_model.readEdges level oneway onewayrev (linesOf r) (OsmRead_model.hasHup c b) (OsmRead_model.hasBox c b) ws) n
      (OsmRead_model.mkXml c0 (pre ++ OsmRead_spec.text ns ++ OsmRead_spec.text ws ++ OsmRead_spec.text rs)) = Some (r, wl, g, nl) /\
    file_read c ns ws rs level oneway onewayrev linesOf statInfo station blocker turnCycle r (OsmRead_model.rests r) wl g O (OsmRead_model.readNodes statInfo station blocker turnCycle g nl) /\
    readable g (OsmRead_model.ngSize (OsmRead_model.readNodes statInfo station blocker turnCycle g nl)) /\
    forall m, In m (OsmRead_model.orphans (OsmRead_model.readNodes statInfo station blocker turnCycle g nl)) ->
      m < OsmRead_model.ngSize (OsmRead_model.readNodes statInfo station blocker turnCycle g nl) /\ hasInfo (OsmRead_model.readNodes statInfo station blocker turnCycle g nl) m = true.
Proof.
  intros E c ns ws rs pre n c0 level oneway onewayrev linesOf statInfo station blocker turnCycle Hns Hws Hrs Hpre Hns0 Hws0 Hn1 Hn2 Hn3 Hnd Hm.
  destruct (OsmRead_proofs.file_graph E c ns ws rs pre n c0 level oneway onewayrev linesOf statInfo station blocker turnCycle Hns Hws Hrs Hpre Hns0 Hws0 Hn1 Hn2 Hn3 Hnd)
    as (r & wl & g & nl & O & hup & has & Er & Hhup & Hbox & Hw & Hg & Hnk & Hp).
  destruct (OsmRead_proofs.file_read E c ns ws rs Hns Hws Hrs pre Hpre Hns0 Hws0 n c0 (fun b r ws => OsmRead_model.readEdges level oneway onewayrev (linesOf r) (OsmRead_model.hasHup c b) (OsmRead_model.hasBox c b) ws) Hn1 Hn2 Hn3)
    as (b' & r' & rl & wl' & nl' & Er' & _ & Hr & Hrl & _).
  rewrite Er in Er'. injection Er' as <- _ _ _.
  exists r, wl, g, nl, O. split; [exact Er|]. split.
  - constructor; eauto. rewrite Hr. now apply rules_sel.
  - destruct (OsmRead_spec.nk_extra _ _ _ _ _ _ _ _ Hnk) as (xs & Hx & Hsz & Hxs). split.
    + constructor; [exact (OsmRead_spec.go_once _ _ _ _ _ _ _ _ _ Hg)|].
      intros e I. assert (J : In (OsmRead_model.eFrom e, OsmRead_model.eTo e) (map (fun e => (OsmRead_model.eFrom e, OsmRead_model.eTo e)) (OsmRead_model.gEdges g))) by (apply in_map_iff; eauto).
      apply (OsmRead_spec.go_edge _ _ _ _ _ _ _ _ _ Hg) in J. destruct J as (l & Il & J). apply neighbours_in in J.
      assert (Z : forall v, In v (map snd l) -> v < OsmRead_model.gSize g).
      { intros v Iv. apply (OsmRead_spec.go_size _ _ _ _ _ _ _ _ _ Hg). apply in_map_iff in Iv. destruct Iv as (q & <- & Iq). apply in_map. apply in_concat. eauto. }
      destruct J as (J1 & J2). apply Z in J1, J2. rewrite Hsz. lia.
    + intros m I. pose proof (OsmRead_spec.nk_orphans _ _ _ _ _ _ _ _ Hnk m I) as B. split; [lia|].
      destruct (nth_error xs (m - OsmRead_model.gSize g)) as [nd|] eqn:En; [|apply nth_error_None in En; lia].
      destruct (Hxs _ _ En) as (_ & S & Ho). replace (OsmRead_model.gSize g + (m - OsmRead_model.gSize g)) with m in * by lia. apply Ho in I.
      assert (Sta : station (OsmRead_model.nAttrs nd) = true).
      { apply nth_error_In in En. apply (OsmRead_proofs.Picked_In _ _ _ _ _ _ Hx) in En. destruct En as (nd' & _ & (_ & W) & <-). exact W. }
      apply hasInfo_iff. inversion S; try congruence. eauto.
Qed.
End File.
