(** Proofs about the closing of gaps. *)
From Coq Require Import List Arith Bool Lia.
From Verif Require Import ListAux OsmGraph_model OsmGraph_spec OsmGraph_proofs Gaps_model Gaps_spec.
Import ListNotations.
Open Scope nat_scope.

Section Proofs.
Context {P : Type}.
Variable station : nat -> bool.
Variable close : nat -> nat -> bool.
Variable near : nat -> list nat.
Notation graph := (graph P). Notation edge := (edge P).
Notation joinNode := (joinNode P station close).
Notation fixGap := (fixGap P station close near).
Notation fixGaps := (fixGaps P station close near).

Lemma deg_one : forall (g : graph) n, deg P g n = 1 -> exists e, dangling g n e /\ theEdge P g n = Some e.
Proof.
  clear station close near.
  intros g n D. unfold deg in D. unfold theEdge.
  assert (O : forall x, In x (adjOut P g n) <-> In x (edges g) /\ from x = n) by (intros; apply adjOut_in).
  assert (I : forall x, In x (adjIn P g n) <-> In x (edges g) /\ to x = n) by (intros; apply adjIn_in).
  destruct (adjOut P g n) as [|e [|e' l]]; cbn in D; try lia.
  - destruct (adjIn P g n) as [|e [|e' l']]; cbn in D; try lia. exists e. split; [|reflexivity].
    pose proof (proj1 (I e) (or_introl eq_refl)) as (Ie & T). split; [auto|]. split; [now right|]. split.
    + intros E. assert (X : In e []); [|destruct X]. apply O. split; [auto|congruence].
    + intros x Ix [Tx|Tx]; [assert (X : In x []) by (apply O; auto); destruct X|]. assert (X : In x [e]) by (apply I; auto). destruct X as [->|[]]. reflexivity.
  - destruct (adjIn P g n) as [|e'' l']; [|cbn in D; lia]. exists e. split; [|reflexivity].
    pose proof (proj1 (O e) (or_introl eq_refl)) as (Ie & T). split; [auto|]. split; [now left|]. split.
    + intros E. assert (X : In e []); [|destruct X]. apply I. split; [auto|congruence].
    + intros x Ix [Tx|Tx]; [|assert (X : In x []) by (apply I; auto); destruct X]. assert (X : In x [e]) by (apply O; auto). destruct X as [->|[]]. reflexivity.
Qed.
Lemma add_in : forall (g : graph) a b p x, In x (edges (addEdg P g a b p)) -> In x (edges g) \/ x = mkE a b p.
Proof. intros g a b p x. unfold addEdg. destruct (getEdg P g a b); cbn; [auto|]. intros I. apply in_app_or in I. destruct I as [I|[<-|[]]]; auto. Qed.
Lemma add_keeps : forall (g : graph) a b p x, In x (edges g) -> In x (edges (addEdg P g a b p)).
Proof. intros g a b p x I. unfold addEdg. destruct (getEdg P g a b); [auto|]. cbn. apply in_or_app. auto. Qed.
Lemma add_has : forall (g : graph) a b p, exists x, In x (edges (addEdg P g a b p)) /\ from x = a /\ to x = b.
Proof.
  intros g a b p. unfold addEdg. destruct (getEdg P g a b) as [x|] eqn:G.
  - unfold getEdg in G. apply find_some in G. destruct G as (I & E). unfold isEdg in E. apply andb_prop in E. destruct E as (F & T). apply Nat.eqb_eq in F, T. eauto.
  - exists (mkE a b p). cbn. split; [apply in_or_app; right; now left|auto].
Qed.
Lemma add_nodes : forall (g : graph) a b p, nodes (addEdg P g a b p) = nodes g.
Proof. intros. unfold addEdg. now destruct (getEdg P g a b). Qed.
Lemma del_in : forall (g : graph) n x, In x (edges (delNd P g n)) <-> In x (edges g) /\ ~ touches x n.
Proof.
  intros g n x. cbn. rewrite filter_In, andb_true_iff, !negb_true_iff, !Nat.eqb_neq. unfold touches. intuition.
Qed.
Lemma add_two_ways : forall (g : graph) a b e, two_ways g -> In e (edges g) -> two_ways (addEdg P g a b (ePl e)).
Proof. intros g a b e W Ie x I. apply add_in in I. destruct I as [I| ->]; [auto|]. cbn. auto. Qed.
Lemma del_two_ways : forall (g : graph) n, two_ways g -> two_ways (delNd P g n).
Proof. intros g n W x I. apply del_in in I. apply W. tauto. Qed.
Lemma drives_two : forall (g : graph) x u v, two_ways g -> In x (edges g) -> (from x = u /\ to x = v) \/ (from x = v /\ to x = u) -> drives g u v.
Proof. intros g x u v W I H. exists x. split; [auto|]. rewrite (W x I). destruct H as [(<- & <-)|(<- & <-)]; [left|right]; repeat split; discriminate. Qed.
Lemma gr_trans : forall (g : graph) u v w, gap_reach close g u v -> gap_reach close g v w -> gap_reach close g u w.
Proof. intros g u v w A B. induction B; [auto|eapply gr_drive; eauto|eapply gr_gap; eauto]. Qed.
Lemma reach_tr : forall (g : graph) u v w, reach g u v -> reach g v w -> reach g u w.
Proof. intros g u v w A B. induction B; [auto|eapply re_step; eauto]. Qed.

(** One pair of nodes. *)
Lemma join_closed : forall n g nb, two_ways g -> In n (nodes g) -> exists phi, gaps_closed station close g (joinNode n g nb) phi /\ phi n = n /\ two_ways (joinNode n g nb).
Proof.
  intros n g nb W In0. unfold Gaps_model.joinNode.
  assert (Id : gaps_closed station close g g (fun u => u)).
  { constructor; auto; [constructor|intros; tauto|]. intros u v R. induction R; [constructor|]. eapply gr_drive; eauto. }
  destruct (negb (nb =? n) && (deg P g nb =? 1) && close n nb) eqn:C; [|exists (fun u => u); auto].
  apply andb_prop in C. destruct C as (C & Cl). apply andb_prop in C. destruct C as (Ne & D). apply negb_true_iff, Nat.eqb_neq in Ne. apply Nat.eqb_eq in D.
  destruct (deg_one g nb D) as (e & (Ie & Te & Nl & Only) & ->).
  assert (O : (from e = nb /\ to e = other P e nb) \/ (from e = other P e nb /\ to e = nb)).
  { unfold other. destruct (from e =? nb) eqn:E; [apply Nat.eqb_eq in E; auto|]. apply Nat.eqb_neq in E. destruct Te; [contradiction|auto]. }
  assert (On : other P e nb <> nb). { intros X. destruct O as [(A & B)|(A & B)]; congruence. }
  set (o := other P e nb) in *.
  assert (Eo : drives g o nb /\ drives g nb o). { split; eapply drives_two; eauto; tauto. }
  destruct (negb (station nb) && negb (station n)) eqn:St.
  - apply andb_prop in St. destruct St as (Sb & Sn). apply negb_true_iff in Sb, Sn.
    set (g1 := delNd P (addEdg P g o n (ePl e)) nb).
    assert (W1 : two_ways g1) by (apply del_two_ways, add_two_ways; auto).
    assert (Link : reach g1 o n /\ reach g1 n o).
    { destruct (Nat.eq_dec o n) as [->|Nn]; [split; constructor|]. destruct (add_has g o n (ePl e)) as (x & Ix & F & T).
      assert (I1 : In x (edges g1)). { apply del_in. split; [auto|]. unfold touches. intros [X|X]; congruence. }
      split; (eapply re_step; [apply re_here|]); eapply drives_two; eauto. }
    exists (fun u => if u =? nb then n else u). split; [constructor|split; [|exact W1]].
    + intros u Su. destruct (u =? nb) eqn:E; [apply Nat.eqb_eq in E; congruence|reflexivity].
    + intros u. destruct (u =? nb) eqn:E; [|constructor]. apply Nat.eqb_eq in E. subst u. eapply gr_gap; [apply gr_here|auto].
    + intros u. unfold g1. cbn. rewrite filter_In, negb_true_iff, add_nodes. destruct (u =? nb) eqn:E; [|tauto]. apply Nat.eqb_eq in E. subst u. split; [intros (_ & X); discriminate|]. intros (_ & X). congruence.
    + intros u Iu. unfold g1. cbn. rewrite filter_In, negb_true_iff, add_nodes. destruct (u =? nb) eqn:E; [|auto]. split; [auto|]. apply Nat.eqb_neq. congruence.
    + assert (Dr : forall u v, drives g u v -> reach g1 (if u =? nb then n else u) (if v =? nb then n else v)).
      { intros u v (x & Ix & H). assert (Hx : (from x = u /\ to x = v) \/ (from x = v /\ to x = u)) by tauto. clear H.
        destruct (Nat.eq_dec (from x) nb) as [Fx|Fx].
        - rewrite (Only x Ix (or_introl Fx)) in *. destruct Hx as [(<- & <-)|(<- & <-)]; destruct O as [(F & T)|(F & T)]; rewrite F, T, Nat.eqb_refl; (destruct (o =? nb) eqn:E; [apply Nat.eqb_eq in E; congruence|]); apply Link.
        - destruct (Nat.eq_dec (to x) nb) as [Tx|Tx].
          + rewrite (Only x Ix (or_intror Tx)) in *. destruct Hx as [(<- & <-)|(<- & <-)]; destruct O as [(F & T)|(F & T)]; rewrite F, T, Nat.eqb_refl; (destruct (o =? nb) eqn:E; [apply Nat.eqb_eq in E; congruence|]); apply Link.
          + assert (I1 : In x (edges g1)). { apply del_in. split; [now apply add_keeps|]. unfold touches. tauto. }
            apply Nat.eqb_neq in Fx, Tx. destruct Hx as [(<- & <-)|(<- & <-)]; rewrite Fx, Tx; (eapply re_step; [apply re_here|]); eapply drives_two; eauto. }
      intros u v R. induction R as [|v w R IH D']; [constructor|]. eapply reach_tr; [exact IH|now apply Dr].
    + intros u v R. induction R as [|v w R IH (x & I & H)]; [constructor|]. eapply gr_trans; [exact IH|]. clear R IH. apply del_in in I. destruct I as (I & _). apply add_in in I. destruct I as [I| ->].
      * eapply gr_drive; [apply gr_here|]. exists x. auto.
      * cbn in H. assert (G1 : gap_reach close g o n). { eapply gr_gap; [eapply gr_drive; [apply gr_here|apply Eo]|auto]. }
        assert (G2 : gap_reach close g n o). { eapply gr_drive; [eapply gr_gap; [apply gr_here|left; exact Cl]|apply Eo]. }
        destruct H as [(<- & <- & _)|(<- & <- & _)]; assumption.
    + destruct (n =? nb) eqn:E; [apply Nat.eqb_eq in E; congruence|reflexivity].
  - exists (fun u => u). split; [constructor|split; [reflexivity|apply add_two_ways; auto]]; auto.
    + constructor.
    + intros u. rewrite add_nodes. tauto.
    + intros u Iu. now rewrite add_nodes.
    + intros u v R. induction R as [|v w R IH (x & I & H)]; [constructor|]. eapply re_step; [exact IH|]. exists x. split; [now apply add_keeps|auto].
    + intros u v R. induction R as [|v w R IH (x & I & H)]; [constructor|]. apply add_in in I. destruct I as [I| ->].
      * eapply gr_drive; [exact IH|]. exists x. auto.
      * cbn in H. eapply gr_gap; [exact IH|]. destruct H as [(<- & <- & _)|(<- & <- & _)]; auto.
Qed.
Lemma gap_reach_step : forall (g g1 : graph) phi, gaps_closed station close g g1 phi -> forall u v, gap_reach close g1 u v -> gap_reach close g u v.
Proof.
  intros g g1 phi C u v R. induction R as [|v w R IH D|v w R IH D]; [constructor| |eapply gr_gap; eauto].
  eapply gr_trans; [exact IH|]. apply (gc_only _ _ _ _ _ C). eapply re_step; [apply re_here|exact D].
Qed.
Lemma closed_comp : forall (g g1 g2 : graph) f1 f2, gaps_closed station close g g1 f1 -> gaps_closed station close g1 g2 f2 ->
  (forall u, In u (nodes g) -> f1 u <> u -> f2 (f1 u) <> u) -> gaps_closed station close g g2 (fun u => f2 (f1 u)).
Proof.
  intros g g1 g2 f1 f2 A B K. constructor.
  - intros u Su. rewrite (gc_stations _ _ _ _ _ A u Su). now apply (gc_stations _ _ _ _ _ B).
  - intros u. eapply gr_trans; [apply (gc_near _ _ _ _ _ A)|]. apply (gap_reach_step _ _ _ A), (gc_near _ _ _ _ _ B).
  - intros u. rewrite (gc_nodes _ _ _ _ _ B), (gc_nodes _ _ _ _ _ A). split.
    + intros ((I & E1) & E2). rewrite E1. auto.
    + intros (I & E). destruct (Nat.eq_dec (f1 u) u) as [E1|E1]; [rewrite E1 in E; auto|]. exfalso. now apply (K u I E1).
  - intros u Iu. apply (gc_range _ _ _ _ _ B), (gc_range _ _ _ _ _ A), Iu.
  - intros u v R. apply (gc_kept _ _ _ _ _ B), (gc_kept _ _ _ _ _ A), R.
  - intros u v R. apply (gap_reach_step _ _ _ A), (gc_only _ _ _ _ _ B), R.
Qed.
Lemma comp_cond : forall (g g1 g2 : graph) f1 f2, gaps_closed station close g g1 f1 -> gaps_closed station close g1 g2 f2 -> forall u, In u (nodes g) -> f1 u <> u -> f2 (f1 u) <> u.
Proof.
  intros g g1 g2 f1 f2 A B u Iu N0 E. pose proof (gc_range _ _ _ _ _ B (f1 u) (gc_range _ _ _ _ _ A u Iu)) as I. rewrite E in I.
  apply (gc_nodes _ _ _ _ _ B) in I. destruct I as (I & _). apply (gc_nodes _ _ _ _ _ A) in I. tauto.
Qed.
Lemma id_closed : forall g : graph, gaps_closed station close g g (fun u => u).
Proof. intros g. constructor; auto; [constructor|intros; tauto|]. intros u v R. induction R; [constructor|]. eapply gr_drive; eauto. Qed.
Lemma joins_closed : forall n l g, two_ways g -> In n (nodes g) -> exists phi, gaps_closed station close g (fold_left (joinNode n) l g) phi /\ two_ways (fold_left (joinNode n) l g).
Proof.
  induction l as [|nb l IH]; intros g W I; cbn [fold_left]; [exists (fun u => u); split; [apply id_closed|auto]|].
  destruct (join_closed n g nb W I) as (f1 & C1 & Fn & W1). destruct (IH (joinNode n g nb) W1) as (f2 & C2 & W2).
  { apply (gc_nodes _ _ _ _ _ C1). auto. }
  exists (fun u => f2 (f1 u)). split; [|exact W2]. eapply closed_comp; eauto. eapply comp_cond; eauto.
Qed.
Lemma gaps_ok : forall ns g, two_ways g -> (forall n e, In e (edges g) -> touches e n -> In n (nodes g)) ->
  exists phi, gaps_closed station close g (fixGaps g ns) phi.
Proof.
  assert (Ends : forall n g nb, In n (nodes g) -> (forall m e, In e (edges g) -> touches e m -> In m (nodes g)) -> (forall m e, In e (edges (joinNode n g nb)) -> touches e m -> In m (nodes (joinNode n g nb)))).
  { intros n g nb In0 H. unfold Gaps_model.joinNode. destruct (negb (nb =? n) && (deg P g nb =? 1) && close n nb) eqn:C; [|exact H].
    apply andb_prop in C. destruct C as (C & Cl). apply andb_prop in C. destruct C as (Ne & D). apply negb_true_iff, Nat.eqb_neq in Ne. apply Nat.eqb_eq in D.
    destruct (deg_one g nb D) as (e & (Ie & Te & Nl & Only) & ->).
    assert (Io : In (other P e nb) (nodes g)). { apply (H _ e Ie). unfold other, touches. destruct (from e =? nb); auto. }
    assert (Ib : In nb (nodes g)) by (apply (H _ e Ie Te)).
    destruct (negb (station nb) && negb (station n)).
    - intros m x I T. apply del_in in I. destruct I as (I & Nt). cbn. rewrite filter_In, negb_true_iff, Nat.eqb_neq, add_nodes. split; [|intros ->; contradiction].
      apply add_in in I. destruct I as [I| ->]; [eapply H; eauto|]. destruct T as [<- | <-]; auto.
    - intros m x I T. rewrite add_nodes. apply add_in in I. destruct I as [I| ->]; [eapply H; eauto|]. destruct T as [<- | <-]; auto. }
  assert (Nn : forall n g nb, In n (nodes g) -> In n (nodes (joinNode n g nb))).
  { intros n g nb In0. unfold Gaps_model.joinNode. destruct (negb (nb =? n) && (deg P g nb =? 1) && close n nb) eqn:C; [|auto].
    apply andb_prop in C. destruct C as (C & _). apply andb_prop in C. destruct C as (Ne & _). apply negb_true_iff, Nat.eqb_neq in Ne.
    destruct (theEdge P g nb); [|auto]. destruct (negb (station nb) && negb (station n)); [|now rewrite add_nodes]. cbn. rewrite filter_In, negb_true_iff, Nat.eqb_neq, add_nodes. auto. }
  assert (EndsAll : forall n l g, In n (nodes g) -> (forall m e, In e (edges g) -> touches e m -> In m (nodes g)) -> (forall m e, In e (edges (fold_left (joinNode n) l g)) -> touches e m -> In m (nodes (fold_left (joinNode n) l g)))).
  { intros n. induction l as [|nb l IH]; intros g I H; [exact H|]. cbn [fold_left]. apply IH; [now apply Nn|now apply Ends]. }
  unfold Gaps_model.fixGaps. induction ns as [|n ns IH]; intros g W H; cbn [fold_left]; [exists (fun u => u); apply id_closed|].
  unfold Gaps_model.fixGap at 2. destruct (deg P g n =? 1) eqn:D; [|now apply IH]. apply Nat.eqb_eq in D.
  assert (In0 : In n (nodes g)). { destruct (deg_one g n D) as (e & (Ie & Te & _) & _). eapply H; eauto. }
  destruct (joins_closed n (near n) g W In0) as (f1 & C1 & W1). destruct (IH (fold_left (joinNode n) (near n) g) W1) as (f2 & C2); [now apply EndsAll|].
  exists (fun u => f2 (f1 u)). eapply closed_comp; eauto. eapply comp_cond; eauto.
Qed.

Lemma dangling_deg : forall (g : graph) nb e, simple g -> dangling g nb e -> deg P g nb = 1 /\ theEdge P g nb = Some e.
Proof.
  intros g nb e S D. assert (X : deg P g nb = 1).
  { destruct D as (Ie & Te & Nl & Only). unfold deg.
    assert (NdO : NoDup (adjOut P g nb)) by (apply (NoDup_of_map _ _ (fun e => (from e, to e))), NoDup_map_filter, S).
    assert (NdI : NoDup (adjIn P g nb)) by (apply (NoDup_of_map _ _ (fun e => (from e, to e))), NoDup_map_filter, S).
    assert (One : forall l : list edge, NoDup l -> (forall x, In x l <-> x = e) -> length l = 1).
    { intros l Nd H. destruct l as [|a [|b l]]; [exfalso; apply (proj2 (H e) eq_refl)|reflexivity|]. exfalso. inversion Nd; subst. apply H2. left. rewrite (proj1 (H a)), (proj1 (H b)); auto; [right; now left|now left]. }
    assert (Zero : forall l : list edge, (forall x, ~ In x l) -> length l = 0) by (intros [|a l] H; [reflexivity|exfalso; apply (H a); now left]).
    destruct Te as [F|T].
    - rewrite (One (adjOut P g nb) NdO), (Zero (adjIn P g nb)); [reflexivity| |].
      + intros x I. apply adjIn_in in I. destruct I as (I & T). pose proof (Only x I (or_intror T)). subst x. congruence.
      + intros x. rewrite adjOut_in. split; [intros (I & Fx); apply Only; [auto|now left]|intros ->; auto].
    - rewrite (Zero (adjOut P g nb)), (One (adjIn P g nb) NdI); [reflexivity| |].
      + intros x. rewrite adjIn_in. split; [intros (I & Fx); apply Only; [auto|now right]|intros ->; auto].
      + intros x I. apply adjOut_in in I. destruct I as (I & T'). pose proof (Only x I (or_introl T')). subst x. congruence. }
  split; [exact X|]. destruct (deg_one g nb X) as (e' & (Ie' & Te' & _ & _) & E). rewrite E. f_equal. destruct D as (_ & _ & _ & Only). now apply Only.
Qed.
Lemma join_end : forall g n nb e, simple g -> dangling g nb e -> to e = nb -> n <> nb -> close n nb = true -> station n = false -> station nb = false ->
  (forall x, In x (edges g) -> ~ (from x = from e /\ to x = n)) -> forall x, In x (edges (joinNode n g nb)) <-> (In x (edges g) /\ x <> e) \/ x = mkE (from e) n (ePl e).
Proof.
  intros g n nb e S D T Ne Cl Sn Sb No x. unfold Gaps_model.joinNode. destruct (dangling_deg g nb e S D) as (E1 & E2). rewrite E1, E2, Cl, Sn, Sb.
  destruct (nb =? n) eqn:E; [apply Nat.eqb_eq in E; congruence|]. cbn [negb andb Nat.eqb]. destruct D as (Ie & Te & Nl & Only).
  assert (Oe : other P e nb = from e). { unfold other. destruct (from e =? nb) eqn:X; [apply Nat.eqb_eq in X; congruence|reflexivity]. }
  rewrite Oe, del_in, addEdg_new; [|apply hasEdg_false; exact No]. cbn. rewrite in_app_iff. cbn. split.
  - intros ([I|[<-|[]]] & Nt); [left; split; [auto|intros ->; contradiction]|now right].
  - intros [(I & N0)| ->].
    + split; [auto|]. intros Tx. apply N0. now apply Only.
    + split; [right; now left|]. intros [X|X]; cbn in X; congruence.
Qed.
Lemma join_station : forall g n nb e, simple g -> dangling g nb e -> n <> nb -> close n nb = true -> (station n = true \/ station nb = true) ->
  (forall x, In x (edges g) -> ~ (from x = n /\ to x = nb)) -> edges (joinNode n g nb) = edges g ++ [mkE n nb (ePl e)].
Proof.
  intros g n nb e S D Ne Cl St No. unfold Gaps_model.joinNode. destruct (dangling_deg g nb e S D) as (E1 & E2). rewrite E1, E2, Cl.
  destruct (nb =? n) eqn:E; [apply Nat.eqb_eq in E; congruence|]. cbn [negb andb Nat.eqb].
  assert (X : negb (station nb) && negb (station n) = false) by (destruct St as [-> | ->]; [apply andb_false_r|reflexivity]). rewrite X.
  rewrite addEdg_new; [reflexivity|apply hasEdg_false; exact No].
Qed.
End Proofs.
