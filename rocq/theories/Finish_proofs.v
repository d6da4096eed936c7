(** Proofs for the finished network (C72). *)
From Coq Require Import List Arith NArith ZArith QArith Bool Permutation Lia Lqa.
From Verif Require Import ListAux OsmGraph_model OsmGraph_spec OsmGraph_proofs Weights_model Weights_spec Weights_proofs Finish_model Finish_spec.
Import ListNotations.
Open Scope nat_scope.

Section Proofs.
Context {P : Type}.
Variable pos : nat -> P.
Variable station turn : nat -> bool.
Notation edge := (edge P). Notation graph := (graph P).
Notation step := (step station turn).
Notation merged := (merged pos).
Notation collapseAt := (collapseAt P pos station turn). Notation collapse := (collapse P pos station turn).
Notation newE a b da db := (mkE (src (a, da)) (dst (b, db)) (mergeEdgePL P pos a b)).

(** ** More about collapsing *)
Lemma collapse_ind : forall (Q : graph -> Prop), (forall g n a b da db, simple g -> step g n a b da db -> Q g -> Q (merged g a b da db)) ->
  forall ns g, simple g -> Q g -> Q (collapse g ns).
Proof.
  intros Q H. induction ns as [|[n sw] ns IH]; intros g S Qg; [exact Qg|].
  change (collapse g ((n, sw) :: ns)) with (collapse (collapseAt g (n, sw)) ns).
  apply IH; [now apply simple_step|]. destruct (collapseAt_cases pos station turn g n sw S) as [->|(a & b & da & db & St & ->)]; [exact Qg|]. eapply H; eauto.
Qed.
Lemma rev_collapse : forall ns g, simple g -> (forall e, In e (edges g) -> rev_ (ePl e) = false) -> forall e, In e (edges (collapse g ns)) -> rev_ (ePl e) = false.
Proof.
  intros ns g S R. apply (collapse_ind (fun g => forall e, In e (edges g) -> rev_ (ePl e) = false)); auto.
  clear. intros g n a b da db S St R e I. apply merged_in in I. destruct I as [(I & _)| ->]; [auto|]. cbn. destruct (merge_flags pos a b) as (L & ->). cbn. apply R. apply (st_a _ _ _ _ _ _ _ _ St).
Qed.
Lemma ends_collapse : forall ns g, simple g -> graph_ok g -> graph_ok (collapse g ns).
Proof.
  intros ns g S R. apply (collapse_ind graph_ok); auto. clear. intros g n a b da db S St [N E]. constructor; [exact N|]. intros e I. cbn [nodes OsmGraph_proofs.merged].
  apply merged_in in I. destruct I as [(I & _)| ->]; [auto|]. cbn.
  pose proof (E a (st_a _ _ _ _ _ _ _ _ St)). pose proof (E b (st_b _ _ _ _ _ _ _ _ St)). unfold src, dst. cbn. destruct da, db; tauto.
Qed.
Lemma pairs_collapse : forall ns g, simple g -> forall e e', In e (edges (collapse g ns)) -> In e' (edges (collapse g ns)) -> from e' = to e -> to e' = from e -> from e <> to e ->
  In e (edges g) /\ In e' (edges g).
Proof.
  intros ns g S. apply (collapse_ind (fun h => forall e e', In e (edges h) -> In e' (edges h) -> from e' = to e -> to e' = from e -> from e <> to e -> In e (edges g) /\ In e' (edges g))); auto.
  clear ns S. intros h n a b da db S St IH e e' I I' F T N.
  destruct (merged_in _ _ _ _ _ _ _ I) as [(J & _)| E]; destruct (merged_in _ _ _ _ _ _ _ I') as [(J' & _)| E'].
  - now apply IH.
  - exfalso. apply (st_no2 _ _ _ _ _ _ _ _ St e J). subst e'. cbn in *. auto.
  - exfalso. apply (st_no2 _ _ _ _ _ _ _ _ St e' J'). subst e. cbn in *. auto.
  - exfalso. subst. apply N. exact (eq_sym T).
Qed.

(** Connectedness. *)
Lemma conn_sym : forall (g : graph) u v, connected g u v -> connected g v u.
Proof. intros g u v C. exact (OsmGraph_proofs.conn_sym (fun _ => 0%Q) g u v C). Qed.
Lemma conn_edge : forall (g : graph) e, In e (edges g) -> connected g (from e) (to e).
Proof. intros g e I. eapply cn_step; [apply cn_here|exact I|auto]. Qed.
Lemma conn_back : forall g n a b da db, step g n a b da db -> forall x w, connected (merged g a b da db) x w -> connected g x w.
Proof.
  intros g n a b da db St x w C. induction C as [|v w e C IH I D]; [constructor|]. apply (conn_trans g _ _ _ IH). clear C IH.
  apply merged_in in I. destruct I as [(I & _)| ->]; [eapply cn_step; [apply cn_here|exact I|exact D]|].
  assert (K : connected g (src (a, da)) (dst (b, db))).
  { pose proof (conn_edge g a (st_a _ _ _ _ _ _ _ _ St)) as Ka. pose proof (conn_edge g b (st_b _ _ _ _ _ _ _ _ St)) as Kb.
    apply (conn_trans g _ n); [rewrite <- (st_n1 _ _ _ _ _ _ _ _ St)|rewrite <- (st_n2 _ _ _ _ _ _ _ _ St)]; unfold src, dst; cbn; [destruct da|destruct db]; auto using conn_sym. }
  destruct D as [(<- & <-)|(<- & <-)]; cbn; [exact K|now apply conn_sym].
Qed.
Lemma conn_fwd : forall g n a b da db, simple g -> step g n a b da db -> forall x w, x <> n -> connected g x w ->
  (w <> n -> connected (merged g a b da db) x w) /\ (w = n -> connected (merged g a b da db) x (src (a, da))).
Proof.
  intros g n a b da db S St x w Nx C.
  assert (New : connected (merged g a b da db) (src (a, da)) (dst (b, db))).
  { change (connected (merged g a b da db) (from (newE a b da db)) (to (newE a b da db))). apply conn_edge. apply new_in. }
  assert (Old : forall e, In e (edges g) -> from e <> n -> to e <> n -> In e (edges (merged g a b da db))).
  { intros e I F T. eapply merged_keeps; eauto; intros ->.
    - pose proof (st_n1 _ _ _ _ _ _ _ _ St) as N1. unfold dst in N1. cbn in N1. destruct da; congruence.
    - pose proof (st_n2 _ _ _ _ _ _ _ _ St) as N2. unfold src in N2. cbn in N2. destruct db; congruence. }
  assert (Near : forall e m, In e (edges g) -> touches e n -> touches e m -> m <> n -> connected (merged g a b da db) (src (a, da)) m).
  { intros e m I T Tm N. destruct (st_only _ _ _ _ _ _ _ _ St e I T) as [-> | ->].
    - rewrite (a_ends station turn g n a b da db St m Tm N). apply cn_here.
    - rewrite (b_ends station turn g n a b da db St m Tm N). exact New. }
  induction C as [|v w e C IH I D]; [split; [intros; constructor|congruence]|]. destruct IH as (IH1 & IH2).
  assert (Tv : touches e v) by (unfold touches; tauto). assert (Tw : touches e w) by (unfold touches; tauto).
  destruct (Nat.eq_dec v n) as [Ev|Nv]; destruct (Nat.eq_dec w n) as [Ew|Nw]; (split; intros H; [try congruence|try congruence]).
  - auto.
  - apply (conn_trans _ _ _ _ (IH2 Ev)). apply (Near e); auto. now rewrite <- Ev.
  - apply (conn_trans _ _ _ _ (IH1 Nv)). apply conn_sym. apply (Near e); auto. now rewrite <- Ew.
  - apply (conn_trans _ _ _ _ (IH1 Nv)). eapply cn_step; [apply cn_here| |exact D]. apply Old; [auto|destruct D as [(X & Y)|(X & Y)]; congruence|destruct D as [(X & Y)|(X & Y)]; congruence].
Qed.
Lemma conn_collapse : forall ns g, simple g -> forall x w,
  (station x = true \/ turn x = true \/ exists e, In e (edges (collapse g ns)) /\ touches e x) ->
  (station w = true \/ turn w = true \/ exists e, In e (edges (collapse g ns)) /\ touches e w) ->
  (connected g x w <-> connected (collapse g ns) x w).
Proof.
  induction ns as [|[n sw] ns IH]; intros g S x w Kx Kw; [reflexivity|].
  change (collapse g ((n, sw) :: ns)) with (collapse (collapseAt g (n, sw)) ns) in *.
  rewrite <- (IH (collapseAt g (n, sw)) (simple_step pos station turn g (n, sw) S)); auto.
  destruct (collapseAt_cases pos station turn g n sw S) as [E|(a & b & da & db & St & E)]; [rewrite E; reflexivity|].
  assert (Alive : forall y, (station y = true \/ turn y = true \/ exists e, In e (edges (collapse (collapseAt g (n, sw)) ns)) /\ touches e y) -> y <> n).
  { intros y Ky ->. destruct (st_plain _ _ _ _ _ _ _ _ St) as (P1 & P2). destruct Ky as [Ky|[Ky|(e & Ie & Te)]]; [congruence|congruence|].
    apply (untouched_all pos station turn ns (collapseAt g (n, sw)) n (simple_step pos station turn g (n, sw) S)) in Ie; [contradiction|]. rewrite E. intros e' I'. eapply merged_untouched; eauto. }
  pose proof (Alive x Kx) as Nx. pose proof (Alive w Kw) as Nw. rewrite E. split.
  - intros R. now apply (conn_fwd g n a b da db S St x w Nx R).
  - now apply (conn_back g n).
Qed.

(** ** Self-edges, without conditions *)
Notation writeSelfEdg := (writeSelfEdg P pos station). Notation writeSelfEdgs := (writeSelfEdgs P pos station).
Definition alike (e e' : edge) : Prop :=
  from e' = from e /\ to e' = to e /\ rev_ (ePl e') = rev_ (ePl e) /\ lvl (ePl e') = lvl (ePl e) /\ lines (ePl e') = lines (ePl e) /\ restr (ePl e') = restr (ePl e).
Lemma alike_refl : forall e, alike e e.
Proof. intros e. unfold alike. auto 10. Qed.
Record selfed (g g' : graph) (ns : list nat) : Prop := {
  se_nodes : nodes g' = nodes g;
  se_simple : simple g -> simple g';
  se_plain : forall e, from e <> to e -> (In e (edges g') <-> In e (edges g));
  se_loops : forall e, In e (edges g') -> In e (edges g) \/ turn_edge station e;
  se_ends : forall e, In e (edges g') -> (exists e0, In e0 (edges g) /\ from e0 = from e) ;
  se_keep : forall e, In e (edges g) -> exists e', In e' (edges g') /\ alike e e';
  se_turn : forall n, (lonely (P := P) station g n = true /\ In n ns) \/ (exists e, In e (edges g) /\ from e = n /\ turn_edge station e) ->
              exists e, In e (edges g') /\ from e = n /\ turn_edge station e;
  se_fits : (forall e, In e (edges g) -> from e <> to e \/ oneWay (ePl e) = 0 -> OsmGraph_spec.fits pos e) ->
            forall e, In e (edges g') -> from e <> to e \/ oneWay (ePl e) = 0 -> OsmGraph_spec.fits pos e;
  se_lonely : forall n, ~ In n ns -> lonely (P := P) station g' n = lonely (P := P) station g n
}.
Lemma self_step : forall g n, selfed g (writeSelfEdg g n) [n].
Proof.
  intros g n. unfold OsmGraph_model.writeSelfEdg. change (station n && (length (adjOut P g n) =? 1)) with (lonely (P := P) station g n). destruct (lonely (P := P) station g n) eqn:L.
  2: { constructor; auto; try reflexivity; try tauto.
       - intros e I. exists e. auto.
       - intros e I. exists e. split; [auto|apply alike_refl].
       - intros m [(Lm & [<-|[]])|X]; [congruence|exact X]. }
  pose proof L as L0. unfold lonely in L0. apply andb_prop in L0. destruct L0 as (Sn & Len). apply Nat.eqb_eq in Len.
  assert (Out : exists e0, In e0 (edges g) /\ from e0 = n).
  { destruct (adjOut P g n) as [|e0 l] eqn:A; [discriminate|]. exists e0. apply adjOut_in. rewrite A. now left. }
  destruct (getEdg P g n n) as [e|] eqn:G.
  - set (f := fun e0 : edge => if isEdg P n n e0 then mkE n n (mkPl (oneWay (ePl e0)) (restr (ePl e0)) (rev_ (ePl e0)) (lvl (ePl e0)) 4294967295 (Some (match geom (ePl e0) with Some l => l | None => [] end ++ [pos n; pos n])) (lines (ePl e0))) else e0).
    change (selfed g (mkG (nodes g) (map f (edges g))) [n]).
    assert (Ft : forall e, from (f e) = from e /\ to (f e) = to e).
    { intros x. unfold f. destruct (isEdg P n n x) eqn:X; [|auto]. apply isEdg_iff in X. cbn. intuition congruence. }
    assert (Al : forall x, alike x (f x)).
    { intros x. unfold alike. destruct (Ft x) as (-> & ->). unfold f. destruct (isEdg P n n x); cbn; auto 10. }
    assert (Hit : forall x, from x = n -> to x = n -> turn_edge station (f x)).
    { intros x F T. unfold f. replace (isEdg P n n x) with true by (symmetry; apply isEdg_iff; auto). unfold turn_edge. cbn. auto. }
    assert (Miss : forall x, ~ (from x = n /\ to x = n) -> f x = x).
    { intros x N. unfold f. destruct (isEdg P n n x) eqn:X; [|auto]. apply isEdg_iff in X. contradiction. }
    apply find_some in G. destruct G as (Ie & Ee). apply isEdg_iff in Ee.
    constructor; cbn [nodes edges]; auto.
    + intros S. unfold simple in *. cbn. rewrite map_map. erewrite map_ext; [exact S|]. intros x. cbn. destruct (Ft x) as (-> & ->). reflexivity.
    + intros x N. rewrite in_map_iff. split; [intros (y & <- & I)|intros I; exists x; split; [apply Miss; intros (A & B); congruence|auto]].
      rewrite Miss; [auto|]. destruct (Ft y) as (A & B). rewrite A, B in N. intros (? & ?). congruence.
    + intros x I. apply in_map_iff in I. destruct I as (y & <- & I). destruct (Nat.eq_dec (from y) n) as [F|F]; [destruct (Nat.eq_dec (to y) n) as [T|T]|].
      * right. now apply Hit.
      * left. rewrite Miss; tauto.
      * left. rewrite Miss; tauto.
    + intros x I. apply in_map_iff in I. destruct I as (y & <- & I). exists y. split; [auto|]. symmetry. apply Ft.
    + intros x I. exists (f x). split; [now apply in_map|apply Al].
    + intros m [(Lm & [<-|[]])|(x & Ix & Fx & Tx)].
      * exists (f e). split; [now apply in_map|]. split; [rewrite (proj1 (Ft e)); tauto|]. now apply Hit.
      * exists (f x). split; [now apply in_map|]. split; [rewrite (proj1 (Ft x)); tauto|].
        destruct (Nat.eq_dec m n) as [->|N]; [apply Hit; [auto|destruct Tx as (<- & _); auto]|]. rewrite Miss; [auto|]. intros (A & B). congruence.
    + intros Hf x I D. apply in_map_iff in I. destruct I as (y & <- & I). destruct (isEdg P n n y) eqn:X.
      2: { assert (E : f y = y) by (unfold f; now rewrite X). rewrite E in *. now apply Hf. }
      assert (Dy : from y <> to y \/ oneWay (ePl y) = 0). { destruct D as [D|D]; [left; now rewrite (proj1 (Ft y)), (proj2 (Ft y)) in D|right]. unfold f in D. rewrite X in D. exact D. }
      destruct (Hf y I Dy) as (m & Em). unfold OsmGraph_spec.fits, points in *. unfold f. rewrite X. cbn [ePl geom rev_ from to]. apply isEdg_iff in X. destruct X as (Xf & Xt). rewrite Xf, Xt in Em.
      destruct (geom (ePl y)) as [l|]; [|discriminate]. injection Em as Em. destruct (rev_ (ePl y)).
      * exists (pos n :: pos n :: m). rewrite rev_app_distr. rewrite Em. reflexivity.
      * exists ((m ++ [pos n]) ++ [pos n]). rewrite Em. cbn. now rewrite <- !app_assoc.
    + intros m N. unfold lonely. f_equal. f_equal. unfold adjOut. cbn.
      clear - Ft. induction (edges g) as [|x l IH]; [reflexivity|]. cbn. rewrite (proj1 (Ft x)). destruct (from x =? m); cbn; now rewrite IH.
  - unfold addEdg. rewrite G. assert (No : forall x, In x (edges g) -> ~ (from x = n /\ to x = n)).
    { apply hasEdg_false. unfold hasEdg. now rewrite G. }
    assert (T0 : turn_edge station (mkE n n (selfPl P pos n))) by (unfold turn_edge; cbn; auto).
    constructor; cbn [nodes edges]; auto.
    + intros S. unfold simple. cbn. rewrite map_app. apply NoDup_snoc; [exact S|]. cbn. intros I. apply in_map_iff in I. destruct I as (x & X & Ix). injection X as F T. now apply (No x).
    + intros x N. rewrite in_app_iff. cbn. split; [intros [I|[<-|[]]]; [auto|exfalso; now apply N]|auto].
    + intros x I. apply in_app_iff in I. destruct I as [I|[<-|[]]]; auto.
    + intros x I. apply in_app_iff in I. destruct I as [I|[<-|[]]]; [exists x; auto|exact Out].
    + intros x I. exists x. split; [apply in_or_app; auto|apply alike_refl].
    + intros m [(Lm & [<-|[]])|(x & Ix & Fx & Tx)].
      * eexists. split; [apply in_or_app; right; now left|]. auto.
      * exists x. split; [apply in_or_app; auto|auto].
    + intros Hf x I D. apply in_app_iff in I. destruct I as [I|[<-|[]]]; [now apply Hf|]. exists []. reflexivity.
    + intros m N. unfold lonely, adjOut. cbn. rewrite filter_app, app_length. cbn. destruct (Nat.eqb_spec n m) as [->|_]; [exfalso; apply N; now left|]. cbn. now rewrite Nat.add_0_r.
Qed.
Lemma selfed_nil : forall g, selfed g g [].
Proof.
  intros g. constructor; auto; try tauto.
  - intros e I. exists e. auto.
  - intros e I. exists e. split; [auto|apply alike_refl].
  - intros n [(_ & [])|X]. exact X.
Qed.
Lemma alike_trans : forall a b c, alike a b -> alike b c -> alike a c.
Proof. unfold alike. intros a b c. intuition congruence. Qed.
Lemma selfed_trans : forall g1 g2 g3 n r, selfed g1 g2 [n] -> selfed g2 g3 r -> selfed g1 g3 (n :: r).
Proof.
  intros g1 g2 g3 n r A B. constructor.
  - rewrite (se_nodes _ _ _ B). apply (se_nodes _ _ _ A).
  - intros S. apply (se_simple _ _ _ B), (se_simple _ _ _ A), S.
  - intros e N. rewrite (se_plain _ _ _ B e N). apply (se_plain _ _ _ A e N).
  - intros e I. destruct (se_loops _ _ _ B e I) as [J|J]; [apply (se_loops _ _ _ A e J)|auto].
  - intros e I. destruct (se_ends _ _ _ B e I) as (e0 & I0 & F0). destruct (se_ends _ _ _ A e0 I0) as (e1 & I1 & F1). exists e1. split; [auto|congruence].
  - intros e I. destruct (se_keep _ _ _ A e I) as (e1 & I1 & L1). destruct (se_keep _ _ _ B e1 I1) as (e2 & I2 & L2). exists e2. split; [auto|eapply alike_trans; eauto].
  - intros m H. apply (se_turn _ _ _ B). destruct H as [(L & I)|X].
    + destruct (Nat.eq_dec m n) as [->|N]; [right; apply (se_turn _ _ _ A); left; split; [auto|now left]|].
      left. destruct I as [I|I]; [congruence|]. split; [|auto]. rewrite (se_lonely _ _ _ A); [auto|]. intros [E|[]]. congruence.
    + right. apply (se_turn _ _ _ A). auto.
  - intros H. apply (se_fits _ _ _ B), (se_fits _ _ _ A), H.
  - intros m N. rewrite (se_lonely _ _ _ B), (se_lonely _ _ _ A); [reflexivity| |]; intros I; apply N; [destruct I as [->|[]]; now left|now right].
Qed.
Lemma selfs_ok : forall ns g, selfed g (writeSelfEdgs g ns) ns.
Proof.
  unfold OsmGraph_model.writeSelfEdgs. induction ns as [|n ns IH]; intros g; cbn [fold_left]; [apply selfed_nil|]. eapply selfed_trans; [apply self_step|apply IH].
Qed.

Variable len : list P -> Q.
Variable simplify : list P -> list P.
Variable speed : nat -> Q.
Variable corFac : Q.
Variable fl : Q -> Q.
Variable sp ec nl : Q.
Hypothesis Len0 : forall l, (0 <= len l)%Q.
Hypothesis Speed0 : forall l, (0 < speed l)%Q.
Hypothesis Sp0 : (0 < sp)%Q.
Hypothesis Ec0 : (0 <= ec)%Q.
Hypothesis Nl0 : (0 < nl)%Q.
Notation costOf := (costOf P len speed).
Notation finish := (finish P pos station turn len simplify speed corFac fl sp ec nl).
Notation measured := (measured pos len simplify speed sp ec nl).

(** ** The costs *)
Definition pen (e : edge) : edge := if Qeq_bool nl 1 then oneWayPen P sp ec e else noLinePen P nl (oneWayPen P sp ec e).
Definition sameBut (e e' : edge) : Prop :=
  from e' = from e /\ to e' = to e /\ oneWay (ePl e') = oneWay (ePl e) /\ restr (ePl e') = restr (ePl e) /\ rev_ (ePl e') = rev_ (ePl e) /\
  lvl (ePl e') = lvl (ePl e) /\ geom (ePl e') = geom (ePl e) /\ lines (ePl e') = lines (ePl e).
Lemma ow_same : forall e, sameBut e (oneWayPen P sp ec e).
Proof. intros e. unfold oneWayPen, sameBut. destruct (oneWay (ePl e) =? 2); cbn; auto 10. Qed.
Lemma nl_same : forall e, sameBut e (noLinePen P nl e).
Proof. intros e. unfold noLinePen, sameBut. destruct (length (lines (ePl e)) =? 0); cbn; auto 10. Qed.
Lemma pen_same : forall e, sameBut e (pen e).
Proof.
  intros e. unfold pen. destruct (Qeq_bool nl 1); [apply ow_same|]. pose proof (ow_same e) as A. pose proof (nl_same (oneWayPen P sp ec e)) as B.
  unfold sameBut in *. intuition congruence.
Qed.
Lemma geomCost_nn : forall l lv, (0 <= geomCost (len l) (speed lv))%Z /\ u32 (geomCost (len l) (speed lv)).
Proof.
  intros l lv. assert (K : u32 (geomCost (len l) (speed lv))).
  { unfold geomCost. apply costToInt_u32. apply Qle_shift_div_l; [apply Speed0|]. rewrite Qmult_0_l. apply Len0. }
  split; [apply K|exact K].
Qed.
Lemma pen_cost : forall e l, cost (ePl e) = costOf l (lvl (ePl e)) ->
  Z.of_N (cost (ePl (pen e))) = buildCost (len l) (speed (lvl (ePl e))) (oneWay (ePl e) =? 2) (negb (length (lines (ePl e)) =? 0)) sp ec nl.
Proof.
  intros e l C. unfold Finish_model.costOf in C. destruct (geomCost_nn l (lvl (ePl e))) as (G0 & G1).
  assert (C1 : Z.of_N (cost (ePl (oneWayPen P sp ec e))) = (if oneWay (ePl e) =? 2 then oneWayCost (geomCost (len l) (speed (lvl (ePl e)))) sp ec else geomCost (len l) (speed (lvl (ePl e)))) /\ u32 (Z.of_N (cost (ePl (oneWayPen P sp ec e))))).
  { unfold oneWayPen. destruct (oneWay (ePl e) =? 2); cbn [ePl cost setCost]; rewrite C; rewrite (Z2N.id _ G0); [|auto].
    assert (K : u32 (oneWayCost (geomCost (len l) (speed (lvl (ePl e)))) sp ec)) by (apply costToInt_u32_scale; auto).
    rewrite Z2N.id by apply K. auto. }
  destruct C1 as (C1 & U1). unfold pen, buildCost. destruct (Qeq_bool nl 1); [exact C1|]. unfold noLinePen.
  assert (Ln : lines (ePl (oneWayPen P sp ec e)) = lines (ePl e)) by apply ow_same. rewrite Ln.
  destruct (length (lines (ePl e)) =? 0); cbn [negb]; [|exact C1]. cbn [ePl cost setCost]. rewrite C1. rewrite C1 in U1.
  assert (K : u32 (noLinesCost (if oneWay (ePl e) =? 2 then oneWayCost (geomCost (len l) (speed (lvl (ePl e)))) sp ec else geomCost (len l) (speed (lvl (ePl e)))) nl)).
  { rewrite noLines_scale. apply costToInt_u32_scale; auto. apply Qle_refl. }
  now rewrite Z2N.id by apply K.
Qed.

(** ** What the passes compute *)
Definition geo (e : edge) : edge :=
  mkE (from e) (to e) (mkPl (oneWay (ePl e)) (restr (ePl e)) (rev_ (ePl e)) (lvl (ePl e)) (costOf (shape pos e) (lvl (ePl e))) (Some (simplify (shape pos e))) (lines (ePl e))).
Lemma simp_all : forall l, mapO (simplifyGeom P simplify) (map (writeGeom P pos costOf) l) = Some (map geo l).
Proof.
  induction l as [|e l IH]; [reflexivity|]. cbn [map mapO]. rewrite IH. unfold simplifyGeom, writeGeom, geo. cbn [geom ePl]. rewrite (geomOf_shape pos e). reflexivity.
Qed.
Definition left_nodes (g1 : graph) : list nat := filter (fun n => negb (deg P (writeGeoms P pos costOf g1) n =? 0) || station n) (nodes g1).
Lemma left_iff : forall g1 n, In n (left_nodes g1) <-> In n (nodes g1) /\ (station n = true \/ exists e, In e (edges g1) /\ touches e n).
Proof.
  intros g1 n. unfold left_nodes. rewrite filter_In, orb_true_iff, negb_true_iff, Nat.eqb_neq.
  assert (K : deg P (writeGeoms P pos costOf g1) n <> 0 <-> exists e, In e (edges g1) /\ touches e n).
  { unfold deg. split.
    - intros D. destruct (adjOut P (writeGeoms P pos costOf g1) n) as [|x l] eqn:A.
      + destruct (adjIn P (writeGeoms P pos costOf g1) n) as [|x l] eqn:B; [cbn in D; congruence|].
        assert (I : In x (adjIn P (writeGeoms P pos costOf g1) n)) by (rewrite B; now left). apply adjIn_in in I. destruct I as (I & T). cbn in I. apply in_map_iff in I. destruct I as (e & <- & I). exists e. split; [auto|right; exact T].
      + assert (I : In x (adjOut P (writeGeoms P pos costOf g1) n)) by (rewrite A; now left). apply adjOut_in in I. destruct I as (I & T). cbn in I. apply in_map_iff in I. destruct I as (e & <- & I). exists e. split; [auto|left; exact T].
    - intros (e & I & T). apply (in_map (writeGeom P pos costOf)) in I. destruct T as [T|T].
      + assert (J : In (writeGeom P pos costOf e) (adjOut P (writeGeoms P pos costOf g1) n)) by (apply adjOut_in; auto). destruct (adjOut P (writeGeoms P pos costOf g1) n); [easy|cbn; lia].
      + assert (J : In (writeGeom P pos costOf e) (adjIn P (writeGeoms P pos costOf g1) n)) by (apply adjIn_in; auto). destruct (adjIn P (writeGeoms P pos costOf g1) n); [easy|cbn; lia]. }
  tauto.
Qed.
Definition g3of (g1 : graph) : graph := mkG (left_nodes g1) (map (writeGeom P pos costOf) (edges g1)).
Definition g4of (g1 : graph) : graph := mkG (left_nodes g1) (map geo (edges g1)).
Lemma finish_eq : forall g cns c ms n, writeComps P (fun l => speed l / corFac)%Q fl (g3of (collapse g cns)) = Some (c, ms, n) ->
  let g5 := fst (writeODirEdgs P (g4of (collapse g cns)) (left_nodes (collapse g cns))) in
  finish g cns = Some (mkNet (writeSelfEdgs (mkG (nodes g5) (map pen (edges g5))) (nodes g5)) (snd (writeODirEdgs P (g4of (collapse g cns)) (left_nodes (collapse g cns)))) c ms n).
Proof.
  intros g cns c ms n C g5. unfold Finish_model.finish. change (deleteOrphNds P station (writeGeoms P pos costOf (collapse g cns))) with (g3of (collapse g cns)). rewrite C.
  unfold simplifyGeoms. cbn [g3of nodes edges]. rewrite simp_all. cbn [nodes]. change (mkG (left_nodes (collapse g cns)) (map geo (edges (collapse g cns)))) with (g4of (collapse g cns)).
  subst g5. destruct (writeODirEdgs P (g4of (collapse g cns)) (left_nodes (collapse g cns))) as [g5 ds]. cbn [fst snd].
  unfold pen. destruct (Qeq_bool nl 1); [reflexivity|]. unfold writeNoLinePens, writeOneWayPens. cbn [nodes edges]. rewrite map_map. reflexivity.
Qed.

(** ** The finished network *)
Section Net.
Variable g : graph.
Variable cns : list (nat * bool).
Hypothesis S : simple g.
Hypothesis Ok : graph_ok g.
Hypothesis Fit : forall e, In e (edges g) -> ends_fit pos e.
Hypothesis Rv : forall e, In e (edges g) -> rev_ (ePl e) = false.
Hypothesis Ends : forall a m b, exists m', simplify (a :: m ++ [b]) = a :: m' ++ [b].
Let g1 := collapse g cns.
Let g4 := g4of g1.
Let g5 := fst (writeODirEdgs P g4 (left_nodes g1)).
Let ds := snd (writeODirEdgs P g4 (left_nodes g1)).
Let g7 := mkG (nodes g5) (map pen (edges g5)).
Let gn := writeSelfEdgs g7 (nodes g5).

Lemma coll : collapsed pos station turn g g1.
Proof. apply collapse_ok; auto. Qed.
Lemma S1 : simple g1.
Proof. apply coll. Qed.
Lemma Ok1 : graph_ok g1.
Proof. now apply ends_collapse. Qed.
Lemma Rv1 : forall e, In e (edges g1) -> rev_ (ePl e) = false.
Proof. now apply rev_collapse. Qed.
Lemma N1 : nodes g1 = nodes g.
Proof. apply coll. Qed.
Lemma from_left : forall e n, In e (edges g1) -> touches e n -> In n (left_nodes g1).
Proof. intros e n I T. apply left_iff. split; [|right; exists e; auto]. destruct (go_ends _ Ok1 e I). destruct T as [<-|<-]; auto. Qed.
Lemma S4 : simple g4.
Proof. unfold simple, g4, g4of. cbn. rewrite map_map. exact S1. Qed.
Lemma tw : two_way g4 g5 ds.
Proof.
  apply two_way_ok; [exact S4|]. intros e I. unfold g4, g4of in I. cbn in I. apply in_map_iff in I. destruct I as (e1 & <- & I). apply (from_left e1); [auto|now left].
Qed.
Lemma N5 : nodes g5 = left_nodes g1.
Proof. exact (tw_nodes _ _ _ tw). Qed.

Definition opposed (x y : nat) (e1 : edge) : Prop := x = to e1 /\ y = from e1.
Lemma g5_in : forall e5, In e5 (edges g5) -> exists e1, In e1 (edges g1) /\
  lvl (ePl e5) = lvl (ePl e1) /\ lines (ePl e5) = lines (ePl e1) /\ restr (ePl e5) = restr (ePl e1) /\
  cost (ePl e5) = costOf (shape pos e1) (lvl (ePl e1)) /\ geom (ePl e5) = Some (simplify (shape pos e1)) /\
  ((rev_ (ePl e5) = false /\ from e5 = from e1 /\ to e5 = to e1 /\ oneWay (ePl e5) = oneWay (ePl e1)) \/
   (rev_ (ePl e5) = true /\ from e5 = to e1 /\ to e5 = from e1 /\
    (oneWay (ePl e1) = 0 -> oneWay (ePl e5) = 0) /\ (oneWay (ePl e1) = 1 -> oneWay (ePl e5) = 2) /\ (oneWay (ePl e1) = 2 -> oneWay (ePl e5) = 1))).
Proof.
  intros e5 I. destruct (tw_news _ _ _ tw) as (news & E & Hn). rewrite E in I. apply in_app_or in I. destruct I as [I|I].
  - unfold g4, g4of in I. cbn in I. apply in_map_iff in I. destruct I as (e1 & <- & I1). exists e1. cbn. split; [auto|]. repeat (split; [reflexivity|]). left. rewrite (Rv1 e1 I1). auto.
  - destruct (Hn e5 I) as (e4 & I4 & (F & T & L & C & Ln & R & G & Re & O0 & O1 & O2) & _). unfold g4, g4of in I4. cbn in I4. apply in_map_iff in I4. destruct I4 as (e1 & <- & I1).
    exists e1. cbn in *. split; [auto|]. split; [auto|]. split; [auto|]. split; [auto|]. split; [auto|]. split; [auto|]. right. auto 10.
Qed.
Lemma g5_rev : forall e5, In e5 (edges g5) -> rev_ (ePl e5) = true -> from e5 <> to e5.
Proof.
  intros e5 I R E0. destruct (tw_news _ _ _ tw) as (news & E & Hn). rewrite E in I. apply in_app_or in I. destruct I as [I|I].
  - unfold g4, g4of in I. cbn in I. apply in_map_iff in I. destruct I as (e1 & <- & I1). cbn in R. rewrite (Rv1 e1 I1) in R. discriminate.
  - destruct (Hn e5 I) as (e4 & I4 & (F & T & _) & No). apply No. exists e4. split; [auto|split; congruence].
Qed.
Lemma g5_has : forall e1, In e1 (edges g1) -> In (geo e1) (edges g5).
Proof.
  intros e1 I. destruct (tw_news _ _ _ tw) as (news & E & _). rewrite E. apply in_or_app. left. unfold g4, g4of. cbn. now apply in_map.
Qed.

Lemma stands_of : forall e1, In e1 (edges g1) -> exists c, stands_for pos station turn e1 c /\ forall h, In h c -> In (fst h) (edges g).
Proof.
  intros e1 I. destruct coll as (_ & _ & cs & F & Pm & _).
  assert (K : exists c, In c cs /\ stands_for pos station turn e1 c).
  { clear - F I. revert F I. generalize (edges g1). intros l Fl. induction Fl as [|x y l k H Fl IH]; intros I; [easy|]. destruct I as [<-|I]; [exists y; split; [now left|auto]|]. destruct (IH I) as (c & Ic & Hc). exists c. split; [now right|auto]. }
  destruct K as (c & Ic & Hc). exists c. split; [auto|]. intros h Ih. apply (Permutation_in _ Pm). apply in_map. apply in_concat. exists c. auto.
Qed.
Lemma covered : forall x, In x (edges g) -> exists e1 c, In e1 (edges g1) /\ stands_for pos station turn e1 c /\ (forall h, In h c -> In (fst h) (edges g)) /\ exists d, In (x, d) c.
Proof.
  intros x I. destruct coll as (_ & _ & cs & F & Pm & _). apply (Permutation_in _ (Permutation_sym Pm)) in I. apply in_map_iff in I. destruct I as ([x' d] & E & I). cbn in E. subst x'.
  apply in_concat in I. destruct I as (c & Ic & Ix).
  assert (K : exists e1, In e1 (edges g1) /\ stands_for pos station turn e1 c).
  { clear - F Ic. revert F Ic. generalize (edges g1). intros l Fl. induction Fl as [|u y l k H Fl IH]; intros I; [easy|]. destruct I as [<-|I]; [exists u; split; [now left|auto]|]. destruct (IH I) as (e & Ie & He). exists e. split; [now right|auto]. }
  destruct K as (e1 & I1 & H1). exists e1, c. split; [auto|]. split; [auto|]. split; [|exists d; auto].
  intros h Ih. apply (Permutation_in _ Pm). apply in_map. apply in_concat. exists c. auto.
Qed.

Lemma traced_of : forall e e1 c, stands_for pos station turn e1 c -> (forall h, In h c -> In (fst h) (edges g)) ->
  lvl (ePl e) = lvl (ePl e1) -> lines (ePl e) = lines (ePl e1) -> restr (ePl e) = restr (ePl e1) ->
  (rev_ (ePl e) = false /\ from e = from e1 /\ to e = to e1) \/ (rev_ (ePl e) = true /\ from e = to e1 /\ to e = from e1) -> traced station turn g e c.
Proof.
  intros e e1 c St In0 L Ln R D. destruct (sf_chain _ _ _ _ _ St) as (Ne & Ch). constructor; auto.
  - destruct D as [(-> & -> & ->)|(-> & -> & ->)]; exact Ch.
  - intros h I. rewrite L. now apply (sf_level _ _ _ _ _ St).
  - intros h I. rewrite Ln. now apply (sf_lines _ _ _ _ _ St).
  - intros h I. rewrite R. destruct c as [|h1 [|h2 c]]; [easy| |].
    + pose proof (sf_same _ _ _ _ _ St eq_refl) as E. injection E as ->. destruct I as [<-|[]]. reflexivity.
    + destruct (sf_restr _ _ _ _ _ St) as (A & B); [cbn; lia|]. rewrite A. now apply B.
  - rewrite R. intros T. destruct c as [|h1 [|h2 c]]; [easy| |].
    + exists e1. exact (sf_same _ _ _ _ _ St eq_refl).
    + destruct (sf_restr _ _ _ _ _ St) as (A & _); [cbn; lia|]. congruence.
  - apply (sf_plain _ _ _ _ _ St).
Qed.
Lemma g7_in : forall e, In e (edges g7) -> exists c, traced station turn g e c /\ measured e c.
Proof.
  intros e I. unfold g7 in I. cbn in I. apply in_map_iff in I. destruct I as (e5 & <- & I5).
  destruct (g5_in e5 I5) as (e1 & I1 & L & Ln & R & C & G & D). destruct (stands_of e1 I1) as (c & St & In0). exists c.
  destruct (pen_same e5) as (Pf & Pt & Po & Pr & Pv & Pl & Pg & Pn). split.
  - apply (traced_of _ e1); auto; try congruence. rewrite Pf, Pt, Pv. destruct D as [(A & B & K & _)|(A & B & K & _)]; auto.
  - exists (shape pos e1). split; [congruence|]. split.
    + intros N. apply (sf_line _ _ _ _ _ St). intros (_ & _ & X). apply N. rewrite Pf, Pt. destruct D as [(_ & -> & -> & _)|(_ & -> & -> & _)]; auto.
    + rewrite Pl, Po, Pn. rewrite (pen_cost e5 (shape pos e1)) by (rewrite L; exact C). apply buildCost_exact.
Qed.
Lemma g7_has : forall e5, In e5 (edges g5) -> In (pen e5) (edges g7).
Proof. intros e5 I. unfold g7. cbn. now apply in_map. Qed.
Lemma S7 : simple g7.
Proof.
  unfold simple, g7. cbn. rewrite map_map. erewrite map_ext; [exact (tw_simple _ _ _ tw)|]. intros e. cbn. destruct (pen_same e) as (-> & -> & _). reflexivity.
Qed.
Lemma se : selfed g7 gn (nodes g5).
Proof. apply selfs_ok. Qed.
Lemma Nn : nodes gn = left_nodes g1.
Proof. rewrite (se_nodes _ _ _ se). exact N5. Qed.
Lemma gn_out : forall e, In e (edges gn) -> exists e1, In e1 (edges g1) /\ touches e1 (from e).
Proof.
  intros e I. destruct (se_ends _ _ _ se e I) as (e7 & I7 & <-). unfold g7 in I7. cbn in I7. apply in_map_iff in I7. destruct I7 as (e5 & <- & I5). destruct (g5_in e5 I5) as (e1 & I1 & _ & _ & _ & _ & _ & D).
  exists e1. split; [auto|]. destruct (pen_same e5) as (-> & _). destruct D as [(_ & -> & _)|(_ & -> & _)]; unfold touches; auto.
Qed.
Lemma gn_opp : forall e, In e (edges gn) -> exists e', In e' (edges gn) /\ from e' = to e /\ to e' = from e.
Proof.
  intros e I. destruct (Nat.eq_dec (from e) (to e)) as [E|N]; [exists e; auto|]. apply (se_plain _ _ _ se e N) in I. unfold g7 in I. cbn in I. apply in_map_iff in I. destruct I as (e5 & <- & I5).
  destruct (tw_both _ _ _ tw e5 I5) as (e5' & I5' & F & T). exists (pen e5'). destruct (pen_same e5) as (Ef & Et & _). destruct (pen_same e5') as (Ef' & Et' & _). rewrite Ef, Et in *.
  split; [|split; congruence]. apply (se_plain _ _ _ se); [congruence|]. now apply g7_has.
Qed.
Lemma gn_in : forall e n, In e (edges gn) -> touches e n -> exists e1, In e1 (edges g1) /\ touches e1 n.
Proof.
  intros e n I [<-|<-]; [now apply gn_out|]. destruct (gn_opp e I) as (e' & I' & <- & _). now apply gn_out.
Qed.
Lemma gn_has : forall e1, In e1 (edges g1) -> exists e, In e (edges gn) /\ alike (geo e1) e.
Proof.
  intros e1 I1. destruct (se_keep _ _ _ se (pen (geo e1))) as (e & Ie & A); [apply g7_has, g5_has, I1|]. exists e. split; [auto|].
  destruct (pen_same (geo e1)) as (B1 & B2 & B3 & B4 & B5 & B6 & B7 & B8). unfold alike in *. intuition congruence.
Qed.

(** restricted edges, and those for which rules are duplicated *)
Record doubled (h : graph) (dl : list edge) : Prop := {
  db_once : NoDup (map (fun d => (from d, to d)) dl);
  db_edge : forall d, In d dl -> from d <> to d /\ (exists x, In x (edges g) /\ from x = from d /\ to x = to d /\ restr (ePl x) = true) /\
    exists e, In e (edges h) /\ from e = to d /\ to e = from d /\ restr (ePl e) = true;
  db_rev : forall e, In e (edges h) -> from e <> to e -> rev_ (ePl e) = true -> restr (ePl e) = true -> exists d, In d dl /\ from d = to e /\ to d = from e;
  db_stay : forall x, In x (edges g) -> restr (ePl x) = true -> exists e, In e (edges h) /\ from e = from x /\ to e = to x /\ rev_ (ePl e) = false /\ restr (ePl e) = true
}.
Lemma single_of : forall e1 c, stands_for pos station turn e1 c -> restr (ePl e1) = true -> c = [(e1, true)].
Proof.
  intros e1 c St R. destruct (sf_chain _ _ _ _ _ St) as (Ne & _). destruct c as [|h1 [|h2 c]]; [congruence| |].
  - exact (sf_same _ _ _ _ _ St eq_refl).
  - destruct (sf_restr _ _ _ _ _ St) as (A & _); [cbn; lia|]. congruence.
Qed.
Lemma doubled_ok : doubled gn ds.
Proof.
  assert (D4 : forall d, In d ds -> In d (edges g4) /\ restr (ePl d) = true /\ ~ exists x, In x (edges g4) /\ from x = to d /\ to x = from d) by (intros d I; now apply (tw_dup _ _ _ tw)).
  assert (Nl : forall d, In d ds -> from d <> to d). { intros d I E. destruct (D4 d I) as (A & _ & B). apply B. exists d. auto. }
  constructor.
  - pose proof (dup_once g4 (left_nodes g1) S4) as N. fold ds in N. revert N D4. generalize ds. intros l. induction l as [|d l IH]; intros N H; [constructor|]. cbn. inversion N as [|? ? N1' N2']; subst. constructor.
    + intros I. apply in_map_iff in I. destruct I as (x & E & I). injection E as E1 E2. apply N1'. rewrite <- (simple_eq g4 x d); auto; [exact S4| |]; [apply H; now right|apply H; now left].
    + apply IH; auto. intros x I. apply H. now right.
  - intros d I. split; [now apply Nl|]. destruct (D4 d I) as (Id & R & No). split.
    + unfold g4, g4of in Id. cbn in Id. apply in_map_iff in Id. destruct Id as (e1 & <- & I1). cbn in R. destruct (stands_of e1 I1) as (c & St & In0).
      rewrite (single_of e1 c St R) in In0. exists e1. cbn. split; [apply (In0 (e1, true)); now left|auto].
    + destruct (tw_news _ _ _ tw) as (news & E & Hn). assert (I5 : In d (edges g5)) by (rewrite E; apply in_or_app; auto).
      destruct (tw_both _ _ _ tw d I5) as (e5 & I5' & F & T). assert (Iw : In e5 news). { rewrite E in I5'. apply in_app_or in I5'. destruct I5' as [J|J]; [|exact J]. exfalso. apply No. exists e5. auto. }
      destruct (Hn e5 Iw) as (e4 & I4 & (Mf & Mt & _ & _ & _ & Mr & _) & _). assert (e4 = d) as -> by (apply (simple_eq g4); auto; [exact S4|congruence|congruence]).
      exists (pen e5). destruct (pen_same e5) as (Pf & Pt & _ & Pr & _). rewrite Pf, Pt. split; [|split; [auto|split; [auto|]]].
      * apply (se_plain _ _ _ se); [rewrite Pf, Pt, F, T; intros X; now apply (Nl d I)|]. now apply g7_has.
      * congruence.
  - intros e I N R Rs. apply (se_plain _ _ _ se e N) in I. unfold g7 in I. cbn in I. apply in_map_iff in I. destruct I as (e5 & <- & I5).
    destruct (pen_same e5) as (Pf & Pt & _ & Pr & Pv & _). rewrite Pf, Pt. destruct (tw_news _ _ _ tw) as (news & E & Hn). rewrite E in I5. apply in_app_or in I5. destruct I5 as [I5|I5].
    + exfalso. unfold g4, g4of in I5. cbn in I5. apply in_map_iff in I5. destruct I5 as (e1 & <- & I1). rewrite Pv in R. cbn in R. rewrite (Rv1 e1 I1) in R. discriminate.
    + destruct (Hn e5 I5) as (d & Id & (Mf & Mt & _ & _ & _ & Mr & _) & No). exists d. split; [|auto]. apply (tw_dup _ _ _ tw). split; [exact Id|]. split; [congruence|].
      intros (x & Ix & Fx & Tx). apply No. exists x. split; [auto|split; congruence].
  - intros x I R. destruct (covered x I) as (e1 & c & I1 & St & In0 & d & Ix). destruct c as [|h1 [|h2 c]]; [easy| |].
    + pose proof (sf_same _ _ _ _ _ St eq_refl) as E. injection E as ->. destruct Ix as [X|[]]. injection X as -> _.
      destruct (gn_has x I1) as (e & Ie & (F & T & Re & L & Ln & R')). exists e. cbn in *. repeat split; auto; try congruence. rewrite Re. now apply Rv1.
    + destruct (sf_restr _ _ _ _ _ St) as (_ & B); [cbn; lia|]. specialize (B _ Ix). cbn in B. congruence.
Qed.

Lemma finished_ok : finished pos station turn len simplify speed sp ec nl g gn.
Proof.
  constructor.
  - apply (se_simple _ _ _ se), S7.
  - constructor; [rewrite Nn; unfold left_nodes; apply NoDup_filter; apply (go_nodes _ Ok1)|].
    intros e I. rewrite Nn. split; [destruct (gn_in e (from e) I (or_introl eq_refl)) as (e1 & I1 & T1)|destruct (gn_in e (to e) I (or_intror eq_refl)) as (e1 & I1 & T1)]; eapply from_left; eauto.
  - intros n. rewrite Nn, left_iff, N1. split; intros (A & [B|(e & I & T)]); (split; [auto|]); auto; right.
    + destruct (gn_has e I) as (e' & I' & (F & T' & _)). exists e'. split; [auto|]. cbn in *. unfold touches in *. intuition congruence.
    + destruct (gn_in e n I T) as (e1 & I1 & T1). exists e1. auto.
  - apply gn_opp.
  - intros e I. destruct (se_loops _ _ _ se e I) as [J|J]; [right; now apply g7_in|now left].
  - intros x I. destruct (covered x I) as (e1 & c & I1 & St & In0 & Ix). destruct (gn_has e1 I1) as (e & Ie & (F & T & Re & L & Ln & R)). exists e, c. split; [auto|]. split; [|auto].
    cbn in *. apply (traced_of _ e1); auto. left. rewrite Re. split; [now apply Rv1|auto].
  - apply (se_fits _ _ _ se). intros e I N. unfold g7 in I. cbn in I. apply in_map_iff in I. destruct I as (e5 & <- & I5).
    destruct (pen_same e5) as (Pf & Pt & Po & _ & Pv & _ & Pg & _). rewrite Pf, Pt, Po in N.
    assert (X : OsmGraph_spec.fits pos e5); [|unfold OsmGraph_spec.fits, points in *; now rewrite Pg, Pv, Pf, Pt].
    destruct (g5_in e5 I5) as (e1 & I1 & _ & _ & _ & _ & G & D). destruct (stands_of e1 I1) as (c & St & _).
    destruct (sf_line _ _ _ _ _ St) as (_ & Fe). { intros (_ & O & E). destruct D as [(_ & Df & Dt & Do)|(Rv0 & Df & Dt & Do)]; [destruct N as [N|N]; [apply N|]; congruence|]. apply (g5_rev e5 I5 Rv0). congruence. }
    assert (Sh : exists m, shape pos e1 = pos (from e1) :: m ++ [pos (to e1)]). { unfold ends_fit in Fe. unfold shape. destruct (geom (ePl e1)); [exact Fe|exists []; reflexivity]. }
    destruct Sh as (m & Sh). destruct (Ends (pos (from e1)) m (pos (to e1))) as (m' & Em). unfold OsmGraph_spec.fits, points. rewrite G, Sh, Em.
    destruct D as [(-> & -> & -> & _)|(-> & -> & -> & _)]; [now exists m'|]. exists (rev m'). cbn. now rewrite rev_app_distr.
  - intros n In0 Sn (e & Ie & Fe). rewrite Nn in In0. destruct (lonely (P := P) station g7 n) eqn:L.
    + destruct (se_turn _ _ _ se n) as (t & It & Ft & Tt); [left; rewrite N5; auto|]. exists t. auto.
    + destruct (se_ends _ _ _ se e Ie) as (e0 & I0 & F0).
      assert (Two : exists a b, In a (edges g7) /\ In b (edges g7) /\ from a = n /\ from b = n /\ to a <> to b).
      { unfold lonely in L. rewrite Sn in L. cbn [andb] in L. apply Nat.eqb_neq in L.
        assert (J : In e0 (adjOut P g7 n)) by (apply adjOut_in; split; [auto|congruence]).
        assert (Nd : NoDup (adjOut P g7 n)). { apply (NoDup_of_map _ _ (fun e => (from e, to e))). apply NoDup_map_filter. exact S7. }
        destruct (adjOut P g7 n) as [|a [|b l]] eqn:A; [easy|exfalso; now apply L|].
        assert (Ia : In a (edges g7) /\ from a = n) by (apply adjOut_in; rewrite A; now left).
        assert (Ib : In b (edges g7) /\ from b = n) by (apply adjOut_in; rewrite A; right; now left).
        exists a, b. destruct Ia as (Ia & Fa), Ib as (Ib & Fb). repeat (split; [auto|]). intros E. assert (a = b) by (apply (simple_eq g7); auto using S7; congruence). subst b. inversion Nd; subst. match goal with H : ~ In a _ |- _ => apply H end. now left. }
      destruct Two as (a & b & Ia & Ib & Fa & Fb & N). destruct (se_keep _ _ _ se a Ia) as (a' & Ia' & La & Ta & _). destruct (se_keep _ _ _ se b Ib) as (b' & Ib' & Lb & Tb & _).
      exists a'. split; [auto|]. split; [congruence|]. right. exists b'. split; [auto|]. split; congruence.
Qed.

(** ** Reachability *)
Lemma kept : forall n, In n (nodes gn) -> station n = true \/ turn n = true \/ exists e, In e (edges g1) /\ touches e n.
Proof. intros n. rewrite Nn, left_iff. tauto. Qed.
Lemma codes1 : codes_ok g -> codes_ok g1.
Proof.
  intros C. apply (collapse_ind codes_ok); auto. clear. intros g n a b da db S St C. eapply codes_step; eauto.
Qed.
Lemma forward_trans : forall (h : graph) a b c, forward h a b -> forward h b c -> forward h a c.
Proof. intros h a b c A B. induction B; [auto|]. eapply fw_step; eauto. Qed.
Lemma reach_forward : codes_ok g -> codes_agree g -> pairs_agree g -> forall u v, In u (nodes gn) -> In v (nodes gn) -> (reach g u v <-> forward gn u v).
Proof.
  intros Ck Ca Pa u v Iu Iv. rewrite (reach_collapse pos station turn cns g S Ck Ca u v (kept u Iu) (kept v Iv)). fold g1. pose proof (codes1 Ck) as Ck1. clear Iu Iv. split.
  - intros R. induction R as [|v w R IH D]; [constructor|]. apply (forward_trans _ _ _ _ IH). clear R IH.
    destruct (Nat.eq_dec v w) as [->|N]; [constructor|]. destruct D as (e1 & I1 & D). pose proof (Ck1 e1 I1) as Le.
    assert (Go : forall e5, In e5 (edges g5) -> from e5 = v -> to e5 = w -> oneWay (ePl e5) <> 2 -> forward gn v w).
    { intros e5 I5 F T O. destruct (pen_same e5) as (Pf & Pt & Po & _). apply (fw_step gn v v w (pen e5)); [constructor| |congruence|congruence|congruence].
      apply (se_plain _ _ _ se); [congruence|]. now apply g7_has. }
    destruct D as [(F & T & O)|(F & T & O)]; [apply (Go (geo e1)); auto; now apply g5_has|].
    destruct (tw_both _ _ _ tw (geo e1) (g5_has e1 I1)) as (e5 & I5 & F5 & T5). cbn in F5, T5.
    apply (Go e5); [auto|congruence|congruence|]. destruct (g5_in e5 I5) as (e2 & I2 & _ & _ & _ & _ & _ & D).
    destruct D as [(_ & A & B & ->)|(_ & A & B & O0 & O1 & O2)].
    + intros E2. destruct (pairs_collapse cns g S e1 e2 I1 I2) as (J1 & J2); [congruence|congruence|congruence|]. apply O. apply (Pa e2 e1 J2 J1); congruence.
    + assert (e2 = e1) by (apply (simple_eq g1); auto using S1; congruence). subst e2. assert (oneWay (ePl e1) = 0 \/ oneWay (ePl e1) = 2) by lia. intuition congruence.
  - intros R. induction R as [|v w e R IH I F T O]; [constructor|]. apply (reach_trans _ _ _ _ IH). clear R IH.
    destruct (Nat.eq_dec v w) as [->|N]; [constructor|]. apply drives_reach. apply (se_plain _ _ _ se) in I; [|congruence]. unfold g7 in I. cbn in I. apply in_map_iff in I. destruct I as (e5 & <- & I5).
    destruct (pen_same e5) as (Pf & Pt & Po & _). rewrite Pf in F. rewrite Pt in T. rewrite Po in O. destruct (g5_in e5 I5) as (e1 & I1 & _ & _ & _ & _ & _ & D). exists e1. split; [auto|].
    destruct D as [(_ & A & B & E)|(_ & A & B & O0 & O1 & O2)]; [left|right]; (split; [congruence|]; split; [congruence|]); [congruence|]. intros E. auto.
Qed.

(** ** Components *)
Lemma conn_map : forall (h h' : graph), (forall e, In e (edges h) -> from e <> to e -> connected h' (from e) (to e)) -> forall u v, connected h u v -> connected h' u v.
Proof.
  intros h h' H u v C. induction C as [|v w e C IH I D]; [constructor|]. apply (conn_trans _ _ _ _ IH). destruct (Nat.eq_dec (from e) (to e)) as [E|N]; [destruct D as [(<- & <-)|(<- & <-)]; rewrite E; constructor|].
  destruct D as [(<- & <-)|(<- & <-)]; [auto|apply conn_sym; auto].
Qed.
Lemma conn_13 : forall u v, connected g1 u v <-> connected (g3of g1) u v.
Proof.
  intros u v. split; apply conn_map.
  - intros e I _. apply (in_map (writeGeom P pos costOf)) in I. exact (conn_edge (g3of g1) _ I).
  - intros e I _. cbn in I. apply in_map_iff in I. destruct I as (e1 & <- & I1). cbn. now apply conn_edge.
Qed.
Lemma conn_1n : forall u v, connected g1 u v <-> connected gn u v.
Proof.
  intros u v. split; apply conn_map.
  - intros e I N. destruct (gn_has e I) as (e' & I' & (F & T & _)). cbn in *. rewrite <- F, <- T. now apply conn_edge.
  - intros e I N. apply (se_plain _ _ _ se e N) in I. unfold g7 in I. cbn in I. apply in_map_iff in I. destruct I as (e5 & <- & I5). destruct (pen_same e5) as (-> & -> & _).
    destruct (g5_in e5 I5) as (e1 & I1 & _ & _ & _ & _ & _ & D). destruct D as [(_ & -> & -> & _)|(_ & -> & -> & _)]; [|apply conn_sym]; now apply conn_edge.
Qed.
Lemma conn_gn : forall u v, In u (nodes gn) -> In v (nodes gn) -> (connected g u v <-> connected gn u v).
Proof. intros u v Iu Iv. rewrite <- conn_1n. apply conn_collapse; auto; now apply kept. Qed.
Lemma chain_conn : forall c u v, chain u c v -> (forall h, In h c -> In (fst h) (edges g)) -> forall h, In h c -> connected g u (from (fst h)).
Proof.
  induction c as [|h0 c IH]; intros u v Ch I h J; [easy|]. cbn in Ch. destruct Ch as (E & Ch).
  assert (K : connected g u (from (fst h0)) /\ connected g u (dst h0)).
  { pose proof (conn_edge g (fst h0) (I h0 (or_introl eq_refl))) as C. subst u. unfold src, dst. destruct (snd h0); split; auto using conn_sym; constructor. }
  destruct J as [<-|J]; [apply K|]. apply (conn_trans g _ (dst h0)); [apply K|]. eapply IH; eauto. intros x Ix. apply I. now right.
Qed.
Lemma areas_ok : rounding fl -> exists c ms n, writeComps P (fun l => speed l / corFac)%Q fl (g3of g1) = Some (c, ms, n) /\ areas (fun l => speed l / corFac)%Q fl g gn (compOf c) ms n.
Proof.
  intros Rd. assert (Ok3 : graph_ok (g3of g1)).
  { constructor; cbn [g3of nodes edges]; [unfold left_nodes; apply NoDup_filter, (go_nodes _ Ok1)|]. intros e I. apply in_map_iff in I. destruct I as (e1 & <- & I1). cbn. split; eapply from_left; eauto; unfold touches; auto. }
  destruct (comps_ok (fun l => speed l / corFac)%Q fl Rd (g3of g1) Ok3) as (c & ms & n & E & C). exists c, ms, n. split; [exact E|]. clear E.
  assert (Nd : forall x, In x (nodes gn) <-> In x (nodes (g3of g1))) by (intros x; rewrite Nn; reflexivity).
  assert (Iff : forall u v, In u (nodes gn) -> In v (nodes gn) -> (compOf c u = compOf c v <-> connected g u v)).
  { intros u v Iu Iv. rewrite (cp_iff _ _ _ _ _ _ C) by now apply Nd. rewrite <- conn_13, conn_1n. symmetry. now apply conn_gn. }
  constructor.
  - intros x I. apply (cp_some _ _ _ _ _ _ C). now apply Nd.
  - exact Iff.
  - apply conn_gn.
  - intros x I. destruct (cp_speed _ _ _ _ _ _ C x) as (m & Em & Up & Eq); [now apply Nd|]. exists m. split; [exact Em|]. split.
    + intros e Ie Ce. destruct (covered e Ie) as (e1 & ch & I1 & St & In0 & d & Ix). pose proof (sf_level _ _ _ _ _ St _ Ix) as Lx. cbn in Lx. rewrite Lx. apply (Up (writeGeom P pos costOf e1)); [cbn; now apply in_map|]. cbn.
      assert (If : In (from e1) (nodes gn)) by (rewrite Nn; eapply from_left; eauto; now left). apply Iff; auto. apply conn_sym. apply (conn_trans g _ (from e)); [exact Ce|]. apply conn_sym.
      apply (chain_conn ch _ (to e1)) with (h := (e, d)); auto. apply (sf_chain _ _ _ _ _ St).
    + destruct Eq as [Z|(e3 & I3 & C3 & Em3)]; [now left|right]. cbn in I3. apply in_map_iff in I3. destruct I3 as (e1 & <- & I1). cbn in C3, Em3. destruct (stands_of e1 I1) as (ch & St & In0).
      destruct ch as [|h ch]; [exfalso; now apply (proj1 (sf_chain _ _ _ _ _ St))|]. exists (fst h). split; [apply In0; now left|]. rewrite (sf_level _ _ _ _ _ St h) by now left. split; [|exact Em3].
      assert (If : In (from e1) (nodes gn)) by (rewrite Nn; eapply from_left; eauto; now left). apply (conn_trans g _ (from e1)); [apply conn_sym, Iff; auto|].
      apply (chain_conn (h :: ch) _ (to e1)); auto; [apply (sf_chain _ _ _ _ _ St)|now left].
  - destruct (cp_count _ _ _ _ _ _ C) as (ks & A & B & D). exists ks. split; [auto|]. split; [auto|]. intros k. rewrite D. split; intros (u & v & Iu & Iv & X); exists u, v; (split; [now apply Nd|]; split; [now apply Nd|]; exact X).
Qed.
Lemma net_ok : rounding fl -> exists r, finish g cns = Some r /\ net r = gn /\ areas (fun l => speed l / corFac)%Q fl g gn (compOf (comps r)) (maxs r) (num r).
Proof.
  intros Rd. destruct (areas_ok Rd) as (c & ms & n & E & A). eexists. split; [apply finish_eq; exact E|]. cbn [net comps maxs num]. split; [reflexivity|exact A].
Qed.
Lemma net_doubled : forall nt, rounding fl -> finish g cns = Some nt -> doubled (net nt) (dup nt).
Proof.
  intros nt Rd H. destruct (areas_ok Rd) as (c & ms & n & E & _). rewrite (finish_eq g cns c ms n E) in H. injection H as <-. cbn [net dup]. exact doubled_ok.
Qed.
End Net.
End Proofs.
