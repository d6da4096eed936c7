From Coq Require Import String List Arith ZArith QArith Qround Qminmax Qabs Bool Lia Lqa.
From Verif Require Import Weights_model Weights_spec Weights_proofs Router_model Router_spec Trans_model Trans_spec.
Import ListNotations.
Open Scope Q_scope.

Lemma Qltb_iff : forall a b, Qltb a b = true <-> a < b.
Proof.
  intros. unfold Qltb. destruct (Qle_bool b a) eqn:E; simpl; split; intro H; try discriminate; auto.
  - apply Qle_bool_iff in E. exfalso. exact (Qlt_not_le _ _ H E).
  - apply Qnot_le_lt. intro X. apply Qle_bool_iff in X. congruence.
Qed.
Lemma Qltb_niff : forall a b, Qltb a b = false <-> b <= a.
Proof.
  intros. unfold Qltb. rewrite negb_false_iff. apply Qle_bool_iff.
Qed.

(** ** The laws of the costs *)
Lemma laws : cost_laws ltC addC None.
Proof.
  constructor.
  - intros [a|]; simpl; auto. apply Qltb_niff, Qle_refl.
  - intros [a|] [b|] [c|]; simpl; auto; try discriminate. rewrite !Qltb_iff. apply Qlt_trans.
  - intros [a|] [b|] [c|]; simpl; auto; try discriminate. rewrite !Qltb_niff. intros H1 H2. exact (Qle_trans _ _ _ H2 H1).
  - intros [a|] [b|] [x|]; simpl; auto; try discriminate. rewrite !Qltb_niff. intro H. apply Qplus_le_compat; auto. apply Qle_refl.
  - intros [a|]; reflexivity.
  - intros [a|]; reflexivity.
Qed.

(** ** The penalties *)
Lemma sq_nonneg : forall a : Q, 0 <= a * a.
Proof. intros [n d]. unfold Qle, Qmult; simpl. nia. Qed.
Lemma sq_zero : forall a : Q, a * a == 0 -> a == 0.
Proof. intros a H. apply Qmult_integral in H. tauto. Qed.
Lemma qmax_l : forall a b, b <= a -> Qmax a b == a.
Proof. intros. apply Q.max_l; auto. Qed.
Lemma qmax_r : forall a b, a <= b -> Qmax a b == b.
Proof. intros. apply Q.max_r; auto. Qed.

Lemma norm_eq : forall s t0 pen c m, ~ t0 == 0 -> m == t0 -> pen * c / 10 == pen * s -> s == c / 10 ->
  (((c / 10) / m - 1) / 1 * (((c / 10) / m - 1) / 1) + pen * c / 10) * (t0 * t0) == (s - t0) * (s - t0) + pen * s * (t0 * t0).
Proof.
  intros s t0 pen c m NZ Em Ep Es. rewrite Em, Ep. rewrite Es. field. exact NZ.
Qed.

Lemma exp_eq : forall pen c, expWeight pen c == pen * (Zq c / 10).
Proof. intros. unfold expWeight. field. Qed.

Lemma penalty_weight : forall m pen c d t0 d0, penalty m pen (Zq c / 10) d t0 d0 (weight m pen c d t0 d0).
Proof.
  intros m pen c d t0 d0. destruct m; simpl.
  - constructor. apply exp_eq.
  - destruct (Qlt_le_dec d d0) as [L|L].
    + apply pn_dist_less; [apply Qlt_le_weak; auto|]. unfold distWeight. rewrite Qabs_neg; [ring|].
      apply (Qplus_le_l _ _ d0). ring_simplify. apply Qlt_le_weak; auto.
    + apply pn_dist_more; auto. unfold distWeight. rewrite Qabs_pos; [ring|].
      apply (Qplus_le_l _ _ d0). ring_simplify. auto.
  - unfold normWeight. destruct (Qltb t0 0) eqn:E.
    + apply pn_back. apply Qltb_iff; auto.
    + apply Qltb_niff in E. destruct (Qlt_le_dec t0 10) as [L|L].
      * apply pn_norm_short; auto; [apply Qlt_le_weak; auto|].
        change 100 with (10 * 10). unfold expWeight.
        apply (norm_eq (Zq c / 10) 10 pen (Zq c) (Qmax 10 t0)); try reflexivity.
        { intro X. discriminate X. } { apply qmax_l, Qlt_le_weak; auto. } { field. }
      * apply pn_norm; auto. unfold expWeight.
        apply (norm_eq (Zq c / 10) t0 pen (Zq c) (Qmax 10 t0)); try reflexivity.
        { intro X. rewrite X in L. apply (Qle_not_lt _ _ L). reflexivity. } { apply qmax_r; auto. } { field. }
Qed.

Lemma cancel : forall a b k, ~ k == 0 -> a * k == b * k -> a == b.
Proof. intros a b k NK E. apply (Qmult_inj_r a b k); auto. Qed.
Lemma penalty_unique : forall m pen s d t0 d0 w w', penalty m pen s d t0 d0 w -> penalty m pen s d t0 d0 w' -> same w w'.
Proof.
  intros m pen s d t0 d0 w w' H. destruct H; intro H'; inversion H'; subst; simpl; auto;
    repeat match goal with
    | A : ?w == _, B : ?v == _ |- ?w == ?v => rewrite A, B
    end; try ring; try reflexivity.
  all: try match goal with A : ?a <= ?b, B : ?b <= ?a |- _ => rewrite (Qle_antisym _ _ A B); ring end.
  all: try solve [match goal with A : ?t < 0, B : 0 <= ?t |- _ => exact (Qlt_not_le _ _ A B) end].
  all: try solve [match goal with A : ?t < 0, B : 10 <= ?t |- _ => apply (Qlt_not_le _ _ A); apply (Qle_trans _ 10); auto; discriminate end].
  - apply (cancel _ _ (t0 * t0)); [|match goal with A : w * _ == _, B : w0 * _ == _ |- _ => rewrite A, B; reflexivity end].
    intro X. apply sq_zero in X. lra.
  - assert (t0 == 10) as Et by lra. apply (cancel _ _ 100); [discriminate|].
    match goal with A : w * _ == _, B : w0 * _ == _ |- _ => rewrite Et in A; rewrite B; change 100 with (10 * 10); rewrite A; ring end.
  - assert (t0 == 10) as Et by lra. apply (cancel _ _ 100); [discriminate|].
    match goal with A : w * _ == _, B : w0 * _ == _ |- _ => rewrite Et in B; rewrite A; change 100 with (10 * 10); rewrite B; ring end.
  - apply (cancel _ _ 100); [discriminate|]. match goal with A : w * _ == _, B : w0 * _ == _ |- _ => rewrite A, B; reflexivity end.
Qed.

Lemma Zq_nonneg : forall c, (0 <= c)%Z -> 0 <= Zq c.
Proof. intros c H. unfold Zq. change 0 with (inject_Z 0). rewrite <- Zle_Qle. exact H. Qed.
Lemma weight_nonneg : forall m pen c d t0 d0 w, 0 <= pen -> (0 <= c)%Z -> weight m pen c d t0 d0 = Some w -> 0 <= w.
Proof.
  intros m pen c d t0 d0 w P Hc H. apply Zq_nonneg in Hc.
  assert (0 <= expWeight pen c) as X.
  { rewrite exp_eq. apply Qmult_le_0_compat; auto. apply Qle_shift_div_l; [reflexivity|]. lra. }
  destruct m; simpl in H.
  - injection H as <-. exact X.
  - injection H as <-. apply Qmult_le_0_compat; auto. apply Qabs_nonneg.
  - unfold normWeight in H. destruct (Qltb t0 0); [discriminate|]. injection H as <-.
    match goal with |- 0 <= ?a * ?a + _ => pose proof (sq_nonneg a) end. lra.
Qed.

(** ** The inverse *)
Lemma toU32_spec : forall z y, toU32 z = Some y <-> y = z /\ (0 <= z <= u32max)%Z.
Proof.
  intros. unfold toU32. destruct ((0 <=? z)%Z && (z <=? u32max)%Z) eqn:E.
  - apply andb_true_iff in E. rewrite !Z.leb_le in E. split; [intro H; injection H as <-; auto|]. intros [-> _]. reflexivity.
  - split; [discriminate|]. intros [_ [A B]]. apply andb_false_iff in E. rewrite !Z.leb_gt in E. lia.
Qed.
Lemma roundAway_near : forall q, 0 <= q -> rounds_nearest q (roundAway q).
Proof. intros q H. unfold roundAway. rewrite (proj2 (Qle_bool_iff 0 q) H). apply round_near. Qed.
Lemma inv_nearest : forall pen x z, 0 < pen -> 0 <= x ->
  (invWeight Exp pen x = Value z <-> rounds_nearest (x / pen * 10) z /\ (z <= u32max)%Z).
Proof.
  intros pen x z P X. unfold invWeight.
  destruct (Qeq_bool pen 0) eqn:E; [apply Qeq_bool_iff in E; lra|].
  assert (0 <= x / pen * 10) as G.
  { apply Qmult_le_0_compat; [|discriminate]. apply Qle_shift_div_l; auto. lra. }
  pose proof (roundAway_near _ G) as N.
  assert (0 <= roundAway (x / pen * 10))%Z as Z0.
  { unfold roundAway. rewrite (proj2 (Qle_bool_iff _ _) G).
    change 0%Z with (Qfloor (1 # 2)). apply Qfloor_resp_le. lra. }
  destruct (toU32 (roundAway (x / pen * 10))) as [y|] eqn:T.
  - apply toU32_spec in T. destruct T as [-> [_ B]]. split.
    + intro H. injection H as <-. auto.
    + intros [R _]. rewrite (near_unique _ _ _ R N). reflexivity.
  - split; [discriminate|]. intros [R B]. rewrite <- (near_unique _ _ _ R N) in T, Z0.
    unfold toU32 in T. rewrite (proj2 (Z.leb_le _ _) Z0), (proj2 (Z.leb_le _ _) B) in T. discriminate.
Qed.
Lemma inv_weight : forall pen c d t0 d0 x, 0 < pen -> (0 <= c <= u32max)%Z ->
  weight Exp pen c d t0 d0 = Some x -> invWeight Exp pen x = Value c.
Proof.
  intros pen c d t0 d0 x P [C0 C1] H. pose proof (weight_nonneg Exp pen c d t0 d0 x (Qlt_le_weak _ _ P) C0 H) as X.
  simpl in H. injection H as <-. apply inv_nearest; auto. split; auto.
  assert (expWeight pen c / pen * 10 == Zq c) as E by (unfold expWeight; field; lra).
  unfold rounds_nearest. rewrite E. split; lra.
Qed.

(** ** The limit *)
Lemma speed_fold : forall cands m,
  let r := fold_left (fun m c => match c with Some v => if Qltb m v then v else m | None => m end) cands m in
  (r = m \/ In (Some r) cands) /\ m <= r /\ forall u, In (Some u) cands -> u <= r.
Proof.
  induction cands as [|c cs IH]; intro m; simpl.
  - repeat split; auto; try apply Qle_refl; contradiction.
  - destruct c as [v|].
    + destruct (Qltb m v) eqn:E.
      * apply Qltb_lt in E. destruct (IH v) as [A [B C]]. split; [destruct A as [->|A]; auto|]. split; [lra|].
        intros u [H|H]; auto. injection H as <-. auto.
      * apply Qltb_ge in E. destruct (IH m) as [A [B C]]. split; [destruct A as [A|A]; auto|]. split; auto.
        intros u [H|H]; auto. injection H as <-. lra.
    + destruct (IH m) as [A [B C]]. split; [destruct A as [A|A]; auto|]. split; auto. intros u [H|H]; auto. discriminate.
Qed.
Lemma speed_fastest : forall cands v, fastest cands v -> 0 < v -> maxSpeed cands == v.
Proof.
  intros cands v [I F] V. destruct (speed_fold cands 0) as [A [B C]]. fold (maxSpeed cands) in A, B, C.
  pose proof (C v I). destruct A as [A|A]; [rewrite A in *; lra|]. pose proof (F _ A). lra.
Qed.
Lemma speed_none : forall cands, (forall c, In c cands -> c = None) -> maxSpeed cands = 0.
Proof.
  intros cands H. destruct (speed_fold cands 0) as [[A|A] _]; auto. apply H in A. discriminate.
Qed.

Lemma up_iff : forall q z, Qceiling q = z <-> rounds_up q z.
Proof. intros. split; [intros <-; apply ceil_up|]. intro H. apply (up_unique q); auto. apply ceil_up. Qed.
Lemma rounds_up_eq : forall q q' z, q == q' -> rounds_up q z -> rounds_up q' z.
Proof. unfold rounds_up. intros q q' z E H. rewrite <- E. auto. Qed.
Lemma conv_iff : forall q q' z, q == q' -> (toU32 (Qceiling q) = Some z <-> rounds_up q' z /\ (0 <= z <= u32max)%Z).
Proof.
  intros q q' z E. rewrite toU32_spec. split.
  - intros [-> B]. split; auto. apply (rounds_up_eq q); auto. apply ceil_up.
  - intros [R B]. apply (rounds_up_eq q' q) in R; [|symmetry; auto]. apply up_iff in R. subst z. auto.
Qed.

Lemma hop_seconds_unique : forall s d v t t', hop_seconds s d v t -> hop_seconds s d v t' -> t == t'.
Proof. unfold hop_seconds. intros s d v t t' [[A [B C]] H] [[A' [B' C']] H']. lra. Qed.
Lemma hop_ok : forall dep arr dist cands v, fastest cands v -> 0 < v ->
  exists q, hopTime dep arr dist cands = Fin q /\ hop_seconds (arr - dep) dist v (Qmax q 60).
Proof.
  intros dep arr dist cands v F V. unfold hopTime, minTime. pose proof (speed_fastest _ _ F V) as E.
  destruct (Qeq_bool (maxSpeed cands) 0) eqn:B; [apply Qeq_bool_iff in B; lra|].
  assert (dist / maxSpeed cands == dist / v) as D by (rewrite E; reflexivity).
  destruct (Qltb (arr - dep) (dist / maxSpeed cands)) eqn:L; eexists; split; try reflexivity.
  - apply Qltb_lt in L. unfold hop_seconds. destruct (Q.max_spec (dist / maxSpeed cands) 60) as [[A ->]|[A ->]]; rewrite D in *; lra.
  - apply Qltb_ge in L. unfold hop_seconds. destruct (Q.max_spec (arr - dep) 60) as [[A ->]|[A ->]]; rewrite D in *; lra.
Qed.
Lemma limit_spec : forall m o dep arr dist cands v t z, m <> DistDiff -> fastest cands v -> 0 < v ->
  hop_seconds (arr - dep) dist v t ->
  (limit m o dep arr dist cands = Some z <-> rounds_up (10 * (3 * t) * (fName o * fFrom o * fTo o)) z /\ (0 <= z <= u32max)%Z).
Proof.
  intros m o dep arr dist cands v t z M F V H. destruct (hop_ok dep arr dist cands v F V) as [q [Eq Hq]].
  pose proof (hop_seconds_unique _ _ _ _ _ Hq H) as E. unfold limit, maxCost. rewrite Eq.
  destruct m; try congruence; apply conv_iff; rewrite E; ring.
Qed.
