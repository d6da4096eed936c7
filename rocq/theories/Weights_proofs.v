(** Proofs about the edge costs, the transition cost and the distance heuristic. *)
From Coq Require Import List Arith ZArith QArith Qround Qminmax Bool Lia Lqa.
From Verif Require Import Weights_model Weights_spec.
Import ListNotations.

Lemma Qltb_lt : forall a b, Qltb a b = true <-> a < b.
Proof.
  intros a b. unfold Qltb. rewrite negb_true_iff. split; intros H.
  - apply Qnot_le_lt. intros C. apply Qle_bool_iff in C. congruence.
  - destruct (Qle_bool b a) eqn:E; [|reflexivity].
    apply Qle_bool_iff in E. exfalso. apply (Qlt_not_le _ _ H E).
Qed.
Lemma Qltb_ge : forall a b, Qltb a b = false <-> b <= a.
Proof.
  intros a b. unfold Qltb. rewrite negb_false_iff. apply Qle_bool_iff.
Qed.
Lemma Zq_le : forall a b, (a <= b)%Z <-> Zq a <= Zq b.
Proof. intros. unfold Zq. rewrite <- Zle_Qle; reflexivity. Qed.
Lemma Zq_lt : forall a b, (a < b)%Z <-> Zq a < Zq b.
Proof. intros. unfold Zq. rewrite <- Zlt_Qlt; reflexivity. Qed.
Lemma Zq_add : forall a b, Zq (a + b) == Zq a + Zq b.
Proof. intros. unfold Zq. rewrite inject_Z_plus. reflexivity. Qed.
Lemma Zq_sub1 : forall a, Zq (a - 1) == Zq a - 1.
Proof. intros. unfold Zq. unfold Z.sub. rewrite inject_Z_plus. reflexivity. Qed.
Lemma Zq_0 : Zq 0 == 0. Proof. reflexivity. Qed.
Lemma Zq_1 : Zq 1 == 1. Proof. reflexivity. Qed.

Lemma Zq_nonneg : forall z, (0 <= z)%Z -> 0 <= Zq z.
Proof. intros z H. exact (proj1 (Zq_le 0 z) H). Qed.

Lemma ceil_up : forall q, rounds_up q (Qceiling q).
Proof. intros q. split; [apply Qceiling_lt|apply Qle_ceiling]. Qed.
Lemma floor_down : forall q, rounds_down q (Qfloor q).
Proof. intros q. split; [apply Qfloor_le|apply Qlt_floor]. Qed.
Lemma round_near : forall q, rounds_nearest q (Qround q).
Proof.
  intros q. unfold Qround. destruct (floor_down (q + (1 # 2))) as [A B].
  rewrite Zq_add, Zq_1 in B. split; lra.
Qed.
Lemma up_unique : forall q a b, rounds_up q a -> rounds_up q b -> a = b.
Proof.
  intros q a b [A1 A2] [B1 B2].
  assert ((a - 1 < b)%Z) by (apply Zq_lt; lra). assert ((b - 1 < a)%Z) by (apply Zq_lt; lra). lia.
Qed.
Lemma near_unique : forall q a b, rounds_nearest q a -> rounds_nearest q b -> a = b.
Proof.
  intros q a b [A1 A2] [B1 B2].
  assert ((a < b + 1)%Z) by (apply Zq_lt; rewrite Zq_add, Zq_1; lra).
  assert ((b < a + 1)%Z) by (apply Zq_lt; rewrite Zq_add, Zq_1; lra). lia.
Qed.
Lemma up_nonneg : forall q a, rounds_up q a -> 0 <= q -> (0 <= a)%Z.
Proof. intros q a [A B] H. apply Zq_le. rewrite Zq_0. lra. Qed.
Lemma up_le : forall q a z, rounds_up q a -> q <= Zq z -> (a <= z)%Z.
Proof. intros q a z [A B] H. assert ((a - 1 < z)%Z) by (apply Zq_lt; lra). lia. Qed.
Lemma near_ge : forall q a z, rounds_nearest q a -> Zq z <= q -> (z <= a)%Z.
Proof.
  intros q a z [A B] H. assert ((z < a + 1)%Z) by (apply Zq_lt; rewrite Zq_add, Zq_1; lra). lia.
Qed.

(** ** C18 *)
Lemma costToInt_sat : forall c, 0 <= c ->
  exists v, rounds_up (c * 10) v /\ costToInt c = Z.min v u32max.
Proof.
  intros c H. exists (Qceiling (c * 10)). split; [apply ceil_up|].
  unfold costToInt. destruct (u32max <? Qceiling (c * 10))%Z eqn:E; [apply Z.ltb_lt in E|apply Z.ltb_ge in E]; lia.
Qed.
Lemma costToInt_u32 : forall c, 0 <= c -> u32 (costToInt c).
Proof.
  intros c H. destruct (costToInt_sat c H) as (v & Hv & ->).
  apply up_nonneg in Hv; [|lra]. unfold u32. unfold u32max. lia.
Qed.
Lemma costToInt_lb : forall c, 0 <= c -> costToInt c = u32max \/ c * 10 <= Zq (costToInt c).
Proof.
  intros c H. destruct (costToInt_sat c H) as (v & Hv & E).
  destruct (Z.le_gt_cases u32max v); [left; lia|right]. rewrite E, Z.min_l by lia. apply Hv.
Qed.

(** ** C23 *)
Lemma bestSimi_spec : forall sims best r, bestSimi best sims = r ->
  (exists pre post, sims = pre ++ r :: post /\ (simiCount best < simiCount r)%nat /\
     (forall x, In x pre -> (simiCount x < simiCount r)%nat) /\
     (forall x, In x post -> (simiCount x <= simiCount r)%nat))
  \/ (r = best /\ forall x, In x sims -> (simiCount x <= simiCount best)%nat)
  \/ (simiCount best = 3%nat /\ simiCount r = 3%nat).
Proof.
  assert (M : forall x, (simiCount x <= 3)%nat) by (intros [[] [] []]; cbn; lia).
  induction sims as [|s t IH]; intros best r H; cbn [bestSimi] in H.
  - right; left. split; [auto|intros x []].
  - destruct (sName s && sTo s && sFrom s) eqn:E.
    + subst r. assert (S3 : simiCount s = 3%nat) by (destruct s as [[] [] []]; cbn in *; try discriminate; reflexivity).
      destruct (Nat.eq_dec (simiCount best) 3); [right; right; auto|].
      left. exists [], t. split; [reflexivity|]. pose proof (M best).
      split; [lia|]. split; [intros x []|]. intros x _. rewrite S3. apply M.
    + assert (S3 : (simiCount s < 3)%nat) by (destruct s as [[] [] []]; cbn in *; try discriminate; lia).
      destruct (simiCount best <? simiCount s)%nat eqn:L; [apply Nat.ltb_lt in L|apply Nat.ltb_ge in L].
      * destruct (IH _ _ H) as [(pre & post & -> & A & B & C)|[[-> A]|[A _]]].
        -- left. exists (s :: pre), post. split; [reflexivity|]. split; [lia|]. split; [|exact C].
           intros x [<-|I]; auto.
        -- left. exists [], t. split; [reflexivity|]. split; [lia|]. split; [intros x []|exact A].
        -- lia.
      * destruct (IH _ _ H) as [(pre & post & -> & A & B & C)|[[-> A]|A]].
        -- left. exists (s :: pre), post. split; [reflexivity|]. split; [lia|]. split; [|exact C].
           intros x [<-|I]; auto. lia.
        -- right; left. split; [reflexivity|]. intros x [<-|I]; auto.
        -- right; right. exact A.
Qed.
Lemma transitLineSimi_best : forall na sims, best_line na sims (transitLineSimi na sims).
Proof.
  intros na sims. unfold best_line, transitLineSimi. destruct na; [reflexivity|].
  destruct (bestSimi_spec sims (mkSimi false false false) _ eq_refl) as [(pre & post & A & B & C & D)|[[A B]|[A _]]].
  - left. exists pre, post. cbn in B. repeat split; try assumption; try lia.
  - right. split; [exact A|]. intros x I. specialize (B x I). cbn in B. lia.
  - discriminate.
Qed.
Lemma app_cons_first : forall (A : Type) (l1 l2 m1 m2 : list A) x y, l1 ++ x :: l2 = m1 ++ y :: m2 ->
  (l1 = m1 /\ x = y /\ l2 = m2) \/ In x m1 \/ In y l1.
Proof.
  intros A. induction l1 as [|a l1 IH]; intros l2 [|b m1] m2 x y H; cbn in *; inversion H; subst.
  - left. auto.
  - right; left; left; reflexivity.
  - right; right; left; reflexivity.
  - destruct (IH _ _ _ _ _ H2) as [(-> & -> & ->)|[I|I]]; auto.
Qed.
Lemma best_line_unique : forall na sims a b, best_line na sims a -> best_line na sims b -> a = b.
Proof.
  intros na sims a b A B. unfold best_line in *. destruct na; [congruence|].
  destruct A as [(p1 & q1 & E1 & G1 & F1 & H1)|[-> E1]], B as [(p2 & q2 & E2 & G2 & F2 & H2)|[-> E2]].
  - rewrite E1 in E2. assert (D := E2). apply app_cons_first in E2.
    assert (In a (p2 ++ b :: q2)) by (rewrite <- D; apply in_or_app; right; left; reflexivity).
    assert (In b (p1 ++ a :: q1)) by (rewrite D; apply in_or_app; right; left; reflexivity).
    destruct E2 as [(_ & ? & _)|[I|I]]; [assumption| |].
    + apply F2 in I. apply in_app_or in H0. destruct H0 as [I2|[I2|I2]]; [apply F1 in I2; lia|congruence|apply H1 in I2; lia].
    + apply F1 in I. apply in_app_or in H. destruct H as [I2|[I2|I2]]; [apply F2 in I2; lia|congruence|apply H2 in I2; lia].
  - assert (simiCount a = 0%nat) by (apply E2; rewrite E1; apply in_or_app; right; left; reflexivity). lia.
  - assert (simiCount b = 0%nat) by (apply E1; rewrite E2; apply in_or_app; right; left; reflexivity). lia.
  - reflexivity.
Qed.

Lemma scaleUnless_punished : forall s f oc, punished s f oc (scaleUnless s f oc).
Proof.
  intros s f [c|]; [|constructor]. cbn. destruct s; [constructor; reflexivity|].
  unfold scale. destruct (Qltb f 1) eqn:E1.
  - apply Qltb_lt in E1. apply p_cheaper; auto. apply ceil_up.
  - apply Qltb_ge in E1. destruct (Qltb 1 f) eqn:E2.
    + apply Qltb_lt in E2. destruct (u32max <? Qround (Zq c * f))%Z eqn:E3.
      * apply Z.ltb_lt in E3. eapply p_toodear; eauto. apply round_near.
      * apply Z.ltb_ge in E3. apply p_dearer; auto. apply round_near.
    + apply Qltb_ge in E2. apply p_same; auto. lra.
Qed.
Lemma punished_unique : forall s f oc a b, punished s f oc a -> punished s f oc b -> a = b.
Proof.
  intros s f oc a b A B. destruct A; inversion B; subst; try congruence; try lra;
    repeat match goal with
    | H1 : rounds_up _ _, H2 : rounds_up _ _ |- _ => pose proof (up_unique _ _ _ H1 H2); clear H1
    | H1 : rounds_nearest _ _, H2 : rounds_nearest _ _ |- _ => pose proof (near_unique _ _ _ H1 H2); clear H1
    end; subst; try congruence; lia.
Qed.
(** A punished cost stays a 32-bit value and keeps a lower bound. *)
Definition min1 (f : Q) : Q := if Qltb f 1 then f else 1.
Lemma punished_bounds : forall s f c r, punished s f (Some c) (Some r) -> 0 < f -> u32 c ->
  u32 r /\ Zq c * min1 f <= Zq r.
Proof.
  intros s f c r H Hf Hc. unfold min1.
  assert (C0 : 0 <= Zq c) by (apply Zq_nonneg; apply Hc).
  inversion H; subst.
  - split; [assumption|]. destruct (Qltb f 1) eqn:E; [apply Qltb_lt in E|]; nra.
  - assert (E : Qltb f 1 = true) by (apply Qltb_lt; assumption). rewrite E.
    split; [|apply H4]. split.
    + eapply up_nonneg; [eassumption|nra].
    + transitivity c; [|apply Hc]. eapply up_le; [eassumption|nra].
  - split; [assumption|]. destruct (Qltb f 1) eqn:E; [apply Qltb_lt in E; lra|lra].
  - assert (E : Qltb f 1 = false) by (apply Qltb_ge; lra). rewrite E.
    assert ((c <= r)%Z) by (eapply near_ge; [eassumption|nra]).
    split; [destruct Hc; split; lia|]. apply (proj1 (Zq_le c r)) in H0. lra.
Qed.
Lemma min1_pos : forall f, 0 < f -> 0 < min1 f <= 1.
Proof.
  intros f H. unfold min1. destruct (Qltb f 1) eqn:E; [apply Qltb_lt in E|]; split; lra.
Qed.

Lemma unit_mul : forall a b, 0 < a <= 1 -> 0 < b <= 1 -> 0 < a * b <= 1.
Proof. intros a b A B. split; nra. Qed.
Lemma mul_unit_le : forall x a, 0 <= x -> 0 < a <= 1 -> x * a <= x.
Proof. intros x a X A. nra. Qed.
Lemma mul_mono_r : forall x y a, x <= y -> 0 < a <= 1 -> x * a <= y * a.
Proof. intros x y a X A. nra. Qed.

Lemma addPen_sat : forall pen c, (0 < pen <= u32max)%Z -> u32 c ->
  match addPen pen c with None => (u32max < c + pen)%Z | Some c' => c' = (c + pen)%Z /\ u32 c' end.
Proof.
  intros pen c Hp Hc. unfold addPen, wrap32, u32, u32max in *.
  destruct (Z.lt_ge_cases (c + pen) (2 ^ 32)).
  - rewrite Z.mod_small by lia. destruct (c + pen <=? c)%Z eqn:E; [apply Z.leb_le in E; lia|]. lia.
  - assert (E : ((c + pen) mod 2 ^ 32 = c + pen - 2 ^ 32)%Z).
    { symmetry. apply Z.mod_unique with 1%Z; lia. }
    rewrite E. destruct (c + pen - 2 ^ 32 <=? c)%Z eqn:E2; [lia|apply Z.leb_gt in E2; lia].
Qed.

Section CF.
Variable baseCost : nat -> Z.
Variable lineSimis : nat -> list simi.
Variable noAttrs : bool.
Variable eFrom eTo : nat -> nat.
Variable turnCycle : nat -> bool.
Variable deg : nat -> nat.
Variable sharp : nat -> nat -> nat -> bool.
Variable restricted : nat -> bool.
Variable may : nat -> nat -> nat -> bool.
Variable o : ropts.
Hypothesis Hbase : forall e, u32 (baseCost e).
Hypothesis Ho : opts_ok o.

Notation LM := (line_matched baseCost lineSimis noAttrs o).
Notation TC := (transition_cost baseCost lineSimis noAttrs eFrom eTo turnCycle deg sharp restricted may o).
Notation call := (costCall baseCost lineSimis noAttrs eFrom eTo turnCycle deg sharp restricted may o).
Notation run := (costRun baseCost lineSimis noAttrs eFrom eTo turnCycle deg sharp restricted may o).

Lemma lineCost_matched : forall f, noLineSimiPen noAttrs o = false ->
  LM f (lineCost baseCost lineSimis noAttrs o f).
Proof.
  intros f H. unfold line_matched. unfold noLineSimiPen in H. rewrite H.
  eexists _, _, _. split; [apply transitLineSimi_best|].
  split; [apply scaleUnless_punished|]. split; apply scaleUnless_punished.
Qed.
Lemma LM_unique : forall f a b, LM f a -> LM f b -> a = b.
Proof.
  intros f a b A B. unfold line_matched in *. destruct (noAttrs || Qeq_bool (fName o) 1); [congruence|].
  destruct A as (s & l1 & l2 & A1 & A2 & A3 & A4), B as (s' & m1 & m2 & B1 & B2 & B3 & B4).
  pose proof (best_line_unique _ _ _ _ A1 B1). subst s'.
  pose proof (punished_unique _ _ _ _ _ A2 B2). subst m1.
  pose proof (punished_unique _ _ _ _ _ A3 B3). subst m2.
  exact (punished_unique _ _ _ _ _ A4 B4).
Qed.
Lemma punished_from_none : forall s f r, punished s f None r -> r = None.
Proof. intros s f r H. inversion H; reflexivity. Qed.
Lemma LM_bounds : forall f l, LM f (Some l) -> u32 l /\
  Zq (baseCost f) * (min1 (fName o) * min1 (fFrom o) * min1 (fTo o)) <= Zq l.
Proof.
  intros f l H. destruct Ho as (_ & _ & F1 & F2 & F3).
  pose proof (min1_pos _ F1) as M1. pose proof (min1_pos _ F2) as M2. pose proof (min1_pos _ F3) as M3.
  assert (B0 : 0 <= Zq (baseCost f)) by (apply Zq_nonneg; apply Hbase).
  unfold line_matched in H. destruct (noAttrs || Qeq_bool (fName o) 1).
  - inversion H; subst. split; [apply Hbase|].
    apply mul_unit_le; [exact B0|]. apply unit_mul; [apply unit_mul|]; assumption.
  - destruct H as (s & l1 & l2 & _ & A & B & C).
    destruct l2 as [l2|]; [|apply punished_from_none in C; discriminate].
    destruct l1 as [l1|]; [|apply punished_from_none in B; discriminate].
    destruct (punished_bounds _ _ _ _ A F1 (Hbase f)) as [U1 L1].
    destruct (punished_bounds _ _ _ _ B F2 U1) as [U2 L2].
    destruct (punished_bounds _ _ _ _ C F3 U2) as [U3 L3].
    split; [exact U3|].
    pose proof (mul_mono_r _ _ _ L1 M2). pose proof (mul_mono_r _ _ (min1 (fTo o)) (Qle_trans _ _ _ H L2) M3).
    rewrite !Qmult_assoc. lra.
Qed.

Lemma turnPens_spec : forall c f tgt, u32 c -> exists tp rp,
  match tgt with
  | None => tp = 0%Z /\ rp = 0%Z
  | Some (n, to) => pen_if (full_turn eFrom eTo turnCycle deg sharp f n to) (fullTurn o) tp /\
                    pen_if (prohibited turnCycle restricted may f n to) (turnRestr o) rp
  end /\ turnPens eFrom eTo turnCycle deg sharp restricted may o c f tgt = Z.min u32max (c + tp + rp).
Proof.
  intros c f [[n to]|] Hc.
  2:{ exists 0%Z, 0%Z. split; [auto|]. unfold turnPens. destruct Hc. lia. }
  destruct Ho as (T1 & T2 & _). unfold turnPens.
  destruct (turnCycle n) eqn:TCy.
  { exists 0%Z, 0%Z. split; [|destruct Hc; lia].
    split; right; (split; [|reflexivity]); unfold full_turn, prohibited; intros [X _]; congruence. }
  set (ft := ((eFrom f =? eTo to)%nat && (eTo f =? eFrom to)%nat || (2 <? deg n)%nat && sharp n f to)%bool).
  assert (FT : full_turn eFrom eTo turnCycle deg sharp f n to <-> ft = true).
  { unfold full_turn, ft. rewrite orb_true_iff, !andb_true_iff, !Nat.eqb_eq, Nat.ltb_lt. tauto. }
  set (pr := restricted f && negb (may f to n)).
  assert (PR : prohibited turnCycle restricted may f n to <-> pr = true).
  { unfold prohibited, pr. rewrite andb_true_iff, negb_true_iff. tauto. }
  exists (if ft then fullTurn o else 0%Z), (if pr then turnRestr o else 0%Z).
  split.
  { split; unfold pen_if.
    - destruct ft; [left; tauto|right; split; [|reflexivity]]. intros X. apply FT in X. discriminate.
    - destruct pr; [left; tauto|right; split; [|reflexivity]]. intros X. apply PR in X. discriminate. }
  match goal with |- match ?X with _ => _ end = _ => set (c1 := X) end.
  assert (C1 : match c1 with
               | None => (u32max < c + (if ft then fullTurn o else 0))%Z
               | Some c' => c' = (c + (if ft then fullTurn o else 0))%Z /\ u32 c' end).
  { unfold c1. destruct (fullTurn o =? 0)%Z eqn:Z0.
    - apply Z.eqb_eq in Z0. rewrite Z0. cbn [negb andb]. destruct ft; split; try lia; destruct Hc; split; lia.
    - apply Z.eqb_neq in Z0. cbn [negb andb].
      assert (P := addPen_sat (fullTurn o) c ltac:(destruct T1; lia) Hc).
      unfold ft. destruct ((eFrom f =? eTo to)%nat && (eTo f =? eFrom to)%nat); cbn [orb].
      + exact P.
      + destruct (2 <? deg n)%nat; cbn [andb]; [destruct (sharp n f to); [exact P|]|]; split; try lia; destruct Hc; split; lia. }
  assert (A : (0 <= (if ft then fullTurn o else 0))%Z) by (destruct ft; destruct T1; lia).
  assert (B : (0 <= (if pr then turnRestr o else 0))%Z) by (destruct pr; destruct T2; lia).
  destruct c1 as [c1|]; [|lia].
  destruct C1 as [-> U1].
  replace ((0 <? turnRestr o)%Z && restricted f && negb (may f to n)) with ((0 <? turnRestr o)%Z && pr)
    by (unfold pr; rewrite andb_assoc; reflexivity).
  set (x := (c + (if ft then fullTurn o else 0))%Z) in *.
  destruct (0 <? turnRestr o)%Z eqn:TR; cbn [andb].
  - apply Z.ltb_lt in TR. destruct pr.
    + assert (P := addPen_sat (turnRestr o) x ltac:(destruct T2; lia) U1).
      destruct (addPen (turnRestr o) x) as [c2|]; [destruct P as [-> [P1 P2]]|]; lia.
    + destruct U1; lia.
  - apply Z.ltb_ge in TR. destruct pr; destruct U1; lia.
Qed.

Definition memo_ok (m : memo) : Prop :=
  match fst m with None => True | Some l => LM l (Some (snd m)) end.

Lemma costCall_spec : forall m f t, memo_ok m ->
  TC f t (fst (call m f t)) /\ memo_ok (snd (call m f t)).
Proof.
  intros m [f|] t Hm; [|split; [reflexivity|exact Hm]].
  unfold costCall. destruct (baseCost f =? u32max)%Z eqn:B.
  { apply Z.eqb_eq in B. split; [left; auto|exact Hm]. }
  apply Z.eqb_neq in B.
  assert (Fin : forall l, LM f (Some l) ->
     TC (Some f) t (turnPens eFrom eTo turnCycle deg sharp restricted may o l f t)).
  { intros l L. destruct (turnPens_spec l f t (proj1 (LM_bounds _ _ L))) as (tp & rp & P & E).
    right; right. split; [exact B|]. exists l, tp, rp. auto. }
  destruct (match fst m with Some l => (f =? l)%nat | None => false end) eqn:M.
  { unfold memo_ok in *. destruct (fst m) as [l|] eqn:Fm; [|discriminate].
    apply Nat.eqb_eq in M. subst l. cbn [fst snd]. rewrite Fm. split; [apply Fin|]; exact Hm. }
  destruct (noLineSimiPen noAttrs o) eqn:N; cbn [negb].
  - split; [apply Fin|exact Hm]. unfold line_matched. unfold noLineSimiPen in N. rewrite N. reflexivity.
  - pose proof (lineCost_matched f N) as L.
    destruct (lineCost baseCost lineSimis noAttrs o f) as [c|].
    + split; [apply Fin; exact L|exact L].
    + split; [right; left; auto|exact Hm].
Qed.

Lemma costRun_spec : forall calls,
  Forall2 (fun ft r => TC (fst ft) (snd ft) r) calls (run memo0 calls).
Proof.
  intros calls. assert (H : memo_ok memo0) by exact I. revert H. generalize memo0.
  induction calls as [|[f t] calls IH]; intros m Hm; [constructor|].
  cbn [costRun]. destruct (call m f t) as [c m'] eqn:E.
  pose proof (costCall_spec m f t Hm) as [A B]. rewrite E in A, B.
  constructor; [exact A|]. apply IH. exact B.
Qed.

Lemma TC_unique : forall f t a b, TC f t a -> TC f t b -> a = b.
Proof.
  intros [f|] t a b A B; [|cbn in *; congruence].
  assert (PU : forall P x p q, pen_if P x p -> pen_if P x q -> p = q).
  { intros P x p q [[? ?]|[? ?]] [[? ?]|[? ?]]; try congruence; tauto. }
  destruct A as [[A1 A2]|[(A1 & A2 & A3)|(A1 & l & tp & rp & A2 & A3 & A4)]],
           B as [[B1 B2]|[(B1 & B2 & B3)|(B1 & l' & tp' & rp' & B2 & B3 & B4)]]; try congruence.
  - pose proof (LM_unique _ _ _ A2 B2). discriminate.
  - pose proof (LM_unique _ _ _ A2 B2). discriminate.
  - pose proof (LM_unique _ _ _ A2 B2) as E. inversion E; subst l'.
    assert (tp = tp' /\ rp = rp').
    { destruct t as [[n to]|]; [|destruct A3, B3; split; congruence].
      destruct A3 as [X1 X2], B3 as [Y1 Y2]. split; eapply PU; eassumption. }
    destruct H; subst. reflexivity.
Qed.

(** The cost never falls below the base cost times the discount factors. *)
Lemma TC_lower : forall f t r, TC (Some f) t r ->
  u32 r /\ (r = u32max \/
  Zq (baseCost f) * (min1 (fName o) * min1 (fFrom o) * min1 (fTo o)) <= Zq r).
Proof.
  intros f t r [[_ ->]|[(_ & _ & ->)|(_ & l & tp & rp & L & P & ->)]].
  - split; [unfold u32, u32max; lia|left; reflexivity].
  - split; [unfold u32, u32max; lia|left; reflexivity].
  - destruct Ho as (T1 & T2 & _). destruct (LM_bounds _ _ L) as [U1 LB].
    assert (N : (0 <= tp /\ 0 <= rp)%Z).
    { destruct t as [[n to]|].
      - destruct P as [[[_ ->]|[_ ->]] [[_ ->]|[_ ->]]]; destruct T1, T2; lia.
      - destruct P as [-> ->]. lia. }
    destruct U1. split; [unfold u32, u32max in *; lia|].
    destruct (Z.le_gt_cases u32max (l + tp + rp)); [left; lia|right].
    rewrite Z.min_r by lia. assert (Zq l <= Zq (l + tp + rp)) by (apply (proj1 (Zq_le _ _)); lia). lra.
Qed.
End CF.

(** ** Base costs *)
Lemma costToInt_scale : forall c f ex, u32 c -> 0 < f -> 0 <= ex ->
  costToInt (Zq c / 10 * f + ex) = u32max \/ Zq c * min1 f <= Zq (costToInt (Zq c / 10 * f + ex)).
Proof.
  intros c f ex Hc Hf He. pose proof (Zq_nonneg c (proj1 Hc)) as C0.
  assert (N : 0 <= Zq c / 10 * f + ex).
  { assert (0 <= Zq c / 10) by (unfold Qdiv; apply Qmult_le_0_compat; [exact C0|discriminate]).
    pose proof (Qmult_le_0_compat _ f H ltac:(lra)). lra. }
  destruct (costToInt_lb _ N) as [H|H]; [left; exact H|right].
  assert (E : (Zq c / 10 * f + ex) * 10 == Zq c * f + ex * 10) by (unfold Qdiv; field).
  rewrite E in H. pose proof (min1_pos f Hf).
  assert (min1 f <= f) by (unfold min1; destruct (Qltb f 1) eqn:L; [lra|apply Qltb_ge in L; exact L]).
  assert (Zq c * min1 f <= Zq c * f) by (rewrite !(Qmult_comm (Zq c)); apply Qmult_le_compat_r; assumption). lra.
Qed.
Lemma costToInt_u32_scale : forall c f ex, u32 c -> 0 < f -> 0 <= ex -> u32 (costToInt (Zq c / 10 * f + ex)).
Proof.
  intros c f ex Hc Hf He. pose proof (Zq_nonneg c (proj1 Hc)) as C0. apply costToInt_u32.
  assert (0 <= Zq c / 10) by (unfold Qdiv; apply Qmult_le_0_compat; [exact C0|discriminate]).
  pose proof (Qmult_le_0_compat _ f H ltac:(lra)). lra.
Qed.

Lemma costToInt_ext : forall a b, a == b -> costToInt a = costToInt b.
Proof.
  intros a b H. unfold costToInt. rewrite (Qceiling_comp (a * 10) (b * 10)) by (rewrite H; reflexivity). reflexivity.
Qed.
Lemma noLines_scale : forall c f, noLinesCost c f = costToInt (Zq c / 10 * f + 0).
Proof. intros. unfold noLinesCost. apply costToInt_ext. lra. Qed.

(** The exact travel time and the intermediate one fit into 32 bits. *)
Definition fits (len speed : Q) (ow : bool) (speedPen entryCost : Q) : Prop :=
  geomCost len speed <> u32max /\ (ow = true -> oneWayCost (geomCost len speed) speedPen entryCost <> u32max).

Lemma buildCost_lower : forall len speed ow hl sp ec nl,
  0 <= len -> 0 < speed -> 0 < sp -> 0 <= ec -> 0 < nl -> fits len speed ow sp ec ->
  u32 (buildCost len speed ow hl sp ec nl) /\
  (buildCost len speed ow hl sp ec nl = u32max \/
   10 * (len / speed) * (min1 sp * min1 nl) <= Zq (buildCost len speed ow hl sp ec nl)).
Proof.
  intros len speed ow hl sp ec nl Hl Hs Hsp Hec Hnl [F1 F2].
  assert (Q0 : 0 <= len / speed) by (apply Qle_shift_div_l; lra).
  assert (U0 : u32 (geomCost len speed)) by (apply costToInt_u32; exact Q0).
  assert (L0 : 10 * (len / speed) <= Zq (geomCost len speed)).
  { destruct (costToInt_lb _ Q0) as [H|H]; [contradiction|]. unfold geomCost. lra. }
  pose proof (min1_pos _ Hsp) as M1. pose proof (min1_pos _ Hnl) as M2.
  assert (exists c1, (if ow then oneWayCost (geomCost len speed) sp ec else geomCost len speed) = c1 /\
    u32 c1 /\ 10 * (len / speed) * min1 sp <= Zq c1) as (c1 & E1 & U1 & L1).
  { destruct ow; eexists; split; try reflexivity.
    - split; [apply costToInt_u32_scale; assumption|].
      destruct (costToInt_scale _ _ _ U0 Hsp Hec) as [H|H]; [exfalso; apply (F2 eq_refl); exact H|].
      unfold oneWayCost. pose proof (mul_mono_r _ _ _ L0 M1). lra.
    - split; [exact U0|]. pose proof (mul_unit_le (10 * (len / speed)) _ ltac:(lra) M1). lra. }
  unfold buildCost. rewrite E1.
  assert (P1 : 0 <= 10 * (len / speed) * min1 sp) by (apply Qmult_le_0_compat; lra).
  assert (Base : 10 * (len / speed) * (min1 sp * min1 nl) <= Zq c1)
    by (rewrite Qmult_assoc; pose proof (mul_unit_le _ _ P1 M2); lra).
  destruct (Qeq_bool nl 1); [split; [exact U1|right; exact Base]|].
  destruct hl; [split; [exact U1|right; exact Base]|].
  rewrite noLines_scale. split; [apply costToInt_u32_scale; [exact U1|exact Hnl|lra]|].
  destruct (costToInt_scale c1 nl 0 U1 Hnl) as [H|H]; [lra|left; exact H|right].
  rewrite Qmult_assoc. pose proof (mul_mono_r _ _ _ L1 M2). lra.
Qed.

Lemma costToInt_tenths : forall c, tenths c (costToInt c).
Proof.
  intros c. exists (Qceiling (c * 10)). split; [apply ceil_up|].
  unfold costToInt. destruct (u32max <? Qceiling (c * 10))%Z eqn:E; [apply Z.ltb_lt in E|apply Z.ltb_ge in E]; lia.
Qed.
Lemma buildCost_exact : forall len speed ow hl sp ec nl,
  edge_cost len speed ow hl sp ec nl (buildCost len speed ow hl sp ec nl).
Proof.
  intros. unfold edge_cost, buildCost.
  exists (geomCost len speed), (if ow then oneWayCost (geomCost len speed) sp ec else geomCost len speed).
  split; [apply costToInt_tenths|].
  split; [intros ->; apply costToInt_tenths|]. split; [intros ->; reflexivity|].
  destruct (Qeq_bool nl 1) eqn:E.
  - split; [reflexivity|]. intros _ N. exfalso. apply N. apply Qeq_bool_iff. exact E.
  - split.
    + intros [->|C]; [reflexivity|]. apply Qeq_bool_iff in C. congruence.
    + intros -> _. apply costToInt_tenths.
Qed.

Lemma below1_min1 : forall f acc, below1 f acc == acc * min1 f.
Proof. intros. unfold below1, min1. destruct (Qltb f 1); lra. Qed.
Lemma maxSpeedCorFac_prod : forall o nl sp,
  maxSpeedCorFac o nl sp == min1 (fName o) * min1 (fFrom o) * min1 (fTo o) * (min1 sp * min1 nl).
Proof. intros. unfold maxSpeedCorFac. rewrite !below1_min1. ring. Qed.

Lemma last_indep : forall (l : list nat) x d d', last (x :: l) d = last (x :: l) d'.
Proof. induction l as [|y l IH]; intros x d d'; [reflexivity|]. exact (IH y d d'). Qed.

(** ** C24 *)
Section H.
Context {P : Type}.
Variable dist : P -> P -> Q.
Variable pos : nat -> P.
Variable center : P.
Variable maxV : Q.
Hypothesis Hd : is_dist dist.
Hypothesis HV : 0 < maxV.

Lemma foldmax_ge : forall tos acc t,
  acc <= fold_left (fun acc e => let cur := dist (pos e) center in if Qltb acc cur then cur else acc) tos acc /\
  (In t tos -> dist (pos t) center <=
    fold_left (fun acc e => let cur := dist (pos e) center in if Qltb acc cur then cur else acc) tos acc).
Proof.
  induction tos as [|e tos IH]; intros acc t; cbn.
  - split; [lra|intros []].
  - set (a' := if Qltb acc (dist (pos e) center) then dist (pos e) center else acc).
    assert (A : acc <= a' /\ dist (pos e) center <= a').
    { unfold a'. destruct (Qltb acc (dist (pos e) center)) eqn:E; [apply Qltb_lt in E|apply Qltb_ge in E]; lra. }
    destruct (IH a' t) as [I1 I2]. destruct A as [A1 A2]. split; [exact (Qle_trans _ _ _ A1 I1)|].
    intros [->|I]; [exact (Qle_trans _ _ _ A2 I1)|exact (I2 I)].
Qed.
Lemma maxCentD_ge : forall tos t, In t tos -> dist (pos t) center / maxV <= maxCentD P dist pos center maxV tos.
Proof.
  intros tos t I. unfold maxCentD. apply Qmult_le_compat_r; [apply foldmax_ge; exact I|].
  apply Qlt_le_weak, Qinv_lt_0_compat. exact HV.
Qed.

Notation heur := (heurPure P dist pos center maxV).
Definition hq (tos : list nat) (a : nat) : Q :=
  Qmax 0 ((dist (pos a) center / maxV - maxCentD P dist pos center maxV tos) * 10).

Lemma hq_nonneg : forall tos a, 0 <= hq tos a.
Proof. intros. unfold hq. apply Q.le_max_l. Qed.
Lemma heur_min : forall tos a, exists z, rounds_down (hq tos a) z /\ heur tos a = Z.min z u32max.
Proof.
  intros tos a. exists (Qfloor (hq tos a)). split; [apply floor_down|].
  unfold heurPure. fold (hq tos a).
  destruct (floor_down (hq tos a)) as [F1 F2].
  destruct (Qltb (Zq u32max) (hq tos a)) eqn:E.
  - apply Qltb_lt in E. assert ((u32max < Qfloor (hq tos a) + 1)%Z) by (apply Zq_lt; lra). lia.
  - apply Qltb_ge in E. assert ((Qfloor (hq tos a) <= u32max)%Z) by (apply Zq_le; lra). lia.
Qed.
Lemma heur_nonneg : forall tos a, (0 <= heur tos a <= u32max)%Z.
Proof.
  intros tos a. destruct (heur_min tos a) as (z & [Z1 Z2] & ->).
  pose proof (hq_nonneg tos a). assert ((0 < z + 1)%Z) by (apply Zq_lt; rewrite Zq_0; lra).
  unfold u32max. lia.
Qed.
Lemma heur_target : forall tos t, In t tos -> heur tos t = 0%Z.
Proof.
  intros tos t I. pose proof (maxCentD_ge _ _ I).
  assert (hq tos t <= 0). { unfold hq. apply Q.max_lub; lra. }
  destruct (heur_min tos t) as (z & [Z1 Z2] & E).
  assert ((z <= 0)%Z) by (apply Zq_le; rewrite Zq_0; lra).
  pose proof (heur_nonneg tos t). lia.
Qed.

Lemma hq_step : forall tos a b c, 10 * (dist (pos a) (pos b) / maxV) <= Zq c ->
  hq tos a <= Zq c + hq tos b.
Proof.
  intros tos a b c H. destruct Hd as (N & S & T).
  assert (I : 0 <= / maxV) by (apply Qlt_le_weak, Qinv_lt_0_compat; exact HV).
  assert (D : dist (pos a) center / maxV <= dist (pos a) (pos b) / maxV + dist (pos b) center / maxV).
  { unfold Qdiv. rewrite <- Qmult_plus_distr_l. apply Qmult_le_compat_r; [apply T|exact I]. }
  assert (C0 : 0 <= Zq c).
  { assert (0 <= dist (pos a) (pos b) / maxV) by (unfold Qdiv; apply Qmult_le_0_compat; [apply N|exact I]). lra. }
  pose proof (hq_nonneg tos b).
  unfold hq at 1. apply Q.max_lub; [lra|].
  assert ((dist (pos b) center / maxV - maxCentD P dist pos center maxV tos) * 10 <= hq tos b)
    by (unfold hq; apply Q.le_max_r). lra.
Qed.

Lemma heur_consistent : forall tos cost a b, (0 <= cost a b)%Z -> no_faster dist pos maxV cost a b ->
  (heur tos a <= cost a b + heur tos b)%Z.
Proof.
  intros tos cost a b C0 [E|H].
  - pose proof (heur_nonneg tos a). pose proof (heur_nonneg tos b). lia.
  - destruct (heur_min tos a) as (za & [A1 A2] & ->). destruct (heur_min tos b) as (zb & [B1 B2] & ->).
    pose proof (hq_step tos a b _ H) as HS.
    assert ((za < cost a b + zb + 1)%Z).
    { apply Zq_lt. rewrite Zq_add, Zq_1 in *. rewrite Zq_add. lra. }
    lia.
Qed.

Lemma heur_admissible : forall tos cost path a t, In t tos -> last (a :: path) a = t ->
  path_all (fun x y => (0 <= cost x y)%Z /\ no_faster dist pos maxV cost x y) (a :: path) ->
  (heur tos a <= path_cost cost (a :: path))%Z.
Proof.
  intros tos cost path. induction path as [|b path IH]; intros a t It L A.
  - cbn in L. subst t. rewrite heur_target by exact It. cbn. lia.
  - destruct A as [[A1 A2] A3].
    assert (L' : last (b :: path) b = t).
    { rewrite <- L. change (last (a :: b :: path) a) with (last (b :: path) a). apply last_indep. }
    pose proof (IH b t It L' A3) as H. pose proof (heur_consistent tos cost a b A1 A2).
    change (path_cost cost (a :: b :: path)) with (cost a b + path_cost cost (b :: path))%Z. lia.
Qed.

Lemma heurRun_pure : forall tos qs, heurRun P dist pos center maxV tos (None, 0%Z) qs = map (heur tos) qs.
Proof.
  intros tos qs.
  assert (H : forall m, match fst m with None => True | Some l => snd m = heur tos l end ->
     heurRun P dist pos center maxV tos m qs = map (heur tos) qs).
  { induction qs as [|q qs IH]; intros m Hm; [reflexivity|]. cbn [heurRun map]. unfold heurCall.
    destruct (match fst m with Some l => (q =? l)%nat | None => false end) eqn:E.
    - f_equal; [|apply IH; exact Hm]. destruct (fst m); [|discriminate].
      apply Nat.eqb_eq in E. subst. exact Hm.
    - f_equal. apply IH. reflexivity. }
  apply H. exact I.
Qed.
End H.
