(** Proofs about the comparison of shapes. *)
From Coq Require Import List Arith ZArith QArith Bool Lia Permutation Sorted.
From Verif Require Import ListAux Collect_model Collect_spec.
Import ListNotations.
Open Scope nat_scope.
Local Arguments Nat.eqb : simpl never.
Local Arguments Nat.ltb : simpl never.
Local Arguments Nat.leb : simpl never.
Local Arguments Nat.div : simpl never.

Lemma Qltb_lt : forall a b, Qltb a b = true <-> (a < b)%Q.
Proof. intros a b. unfold Qltb. rewrite negb_true_iff. split; intros H; [apply Qnot_le_lt; intros G; apply Qle_bool_iff in G; congruence | destruct (Qle_bool b a) eqn:E; [apply Qle_bool_iff in E; exfalso; exact (Qlt_not_le _ _ H E) | reflexivity]]. Qed.
Lemma Qltb_ge : forall a b, Qltb a b = false <-> (b <= a)%Q.
Proof. intros a b. unfold Qltb. rewrite negb_false_iff. apply Qle_bool_iff. Qed.

Lemma destruct_last : forall (A : Type) (l : list A), l = [] \/ exists l' x, l = l' ++ [x].
Proof. intros A l. destruct l as [|x l] using rev_ind; [left; reflexivity | right; exists l, x; reflexivity]. Qed.

(** ** The order of lines *)
Section Order.
Variable dist : point -> point -> Q.
Notation far := (far dist). Notation ptsLt := (ptsLt dist). Notation lineLt := (lineLt dist). Notation lineEqv := (lineEqv dist).
Notation near := (near dist). Notation close := (close dist).
Lemma far_near : forall p q, far p q = false <-> near p q.
Proof. intros p q. unfold Collect_model.far, Collect_spec.near. apply Qltb_ge. Qed.
Lemma far_not : forall p q, far p q = true <-> ~ near p q.
Proof. intros p q. rewrite <- far_near. destruct (far p q); split; congruence. Qed.
Lemma ptLt_irrefl : forall p, ptLt p p = false.
Proof. intros p. unfold ptLt. assert (H : forall x, Qltb x x = false) by (intros x; apply Qltb_ge, Qle_refl). rewrite !H. rewrite andb_false_r. reflexivity. Qed.
Lemma ptLt_iff : forall p q, ptLt p q = true <-> ((fst p < fst q)%Q \/ (fst p == fst q /\ snd p < snd q)%Q).
Proof. intros p q. unfold ptLt. rewrite orb_true_iff, andb_true_iff, !Qltb_lt, Qeq_bool_iff. tauto. Qed.
Lemma ptLt_asym : forall p q, ptLt p q = true -> ptLt q p = false.
Proof.
  intros p q H. destruct (ptLt q p) eqn:G; [|reflexivity]. apply ptLt_iff in H, G. exfalso.
  destruct H as [H | (H & H')], G as [G | (G & G')].
  - exact (Qlt_irrefl _ (Qlt_trans _ _ _ H G)).
  - rewrite G in H. exact (Qlt_irrefl _ H).
  - rewrite H in G. exact (Qlt_irrefl _ G).
  - exact (Qlt_irrefl _ (Qlt_trans _ _ _ H' G')).
Qed.
Lemma ptLt_total : forall p q, ptLt p q = false -> ptLt q p = false -> (fst p == fst q /\ snd p == snd q)%Q.
Proof.
  intros p q H G. destruct (Q_dec (fst p) (fst q)) as [[E | E] | E].
  - exfalso. assert (ptLt p q = true) by (apply ptLt_iff; tauto). congruence.
  - exfalso. assert (ptLt q p = true) by (apply ptLt_iff; tauto). congruence.
  - split; [exact E|]. destruct (Q_dec (snd p) (snd q)) as [[F | F] | F]; [| |exact F]; exfalso.
    + assert (ptLt p q = true) by (apply ptLt_iff; tauto). congruence.
    + assert (ptLt q p = true) by (apply ptLt_iff; right; split; [symmetry; exact E | exact F]). congruence.
Qed.
Lemma ptLt_trans : forall p q r, ptLt p q = true -> ptLt q r = true -> ptLt p r = true.
Proof.
  intros p q r H G. apply ptLt_iff in H, G. apply ptLt_iff. destruct H as [H | (H & H')], G as [G | (G & G')].
  - left. exact (Qlt_trans _ _ _ H G).
  - left. rewrite <- G. exact H.
  - left. rewrite H. exact G.
  - right. split; [rewrite H; exact G | exact (Qlt_trans _ _ _ H' G')].
Qed.
Section Dist.
Hypothesis same_near : forall p q : point, (fst p == fst q)%Q -> (snd p == snd q)%Q -> near p q.
Hypothesis dist_sym : forall p q, (dist p q == dist q p)%Q.
Lemma near_sym : forall p q, near p q -> near q p.
Proof. intros p q H. unfold Collect_spec.near in *. rewrite dist_sym. exact H. Qed.
Lemma far_sym : forall p q, far p q = far q p.
Proof. intros p q. destruct (far p q) eqn:E; symmetry; [apply far_not; apply far_not in E; intros H; apply E, near_sym, H | apply far_near, near_sym, far_near, E]. Qed.
Lemma lineLt_irrefl : forall a, lineLt a a = false.
Proof.
  intros a. unfold Collect_model.lineLt. rewrite Nat.eqb_refl. induction a as [|p a IH]; [reflexivity|]. cbn [Collect_model.ptsLt]. destruct (far p p); [apply ptLt_irrefl | exact IH].
Qed.
Lemma lineLt_asym : forall a b, lineLt a b = true -> lineLt b a = false.
Proof.
  intros a b. unfold Collect_model.lineLt. destruct (Nat.eqb_spec (length a) (length b)) as [E | E].
  - rewrite <- E, Nat.eqb_refl. clear E. revert b. induction a as [|p a IH]; intros [|q b] H; try reflexivity; try discriminate. cbn [Collect_model.ptsLt] in *. rewrite far_sym in H. destruct (far q p); [apply ptLt_asym; exact H | apply IH; exact H].
  - intros H. apply Nat.ltb_lt in H. destruct (Nat.eqb_spec (length b) (length a)) as [F | F]; [lia|]. apply Nat.ltb_ge. lia.
Qed.
Lemma eqv_close : forall a b, lineEqv a b = true <-> close a b.
Proof.
  intros a b. unfold Collect_model.lineEqv, Collect_model.lineLt. rewrite andb_true_iff, !negb_true_iff. destruct (Nat.eqb_spec (length a) (length b)) as [E | E].
  - rewrite <- E, Nat.eqb_refl. revert b E. induction a as [|p a IH]; intros [|q b] E; cbn [length] in E; try lia; [split; [intros _; constructor | intros _; split; reflexivity]|].
    cbn [Collect_model.ptsLt]. rewrite (far_sym q p). destruct (far p q) eqn:F.
    + split.
      * intros (H1 & H2). destruct (ptLt_total p q H1 H2) as (X & Y). apply far_not in F. exfalso. apply F, same_near; assumption.
      * intros H. inversion H; subst. apply far_not in F. contradiction.
    + rewrite (IH b) by lia. split; [intros H; constructor; [apply far_near; exact F | exact H] | intros H; inversion H; assumption].
  - assert (E' : (length b =? length a) = false) by (apply Nat.eqb_neq; lia). rewrite E'. split; [intros (H1 & H2); apply Nat.ltb_ge in H1, H2; lia | intros H; exfalso; apply E; clear - H; induction H; cbn [length]; lia].
Qed.
Variable D : line -> Prop.
Hypothesis Hap : apart dist D.
Lemma close_eq : forall a b, D a -> D b -> close a b -> a = b.
Proof.
  intros a b Ha Hb H. assert (G : forall p q, In p a -> In q b -> near p q -> p = q) by (intros p q Hp Hq; apply (Hap a b); assumption). clear Ha Hb. induction H as [|p q a b H1 H2 IH]; [reflexivity|]. f_equal; [apply G; [left; reflexivity | left; reflexivity | exact H1] | apply IH; intros; apply G; [right; assumption | right; assumption | assumption]].
Qed.
Lemma ptsLt_trans : forall a b c, (forall p q, In p a -> In q b -> near p q -> p = q) -> (forall p q, In p b -> In q c -> near p q -> p = q) -> (forall p q, In p a -> In q c -> near p q -> p = q) ->
  length a = length b -> length b = length c -> ptsLt a b = true -> ptsLt b c = true -> ptsLt a c = true.
Proof.
  induction a as [|p a IH]; intros [|q b] [|r c] G1 G2 G3 L1 L2 H1 H2; cbn [length] in *; try lia; try discriminate. cbn [Collect_model.ptsLt] in *.
  assert (Ha : forall p q, In p a -> In q b -> near p q -> p = q) by (intros x y Hx Hy; apply G1; right; assumption).
  assert (Hb : forall p q, In p b -> In q c -> near p q -> p = q) by (intros x y Hx Hy; apply G2; right; assumption).
  assert (Hc : forall p q, In p a -> In q c -> near p q -> p = q) by (intros x y Hx Hy; apply G3; right; assumption).
  destruct (far p q) eqn:F1.
  - destruct (far q r) eqn:F2.
    + pose proof (ptLt_trans p q r H1 H2) as Hpr. destruct (far p r) eqn:F3; [exact Hpr|].
      exfalso. apply far_near in F3. assert (p = r) by (apply G3; [left; reflexivity | left; reflexivity | exact F3]). subst r. rewrite ptLt_irrefl in Hpr. discriminate.
    + apply far_near in F2. assert (q = r) by (apply G2; [left; reflexivity | left; reflexivity | exact F2]). subst r. rewrite F1. exact H1.
  - apply far_near in F1. assert (p = q) by (apply G1; [left; reflexivity | left; reflexivity | exact F1]). subst q. destruct (far p r) eqn:F2; [exact H2|]. apply (IH b c Ha Hb Hc); [lia | lia | exact H1 | exact H2].
Qed.
Lemma lineLt_trans : forall a b c, D a -> D b -> D c -> lineLt a b = true -> lineLt b c = true -> lineLt a c = true.
Proof.
  intros a b c Ha Hb Hc. unfold Collect_model.lineLt. destruct (Nat.eqb_spec (length a) (length b)) as [E | E], (Nat.eqb_spec (length b) (length c)) as [F | F]; intros H G.
  - rewrite E, F, Nat.eqb_refl. apply (ptsLt_trans a b c); try assumption; intros p q Hp Hq; [apply (Hap a b) | apply (Hap b c) | apply (Hap a c)]; assumption.
  - rewrite E. apply Nat.eqb_neq in F. rewrite F. exact G.
  - rewrite <- F. apply Nat.eqb_neq in E. rewrite E. exact H.
  - apply Nat.ltb_lt in H, G. assert (N : (length a =? length c) = false) by (apply Nat.eqb_neq; lia). rewrite N. apply Nat.ltb_lt. lia.
Qed.
Lemma lineLt_weak : StrictWeak D lineLt.
Proof.
  constructor; [intros a _; apply lineLt_irrefl | exact lineLt_trans|]. intros a b c Ha Hb Hc H1 H2 H3 H4.
  assert (a = b) by (apply close_eq; try assumption; apply eqv_close; unfold Collect_model.lineEqv; rewrite H1, H2; reflexivity).
  assert (b = c) by (apply close_eq; try assumption; apply eqv_close; unfold Collect_model.lineEqv; rewrite H3, H4; reflexivity).
  subst b c. rewrite lineLt_irrefl. tauto.
Qed.
(** ** Caches *)
Lemma eqv_eq : forall a b, D a -> D b -> lineEqv a b = true -> a = b.
Proof. intros a b Ha Hb H. apply close_eq; [exact Ha | exact Hb | apply eqv_close; exact H]. Qed.
Definition cacheOk (f : line -> line -> Q) (c : list (line * list (line * Q))) : Prop :=
  forall a m, In (a, m) c -> D a /\ forall b v, In (b, v) m -> D b /\ v = f a b.
Lemma mfind_in : forall (V : Type) (m : list (line * V)) k v, mfind dist V m k = Some v -> exists k', In (k', v) m /\ lineEqv k' k = true.
Proof.
  intros V m k v. induction m as [|(k' & v') m IH]; intros H; [discriminate|]. cbn [mfind] in H. destruct (lineEqv k' k) eqn:E; [injection H as <-; exists k'; split; [left; reflexivity | exact E]|]. destruct (IH H) as (k2 & H2 & E2). exists k2. split; [right; exact H2 | exact E2].
Qed.
Lemma mput_in : forall (V : Type) (m : list (line * V)) k v x, In x (mput dist V m k v) -> In x m \/ (snd x = v /\ (fst x = k \/ exists v', In (fst x, v') m /\ lineEqv (fst x) k = true)).
Proof.
  intros V m k v x. induction m as [|(k' & v') m IH]; intros H; cbn [mput] in H.
  - destruct H as [<- | []]. right. split; [reflexivity | left; reflexivity].
  - destruct (lineEqv k' k) eqn:E; destruct H as [H | H].
    + subst x. right. split; [reflexivity|]. right. exists v'. split; [left; reflexivity | exact E].
    + left. right. exact H.
    + left. left. exact H.
    + destruct (IH H) as [G | (G1 & [G2 | (w & G2 & G3)])]; [left; right; exact G | right; tauto | right; split; [exact G1|]; right; exists w; split; [right; exact G2 | exact G3]].
Qed.
Lemma memo_ok : forall f c a b v c', D a -> D b -> cacheOk f c -> memo dist c a b (f a b) = (v, c') -> v = f a b /\ cacheOk f c'.
Proof.
  intros f c a b v c' Ha Hb Hc H. unfold memo in H. destruct (mfind dist _ c a) as [m|] eqn:E.
  - apply mfind_in in E. destruct E as (k & Hk & Ek). destruct (Hc k m Hk) as (Dk & Hm). assert (k = a) by (apply eqv_eq; assumption). subst k. destruct (mfind dist _ m b) as [w|] eqn:F.
    + injection H as <- <-. apply mfind_in in F. destruct F as (k2 & Hk2 & Ek2). destruct (Hm k2 w Hk2) as (Dk2 & ->). assert (k2 = b) by (apply eqv_eq; assumption). subst k2. split; [reflexivity | exact Hc].
    + injection H as <- <-. split; [reflexivity|]. intros x m' Hx. apply mput_in in Hx. cbn [fst snd] in Hx. destruct Hx as [Hx | (-> & Hx)]; [exact (Hc x m' Hx)|].
      assert (Hxa : x = a) by (destruct Hx as [-> | (w & Hw & Ew)]; [reflexivity | apply eqv_eq; [exact (proj1 (Hc x w Hw)) | exact Ha | exact Ew]]). subst x. split; [exact Ha|].
      intros y w Hy. apply mput_in in Hy. cbn [fst snd] in Hy. destruct Hy as [Hy | (-> & Hy)]; [exact (Hm y w Hy)|].
      assert (Hyb : y = b) by (destruct Hy as [-> | (w & Hw & Ew)]; [reflexivity | apply eqv_eq; [exact (proj1 (Hm y w Hw)) | exact Hb | exact Ew]]). subst y. split; [exact Hb | reflexivity].
  - injection H as <- <-. split; [reflexivity|]. intros x m' Hx. apply mput_in in Hx. cbn [fst snd] in Hx. destruct Hx as [Hx | (-> & Hx)]; [exact (Hc x m' Hx)|].
    assert (Hxa : x = a) by (destruct Hx as [-> | (w & Hw & Ew)]; [reflexivity | apply eqv_eq; [exact (proj1 (Hc x w Hw)) | exact Ha | exact Ew]]). subst x. split; [exact Ha|].
    intros y w [Hy | []]. injection Hy as <- <-. split; [exact Hb | reflexivity].
Qed.
End Dist.
End Order.

(** ** Cutting shapes *)
Lemma increasing_tl : forall x s, increasing (x :: s) -> increasing s.
Proof. intros x s H l1 l2 l3 p q a b E. apply (H (x :: l1) l2 l3 p q). rewrite E. reflexivity. Qed.
Lemma upperBound_ok : forall (s : shape) c, exists l1 l2, s = l1 ++ l2 /\ length l1 = upperBound (map snd s) c /\ (forall x, In x l1 -> (snd x <= c)%Q) /\ match l2 with [] => True | x :: _ => (c < snd x)%Q end.
Proof.
  induction s as [|(p & d) s IH]; intros c; [exists [], []; cbn; repeat split; intros x []|]. cbn [map upperBound snd]. destruct (Qltb c d) eqn:E.
  - exists [], ((p, d) :: s). split; [reflexivity|]. split; [reflexivity|]. split; [intros x []|]. apply Qltb_lt. exact E.
  - destruct (IH c) as (l1 & l2 & -> & H2 & H3 & H4). exists ((p, d) :: l1), l2. split; [reflexivity|]. split; [cbn [length]; congruence|]. split; [|exact H4]. intros x [<- | Hx]; [apply Qltb_ge; exact E | apply H3; exact Hx].
Qed.
Lemma cutAt_ok : forall (s : shape) c p, cutAt (map fst s) (map snd s) c = Some p -> At s c p.
Proof.
  intros s c p H. unfold cutAt in H. destruct (upperBound_ok s c) as (l1 & l2 & Es & El & H1 & H2). rewrite <- El in H. clear El. subst s. rewrite !map_length, app_length in H. destruct (Nat.leb_spec (length l1 + length l2) (length l1)) as [L | L].
  - destruct l2 as [|x l2]; [|cbn [length] in L; lia]. rewrite app_nil_r in *. destruct (destruct_last _ l1) as [-> | (l & (q & d) & ->)]; [discriminate|].
    rewrite nth_error_map, nth_error_app2 in H by (rewrite app_length; cbn [length]; lia). rewrite app_length in H. cbn [length] in H. replace (length l + 1 + 0 - 1 - length l) with 0 in H by lia. cbn [nth_error option_map fst] in H. injection H as <-.
    apply A_after with d l; [reflexivity | apply (H1 (q, d)), in_or_app; right; left; reflexivity].
  - destruct l2 as [|(q & b) l2]; [cbn [length] in L; lia|]. cbn [snd] in H2. destruct (destruct_last _ l1) as [-> | (l & (r & a) & ->)].
    + cbn in H. injection H as <-. apply A_before with b l2; [reflexivity | exact H2].
    + rewrite app_length in H. cbn [length] in H. replace (length l + 1) with (S (length l)) in H by lia. rewrite <- app_assoc in H. cbn [app] in H. rewrite !nth_error_map in H.
      replace (nth_error (l ++ (r, a) :: (q, b) :: l2) (length l)) with (Some (r, a)) in H by (rewrite nth_error_app2 by lia; rewrite Nat.sub_diag; reflexivity).
      replace (nth_error (l ++ (r, a) :: (q, b) :: l2) (S (length l))) with (Some (q, b)) in H by (rewrite nth_error_app2 by lia; replace (S (length l) - length l) with 1 by lia; reflexivity).
      cbn [option_map fst snd] in H. injection H as <-. apply A_between with l l2; [rewrite <- app_assoc; reflexivity | apply (H1 (r, a)), in_or_app; right; left; reflexivity | exact H2].
Qed.
Lemma cutAt_some : forall (s : shape) c, s <> [] -> exists p, cutAt (map fst s) (map snd s) c = Some p.
Proof.
  intros s c Hs. unfold cutAt. destruct (upperBound_ok s c) as (l1 & l2 & Es & El & H1 & H2). rewrite <- El. clear El. destruct (Nat.leb_spec (length (map snd s)) (length l1)) as [L | L].
  - rewrite map_length in *. destruct (nth_ex _ s (length s - 1)) as (x & Hx); [destruct s; [contradiction | cbn [length]; lia]|]. exists (fst x). rewrite nth_error_map, Hx. reflexivity.
  - rewrite map_length in L. destruct (length l1) as [|n] eqn:En.
    + destruct (nth_ex _ s 0) as (x & Hx); [lia|]. exists (fst x). rewrite nth_error_map, Hx. reflexivity.
    + destruct (nth_ex _ s n) as (x & Hx); [lia|]. destruct (nth_ex _ s (S n)) as (y & Hy); [lia|]. rewrite !nth_error_map, Hx, Hy. eexists. reflexivity.
Qed.
Lemma inc_le : forall s i j x y, increasing s -> i < j -> nth_error s i = Some x -> nth_error s j = Some y -> (snd x <= snd y)%Q.
Proof.
  intros s i j x y H Hij Hi Hj. apply nth_error_split in Hi. destruct Hi as (l1 & l2 & -> & <-). rewrite nth_error_app2 in Hj by lia. destruct (j - length l1) as [|k] eqn:E; [lia|]. cbn [nth_error] in Hj. apply nth_error_split in Hj. destruct Hj as (l3 & l4 & -> & _).
  destruct x as (p & a), y as (q & b). apply (H l1 l3 l4 p q). reflexivity.
Qed.
Lemma inc_le' : forall s i j x y, increasing s -> i <= j -> nth_error s i = Some x -> nth_error s j = Some y -> (snd x <= snd y)%Q.
Proof. intros s i j x y H Hij Hi Hj. destruct (Nat.eq_dec i j) as [-> | N]; [rewrite Hi in Hj; injection Hj as <-; apply Qle_refl | apply (inc_le s i j); try assumption; lia]. Qed.
Lemma At_nth : forall s c p, At s c p -> exists i, (i = 0 /\ exists d, nth_error s 0 = Some (p, d) /\ (c < d)%Q) \/ (i = length s /\ exists d, nth_error s (length s - 1) = Some (p, d) /\ s <> [] /\ (d <= c)%Q) \/
  (exists j x y, i = S j /\ S j < length s /\ nth_error s j = Some x /\ nth_error s (S j) = Some y /\ (snd x <= c)%Q /\ (c < snd y)%Q /\
     p = ((fst (fst x) + (c - snd x) / (snd y - snd x) * (fst (fst y) - fst (fst x)))%Q, (snd (fst x) + (c - snd x) / (snd y - snd x) * (snd (fst y) - snd (fst x)))%Q)).
Proof.
  intros s c p H. destruct H as [p d r -> H | p d r -> H | p q a b l1 l2 -> H G].
  - exists 0. left. split; [reflexivity|]. exists d. split; [reflexivity | exact H].
  - exists (length (r ++ [(p, d)])). right. left. split; [reflexivity|]. exists d. split; [|split; [destruct r; discriminate | exact H]]. rewrite app_length. cbn [length]. rewrite nth_error_app2 by lia. replace (length r + 1 - 1 - length r) with 0 by lia. reflexivity.
  - exists (S (length l1)). right. right. exists (length l1), (p, a), (q, b). split; [reflexivity|]. split; [rewrite app_length; cbn [length]; lia|]. split; [rewrite nth_error_app2 by lia; rewrite Nat.sub_diag; reflexivity|].
    split; [rewrite nth_error_app2 by lia; replace (S (length l1) - length l1) with 1 by lia; reflexivity|]. split; [exact H|]. split; [exact G | reflexivity].
Qed.
Lemma At_fun : forall s c p q, increasing s -> At s c p -> At s c q -> p = q.
Proof.
  intros s c p q Hi Hp Hq. apply At_nth in Hp, Hq. destruct Hp as (i & [(-> & d & Hd & Hc) | [(-> & d & Hd & Hn & Hc) | (j & x & y & -> & Hl & Hx & Hy & H1 & H2 & ->)]]), Hq as (i' & [(-> & d' & Hd' & Hc') | [(-> & d' & Hd' & Hn' & Hc') | (j' & x' & y' & -> & Hl' & Hx' & Hy' & H1' & H2' & ->)]]).
  - congruence.
  - exfalso. assert (Hle : (d <= d')%Q) by (apply (inc_le' s 0 (length s - 1) (p, d) (q, d') Hi); [lia | exact Hd | exact Hd']). exact (Qlt_irrefl _ (Qlt_le_trans _ _ _ Hc (Qle_trans _ _ _ Hle Hc'))).
  - exfalso. assert (Hle : (d <= snd x')%Q) by (apply (inc_le' s 0 j' (p, d) x' Hi); [lia | exact Hd | exact Hx']). exact (Qlt_irrefl _ (Qlt_le_trans _ _ _ Hc (Qle_trans _ _ _ Hle H1'))).
  - exfalso. assert (Hle : (d' <= d)%Q) by (apply (inc_le' s 0 (length s - 1) (q, d') (p, d) Hi); [lia | exact Hd' | exact Hd]). exact (Qlt_irrefl _ (Qlt_le_trans _ _ _ Hc' (Qle_trans _ _ _ Hle Hc))).
  - congruence.
  - exfalso. assert (Hle : (snd y' <= d)%Q) by (apply (inc_le' s (S j') (length s - 1) y' (p, d) Hi); [lia | exact Hy' | exact Hd]). exact (Qlt_irrefl _ (Qlt_le_trans _ _ _ H2' (Qle_trans _ _ _ Hle Hc))).
  - exfalso. assert (Hle : (d' <= snd x)%Q) by (apply (inc_le' s 0 j (q, d') x Hi); [lia | exact Hd' | exact Hx]). exact (Qlt_irrefl _ (Qlt_le_trans _ _ _ Hc' (Qle_trans _ _ _ Hle H1))).
  - exfalso. assert (Hle : (snd y <= d')%Q) by (apply (inc_le' s (S j) (length s - 1) y (q, d') Hi); [lia | exact Hy | exact Hd']). exact (Qlt_irrefl _ (Qlt_le_trans _ _ _ H2 (Qle_trans _ _ _ Hle Hc'))).
  - destruct (Nat.lt_trichotomy j j') as [Hj | [-> | Hj]].
    + exfalso. assert (Hle : (snd y <= snd x')%Q) by (apply (inc_le' s (S j) j' y x' Hi); [lia | exact Hy | exact Hx']). exact (Qlt_irrefl _ (Qlt_le_trans _ _ _ H2 (Qle_trans _ _ _ Hle H1'))).
    + assert (x' = x) by congruence. assert (y' = y) by congruence. subst. reflexivity.
    + exfalso. assert (Hle : (snd y' <= snd x)%Q) by (apply (inc_le' s (S j') j y' x Hi); [lia | exact Hy' | exact Hx]). exact (Qlt_irrefl _ (Qlt_le_trans _ _ _ H2' (Qle_trans _ _ _ Hle H1))).
Qed.

(** ** Results *)
Lemma resLt_iff : forall a b, resLt a b = true <-> ((rDist a < rDist b)%Q \/ ((rDist a == rDist b)%Q /\ rTrip a < rTrip b)).
Proof. intros a b. unfold resLt. rewrite orb_true_iff, andb_true_iff, Qltb_lt, Qeq_bool_iff, Nat.ltb_lt. tauto. Qed.
Lemma resLt_trans : forall a b c, resLt a b = true -> resLt b c = true -> resLt a c = true.
Proof.
  intros a b c H G. apply resLt_iff in H, G. apply resLt_iff. destruct H as [H | (H & H')], G as [G | (G & G')].
  - left. exact (Qlt_trans _ _ _ H G).
  - left. rewrite <- G. exact H.
  - left. rewrite H. exact G.
  - right. split; [rewrite H; exact G | lia].
Qed.
Lemma resLt_irrefl : forall a b, rTrip a = rTrip b -> (rDist a == rDist b)%Q -> resLt a b = false.
Proof. intros a b Ht Hd. destruct (resLt a b) eqn:E; [|reflexivity]. apply resLt_iff in E. exfalso. destruct E as [E | (_ & E)]; [rewrite Hd in E; exact (Qlt_irrefl _ E) | lia]. Qed.
Lemma resLt_total : forall a b, resLt a b = false -> resLt b a = false -> rTrip a = rTrip b /\ (rDist a == rDist b)%Q.
Proof.
  intros a b H G. destruct (Q_dec (rDist a) (rDist b)) as [[E | E] | E].
  - exfalso. assert (resLt a b = true) by (apply resLt_iff; tauto). congruence.
  - exfalso. assert (resLt b a = true) by (apply resLt_iff; tauto). congruence.
  - split; [|exact E]. destruct (Nat.lt_trichotomy (rTrip a) (rTrip b)) as [L | [L | L]]; [exfalso | exact L | exfalso].
    + assert (resLt a b = true) by (apply resLt_iff; tauto). congruence.
    + assert (resLt b a = true) by (apply resLt_iff; right; split; [symmetry; exact E | exact L]). congruence.
Qed.
Notation sortedR := (StronglySorted (fun a b => resLt a b = true)).
Lemma insert_from : forall r l x, In x (insert r l) -> x = r \/ In x l.
Proof.
  intros r l x. induction l as [|y l IH]; cbn [insert]; intros H; [destruct H as [<- | []]; left; reflexivity|]. destruct (resLt r y); [destruct H as [<- | H]; [left; reflexivity | right; exact H]|]. destruct (resLt y r); [|right; exact H].
  destruct H as [<- | H]; [right; left; reflexivity|]. destruct (IH H) as [-> | G]; [left; reflexivity | right; right; exact G].
Qed.
Lemma insert_keeps : forall r l x, In x l -> In x (insert r l).
Proof.
  intros r l x. induction l as [|y l IH]; intros H; [destruct H|]. cbn [insert]. destruct (resLt r y); [right; exact H|]. destruct (resLt y r); [|exact H]. destruct H as [<- | H]; [left; reflexivity | right; apply IH; exact H].
Qed.
Lemma insert_has : forall r l, exists x, In x (insert r l) /\ rTrip x = rTrip r /\ (rDist x == rDist r)%Q.
Proof.
  intros r l. induction l as [|y l IH]; cbn [insert]; [exists r; split; [left; reflexivity | split; [reflexivity | apply Qeq_refl]]|]. destruct (resLt r y) eqn:E; [exists r; split; [left; reflexivity | split; [reflexivity | apply Qeq_refl]]|]. destruct (resLt y r) eqn:F.
  - destruct IH as (x & Hx & H). exists x. split; [right; exact Hx | exact H].
  - exists y. split; [left; reflexivity|]. exact (resLt_total y r F E).
Qed.
Lemma insert_sorted : forall r l, sortedR l -> sortedR (insert r l).
Proof.
  intros r l H. induction H as [|y l H IH Hall]; cbn [insert]; [constructor; constructor|]. rewrite Forall_forall in Hall. destruct (resLt r y) eqn:E.
  - constructor; [constructor; [exact H | apply Forall_forall; exact Hall]|]. apply Forall_forall. intros x [<- | Hx]; [exact E | exact (resLt_trans _ _ _ E (Hall x Hx))].
  - destruct (resLt y r) eqn:F; [|constructor; [exact H | apply Forall_forall; exact Hall]]. constructor; [exact IH|]. apply Forall_forall. intros x Hx. destruct (insert_from _ _ _ Hx) as [-> | G]; [exact F | exact (Hall x G)].
Qed.
Lemma insert_new : forall r l, (forall x, In x l -> rTrip x <> rTrip r) -> length (insert r l) = S (length l).
Proof.
  intros r l H. induction l as [|y l IH]; [reflexivity|]. cbn [insert]. destruct (resLt r y) eqn:E; [reflexivity|]. destruct (resLt y r) eqn:F.
  - cbn [length]. rewrite IH; [reflexivity|]. intros x Hx. apply H. right. exact Hx.
  - exfalso. apply (H y (or_introl eq_refl)). symmetry. exact (proj1 (resLt_total r y E F)).
Qed.
Lemma insert_length : forall r l, length (insert r l) <= S (length l).
Proof. intros r l. induction l as [|y l IH]; cbn [insert length]; [lia|]. destruct (resLt r y); [cbn [length]; lia|]. destruct (resLt y r); cbn [length]; lia. Qed.
Lemma sorted_mid : forall l1 l2 l3 a b, sortedR (l1 ++ a :: l2 ++ b :: l3) -> resLt a b = true.
Proof.
  induction l1 as [|x l1 IH]; intros l2 l3 a b H; cbn [app] in H; inversion H as [|? ? H1 H2]; subst; [|apply (IH l2 l3 a b H1)]. rewrite Forall_forall in H2. apply H2, in_or_app. right. left. reflexivity.
Qed.

(** ** Comparing *)
Section Compare.
Variable latLngLen : line -> Q.
Variable simplify : line -> Q -> line.
Variable tol : point -> Q.
Variable getSegment : line -> point -> point -> line.
Variable hav : nat -> nat -> Q.
Variable accFrechet frechet : line -> line -> Q -> Q.
Variable distL : line -> line -> Q.
Variable dist : point -> point -> Q.
Notation segmentize := (segmentize latLngLen getSegment hav).
Notation segFrom := (segFrom latLngLen getSegment hav).
Notation getDa := (getDa latLngLen simplify tol frechet dist).
Notation add := (add latLngLen simplify tol getSegment hav accFrechet frechet distL dist).
Notation addAll := (addAll latLngLen simplify tol getSegment hav accFrechet frechet distL dist).
Notation Segs := (Segs getSegment).
Notation Unmatched := (Unmatched simplify tol frechet).
Notation Outcome := (Outcome latLngLen simplify tol getSegment accFrechet frechet).

Lemma segFrom_ok : forall (s : shape) sts lastP lastC last segs lds, At s lastC lastP -> segFrom (map fst s) (map snd s) lastP last sts = Some (segs, lds) -> Segs s ((last, lastC) :: sts) segs.
Proof.
  intros s sts. induction sts as [|(st & c) sts IH]; intros lastP lastC last segs lds Hat H; cbn [Collect_model.segFrom] in H; [injection H as <- <-; constructor|].
  destruct (cutAt (map fst s) (map snd s) c) as [curP|] eqn:Ec; [|discriminate]. apply cutAt_ok in Ec. destruct (segFrom (map fst s) (map snd s) curP st sts) as [[segs' lds']|] eqn:E; [|discriminate]. injection H as <- <-.
  apply S_more with (st1 := (last, lastC)) (st2 := (st, c)); [exact Hat | exact Ec | exact (IH curP c st segs' lds' Ec E)].
Qed.
Lemma segmentize_ok : forall t (s : shape) segs lds, segmentize t (map fst s) (map snd s) = Some (segs, lds) -> Segs s (tStops t) segs.
Proof.
  intros t s segs lds H. unfold Collect_model.segmentize in H. destruct (tStops t) as [|(st & c) [|st2 r]] eqn:E; [injection H as <- <-; constructor | injection H as <- <-; constructor|].
  destruct (cutAt (map fst s) (map snd s) c) as [p|] eqn:Ec; [|discriminate]. apply cutAt_ok in Ec. cbn [tl] in H. exact (segFrom_ok s (st2 :: r) p c st segs lds Ec H).
Qed.
Lemma segFrom_hops : forall (s : shape) sts lastP lastC last segs lds, At s lastC lastP -> segFrom (map fst s) (map snd s) lastP last sts = Some (segs, lds) -> HopsOf latLngLen getSegment hav s ((last, lastC) :: sts) lds.
Proof.
  intros s sts. induction sts as [|(st & c) sts IH]; intros lastP lastC last segs lds Hat H; cbn [Collect_model.segFrom] in H; [injection H as <- <-; constructor|].
  destruct (cutAt (map fst s) (map snd s) c) as [curP|] eqn:Ec; [|discriminate]. apply cutAt_ok in Ec. destruct (segFrom (map fst s) (map snd s) curP st sts) as [[segs' lds']|] eqn:E; [|discriminate]. injection H as <- <-.
  apply H_more with (st1 := (last, lastC)) (st2 := (st, c)); [exact Hat | exact Ec | exact (IH curP c st segs' lds' Ec E)].
Qed.
Lemma segmentize_hops : forall t (s : shape) segs lds, segmentize t (map fst s) (map snd s) = Some (segs, lds) -> HopsOf latLngLen getSegment hav s (tStops t) lds.
Proof.
  intros t s segs lds H. unfold Collect_model.segmentize in H. destruct (tStops t) as [|(st & c) [|st2 r]] eqn:E; [injection H as <- <-; constructor | injection H as <- <-; constructor|].
  destruct (cutAt (map fst s) (map snd s) c) as [p|] eqn:Ec; [|discriminate]. apply cutAt_ok in Ec. cbn [tl] in H. exact (segFrom_hops s (st2 :: r) p c st segs lds Ec H).
Qed.
Lemma segFrom_some : forall (s : shape) sts lastP last, s <> [] -> exists segs lds, segFrom (map fst s) (map snd s) lastP last sts = Some (segs, lds) /\ length segs = length sts.
Proof.
  intros s sts. induction sts as [|(st & c) sts IH]; intros lastP last Hs; cbn [Collect_model.segFrom]; [exists [], []; split; reflexivity|]. destruct (cutAt_some s c Hs) as (p & ->). destruct (IH p st Hs) as (segs & lds & -> & H). eexists _, _. split; [reflexivity|]. cbn [length]. congruence.
Qed.
Lemma segmentize_some : forall t (s : shape), s <> [] -> exists segs lds, segmentize t (map fst s) (map snd s) = Some (segs, lds) /\ length segs = length (tStops t) - 1.
Proof.
  intros t s Hs. unfold Collect_model.segmentize. destruct (tStops t) as [|(st & c) [|st2 r]]; [exists [], []; split; reflexivity | exists [], []; split; reflexivity|]. destruct (cutAt_some s c Hs) as (p & ->). destruct (segFrom_some s (st2 :: r) p st Hs) as (segs & lds & H & Hl). exists segs, lds. cbn [tl]. split; [exact H|]. cbn [length] in *. lia.
Qed.
Lemma Segs_fun : forall s sts a b, increasing s -> Segs s sts a -> Segs s sts b -> a = b.
Proof.
  intros s sts a b Hi H. revert b. induction H as [| st | st1 st2 r p q segs H1 H2 H IH]; intros b Hb; inversion Hb; subst; try reflexivity. f_equal; [|apply IH; assumption]. f_equal; eapply At_fun; eassumption.
Qed.
Lemma Segs_length : forall s sts segs, Segs s sts segs -> length segs = length sts - 1.
Proof. intros s sts segs H. induction H; cbn [length] in *; lia. Qed.
Lemma Unmatched_fun : forall segLen a b n m, Unmatched segLen a b n -> Unmatched segLen a b m -> n = m.
Proof.
  intros segLen a b n m H. revert m. induction H as [| p x y a b n H1 H IH | p x y a b n H1 H IH]; intros m Hm; inversion Hm; subst; try reflexivity.
  - apply IH. assumption.
  - exfalso. eapply Qlt_not_le; eassumption.
  - exfalso. eapply Qlt_not_le; eassumption.
  - f_equal. apply IH. assumption.
Qed.
Lemma Unmatched_le : forall segLen a b n, Unmatched segLen a b n -> n <= length a /\ length a = length b.
Proof. intros segLen a b n H. induction H; cbn [length]; lia. Qed.
Lemma total_fun : forall l x y, total latLngLen l x -> total latLngLen l y -> (x == y)%Q.
Proof. intros l x y Hx Hy. unfold total in *. rewrite Hx, Hy. apply Qeq_refl. Qed.
Lemma total_fold : forall l, total latLngLen l (fold_left (fun s l => (s + latLngLen l)%Q) l 0%Q).
Proof.
  intros l. unfold total. assert (H : forall a, (fold_left (fun s l => (s + latLngLen l)%Q) l a == a + fold_right (fun l s => (latLngLen l + s)%Q) 0%Q l)%Q).
  { induction l as [|x l IH]; intros a; cbn [fold_left fold_right]; [ring|]. rewrite IH. ring. }
  rewrite H. ring.
Qed.
Definition sameOut (a b : option (Q * nat * nat)) : Prop := match a, b with None, None => True | Some (x, n, m), Some (x', n', m') => (x == x')%Q /\ n = n' /\ m = m' | _, _ => False end.
Lemma Outcome_fun : forall segLen k a b, increasing (kNewS k) -> (forall s, kOldS k = Some s -> increasing s) -> Outcome segLen k a -> Outcome segLen k b -> sameOut a b.
Proof.
  intros segLen k a b Hn Ho Ha Hb. destruct Ha as [Ha | s segs len H1 H2 H3 H4 H5 | s p olds news len n avg H1 H2 H3 H4 H5 H6 H7 H8 H9], Hb as [Hb | s' segs' len' G1 G2 G3 G4 G5 | s' p' olds' news' len' n' avg' G1 G2 G3 G4 G5 G6 G7 G8 G9]; try exact Logic.I; try contradiction.
  - assert (s' = s) by congruence. subst s'. rewrite (Segs_fun _ _ _ _ (Ho s H2) H3 G3) in H4. pose proof (total_fun _ _ _ H4 G5) as E. rewrite E in H5. exact (Qlt_not_le _ _ H5 G6).
  - assert (s' = s) by congruence. subst s'. rewrite (Segs_fun _ _ _ _ (Ho s H2) H3 G3) in H5. pose proof (total_fun _ _ _ H5 G4) as E. rewrite E in H6. exact (Qlt_not_le _ _ G5 H6).
  - assert (s' = s) by congruence. subst s'. pose proof (Segs_fun _ _ _ _ (Ho s H2) H3 G3) as E1. pose proof (Segs_fun _ _ _ _ Hn H4 G4) as E2. subst olds' news'. assert (p' = p) by congruence. subst p'. cbn. split; [|split; [exact (Unmatched_fun _ _ _ _ _ H7 G7) | reflexivity]].
    rewrite H9, G9, (total_fun _ _ _ H5 G5). apply Qeq_refl.
Qed.
Lemma noShape_ok : forall t, noShape t = true <-> undefined t.
Proof. intros t. unfold noShape, undefined. rewrite existsb_exists. split; intros (st & H1 & H2); exists st; (split; [exact H1 | apply Qltb_lt; exact H2]). Qed.
Lemma degenerated_ok : forall (s : shape), degenerated latLngLen (map fst s) = true <-> sparse latLngLen s.
Proof.
  intros s. unfold degenerated, sparse. rewrite map_length. destruct s as [|x s]; cbn [map]; [split; [discriminate | intros (H & _); contradiction]|]. rewrite Qltb_lt. split; [intros H; split; [discriminate | exact H] | intros (_ & H); exact H].
Qed.

(** what one call changes *)
Record Step (k : call) (o : option (Q * nat * nat)) (c c' : coll) : Prop := {
  st_trips : cTrips c' = S (cTrips c);
  st_skip : cNoOrig c' = cNoOrig c + skipped o;
  st_an : cAn c' = match o with None => cAn c | Some (_, n, m) => bump (nat2Q n / nat2Q m)%Q thresholds (cAn c) end;
  st_missed : cUnSum c' = cUnSum c + missed o;
  st_sum : (cAccSum c' == cAccSum c + avgOf o)%Q;
  st_res : cResults c' = match o with None => cResults c | Some (a, _, _) => insert (mkRes (tId (kOldT k)) a) (cResults c) end
}.
Inductive Steps : list call -> list (option (Q * nat * nat)) -> coll -> coll -> Prop :=
| Steps_nil : forall c, Steps [] [] c c
| Steps_cons : forall k ks o os c c1 c2, Step k o c c1 -> Steps ks os c1 c2 -> Steps (k :: ks) (o :: os) c c2.
(** without any assumption on the lines *)
Lemma getDa_le : forall a b segLen c n len c', getDa a b segLen c = Some (n, len, c') -> n <= length a.
Proof.
  induction a as [|x a IH]; intros [|y b] segLen c n len c' H; cbn [Collect_model.getDa] in H; try discriminate; [injection H as <- <- <-; cbn; lia|]. destruct x as [|p x]; [discriminate|]. destruct (memo dist c _ _ _) as [fd c1] in H. destruct (getDa a b segLen c1) as [[[n1 len1] c2]|] eqn:Er; [|discriminate].
  apply IH in Er. destruct (Qle_bool 100 fd); injection H as <- <- <-; cbn [length]; lia.
Qed.
Definition sane (o : option (Q * nat * nat)) : Prop := match o with Some (_, n, m) => n <= m /\ 0 < m | None => True end.
Lemma add_step : forall k c c' v segLen, add c (kOldT k) (kOldS k) (kNewT k) (kNewS k) segLen = Some (c', v) -> exists o, v = avgOf o /\ Step k o c c' /\ sane o.
Proof.
  intros k c c' v segLen H. unfold Collect_model.add in H.
  assert (Hskip : forall diffs hops a b d e f, Some (skip (mkColl (S (cTrips c)) (cNoOrig c) (cResults c) (cAccSum c) (cUnSum c) (cUnLen c) (cAn c) diffs hops a b d e f), 0%Q) = Some (c', v) -> exists o, v = avgOf o /\ Step k o c c' /\ sane o).
  { intros diffs hops a b d e f E. injection E as <- <-. exists None. split; [reflexivity|]. split; [constructor; cbn; try reflexivity; [lia | lia | ring] | exact Logic.I]. }
  destruct (kOldS k) as [oldS|]; [|exact (Hskip _ _ _ _ _ _ _ H)]. destruct (noShape (kOldT k) || noShape (kNewT k)); [exact (Hskip _ _ _ _ _ _ _ H)|].
  unfold Collect_model.getLine in H. destruct (degenerated latLngLen (map fst oldS) || degenerated latLngLen (map fst (kNewS k))); [exact (Hskip _ _ _ _ _ _ _ H)|].
  destruct (segmentize (kOldT k) (map fst oldS) (map snd oldS)) as [[oldSegs l1]|]; [|discriminate]. destruct (segmentize (kNewT k) (map fst (kNewS k)) (map snd (kNewS k))) as [[newSegs lds]|]; [|discriminate].
  cbv zeta in H. destruct (concat oldSegs) as [|p cut] eqn:Ecut; [discriminate|]. destruct (memo dist (cAccFd _) _ _ _) as [accFd c1] in H. destruct (memo dist (cFd _) _ _ _) as [fd c2] in H. destruct (memo dist (cD _) _ _ _) as [d c3] in H. destruct (memo dist (cLenDiff _) _ _ _) as [ld c4] in H.
  destruct (getDa oldSegs newSegs segLen _) as [[[un unLen] c5]|] eqn:Eda in H; [|discriminate]. apply getDa_le in Eda. destruct (Qltb _ 5); [exact (Hskip _ _ _ _ _ _ _ H)|]. injection H as <- <-.
  eexists (Some (_, un, length oldSegs)). split; [reflexivity|]. split; [constructor; cbn; try reflexivity; lia|]. split; [exact Eda|]. destruct oldSegs; [discriminate | cbn [length]; lia].
Qed.
Lemma addAll_steps : forall ks c c' vs segLen, addAll c ks segLen = Some (c', vs) -> exists os, vs = map avgOf os /\ Steps ks os c c' /\ Forall sane os.
Proof.
  induction ks as [|k ks IH]; intros c c' vs segLen H; cbn [Collect_model.addAll] in H; [injection H as <- <-; exists []; split; [reflexivity | split; constructor]|].
  destruct (add c (kOldT k) (kOldS k) (kNewT k) (kNewS k) segLen) as [[c1 v]|] eqn:E; [|discriminate]. destruct (addAll c1 ks segLen) as [[c2 vs']|] eqn:Er; [|discriminate]. injection H as <- <-.
  apply add_step in E. destruct E as (o & H2 & H3 & H4). destruct (IH c1 c2 vs' segLen Er) as (os & G2 & G3 & G4). exists (o :: os). split; [cbn [map]; congruence|]. split; [econstructor; eassumption | constructor; assumption].
Qed.
(** no crash *)
Lemma getDa_some : forall a b segLen c, length a = length b -> (forall x, In x a -> x <> []) -> exists r, getDa a b segLen c = Some r.
Proof.
  induction a as [|x a IH]; intros [|y b] segLen c Hl Hne; cbn [length] in Hl; try lia; cbn [Collect_model.getDa]; [eexists; reflexivity|]. destruct x as [|p x]; [exfalso; apply (Hne [] (or_introl eq_refl)); reflexivity|].
  destruct (memo dist c _ _ _) as [fd c1]. destruct (IH b segLen c1) as ([[n len] c2] & ->); [lia | intros z Hz; apply Hne; right; exact Hz|]. eexists; reflexivity.
Qed.
Lemma Segs_nonempty : forall s sts segs, (forall l p q, getSegment l p q <> []) -> Segs s sts segs -> forall x, In x segs -> x <> [].
Proof. intros s sts segs Hne H. induction H as [| st | st1 st2 r p q segs H1 H2 H IH]; intros x Hx; [destruct Hx | destruct Hx|]. destruct Hx as [<- | Hx]; [apply Hne | apply IH; exact Hx]. Qed.
Lemma add_some : forall k c segLen, (forall l p q, getSegment l p q <> []) -> kNewS k <> [] -> (forall s, kOldS k = Some s -> s <> []) -> length (tStops (kOldT k)) = length (tStops (kNewT k)) -> 2 <= length (tStops (kOldT k)) ->
  exists c' v, add c (kOldT k) (kOldS k) (kNewT k) (kNewS k) segLen = Some (c', v).
Proof.
  intros k c segLen Hg Hn Ho Hl H2. unfold Collect_model.add. destruct (kOldS k) as [oldS|]; [|eexists _, _; reflexivity]. destruct (noShape (kOldT k) || noShape (kNewT k)); [eexists _, _; reflexivity|].
  unfold Collect_model.getLine. destruct (degenerated latLngLen (map fst oldS) || degenerated latLngLen (map fst (kNewS k))); [eexists _, _; reflexivity|].
  destruct (segmentize_some (kOldT k) oldS (Ho oldS eq_refl)) as (os & ol & E1 & L1). destruct (segmentize_some (kNewT k) (kNewS k) Hn) as (ns & nl & E2 & L2). rewrite E1, E2. pose proof (Segs_nonempty _ _ _ Hg (segmentize_ok _ _ _ _ E1)) as Hos. cbv zeta.
  destruct (concat os) as [|p cut] eqn:Ec.
  { exfalso. destruct os as [|x os]; [cbn [length] in L1; lia|]. apply (Hos x (or_introl eq_refl)). cbn [concat] in Ec. apply app_eq_nil in Ec. tauto. }
  destruct (memo dist (cAccFd _) _ _ _) as [accFd c1]. destruct (memo dist (cFd _) _ _ _) as [fd c2]. destruct (memo dist (cD _) _ _ _) as [d c3]. destruct (memo dist (cLenDiff _) _ _ _) as [ld c4].
  match goal with |- context [Collect_model.getDa _ _ _ _ _ ?a ?b ?s ?c] => destruct (getDa_some a b s c) as ([[n len] c5] & ->); [lia | exact Hos|] end.
  destruct (Qltb _ 5); eexists _, _; reflexivity.
Qed.
Lemma addAll_some : forall ks c segLen, (forall l p q, getSegment l p q <> []) ->
  (forall k, In k ks -> kNewS k <> [] /\ (forall s, kOldS k = Some s -> s <> []) /\ length (tStops (kOldT k)) = length (tStops (kNewT k)) /\ 2 <= length (tStops (kOldT k))) ->
  exists c' vs, addAll c ks segLen = Some (c', vs).
Proof.
  induction ks as [|k ks IH]; intros c segLen Hg H; cbn [Collect_model.addAll]; [eexists _, _; reflexivity|]. destruct (H k (or_introl eq_refl)) as (H1 & H2 & H3 & H4). destruct (add_some k c segLen Hg H1 H2 H3 H4) as (c1 & v & ->).
  destruct (IH c1 segLen Hg (fun k' Hk' => H k' (or_intror Hk'))) as (c2 & vs & ->). eexists _, _; reflexivity.
Qed.
Lemma add_hops : forall k c c' v segLen, add c (kOldT k) (kOldS k) (kNewT k) (kNewS k) segLen = Some (c', v) ->
  (~ comparable latLngLen k /\ cDiffs c' = cDiffs c /\ cHops c' = cHops c) \/
  (comparable latLngLen k /\ exists h, HopsOf latLngLen getSegment hav (kNewS k) (tStops (kNewT k)) h /\ cDiffs c' = cDiffs c ++ map (fun p => Qabs' (fst p - snd p)) h /\ cHops c' = cHops c ++ map fst h).
Proof.
  intros k c c' v segLen H. unfold Collect_model.add in H.
  destruct (kOldS k) as [oldS|] eqn:Eo; [|injection H as <- <-; left; split; [intros (_ & _ & _ & s & Hs & _); congruence | split; reflexivity]].
  destruct (noShape (kOldT k) || noShape (kNewT k)) eqn:En; [injection H as <- <-; left; split; [intros (H1 & H2 & _); apply orb_true_iff in En; rewrite !noShape_ok in En; tauto | split; reflexivity]|].
  unfold Collect_model.getLine in H. destruct (degenerated latLngLen (map fst oldS) || degenerated latLngLen (map fst (kNewS k))) eqn:Ed.
  { injection H as <- <-. left. split; [|split; reflexivity]. intros (_ & _ & H3 & s & Hs & H4). apply orb_true_iff in Ed. rewrite !degenerated_ok in Ed. assert (s = oldS) by congruence. subst s. tauto. }
  right. split.
  { apply orb_false_iff in En, Ed. destruct En as (En1 & En2), Ed as (Ed1 & Ed2). split; [rewrite <- noShape_ok; congruence|]. split; [rewrite <- noShape_ok; congruence|]. split; [rewrite <- degenerated_ok; congruence|]. exists oldS. split; [exact Eo | rewrite <- degenerated_ok; congruence]. }
  destruct (segmentize (kOldT k) (map fst oldS) (map snd oldS)) as [[oldSegs l1]|] eqn:Es1; [|discriminate]. destruct (segmentize (kNewT k) (map fst (kNewS k)) (map snd (kNewS k))) as [[newSegs lds]|] eqn:Es2; [|discriminate].
  apply segmentize_hops in Es2. exists lds. split; [exact Es2|]. cbv zeta in H. destruct (concat oldSegs) as [|p cut] eqn:Ecut; [discriminate|]. 
  destruct (memo dist (cAccFd _) _ _ _) as [accFd c1] in H.
  destruct (memo dist (cFd _) _ _ _) as [fd c2] in H. destruct (memo dist (cD _) _ _ _) as [d c3] in H. destruct (memo dist (cLenDiff _) _ _ _) as [ld c4] in H.
  destruct (getDa oldSegs newSegs segLen _) as [[[un unLen] c5]|] in H; [|discriminate].
  destruct (Qltb _ 5) in H; injection H as <- <-; split; reflexivity.
Qed.
Lemma addAll_hops : forall ks c c' vs segLen, addAll c ks segLen = Some (c', vs) ->
  exists hs, AllHops latLngLen getSegment hav ks hs /\ cDiffs c' = cDiffs c ++ map (fun p => Qabs' (fst p - snd p)) hs /\ cHops c' = cHops c ++ map fst hs.
Proof.
  induction ks as [|k ks IH]; intros c c' vs segLen H; cbn [Collect_model.addAll] in H.
  - injection H as <- <-. exists []. split; [constructor|]. cbn [map]. rewrite !app_nil_r. split; reflexivity.
  - destruct (add c (kOldT k) (kOldS k) (kNewT k) (kNewS k) segLen) as [[c1 v]|] eqn:Ea; [|discriminate]. destruct (addAll c1 ks segLen) as [[c2 vs']|] eqn:Er; [|discriminate]. injection H as <- <-.
    destruct (IH _ _ _ _ Er) as (hs & I1 & I2 & I3). apply add_hops in Ea. destruct Ea as [(A1 & A2 & A3) | (A1 & h & A2 & A3 & A4)].
    + exists hs. split; [apply AH_skip; assumption|]. rewrite I2, I3, A2, A3. split; reflexivity.
    + exists (h ++ hs). split; [apply AH_cmp; assumption|]. rewrite I2, I3, A3, A4, !map_app, !app_assoc. split; reflexivity.
Qed.
Hypothesis same_near : forall p q : point, (fst p == fst q)%Q -> (snd p == snd q)%Q -> near dist p q.
Hypothesis dist_sym : forall p q, (dist p q == dist q p)%Q.
Section Apart.
Variable D : line -> Prop.
Hypothesis Hap : apart dist D.
Variable segLen : Q.
Notation ok := (cacheOk D).
Lemma getDa_ok : forall a b c n len c', (forall x p, In x a \/ In x b -> D (simplify x (tol p))) -> ok (fun x y => frechet x y segLen) c -> getDa a b segLen c = Some (n, len, c') ->
  Unmatched segLen a b n /\ ok (fun x y => frechet x y segLen) c'.
Proof.
  induction a as [|x a IH]; intros [|y b] c n len c' HD Hc H; cbn [Collect_model.getDa] in H; try discriminate; [injection H as <- <- <-; split; [apply U_nil | exact Hc]|].
  destruct x as [|p x]; [discriminate|]. destruct (memo dist c (simplify (p :: x) (tol p)) (simplify y (tol p)) _) as [fd c1] eqn:E.
  apply (memo_ok dist same_near dist_sym D Hap (fun x y => frechet x y segLen)) in E; [|apply HD; left; left; reflexivity | apply HD; right; left; reflexivity | exact Hc]. destruct E as (Ef & Hc1).
  destruct (getDa a b segLen c1) as [[[n1 len1] c2]|] eqn:Er; [|discriminate]. destruct (IH b c1 n1 len1 c2) as (HU & Hc2); [intros z q [Hz | Hz]; apply HD; [left; right; exact Hz | right; right; exact Hz] | exact Hc1 | exact Er|].
  destruct (Qle_bool 100 fd) eqn:Eq; injection H as <- <- <-; (split; [|exact Hc2]).
  - apply U_miss; [rewrite <- Ef; apply Qle_bool_iff; exact Eq | exact HU].
  - apply U_match; [rewrite <- Ef; apply Qltb_lt; unfold Qltb; rewrite Eq; reflexivity | exact HU].
Qed.
Record Caches (c : coll) : Prop := {
  ca_acc : ok (fun x y => accFrechet x y segLen) (cAccFd c);
  ca_da : ok (fun x y => frechet x y segLen) (cDa c)
}.
Lemma add_ok : forall k c c' v, (forall s segs p, kOldS k = Some s -> Segs s (tStops (kOldT k)) segs -> D (simplify (concat segs) (tol p)) /\ forall x, In x segs -> D (simplify x (tol p))) ->
  (forall segs p, Segs (kNewS k) (tStops (kNewT k)) segs -> D (simplify (concat segs) (tol p)) /\ forall x, In x segs -> D (simplify x (tol p))) ->
  Caches c -> add c (kOldT k) (kOldS k) (kNewT k) (kNewS k) segLen = Some (c', v) -> exists o, Outcome segLen k o /\ v = avgOf o /\ Step k o c c' /\ Caches c'.
Proof.
  intros k c c' v HDo HDn [Ca Cd] H. unfold Collect_model.add in H.
  assert (Hskip : ~ comparable latLngLen k -> Some (skip (mkColl (S (cTrips c)) (cNoOrig c) (cResults c) (cAccSum c) (cUnSum c) (cUnLen c) (cAn c) (cDiffs c) (cHops c) (cAccFd c) (cFd c) (cD c) (cLenDiff c) (cDa c)), 0%Q) = Some (c', v) -> exists o, Outcome segLen k o /\ v = avgOf o /\ Step k o c c' /\ Caches c').
  { intros Hc E. injection E as <- <-. exists None. split; [apply O_skip; exact Hc|]. split; [reflexivity|]. split; [constructor; cbn; try reflexivity; [lia | lia | ring] | constructor; [exact Ca | exact Cd]]. }
  destruct (kOldS k) as [oldS|] eqn:Eo; [|apply Hskip; [|exact H]; intros (_ & _ & _ & s & Hs & _); congruence].
  destruct (noShape (kOldT k) || noShape (kNewT k)) eqn:En; [apply Hskip; [|exact H]; intros (H1 & H2 & _); apply orb_true_iff in En; rewrite !noShape_ok in En; tauto|].
  unfold Collect_model.getLine in H. destruct (degenerated latLngLen (map fst oldS) || degenerated latLngLen (map fst (kNewS k))) eqn:Ed.
  { apply Hskip; [|exact H]. intros (_ & _ & H3 & s & Hs & H4). apply orb_true_iff in Ed. rewrite !degenerated_ok in Ed. assert (s = oldS) by congruence. subst s. tauto. }
  clear Hskip. assert (Hcmp : comparable latLngLen k).
  { apply orb_false_iff in En, Ed. destruct En as (En1 & En2), Ed as (Ed1 & Ed2). split; [rewrite <- noShape_ok; congruence|]. split; [rewrite <- noShape_ok; congruence|]. split; [rewrite <- degenerated_ok; congruence|]. exists oldS. split; [exact Eo | rewrite <- degenerated_ok; congruence]. }
  destruct (segmentize (kOldT k) (map fst oldS) (map snd oldS)) as [[oldSegs l1]|] eqn:Es1; [|discriminate]. destruct (segmentize (kNewT k) (map fst (kNewS k)) (map snd (kNewS k))) as [[newSegs lds]|] eqn:Es2; [|discriminate].
  apply segmentize_ok in Es1, Es2. cbv zeta in H. destruct (concat oldSegs) as [|p cut] eqn:Ecut; [discriminate|]. rewrite <- Ecut in H.
  destruct (memo dist (cAccFd _) _ _ _) as [accFd c1] eqn:E1 in H. cbn [cAccFd] in E1.
  apply (memo_ok dist same_near dist_sym D Hap (fun x y => accFrechet x y segLen)) in E1; [|exact (proj1 (HDo oldS oldSegs p eq_refl Es1)) | exact (proj1 (HDn newSegs p Es2)) | exact Ca]. destruct E1 as (Eacc & Hc1).
  destruct (memo dist (cFd _) _ _ _) as [fd c2] in H. destruct (memo dist (cD _) _ _ _) as [d c3] in H. destruct (memo dist (cLenDiff _) _ _ _) as [ld c4] in H.
  destruct (getDa oldSegs newSegs segLen _) as [[[un unLen] c5]|] eqn:Eda in H; [|discriminate]. cbn [cDa] in Eda.
  apply getDa_ok in Eda; [|intros x q [Hx | Hx]; [exact (proj2 (HDo oldS oldSegs q eq_refl Es1) x Hx) | exact (proj2 (HDn newSegs q Es2) x Hx)] | exact Cd]. destruct Eda as (HU & Hc5).
  pose proof (total_fold oldSegs) as Htot. set (totL := fold_left _ oldSegs 0%Q) in *. destruct (Qltb totL 5) eqn:Et; injection H as <- <-.
  - exists None. split; [apply O_short with oldS oldSegs totL; try assumption; apply Qltb_lt; exact Et|]. split; [reflexivity|]. split; [constructor; cbn; try reflexivity; [lia | lia | ring] | constructor; [exact Hc1 | exact Hc5]].
  - exists (Some ((accFd / totL)%Q, un, length oldSegs)). split; [|split; [reflexivity | split; [constructor; cbn; try reflexivity; lia | constructor; [exact Hc1 | exact Hc5]]]].
    apply O_cmp with oldS p newSegs totL; try assumption; [apply Qltb_ge; exact Et | rewrite Ecut; reflexivity | rewrite Eacc; apply Qeq_refl].
Qed.
Lemma addAll_ok : forall ks c c' vs, (forall k s segs p, In k ks -> kOldS k = Some s -> Segs s (tStops (kOldT k)) segs -> D (simplify (concat segs) (tol p)) /\ forall x, In x segs -> D (simplify x (tol p))) ->
  (forall k segs p, In k ks -> Segs (kNewS k) (tStops (kNewT k)) segs -> D (simplify (concat segs) (tol p)) /\ forall x, In x segs -> D (simplify x (tol p))) ->
  Caches c -> addAll c ks segLen = Some (c', vs) -> exists os, Forall2 (Outcome segLen) ks os /\ vs = map avgOf os /\ Steps ks os c c'.
Proof.
  induction ks as [|k ks IH]; intros c c' vs HDo HDn Hc H; cbn [Collect_model.addAll] in H; [injection H as <- <-; exists []; split; [constructor | split; [reflexivity | constructor]]|].
  destruct (add c (kOldT k) (kOldS k) (kNewT k) (kNewS k) segLen) as [[c1 v]|] eqn:E; [|discriminate]. destruct (addAll c1 ks segLen) as [[c2 vs']|] eqn:Er; [|discriminate]. injection H as <- <-.
  apply add_ok in E; [|intros s segs p Hs; apply HDo; [left; reflexivity | exact Hs] | intros segs p; apply HDn; left; reflexivity | exact Hc]. destruct E as (o & H1 & H2 & H3 & H4).
  destruct (IH c1 c2 vs') as (os & G1 & G2 & G3); [intros k' s segs p Hk'; apply HDo; right; exact Hk' | intros k' segs p Hk'; apply HDn; right; exact Hk' | exact H4 | exact Er|].
  exists (o :: os). split; [constructor; assumption|]. split; [cbn [map]; congruence|]. econstructor; eassumption.
Qed.
End Apart.
(** the lines used *)
Lemma used_D : forall ks, let D := Used simplify tol getSegment ks in
  (forall k s segs p, In k ks -> kOldS k = Some s -> Segs s (tStops (kOldT k)) segs -> D (simplify (concat segs) (tol p)) /\ forall x, In x segs -> D (simplify x (tol p))) /\
  (forall k segs p, In k ks -> Segs (kNewS k) (tStops (kNewT k)) segs -> D (simplify (concat segs) (tol p)) /\ forall x, In x segs -> D (simplify x (tol p))).
Proof.
  intros ks D. split; [intros k s segs p Hk Hs Hg; split; [eapply Us_old; eassumption | intros x Hx; eapply Us_seg_old; eassumption] | intros k segs p Hk Hg; split; [eapply Us_new; eassumption | intros x Hx; eapply Us_seg_new; eassumption]].
Qed.
End Compare.

(** ** Sums over all calls *)
Lemma bump_map : forall an ts f, bump an ts (map f ts) = map (fun t => if Qle_bool an t then S (f t) else f t) ts.
Proof. intros an ts f. induction ts as [|t ts IH]; [reflexivity|]. cbn [map bump]. rewrite IH. reflexivity. Qed.
Lemma within_bool : forall t a n m, within t (Some (a, n, m)) = if Qle_bool (nat2Q n / nat2Q m) t then 1 else 0.
Proof.
  intros t a n m. cbn [within]. destruct (Qlt_le_dec t (nat2Q n / nat2Q m)) as [H | H], (Qle_bool (nat2Q n / nat2Q m) t) eqn:E; try reflexivity; [apply Qle_bool_iff in E; exfalso; exact (Qlt_not_le _ _ H E) | apply Qle_bool_iff in H; congruence].
Qed.
Lemma within_eq : forall t t' o, (t == t')%Q -> within t o = within t' o.
Proof. intros t t' [[[a n] m]|] H; [|reflexivity]. rewrite !within_bool. rewrite (Qleb_comp _ _ (Qeq_refl _) _ _ H). reflexivity. Qed.
Lemma sumOf_ext : forall (A : Type) (f g : A -> nat) l, (forall x, f x = g x) -> sumOf f l = sumOf g l.
Proof. intros A f g l H. induction l as [|x l IH]; [reflexivity|]. cbn [sumOf fold_right]. unfold sumOf in IH. rewrite H, IH. reflexivity. Qed.
Lemma Steps_an : forall ks os c c', Steps ks os c c' -> forall f, cAn c = map f thresholds -> cAn c' = map (fun t => f t + sumOf (within t) os) thresholds.
Proof.
  intros ks os c c' H. induction H as [c | k ks o os c c1 c2 H1 H IH]; intros f Hf.
  - rewrite Hf. apply map_ext. intros t. cbn [sumOf fold_right]. lia.
  - assert (E : cAn c1 = map (fun t => f t + within t o) thresholds).
    { rewrite (st_an _ _ _ _ H1). destruct o as [[[a n] m]|]; [|rewrite Hf; apply map_ext; intros t; cbn [within]; lia]. rewrite Hf, bump_map. apply map_ext. intros t. rewrite within_bool. destruct (Qle_bool _ t); lia. }
    rewrite (IH _ E). apply map_ext. intros t. cbn [sumOf fold_right]. unfold sumOf. lia.
Qed.
Lemma Steps_sums : forall ks os c c', Steps ks os c c' -> cTrips c' = cTrips c + length ks /\ cNoOrig c' = cNoOrig c + sumOf skipped os /\ cUnSum c' = cUnSum c + sumOf missed os /\
  (cAccSum c' == cAccSum c + fold_right (fun o s => avgOf o + s) 0 os)%Q /\ length os = length ks.
Proof.
  intros ks os c c' H. induction H as [c | k ks o os c c1 c2 H1 H IH].
  - cbn. repeat split; try lia. ring.
  - destruct IH as (I1 & I2 & I3 & I4 & I5). cbn [length sumOf fold_right]. unfold sumOf in *. rewrite I1, I2, I3, (st_trips _ _ _ _ H1), (st_skip _ _ _ _ H1), (st_missed _ _ _ _ H1). repeat split; try lia. rewrite I4, (st_sum _ _ _ _ H1). ring.
Qed.
Lemma Steps_report : forall ks os c, Steps ks os emptyColl c -> Report ks os c.
Proof.
  intros ks os c H. destruct (Steps_sums _ _ _ _ H) as (H1 & H2 & H3 & H4 & H5). cbn [emptyColl cTrips cNoOrig cUnSum cAccSum] in *. constructor; [exact H1 | exact H2 | | exact H3|].
  - rewrite (Steps_an _ _ _ _ H (fun _ => 0) eq_refl). cbn [map thresholds]. repeat (f_equal; try (cbn [Nat.add]; apply sumOf_ext; intros o; apply within_eq; reflexivity)).
  - rewrite H4. ring.
Qed.
Lemma Steps_results : forall ks os c c', Steps ks os c c' -> sortedR (cResults c) ->
  sortedR (cResults c') /\ (forall r, In r (cResults c') -> In r (cResults c) \/ hasResult ks os (rTrip r) (rDist r)) /\ (forall r, In r (cResults c) -> In r (cResults c')) /\
  (forall t d, hasResult ks os t d -> exists r, In r (cResults c') /\ rTrip r = t /\ (rDist r == d)%Q).
Proof.
  intros ks os c c' H. induction H as [c | k ks o os c c1 c2 H1 H IH]; intros Hs.
  - split; [exact Hs|]. split; [intros r Hr; left; exact Hr|]. split; [intros r Hr; exact Hr|]. intros t d (i & k & a & n & m & Hi & _). destruct i; discriminate.
  - pose proof (st_res _ _ _ _ H1) as E. assert (Hs1 : sortedR (cResults c1)) by (rewrite E; destruct o as [[[a n] m]|]; [apply insert_sorted; exact Hs | exact Hs]). destruct (IH Hs1) as (I1 & I2 & I3 & I4). split; [exact I1|]. split; [|split].
    + intros r Hr. destruct (I2 r Hr) as [G | (i & k' & a & n & m & G1 & G2 & G3 & G4)].
      * rewrite E in G. destruct o as [[[a n] m]|]; [|left; exact G]. destruct (insert_from _ _ _ G) as [-> | G']; [|left; exact G']. right. exists 0, k, a, n, m. cbn. repeat split; apply Qeq_refl.
      * right. exists (S i), k', a, n, m. tauto.
    + intros r Hr. apply I3. rewrite E. destruct o as [[[a n] m]|]; [apply insert_keeps; exact Hr | exact Hr].
    + intros t d (i & k' & a & n & m & G1 & G2 & G3 & G4). destruct i as [|i]; cbn [nth_error] in G1, G2.
      * injection G1 as <-. injection G2 as ->. destruct (insert_has (mkRes (tId (kOldT k)) a) (cResults c)) as (r & R1 & R2 & R3). exists r. split; [apply I3; rewrite E; exact R1|]. cbn [rTrip rDist] in R2, R3. split; [congruence | rewrite R3; exact G4].
      * apply I4. exists i, k', a, n, m. tauto.
Qed.
Lemma Steps_Results : forall ks os c, Steps ks os emptyColl c -> Results ks os (cResults c).
Proof.
  intros ks os c H. destruct (Steps_results _ _ _ _ H) as (H1 & H2 & _ & H4); [constructor|]. constructor.
  - intros r Hr. destruct (H2 r Hr) as [[] | G]. exact G.
  - exact H4.
  - intros l1 l2 l3 a b E. rewrite E in H1. apply sorted_mid in H1. apply resLt_iff in H1. destruct H1 as [G | (G & _)]; [apply Qlt_le_weak; exact G | rewrite G; apply Qle_refl].
  - intros l1 l2 l3 a b E (Ht & Hd). rewrite E in H1. apply sorted_mid in H1. rewrite (resLt_irrefl a b Ht Hd) in H1. discriminate.
Qed.
Lemma Steps_count : forall ks os c c', Steps ks os c c' -> length (cResults c') + cNoOrig c' <= length (cResults c) + cNoOrig c + length ks /\
  (NoDup (map (fun k => tId (kOldT k)) ks) -> (forall r k, In r (cResults c) -> In k ks -> rTrip r <> tId (kOldT k)) -> length (cResults c') + cNoOrig c' = length (cResults c) + cNoOrig c + length ks).
Proof.
  intros ks os c c' H. induction H as [c | k ks o os c c1 c2 H1 H (I1 & I2)]; [cbn [length]; split; [lia | intros; lia]|]. pose proof (st_res _ _ _ _ H1) as Er. pose proof (st_skip _ _ _ _ H1) as Es. cbn [length map]. split.
  - destruct o as [[[a n] m]|]; cbn [skipped] in Es; [|rewrite Er in I1; lia]. pose proof (insert_length (mkRes (tId (kOldT k)) a) (cResults c)) as L. rewrite <- Er in L. lia.
  - intros Hd Hr. inversion Hd as [|? ? Hn Hd']; subst. rewrite I2; [|exact Hd'|].
    + destruct o as [[[a n] m]|]; cbn [skipped] in Es; [|rewrite Er; lia]. pose proof (insert_new (mkRes (tId (kOldT k)) a) (cResults c) (fun x Hx => Hr x k Hx (or_introl eq_refl))) as L. rewrite <- Er in L. lia.
    + intros r k' Hin Hk' Heq. rewrite Er in Hin. assert (Hold : In r (cResults c) -> False) by (intros G; exact (Hr r k' G (or_intror Hk') Heq)). destruct o as [[[a n] m]|]; [|exact (Hold Hin)]. destruct (insert_from _ _ _ Hin) as [-> | G]; [|exact (Hold G)]. apply Hn. cbn [rTrip] in Heq. rewrite Heq. apply (in_map (fun k => tId (kOldT k))). exact Hk'.
Qed.
Lemma within_mono : forall t t' o, (t <= t')%Q -> within t o <= within t' o.
Proof.
  intros t t' [[[a n] m]|] H; [|cbn; lia]. rewrite !within_bool. destruct (Qle_bool _ t) eqn:E; [|lia]. apply Qle_bool_iff in E. assert (G : Qle_bool (nat2Q n / nat2Q m) t' = true) by (apply Qle_bool_iff; exact (Qle_trans _ _ _ E H)). rewrite G. lia.
Qed.
Lemma sumOf_le : forall (A : Type) (f g : A -> nat) l, (forall x, f x <= g x) -> sumOf f l <= sumOf g l.
Proof. intros A f g l H. induction l as [|x l IH]; [cbn; lia|]. cbn [sumOf fold_right]. unfold sumOf in IH. specialize (H x). lia. Qed.
Lemma within_skipped : forall t os, sumOf (within t) os + sumOf skipped os <= length os.
Proof. intros t os. induction os as [|o os IH]; [cbn; lia|]. cbn [sumOf fold_right length]. unfold sumOf in IH. assert (within t o + skipped o <= 1) by (destruct o as [[[a n] m]|]; cbn [within skipped]; [destruct (Qlt_le_dec _ _); lia | lia]). lia. Qed.
Lemma thresholds_inc : forall i j x y, i <= j -> nth_error thresholds i = Some x -> nth_error thresholds j = Some y -> (x <= y)%Q.
Proof.
  intros i j x y Hij Hi Hj. pose proof (nth_lt _ _ _ _ Hi) as L1. pose proof (nth_lt _ _ _ _ Hj) as L2. cbn [thresholds length] in L1, L2.
  do 8 (destruct i as [|i]; [do 8 (destruct j as [|j]; [first [lia | cbn in Hi, Hj; injection Hi as <-; injection Hj as <-; vm_compute; discriminate]|]); lia|]). lia.
Qed.
(** ** Any order of the calls *)
Lemma Forall2_perm : forall (A B : Type) (R : A -> B -> Prop) l l' m, Permutation l l' -> Forall2 R l m -> exists m', Permutation m m' /\ Forall2 R l' m'.
Proof.
  intros A B R l l' m H. revert m. induction H as [| x l l' H IH | x y l | l l' l'' H1 IH1 H2 IH2]; intros m Hm.
  - inversion Hm; subst. exists []. split; constructor.
  - inversion Hm as [|? b ? m1 Hb Hm1]; subst. destruct (IH m1 Hm1) as (m' & P & F). exists (b :: m'). split; constructor; assumption.
  - inversion Hm as [|? b ? m1 Hb Hm1]; subst. inversion Hm1 as [|? b' ? m2 Hb' Hm2]; subst. exists (b' :: b :: m2). split; [apply perm_swap | repeat constructor; assumption].
  - destruct (IH1 m Hm) as (m1 & P1 & F1). destruct (IH2 m1 F1) as (m2 & P2 & F2). exists m2. split; [eapply perm_trans; eassumption | exact F2].
Qed.
Lemma sumOf_perm : forall (A : Type) (f : A -> nat) l l', Permutation l l' -> sumOf f l = sumOf f l'.
Proof. intros A f l l' H. induction H; cbn [sumOf fold_right]; unfold sumOf in *; lia. Qed.
Lemma sumOf_same : forall f os os', (forall a b, sameOut a b -> f a = f b) -> Forall2 sameOut os os' -> sumOf f os = sumOf f os'.
Proof. intros f os os' Hf H. induction H; [reflexivity|]. cbn [sumOf fold_right]. unfold sumOf in *. rewrite IHForall2. rewrite (Hf _ _ H). reflexivity. Qed.
Lemma sumQ_perm : forall (A : Type) (f : A -> Q) l l', Permutation l l' -> (fold_right (fun o s => f o + s) 0 l == fold_right (fun o s => f o + s) 0 l')%Q.
Proof. intros A f l l' H. induction H; cbn [fold_right]; [apply Qeq_refl | rewrite IHPermutation; apply Qeq_refl | ring | rewrite IHPermutation1; exact IHPermutation2]. Qed.
Lemma sumQ_same : forall os os', Forall2 sameOut os os' -> (fold_right (fun o s => avgOf o + s) 0 os == fold_right (fun o s => avgOf o + s) 0 os')%Q.
Proof.
  intros os os' H. induction H as [|a b os os' H1 H IH]; cbn [fold_right]; [apply Qeq_refl|]. rewrite IH. destruct a as [[[x n] m]|], b as [[[x' n'] m']|]; cbn in H1; try contradiction; cbn [avgOf]; [destruct H1 as (-> & _) | ]; apply Qeq_refl.
Qed.
Lemma same_within : forall t a b, sameOut a b -> within t a = within t b.
Proof. intros t [[[x n] m]|] [[[x' n'] m']|] H; cbn in H; try contradiction; [destruct H as (_ & -> & ->)|]; reflexivity. Qed.
Lemma same_skipped : forall a b, sameOut a b -> skipped a = skipped b.
Proof. intros [[[x n] m]|] [[[x' n'] m']|] H; cbn in H; try contradiction; reflexivity. Qed.
Lemma same_missed : forall a b, sameOut a b -> missed a = missed b.
Proof. intros [[[x n] m]|] [[[x' n'] m']|] H; cbn in H; try contradiction; [destruct H as (_ & -> & _)|]; reflexivity. Qed.
(** ** Median *)
Lemma sortIns_perm : forall x l, Permutation (x :: l) (sortIns x l).
Proof. intros x l. induction l as [|y l IH]; [apply Permutation_refl|]. cbn [sortIns]. destruct (Qle_bool x y); [apply Permutation_refl|]. eapply perm_trans; [apply perm_swap | apply perm_skip; exact IH]. Qed.
Lemma sortQ_perm : forall l, Permutation l (sortQ l).
Proof. induction l as [|x l IH]; [apply Permutation_refl|]. cbn [sortQ fold_right]. eapply perm_trans; [apply perm_skip; exact IH | apply sortIns_perm]. Qed.
Lemma sortIns_sorted : forall x l, StronglySorted Qle l -> StronglySorted Qle (sortIns x l).
Proof.
  intros x l H. induction H as [|y l H IH Hall]; cbn [sortIns]; [constructor; constructor|]. rewrite Forall_forall in Hall. destruct (Qle_bool x y) eqn:E.
  - apply Qle_bool_iff in E. constructor; [constructor; [exact H | apply Forall_forall; exact Hall]|]. apply Forall_forall. intros z [<- | Hz]; [exact E | exact (Qle_trans _ _ _ E (Hall z Hz))].
  - constructor; [exact IH|]. apply Forall_forall. intros z Hz. apply (Permutation_in _ (Permutation_sym (sortIns_perm x l))) in Hz. destruct Hz as [<- | Hz]; [apply Qlt_le_weak, Qltb_lt; unfold Qltb; rewrite E; reflexivity | exact (Hall z Hz)].
Qed.
Lemma sortQ_sorted : forall l, StronglySorted Qle (sortQ l).
Proof. induction l as [|x l IH]; [constructor|]. cbn [sortQ fold_right]. apply sortIns_sorted. exact IH. Qed.
Lemma sortedQ_mid : forall l1 l2 m, StronglySorted Qle (l1 ++ m :: l2) -> (forall x, In x l1 -> (x <= m)%Q) /\ (forall x, In x l2 -> (m <= x)%Q).
Proof.
  induction l1 as [|y l1 IH]; intros l2 m H; cbn [app] in H; inversion H as [|? ? H1 H2]; subst; rewrite Forall_forall in H2; [split; [intros x [] | exact H2]|]. destruct (IH l2 m H1) as (G1 & G2). split; [|exact G2]. intros x [<- | Hx]; [apply H2, in_or_app; right; left; reflexivity | exact (G1 x Hx)].
Qed.
Lemma median_ok : forall l, l <> [] -> exists m, nth_error (sortQ l) (length l / 2) = Some m /\ Median l m.
Proof.
  intros l Hl. pose proof (sortQ_perm l) as P. assert (L : length l / 2 < length (sortQ l)) by (rewrite <- (Permutation_length P); apply Nat.div_lt; [destruct l; [contradiction | cbn; lia] | lia]).
  destruct (nth_ex _ _ _ L) as (m & Hm). exists m. split; [exact Hm|]. pose proof (nth_error_In _ _ Hm) as Hin. apply nth_error_split in Hm. destruct Hm as (l1 & l2 & E & E2). pose proof (sortQ_sorted l) as S. rewrite E in S. apply sortedQ_mid in S. split; [apply (Permutation_in _ (Permutation_sym P)); exact Hin|].
  exists l1, l2. split; [exact (proj1 S)|]. split; [exact (proj2 S)|]. split; [exact E2 | rewrite <- E; exact P].
Qed.
