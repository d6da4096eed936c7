From Coq Require Import List Arith NArith ZArith Bool Lia Sorting.Sorted Permutation.
From Verif Require Import IdSet_model IdSet_spec.
Import ListNotations.

Definition Asc := StronglySorted N.le.

Lemma sortedb_Asc l : sortedb l = true <-> Asc l.
Proof.
  induction l as [|x t IH]; [split; [constructor|reflexivity]|].
  cbn [sortedb]. destruct t as [|y t].
  - split; [|reflexivity]. intros _. constructor; constructor.
  - rewrite andb_true_iff, IH, N.leb_le. split.
    + intros [Hxy Hs]. constructor; [exact Hs|].
      inversion Hs as [|? ? ? Hf]; subst.
      constructor; [exact Hxy|].
      eapply Forall_impl; [|exact Hf]. intros a Ha; cbn in Ha. lia.
    + intros Hs. inversion Hs as [|? ? Ht Hf]; subst.
      inversion Hf; subst. split; assumption.
Qed.

Lemma Asc_app l1 l2 :
  Asc (l1 ++ l2) <->
  Asc l1 /\ Asc l2 /\ (forall x y, In x l1 -> In y l2 -> (x <= y)%N).
Proof.
  induction l1 as [|a l1 IH]; cbn.
  - split; [intros H; repeat split; [constructor|exact H|tauto]|tauto].
  - split.
    + intros H. inversion H as [|? ? Ht Hf]; subst.
      apply IH in Ht. destruct Ht as (H1 & H2 & H3).
      rewrite Forall_app in Hf. destruct Hf as [Hf1 Hf2].
      split; [constructor; assumption|]. split; [assumption|].
      intros x y [->|Hx] Hy; [|auto].
      rewrite Forall_forall in Hf2. auto.
    + intros (H1 & H2 & H3). inversion H1 as [|? ? Ht Hf]; subst.
      constructor.
      * apply IH. split; [assumption|]. split; [assumption|]. intros; apply H3; auto.
      * rewrite Forall_app. split; [assumption|].
        rewrite Forall_forall. intros y Hy. apply H3; auto.
Qed.

Lemma Asc_nth l : Asc l -> forall i j x y, i <= j ->
  nth_error l i = Some x -> nth_error l j = Some y -> (x <= y)%N.
Proof.
  induction 1 as [|a l Hs IH Hf]; intros i j x y Hij Hi Hj.
  - destruct i; discriminate.
  - destruct i as [|i].
    + cbn in Hi. injection Hi as <-. destruct j as [|j]; cbn in Hj.
      * injection Hj as <-. lia.
      * rewrite Forall_forall in Hf. apply Hf. eapply nth_error_In; eauto.
    + destruct j as [|j]; [lia|]. cbn in *. apply (IH i j); auto; lia.
Qed.

Lemma insert_perm x l : Permutation (insert x l) (x :: l).
Proof.
  induction l as [|y t IH]; cbn; [auto|].
  destruct (x <=? y)%N; [auto|]. rewrite IH. apply perm_swap.
Qed.
Lemma isort_perm l : Permutation (isort l) l.
Proof. induction l as [|x t IH]; cbn; [auto|]. rewrite insert_perm, IH. reflexivity. Qed.
Lemma insert_Asc x l : Asc l -> Asc (insert x l).
Proof.
  induction 1 as [|y t Hs IH Hf]; cbn.
  - constructor; constructor.
  - destruct (x <=? y)%N eqn:E.
    + apply N.leb_le in E. constructor; [constructor; assumption|].
      constructor; [exact E|]. eapply Forall_impl; [|exact Hf]. cbn; intros; lia.
    + apply N.leb_gt in E. constructor; [exact IH|].
      rewrite Forall_forall. intros z Hz.
      apply (Permutation_in _ (insert_perm x t)) in Hz. destruct Hz as [->|Hz]; [lia|].
      rewrite Forall_forall in Hf. auto.
Qed.
Lemma isort_Asc l : Asc (isort l).
Proof. induction l; cbn; [constructor|apply insert_Asc; assumption]. Qed.
Lemma isort_length l : length (isort l) = length l.
Proof. apply Permutation_length, isort_perm. Qed.

(** ** lower/upper bound *)
Lemma lowerIdx_hit l id : Asc l ->
  (nth_error l (lowerIdx l id) = Some id <-> In id l).
Proof.
  induction 1 as [|a l Hs IH Hf]; cbn.
  - split; [discriminate|tauto].
  - destruct (a <? id)%N eqn:E.
    + apply N.ltb_lt in E. cbn. rewrite IH. split; [auto|].
      intros [->|H]; [lia|exact H].
    + apply N.ltb_ge in E. cbn. split.
      * intros H; injection H as ->. auto.
      * intros [->|H]; [reflexivity|].
        rewrite Forall_forall in Hf. specialize (Hf _ H). f_equal. lia.
Qed.

Lemma upperIdx_lb l id k : (forall i x, i < k -> nth_error l i = Some x -> (x <= id)%N) ->
  k <= length l -> k <= upperIdx l id.
Proof.
  revert k. induction l as [|a l IH]; cbn; intros k H Hk; [lia|].
  destruct k as [|k]; [lia|].
  assert (Ha : (a <= id)%N) by (apply (H 0 a); [lia|reflexivity]).
  apply N.leb_le in Ha. rewrite Ha. apply le_n_S, IH; [|lia].
  intros i x Hi Hx. apply (H (S i) x); [lia|exact Hx].
Qed.
Lemma upperIdx_ub l id k : (forall x, nth_error l k = Some x -> (id < x)%N) ->
  upperIdx l id <= k.
Proof.
  revert k. induction l as [|a l IH]; cbn; intros k H; [lia|].
  destruct (a <=? id)%N eqn:E; [|lia].
  apply N.leb_le in E. destruct k as [|k].
  - specialize (H a eq_refl). lia.
  - apply le_n_S, IH. exact H.
Qed.
Lemma upperIdx_le_length l id : upperIdx l id <= length l.
Proof. induction l as [|a l IH]; cbn; [lia|]. destruct (a <=? id)%N; lia. Qed.

(** ** Binary search *)
Lemma bsearch_spec buf id : Asc buf ->
  forall fuel l r, (0 <= l)%Z -> (r < Z.of_nat (length buf))%Z ->
  (r - l + 1 < Z.of_nat fuel)%Z -> (-1 <= r)%Z -> (l <= r + 1)%Z ->
  (forall i x, nth_error buf i = Some x -> x = id -> (l <= Z.of_nat i <= r)%Z) ->
  exists b, bsearch fuel buf id l r = Some b /\ (b = true <-> In id buf).
Proof.
  intros Hs. induction fuel as [|fuel IH]; intros l r Hl Hr Hf Hr1 Hlr Hin.
  - exfalso. lia.
  - cbn [bsearch]. destruct (l <=? r)%Z eqn:E.
    + apply Z.leb_le in E.
      set (p := (l + (r - l) / 2)%Z).
      assert (Hp : (l <= p <= r)%Z).
      { unfold p. pose proof (Z.div_le_upper_bound (r-l) 2 (r-l) ltac:(lia) ltac:(lia)).
        pose proof (Z.div_pos (r-l) 2 ltac:(lia) ltac:(lia)). lia. }
      destruct (nth_error buf (Z.to_nat p)) as [cur|] eqn:Ecur.
      2:{ apply nth_error_None in Ecur. lia. }
      destruct (cur =? id)%N eqn:E1.
      { apply N.eqb_eq in E1; subst cur. exists true. split; [reflexivity|].
        split; [intros _; eapply nth_error_In; eauto|reflexivity]. }
      apply N.eqb_neq in E1.
      destruct (cur <? id)%N eqn:E2.
      * apply N.ltb_lt in E2. apply IH; try lia.
        intros i x Hi ->. pose proof (Hin i id Hi eq_refl) as Hb.
        destruct (Z_lt_ge_dec p (Z.of_nat i)); [lia|].
        assert (i <= Z.to_nat p) by lia.
        pose proof (Asc_nth buf Hs i (Z.to_nat p) id cur ltac:(lia) Hi Ecur). lia.
      * apply N.ltb_ge in E2. apply IH; try lia.
        intros i x Hi ->. pose proof (Hin i id Hi eq_refl) as Hb.
        destruct (Z_lt_ge_dec (Z.of_nat i) p); [lia|].
        pose proof (Asc_nth buf Hs (Z.to_nat p) i cur id ltac:(lia) Ecur Hi). lia.
    + apply Z.leb_gt in E. exists false. split; [reflexivity|].
      split; [discriminate|]. intros H. apply In_nth_error in H. destruct H as [i Hi].
      specialize (Hin i id Hi eq_refl). lia.
Qed.

Section P.
Variable B S_ : nat.
Hypothesis HB : 1 <= B.
Hypothesis HS : 1 <= S_.
Variable murmur : N -> N.

(** Last id of each full block of a file. *)
Definition ends (f : list N) : list N :=
  map (fun k => nth (k * B + (B - 1)) f 0%N) (seq 0 (length f / B)).

Lemma ends_length f : length (ends f) = length f / B.
Proof. unfold ends. now rewrite map_length, seq_length. Qed.

Lemma ends_nth f k : k < length f / B ->
  nth_error (ends f) k = nth_error f (k * B + (B - 1)).
Proof.
  intros H. unfold ends.
  assert (Hlt : k * B + (B - 1) < length f).
  { pose proof (Nat.mul_div_le (length f) B ltac:(lia)) as H1.
    assert (S k <= length f / B) as H2 by lia.
    apply (Nat.mul_le_mono_l _ _ B) in H2. lia. }
  rewrite nth_error_map.
  rewrite (nth_error_nth' (seq 0 (length f / B)) 0) by (rewrite seq_length; exact H).
  rewrite seq_nth by exact H. cbn.
  symmetry. apply nth_error_nth'. exact Hlt.
Qed.

Lemma ends_snoc l v :
  ends (l ++ [v]) = if (length l + 1) mod B =? 0 then ends l ++ [v] else ends l.
Proof.
  assert (Hext : forall n m, n <= length l / B ->
     m = n -> map (fun k => nth (k * B + (B - 1)) (l ++ [v]) 0%N) (seq 0 m)
     = map (fun k => nth (k * B + (B - 1)) l 0%N) (seq 0 n)).
  { intros n m Hn ->. apply map_ext_in. intros k Hk. apply in_seq in Hk.
    apply app_nth1.
    pose proof (Nat.mul_div_le (length l) B ltac:(lia)) as H1.
    assert (S k <= length l / B) as H2 by lia.
    apply (Nat.mul_le_mono_l _ _ B) in H2. lia. }
  unfold ends at 1. rewrite app_length. cbn [length].
  pose proof (Nat.div_mod (length l) B ltac:(lia)) as Hd.
  pose proof (Nat.mod_upper_bound (length l) B ltac:(lia)) as Hm.
  destruct ((length l + 1) mod B =? 0) eqn:E.
  - apply Nat.eqb_eq in E.
    pose proof (Nat.div_mod (length l + 1) B ltac:(lia)) as Hd'.
    rewrite E in Hd'.
    assert (Hq : (length l + 1) / B = S (length l / B)).
    { assert (length l mod B = B - 1) as Hl.
      { destruct (Nat.eq_dec (length l mod B) (B - 1)) as [e|ne]; [exact e|exfalso].
        assert (length l mod B + 1 < B) by lia.
        assert ((length l + 1) / B = length l / B).
        { symmetry. apply (Nat.div_unique _ _ _ (length l mod B + 1)); lia. }
        rewrite H0 in Hd'. lia. }
      symmetry. apply (Nat.div_unique _ _ _ 0); [lia|].
      rewrite Nat.mul_succ_r. lia. }
    rewrite Hq. rewrite seq_S. rewrite map_app. cbn [map].
    rewrite (Hext (length l / B)) by lia.
    f_equal. f_equal. cbn [plus].
    rewrite app_nth2; [|rewrite Hq in Hd'; rewrite Nat.mul_succ_r in Hd'; lia].
    replace (length l / B * B + (B - 1) - length l) with 0; [reflexivity|].
    rewrite Hq, Nat.mul_succ_r in Hd'. lia.
  - apply Nat.eqb_neq in E.
    assert (Hq : (length l + 1) / B = length l / B).
    { symmetry. apply (Nat.div_unique _ _ _ (length l mod B + 1)); [|lia].
      destruct (Nat.eq_dec (length l mod B) (B - 1)) as [e|ne]; [exfalso|lia].
      apply E. rewrite Hd, e.
      replace (B * (length l / B) + (B - 1) + 1) with ((length l / B + 1) * B) by lia.
      apply Nat.mod_mul. lia. }
    rewrite Hq. apply Hext; lia.
Qed.

Lemma ends_In f x : In x (ends f) -> In x f.
Proof.
  intros H. apply In_nth_error in H. destruct H as [k Hk].
  assert (k < length f / B).
  { rewrite <- ends_length. apply nth_error_Some. rewrite Hk. discriminate. }
  rewrite ends_nth in Hk by assumption. eapply nth_error_In; eauto.
Qed.

Lemma nth_ext_Asc l : (forall i j x y, i <= j -> nth_error l i = Some x ->
   nth_error l j = Some y -> (x <= y)%N) -> Asc l.
Proof.
  induction l as [|a l IH]; intros H; [constructor|].
  constructor.
  - apply IH. intros i j x y Hij Hi Hj. apply (H (S i) (S j)); auto; lia.
  - rewrite Forall_forall. intros y Hy. apply In_nth_error in Hy. destruct Hy as [j Hj].
    apply (H 0 (S j)); auto; lia.
Qed.

Lemma ends_Asc f : Asc f -> Asc (ends f).
Proof.
  intros Hs. apply nth_ext_Asc. intros i j x y Hij Hi Hj.
  assert (Hj' : j < length f / B)
    by (rewrite <- ends_length; apply nth_error_Some; rewrite Hj; discriminate).
  rewrite ends_nth in Hi by lia. rewrite ends_nth in Hj by lia.
  eapply (Asc_nth f Hs); [|exact Hi|exact Hj].
  apply (Nat.mul_le_mono_r _ _ B) in Hij. lia.
Qed.

(** ** readAt / writeAt *)
Lemma nth_error_firstn {A} (l : list A) n i :
  nth_error (firstn n l) i = if i <? n then nth_error l i else None.
Proof.
  revert l i. induction n as [|n IH]; intros l i.
  - cbn. destruct i; reflexivity.
  - destruct l as [|a l]; cbn [firstn].
    + destruct i; cbn [nth_error]; destruct (_ <? _); reflexivity.
    + destruct i as [|i]; cbn [nth_error]; [reflexivity|].
      rewrite IH. replace (S i <? S n) with (i <? n); [reflexivity|].
      destruct (i <? n) eqn:E; symmetry; [apply Nat.ltb_lt in E; apply Nat.ltb_lt; lia
        |apply Nat.ltb_ge in E; apply Nat.ltb_ge; lia].
Qed.
Lemma nth_error_skipn {A} (l : list A) n i :
  nth_error (skipn n l) i = nth_error l (n + i).
Proof.
  revert l. induction n as [|n IH]; intros l; [reflexivity|].
  destruct l as [|a l]; cbn; [destruct i; reflexivity|]. apply IH.
Qed.
Lemma nth_error_readAt f off n i :
  nth_error (readAt f off n) i = if i <? n then nth_error f (off + i) else None.
Proof. unfold readAt. rewrite nth_error_firstn, nth_error_skipn. reflexivity. Qed.
Lemma readAt_length f off n : length (readAt f off n) = Nat.min n (length f - off).
Proof. unfold readAt. now rewrite firstn_length, skipn_length. Qed.
Lemma nth_error_ext {A} (l1 l2 : list A) :
  (forall i, nth_error l1 i = nth_error l2 i) -> l1 = l2.
Proof.
  revert l2. induction l1 as [|a l1 IH]; intros l2 H.
  - destruct l2 as [|b l2]; [reflexivity|]. specialize (H 0). discriminate.
  - destruct l2 as [|b l2]; [specialize (H 0); discriminate|].
    pose proof (H 0) as H0. cbn in H0. injection H0 as ->.
    f_equal. apply IH. intros i. exact (H (S i)).
Qed.

Lemma writeAt_length f off b : off + length b <= length f ->
  length (writeAt f off b) = length f.
Proof.
  intros H. unfold writeAt. rewrite !app_length, firstn_length, skipn_length. lia.
Qed.
Lemma nth_error_writeAt f off b i : off + length b <= length f ->
  nth_error (writeAt f off b) i =
  if (off <=? i) && (i <? off + length b) then nth_error b (i - off)
  else nth_error f i.
Proof.
  intros H. unfold writeAt.
  destruct (Nat.leb_spec off i) as [H1|H1]; cbn [andb].
  - rewrite nth_error_app2 by (rewrite firstn_length; lia).
    rewrite firstn_length, Nat.min_l by lia.
    destruct (Nat.ltb_spec i (off + length b)) as [H2|H2].
    + rewrite nth_error_app1 by lia. reflexivity.
    + rewrite nth_error_app2 by lia. rewrite nth_error_skipn. f_equal. lia.
  - rewrite nth_error_app1 by (rewrite firstn_length; lia).
    rewrite nth_error_firstn. apply Nat.ltb_lt in H1. rewrite H1. reflexivity.
Qed.

(** Chunk [k] of a file. *)
Definition chunk (f : list N) (k : nat) : list N := readAt f (S_ * k) S_.

Lemma chunk_length_off f k : S_ * k + length (chunk f k) <= length f \/ chunk f k = [].
Proof.
  unfold chunk. rewrite readAt_length.
  destruct (le_lt_dec (length f) (S_ * k)).
  - right. apply length_zero_iff_nil. rewrite readAt_length. lia.
  - left. lia.
Qed.

Lemma writeAt_nil_chunk f k : chunk f k = [] -> writeAt f (S_ * k) (isort (chunk f k)) = f.
Proof.
  intros ->. cbn. unfold writeAt. cbn. rewrite Nat.add_0_r. apply firstn_skipn.
Qed.

Lemma chunk_writeAt_other f k j : j <> k ->
  chunk (writeAt f (S_ * k) (isort (chunk f k))) j = chunk f j.
Proof.
  intros Hjk. destruct (chunk_length_off f k) as [Hl|He].
  2:{ rewrite writeAt_nil_chunk by exact He. reflexivity. }
  apply nth_error_ext. intros i. unfold chunk at 1 3.
  rewrite !nth_error_readAt. destruct (i <? S_) eqn:E; [|reflexivity].
  apply Nat.ltb_lt in E.
  rewrite nth_error_writeAt by (rewrite isort_length; exact Hl).
  rewrite isort_length.
  destruct (Nat.leb_spec (S_ * k) (S_ * j + i)) as [H1|H1]; cbn [andb]; [|reflexivity].
  destruct (Nat.ltb_spec (S_ * j + i) (S_ * k + length (chunk f k))) as [H2|H2]; [|reflexivity].
  exfalso. assert (length (chunk f k) <= S_) as H3
    by (unfold chunk; rewrite readAt_length; lia).
  assert (j < k \/ k < j) as [H|H] by lia.
  - assert (S_ * (j + 1) <= S_ * k) by (apply Nat.mul_le_mono_l; lia). lia.
  - assert (S_ * (k + 1) <= S_ * j) by (apply Nat.mul_le_mono_l; lia). lia.
Qed.

Lemma chunk_writeAt_same f k :
  chunk (writeAt f (S_ * k) (isort (chunk f k))) k = isort (chunk f k).
Proof.
  destruct (chunk_length_off f k) as [Hl|He].
  2:{ rewrite writeAt_nil_chunk by exact He. rewrite He. reflexivity. }
  apply nth_error_ext. intros i. unfold chunk at 1.
  rewrite nth_error_readAt.
  assert (Hle : length (isort (chunk f k)) <= S_)
    by (rewrite isort_length; unfold chunk; rewrite readAt_length; lia).
  destruct (i <? S_) eqn:E.
  - apply Nat.ltb_lt in E.
    rewrite nth_error_writeAt by (rewrite isort_length; exact Hl).
    replace (S_ * k <=? S_ * k + i) with true by (symmetry; apply Nat.leb_le; lia).
    cbn [andb]. rewrite isort_length.
    destruct (Nat.ltb_spec (S_ * k + i) (S_ * k + length (chunk f k))) as [H|H].
    + f_equal. lia.
    + (* beyond the chunk: the file ends here or the chunk is full *)
      assert (length (chunk f k) < S_) by lia.
      unfold chunk in H, H0. rewrite readAt_length in H, H0.
      transitivity (@None N).
      * apply nth_error_None. lia.
      * symmetry. apply nth_error_None. rewrite isort_length. unfold chunk.
        rewrite readAt_length. lia.
  - apply Nat.ltb_ge in E. symmetry. apply nth_error_None. lia.
Qed.

Lemma writeAt_chunk_length f k :
  length (writeAt f (S_ * k) (isort (chunk f k))) = length f.
Proof.
  destruct (chunk_length_off f k) as [Hl|He].
  - apply writeAt_length. rewrite isort_length. exact Hl.
  - rewrite writeAt_nil_chunk by exact He. reflexivity.
Qed.

Lemma sortParts_spec P n : forall i f f' ps,
  sortParts S_ P i n f = (f', ps) ->
  length f' = length f /\
  length ps = n /\
  (forall j, j < i -> chunk f' j = chunk f j) /\
  (forall j, i + n <= j -> chunk f' j = chunk f j) /\
  (forall j, j < n -> chunk f' (i + j) = isort (chunk f (i + j))) /\
  (forall j, j < n -> nth_error ps j =
     Some (mkPart (firstn P (isort (chunk f (i + j)))) 0 (length (isort (chunk f (i + j)))))).
Proof.
  induction n as [|n IH]; intros i f f' ps H; cbn [sortParts] in H.
  - injection H as <- <-. repeat split; auto; intros; lia.
  - unfold sortPart in H. fold (chunk f i) in H.
    destruct (sortParts S_ P (S i) n _) as [f2 ps2] eqn:E.
    injection H as <- <-.
    apply IH in E. destruct E as (E1 & E2 & E3 & E4 & E5 & E6).
    repeat split.
    + rewrite E1. apply writeAt_chunk_length.
    + cbn. lia.
    + intros j Hj. rewrite E3 by lia. apply chunk_writeAt_other. lia.
    + intros j Hj. rewrite E4 by lia. apply chunk_writeAt_other. lia.
    + intros j Hj. destruct j as [|j].
      * rewrite Nat.add_0_r. rewrite E3 by lia. apply chunk_writeAt_same.
      * replace (i + S j) with (S i + j) by lia. rewrite E5 by lia.
        f_equal. apply chunk_writeAt_other. lia.
    + intros j Hj. destruct j as [|j]; cbn [nth_error].
      * rewrite Nat.add_0_r. reflexivity.
      * replace (i + S j) with (S i + j) by lia. rewrite E6 by lia.
        rewrite chunk_writeAt_other by lia. reflexivity.
Qed.

Lemma skipn_add {A} (l : list A) a b : skipn a (skipn b l) = skipn (b + a) l.
Proof.
  apply nth_error_ext. intros i. rewrite !nth_error_skipn. f_equal. lia.
Qed.

(** A file is the concatenation of its chunks. *)
Lemma chunks_concat n : forall f i, length f <= S_ * (i + n) ->
  concat (map (chunk f) (seq i n)) = skipn (S_ * i) f.
Proof.
  induction n as [|n IH]; intros f i H; cbn [seq map concat].
  - rewrite Nat.add_0_r in H. symmetry. apply skipn_all2. exact H.
  - rewrite IH by (replace (S i + n) with (i + S n) by lia; exact H).
    unfold chunk, readAt. rewrite Nat.mul_succ_r.
    rewrite <- skipn_add. apply firstn_skipn.
Qed.

(** ** The merge *)

(** Part [k] holds a valid window of its chunk [c]. *)
Definition part_ok (P : nat) (c : list N) (p : part) : Prop :=
  psize p = length c /\ ppos p <= length c /\
  forall q, q < length c -> q / P = ppos p / P ->
    nth_error (pbuf p) (q mod P) = nth_error c q.

Definition remaining (cp : list N * part) : list N := skipn (ppos (snd cp)) (fst cp).

Lemma skipn_nth_cons {A} (l : list A) n x : nth_error l n = Some x ->
  skipn n l = x :: skipn (S n) l.
Proof.
  revert l. induction n as [|n IH]; intros [|a l] H; try discriminate.
  - cbn in H. injection H as ->. reflexivity.
  - cbn in H. cbn [skipn]. rewrite (IH l H). reflexivity.
Qed.

Lemma findSmallest_spec P : forall cps j v o,
  Forall (fun cp => part_ok P (fst cp) (snd cp)) cps ->
  exists v' o', findSmallest P j (map snd cps) (v, o) = Some (v', o') /\
    (v' <= v)%N /\
    (forall cp h t, In cp cps -> remaining cp = h :: t -> (v' <= h)%N) /\
    ((v' = v /\ o' = o /\ forall cp h t, In cp cps -> remaining cp = h :: t -> (v < h)%N)
     \/ exists k cp t, o' = Some (j + k) /\ nth_error cps k = Some cp /\
                       remaining cp = v' :: t).
Proof.
  induction cps as [|[c p] cps IH]; intros j v o Hok; cbn [map findSmallest].
  - exists v, o. split; [reflexivity|]. split; [lia|]. split; [intros ? ? ? []|].
    left. split; [reflexivity|]. split; [reflexivity|]. intros ? ? ? [].
  - inversion Hok as [|? ? Hp Hrest]; subst. cbn [fst snd] in *.
    destruct Hp as (Hsz & Hpos & Hwin).
    destruct (ppos p =? psize p) eqn:E.
    + apply Nat.eqb_eq in E.
      assert (Hempty : remaining (c, p) = []).
      { unfold remaining; cbn. apply skipn_all2. lia. }
      destruct (IH (S j) v o Hrest) as (v' & o' & H1 & H2 & H3 & H4).
      exists v', o'. split; [exact H1|]. split; [exact H2|]. split.
      { intros cp h t [<-|Hin] Hr; [rewrite Hempty in Hr; discriminate|].
        eapply H3; eauto. }
      destruct H4 as [(-> & -> & H4)|(k & cp & t & Ho & Hk & Hr)].
      * left. repeat split; auto. intros cp h t [<-|Hin] Hr.
        { rewrite Hempty in Hr; discriminate. }
        eapply H4; eauto.
      * right. exists (S k), cp, t. split; [rewrite Ho; f_equal; lia|]. split; assumption.
    + apply Nat.eqb_neq in E.
      assert (Hlt : ppos p < length c) by lia.
      rewrite (Hwin (ppos p) Hlt eq_refl).
      destruct (nth_error c (ppos p)) as [h0|] eqn:Eh.
      2:{ apply nth_error_None in Eh. lia. }
      assert (Hrem : remaining (c, p) = h0 :: skipn (S (ppos p)) c).
      { unfold remaining; cbn [fst snd]. apply skipn_nth_cons. exact Eh. }
      cbn [fst]. destruct (h0 <=? v)%N eqn:Ev.
      * apply N.leb_le in Ev.
        destruct (IH (S j) h0 (Some j) Hrest) as (v' & o' & H1 & H2 & H3 & H4).
        exists v', o'. split; [exact H1|]. split; [lia|]. split.
        { intros cp h t [<-|Hin] Hr; [rewrite Hrem in Hr; injection Hr as <- _; lia|].
          eapply H3; eauto. }
        right. destruct H4 as [(-> & -> & H4)|(k & cp & t & Ho & Hk & Hr)].
        { exists 0, (c, p), (skipn (S (ppos p)) c). rewrite Nat.add_0_r. auto. }
        { exists (S k), cp, t. split; [rewrite Ho; f_equal; lia|]. split; assumption. }
      * apply N.leb_gt in Ev.
        destruct (IH (S j) v o Hrest) as (v' & o' & H1 & H2 & H3 & H4).
        exists v', o'. split; [exact H1|]. split; [lia|]. split.
        { intros cp h t [<-|Hin] Hr; [rewrite Hrem in Hr; injection Hr as <- _; lia|].
          eapply H3; eauto. }
        destruct H4 as [(-> & -> & H4)|(k & cp & t & Ho & Hk & Hr)].
        { left. repeat split; auto. intros cp h t [<-|Hin] Hr.
          - rewrite Hrem in Hr; injection Hr as <- _. exact Ev.
          - eapply H4; eauto. }
        { right. exists (S k), cp, t. split; [rewrite Ho; f_equal; lia|]. split; assumption. }
Qed.

(** Advancing a part keeps its window valid. *)
Lemma advance_ok P f k c p : 1 <= P ->
  chunk f k = c ->
  part_ok P c p -> ppos p < length c ->
  part_ok P c (advance S_ P f k p) /\ ppos (advance S_ P f k p) = S (ppos p).
Proof.
  intros HP Hch (Hsz & Hpos & Hwin) Hlt. unfold advance.
  destruct (S (ppos p) mod P =? 0) eqn:E.
  - apply Nat.eqb_eq in E. split; [|reflexivity].
    split; [exact Hsz|]. split; [cbn; lia|]. cbn [ppos pbuf].
    intros q Hq Hdiv.
    set (pos := S (ppos p)) in *.
    assert (Hpq : q = pos + q mod P).
    { pose proof (Nat.div_mod q P ltac:(lia)) as H1.
      pose proof (Nat.div_mod pos P ltac:(lia)) as H2.
      rewrite Hdiv in H1. lia. }
    pose proof (Nat.mod_upper_bound q P ltac:(lia)) as Hm.
    assert (Hc : nth_error c q = nth_error f (S_ * k + q)).
    { rewrite <- Hch. unfold chunk. rewrite nth_error_readAt.
      assert (q < S_).
      { rewrite <- Hch in Hq. unfold chunk in Hq. rewrite readAt_length in Hq. lia. }
      apply Nat.ltb_lt in H. rewrite H. reflexivity. }
    assert (Hr : nth_error (readAt f (S_ * k + pos) P) (q mod P) = nth_error c q).
    { rewrite nth_error_readAt. apply Nat.ltb_lt in Hm. rewrite Hm.
      rewrite Hc. f_equal. lia. }
    rewrite nth_error_app1; [exact Hr|].
    apply nth_error_Some. rewrite Hr. apply nth_error_Some. exact Hq.
  - apply Nat.eqb_neq in E. split; [|reflexivity].
    split; [exact Hsz|]. split; [cbn; lia|]. cbn [ppos pbuf].
    intros q Hq Hdiv. apply Hwin; [exact Hq|].
    rewrite Hdiv.
    pose proof (Nat.div_mod (S (ppos p)) P ltac:(lia)) as H1.
    pose proof (Nat.mod_upper_bound (S (ppos p)) P ltac:(lia)) as H2.
    apply (Nat.div_unique _ _ _ (S (ppos p) mod P - 1)); lia.
Qed.

Definition allrem (cps : list (list N * part)) : list N := concat (map remaining cps).

Lemma updNth_map_snd {A C} k (g : C -> C) (l : list (A * C)) :
  updNth k g (map snd l) = map snd (updNth k (fun ac => (fst ac, g (snd ac))) l).
Proof.
  revert k. induction l as [|[a c] l IH]; intros [|k]; cbn; [reflexivity..|].
  f_equal. apply IH.
Qed.
Lemma updNth_nth_error {A} k (g : A -> A) l i :
  nth_error (updNth k g l) i =
  if i =? k then option_map g (nth_error l i) else nth_error l i.
Proof.
  revert k i. induction l as [|a l IH]; intros [|k] [|i]; cbn; try reflexivity.
  - destruct (i =? k); reflexivity.
  - apply IH.
Qed.
Lemma updNth_length {A} k (g : A -> A) l : length (updNth k g l) = length l.
Proof. revert k; induction l as [|a l IH]; intros [|k]; cbn; auto. Qed.

Lemma allrem_upd cps k cp v t cp' :
  nth_error cps k = Some cp -> remaining cp = v :: t -> remaining cp' = t ->
  Permutation (v :: allrem (updNth k (fun _ => cp') cps)) (allrem cps).
Proof.
  revert k. induction cps as [|a cps IH]; intros k Hk Hr Hr'; [destruct k; discriminate|].
  destruct k as [|k]; cbn in Hk |- *.
  - injection Hk as ->. unfold allrem. cbn. rewrite Hr, Hr'. reflexivity.
  - unfold allrem in *. cbn. rewrite <- (IH k Hk Hr Hr').
    apply Permutation_middle.
Qed.

Lemma allrem_In cps x : In x (allrem cps) <-> exists cp, In cp cps /\ In x (remaining cp).
Proof.
  unfold allrem. rewrite in_concat. split.
  - intros (l & Hl & Hx). apply in_map_iff in Hl. destruct Hl as (cp & <- & Hcp). eauto.
  - intros (cp & Hcp & Hx). exists (remaining cp). split; [apply in_map|]; assumption.
Qed.

Lemma skipn_Asc l n : Asc l -> Asc (skipn n l).
Proof.
  intros H. rewrite <- (firstn_skipn n l) in H. apply Asc_app in H. tauto.
Qed.

Lemma mergeLoop_spec P f fsize : 1 <= P ->
  forall n i cps buf out ends0,
  (forall k c p, nth_error cps k = Some (c, p) -> chunk f k = c /\ Asc c /\ part_ok P c p) ->
  (forall x, In x (allrem cps) -> (x <= u64max)%N) ->
  length (allrem cps) = n -> i + n = fsize -> length (out ++ buf) = i ->
  (n = 0 -> buf = []) ->
  Asc (out ++ buf) ->
  (forall x y, In x (out ++ buf) -> In y (allrem cps) -> (x <= y)%N) ->
  ends0 = ends (out ++ buf) ->
  exists res, mergeLoop B S_ P f fsize i n (map snd cps) buf out ends0 = Some (res, ends res)
    /\ Asc res /\ Permutation res (out ++ buf ++ allrem cps).
Proof.
  intros HP. induction n as [|n IH]; intros i cps buf out ends0 Hcps Hu Hn Hi Hlen Hbuf Hs Hle He.
  - cbn [mergeLoop]. exists out. rewrite (Hbuf eq_refl) in *. rewrite app_nil_r in *.
    subst ends0. split; [reflexivity|]. split; [exact Hs|].
    apply length_zero_iff_nil in Hn. rewrite Hn. cbn. rewrite app_nil_r. reflexivity.
  - cbn [mergeLoop].
    assert (Hok : Forall (fun cp => part_ok P (fst cp) (snd cp)) cps).
    { rewrite Forall_forall. intros [c p] Hin. apply In_nth_error in Hin.
      destruct Hin as [k Hk]. apply Hcps in Hk. apply Hk. }
    destruct (findSmallest_spec P cps 0 u64max None Hok) as (v & o & Hf & Hv & Hmin & Hsel).
    rewrite Hf.
    destruct Hsel as [(-> & -> & Hno)|(k & cp & t & -> & Hk & Hr)].
    { exfalso. destruct (allrem cps) as [|y rest] eqn:Ea; [discriminate|].
      assert (Hy : In y (allrem cps)) by (rewrite Ea; left; reflexivity).
      apply allrem_In in Hy. destruct Hy as (cp & Hcp & Hy).
      destruct (remaining cp) as [|h t] eqn:Er; [destruct Hy|].
      specialize (Hno cp h t Hcp Er).
      assert (In h (allrem cps)).
      { apply allrem_In. exists cp. split; [exact Hcp|]. rewrite Er. left; reflexivity. }
      rewrite Ea in H. specialize (Hu h H). lia. }
    cbn [plus]. destruct cp as [c p].
    destruct (Hcps k c p Hk) as (Hch & Hsc & Hpok).
    assert (Hlt : ppos p < length c).
    { destruct (le_lt_dec (length c) (ppos p)) as [H|H]; [|exact H].
      unfold remaining in Hr; cbn in Hr. rewrite skipn_all2 in Hr by lia. discriminate. }
    destruct (advance_ok P f k c p HP Hch Hpok Hlt) as [Hadv Hadvpos].
    set (cps' := updNth k (fun ac => (fst ac, advance S_ P f k (snd ac))) cps).
    rewrite updNth_map_snd. fold cps'.
    assert (Hcps'eq : cps' = updNth k (fun _ => (c, advance S_ P f k p)) cps).
    { apply nth_error_ext. intros m. unfold cps'. rewrite !updNth_nth_error.
      destruct (m =? k) eqn:Em; [|reflexivity]. apply Nat.eqb_eq in Em. subst m.
      rewrite Hk. reflexivity. }
    assert (Hrem' : remaining (c, advance S_ P f k p) = t).
    { unfold remaining in *; cbn [fst snd] in *. rewrite Hadvpos.
      destruct (nth_error c (ppos p)) as [h|] eqn:Eh.
      2:{ apply nth_error_None in Eh. lia. }
      rewrite (skipn_nth_cons c (ppos p) h Eh) in Hr. injection Hr as _ <-. reflexivity. }
    pose proof (allrem_upd cps k (c, p) v t _ Hk Hr Hrem') as Hperm.
    rewrite <- Hcps'eq in Hperm.
    assert (Hvrem : In v (allrem cps)).
    { eapply Permutation_in; [exact Hperm|]. left; reflexivity. }
    assert (Hvmin : forall y, In y (allrem cps) -> (v <= y)%N).
    { intros y Hy. apply allrem_In in Hy. destruct Hy as ([c1 p1] & Hcp & Hy).
      destruct (remaining (c1, p1)) as [|h t1] eqn:Er; [destruct Hy|].
      pose proof (Hmin _ _ _ Hcp Er) as Hvh.
      apply In_nth_error in Hcp. destruct Hcp as [k1 Hk1].
      destruct (Hcps k1 c1 p1 Hk1) as (_ & Hs1 & _).
      unfold remaining in Er; cbn in Er.
      pose proof (skipn_Asc c1 (ppos p1) Hs1) as Hss. rewrite Er in Hss.
      destruct Hy as [->|Hy]; [exact Hvh|].
      inversion Hss as [|? ? _ Hfa]; subst. rewrite Forall_forall in Hfa.
      specialize (Hfa y Hy). lia. }
    assert (Hlen' : length (allrem cps') = n).
    { apply Permutation_length in Hperm. cbn in Hperm. lia. }
    assert (Hin' : forall y, In y (allrem cps') -> In y (allrem cps)).
    { intros y Hy. eapply Permutation_in; [exact Hperm|]. right; exact Hy. }
    assert (Hs' : Asc (out ++ buf ++ [v])).
    { rewrite app_assoc. apply Asc_app. split; [exact Hs|]. split; [constructor; constructor|].
      intros x y Hx [<-|[]]. apply Hle; assumption. }
    assert (He' : (if (i + 1) mod B =? 0 then ends0 ++ [v] else ends0) = ends (out ++ buf ++ [v])).
    { rewrite app_assoc, ends_snoc, Hlen. subst ends0. reflexivity. }
    assert (Hcpsok : forall k0 c0 p0, nth_error cps' k0 = Some (c0, p0) ->
              chunk f k0 = c0 /\ Asc c0 /\ part_ok P c0 p0).
    { intros k0 c0 p0 H0. rewrite Hcps'eq, updNth_nth_error in H0.
      destruct (k0 =? k) eqn:Ek.
      - apply Nat.eqb_eq in Ek. subst k0. rewrite Hk in H0. cbn in H0.
        injection H0 as <- <-. auto.
      - apply (Hcps k0). exact H0. }
    destruct ((i mod S_ =? S_ - 1) || (i =? fsize - 1)) eqn:Efl.
    + destruct (IH (S i) cps' [] (out ++ buf ++ [v]) (ends (out ++ buf ++ [v])))
        as (res & Hres & Hsr & Hpr).
      * exact Hcpsok.
      * intros x Hx. auto.
      * exact Hlen'.
      * lia.
      * rewrite app_nil_r, app_assoc, app_length, Hlen. cbn. lia.
      * reflexivity.
      * rewrite app_nil_r. exact Hs'.
      * rewrite app_nil_r. intros x y Hx Hy. rewrite app_assoc in Hx.
        apply in_app_or in Hx. destruct Hx as [Hx|[<-|[]]]; auto.
      * rewrite app_nil_r. reflexivity.
      * exists res. rewrite He'. split; [exact Hres|]. split; [exact Hsr|].
        rewrite Hpr. cbn [app]. rewrite <- Hperm.
        rewrite <- !app_assoc. cbn [app]. reflexivity.
    + apply orb_false_iff in Efl. destruct Efl as [_ Efl]. apply Nat.eqb_neq in Efl.
      destruct (IH (S i) cps' (buf ++ [v]) out (ends (out ++ buf ++ [v])))
        as (res & Hres & Hsr & Hpr).
      * exact Hcpsok.
      * intros x Hx. auto.
      * exact Hlen'.
      * lia.
      * rewrite app_assoc, app_length, Hlen. cbn. lia.
      * intros Hn0. exfalso. lia.
      * exact Hs'.
      * intros x y Hx Hy. rewrite app_assoc in Hx.
        apply in_app_or in Hx. destruct Hx as [Hx|[<-|[]]]; auto.
      * reflexivity.
      * exists res. rewrite He'. split; [exact Hres|]. split; [exact Hsr|].
        rewrite Hpr. rewrite <- Hperm. rewrite <- !app_assoc. cbn [app]. reflexivity.
Qed.

Lemma concat_map_isort_perm (ls : list (list N)) :
  Permutation (concat (map isort ls)) (concat ls).
Proof.
  induction ls as [|l ls IH]; cbn; [reflexivity|].
  apply Permutation_app; [apply isort_perm|exact IH].
Qed.

Lemma combine_map_snd {A C} (l : list A) (m : list C) : length l = length m ->
  map snd (combine l m) = m.
Proof.
  revert m. induction l as [|a l IH]; intros [|c m] H; cbn in *; try discriminate; [reflexivity|].
  f_equal. apply IH. lia.
Qed.
Lemma nth_error_combine {A C} (l : list A) (m : list C) k a c :
  nth_error (combine l m) k = Some (a, c) ->
  nth_error l k = Some a /\ nth_error m k = Some c.
Proof.
  revert m k. induction l as [|x l IH]; intros [|y m] [|k] H; cbn in *; try discriminate.
  - injection H as -> ->. auto.
  - apply IH. exact H.
Qed.

Theorem sortFile_spec s :
  (forall x, In x (file s) -> (x <= u64max)%N) ->
  exists out, sortFile B S_ s =
      Some (mkIdset (closed s) true (last s) (smallest s) (biggest s) (hasInv s)
              (obuf s) (curBlock s) (curBuf s) (bits s) (nbits s) (ends out) out)
    /\ Asc out /\ Permutation out (file s).
Proof.
  intros Hu. unfold sortFile.
  set (fs := length (file s)).
  set (parts := fs / S_ + 1). set (P := S_ / parts + 1).
  destruct (sortParts S_ P 0 parts (file s)) as [f1 ps] eqn:E.
  apply sortParts_spec in E. destruct E as (E1 & E2 & _ & _ & E5 & E6).
  set (cs := map (chunk f1) (seq 0 parts)).
  set (cps := combine cs ps).
  assert (Hlcs : length cs = length ps) by (unfold cs; rewrite map_length, seq_length; lia).
  assert (Hps : map snd cps = ps) by (apply combine_map_snd; exact Hlcs).
  assert (Hcs : cs = map isort (map (chunk (file s)) (seq 0 parts))).
  { unfold cs. rewrite map_map. apply map_ext_in. intros k Hk. apply in_seq in Hk.
    apply (E5 k). lia. }
  assert (HlenP : fs <= S_ * (0 + parts)).
  { unfold parts. pose proof (Nat.div_mod fs S_ ltac:(lia)).
    pose proof (Nat.mod_upper_bound fs S_ ltac:(lia)). lia. }
  assert (Hpermcs : Permutation (concat cs) (file s)).
  { rewrite Hcs, concat_map_isort_perm, chunks_concat by exact HlenP.
    rewrite Nat.mul_0_r. reflexivity. }
  assert (Hentry : forall k c p, nth_error cps k = Some (c, p) ->
     k < parts /\ c = chunk f1 k /\ c = isort (chunk (file s) k) /\
     p = mkPart (firstn P c) 0 (length c)).
  { intros k c p H. apply nth_error_combine in H. destruct H as [H1 H2].
    assert (Hk : k < parts).
    { assert (k < length cs) by (apply nth_error_Some; rewrite H1; discriminate).
      unfold cs in H. rewrite map_length, seq_length in H. exact H. }
    rewrite E6 in H2 by exact Hk. cbn in H2. injection H2 as <-.
    unfold cs in H1. rewrite nth_error_map in H1.
    rewrite (nth_error_nth' (seq 0 parts) 0) in H1 by (rewrite seq_length; exact Hk).
    rewrite seq_nth in H1 by exact Hk. cbn in H1. injection H1 as <-.
    pose proof (E5 k Hk) as E5k; cbn [plus] in E5k; rewrite <- E5k; auto. }
  assert (Hrem : map remaining cps = cs).
  { apply nth_error_ext. intros k. rewrite nth_error_map.
    destruct (nth_error cps k) as [[c p]|] eqn:Ek.
    - destruct (Hentry k c p Ek) as (_ & _ & _ & ->). cbn.
      apply nth_error_combine in Ek. symmetry. unfold remaining. cbn. apply Ek.
    - cbn. symmetry. apply nth_error_None. apply nth_error_None in Ek.
      unfold cps in Ek. rewrite combine_length in Ek. lia. }
  destruct (mergeLoop_spec P f1 fs ltac:(unfold P; lia) fs 0 cps [] [] [])
    as (res & Hres & Hsr & Hpr).
  - intros k c p H. destruct (Hentry k c p H) as (Hk & Hc1 & Hc2 & ->).
    split; [symmetry; exact Hc1|]. split; [rewrite Hc2; apply isort_Asc|].
    split; [reflexivity|]. split; [cbn; lia|]. cbn [ppos pbuf].
    intros q Hq Hdiv.
    rewrite Nat.div_0_l in Hdiv by (unfold P; lia).
    assert (q < P).
    { pose proof (Nat.div_mod q P ltac:(unfold P; lia)).
      pose proof (Nat.mod_upper_bound q P ltac:(unfold P; lia)). nia. }
    rewrite Nat.mod_small by assumption.
    rewrite nth_error_firstn. apply Nat.ltb_lt in H0. rewrite H0. reflexivity.
  - intros x Hx. unfold allrem in Hx. rewrite Hrem in Hx.
    apply (Permutation_in _ Hpermcs) in Hx. auto.
  - unfold allrem. rewrite Hrem. apply Permutation_length in Hpermcs. exact Hpermcs.
  - lia.
  - reflexivity.
  - reflexivity.
  - constructor.
  - intros x y [].
  - unfold ends. cbn. rewrite Nat.div_0_l by lia. reflexivity.
  - rewrite Hps in Hres. rewrite Hres. exists res. split; [reflexivity|].
    split; [exact Hsr|]. rewrite Hpr. cbn. unfold allrem. rewrite Hrem. exact Hpermcs.
Qed.

(** ** Invariants *)

Definition bloom_ok (s : idset) (added excluded : list N) : Prop :=
  (forall id i, In id added -> i < 5 -> memN (hpos murmur id i) (bits s) = true) /\
  (forall id i, In id excluded -> i < 5 -> memN (hpos murmur id i) (nbits s) = true) /\
  (hasInv s = false <-> excluded = []).

Definition bounds_ok (s : idset) (added : list N) : Prop :=
  (forall id, In id added -> (smallest s <= id <= biggest s)%N) /\
  (added = [] -> smallest s = u64max /\ biggest s = 0%N) /\
  (added <> [] -> In (biggest s) added).

Definition open_inv (s : idset) (added excluded : list N) : Prop :=
  closed s = false /\
  Permutation (file s ++ obuf s) added /\
  length (file s) mod B = 0 /\ length (obuf s) < B /\
  blockEnds s = ends (file s ++ obuf s) /\
  (sorted s = true -> Asc (file s ++ obuf s)) /\
  (forall x, In x (file s ++ obuf s) -> sorted s = true -> (x <= last s)%N) /\
  curBlock s = None /\
  (forall x, In x added -> (x <= u64max)%N) /\
  bloom_ok s added excluded /\ bounds_ok s added.

Definition closed_inv (s : idset) (added excluded : list N) : Prop :=
  closed s = true /\ sorted s = true /\
  Permutation (file s) added /\ Asc (file s) /\
  (blockEnds s = ends (file s) \/ blockEnds s = ends (file s) ++ [biggest s]) /\
  (forall b, curBlock s = Some b -> curBuf s = readAt (file s) (b * B) B) /\
  bloom_ok s added excluded /\ bounds_ok s added.

Lemma memN_In x l : memN x l = true <-> In x l.
Proof.
  unfold memN. rewrite existsb_exists. split.
  - intros (y & Hy & E). apply N.eqb_eq in E. subst; assumption.
  - intros H. exists x. split; [assumption|apply N.eqb_refl].
Qed.

Lemma hposs_In id i : i < 5 -> In (hpos murmur id i) (hposs murmur id).
Proof. intros H. unfold hposs. apply in_map, in_seq. lia. Qed.


Lemma open_init : open_inv initSet [] [].
Proof.
  unfold open_inv, initSet, bloom_ok, bounds_ok; cbn [closed file obuf sorted last curBlock
    blockEnds hasInv bits nbits smallest biggest app length].
  split; [reflexivity|]. split; [constructor|].
  split; [apply Nat.mod_0_l; lia|]. split; [lia|].
  split. { unfold ends. cbn. rewrite Nat.div_0_l by lia. reflexivity. }
  split; [constructor|]. split; [intros x []|]. split; [reflexivity|].
  split; [intros x []|].
  split.
  - split; [intros x i []|]. split; [intros x i []|]. tauto.
  - split; [intros x []|]. split; [auto|]. intros H. congruence.
Qed.

Lemma bloom_add s A E id bs : bloom_ok s A E ->
  forall s', bits s' = hposs murmur id ++ bits s -> nbits s' = nbits s -> hasInv s' = hasInv s ->
  bs = id :: A -> bloom_ok s' bs E.
Proof.
  intros (H1 & H2 & H3) s' Eb En Eh ->. unfold bloom_ok. rewrite Eb, En, Eh.
  split; [|split; assumption].
  intros x i Hx Hi. apply memN_In. apply in_or_app.
  destruct Hx as [->|Hx]; [left; apply hposs_In; exact Hi|].
  right. apply memN_In. apply H1; assumption.
Qed.

Lemma add_open s A E id : (id < 2 ^ 64)%N -> open_inv s A E ->
  exists s', add B murmur s id = Some s' /\ open_inv s' (id :: A) E.
Proof.
  intros Hid' (Hc & Hp & Hm & Hl & He & Hs & Hlast & Hcur & Hu & Hbl & Hbd).
  assert (Hid : (id <= u64max)%N) by (unfold u64max; lia).
  unfold add. rewrite Hc. eexists. split; [reflexivity|].
  unfold diskAdd.
  set (ob := obuf s ++ [id]).
  assert (Hob : length ob = S (length (obuf s))) by (unfold ob; rewrite app_length; cbn; lia).
  set (be := if length ob mod B =? 0 then blockEnds s ++ [id] else blockEnds s).
  assert (Hbe : be = ends ((file s ++ obuf s) ++ [id])).
  { rewrite ends_snoc, app_length, <- He. unfold be.
    replace ((length (file s) + length (obuf s) + 1) mod B) with (length ob mod B); [reflexivity|].
    rewrite Hob. replace (length (file s) + length (obuf s) + 1)
      with (length (file s) + S (length (obuf s))) by lia.
    rewrite (Nat.add_mod (length (file s))) by lia. rewrite Hm. cbn [plus].
    rewrite Nat.mod_mod by lia. reflexivity. }
  assert (Hperm : Permutation ((file s ++ obuf s) ++ [id]) (id :: A)).
  { rewrite <- Hp. symmetry. apply Permutation_cons_append. }
  assert (Hsorted : (if (id <? last s)%N then false else sorted s) = true ->
             Asc ((file s ++ obuf s) ++ [id]) /\
             (forall x, In x ((file s ++ obuf s) ++ [id]) -> (x <= id)%N)).
  { destruct (id <? last s)%N eqn:El; [discriminate|]. intros Hst.
    apply N.ltb_ge in El.
    assert (Hall : forall x, In x (file s ++ obuf s) -> (x <= id)%N).
    { intros x Hx. specialize (Hlast x Hx Hst). lia. }
    split.
    - apply Asc_app. split; [auto|]. split; [repeat constructor|].
      intros x y Hx [<-|[]]. auto.
    - intros x Hx. apply in_app_or in Hx. destruct Hx as [Hx|[<-|[]]]; [auto|lia]. }
  assert (Hbd' : forall s', smallest s' = (if (id <? smallest s)%N then id else smallest s) ->
                  biggest s' = (if (biggest s <? id)%N then id else biggest s) ->
                  bounds_ok s' (id :: A)).
  { intros s' Es Eb. destruct Hbd as (B1 & B2 & B3). unfold bounds_ok. rewrite Es, Eb.
    split; [|split].
    - intros x [<-|Hx].
      + destruct (id <? smallest s)%N eqn:E1, (biggest s <? id)%N eqn:E2;
          rewrite ?N.ltb_lt, ?N.ltb_ge in *; lia.
      + specialize (B1 x Hx).
        destruct (id <? smallest s)%N eqn:E1, (biggest s <? id)%N eqn:E2;
          rewrite ?N.ltb_lt, ?N.ltb_ge in *; lia.
    - discriminate.
    - intros _. destruct (biggest s <? id)%N eqn:E2; [left; reflexivity|].
      apply N.ltb_ge in E2. destruct A as [|a A'].
      + destruct (B2 eq_refl) as [_ Hb0]. left. lia.
      + right. apply B3. discriminate. }
  assert (Hu' : forall x, In x (id :: A) -> (x <= u64max)%N).
  { intros x [<-|Hx]; auto. }
  destruct (B <=? length ob) eqn:Efull.
  - apply Nat.leb_le in Efull.
    assert (HobB : length ob = B) by lia.
    assert (Happ : file s ++ ob = (file s ++ obuf s) ++ [id])
      by (unfold ob; rewrite app_assoc; reflexivity).
    unfold open_inv. cbn [closed file obuf sorted last curBlock blockEnds hasInv bits nbits smallest biggest].
    rewrite app_nil_r, Happ.
    split; [exact Hc|]. split; [exact Hperm|].
    split. { rewrite <- Happ, app_length, HobB.
             rewrite Nat.add_mod by lia. rewrite Hm, Nat.mod_same by lia.
             apply Nat.mod_0_l. lia. }
    split; [cbn; lia|]. split; [exact Hbe|].
    split; [intros H; apply Hsorted in H; tauto|].
    split; [intros x Hx H; apply Hsorted in H; destruct H as [_ H]; auto|].
    split; [exact Hcur|]. split; [exact Hu'|].
    split; [apply (bloom_add s A E id _ Hbl); reflexivity|]. apply Hbd'; reflexivity.
  - apply Nat.leb_gt in Efull.
    assert (Happ : file s ++ ob = (file s ++ obuf s) ++ [id])
      by (unfold ob; rewrite app_assoc; reflexivity).
    unfold open_inv. cbn [closed file obuf sorted last curBlock blockEnds hasInv bits nbits smallest biggest].
    rewrite Happ.
    split; [exact Hc|]. split; [exact Hperm|].
    split; [exact Hm|].
    split; [exact Efull|]. split; [exact Hbe|].
    split; [intros H; apply Hsorted in H; tauto|].
    split; [intros x Hx H; apply Hsorted in H; destruct H as [_ H]; auto|].
    split; [exact Hcur|]. split; [exact Hu'|].
    split; [apply (bloom_add s A E id _ Hbl); reflexivity|]. apply Hbd'; reflexivity.
Qed.

Lemma nadd_open s A E id : open_inv s A E ->
  exists s', nadd murmur s id = Some s' /\ open_inv s' A (id :: E).
Proof.
  intros (Hc & Hp & Hm & Hl & He & Hs & Hlast & Hcur & Hu & Hbl & Hbd).
  unfold nadd. rewrite Hc. eexists. split; [reflexivity|].
  unfold open_inv. cbn [closed file obuf sorted last curBlock blockEnds hasInv bits nbits smallest biggest].
  split; [reflexivity|]. split; [exact Hp|]. split; [exact Hm|]. split; [exact Hl|].
  split; [exact He|]. split; [exact Hs|]. split; [exact Hlast|]. split; [exact Hcur|].
  split; [exact Hu|]. split; [|exact Hbd].
  destruct Hbl as (H1 & H2 & H3). unfold bloom_ok. cbn [bits nbits hasInv].
  split; [exact H1|]. split.
  - intros x i Hx Hi. apply memN_In. apply in_or_app.
    destruct Hx as [->|Hx]; [left; apply hposs_In; exact Hi|].
    right. apply memN_In. apply H2; assumption.
  - split; discriminate.
Qed.

Lemma close_ok s A E : open_inv s A E ->
  exists s', closeSet B S_ s = Some s' /\ closed_inv s' A E.
Proof.
  intros (Hc & Hp & Hm & Hl & He & Hs & Hlast & Hcur & Hu & Hbl & Hbd).
  unfold closeSet. cbn [sorted].
  destruct (sorted s) eqn:Es.
  - eexists. split; [reflexivity|].
    unfold closed_inv. cbn [closed file obuf sorted last curBlock curBuf blockEnds hasInv bits nbits smallest biggest].
    split; [reflexivity|]. split; [reflexivity|]. split; [exact Hp|]. split; [auto|].
    split; [right; rewrite He; reflexivity|].
    split; [rewrite Hcur; discriminate|]. split; assumption.
  - match goal with |- context [sortFile B S_ ?x] => set (s1 := x) end.
    destruct (sortFile_spec s1) as (out & Hout & Ho & Hpo).
    { intros x Hx. apply Hu. eapply Permutation_in; [exact Hp|]. exact Hx. }
    rewrite Hout. eexists. split; [reflexivity|].
    unfold closed_inv. cbn [closed file obuf sorted last curBlock curBuf blockEnds hasInv bits nbits smallest biggest s1].
    split; [reflexivity|]. split; [reflexivity|].
    split; [rewrite Hpo; exact Hp|]. split; [exact Ho|].
    split; [left; reflexivity|].
    split; [rewrite Hcur; discriminate|]. split; assumption.
Qed.

Lemma diskHas_ok s A E id : closed_inv s A E ->
  (smallest s <= id <= biggest s)%N ->
  exists b s', diskHas B s id = Some (b, s') /\ closed_inv s' A E /\
    file s' = file s /\ blockEnds s' = blockEnds s /\
    (b = true <-> In id A).
Proof.
  intros Hinv Hrange.
  pose proof Hinv as (Hc & Hst & Hp & Hs & Hbe & Hcur & Hbl & Hbd).
  assert (HinA : forall x, In x (file s) <-> In x A).
  { intros x. split; apply Permutation_in; [exact Hp|symmetry; exact Hp]. }
  destruct Hbd as (Hb1 & Hb2 & Hb3).
  assert (HA : A <> []).
  { intros ->. destruct (Hb2 eq_refl) as [H1 H2]. rewrite H1, H2 in Hrange.
    unfold u64max in Hrange. lia. }
  specialize (Hb3 HA).
  assert (Hbig : forall x, In x (file s) -> (x <= biggest s)%N).
  { intros x Hx. apply Hb1. apply HinA. exact Hx. }
  assert (Hbes : Asc (blockEnds s)).
  { destruct Hbe as [->| ->]; [apply ends_Asc; exact Hs|].
    apply Asc_app. split; [apply ends_Asc; exact Hs|]. split; [repeat constructor|].
    intros x y Hx [<-|[]]. apply Hbig. apply ends_In with (1 := Hx). }
  assert (Hbein : forall x, In x (blockEnds s) -> In x A).
  { intros x Hx. destruct Hbe as [Hbe|Hbe]; rewrite Hbe in Hx.
    - apply HinA. apply ends_In with (1 := Hx).
    - apply in_app_or in Hx. destruct Hx as [Hx|[<-|[]]]; [|exact Hb3].
      apply HinA. apply ends_In with (1 := Hx). }
  unfold diskHas, lower_bound, upper_bound. rewrite Hst. cbn [negb].
  rewrite (proj2 (sortedb_Asc (blockEnds s)) Hbes).
  pose proof (lowerIdx_hit (blockEnds s) id Hbes) as Hhit.
  destruct (nth_error (blockEnds s) (lowerIdx (blockEnds s) id)) as [e|] eqn:En.
  2: assert (Hnb : ~ In id (blockEnds s)) by (intros H; apply Hhit in H; discriminate).
  1: destruct (e =? id)%N eqn:Ee.
  { apply N.eqb_eq in Ee. subst e.
    exists true, s. split; [reflexivity|]. split; [exact Hinv|].
    split; [reflexivity|]. split; [reflexivity|]. split; [|reflexivity].
    intros _. apply Hbein. apply Hhit. reflexivity. }
  1: assert (Hnb : ~ In id (blockEnds s))
       by (intros H; apply Hhit in H; injection H as ->; rewrite N.eqb_refl in Ee; discriminate).
  all: set (block := upperIdx (blockEnds s) id).
  all: assert (Hblock : In id A <-> In id (readAt (file s) (block * B) B)).
  1,3: (rewrite <- HinA; split;
    [|intros H; apply In_nth_error in H; destruct H as [i Hi];
      rewrite nth_error_readAt in Hi; destruct (i <? B); [|discriminate];
      eapply nth_error_In; exact Hi];
    intros H; apply In_nth_error in H; destruct H as [p Hpn];
    set (q := p / B);
    pose proof (Nat.div_mod p B ltac:(lia)) as Hdm; fold q in Hdm;
    pose proof (Nat.mod_upper_bound p B ltac:(lia)) as Hmb;
    assert (Hplt : p < length (file s)) by (apply nth_error_Some; rewrite Hpn; discriminate);
    assert (Hqle : q <= length (file s) / B) by (apply Nat.div_le_mono; lia);
    assert (Hbl_eq : block = q);
    [|apply (nth_error_In _ (p mod B)); rewrite nth_error_readAt;
      apply Nat.ltb_lt in Hmb; rewrite Hmb, Hbl_eq, <- Hpn; f_equal; lia];
    assert (Hlow : forall i x, i < length (file s) / B -> nth_error (blockEnds s) i = Some x ->
               nth_error (file s) (i * B + (B - 1)) = Some x)
      by (intros i x Hi Hx; rewrite <- ends_nth by exact Hi;
          destruct Hbe as [Hbe|Hbe]; rewrite Hbe in Hx; [exact Hx|];
          rewrite nth_error_app1 in Hx by (rewrite ends_length; exact Hi); exact Hx);
    apply Nat.le_antisymm;
    [ apply upperIdx_ub; intros x Hx;
      assert (Hxne : x <> id) by (intros ->; apply Hnb; eapply nth_error_In; exact Hx);
      destruct (le_lt_dec (length (file s) / B) q) as [Hge|Hltq];
      [ assert (q = length (file s) / B) as Hqe by lia;
        destruct Hbe as [Hbe|Hbe]; rewrite Hbe in Hx;
        [ assert (nth_error (ends (file s)) q = None)
            by (apply nth_error_None; rewrite ends_length; lia); congruence
        | rewrite nth_error_app2 in Hx by (rewrite ends_length; lia);
          rewrite ends_length, Hqe, Nat.sub_diag in Hx; cbn in Hx; injection Hx as <-;
          assert (id <= biggest s)%N by (apply Hbig; eapply nth_error_In; exact Hpn); lia ]
      | specialize (Hlow q x Hltq Hx);
        assert (id <= x)%N by (eapply (Asc_nth (file s) Hs p (q * B + (B - 1)));
          [lia|exact Hpn|exact Hlow]); lia ]
    | apply upperIdx_lb;
      [ intros i x Hi Hx; assert (Hil : i < length (file s) / B) by lia;
        specialize (Hlow i x Hil Hx);
        eapply (Asc_nth (file s) Hs (i * B + (B - 1)) p); [|exact Hlow|exact Hpn];
        assert (S i <= q) as Hsi by lia; apply (Nat.mul_le_mono_l _ _ B) in Hsi; lia
      | destruct Hbe as [Hbe|Hbe]; rewrite Hbe, ?app_length, ends_length; cbn; lia ]]).
  all: match goal with |- context [curBuf ?x] => set (s1 := x) end.
  all: assert (Hs1 : curBuf s1 = readAt (file s) (block * B) B /\ closed_inv s1 A E /\
            file s1 = file s /\ blockEnds s1 = blockEnds s).
  1,3: (unfold s1; destruct (curBlock s) as [cb|] eqn:Ecb;
     [destruct (cb =? block) eqn:Ecmp;
       [apply Nat.eqb_eq in Ecmp; subst cb; split; [apply Hcur; reflexivity|split; [exact Hinv|auto]]|]|];
     (split; [reflexivity|]; split; [|auto];
      unfold closed_inv; cbn [closed file obuf sorted last curBlock curBuf blockEnds hasInv bits nbits smallest biggest];
      repeat (split; [first [assumption|reflexivity]|]);
      split; [intros b Hb; injection Hb as <-; reflexivity|];
      split; [exact Hbl|]; split; [exact Hb1|split; [exact Hb2|intros _; exact Hb3]])).
  all: destruct Hs1 as (Hbuf & Hinv1 & Hf1 & Hbe1).
  all: assert (Hbs : Asc (curBuf s1)) by (rewrite Hbuf; unfold readAt;
         pose proof (skipn_Asc (file s) (block * B) Hs) as Hsk;
         rewrite <- (firstn_skipn B) in Hsk; apply Asc_app in Hsk; tauto).
  all: rewrite <- Hbuf in Hblock.
  all: destruct (curBuf s1) as [|x rest] eqn:Ebuf;
    [exists false, s1; split; [reflexivity|]; split; [exact Hinv1|]; split; [exact Hf1|];
     split; [exact Hbe1|]; rewrite Hblock; split; [discriminate|intros []]|].
  all: destruct (id <? x)%N eqn:Ex;
    [apply N.ltb_lt in Ex; exists false, s1; split; [reflexivity|]; split; [exact Hinv1|]; split; [exact Hf1|];
     split; [exact Hbe1|]; rewrite Hblock; split; [discriminate|];
     intros [->|Hin]; [lia|]; inversion Hbs as [|? ? _ Hfa]; subst;
     rewrite Forall_forall in Hfa; specialize (Hfa id Hin); lia|].
  all: destruct (bsearch_spec (x :: rest) id Hbs (length (x :: rest) + 1) 0
            (Z.of_nat (length (x :: rest)) - 1)) as (b & Hb & Hbt);
    [lia|lia|lia|lia|lia
    |intros i y Hi _; assert (i < length (x :: rest)) by (apply nth_error_Some; rewrite Hi; discriminate); lia
    |rewrite Hb; exists b, s1; split; [reflexivity|]; split; [exact Hinv1|]; split; [exact Hf1|];
     split; [exact Hbe1|]; rewrite Hblock; exact Hbt].
Qed.

Lemma bloomLoop_cases s hs :
  (forall h, In h hs -> memN h (bits s) = true) /\
    ((exists h, In h hs /\ hasInv s = true /\ memN h (nbits s) = false) ->
       bloomLoop s hs = Some true) /\
    (~ (exists h, In h hs /\ hasInv s = true /\ memN h (nbits s) = false) ->
       bloomLoop s hs = None) \/
  (exists h, In h hs /\ memN h (bits s) = false) /\
    (bloomLoop s hs = Some false \/
     bloomLoop s hs = Some true /\
       exists h, In h hs /\ hasInv s = true /\ memN h (nbits s) = false).
Proof.
  induction hs as [|h t IH]; cbn [bloomLoop].
  - left. split; [intros h []|]. split; [intros (h & [] & _)|reflexivity].
  - destruct (memN h (bits s)) eqn:E1; cbn [negb].
    2:{ right. split; [exists h; split; [left; reflexivity|exact E1]|left; reflexivity]. }
    destruct (hasInv s && negb (memN h (nbits s))) eqn:E2.
    + apply andb_true_iff in E2. destruct E2 as [E2 E3]. apply negb_true_iff in E3.
      assert (Hex : exists h0, In h0 (h :: t) /\ hasInv s = true /\ memN h0 (nbits s) = false).
      { exists h. split; [left; reflexivity|auto]. }
      destruct IH as [(H1 & H2 & H3)|((h1 & Hh1 & Hh2) & H2)].
      * left. split; [intros h0 [<-|Hh0]; auto|]. split; [reflexivity|].
        intros Hn. exfalso. auto.
      * right. split; [exists h1; split; [right; exact Hh1|exact Hh2]|].
        right. split; [reflexivity|exact Hex].
    + assert (Hno : hasInv s = true -> memN h (nbits s) = true).
      { intros Hh. rewrite Hh in E2. cbn in E2. apply negb_false_iff in E2. exact E2. }
      destruct IH as [(H1 & H2 & H3)|((h1 & Hh1 & Hh2) & H2)].
      * left. split; [intros h0 [<-|Hh0]; auto|]. split.
        -- intros (h0 & [<-|Hin] & Hi & Hm); [rewrite (Hno Hi) in Hm; discriminate|].
           apply H2. eauto.
        -- intros Hn. apply H3. intros (h0 & Hin & Hr). apply Hn. exists h0. split; [right; exact Hin|exact Hr].
      * right. split; [exists h1; split; [right; exact Hh1|exact Hh2]|].
        destruct H2 as [H2|(H2 & h0 & Hin & Hr)]; [left; exact H2|right].
        split; [exact H2|]. exists h0. split; [right; exact Hin|exact Hr].
Qed.

Lemma has_ok s0 A E id :
  open_inv s0 A E \/ closed_inv s0 A E ->
  exists b s', has B S_ murmur s0 id = Some (b, s') /\ closed_inv s' A E /\
    (closed s0 = true -> file s' = file s0 /\ blockEnds s' = blockEnds s0) /\
    (In id A -> b = true) /\ (~ In id A -> E = [] \/ In id E -> b = false).
Proof.
  intros Hinv0. unfold has.
  assert (Hcl : exists s, (if closed s0 then Some s0 else closeSet B S_ s0) = Some s /\
                     closed_inv s A E /\ (closed s0 = true -> s = s0)).
  { destruct Hinv0 as [Ho|Hc].
    - pose proof Ho as (Hc & _). rewrite Hc. destruct (close_ok s0 A E Ho) as (s & H1 & H2).
      exists s. split; [exact H1|]. split; [exact H2|discriminate].
    - pose proof Hc as (Hcc & _). rewrite Hcc. exists s0. auto. }
  destruct Hcl as (s & -> & Hinv & Hsame).
  pose proof Hinv as (Hc & Hst & Hp & Hs & Hbe & Hcur & Hbl & Hbd).
  assert (Hfile : closed s0 = true -> file s = file s0 /\ blockEnds s = blockEnds s0).
  { intros H. rewrite (Hsame H). auto. }
  destruct Hbd as (Hb1 & Hb2 & Hb3). destruct Hbl as (Hl1 & Hl2 & Hl3).
  assert (Hin_hs : forall h, In h (hposs murmur id) -> exists i, i < 5 /\ h = hpos murmur id i).
  { intros h Hh. unfold hposs in Hh. apply in_map_iff in Hh. destruct Hh as (i & <- & Hi).
    apply in_seq in Hi. exists i. split; [lia|reflexivity]. }
  destruct ((id <? smallest s)%N || (biggest s <? id)%N) eqn:Er.
  { apply orb_true_iff in Er. rewrite !N.ltb_lt in Er.
    exists false, s. split; [reflexivity|]. split; [exact Hinv|]. split; [exact Hfile|].
    split; [|reflexivity]. intros HinA. specialize (Hb1 id HinA). lia. }
  apply orb_false_iff in Er. rewrite !N.ltb_ge in Er.
  assert (Hnotexcl : (exists h, In h (hposs murmur id) /\ hasInv s = true /\ memN h (nbits s) = false) ->
           E = [] \/ In id E -> False).
  { intros (h & Hh & Hi & Hm) [He|He].
    - apply Hl3 in He. congruence.
    - destruct (Hin_hs h Hh) as (i & Hi5 & ->). rewrite (Hl2 id i He Hi5) in Hm. discriminate. }
  destruct (bloomLoop_cases s (hposs murmur id)) as [(H1 & H2 & H3)|((h & Hh & Hhm) & H2)].
  - destruct (hasInv s && existsb (fun h => negb (memN h (nbits s))) (hposs murmur id)) eqn:Eex.
    + apply andb_true_iff in Eex. destruct Eex as [Ei Ee]. apply existsb_exists in Ee.
      destruct Ee as (h & Hh & Hn). apply negb_true_iff in Hn.
      assert (Hex : exists h, In h (hposs murmur id) /\ hasInv s = true /\ memN h (nbits s) = false) by eauto.
      rewrite (H2 Hex). exists true, s. split; [reflexivity|]. split; [exact Hinv|].
      split; [exact Hfile|]. split; [reflexivity|].
      intros _ HE. exfalso. exact (Hnotexcl Hex HE).
    + rewrite H3.
      2:{ intros (h & Hh & Hi & Hm). rewrite Hi in Eex. cbn [andb] in Eex.
          assert (existsb (fun h => negb (memN h (nbits s))) (hposs murmur id) = true).
          { apply existsb_exists. exists h. split; [exact Hh|]. rewrite Hm. reflexivity. }
          congruence. }
      destruct (diskHas_ok s A E id Hinv Er) as (b & s' & Hd & Hinv' & Hf & Hb & Hbt).
      rewrite Hd. exists b, s'. split; [reflexivity|]. split; [exact Hinv'|].
      split; [intros H; destruct (Hfile H); split; congruence|].
      split; [apply Hbt|]. intros Hn _. destruct b; [|reflexivity].
      exfalso. apply Hn, Hbt. reflexivity.
  - assert (HnA : ~ In id A).
    { intros HA. destruct (Hin_hs h Hh) as (i & Hi5 & ->). rewrite (Hl1 id i HA Hi5) in Hhm. discriminate. }
    destruct H2 as [H2|(H2 & Hex)]; rewrite H2.
    + exists false, s. split; [reflexivity|]. split; [exact Hinv|]. split; [exact Hfile|].
      split; [tauto|reflexivity].
    + exists true, s. split; [reflexivity|]. split; [exact Hinv|]. split; [exact Hfile|].
      split; [tauto|]. intros _ HE. exfalso. exact (Hnotexcl Hex HE).
Qed.

Definition inv (q : bool) (s : idset) (A E : list N) : Prop :=
  if q then closed_inv s A E else open_inv s A E.

Theorem run_conforms_gen ops : forall s A E q,
  u64_ops ops -> inv q s A E ->
  exists s' outs, run B S_ murmur s ops = Some (s', outs) /\ conforms A E q ops outs.
Proof.
  induction ops as [|o ops IH]; intros s A E q Hu Hinv.
  - exists s, []. split; reflexivity.
  - inversion Hu as [|? ? Ho Hu']; subst. cbn [run step].
    destruct o as [id|id|id]; cbn [step op_id] in Ho |- *.
    + destruct q; cbn [inv] in Hinv.
      * unfold add. pose proof Hinv as (Hc & _). rewrite Hc.
        destruct (IH s A E true Hu' Hinv) as (s' & outs & Hr & Hcf). rewrite Hr.
        eexists _, _. split; [reflexivity|]. cbn. auto.
      * destruct (add_open s A E id Ho Hinv) as (s1 & Ha & Hinv1). rewrite Ha.
        destruct (IH s1 (id :: A) E false Hu' Hinv1) as (s' & outs & Hr & Hcf). rewrite Hr.
        eexists _, _. split; [reflexivity|]. cbn. auto.
    + destruct q; cbn [inv] in Hinv.
      * unfold nadd. pose proof Hinv as (Hc & _). rewrite Hc.
        destruct (IH s A E true Hu' Hinv) as (s' & outs & Hr & Hcf). rewrite Hr.
        eexists _, _. split; [reflexivity|]. cbn. auto.
      * destruct (nadd_open s A E id Hinv) as (s1 & Ha & Hinv1). rewrite Ha.
        destruct (IH s1 A (id :: E) false Hu' Hinv1) as (s' & outs & Hr & Hcf). rewrite Hr.
        eexists _, _. split; [reflexivity|]. cbn. auto.
    + assert (Hor : open_inv s A E \/ closed_inv s A E) by (destruct q; [right|left]; exact Hinv).
      destruct (has_ok s A E id Hor) as (b & s1 & Hh & Hinv1 & _ & Hb1 & Hb2). rewrite Hh.
      destruct (IH s1 A E true Hu' Hinv1) as (s' & outs & Hr & Hcf). rewrite Hr.
      eexists _, _. split; [reflexivity|]. cbn. split; [|exact Hcf].
      exists b. auto.
Qed.

Theorem run_conforms ops : u64_ops ops ->
  exists s' outs, run B S_ murmur initSet ops = Some (s', outs) /\ conforms [] [] false ops outs.
Proof. intros Hu. apply run_conforms_gen; [exact Hu|exact open_init]. Qed.

(** The state after a history. *)
Definition everQueried (ops : list op) : bool :=
  existsb (fun o => match o with OpHas _ => true | _ => false end) ops.

Lemma run_state_closed ops : forall s A E, closed_inv s A E ->
  u64_ops ops ->
  exists s' outs, run B S_ murmur s ops = Some (s', outs) /\ closed_inv s' A E /\
    file s' = file s /\ blockEnds s' = blockEnds s.
Proof.
  induction ops as [|o ops IH]; intros s A E Hinv Hu.
  - exists s, []. auto.
  - inversion Hu as [|? ? Ho Hu']; subst. pose proof Hinv as (Hc & _). cbn [run step].
    destruct o as [id|id|id]; cbn [step op_id] in Ho |- *.
    + unfold add. rewrite Hc. destruct (IH s A E Hinv Hu') as (s' & outs & Hr & H). rewrite Hr. eauto.
    + unfold nadd. rewrite Hc. destruct (IH s A E Hinv Hu') as (s' & outs & Hr & H). rewrite Hr. eauto.
    + destruct (has_ok s A E id (or_intror Hinv)) as (b & s1 & Hh & Hinv1 & Hf & _). rewrite Hh.
      destruct (Hf Hc) as [Hf1 Hf2].
      destruct (IH s1 A E Hinv1 Hu') as (s' & outs & Hr & H1 & H2 & H3). rewrite Hr.
      eexists _, _. split; [reflexivity|]. split; [exact H1|]. split; congruence.
Qed.

Lemma run_state ops : forall s A E, open_inv s A E -> u64_ops ops ->
  exists s' outs, run B S_ murmur s ops = Some (s', outs) /\
    (everQueried ops = true -> exists E', closed_inv s' (rev (added_of ops) ++ A) E').
Proof.
  induction ops as [|o ops IH]; intros s A E Hinv Hu.
  - exists s, []. split; [reflexivity|]. discriminate.
  - inversion Hu as [|? ? Ho Hu']; subst. cbn [run step].
    destruct o as [id|id|id]; cbn [step op_id] in Ho |- *.
    + destruct (add_open s A E id Ho Hinv) as (s1 & Ha & Hinv1). rewrite Ha.
      destruct (IH s1 (id :: A) E Hinv1 Hu') as (s' & outs & Hr & H). rewrite Hr.
      eexists _, _. split; [reflexivity|]. cbn [everQueried existsb orb added_of rev].
      intros Hq. destruct (H Hq) as (E' & HE). exists E'. rewrite <- app_assoc. exact HE.
    + destruct (nadd_open s A E id Hinv) as (s1 & Ha & Hinv1). rewrite Ha.
      destruct (IH s1 A (id :: E) Hinv1 Hu') as (s' & outs & Hr & H). rewrite Hr.
      eexists _, _. split; [reflexivity|]. exact H.
    + destruct (has_ok s A E id (or_introl Hinv)) as (b & s1 & Hh & Hinv1 & _). rewrite Hh.
      destruct (run_state_closed ops s1 A E Hinv1 Hu') as (s' & outs & Hr & H1 & H2 & H3). rewrite Hr.
      eexists _, _. split; [reflexivity|]. intros _. exists E. exact H1.
Qed.

(** Sort layout: after a history with a query the backing file is ascending and
    holds exactly the added ids, each as often as added; the k-th block end is
    the last id of the k-th full block. *)
Theorem file_sorted ops s' outs : u64_ops ops -> everQueried ops = true ->
  run B S_ murmur initSet ops = Some (s', outs) ->
  StronglySorted N.le (file s') /\ Permutation (file s') (added_of ops) /\
  (forall k, (k + 1) * B <= length (file s') ->
     nth_error (blockEnds s') k = nth_error (file s') (k * B + (B - 1))).
Proof.
  intros Hu Hq Hr.
  destruct (run_state ops initSet [] [] open_init Hu) as (s1 & outs1 & Hr1 & H).
  rewrite Hr in Hr1. injection Hr1 as <- <-.
  destruct (H Hq) as (E' & (_ & _ & Hp & Hs & Hbe & _)).
  split; [exact Hs|]. split.
  - rewrite app_nil_r in Hp. rewrite Hp. symmetry. apply Permutation_rev.
  - intros k Hk.
    assert (Hk' : k < length (file s') / B).
    { apply Nat.div_le_lower_bound; lia. }
    destruct Hbe as [->| ->].
    + apply ends_nth. exact Hk'.
    + rewrite nth_error_app1 by (rewrite ends_length; exact Hk'). apply ends_nth. exact Hk'.
Qed.

Lemma file_sorted_props ops s' outs : u64_ops ops -> (exists id, In (OpHas id) ops) ->
  run B S_ murmur initSet ops = Some (s', outs) ->
  StronglySorted N.le (file s') /\ Permutation (file s') (added_of ops) /\
  (forall k, (k + 1) * B <= length (file s') ->
     nth_error (blockEnds s') k = nth_error (file s') (k * B + (B - 1))).
Proof.
  intros Hu (id & Hq) Hr. apply (file_sorted ops s' outs Hu); [|exact Hr].
  apply existsb_exists. exists (OpHas id). auto.
Qed.

(** *** Direct forms *)
Fixpoint adds (ops : list op) : list N :=
  match ops with [] => [] | OpAdd i :: t => i :: adds t | _ :: t => adds t end.
Fixpoint nadds (ops : list op) : list N :=
  match ops with [] => [] | OpNadd i :: t => i :: nadds t | _ :: t => nadds t end.
Lemma adds_In ops id : In id (adds ops) <-> In (OpAdd id) ops.
Proof.
  induction ops as [|[i|i|i] t IH]; cbn; [tauto|..]; rewrite IH; split; intros [H|H] || intros H; auto;
    try (left; congruence); try (right; assumption); try discriminate; try (destruct H as [H|H]; [discriminate|assumption]).
Qed.
Lemma nadds_In ops id : In id (nadds ops) <-> In (OpNadd id) ops.
Proof.
  induction ops as [|[i|i|i] t IH]; cbn; [tauto|..]; rewrite IH; split; intros [H|H] || intros H; auto;
    try (left; congruence); try (right; assumption); try discriminate; try (destruct H as [H|H]; [discriminate|assumption]).
Qed.

Lemma run_pre pre : forall s A E, open_inv s A E -> u64_ops pre ->
  (forall o, In o pre -> match o with OpHas _ => False | _ => True end) ->
  exists s' outs, run B S_ murmur s pre = Some (s', outs) /\
     open_inv s' (rev (adds pre) ++ A) (rev (nadds pre) ++ E).
Proof.
  induction pre as [|o pre IH]; intros s A E Hinv Hu Hno.
  - exists s, []. auto.
  - inversion Hu as [|? ? Ho Hu']; subst. cbn [run].
    assert (Hno' : forall o, In o pre -> match o with OpHas _ => False | _ => True end)
      by (intros o' Ho'; apply Hno; right; exact Ho').
    destruct o as [id|id|id]; cbn [step op_id] in Ho |- *.
    + destruct (add_open s A E id Ho Hinv) as (s1 & Ha & Hinv1). rewrite Ha.
      destruct (IH s1 _ _ Hinv1 Hu' Hno') as (s' & outs & Hr & H). rewrite Hr.
      eexists _, _. split; [reflexivity|]. cbn [adds nadds rev]. rewrite <- app_assoc. exact H.
    + destruct (nadd_open s A E id Hinv) as (s1 & Ha & Hinv1). rewrite Ha.
      destruct (IH s1 _ _ Hinv1 Hu' Hno') as (s' & outs & Hr & H). rewrite Hr.
      eexists _, _. split; [reflexivity|]. cbn [adds nadds rev]. rewrite <- app_assoc. exact H.
    + exfalso. exact (Hno _ (or_introl eq_refl)).
Qed.

Lemma run_app s a b s1 o1 : run B S_ murmur s a = Some (s1, o1) ->
  run B S_ murmur s (a ++ b) =
  match run B S_ murmur s1 b with Some (s2, o2) => Some (s2, o1 ++ o2) | None => None end.
Proof.
  revert s o1. induction a as [|x a IH]; intros s o1 H; cbn [app run] in *.
  - injection H as <- <-. destruct (run B S_ murmur s b) as [[]|]; reflexivity.
  - destruct (step B S_ murmur s x) as [[s2 r]|]; [|discriminate].
    destruct (run B S_ murmur s2 a) as [[s3 rs]|] eqn:E; [|discriminate].
    injection H as <- <-. rewrite (IH s2 rs E).
    destruct (run B S_ murmur s3 b) as [[]|]; reflexivity.
Qed.

Lemma direct_query pre qs id :
  (forall o, In o pre -> match o with OpHas _ => False | _ => True end) ->
  u64_ops pre -> u64_ops (map OpHas qs) ->
  exists s outs s' b, run B S_ murmur initSet (pre ++ map OpHas qs) = Some (s, outs) /\
    step B S_ murmur s (OpHas id) = Some (s', Answer b) /\
    (In (OpAdd id) pre -> b = true) /\
    (~ In (OpAdd id) pre -> nadds pre = [] \/ In (OpNadd id) pre -> b = false).
Proof.
  intros Hno Hu Huq.
  destruct (run_pre pre initSet [] [] open_init Hu Hno) as (s1 & o1 & Hr1 & Hinv1).
  rewrite !app_nil_r in Hinv1.
  set (A := rev (adds pre)) in *. set (E := rev (nadds pre)) in *.
  assert (HA : forall x, In x A <-> In (OpAdd x) pre).
  { intros x. unfold A. rewrite <- in_rev. apply adds_In. }
  assert (HE : forall x, In x E <-> In (OpNadd x) pre).
  { intros x. unfold E. rewrite <- in_rev. apply nadds_In. }
  assert (HE0 : nadds pre = [] -> E = []) by (unfold E; intros ->; reflexivity).
  assert (Hmid : exists s2 o2, run B S_ murmur s1 (map OpHas qs) = Some (s2, o2) /\
            (open_inv s2 A E \/ closed_inv s2 A E)).
  { destruct qs as [|q qs]; [exists s1, []; auto|].
    inversion Huq as [|? ? Hq Huq']; subst. cbn [map run step].
    destruct (has_ok s1 A E q (or_introl Hinv1)) as (b & s2 & Hh & Hinv2 & _). rewrite Hh.
    destruct (run_state_closed (map OpHas qs) s2 A E Hinv2 Huq') as (s3 & o3 & Hr3 & Hi3 & _).
    rewrite Hr3. eauto. }
  destruct Hmid as (s2 & o2 & Hr2 & Hinv2).
  destruct (has_ok s2 A E id Hinv2) as (b & s3 & Hh & _ & _ & Hb1 & Hb2).
  exists s2, (o1 ++ o2), s3, b.
  rewrite (run_app _ _ _ _ _ Hr1), Hr2. cbn [step]. rewrite Hh.
  split; [reflexivity|]. split; [reflexivity|]. rewrite <- HA, <- HE.
  split; [exact Hb1|]. intros Hn [H|H]; apply Hb2; auto.
Qed.

Lemma no_false_negative pre qs id :
  (forall o, In o pre -> match o with OpHas _ => False | _ => True end) ->
  u64_ops pre -> u64_ops (map OpHas qs) -> In (OpAdd id) pre ->
  exists s outs s', run B S_ murmur initSet (pre ++ map OpHas qs) = Some (s, outs) /\
                    step B S_ murmur s (OpHas id) = Some (s', Answer true).
Proof.
  intros Hno Hu Huq Hin.
  destruct (direct_query pre qs id Hno Hu Huq) as (s & outs & s' & b & H1 & H2 & H3 & _).
  rewrite (H3 Hin) in H2. eauto.
Qed.

Lemma exact_for_excluded pre qs id :
  (forall o, In o pre -> match o with OpHas _ => False | _ => True end) ->
  u64_ops pre -> u64_ops (map OpHas qs) ->
  ~ In (OpAdd id) pre -> In (OpNadd id) pre ->
  exists s outs s', run B S_ murmur initSet (pre ++ map OpHas qs) = Some (s, outs) /\
                    step B S_ murmur s (OpHas id) = Some (s', Answer false).
Proof.
  intros Hno Hu Huq Hn Hx.
  destruct (direct_query pre qs id Hno Hu Huq) as (s & outs & s' & b & H1 & H2 & _ & H4).
  rewrite (H4 Hn (or_intror Hx)) in H2. eauto.
Qed.

Lemma exact_without_exclusions added qs id :
  u64_ops (map OpAdd added) -> u64_ops (map OpHas qs) -> (id < 2 ^ 64)%N ->
  exists s outs s' b, run B S_ murmur initSet (map OpAdd added ++ map OpHas qs) = Some (s, outs) /\
                    step B S_ murmur s (OpHas id) = Some (s', Answer b) /\
                    (b = true <-> In id added).
Proof.
  intros Hu Huq _.
  assert (Hno : forall o, In o (map OpAdd added) -> match o with OpHas _ => False | _ => True end).
  { intros o Ho. apply in_map_iff in Ho. destruct Ho as (x & <- & _). exact I. }
  destruct (direct_query (map OpAdd added) qs id Hno Hu Huq) as (s & outs & s' & b & H1 & H2 & H3 & H4).
  assert (Hin : In (OpAdd id) (map OpAdd added) <-> In id added).
  { rewrite in_map_iff. split; [intros (x & Hx & Hi); injection Hx as <-; exact Hi|eauto]. }
  assert (Hn0 : nadds (map OpAdd added) = []).
  { clear. induction added as [|a l IH]; cbn; auto. }
  exists s, outs, s', b. split; [exact H1|]. split; [exact H2|]. split.
  - intros ->. destruct (in_dec N.eq_dec id added) as [Hi|Hi]; [exact Hi|].
    exfalso. assert (true = false) by (apply H4; [rewrite Hin; exact Hi|left; exact Hn0]). discriminate.
  - intros Hi. apply H3. apply Hin. exact Hi.
Qed.
End P.

(** The published MurmurHash3_x86_32 on the 8 little-endian bytes of an id with
    the seed used in OsmIdSet.cpp:59,80,163 (the submodule that contains the
    hash is not part of the checkout; used for the counterexample only). *)
Definition rotl32 (x r : N) : N := N.lor (u32 (N.shiftl x r)) (N.shiftr x (32 - r)).
Definition murmurRound (h k : N) : N :=
  let k1 := u32 (k * 0xcc9e2d51) in
  let k2 := u32 (rotl32 k1 15 * 0x1b873593) in
  u32 (rotl32 (N.lxor h k2) 13 * 5 + 0xe6546b64).
Definition murmur3 (id : N) : N :=
  let h := murmurRound (murmurRound 469954432 (u32 id)) (N.shiftr id 32) in
  let h1 := N.lxor h 8 in
  let h2 := u32 (N.lxor h1 (N.shiftr h1 16) * 0x85ebca6b) in
  let h3 := u32 (N.lxor h2 (N.shiftr h2 13) * 0xc2b2ae35) in
  N.lxor h3 (N.shiftr h3 16).

Lemma exact_for_all_refuted :
  exists ops id s outs s',
    u64_ops ops /\ ~ In (OpAdd id) ops /\ (id < 2 ^ 64)%N /\
    run (N.to_nat 65536) (N.to_nat 65536) murmur3 initSet ops = Some (s, outs) /\
    step (N.to_nat 65536) (N.to_nat 65536) murmur3 s (OpHas id) = Some (s', Answer true).
Proof.
  exists [OpAdd 1; OpAdd 4000000000; OpNadd 2]%N, 22397623%N.
  eexists _, _, _.
  split; [repeat constructor|].
  split; [intros [H|[H|[H|[]]]]; discriminate|].
  split; [reflexivity|].
  split; [vm_compute; reflexivity|]. vm_compute; reflexivity.
Qed.
