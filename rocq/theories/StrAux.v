(** String facts shared by the proofs (nothing here models code). *)
From Coq Require Import String Ascii List Arith NArith Bool Lia Permutation Sorted.
Import ListNotations.

Lemma str_app_nil_r : forall s, (s ++ "")%string = s.
Proof. induction s; cbn; congruence. Qed.
Lemma str_app_assoc : forall a b c, (a ++ (b ++ c))%string = ((a ++ b) ++ c)%string.
Proof. induction a; cbn; intros; congruence. Qed.
Lemma str_app_length : forall a b, String.length (a ++ b) = String.length a + String.length b.
Proof. induction a; cbn; intros; auto. Qed.
Lemma str_app_inj_l : forall a b c, (a ++ b)%string = (a ++ c)%string -> b = c.
Proof. induction a; cbn; intros b c H; auto. injection H; auto. Qed.
Lemma str_app_inj_len : forall a b c d, String.length a = String.length b ->
  (a ++ c)%string = (b ++ d)%string -> a = b /\ c = d.
Proof.
  induction a; intros [|x b] c d L H; cbn in *; try discriminate; auto.
  injection H as -> H. injection L as L. destruct (IHa _ _ _ L H). subst. auto.
Qed.
Lemma str_app_inj_r : forall a b c, (a ++ c)%string = (b ++ c)%string -> a = b.
Proof.
  intros a b c H. apply (str_app_inj_len a b c c); auto.
  apply (f_equal String.length) in H. rewrite !str_app_length in H. lia.
Qed.
Lemma str_len_0 : forall s, String.length s = 0 -> s = ""%string.
Proof. intros [|]; cbn; intros; auto; discriminate. Qed.

Lemma substring_full : forall s, substring 0 (String.length s) s = s.
Proof. induction s; cbn; congruence. Qed.
Lemma substring_app_l : forall a b, substring 0 (String.length a) (a ++ b) = a.
Proof. induction a; cbn; intros; [destruct b; reflexivity|congruence]. Qed.
Lemma substring_app_r : forall a b, substring (String.length a) (String.length b) (a ++ b) = b.
Proof. induction a; cbn; intros; [apply substring_full|auto]. Qed.
Lemma substring_split : forall n s, n <= String.length s ->
  s = (substring 0 n s ++ substring n (String.length s - n) s)%string.
Proof.
  induction n; intros s L.
  - rewrite Nat.sub_0_r, substring_full. destruct s; reflexivity.
  - destruct s; cbn in *; [lia|]. f_equal. apply IHn. lia.
Qed.
Lemma substring_length : forall s n m, n + m <= String.length s -> String.length (substring n m s) = m.
Proof.
  induction s; intros n m L; cbn in *.
  - assert (n = 0 /\ m = 0) as [-> ->] by lia. reflexivity.
  - destruct n; [destruct m; cbn; auto; f_equal; apply IHs; lia|apply IHs; lia].
Qed.
(** A string starts (ends) with [p]. *)
Lemma prefix_iff : forall p s, String.length p <= String.length s ->
  (substring 0 (String.length p) s = p <-> exists r, s = (p ++ r)%string).
Proof.
  intros p s L. split.
  - intros H. exists (substring (String.length p) (String.length s - String.length p) s).
    rewrite <- H at 1. apply substring_split; auto.
  - intros [r ->]. apply substring_app_l.
Qed.
Lemma suffix_iff : forall p s, String.length p <= String.length s ->
  (substring (String.length s - String.length p) (String.length p) s = p <-> exists r, s = (r ++ p)%string).
Proof.
  intros p s L. split.
  - intros H. exists (substring 0 (String.length s - String.length p) s).
    rewrite <- H at 2.
    rewrite (substring_split (String.length s - String.length p) s) at 1 by lia.
    f_equal. f_equal. lia.
  - intros [r ->]. rewrite str_app_length.
    replace (String.length r + String.length p - String.length p) with (String.length r) by lia.
    apply substring_app_r.
Qed.

(** The byte-wise order of strings. *)
Lemma ltb_irrefl : forall s, String.ltb s s = false.
Proof.
  intros s. unfold String.ltb. replace (String.compare s s) with Eq; auto.
  induction s; cbn; auto. unfold Ascii.compare. rewrite N.compare_refl. auto.
Qed.
Lemma compare_lt_trans : forall a b c, String.compare a b = Lt -> String.compare b c = Lt -> String.compare a c = Lt.
Proof.
  induction a as [|x a IH]; intros [|y b] [|z c] H1 H2; cbn in *; try discriminate; auto.
  unfold Ascii.compare in *.
  destruct (N.compare (N_of_ascii x) (N_of_ascii y)) eqn:E1; try discriminate;
  destruct (N.compare (N_of_ascii y) (N_of_ascii z)) eqn:E2; try discriminate.
  - apply N.compare_eq_iff in E1, E2. rewrite E1, E2, N.compare_refl. eauto.
  - apply N.compare_eq_iff in E1. rewrite E1, E2. auto.
  - apply N.compare_eq_iff in E2. rewrite <- E2, E1. auto.
  - rewrite N.compare_lt_iff in E1, E2. assert (N_of_ascii x < N_of_ascii z)%N as E by lia.
    rewrite <- N.compare_lt_iff in E. rewrite E. auto.
Qed.
Lemma ltb_trans : forall a b c, String.ltb a b = true -> String.ltb b c = true -> String.ltb a c = true.
Proof.
  unfold String.ltb. intros a b c H1 H2.
  destruct (String.compare a b) eqn:E1; try discriminate.
  destruct (String.compare b c) eqn:E2; try discriminate.
  rewrite (compare_lt_trans _ _ _ E1 E2). reflexivity.
Qed.
Lemma ltb_total : forall a b, String.ltb a b = true \/ a = b \/ String.ltb b a = true.
Proof.
  intros a b. unfold String.ltb. rewrite (String.compare_antisym b a).
  destruct (String.compare a b) eqn:E; cbn; auto. right; left. apply String.compare_eq_iff; auto.
Qed.
Lemma ltb_asym : forall a b, String.ltb a b = true -> String.ltb b a = false.
Proof.
  intros a b H. destruct (String.ltb b a) eqn:E; auto.
  rewrite <- (ltb_irrefl a). symmetry. eapply ltb_trans; eauto.
Qed.
Lemma ltb_neq : forall a b, String.ltb a b = true -> a <> b.
Proof. intros a b H ->. rewrite ltb_irrefl in H. discriminate. Qed.
Lemma ltb_cotrans : forall a b c, String.ltb a b = false -> String.ltb b c = false -> String.ltb a c = false.
Proof.
  intros a b c H1 H2. destruct (String.ltb a c) eqn:E; auto.
  destruct (ltb_total a b) as [T|[T|T]]; [congruence|subst; congruence|].
  rewrite (ltb_trans _ _ _ T E) in H2. discriminate.
Qed.

(** Strictly ascending lists of strings are determined by their elements. *)
Definition slt (a b : string) : Prop := String.ltb a b = true.
Lemma strictly_sorted_unique : forall l1 l2, StronglySorted slt l1 -> StronglySorted slt l2 ->
  (forall x, In x l1 <-> In x l2) -> l1 = l2.
Proof.
  induction l1 as [|x l1 IH]; intros [|y l2] S1 S2 E; auto.
  - exfalso. destruct (E y) as [_ H]. apply H. left; auto.
  - exfalso. destruct (E x) as [H _]. apply H. left; auto.
  - inversion S1 as [|? ? S1' F1]; inversion S2 as [|? ? S2' F2]; subst.
    rewrite Forall_forall in F1, F2.
    assert (x = y).
    { destruct (proj1 (E x) (or_introl eq_refl)) as [<-|H1]; auto.
      destruct (proj2 (E y) (or_introl eq_refl)) as [<-|H2]; auto.
      pose proof (F2 _ H1) as A. pose proof (F1 _ H2) as B. unfold slt in *.
      rewrite (ltb_asym _ _ A) in B. discriminate. }
    subst y. f_equal. apply IH; auto. intros z. split; intros H.
    + destruct (proj1 (E z) (or_intror H)) as [->|]; auto. exfalso. exact (ltb_neq z z (F1 _ H) eq_refl).
    + destruct (proj2 (E z) (or_intror H)) as [->|]; auto. exfalso. exact (ltb_neq z z (F2 _ H) eq_refl).
Qed.
Lemma str_nonempty : forall s, (s =? "")%string = true <-> s = ""%string.
Proof. intros. apply String.eqb_eq. Qed.
