(** List facts shared by the proofs (nothing here models code). *)
From Coq Require Import List Arith Lia Permutation.
Import ListNotations.

(** Replace element [k] by [g] of it. *)
Fixpoint upd {A} (k : nat) (g : A -> A) (l : list A) : list A :=
  match l, k with
  | [], _ => []
  | x :: t, 0 => g x :: t
  | x :: t, S k' => x :: upd k' g t
  end.

Lemma upd_length : forall A k (g : A -> A) l, length (upd k g l) = length l.
Proof. intros A. induction k; intros g [|x l]; cbn; auto. Qed.
Lemma upd_nth : forall A k (g : A -> A) l i,
  nth_error (upd k g l) i = if i =? k then option_map g (nth_error l i) else nth_error l i.
Proof.
  intros A. induction k; intros g [|x l] [|i]; cbn; auto.
  - destruct (i =? k); reflexivity.
Qed.
Lemma upd_nth_eq : forall A k (g : A -> A) l x, nth_error l k = Some x -> nth_error (upd k g l) k = Some (g x).
Proof. intros A k g l x H. rewrite upd_nth, Nat.eqb_refl, H. reflexivity. Qed.
Lemma upd_nth_ne : forall A k (g : A -> A) l i, i <> k -> nth_error (upd k g l) i = nth_error l i.
Proof. intros A k g l i H. rewrite upd_nth. apply Nat.eqb_neq in H. rewrite H. reflexivity. Qed.

Lemma nth_snoc_eq : forall A (l : list A) x, nth_error (l ++ [x]) (length l) = Some x.
Proof. intros. rewrite nth_error_app2 by lia. rewrite Nat.sub_diag. reflexivity. Qed.
Lemma nth_snoc_some : forall A (l : list A) x i y, nth_error l i = Some y -> nth_error (l ++ [x]) i = Some y.
Proof. intros. rewrite nth_error_app1; auto. apply nth_error_Some. congruence. Qed.
Lemma nth_snoc_inv : forall A (l : list A) x i y, nth_error (l ++ [x]) i = Some y ->
  nth_error l i = Some y \/ (i = length l /\ y = x).
Proof.
  intros A l x i y H. destruct (lt_dec i (length l)).
  - left. rewrite nth_error_app1 in H; auto.
  - right. rewrite nth_error_app2 in H by lia.
    destruct (i - length l) as [|k] eqn:E; cbn in H; [inversion H; split; [lia|reflexivity]|destruct k; discriminate].
Qed.
Lemma nth_lt : forall A (l : list A) i x, nth_error l i = Some x -> i < length l.
Proof. intros. apply nth_error_Some. congruence. Qed.
Lemma nth_ex : forall A (l : list A) i, i < length l -> exists x, nth_error l i = Some x.
Proof. intros A l i H. destruct (nth_error l i) eqn:E; eauto. apply nth_error_None in E. lia. Qed.
Lemma Forall2_nth : forall A B (R : A -> B -> Prop) l m i x y, Forall2 R l m ->
  nth_error l i = Some x -> nth_error m i = Some y -> R x y.
Proof.
  intros A B R l m i x y H. revert i. induction H; intros [|i] X Y; cbn in *; try discriminate; eauto.
  inversion X; inversion Y; subst; auto.
Qed.
Lemma Forall2_snoc : forall A B (R : A -> B -> Prop) l m x y, Forall2 R l m -> R x y -> Forall2 R (l ++ [x]) (m ++ [y]).
Proof. intros. apply Forall2_app; auto. Qed.
Lemma find_some_first : forall A (f : A -> bool) l x, find f l = Some x ->
  In x l /\ f x = true.
Proof. intros. apply find_some. assumption. Qed.
