From Coq Require Import String Ascii List Arith NArith QArith Qminmax Bool Sorted Lia Lqa Permutation.
From Verif Require Import ListAux StrAux Simi_model Simi_spec.
Import ListNotations.
Local Open Scope nat_scope.

(** * Labels *)

Lemma extends_iff : forall a b, extends a b = true <-> blank_extension a b.
Proof.
  intros a b. unfold extends, blank_extension, cmpAt.
  rewrite andb_true_iff, orb_true_iff, !String.eqb_eq, Nat.ltb_lt.
  assert (L1 : String.length (b ++ " ") = String.length b + 1) by (rewrite str_app_length; reflexivity).
  assert (L2 : String.length (" " ++ b) = String.length b + 1) by (rewrite str_app_length; cbn; lia).
  split.
  - intros [L [H|H]].
    + rewrite <- L1 in H. apply prefix_iff in H; [|lia]. destruct H as [r ->].
      exists r. split; [|left; rewrite str_app_assoc; auto].
      intros ->. rewrite str_app_length, L1 in L. cbn in L. lia.
    + rewrite <- L2 in H. apply suffix_iff in H; [|lia]. destruct H as [r ->].
      exists r. split; [|right; auto].
      intros ->. rewrite str_app_length, L2 in L. cbn in L. lia.
  - intros [r [N [->| ->]]].
    + assert (0 < String.length r) by (destruct r; cbn; [congruence|lia]).
      rewrite !str_app_length. cbn [String.length]. split; [lia|]. left.
      rewrite <- L1. rewrite str_app_assoc. apply substring_app_l.
    + assert (0 < String.length r) by (destruct r; cbn; [congruence|lia]).
      rewrite !str_app_length. cbn [String.length]. split; [lia|]. right.
      replace (String.length r + (1 + String.length b) - (String.length b + 1)) with (String.length r) by lia.
      rewrite <- L2. apply substring_app_r.
Qed.

Lemma lineSimi_iff : forall a b, lineSimi a b = true <-> same_line_label a b.
Proof.
  intros a b. unfold lineSimi, same_line_label.
  destruct (String.eqb_spec a b) as [->|NE]; [tauto|].
  destruct (String.eqb_spec a "") as [->|NA]; [cbn; split; [discriminate|intros [|[? _]]; congruence]|].
  destruct (String.eqb_spec b "") as [->|NB]; [cbn; split; [discriminate|intros [|[_ [? _]]]; congruence]|].
  cbn. rewrite orb_true_iff, !extends_iff. split; [tauto|]. intros [|[_ [_ ?]]]; tauto.
Qed.
Lemma statSimi_iff : forall ed a b, statSimi ed a b = true <-> same_station_name ed a b.
Proof.
  intros ed a b. unfold statSimi, same_station_name, same_line_label, typo.
  destruct (String.eqb_spec a b) as [->|NE]; [tauto|].
  destruct (String.eqb_spec a "") as [->|NA]; [cbn; split; [discriminate|intros [[|[? _]]|[? _]]; congruence]|].
  destruct (String.eqb_spec b "") as [->|NB]; [cbn; split; [discriminate|intros [[|[_ [? _]]]|[_ [? _]]]; congruence]|].
  cbn [orb]. rewrite !orb_true_iff, !extends_iff. rewrite Nat.ltb_lt. split; [tauto|].
  intros [[|[_ [_ ?]]]|[_ [_ ?]]]; tauto.
Qed.
Lemma same_line_label_sym : forall a b, same_line_label a b <-> same_line_label b a.
Proof. intros. unfold same_line_label. split; intros [->|H]; try tauto. Qed.
Lemma bool_eq_iff : forall a b : bool, (a = true <-> b = true) -> a = b.
Proof. intros [|] [|]; intuition. Qed.
Lemma lineSimi_sym : forall a b, lineSimi a b = lineSimi b a.
Proof. intros. apply bool_eq_iff. rewrite !lineSimi_iff. apply same_line_label_sym. Qed.
Lemma lineSimi_refl : forall a, lineSimi a a = true.
Proof. intros. apply lineSimi_iff. left; auto. Qed.
Lemma statSimi_sym : forall ed a b, (forall x y, ed x y = ed y x) -> statSimi ed a b = statSimi ed b a.
Proof.
  intros ed a b E. apply bool_eq_iff. rewrite !statSimi_iff. unfold same_station_name, typo.
  rewrite same_line_label_sym, (E a b), (Nat.max_comm (String.length a)). tauto.
Qed.
Opaque statSimi.
Lemma siSimi_iff : forall ed a b, siSimi ed a (Some b) = true <->
  exists x y, In x (all_names a) /\ In y (all_names b) /\ same_station_name ed x y.
Proof.
  intros ed a b. unfold siSimi, all_names. rewrite !orb_true_iff, !existsb_exists. setoid_rewrite orb_true_iff.
  setoid_rewrite existsb_exists. setoid_rewrite statSimi_iff. split.
  - intros [[H|[x [I [H|[y [J H]]]]]]|[y [J H]]].
    + exists (siName a), (siName b). repeat split; auto; cbn; auto.
    + exists x, (siName b). repeat split; auto; cbn; auto.
    + exists x, y. repeat split; auto; cbn; auto.
    + exists (siName a), y. repeat split; auto; cbn; auto.
  - intros [x [y [[<-|I] [[<-|J] H]]]].
    + left. left. exact H.
    + right. exists y. auto.
    + left. right. exists x. auto.
    + left. right. exists x. split; auto. right. exists y. auto.
Qed.
Transparent statSimi.
Lemma siSimi_sym : forall ed a b, (forall x y, ed x y = ed y x) -> siSimi ed a (Some b) = siSimi ed b (Some a).
Proof.
  intros ed a b E. apply bool_eq_iff. rewrite !siSimi_iff.
  assert (S : forall x y, same_station_name ed x y <-> same_station_name ed y x).
  { intros. rewrite <- !statSimi_iff, (statSimi_sym ed x y E). tauto. }
  split; intros [x [y [I [J H]]]]; exists y, x; rewrite S; auto.
Qed.
Lemma siSimi_refl : forall ed a, siSimi ed a (Some a) = true.
Proof. intros. apply siSimi_iff. exists (siName a), (siName a). cbn. repeat split; auto. left; left; auto. Qed.

(** * Classifiers *)

Local Open Scope Q_scope.
Lemma Qle_bool_comp : forall a b c d, a == b -> c == d -> Qle_bool a c = Qle_bool b d.
Proof. intros a b c d E F. apply bool_eq_iff. rewrite !Qle_bool_iff, E, F. tauto. Qed.
Lemma Qgt_iff : forall a b, Qgt_bool a b = true <-> b < a.
Proof.
  intros a b. unfold Qgt_bool. rewrite negb_true_iff. split; intros H.
  - apply Qnot_le_lt. rewrite <- Qle_bool_iff. congruence.
  - destruct (Qle_bool a b) eqn:E; auto. apply Qle_bool_iff in E. apply Qlt_not_le in H. contradiction.
Qed.
Lemma stretch_comp : forall a b, a == b -> stretch a == stretch b.
Proof.
  intros a b E. unfold stretch, Qgt_bool. rewrite (Qle_bool_comp a b (1#2) (1#2) E (Qeq_refl _)).
  destruct (negb _); rewrite E; reflexivity.
Qed.
Lemma stretch_value : forall j, stretch j == j.
Proof. intros j. unfold stretch. destruct (Qgt_bool _ _); field. Qed.

Lemma inject_nat_pos : forall n, (0 < n)%nat -> 0 < inject_Z (Z.of_nat n).
Proof. intros n H. change 0 with (inject_Z 0). rewrite <- Zlt_Qlt. lia. Qed.
Lemma frac_bounds : forall n d, (0 < d)%nat -> (n <= d)%nat ->
  0 <= inject_Z (Z.of_nat n) / inject_Z (Z.of_nat d) /\ inject_Z (Z.of_nat n) / inject_Z (Z.of_nat d) <= 1.
Proof.
  intros n d D L. assert (P := inject_nat_pos d D). split.
  - apply Qle_shift_div_l; auto. rewrite Qmult_0_l. change 0 with (inject_Z 0). rewrite <- Zle_Qle. lia.
  - apply Qle_shift_div_r; auto. rewrite Qmult_1_l. rewrite <- Zle_Qle. lia.
Qed.

Section Cls.
Variable jacc bts : string -> string -> Q.
Variable ed ped : string -> string -> nat.
Variable pos : Type.
Variable decay : pos -> pos -> Q.

Lemma jacc_sym : token_similarity jacc -> forall a b, jaccSimilar jacc a b = jaccSimilar jacc b a.
Proof. intros [S _] a b. unfold jaccSimilar, Qgt_bool. f_equal. apply Qle_bool_comp; [apply S|reflexivity]. Qed.
Lemma bts_sym : token_similarity bts -> forall a b, btsSimilar bts a b = btsSimilar bts b a.
Proof. intros [S _] a b. unfold btsSimilar, Qgt_bool. f_equal. apply Qle_bool_comp; [apply S|reflexivity]. Qed.
Lemma geo_sym : token_similarity jacc -> geo_decay decay ->
  forall a p b q, geoSimilar jacc pos decay a p b q = geoSimilar jacc pos decay b q a p.
Proof.
  intros [S _] [D _] a p b q. unfold geoSimilar, Qgt_bool. f_equal. apply Qle_bool_comp; [|reflexivity].
  unfold geoScore. rewrite (stretch_comp _ _ (S a b)), (D p q). reflexivity.
Qed.
Lemma ed_sym : edit_distance ed -> forall a b, edSimilar ed a b = edSimilar ed b a.
Proof. intros [S _] a b. unfold edSimilar. rewrite (S a b), Nat.max_comm. reflexivity. Qed.
Lemma fminD_sym_gt : forall x y t, compl_gt (fminD x y) t = compl_gt (fminD y x) t.
Proof.
  intros [p| |] [q| |] t; cbn; auto.
  destruct (Qle_bool p q) eqn:E1, (Qle_bool q p) eqn:E2; auto.
  - apply Qle_bool_iff in E1, E2. f_equal. apply Qle_bool_comp; [|reflexivity]. lra.
  - exfalso. destruct (Qlt_le_dec p q) as [L|L].
    + apply Qlt_le_weak in L. apply Qle_bool_iff in L. congruence.
    + apply Qle_bool_iff in L. congruence.
Qed.
Lemma ped_sym : forall a b, pedSimilar ped a b = pedSimilar ped b a.
Proof. intros a b. unfold pedSimilar. apply fminD_sym_gt. Qed.

Lemma jacc_refl : token_similarity jacc -> forall a, jaccSimilar jacc a a = true.
Proof. intros [_ [R _]] a. apply Qgt_iff. rewrite R. reflexivity. Qed.
Lemma bts_refl : token_similarity bts -> forall a, btsSimilar bts a a = true.
Proof. intros [_ [R _]] a. apply Qgt_iff. rewrite R. reflexivity. Qed.
Lemma geo_refl : token_similarity jacc -> geo_decay decay ->
  forall a p, geoSimilar jacc pos decay a p a p = true.
Proof.
  intros [_ [R _]] [_ [D _]] a p. apply Qgt_iff. unfold geoScore. rewrite stretch_value, R, D. reflexivity.
Qed.
Lemma zero_div : forall n, (0 < n)%nat -> exists q, divD 0 n = Fin q /\ q == 0.
Proof.
  intros n H. unfold divD. destruct (Nat.eqb_spec n 0); [lia|]. eexists. split; [reflexivity|].
  unfold Qdiv. rewrite Qmult_0_l. reflexivity.
Qed.
Lemma zero_compl : forall q t, q == 0 -> t < 1 -> compl_gt (Fin q) t = true.
Proof. intros q t E L. cbn. fold (Qgt_bool (1 - q) t). apply Qgt_iff. lra. Qed.
Lemma ed_refl : edit_distance ed -> forall a, a <> ""%string -> edSimilar ed a a = true.
Proof.
  intros [_ [R _]] a N. unfold edSimilar. rewrite R, Nat.max_id.
  destruct (zero_div (String.length a)) as [q [-> E]].
  - destruct a; [congruence|]. cbn. lia.
  - apply zero_compl; auto. reflexivity.
Qed.
Lemma ped_refl : (forall a, ped a a = 0)%nat -> forall a, a <> ""%string -> pedSimilar ped a a = true.
Proof.
  intros R a N. unfold pedSimilar. rewrite R.
  destruct (zero_div (String.length a)) as [q [-> E]].
  - destruct a; [congruence|]. cbn. lia.
  - cbn [fminD]. destruct (Qle_bool q q); apply zero_compl; auto; reflexivity.
Qed.

(** The decision in terms of the scores. *)
Lemma geo_iff : token_similarity jacc -> geo_decay decay -> forall a p b q,
  geoSimilar jacc pos decay a p b q = true <-> 1 < decay p q + jacc a b.
Proof.
  intros _ _ a p b q. unfold geoSimilar. rewrite Qgt_iff. unfold geoScore. rewrite stretch_value. split; intros H.
  - apply (Qmult_lt_r _ _ 2) in H; [|reflexivity]. field_simplify in H. lra.
  - apply Qlt_shift_div_l; [reflexivity|]. lra.
Qed.
Lemma geo_score_bounds : token_similarity jacc -> geo_decay decay -> forall a p b q,
  0 <= geoScore jacc pos decay a p b q /\ geoScore jacc pos decay a p b q <= 1.
Proof.
  intros [_ [_ J]] [_ [_ D]] a p b q. unfold geoScore. rewrite stretch_value.
  destruct (J a b), (D p q). split; [apply Qle_shift_div_l|apply Qle_shift_div_r]; try reflexivity; lra.
Qed.
Lemma geo_monotone : token_similarity jacc -> geo_decay decay -> forall a p b q a' p' b' q',
  decay p q <= decay p' q' -> jacc a b <= jacc a' b' ->
  geoSimilar jacc pos decay a p b q = true -> geoSimilar jacc pos decay a' p' b' q' = true.
Proof. intros J D a p b q a' p' b' q' H1 H2 H. apply geo_iff in H; auto. apply geo_iff; auto. lra. Qed.
Lemma ed_iff : edit_distance ed -> forall a b, edSimilar ed a b = true <->
  (20 * ed a b < 3 * Nat.max (String.length a) (String.length b))%nat.
Proof.
  intros [_ [_ B]] a b. unfold edSimilar, divD. specialize (B a b).
  set (m := Nat.max (String.length a) (String.length b)) in *. set (e := ed a b) in *.
  destruct (Nat.eqb_spec m 0) as [E|E].
  - rewrite E in *. assert (e = 0)%nat as -> by lia. cbn. split; [discriminate|lia].
  - unfold compl_gt. fold (Qgt_bool (1 - inject_Z (Z.of_nat e) / inject_Z (Z.of_nat m)) (85 # 100)).
    rewrite Qgt_iff. assert (P := inject_nat_pos m ltac:(lia)).
    assert (X : inject_Z (Z.of_nat e) / inject_Z (Z.of_nat m) < 3 # 20 <-> (20 * e < 3 * m)%nat).
    { split; intros H.
      - apply (Qmult_lt_r _ _ (inject_Z (Z.of_nat m)) P) in H.
        unfold Qdiv in H. rewrite <- Qmult_assoc, (Qmult_comm (/ _)), Qmult_inv_r, Qmult_1_r in H by lra.
        unfold Qlt, Qmult, inject_Z in H. cbn [Qnum Qden Pos.mul] in H. lia.
      - apply Qlt_shift_div_r; auto. unfold Qlt, Qmult, inject_Z. cbn [Qnum Qden Pos.mul]. lia. }
    rewrite <- X. split; intros H; lra.
Qed.
End Cls.
Local Close Scope Q_scope.

(** * Routing attributes *)

Lemma attrsEq_iff : forall a b, attrsEq a b = true <-> shortName a = shortName b /\ lineFrom a = lineFrom b.
Proof. intros. unfold attrsEq. rewrite andb_true_iff, !String.eqb_eq. tauto. Qed.
Lemma attrsLt_irrefl : forall a, attrsLt a a = false.
Proof. intros. unfold attrsLt. rewrite !ltb_irrefl, andb_false_r. reflexivity. Qed.
Lemma attrsLt_iff : forall a b, attrsLt a b = true <->
  String.ltb (lineFrom a) (lineFrom b) = true \/
  (lineFrom a = lineFrom b /\ String.ltb (shortName a) (shortName b) = true).
Proof. intros. unfold attrsLt. rewrite orb_true_iff, andb_true_iff, String.eqb_eq. tauto. Qed.
Lemma attrsLt_trans : forall a b c, attrsLt a b = true -> attrsLt b c = true -> attrsLt a c = true.
Proof.
  intros a b c. rewrite !attrsLt_iff. intros [H|[E H]] [H'|[E' H']].
  - left. eapply ltb_trans; eauto.
  - left. rewrite <- E'. auto.
  - left. rewrite E. auto.
  - right. split; [congruence|]. eapply ltb_trans; eauto.
Qed.
Lemma attrsLt_incomparable : forall a b,
  (attrsLt a b = false /\ attrsLt b a = false) <-> (shortName a = shortName b /\ lineFrom a = lineFrom b).
Proof.
  intros a b. split.
  - intros [H1 H2].
    assert (N1 : attrsLt a b <> true) by congruence. assert (N2 : attrsLt b a <> true) by congruence.
    rewrite attrsLt_iff in N1, N2.
    destruct (ltb_total (lineFrom a) (lineFrom b)) as [T|[T|T]]; [tauto| |tauto].
    destruct (ltb_total (shortName a) (shortName b)) as [U|[U|U]]; [|tauto|].
    + exfalso. apply N1. auto.
    + exfalso. apply N2. auto.
  - intros [E F]. unfold attrsLt. rewrite E, F, !ltb_irrefl, andb_false_r. auto.
Qed.

Lemma sorted_nth : forall l i j x y, ascending l -> i < j -> nth_error l i = Some x -> nth_error l j = Some y ->
  String.ltb x y = true.
Proof.
  intros l i j x y S. revert i j. induction S as [|a l S IH F]; intros i j L X Y.
  - destruct i; discriminate.
  - destruct j; [lia|]. destruct i; cbn in *.
    + injection X as <-. rewrite Forall_forall in F. apply F. eapply nth_error_In; eauto.
    + apply (IH i j); auto. lia.
Qed.

Lemma lowerBound_spec : forall fuel l first len v, ascending l -> first + len <= List.length l -> len <= fuel ->
  (forall i x, i < first -> nth_error l i = Some x -> String.ltb x v = true) ->
  (forall i x, first + len <= i -> nth_error l i = Some x -> String.ltb x v = false) ->
  let r := lowerBound fuel l first len v in
  r <= List.length l /\
  (forall i x, i < r -> nth_error l i = Some x -> String.ltb x v = true) /\
  (forall i x, r <= i -> nth_error l i = Some x -> String.ltb x v = false).
Proof.
  induction fuel as [|f IH]; intros l first len v S B F LO HI; cbn [lowerBound].
  - assert (len = 0) by lia. subst. rewrite Nat.add_0_r in *. repeat split; auto; lia.
  - destruct (Nat.eqb_spec len 0) as [->|N].
    + rewrite Nat.add_0_r in *. repeat split; auto; lia.
    + assert (H : len / 2 < len) by (apply Nat.div_lt; lia).
      cbv zeta. destruct (nth_error l (first + len / 2)) as [x|] eqn:X; [|apply nth_error_None in X; lia].
      destruct (String.ltb x v) eqn:C.
      * apply IH; auto; try lia.
        -- intros i y I Y. destruct (Nat.eq_dec i (first + len / 2)) as [->|NE]; [congruence|].
           destruct (lt_dec i (first + len / 2)); [|lia].
           eapply ltb_trans; [|exact C]. eapply sorted_nth; eauto.
        -- intros i y I Y. apply (HI i); auto. lia.
      * apply IH; auto; try lia.
        intros i y I Y. destruct (String.ltb y v) eqn:D; auto.
        destruct (Nat.eq_dec i (first + len / 2)) as [->|NE]; [congruence|].
        rewrite <- C. symmetry. eapply ltb_trans; [|exact D]. apply (sorted_nth l (first + len / 2) i x y); auto. lia.
Qed.

Lemma firstn_nth_In : forall A (l : list A) n x, In x (firstn n l) -> exists i, i < n /\ nth_error l i = Some x.
Proof.
  intros A l n x H. apply In_nth_error in H. destruct H as [i H]. exists i.
  assert (L := nth_lt _ _ _ _ H). rewrite firstn_length in L. split; [lia|].
  rewrite <- H. symmetry. rewrite <- (firstn_skipn n l) at 2. rewrite nth_error_app1; auto. rewrite firstn_length. lia.
Qed.
Lemma skipn_nth_In : forall A (l : list A) n x, In x (skipn n l) -> exists i, n <= i /\ nth_error l i = Some x.
Proof.
  intros A l n x H. apply In_nth_error in H. destruct H as [i H].
  destruct (le_lt_dec n (List.length l)) as [L|L].
  - exists (n + i). split; [lia|]. rewrite <- H. rewrite <- (firstn_skipn n l) at 1.
    rewrite nth_error_app2 by (rewrite firstn_length; lia). rewrite firstn_length. f_equal. lia.
  - rewrite skipn_all2 in H by lia. destruct i; discriminate.
Qed.
Lemma SSorted_app : forall A (R : A -> A -> Prop) l m, StronglySorted R l -> StronglySorted R m ->
  (forall x y, In x l -> In y m -> R x y) -> StronglySorted R (l ++ m).
Proof.
  intros A R l m S. induction S as [|a l S IH F]; intros M H; cbn; auto. constructor.
  - apply IH; auto. intros; apply H; cbn; auto.
  - apply Forall_app. split; auto. apply Forall_forall. intros y Y. apply H; cbn; auto.
Qed.
Lemma SSorted_app_inv : forall A (R : A -> A -> Prop) l m, StronglySorted R (l ++ m) ->
  StronglySorted R l /\ StronglySorted R m.
Proof.
  intros A R l m. induction l as [|a l IH]; cbn; intros S; [split; auto; constructor|].
  inversion S; subst. destruct (IH H1). split; auto. constructor; auto.
  rewrite Forall_app in H2. tauto.
Qed.

Lemma mergeOne_spec : forall l v, ascending l ->
  ascending (mergeOne l v) /\ (forall x, In x (mergeOne l v) <-> x = v \/ In x l).
Proof.
  intros l v S. unfold mergeOne.
  destruct (lowerBound_spec (List.length l) l 0 (List.length l) v S) as [B [LO HI]]; try lia.
  { intros i x I X. apply nth_lt in X. lia. }
  set (r := lowerBound _ _ _ _ _) in *. clearbody r.
  assert (INS : (forall y, nth_error l r = Some y -> y <> v) ->
    ascending (insertAt l r v) /\ (forall x, In x (insertAt l r v) <-> x = v \/ In x l)).
  { intros NE. unfold insertAt. split.
    - destruct (SSorted_app_inv _ (fun a b => String.ltb a b = true) (firstn r l) (skipn r l)) as [S1 S2]; [rewrite firstn_skipn; auto|].
      apply SSorted_app; auto.
      + constructor; auto. apply Forall_forall. intros x X. apply skipn_nth_In in X. destruct X as [i [I X]].
        pose proof (HI i x I X) as N.
        destruct (ltb_total x v) as [T|[T|T]]; auto; [congruence|]. subst v. exfalso.
        destruct (Nat.eq_dec i r) as [->|NE']; [apply (NE x X); auto|].
        assert (exists y, nth_error l r = Some y) as [y Y] by (apply nth_ex; apply nth_lt in X; lia).
        assert (String.ltb y x = true) by (apply (sorted_nth l r i y x); auto; lia).
        rewrite (HI r y) in H; auto. discriminate.
      + intros x y X Y. apply firstn_nth_In in X. destruct X as [i [I X]]. pose proof (LO i x I X) as H.
        destruct Y as [<-|Y]; auto. apply skipn_nth_In in Y. destruct Y as [j [J Y]].
        apply (sorted_nth l i j x y); auto. lia.
    - intros x. rewrite in_app_iff. cbn. rewrite <- (firstn_skipn r l) at 3. rewrite in_app_iff. intuition. }
  destruct (nth_error l r) as [y|] eqn:Y.
  - destruct (String.eqb_spec y v) as [->|NE].
    + split; auto. intros x. split; auto. intros [->|]; auto. eapply nth_error_In; eauto.
    + apply INS. intros z Z. congruence.
  - apply INS. intros z Z. discriminate.
Qed.
Lemma merge_fold_spec : forall m l, ascending l ->
  ascending (fold_left mergeOne m l) /\ (forall x, In x (fold_left mergeOne m l) <-> In x l \/ In x m).
Proof.
  induction m as [|v m IH]; intros l S; cbn; [split; auto; tauto|].
  destruct (mergeOne_spec l v S) as [S1 E1]. destruct (IH _ S1) as [S2 E2]. split; auto.
  intros x. rewrite E2, E1. intuition.
Qed.
Lemma merged_spec : forall t, (forall a, In a (leaves t) -> ascending (lineTo a)) ->
  ascending (lineTo (merged t)) /\
  (forall x, In x (lineTo (merged t)) <-> exists a, In a (leaves t) /\ In x (lineTo a)).
Proof.
  induction t as [a|l IHl r IHr]; cbn; intros H.
  - split; [apply H; auto|]. intros x. split; [intros X; exists a; auto|]. intros [b [[<-|[]] X]]; auto.
  - destruct IHl as [S1 E1]; [intros; apply H, in_app_iff; auto|].
    destruct IHr as [S2 E2]; [intros; apply H, in_app_iff; auto|].
    destruct (merge_fold_spec (lineTo (merged r)) (lineTo (merged l)) S1) as [S3 E3]. split; auto.
    intros x. rewrite E3, E1, E2. setoid_rewrite in_app_iff. split.
    + intros [[a [A X]]|[a [A X]]]; exists a; auto.
    + intros [a [[A|A] X]]; [left|right]; exists a; auto.
Qed.
Lemma merged_unique : forall t u,
  (forall a, In a (leaves t) -> ascending (lineTo a)) -> (forall a, In a (leaves u) -> ascending (lineTo a)) ->
  (forall x, (exists a, In a (leaves t) /\ In x (lineTo a)) <-> (exists a, In a (leaves u) /\ In x (lineTo a))) ->
  lineTo (merged t) = lineTo (merged u).
Proof.
  intros t u T U E. destruct (merged_spec t T) as [S1 E1]. destruct (merged_spec u U) as [S2 E2].
  apply strictly_sorted_unique; auto. intros x. rewrite E1, E2. auto.
Qed.
Lemma merged_keeps : forall t n f, (forall a, In a (leaves t) -> shortName a = n /\ lineFrom a = f) ->
  shortName (merged t) = n /\ lineFrom (merged t) = f.
Proof.
  induction t as [a|l IHl r IHr]; cbn; intros n f H; [apply H; auto|].
  apply IHl. intros a A. apply H, in_app_iff. auto.
Qed.

Lemma simiCompute_agreement : forall similar a l,
  ~ (lShort l = "" /\ lTo l = "" /\ lFrom l = "")%string -> agreement similar a l (simiCompute similar a l).
Proof.
  intros similar a l N. split; [contradiction|]. intros _. cbn.
  rewrite !orb_true_iff, !String.eqb_eq, lineSimi_iff. repeat split; try tauto.
  - destruct (lineTo a) as [|t ts] eqn:E; [auto|]. intros H. right. apply existsb_exists in H.
    destruct H as [x [I X]]. exists x. rewrite orb_true_iff, String.eqb_eq in X. auto.
  - intros H. destruct (lineTo a) as [|t ts] eqn:E; [auto|]. destruct H as [H|[x [I X]]]; [discriminate|].
    apply existsb_exists. exists x. rewrite orb_true_iff, String.eqb_eq. auto.
Qed.
Lemma simi_history : forall similar lines a ps m,
  (forall p v, memoGet m p = Some v -> agreement similar a (lines p) v) ->
  Forall2 (fun p v => agreement similar a (lines p) v) ps (snd (runAttrs similar lines a m (map Ask ps))) /\
  fst (fst (runAttrs similar lines a m (map Ask ps))) = a.
Proof.
  intros similar lines a. induction ps as [|p ps IH]; intros m M; cbn; [auto|].
  destruct (simiCall similar lines a m p) as [v m1] eqn:C.
  assert (V : agreement similar a (lines p) v /\
              forall q w, memoGet m1 q = Some w -> agreement similar a (lines q) w).
  { unfold simiCall in C.
    destruct (String.eqb (lShort (lines p)) "" && String.eqb (lTo (lines p)) "" && String.eqb (lFrom (lines p)) "") eqn:E.
    - injection C as <- <-. split; auto. rewrite !andb_true_iff, !String.eqb_eq in E. split; tauto.
    - destruct (memoGet m p) as [w|] eqn:G.
      + injection C as <- <-. auto.
      + injection C as <- <-.
        assert (A : agreement similar a (lines p) (simiCompute similar a (lines p))).
        { apply simiCompute_agreement. intros [H1 [H2 H3]]. rewrite H1, H2, H3 in E. discriminate. }
        split; auto. intros q w. cbn. destruct (Nat.eqb_spec p q) as [->|]; [congruence|auto]. }
  destruct V as [V M1]. specialize (IH m1 M1).
  destruct (runAttrs similar lines a m1 (map Ask ps)) as [[r m2] vs] eqn:R. cbn in *.
  destruct IH. split; auto.
Qed.

(** * Normaliser *)

Lemma lower_char_letter : forall c, lower_letter c (lowerChar c).
Proof.
  intros c. unfold lower_letter, lowerChar. split; intros H.
  - replace ((65 <=? N_of_ascii c) && (N_of_ascii c <=? 90))%N with true.
    + rewrite N_ascii_embedding; auto. lia.
    + symmetry. apply andb_true_iff. rewrite !N.leb_le. lia.
  - replace ((65 <=? N_of_ascii c) && (N_of_ascii c <=? 90))%N with false; auto.
    symmetry. apply andb_false_iff. rewrite !N.leb_nle. lia.
Qed.
Lemma lower_lower_case : forall s, lower_case s (lower s).
Proof.
  unfold lower_case. induction s as [|c s [L H]]; cbn; [split; auto; intros; discriminate|].
  split; [congruence|]. intros [|i] x y X Y; cbn in *.
  - injection X as <-. injection Y as <-. apply lower_char_letter.
  - eauto.
Qed.
Lemma lower_letter_fun : forall c d e, lower_letter c d -> lower_letter c e -> d = e.
Proof.
  intros c d e [A B] [A' B']. destruct (N.le_gt_cases 65 (N_of_ascii c)) as [H|H].
  - destruct (N.le_gt_cases (N_of_ascii c) 90) as [H'|H'].
    + rewrite <- (ascii_N_embedding d), <- (ascii_N_embedding e), A, A'; auto.
    + rewrite B, B'; auto; lia.
  - rewrite B, B'; auto; lia.
Qed.
Lemma lower_case_fun : forall s r r', lower_case s r -> lower_case s r' -> r = r'.
Proof.
  induction s as [|c s IH]; intros r r' [L H] [L' H'].
  - apply str_len_0 in L, L'. congruence.
  - destruct r as [|d r]; [discriminate|]. destruct r' as [|e r']; [discriminate|]. f_equal.
    + apply (lower_letter_fun c); [apply (H 0)|apply (H' 0)]; auto.
    + apply IH; split; cbn in *; try congruence.
      * intros i x y X Y. apply (H (Datatypes.S i)); auto.
      * intros i x y X Y. apply (H' (Datatypes.S i)); auto.
Qed.

Section NormProofs.
Variable regex : Type.
Variable compile : string -> option regex.
Variable replace : regex -> string -> string -> string.
Notation normalizer := (normalizer regex).
Notation norm := (norm regex replace).

Lemma rewritten_fun : forall rules s r r', rewritten regex compile replace rules s r ->
  rewritten regex compile replace rules s r' -> r = r'.
Proof.
  intros rules s r r' H. revert r'. induction H; intros r' H'; inversion H'; subst; auto.
  apply IHrewritten. congruence.
Qed.
Lemma normalised_fun : forall rules s r r', normalised regex compile replace rules s r ->
  normalised regex compile replace rules s r' -> r = r'.
Proof.
  intros rules s r r' [m [A B]] [m' [A' B']]. assert (m = m') by (eapply rewritten_fun; eauto). subst.
  eapply lower_case_fun; eauto.
Qed.

Lemma build_rewritten : forall rules rs s, buildRules regex compile rules = Some rs ->
  rewritten regex compile replace rules s (fold_left (fun x rule => replace (fst rule) (snd rule) x) rs s).
Proof.
  induction rules as [|[p f] rules IH]; intros rs s H; cbn in H.
  - injection H as <-. constructor.
  - destruct (compile p) as [re|] eqn:C; [|discriminate].
    destruct (buildRules regex compile rules) as [rs'|] eqn:B; [|discriminate]. injection H as <-.
    cbn. econstructor; eauto.
Qed.
Lemma build_none : forall rules, buildRules regex compile rules = None -> exists p f, In (p, f) rules /\ compile p = None.
Proof.
  induction rules as [|[p f] rules IH]; cbn; intros H; [discriminate|].
  destruct (compile p) eqn:C; [|eauto].
  destruct (buildRules regex compile rules); [discriminate|]. destruct (IH eq_refl) as [q [g [I N]]]. eauto.
Qed.
Lemma build_some : forall rules rs, buildRules regex compile rules = Some rs ->
  forall p f, In (p, f) rules -> compile p <> None.
Proof.
  induction rules as [|[p f] rules IH]; cbn; intros rs H; [intros ? ? []|].
  destruct (compile p) eqn:C; [|discriminate].
  destruct (buildRules regex compile rules) eqn:B; [|discriminate].
  intros q g [E|I]; [injection E as <- <-; congruence|eauto].
Qed.

(** A normaliser object in order: compiled from its rules, cache entries correct. *)
Definition norm_ok (n : normalizer) : Prop :=
  buildRules regex compile (nOrig regex n) = Some (nRules regex n) /\
  forall s v, cacheGet (nCache regex n) s = Some v -> normalised regex compile replace (nOrig regex n) s v.

Lemma norm_step : forall n s r n', norm_ok n -> norm n s = (r, n') ->
  normalised regex compile replace (nOrig regex n) s r /\ norm_ok n' /\ nOrig regex n' = nOrig regex n.
Proof.
  intros n s r n' [B C] H. unfold Simi_model.norm in H.
  destruct (cacheGet (nCache regex n) s) as [v|] eqn:G.
  - injection H as <- <-. repeat split; auto.
  - injection H as <- <-.
    assert (X : normalised regex compile replace (nOrig regex n) s
      (lower (fold_left (fun x rule => replace (fst rule) (snd rule) x) (nRules regex n) s))).
    { eexists. split; [eapply build_rewritten; eauto|apply lower_lower_case]. }
    split; auto. split; [|reflexivity]. split; auto. cbn. intros t v.
    destruct (String.eqb_spec s t) as [->|]; [congruence|auto].
Qed.
Lemma new_ok : forall rules n, newNorm regex compile rules = Some n -> norm_ok n /\ nOrig regex n = rules.
Proof.
  unfold newNorm. intros rules n H. destruct (buildRules regex compile rules) eqn:B; [|discriminate].
  injection H as <-. split; auto. split; auto. cbn. intros; discriminate.
Qed.

Lemma setAt_length : forall A (l : list A) i x, List.length (setAt l i x) = List.length l.
Proof.
  intros A l i x. unfold setAt. destruct (nth_error l i) eqn:E; auto. apply nth_lt in E.
  rewrite app_length, firstn_length. cbn [List.length]. rewrite skipn_length. lia.
Qed.
Lemma setAt_eq : forall A (l : list A) i x, i < List.length l -> nth_error (setAt l i x) i = Some x.
Proof.
  intros A l i x L. unfold setAt. destruct (nth_ex _ _ _ L) as [y ->].
  rewrite nth_error_app2; rewrite firstn_length; [|lia]. replace (i - Nat.min i (List.length l)) with 0 by lia. reflexivity.
Qed.
Lemma skipn_next : forall A (l : list A) i y t, skipn i l = y :: t -> skipn (Datatypes.S i) l = t.
Proof.
  intros A l. induction l as [|z l IH]; intros [|i] y t SK; try discriminate.
  - cbn in SK. injection SK as _ ->. reflexivity.
  - exact (IH i y t SK).
Qed.
Lemma setAt_ne : forall A (l : list A) i x k, k <> i -> nth_error (setAt l i x) k = nth_error l k.
Proof.
  intros A l i x k N. unfold setAt. destruct (nth_error l i) eqn:E; auto.
  assert (L := nth_lt _ _ _ _ E). rewrite <- (firstn_skipn i l) at 3.
  destruct (lt_dec k i).
  - rewrite !nth_error_app1; auto; rewrite firstn_length; lia.
  - rewrite !nth_error_app2; rewrite firstn_length; try lia.
    replace (k - Nat.min i (List.length l)) with (Datatypes.S (k - i - 1)) by lia.
    destruct (skipn i l) as [|y t] eqn:SK.
    + apply (f_equal (@List.length A)) in SK. rewrite skipn_length in SK. cbn in SK. lia.
    + rewrite (skipn_next _ _ _ _ _ SK). reflexivity.
Qed.
Lemma nth_error_eq : forall A (l m : list A), (forall k, nth_error l k = nth_error m k) -> l = m.
Proof.
  induction l as [|x l IH]; intros [|y m] H; auto.
  - discriminate (H 0).
  - discriminate (H 0).
  - f_equal; [injection (H 0); auto|]. apply IH. intros k. apply (H (Datatypes.S k)).
Qed.
Lemma nth_map_iff : forall A B (f : A -> B) l i, nth_error (map f l) i = option_map f (nth_error l i).
Proof. intros. apply nth_error_map. Qed.

Lemma norm_history : forall ops st, (forall n, In n st -> norm_ok n) ->
  observed regex compile replace (map (nOrig regex) st) ops (snd (runNorm regex compile replace st ops)).
Proof.
  induction ops as [|op ops IH]; intros st OK; cbn; [constructor|].
  destruct (stepNorm regex compile replace st op) as [st1 o] eqn:STEP.
  destruct (runNorm regex compile replace st1 ops) as [st2 os] eqn:R. cbn.
  assert (IH' : forall X, map (nOrig regex) st1 = X -> (forall n, In n st1 -> norm_ok n) ->
     observed regex compile replace X ops os).
  { intros X <- H. specialize (IH st1 H). rewrite R in IH. exact IH. }
  destruct op as [rules| |i|i j|i s]; cbn in STEP.
  - destruct (newNorm regex compile rules) as [n|] eqn:N.
    + injection STEP as <- <-. destruct (new_ok _ _ N) as [O E]. constructor.
      * unfold newNorm in N. destruct (buildRules regex compile rules) eqn:B; [|discriminate].
        eapply build_some; eauto.
      * apply IH'; [rewrite map_app; cbn; rewrite E; auto|].
        intros m M. apply in_app_iff in M. destruct M as [M|[<-|[]]]; auto.
    + injection STEP as <- <-. unfold newNorm in N. destruct (buildRules regex compile rules) eqn:B; [discriminate|].
      apply build_none in B. destruct B as [p [f [I C]]]. eapply ob_throw; eauto.
  - injection STEP as <- <-. constructor. apply IH'; [rewrite map_app; auto|].
    intros m M. apply in_app_iff in M. destruct M as [M|[<-|[]]]; auto.
    split; [reflexivity|]. cbn. intros; discriminate.
  - destruct (nth_error st i) as [n|] eqn:N.
    + injection STEP as <- <-. eapply ob_copy with (rules := nOrig regex n); [rewrite nth_map_iff, N; auto|].
      apply IH'; [rewrite map_app; auto|].
      intros m M. apply in_app_iff in M. destruct M as [M|[<-|[]]]; auto.
      destruct (OK n) as [A B]; [eapply nth_error_In; eauto|]. split; auto.
    + injection STEP as <- <-. apply ob_none; [rewrite nth_map_iff, N; auto|]. apply IH'; auto.
  - destruct (nth_error st i) as [m|] eqn:M; [destruct (nth_error st j) as [n|] eqn:N|].
    + injection STEP as <- <-.
      assert (LI := nth_lt _ _ _ _ M).
      eapply ob_assign with (rules := nOrig regex n)
        (st' := map (nOrig regex) (setAt st i (mkNorm regex (nRules regex n) (nOrig regex n) (nCache regex n)))).
      * rewrite map_length. auto.
      * rewrite nth_map_iff, N. auto.
      * rewrite !map_length, setAt_length. auto.
      * rewrite nth_map_iff, setAt_eq; auto.
      * intros k K. rewrite !nth_map_iff, setAt_ne; auto.
      * apply IH'; auto. intros x X. apply In_nth_error in X. destruct X as [k K].
        destruct (Nat.eq_dec k i) as [->|NE].
        -- rewrite setAt_eq in K by auto. injection K as <-.
           destruct (OK n) as [A B]; [eapply nth_error_In; eauto|]. split; auto.
        -- rewrite setAt_ne in K by auto. apply OK. eapply nth_error_In; eauto.
    + injection STEP as <- <-. apply ob_none; [rewrite !nth_map_iff, N; auto|]. apply IH'; auto.
    + injection STEP as <- <-. apply ob_none; [rewrite !nth_map_iff, M; auto|]. apply IH'; auto.
  - destruct (nth_error st i) as [n|] eqn:N.
    + destruct (norm n s) as [r n'] eqn:NS. injection STEP as <- <-.
      assert (LI := nth_lt _ _ _ _ N).
      destruct (norm_step _ _ _ _ (OK n ltac:(eapply nth_error_In; eauto)) NS) as [A [B C]].
      eapply ob_norm with (rules := nOrig regex n); [rewrite nth_map_iff, N; auto|auto|].
      apply IH'.
      * apply nth_error_eq. intros k. rewrite !nth_map_iff. destruct (Nat.eq_dec k i) as [->|NE].
        -- rewrite setAt_eq, N by auto. cbn. congruence.
        -- rewrite setAt_ne; auto.
      * intros x X. apply In_nth_error in X. destruct X as [k K].
        destruct (Nat.eq_dec k i) as [->|NE].
        -- rewrite setAt_eq in K by auto. injection K as <-. auto.
        -- rewrite setAt_ne in K by auto. apply OK. eapply nth_error_In; eauto.
    + injection STEP as <- <-. apply ob_none; [rewrite nth_map_iff, N; auto|]. apply IH'; auto.
Qed.

(** After names have been normalised once, normalising them again changes nothing. *)
Definition normed (n : normalizer) (s : string) : normalizer := snd (norm n s).
Lemma norm_cached_mono : forall n s t v, cacheGet (nCache regex n) t = Some v ->
  cacheGet (nCache regex (normed n s)) t = Some v.
Proof.
  intros n s t v H. unfold normed, Simi_model.norm. destruct (cacheGet (nCache regex n) s) eqn:G; auto. cbn.
  destruct (String.eqb_spec s t) as [->|]; [congruence|auto].
Qed.
Lemma fold_normed_mono : forall ss n t v, cacheGet (nCache regex n) t = Some v ->
  cacheGet (nCache regex (fold_left normed ss n)) t = Some v.
Proof. induction ss; cbn; auto. intros. apply IHss, norm_cached_mono; auto. Qed.
Lemma norm_caches : forall n s, exists v, cacheGet (nCache regex (normed n s)) s = Some v.
Proof.
  intros n s. unfold normed, Simi_model.norm. destruct (cacheGet (nCache regex n) s) eqn:G; cbn; eauto.
  rewrite String.eqb_refl. eauto.
Qed.
Lemma warm_no_write : forall ss n s, In s ss -> normed (fold_left normed ss n) s = fold_left normed ss n.
Proof.
  intros ss n s I.
  assert (exists v, cacheGet (nCache regex (fold_left normed ss n)) s = Some v) as [v V].
  { revert n. induction ss as [|t ss IH]; intros n; [destruct I|]. destruct I as [->|I]; cbn.
    - destruct (norm_caches n s) as [v V]. exists v. apply fold_normed_mono; auto.
    - apply IH; auto. }
  unfold normed at 1, Simi_model.norm. rewrite V. reflexivity.
Qed.

Lemma step_ok : forall st op st1 o, (forall n, In n st -> norm_ok n) ->
  stepNorm regex compile replace st op = (st1, o) -> forall n, In n st1 -> norm_ok n.
Proof.
  intros st op st1 o OK STEP.
  assert (SET : forall i x, norm_ok x -> forall n, In n (setAt st i x) -> norm_ok n).
  { intros i x X n N. destruct (nth_error st i) eqn:E.
    - apply In_nth_error in N. destruct N as [k K]. destruct (Nat.eq_dec k i) as [->|NE].
      + rewrite setAt_eq in K by (eapply nth_lt; eauto). injection K as <-. auto.
      + rewrite setAt_ne in K by auto. apply OK. eapply nth_error_In; eauto.
    - unfold setAt in N. rewrite E in N. auto. }
  assert (SNOC : forall x, norm_ok x -> forall n, In n (st ++ [x]) -> norm_ok n).
  { intros x X n N. apply in_app_iff in N. destruct N as [N|[<-|[]]]; auto. }
  assert (CP : forall i n, nth_error st i = Some n -> norm_ok (mkNorm regex (nRules regex n) (nOrig regex n) (nCache regex n))).
  { intros i n N. destruct (OK n) as [A B]; [eapply nth_error_In; eauto|]. split; auto. }
  destruct op as [rules| |i|i j|i s]; cbn in STEP.
  - destruct (newNorm regex compile rules) as [n|] eqn:N; injection STEP as <- <-; auto.
    apply SNOC. eapply new_ok; eauto.
  - injection STEP as <- <-. apply SNOC. split; [reflexivity|]. cbn. intros; discriminate.
  - destruct (nth_error st i) as [n|] eqn:N; injection STEP as <- <-; auto. apply SNOC. eapply CP; eauto.
  - destruct (nth_error st i) as [m|] eqn:M; [destruct (nth_error st j) as [n|] eqn:N|];
      injection STEP as <- <-; auto. apply SET. eapply CP; eauto.
  - destruct (nth_error st i) as [n|] eqn:N.
    + destruct (norm n s) as [r n'] eqn:NS. injection STEP as <- <-. apply SET.
      apply (norm_step n s r n'); auto. apply OK. eapply nth_error_In; eauto.
    + injection STEP as <- <-. auto.
Qed.
Lemma run_ok : forall ops st, (forall n, In n st -> norm_ok n) ->
  forall n, In n (fst (runNorm regex compile replace st ops)) -> norm_ok n.
Proof.
  induction ops as [|op ops IH]; intros st OK; cbn; auto.
  destruct (stepNorm regex compile replace st op) as [st1 o] eqn:STEP.
  specialize (IH st1 (step_ok _ _ _ _ OK STEP)).
  destruct (runNorm regex compile replace st1 ops) as [st2 os]. exact IH.
Qed.
Lemma rules_eqb_eq : forall a b, rules_eqb a b = true <-> a = b.
Proof.
  induction a as [|[x1 x2] a IH]; intros [|[y1 y2] b]; cbn; try (split; [discriminate|discriminate]); [tauto|].
  rewrite andb_true_iff, IH. unfold pair_eqb. cbn. rewrite andb_true_iff, !String.eqb_eq.
  split; [intros [[-> ->] ->]; auto|]. intros E. injection E as -> -> ->. auto.
Qed.
Lemma equal_normalisers : forall n m s, norm_ok n -> norm_ok m -> normEq regex n m = true ->
  fst (norm n s) = fst (norm m s).
Proof.
  intros n m s N M E. unfold normEq in E. apply rules_eqb_eq in E.
  destruct (norm n s) as [r n'] eqn:A. destruct (norm m s) as [r' m'] eqn:B.
  destruct (norm_step _ _ _ _ N A) as [X _]. destruct (norm_step _ _ _ _ M B) as [Y _].
  rewrite <- E in Y. cbn. eapply normalised_fun; eauto.
Qed.
Lemma equal_after_history : forall ops n m s, In n (fst (runNorm regex compile replace [] ops)) ->
  In m (fst (runNorm regex compile replace [] ops)) ->
  (normEq regex n m = true <-> nOrig regex n = nOrig regex m) /\
  (normEq regex n m = true -> fst (norm n s) = fst (norm m s)).
Proof.
  intros ops n m s N M. split; [apply rules_eqb_eq|]. apply equal_normalisers; eapply run_ok; eauto; intros ? [].
Qed.
End NormProofs.
