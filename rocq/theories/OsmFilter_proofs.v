From Coq Require Import Ascii String List Arith NArith Bool Lia Permutation.
From Verif Require Import ListAux StrAux OsmFilter_model OsmFilter_spec.
Import ListNotations.
Open Scope nat_scope.

Lemma startsWith_iff : forall b a, startsWith b a = true <-> exists y, a = (b ++ y)%string.
Proof.
  induction b as [|c b IH]; intros a; cbn [startsWith].
  - split; [intros _; exists a; reflexivity|auto].
  - destruct a as [|d a]; [split; [discriminate|intros (y & E); discriminate]|].
    rewrite andb_true_iff, Ascii.eqb_eq, IH. split.
    + intros (-> & y & ->). exists y. reflexivity.
    + intros (y & E). cbn in E. injection E; intros -> ->. split; eauto.
Qed.
Lemma hasSub_iff : forall a b, hasSub a b = true <-> exists x y, a = (x ++ b ++ y)%string.
Proof.
  induction a as [|c a IH]; intros b; cbn [hasSub]; rewrite orb_true_iff, startsWith_iff.
  - split.
    + intros [(y & E)|F]; [|discriminate]. exists ""%string, y. exact E.
    + intros (x & y & E). left. exists y. destruct x; [exact E|discriminate].
  - rewrite IH. split.
    + intros [(y & E)|(x & y & ->)]; [exists ""%string, y; exact E|exists (String c x), y; reflexivity].
    + intros (x & y & E). destruct x as [|d x]; [left; exists y; exact E|]. cbn in E. injection E; intros -> _. right. eauto.
Qed.
Lemma str_assoc3 : forall b s y : string, ((b ++ s) ++ y)%string = (b ++ s ++ y)%string.
Proof. intros. now rewrite str_app_assoc. Qed.
Lemma valMatches_iff : forall v b m, valMatches v b m = true <-> accepts (m = true) v b.
Proof.
  intros v b m. unfold valMatches, accepts. destruct (String.eqb_spec b "*") as [->|Nb]; [tauto|].
  destruct (m && _) eqn:E.
  - split; [|auto]. intros _. right. right. apply andb_true_iff in E. destruct E as (-> & E). split; [auto|].
    rewrite !orb_true_iff, !hasSub_iff in E. destruct E as [[[(x & y & ->)|(x & y & ->)]|(x & y & ->)]|(x & y & ->)]; exists x, y; rewrite <- ?str_app_assoc; auto.
  - rewrite String.eqb_eq. split; [auto|]. intros [F|[H|(-> & x & y & H)]]; [contradiction|auto|]. exfalso.
    cbn [andb] in E. rewrite !orb_false_iff in E. destruct E as (((E1 & E2) & E3) & E4).
    assert (Z : forall w, hasSub v w = false -> forall p q, v <> (p ++ w ++ q)%string).
    { intros w F p q Ev. assert (T : hasSub v w = true) by (apply hasSub_iff; eauto). congruence. }
    destruct H as [H|[H|[H|H]]].
    + apply (Z _ E1 x y). rewrite H, <- !str_app_assoc. reflexivity.
    + apply (Z _ E2 x y). rewrite H, <- !str_app_assoc. reflexivity.
    + apply (Z _ E3 x y). rewrite H, <- !str_app_assoc. reflexivity.
    + apply (Z _ E4 x y). rewrite H, <- !str_app_assoc. reflexivity.
Qed.

(** ** Flags *)
Lemma land_bit : forall a n, N.land a (2 ^ n) = (if N.testbit a n then 2 ^ n else 0)%N.
Proof.
  intros a n. apply N.bits_inj. intros i. rewrite N.land_spec, N.pow2_bits_eqb. destruct (N.eqb_spec n i) as [->|Ne].
  - rewrite andb_true_r. destruct (N.testbit a i) eqn:E; [now rewrite N.pow2_bits_true|now rewrite N.bits_0].
  - rewrite andb_false_r. destruct (N.testbit a n); [rewrite N.pow2_bits_false; auto|now rewrite N.bits_0].
Qed.
Lemma land_bit0 : forall a n, (N.land a (2 ^ n) =? 0)%N = negb (N.testbit a n).
Proof.
  intros a n. rewrite land_bit. destruct (N.testbit a n); cbn; [|reflexivity]. apply N.eqb_neq. apply N.pow_nonzero. discriminate.
Qed.
Lemma disabled_iff : forall t fl, negb (N.land fl (code t) =? 0)%N = true <-> disabled t fl.
Proof.
  intros t fl. destruct t; cbn [code disabled].
  - change 4%N with (2 ^ 2)%N. now rewrite land_bit0, negb_involutive.
  - change 8%N with (2 ^ 3)%N. now rewrite land_bit0, negb_involutive.
  - change 16%N with (2 ^ 4)%N. now rewrite land_bit0, negb_involutive.
  - rewrite N.land_0_r. cbn. split; [discriminate|easy].
Qed.
Lemma mult_iff : forall fl, negb (N.land fl MULT_VAL_MATCH =? 0)%N = N.testbit fl 5.
Proof. intros fl. unfold MULT_VAL_MATCH. change 32%N with (2 ^ 5)%N. now rewrite land_bit0, negb_involutive. Qed.

(** ** Maps *)
Lemma findK_some : forall m k vs, findK m k = Some vs -> In (k, vs) m.
Proof.
  induction m as [|[k' ws] m IH]; cbn; intros k vs E; [easy|]. destruct (String.eqb_spec k' k) as [->|Ne]; [injection E; intros ->; auto|auto].
Qed.
Lemma findK_none : forall m k, findK m k = None -> forall vs, ~ In (k, vs) m.
Proof.
  induction m as [|[k' ws] m IH]; cbn; intros k E vs I; [easy|]. destruct (String.eqb_spec k' k) as [->|Ne]; [easy|].
  destruct I as [I|I]; [congruence|]. now apply (IH k E vs).
Qed.
Lemma findK_in : forall m k vs, NoDup (map fst m) -> In (k, vs) m -> findK m k = Some vs.
Proof.
  induction m as [|[k' ws] m IH]; cbn; intros k vs Nd I; [easy|]. inversion Nd; subst. destruct I as [I|I].
  - injection I; intros -> ->. now rewrite String.eqb_refl.
  - destruct (String.eqb_spec k' k) as [->|Ne]; [|auto]. exfalso. apply H1. change k with (fst (k, vs)). now apply in_map.
Qed.

Lemma matchVals_iff : forall v vs t,
  (forall fl, matchVals v vs (code t) = Some fl -> exists b, In (b, fl) vs /\ ~ disabled t fl /\ accepts (N.testbit fl 5 = true) v b) /\
  (matchVals v vs (code t) = None -> forall b fl, In (b, fl) vs -> ~ disabled t fl -> ~ accepts (N.testbit fl 5 = true) v b).
Proof.
  induction vs as [|[b fl] vs IH]; cbn [matchVals]; intros t.
  - split; [discriminate|]. intros _ b fl [].
  - destruct (IH t) as (H1 & H2). rewrite mult_iff. destruct (negb (N.land fl (code t) =? 0)%N) eqn:D.
    + apply disabled_iff in D. split.
      * intros fl' E. destruct (H1 fl' E) as (b' & I & R). exists b'. cbn. auto.
      * intros E b' fl' [I|I] Nd; [injection I; intros; subst; contradiction|]. apply H2; auto.
    + assert (Nd : ~ disabled t fl) by (rewrite <- disabled_iff, D; discriminate).
      destruct (valMatches v b (N.testbit fl 5)) eqn:V.
      * apply valMatches_iff in V. split; [|discriminate]. intros fl' E. injection E; intros <-. exists b. cbn. auto.
      * split.
        -- intros fl' E. destruct (H1 fl' E) as (b' & I & R). exists b'. cbn. auto.
        -- intros E b' fl' [I|I] Nd'; [|apply H2; auto]. injection I; intros <- <-. rewrite <- valMatches_iff, V. discriminate.
Qed.

Lemma contained_hit : forall m t a, rules_ok m -> contained a m (code t) <> 0%N -> hit m t a (contained a m (code t)).
Proof.
  intros m t a Ok. induction a as [|[k v] a IH]; cbn [contained]; intros N0; [easy|].
  assert (Tail : contained a m (code t) <> 0%N -> hit m t ((k, v) :: a) (contained a m (code t))).
  { intros N1. destruct (IH N1) as (k' & v' & b & I & R). exists k', v', b. cbn. auto. }
  destruct (findK m k) as [vs|] eqn:F; [|auto].
  destruct (matchVals v vs (code t)) as [fl|] eqn:M; [|auto].
  apply (proj1 (matchVals_iff v vs t)) in M. destruct M as (b & I & D & A). apply findK_some in F.
  exists k, v, b. cbn. split; [auto|]. split; [exists vs; auto|]. auto.
Qed.
Lemma contained_complete : forall m t a, rules_ok m -> matches m t a -> contained a m (code t) <> 0%N.
Proof.
  intros m t a Ok (fl & k & v & b & I & (vs & Iv & Ib) & D & A). induction a as [|[k' v'] a IH]; [easy|]. cbn [contained].
  assert (Fl : forall k' vs' v' fl', findK m k' = Some vs' -> matchVals v' vs' (code t) = Some fl' -> fl' <> 0%N).
  { intros k0 vs0 v0 fl0 F M. apply findK_some in F. apply (proj1 (matchVals_iff v0 vs0 t)) in M. destruct M as (b0 & I0 & _).
    apply (ro_flags _ Ok k0 b0). exists vs0. auto. }
  destruct I as [I|I].
  - injection I; intros -> ->. rewrite (findK_in _ _ _ (ro_keys _ Ok) Iv).
    destruct (matchVals v vs (code t)) as [fl'|] eqn:M.
    + apply (Fl k vs v); [now apply findK_in; [apply ro_keys|]|exact M].
    + exfalso. exact (proj2 (matchVals_iff v vs t) M b fl Ib D A).
  - destruct (findK m k') as [vs'|] eqn:F; [|auto]. destruct (matchVals v' vs' (code t)) as [fl'|] eqn:M; [eauto|auto].
Qed.
Lemma contained_iff : forall m t a, rules_ok m -> (contained a m (code t) <> 0%N <-> matches m t a).
Proof.
  intros m t a Ok. split; [|now apply contained_complete]. intros N0. exists (contained a m (code t)). now apply contained_hit.
Qed.

Lemma isSet_iff : forall n, isSet n = true <-> n <> 0%N.
Proof. intros n. unfold isSet. rewrite negb_true_iff. apply N.eqb_neq. Qed.
Lemma unless_iff : forall (P Q : Prop) x y, (x <> 0%N <-> P) -> (y <> 0%N <-> Q) -> ((if isSet x then 0%N else y) <> 0%N <-> Q /\ ~ P).
Proof.
  intros P Q x y HP HQ. destruct (isSet x) eqn:E.
  - apply isSet_iff in E. split; [congruence|]. intros (_ & N0). exfalso. apply N0. now apply HP.
  - split; intros H.
    + split; [now apply HQ|]. intros p. apply HP in p. apply isSet_iff in p. congruence.
    + destruct H as (q & _). now apply HQ.
Qed.

Lemma plain_iff : forall v b, valMatches v b false = true <-> b = "*"%string \/ v = b.
Proof.
  intros v b. rewrite valMatches_iff. unfold accepts. split; [|tauto]. intros [H|[H|(H & _)]]; [auto|auto|discriminate].
Qed.
Lemma levelHit_iff : forall a m, rules_ok m -> (levelHit a m = true <-> matches_plain m a).
Proof.
  intros a m Ok. unfold levelHit, matches_plain. rewrite existsb_exists. split.
  - intros ([k v] & I & E). cbn in E. destruct (findK m k) as [vs|] eqn:F; [|discriminate]. apply existsb_exists in E. destruct E as ([b fl] & Ib & V).
    cbn in V. apply plain_iff in V. exists k, v, b, fl. split; [auto|]. split; [exists vs; split; [now apply findK_some|auto]|auto].
  - intros (k & v & b & fl & I & (vs & Iv & Ib) & V). exists (k, v). split; [auto|]. cbn. rewrite (findK_in _ _ _ (ro_keys _ Ok) Iv).
    apply existsb_exists. exists (b, fl). split; [auto|]. now apply plain_iff.
Qed.
Lemma levelFrom_spec : forall a ls i, Forall rules_ok ls ->
  (exists j m, levelFrom a ls i = i + j /\ nth_error ls j = Some m /\ matches_plain m a /\ forall j' m', j' < j -> nth_error ls j' = Some m' -> ~ matches_plain m' a) \/
  (levelFrom a ls i = 0 /\ forall m, In m ls -> ~ matches_plain m a).
Proof.
  induction ls as [|m ls IH]; cbn [levelFrom]; intros i Ok.
  - right. split; [reflexivity|]. intros m [].
  - inversion Ok; subst. destruct (levelHit a m) eqn:E.
    + left. exists 0, m. split; [lia|]. split; [reflexivity|]. split; [now apply levelHit_iff|]. intros; lia.
    + assert (Nm : ~ matches_plain m a) by (rewrite <- levelHit_iff by auto; congruence).
      destruct (IH (S i) H2) as [(j & m' & E1 & E2 & M & Mi)|(E1 & N0)].
      * left. exists (S j), m'. split; [lia|]. split; [exact E2|]. split; [exact M|]. intros [|j'] m'' L E''.
        -- cbn in E''. injection E''; intros <-. exact Nm.
        -- apply (Mi j'); [lia|exact E''].
      * right. split; [exact E1|]. intros m' [<-|I]; auto.
Qed.

Lemma meaning : forall f a, filt_ok f -> filter_meaning f a.
Proof.
  intros f a Ok. destruct Ok. constructor.
  - intros t. now apply contained_iff.
  - intros t. now apply contained_iff.
  - apply unless_iff; now apply (contained_iff _ Way).
  - apply unless_iff; now apply (contained_iff _ Way).
  - now apply (contained_iff _ Node).
  - now apply (contained_iff _ Node).
  - now apply (contained_iff _ Node).
  - apply unless_iff; now apply (contained_iff _ Any).
  - apply unless_iff; now apply (contained_iff _ Any).
  - intros k v. unfold nohup, matches_plain. split.
    + destruct (findK (fNohup f) k) as [vs|] eqn:F; [|discriminate]. intros E. apply existsb_exists in E. destruct E as ([b fl] & Ib & V). cbn in V.
      apply plain_iff in V. exists k, v, b, fl. cbn. split; [auto|]. split; [exists vs; split; [now apply findK_some|auto]|auto].
    + intros (k' & v' & b & fl & [I|[]] & (vs & Iv & Ib) & V). injection I; intros <- <-. rewrite (findK_in _ _ _ (ro_keys _ fo_nohup) Iv).
      apply existsb_exists. exists (b, fl). split; [auto|]. now apply plain_iff.
  - intros t N0. now apply contained_hit.
  - unfold level. destruct (levelFrom_spec a (fLevels f) 0 fo_levels) as [(j & m & E & R)|R].
    + left. exists m. cbn in E. rewrite E. exact R.
    + right. exact R.
Qed.

(** ** Order and reading *)
Lemma matches_incl : forall m t a a', (forall x, In x a -> In x a') -> matches m t a -> matches m t a'.
Proof. intros m t a a' H (fl & k & v & b & I & R). exists fl, k, v, b. auto. Qed.
Lemma plain_incl : forall m a a', (forall x, In x a -> In x a') -> matches_plain m a -> matches_plain m a'.
Proof. intros m a a' H (k & v & b & fl & I & R). exists k, v, b, fl. auto. Qed.

Lemma read_in : forall f extra j a k v, In (k, v) (readAttrs f extra j a) <-> In (k, v) a /\ In k (keptKeys f extra j).
Proof.
  intros. unfold readAttrs. rewrite filter_In. cbn. rewrite existsb_exists. split.
  - intros (I & x & Ix & E). apply String.eqb_eq in E. subst. auto.
  - intros (I & Ik). split; [auto|]. exists k. split; [auto|apply String.eqb_refl].
Qed.
Lemma rule_key : forall m k b fl, rule m k b fl -> In k (keys m).
Proof. intros m k b fl (vs & I & _). unfold keys. change k with (fst (k, vs)). now apply in_map. Qed.
Lemma read_matches : forall f extra j m t a, (forall k, In k (keys m) -> In k (keptKeys f extra j)) ->
  (matches m t (readAttrs f extra j a) <-> matches m t a).
Proof.
  intros f extra j m t a H. split.
  - apply matches_incl. intros x I. unfold readAttrs in I. apply filter_In in I. tauto.
  - intros (fl & k & v & b & I & R & D). exists fl, k, v, b. split; [|auto]. apply read_in. split; [auto|]. apply H. eapply rule_key; eauto.
Qed.
Lemma read_plain : forall f extra j m a, (forall k, In k (keys m) -> In k (keptKeys f extra j)) ->
  (matches_plain m (readAttrs f extra j a) <-> matches_plain m a).
Proof.
  intros f extra j m a H. split.
  - apply plain_incl. intros x I. unfold readAttrs in I. apply filter_In in I. tauto.
  - intros (k & v & b & fl & I & R & D). exists k, v, b, fl. split; [|auto]. apply read_in. split; [auto|]. apply H. eapply rule_key; eauto.
Qed.
Lemma same_contained : forall m t a a', rules_ok m -> (matches m t a <-> matches m t a') -> same_bool (contained a m (code t)) (contained a' m (code t)).
Proof. intros m t a a' Ok H. unfold same_bool. rewrite !contained_iff by auto. exact H. Qed.
Lemma same_unless : forall x x' y y', same_bool x x' -> same_bool y y' -> same_bool (if isSet x then 0%N else y) (if isSet x' then 0%N else y').
Proof.
  intros x x' y y' Hx Hy. unfold same_bool in *. rewrite (unless_iff (x' <> 0%N) (y' <> 0%N)), (unless_iff (x' <> 0%N) (y' <> 0%N)); tauto.
Qed.
Lemma level_unique : forall f a a', Forall rules_ok (fLevels f) -> (forall m, In m (fLevels f) -> (matches_plain m a <-> matches_plain m a')) -> level f a = level f a'.
Proof.
  intros f a a' Ok H. unfold level. revert Ok H. generalize (fLevels f) as ls. generalize 0 as i. intros i ls. revert i.
  induction ls as [|m ls IH]; cbn [levelFrom]; intros i Ok H; [reflexivity|]. inversion Ok; subst.
  assert (E : levelHit a m = levelHit a' m).
  { apply eq_true_iff_eq. rewrite !levelHit_iff by auto. apply H. now left. }
  rewrite E. destruct (levelHit a' m); [reflexivity|]. apply IH; [auto|]. intros m' I. apply H. now right.
Qed.

Lemma order_node : forall f a a', filt_ok f -> Permutation a a' -> same_node f a a'.
Proof.
  intros f a a' [] P.
  assert (M : forall m t, matches m t a <-> matches m t a').
  { intros. split; apply matches_incl; intros x I; [now apply (Permutation_in _ P)|now apply (Permutation_in _ (Permutation_sym P))]. }
  constructor; [apply (same_contained _ Node)|apply (same_contained _ Node)|apply (same_contained _ Node)|apply (same_contained _ Node)|apply (same_contained _ Node)]; auto.
Qed.
Lemma order_way : forall f a a', filt_ok f -> Permutation a a' -> same_way f a a'.
Proof.
  intros f a a' [] P.
  assert (In1 : forall x, In x a -> In x a') by (intros x; now apply Permutation_in).
  assert (In2 : forall x, In x a' -> In x a) by (intros x; apply Permutation_in; now apply Permutation_sym).
  assert (M : forall m t, matches m t a <-> matches m t a') by (intros; split; apply matches_incl; auto).
  constructor; try (apply (same_contained _ Way); auto); try (apply same_unless; apply (same_contained _ Way); auto).
  apply level_unique; [auto|]. intros m _. split; apply plain_incl; auto.
Qed.
Lemma order_rel : forall f a a', filt_ok f -> Permutation a a' -> same_rel f a a'.
Proof.
  intros f a a' [] P.
  assert (M : forall m t, matches m t a <-> matches m t a').
  { intros. split; apply matches_incl; intros x I; [now apply (Permutation_in _ P)|now apply (Permutation_in _ (Permutation_sym P))]. }
  constructor; try (apply (same_contained _ Relation); auto); apply same_unless; apply (same_contained _ Any); auto.
Qed.

Ltac ks := let k := fresh in let I := fresh in intros k I; unfold keptKeys; rewrite !in_app_iff; auto 12.
Lemma read_node : forall f extra a, filt_ok f -> same_node f (readAttrs f extra 0 a) a.
Proof.
  intros f extra a []. constructor; apply (same_contained _ Node); auto; apply read_matches; ks.
Qed.
Lemma read_way : forall f extra a, filt_ok f -> length (fLevels f) = 8 ->
  (forall m k, nth_error (fLevels f) 7 = Some m -> In k (keys m) -> In k (keptKeys f extra 1)) -> same_way f (readAttrs f extra 1 a) a.
Proof.
  intros f extra a [] L K7. constructor; try (apply same_unless); try (apply (same_contained _ Way); auto; apply read_matches; ks).
  apply level_unique; [auto|]. intros m I. apply read_plain. intros k Ik.
  apply In_nth_error in I. destruct I as (i & E). assert (Li : i < 8) by (rewrite <- L; apply nth_error_Some; congruence).
  destruct (Nat.eq_dec i 7) as [->|N7]; [eauto|]. unfold keptKeys. rewrite !in_app_iff. right. right. left. right. right. right.
  apply in_flat_map. exists m. split; [|auto]. apply (nth_error_In _ i). rewrite <- E.
  rewrite <- (firstn_skipn 7 (fLevels f)) at 2. rewrite nth_error_app1; [reflexivity|]. rewrite firstn_length. lia.
Qed.
Lemma read_rel : forall f extra a, filt_ok f -> same_rel f (readAttrs f extra 2 a) a.
Proof.
  intros f extra a []. constructor; try (apply same_unless); try (apply (same_contained _ Relation); auto; apply read_matches; ks);
    apply (same_contained _ Any); auto; apply read_matches; ks.
Qed.

(** ** C07 *)
Lemma listed_ok : forall v b, listed v b -> valMatches v b true = true.
Proof.
  intros v b (pre & l & r & post & -> & L & R). apply valMatches_iff. unfold accepts.
  destruct L as [(-> & ->)|L].
  - destruct R as [(-> & ->)|R].
    + right. left. cbn. now rewrite str_app_nil_r.
    + right. right. split; [auto|]. exists ""%string, post. cbn. destruct R as [-> | ->]; auto.
  - right. right. split; [auto|]. exists pre, (r ++ post)%string. destruct L as [-> | ->]; auto.
Qed.

(** ** C08 *)
Lemma insertVal_old : forall vs b x, In x vs -> In x (insertVal vs b).
Proof. intros. unfold insertVal. destruct existsb; [auto|apply in_or_app; auto]. Qed.
Lemma insertVal_in : forall vs b x, In x (insertVal vs b) -> In x vs \/ x = b.
Proof. intros vs b x. unfold insertVal. destruct existsb; [auto|]. rewrite in_app_iff. cbn. intuition. Qed.
Lemma insertVal_has : forall vs b, exists fl, In (fst b, fl) (insertVal vs b).
Proof.
  intros vs [b fl]. unfold insertVal. destruct existsb eqn:E.
  - apply existsb_exists in E. destruct E as ([b' fl'] & I & Eb). apply String.eqb_eq in Eb. cbn in Eb. subst. eauto.
  - exists fl. apply in_or_app. cbn. auto.
Qed.
Lemma foldVal_old : forall ws vs x, In x vs -> In x (fold_left insertVal ws vs).
Proof. induction ws; cbn; intros; [auto|]. apply IHws. now apply insertVal_old. Qed.
Lemma foldVal_in : forall ws vs x, In x (fold_left insertVal ws vs) -> In x vs \/ In x ws.
Proof.
  induction ws as [|w ws IH]; cbn; intros vs x I; [auto|]. destruct (IH _ _ I) as [H|H]; [|auto]. apply insertVal_in in H. destruct H; auto.
Qed.
Lemma foldVal_has : forall ws vs b fl, In (b, fl) ws -> exists fl', In (b, fl') (fold_left insertVal ws vs).
Proof.
  induction ws as [|w ws IH]; cbn; intros vs b fl I; [easy|]. destruct I as [->|I]; [|eauto].
  destruct (insertVal_has vs (b, fl)) as (fl' & I). exists fl'. now apply foldVal_old.
Qed.
Lemma insertVals_in : forall m k vs k' b fl, rule (insertVals m k vs) k' b fl -> rule m k' b fl \/ (k' = k /\ In (b, fl) vs).
Proof.
  induction m as [|[k0 ws] m IH]; cbn; intros k vs k' b fl (us & I & Ib).
  - destruct I as [I|[]]. injection I; intros <- <-. apply foldVal_in in Ib. destruct Ib as [[]|Ib]. auto.
  - destruct (String.eqb_spec k0 k) as [->|Ne].
    + destruct I as [I|I].
      * injection I; intros <- <-. apply foldVal_in in Ib. destruct Ib as [Ib|Ib]; [|auto]. left. exists ws. cbn. auto.
      * left. exists us. cbn. auto.
    + destruct I as [I|I].
      * left. exists us. cbn. auto.
      * destruct (IH k vs k' b fl) as [(us' & I' & R)|R]; [exists us; auto| |auto]. left. exists us'. cbn. auto.
Qed.
Lemma insertVals_old : forall m k vs k' b fl, rule m k' b fl -> rule (insertVals m k vs) k' b fl.
Proof.
  induction m as [|[k0 ws] m IH]; cbn; intros k vs k' b fl (us & I & Ib); [easy|].
  destruct (String.eqb_spec k0 k) as [->|Ne].
  - destruct I as [I|I].
    + injection I; intros <- <-. eexists. split; [left; reflexivity|]. now apply foldVal_old.
    + exists us. cbn. auto.
  - destruct I as [I|I].
    + exists us. cbn. auto.
    + destruct (IH k vs k' b fl) as (us' & I' & R); [exists us; auto|]. exists us'. cbn. auto.
Qed.
Lemma insertVals_has : forall m k vs b fl, In (b, fl) vs -> exists fl', rule (insertVals m k vs) k b fl'.
Proof.
  induction m as [|[k0 ws] m IH]; cbn; intros k vs b fl I.
  - destruct (foldVal_has vs [] b fl I) as (fl' & I'). exists fl'. eexists. split; [left; reflexivity|auto].
  - destruct (String.eqb_spec k0 k) as [->|Ne].
    + destruct (foldVal_has vs ws b fl I) as (fl' & I'). exists fl'. eexists. split; [left; reflexivity|auto].
    + destruct (IH k vs b fl I) as (fl' & us & I' & R). exists fl', us. cbn. auto.
Qed.
Lemma insertVals_keys : forall m k vs, map fst (insertVals m k vs) = map fst m \/ (~ In k (map fst m) /\ map fst (insertVals m k vs) = map fst m ++ [k]).
Proof.
  induction m as [|[k0 ws] m IH]; cbn; intros k vs; [right; split; auto|]. destruct (String.eqb_spec k0 k) as [->|Ne]; [left; reflexivity|].
  cbn. destruct (IH k vs) as [E|(N0 & E)]; [left; now rewrite E|right; rewrite E; split; [|reflexivity]]. intros [F|F]; auto.
Qed.
Lemma insertVals_nodup : forall m k vs, NoDup (map fst m) -> NoDup (map fst (insertVals m k vs)).
Proof.
  intros m k vs Nd. destruct (insertVals_keys m k vs) as [E|(N0 & E)]; rewrite E; [auto|].
  apply (Permutation_NoDup (l := k :: map fst m)); [apply Permutation_cons_append|]. constructor; auto.
Qed.
Lemma mergeMap_in : forall other m k b fl, rule (mergeMap m other) k b fl -> rule m k b fl \/ rule other k b fl.
Proof.
  unfold mergeMap. induction other as [|[k0 vs] other IH]; cbn; intros m k b fl R; [auto|].
  destruct (IH _ k b fl R) as [H|(us & I & Ib)].
  - apply insertVals_in in H. destruct H as [H|(-> & I)]; [auto|]. right. exists vs. cbn. auto.
  - right. exists us. cbn. auto.
Qed.
Lemma mergeMap_old : forall other m k b fl, rule m k b fl -> rule (mergeMap m other) k b fl.
Proof. unfold mergeMap. induction other; cbn; intros; [auto|]. apply IHother. now apply insertVals_old. Qed.
Lemma mergeMap_has : forall other m k b fl, rule other k b fl -> exists fl', rule (mergeMap m other) k b fl'.
Proof.
  induction other as [|[k0 vs] other IH]; cbn; intros m k b fl (us & I & Ib); [easy|]. destruct I as [I|I].
  - injection I; intros -> ->. destruct (insertVals_has m k us b fl Ib) as (fl' & R). exists fl'. change (rule (mergeMap (insertVals m k us) other) k b fl'). now apply mergeMap_old.
  - apply (IH (insertVals m k0 vs) k b fl). exists us. auto.
Qed.
Lemma mergeMap_nodup : forall other m, NoDup (map fst m) -> NoDup (map fst (mergeMap m other)).
Proof. unfold mergeMap. induction other; cbn; intros; [auto|]. apply IHother. now apply insertVals_nodup. Qed.

Lemma merge_spec : forall cs f, (forall k b fl, rule (fKeep (fold_left (fun f c => merge f (withKeep (fKeep c) (fDrop c))) cs f)) k b fl ->
    rule (fKeep f) k b fl \/ exists c, In c cs /\ rule (fKeep c) k b fl) /\
  (forall k b fl, (rule (fKeep f) k b fl \/ exists c, In c cs /\ rule (fKeep c) k b fl) ->
    exists fl', rule (fKeep (fold_left (fun f c => merge f (withKeep (fKeep c) (fDrop c))) cs f)) k b fl').
Proof.
  induction cs as [|c cs IH]; cbn; intros f.
  - split; [auto|]. intros k b fl [R|(c & [] & _)]. eauto.
  - destruct (IH (merge f (withKeep (fKeep c) (fDrop c)))) as (H1 & H2). split.
    + intros k b fl R. destruct (H1 k b fl R) as [R'|(c' & I & R')]; [|right; exists c'; auto].
      unfold merge in R'. cbn in R'. apply mergeMap_in in R'. destruct R' as [R'|R']; [|right; exists c; auto].
      apply mergeMap_in in R'. destruct R' as [(us & [] & _)|R']. auto.
    + intros k b fl [R|(c' & [<-|I] & R)].
      * destruct (mergeMap_has (fKeep f) [] k b fl R) as (fl' & R'). apply (H2 k b fl'). left. cbn. now apply mergeMap_old.
      * destruct (mergeMap_has (fKeep c) (mergeMap [] (fKeep f)) k b fl R) as (fl' & R'). apply (H2 k b fl'). left. exact R'.
      * apply (H2 k b fl). right. eauto.
Qed.
Lemma merge_nodup : forall cs f, NoDup (map fst (fKeep f)) -> NoDup (map fst (fKeep (fold_left (fun f c => merge f (withKeep (fKeep c) (fDrop c))) cs f))).
Proof.
  induction cs as [|c cs IH]; cbn; intros f Nd; [auto|]. apply IH. cbn. apply mergeMap_nodup. apply mergeMap_nodup. constructor.
Qed.
Lemma merged_rules_ok : forall cs, (forall c, In c cs -> rules_ok (fKeep c)) -> rules_ok (fKeep (mergeConfigs cs)).
Proof.
  intros cs Ok. constructor.
  - apply merge_nodup. constructor.
  - intros k b fl R. apply (proj1 (merge_spec cs emptyFilt)) in R. destruct R as [(us & [] & _)|(c & I & R)]. apply (ro_flags _ (Ok c I) k b fl R).
Qed.
Lemma merged_keeps : forall cs, (forall c, In c cs -> rules_ok (fKeep c)) -> agree cs -> forall a t,
  (keep (mergeConfigs cs) a (code t) <> 0%N <-> exists c, In c cs /\ keep c a (code t) <> 0%N).
Proof.
  intros cs Ok Ag a t. unfold keep at 1. rewrite contained_iff by now apply merged_rules_ok. split.
  - intros (fl & k & v & b & I & R & D). apply (proj1 (merge_spec cs emptyFilt)) in R. destruct R as [(us & [] & _)|(c & Ic & R)].
    exists c. split; [auto|]. unfold keep. apply contained_iff; [auto|]. exists fl, k, v, b. auto.
  - intros (c & Ic & N0). unfold keep in N0. apply contained_iff in N0; [|auto]. destruct N0 as (fl & k & v & b & I & R & D).
    destruct (proj2 (merge_spec cs emptyFilt) k b fl (or_intror (ex_intro _ c (conj Ic R)))) as (fl' & R').
    assert (fl' = fl).
    { pose proof (proj1 (merge_spec cs emptyFilt) k b fl' R') as Q. destruct Q as [(us & [] & _)|(c' & Ic' & Rc')]. symmetry. apply (Ag c c' k b fl fl'); auto. }
    subst fl'. exists fl, k, v, b. auto.
Qed.
Lemma merged_only : forall cs, (forall c, In c cs -> rules_ok (fKeep c)) -> forall a t,
  keep (mergeConfigs cs) a (code t) <> 0%N -> exists c, In c cs /\ keep c a (code t) <> 0%N.
Proof.
  intros cs Ok a t N0. unfold keep in N0. apply contained_iff in N0; [|now apply merged_rules_ok].
  destruct N0 as (fl & k & v & b & I & R & D). apply (proj1 (merge_spec cs emptyFilt)) in R. destruct R as [(us & [] & _)|(c & Ic & R)].
  exists c. split; [auto|]. unfold keep. apply contained_iff; [auto|]. exists fl, k, v, b. auto.
Qed.
Lemma merged_drops_nothing : forall cs a t, drop (mergeConfigs cs) a t = 0%N.
Proof.
  intros cs a t. unfold drop. assert (E : fDrop (mergeConfigs cs) = []).
  { unfold mergeConfigs. assert (G : forall l f, fDrop f = [] -> fDrop (fold_left (fun f c => merge f (withKeep (fKeep c) (fDrop c))) l f) = []).
    { induction l; cbn; intros; [auto|]. apply IHl. reflexivity. }
    now apply G. }
  rewrite E. induction a as [|[k v] a IH]; cbn; auto.
Qed.

(** ** A test for [rules_ok] *)
Fixpoint rulesOk (m : rulemap) : bool :=
  match m with
  | [] => true
  | (k, vs) :: r => negb (existsb (fun x => String.eqb (fst x) k) r) && forallb (fun b => negb (snd b =? 0)%N) vs && rulesOk r
  end.
Lemma rulesOk_ok : forall m, rulesOk m = true -> rules_ok m.
Proof.
  induction m as [|[k vs] m IH]; cbn; intros H.
  - constructor; [constructor|]. intros k b fl (vs & [] & _).
  - apply andb_prop in H. destruct H as (H & H2). apply andb_prop in H. destruct H as (H0 & H1). destruct (IH H2) as (Nd & Fl). constructor.
    + cbn. constructor; [|auto]. intros I. apply in_map_iff in I. destruct I as (x & <- & I). apply negb_true_iff in H0.
      assert (existsb (fun y => String.eqb (fst y) (fst x)) m = true); [|congruence]. apply existsb_exists. exists x. split; [auto|apply String.eqb_refl].
    + intros k' b fl (us & [I|I] & Ib).
      * injection I; intros <- <-. rewrite forallb_forall in H1. specialize (H1 _ Ib). cbn in H1. apply negb_true_iff in H1. now apply N.eqb_neq in H1.
      * apply (Fl k' b fl). exists us. auto.
Qed.
