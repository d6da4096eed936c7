From Coq Require Import List Arith ZArith Bool Lia.
From Verif Require Import HopCache_model HopCache_spec.
Import ListNotations.

Lemma addNonOverflow_sat a b : (0 <= a <= u32max)%Z -> (0 <= b <= u32max)%Z ->
  addNonOverflow a b = Z.min (a + b) u32max.
Proof.
  intros Ha Hb. unfold addNonOverflow, wrap32, u32max in *.
  destruct (Z.eqb_spec a (2 ^ 32 - 1)); [cbn [orb]; lia|].
  destruct (Z.eqb_spec b (2 ^ 32 - 1)); [cbn [orb]; lia|]. cbn [orb].
  destruct (Z_lt_ge_dec (a + b) (2 ^ 32)) as [H|H].
  - rewrite Z.mod_small by lia.
    destruct (Z.leb_spec a (a + b)); [|lia].
    destruct (Z.leb_spec b (a + b)); [|lia]. cbn [andb]. lia.
  - replace ((a + b) mod 2 ^ 32)%Z with (a + b - 2 ^ 32)%Z.
    2:{ apply (Z.mod_unique_pos _ _ 1); lia. }
    destruct (Z.leb_spec a (a + b - 2 ^ 32)); [lia|]. cbn [andb]. lia.
Qed.

Definition enc (r : Z * bool) : Z := if snd r then (- (fst r + 1))%Z else fst r.

Lemma cget_set c x y v a b :
  cget (cset c x y v) a b = if (x =? a) && (y =? b) then v else cget c a b.
Proof. reflexivity. Qed.

Lemma fold_tos bs : forall c x v a b,
  cget (fold_left (fun c b => cset c x b v) bs c) a b =
  if (x =? a) && existsb (Nat.eqb b) bs then v else cget c a b.
Proof.
  induction bs as [|y bs IH]; intros c x v a b; cbn [fold_left existsb].
  - rewrite andb_false_r. reflexivity.
  - rewrite IH, cget_set.
    rewrite (Nat.eqb_sym y b).
    destruct (x =? a); cbn [andb]; [|reflexivity].
    destruct (existsb (Nat.eqb b) bs); [rewrite orb_true_r; reflexivity|].
    rewrite orb_false_r. destruct (b =? y); reflexivity.
Qed.
Lemma fold_frs as_ : forall c y v a b,
  cget (fold_left (fun c a => cset c a y v) as_ c) a b =
  if existsb (Nat.eqb a) as_ && (y =? b) then v else cget c a b.
Proof.
  induction as_ as [|x as_ IH]; intros c y v a b; cbn [fold_left existsb].
  - reflexivity.
  - rewrite IH, cget_set. rewrite (Nat.eqb_sym x a).
    destruct (y =? b); rewrite ?andb_true_r, ?andb_false_r; [|reflexivity].
    destruct (existsb (Nat.eqb a) as_); [rewrite orb_true_r; reflexivity|].
    rewrite orb_false_r. destruct (a =? x); reflexivity.
Qed.
Lemma existsb_eqb_In x l : existsb (Nat.eqb x) l = true <-> In x l.
Proof.
  rewrite existsb_exists. split.
  - intros (y & Hy & E). apply Nat.eqb_eq in E. subst; exact Hy.
  - intros H. exists x. split; [exact H|apply Nat.eqb_refl].
Qed.

Lemma cstep_cget c o a b :
  (exists r, says a b o r /\ cget (cstep c o) a b = enc r /\ fst r = cop_val o) \/
  ((forall r, ~ says a b o r) /\ cget (cstep c o) a b = cget c a b).
Proof.
  destruct o as [x y v|x y v|x ys v|xs y v]; cbn [cstep says].
  - unfold setMin. rewrite cget_set.
    destruct (Nat.eqb_spec x a), (Nat.eqb_spec y b); cbn [andb];
      [left; exists (v, false); auto|right; split; [intros r (?&?&?); congruence|reflexivity]..].
  - unfold setEx. rewrite cget_set.
    destruct (Nat.eqb_spec x a), (Nat.eqb_spec y b); cbn [andb];
      [left; exists (v, true); auto|right; split; [intros r (?&?&?); congruence|reflexivity]..].
  - unfold setMinTos. rewrite fold_tos.
    destruct (Nat.eqb_spec x a); cbn [andb];
      [|right; split; [intros r (?&?&?); congruence|reflexivity]].
    destruct (existsb (Nat.eqb b) ys) eqn:E.
    + left; exists (v, false). apply existsb_eqb_In in E. auto.
    + right; split; [|reflexivity]. intros r (_&H&_). apply existsb_eqb_In in H. congruence.
  - unfold setMinFrs. rewrite fold_frs.
    destruct (existsb (Nat.eqb a) xs) eqn:E; cbn [andb].
    + destruct (Nat.eqb_spec y b).
      * left; exists (v, false). apply existsb_eqb_In in E. auto.
      * right; split; [intros r (?&?&?); congruence|reflexivity].
    + right; split; [|reflexivity]. intros r (H&_&_). apply existsb_eqb_In in H. congruence.
Qed.

Lemma crun_snoc ops o : crun (ops ++ [o]) = cstep (crun ops) o.
Proof. unfold crun. apply fold_left_app. Qed.

Theorem get_last_said ops a b : u32_cops ops ->
  last_said ops a b (get (crun ops) a b).
Proof.
  intros Hu.
  assert (H : exists r, last_said ops a b r /\ cget (crun ops) a b = enc r /\
                        (0 <= fst r <= u32max)%Z).
  { revert Hu. induction ops as [|o ops IH] using rev_ind; intros Hu.
    - exists (0%Z, false). split; [right; split; [reflexivity|intros o r' []]|].
      split; [reflexivity|cbn; unfold u32max; lia].
    - unfold u32_cops in Hu. rewrite Forall_app in Hu. destruct Hu as [Hu Ho].
      inversion Ho as [|? ? Hov _]; subst.
      destruct (IH Hu) as (r & Hr & Hc & Hb). rewrite crun_snoc.
      destruct (cstep_cget (crun ops) o a b) as [(r' & Hs & Hg & Hv)|(Hn & Hg)].
      + exists r'. split; [|split; [exact Hg|rewrite Hv; exact Hov]].
        left. exists ops, o, []. split; [reflexivity|]. split; [exact Hs|]. intros ? ? [].
      + exists r. split; [|split; [rewrite Hg; exact Hc|exact Hb]].
        destruct Hr as [(pre & o1 & post & -> & Hs & Hno)|(-> & Hno)].
        * left. exists pre, o1, (post ++ [o]). rewrite <- app_assoc. split; [reflexivity|].
          split; [exact Hs|]. intros o' r' Hin. apply in_app_or in Hin.
          destruct Hin as [Hin|[<-|[]]]; [apply Hno; exact Hin|apply Hn].
        * right. split; [reflexivity|]. intros o' r' Hin. apply in_app_or in Hin.
          destruct Hin as [Hin|[<-|[]]]; [apply Hno; exact Hin|apply Hn]. }
  destruct H as (r & Hr & Hc & Hb). unfold get. rewrite Hc.
  destruct r as [v k]. cbn [fst] in Hb. unfold enc; cbn [snd fst].
  unfold wrap32, u32max in *. destruct k.
  - destruct (Z.ltb_spec (- (v + 1)) 0); [|lia].
    replace (- - (v + 1) - 1)%Z with v by lia. rewrite Z.mod_small by lia. exact Hr.
  - destruct (Z.ltb_spec v 0); [lia|]. rewrite Z.mod_small by lia. exact Hr.
Qed.

Lemma last_said_fun ops a b r1 r2 : last_said ops a b r1 -> last_said ops a b r2 -> r1 = r2.
Proof.
  assert (Hsf : forall o r r', says a b o r -> says a b o r' -> r = r').
  { intros [x y v|x y v|x ys v|xs y v] r r'; cbn; intros (?&?&->) (?&?&->); reflexivity. }
  intros [(p1&o1&q1&E1&S1&N1)|(->&N1)] [(p2&o2&q2&E2&S2&N2)|(->&N2)].
  - assert (Hd : forall p1 p2 : list cop, p1 ++ o1 :: q1 = p2 ++ o2 :: q2 ->
        (p1 = p2 /\ o1 = o2) \/ In o1 q2 \/ In o2 q1).
    { clear. induction p1 as [|x p1 IH]; intros [|y p2] H; cbn in H.
      - injection H as -> _. auto.
      - injection H as -> ->. right. right. apply in_or_app. right. left. reflexivity.
      - injection H as <- <-. right. left. apply in_or_app. right. left. reflexivity.
      - injection H as -> H. destruct (IH p2 H) as [(->&->)|H']; auto. }
    subst ops. destruct (Hd p1 p2 E2) as [(_&->)|[H|H]].
    + eapply Hsf; eauto.
    + exfalso. exact (N2 _ _ H S1).
    + exfalso. exact (N1 _ _ H S2).
  - exfalso. subst ops. apply (N2 o1 r1); [|exact S1]. apply in_or_app. right. left. reflexivity.
  - exfalso. subst ops. apply (N1 o2 r2); [|exact S2]. apply in_or_app. right. left. reflexivity.
  - reflexivity.
Qed.

Lemma cacheDrop_spec c froms to maxCost :
  cacheDrop c froms to maxCost = true <->
  forall fr, In fr froms -> (maxCost < fst (get c fr to))%Z.
Proof.
  unfold cacheDrop. rewrite negb_true_iff. split.
  - intros H fr Hin. destruct (Z.leb_spec (fst (get c fr to)) maxCost) as [Hle|]; [|assumption].
    exfalso. assert (existsb (fun fr => (fst (get c fr to) <=? maxCost)%Z) froms = true).
    { apply existsb_exists. exists fr. split; [exact Hin|]. apply Z.leb_le. exact Hle. }
    congruence.
  - intros H. destruct (existsb _ froms) eqn:E; [|reflexivity].
    apply existsb_exists in E. destruct E as (fr & Hin & Hle). apply Z.leb_le in Hle.
    specialize (H fr Hin). lia.
Qed.
