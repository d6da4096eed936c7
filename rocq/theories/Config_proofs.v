(** Proofs about the configuration of vehicle types. *)
From Coq Require Import Ascii String List Arith ZArith NArith QArith Qround Bool Lia Setoid.
From Verif Require Import ListAux StrAux Config_model Config_spec.
Import ListNotations.
Open Scope string_scope.
Open Scope list_scope.
Open Scope nat_scope.
Local Arguments Nat.eqb : simpl never.
Local Arguments Nat.ltb : simpl never.

(** ** Text *)
Lemma sub_skip : forall a b n m, substring (String.length a + n) m (a ++ b) = substring n m b.
Proof. induction a as [|c a IH]; intros b n m; [reflexivity | cbn; apply IH]. Qed.
Lemma sub_ex : forall s p pat, pat <> "" -> substring p (String.length pat) s = pat -> exists a b, s = (a ++ pat ++ b)%string /\ String.length a = p.
Proof.
  induction s as [|c s IH]; intros p pat Hp H.
  - destruct p, pat; cbn in H; try contradiction; discriminate.
  - destruct p as [|p].
    + exists "". cbn [append String.length].
      assert (G : forall s pat, substring 0 (String.length pat) s = pat -> exists b, s = (pat ++ b)%string).
      { clear. induction s as [|c s IH]; intros [|d pat] H; cbn in H; try discriminate; [exists ""; reflexivity | eexists; reflexivity |]. injection H as -> H. destruct (IH _ H) as (b & ->). exists b. reflexivity. }
      destruct (G _ _ H) as (b & E). exists b. split; [exact E | reflexivity].
    + cbn in H. destruct (IH p pat Hp H) as (a & b & -> & <-). exists (String c a), b. split; reflexivity.
Qed.
Lemma app_sub : forall a pat b, substring (String.length a) (String.length pat) (a ++ pat ++ b) = pat.
Proof. intros a pat b. rewrite <- (Nat.add_0_r (String.length a)), sub_skip. apply substring_app_l. Qed.
Lemma index_some : forall pat s p, pat <> "" -> index 0 pat s = Some p -> exists a b, s = (a ++ pat ++ b)%string /\ String.length a = p /\ forall a' b', s = (a' ++ pat ++ b')%string -> p <= String.length a'.
Proof.
  intros pat s p Hp H. pose proof (index_correct1 _ _ _ _ H) as H1. apply sub_ex in H1; [|exact Hp]. destruct H1 as (a & b & E & El). exists a, b. split; [exact E|]. split; [exact El|]. intros a' b' E'.
  destruct (le_lt_dec p (String.length a')) as [L | L]; [exact L|]. exfalso. apply (index_correct2 _ _ _ _ H (String.length a')); [lia | exact L|]. rewrite E'. apply app_sub.
Qed.
Lemma index_none : forall pat s, pat <> "" -> index 0 pat s = None -> forall a b, s <> (a ++ pat ++ b)%string.
Proof. intros pat s Hp H a b E. apply (index_correct3 0 (String.length a) pat s H Hp (Nat.le_0_l _)). rewrite E. apply app_sub. Qed.
Lemma has_iff : forall c s, has c s <-> exists a b, s = (a ++ String c b)%string.
Proof.
  intros c s. induction s as [|d s IH]; cbn [has].
  - split; [intros [] | intros (a & b & E); destruct a; discriminate].
  - split.
    + intros [-> | H]; [exists "", s; reflexivity|]. apply IH in H. destruct H as (a & b & ->). exists (String d a), b. reflexivity.
    + intros (a & b & E). destruct a as [|e a]; cbn in E; injection E as -> E; [left; reflexivity|]. right. apply IH. exists a, b. exact E.
Qed.
Lemma cut_at : forall a pat b, substring 0 (String.length a) (a ++ pat ++ b) = a /\ substring (String.length a + String.length pat) (String.length (a ++ pat ++ b) - (String.length a + String.length pat)) (a ++ pat ++ b) = b.
Proof.
  intros a pat b. split; [apply substring_app_l|]. rewrite sub_skip. rewrite <- (Nat.add_0_r (String.length pat)) at 1. rewrite sub_skip, !str_app_length. replace (String.length a + (String.length pat + String.length b) - (String.length a + String.length pat)) with (String.length b) by lia. apply substring_full.
Qed.
Lemma getKv_ok : forall s, KeyVal s (fst (getKv s)) (snd (getKv s)).
Proof.
  intros s. unfold getKv, KeyVal. destruct (index 0 "=" s) as [p|] eqn:E.
  - apply index_some in E; [|discriminate]. destruct E as (a & b & Es & <- & Hmin). subst s. destruct (cut_at a "=" b) as (C1 & C2). cbn [fst snd]. change (String.length "=") with 1 in C2. rewrite C1, C2. split; [|left; reflexivity].
    intros H. apply has_iff in H. destruct H as (x & y & ->). specialize (Hmin x (y ++ "=" ++ b)%string). rewrite str_app_length in Hmin. cbn [String.length] in Hmin. assert (G : ((x ++ String "=" y) ++ "=" ++ b = x ++ "=" ++ y ++ "=" ++ b)%string) by (rewrite <- str_app_assoc; reflexivity). specialize (Hmin G). lia.
  - cbn [fst snd]. split; [|right; split; reflexivity]. intros H. apply has_iff in H. destruct H as (a & b & ->). exact (index_none "=" _ ltac:(discriminate) E a b eq_refl).
Qed.
Lemma first_eq : forall c a b a' b', ~ has c a -> ~ has c a' -> (a ++ String c b = a' ++ String c b')%string -> a = a' /\ b = b'.
Proof.
  intros c. induction a as [|d a IH]; intros b a' b' H H' E; destruct a' as [|d' a']; cbn in E.
  - injection E as E2. split; [reflexivity | exact E2].
  - injection E as E1 E2. exfalso. apply H'. left. symmetry. exact E1.
  - injection E as E1 E2. exfalso. apply H. left. exact E1.
  - injection E as E1 E2. subst d'. destruct (IH b a' b') as (-> & ->); [intros G; apply H; right; exact G | intros G; apply H'; right; exact G | exact E2 | split; reflexivity].
Qed.
Lemma KeyVal_fun : forall s k v k' v', KeyVal s k v -> KeyVal s k' v' -> k = k' /\ v = v'.
Proof.
  intros s k v k' v' (H & [E | (E & Ev)]) (H' & [E' | (E' & Ev')]).
  - rewrite E in E'. exact (first_eq "=" k v k' v' H H' E').
  - exfalso. apply H'. rewrite <- E', E. apply has_iff. exists k, v. reflexivity.
  - exfalso. apply H. rewrite <- E, E'. apply has_iff. exists k', v'. reflexivity.
  - split; congruence.
Qed.
Lemma getKv_fun : forall s k v, KeyVal s k v -> getKv s = (k, v).
Proof. intros s k v H. destruct (KeyVal_fun _ _ _ _ _ (getKv_ok s) H) as (E1 & E2). destruct (getKv s). cbn in *. congruence. Qed.

(** ** Flags *)
Lemma flagBit_ok : forall f b, N.testbit (flagBit f) b = true <-> In (f, b) flagTable.
Proof.
  intros f b. unfold flagBit, flagTable. 
  assert (P : forall n, N.testbit (2 ^ n) b = true <-> b = n) by (intros n; rewrite N.pow2_bits_eqb, N.eqb_eq; split; congruence).
  change 2%N with (2 ^ 1)%N. change 16%N with (2 ^ 4)%N. change 4%N with (2 ^ 2)%N at 2. change 8%N with (2 ^ 3)%N. change 32%N with (2 ^ 5)%N.
  destruct (String.eqb_spec f "rel_flat") as [-> | N1]; [rewrite P; split; [intros ->; left; reflexivity | intros H; cbn in H; repeat (destruct H as [H | H]; [try discriminate; congruence|]); destruct H]|].
  destruct (String.eqb_spec f "no_match_nds") as [-> | N2]; [rewrite P; split; [intros ->; cbn; tauto | intros H; cbn in H; repeat (destruct H as [H | H]; [try discriminate; congruence|]); destruct H]|].
  destruct (String.eqb_spec f "no_match_rels") as [-> | N3]; [rewrite P; split; [intros ->; cbn; tauto | intros H; cbn in H; repeat (destruct H as [H | H]; [try discriminate; congruence|]); destruct H]|].
  destruct (String.eqb_spec f "no_match_ways") as [-> | N4]; [rewrite P; split; [intros ->; cbn; tauto | intros H; cbn in H; repeat (destruct H as [H | H]; [try discriminate; congruence|]); destruct H]|].
  destruct (String.eqb_spec f "mult_val_match") as [-> | N5]; [rewrite P; split; [intros ->; cbn; tauto | intros H; cbn in H; repeat (destruct H as [H | H]; [try discriminate; congruence|]); destruct H]|].
  rewrite N.bits_0. split; [discriminate|]. intros H. exfalso. cbn in H. repeat (destruct H as [H | H]; [congruence|]). destruct H.
Qed.
Lemma getFlags_ok : forall fl, Mask fl (getFlags fl).
Proof.
  intros fl b. unfold getFlags.
  assert (G : forall r, N.testbit (fold_left (fun r f => N.lor r (flagBit f)) fl r) b = true <-> (N.testbit r b = true \/ exists n, In (n, b) flagTable /\ In n fl)).
  { induction fl as [|f fl IH]; intros r; cbn [fold_left].
    - split; [intros H; left; exact H | intros [H | (n & _ & [])]; exact H].
    - rewrite IH, N.lor_spec, orb_true_iff, flagBit_ok. split.
      + intros [[H | H] | (n & H1 & H2)]; [left; exact H | right; exists f; split; [exact H | left; reflexivity] | right; exists n; split; [exact H1 | right; exact H2]].
      + intros [H | (n & H1 & [<- | H2])]; [left; left; exact H | left; right; exact H1 | right; exists n; split; assumption]. }
  rewrite G. change 1%N with (2 ^ 0)%N. rewrite N.pow2_bits_eqb, N.eqb_eq. split; (intros [H | H]; [left; congruence | right; exact H]).
Qed.
Lemma Mask_fun : forall fl f g, Mask fl f -> Mask fl g -> f = g.
Proof. intros fl f g Hf Hg. apply N.bits_inj. intros b. destruct (N.testbit f b) eqn:E, (N.testbit g b) eqn:F; try reflexivity; [apply Hf, Hg in E | apply Hg, Hf in F]; congruence. Qed.

(** ** Quotes and arrows *)
Lemma str_last : forall s, s <> "" -> exists r c, s = (r ++ String c "")%string.
Proof.
  induction s as [|c s IH]; intros H; [contradiction|]. destruct s as [|d s]; [exists "", c; reflexivity|]. destruct IH as (r & e & E); [discriminate|]. exists (String c r), e. rewrite E. reflexivity.
Qed.
Lemma get_app : forall a c b, String.get (String.length a) (a ++ String c b) = Some c.
Proof. induction a as [|d a IH]; intros c b; [reflexivity | cbn; apply IH]. Qed.
Lemma unquote_ok : forall s, Unquoted s (unquote s).
Proof.
  intros s. unfold unquote. destruct s as [|a s]; [constructor 2; intros r E; discriminate|]. cbn [String.get]. destruct (str_last (String a s)) as (r & c & E); [discriminate|].
  assert (Hl : lastC (String a s) = Some c) by (unfold lastC; rewrite E, str_app_length; cbn [String.length]; replace (String.length r + 1 - 1) with (String.length r) by lia; apply get_app). rewrite Hl.
  destruct (1 <? String.length (String a s)) eqn:L; cbn [andb].
  - apply Nat.ltb_lt in L. destruct r as [|a' r]; [rewrite E in L; cbn in L; lia|]. cbn [append] in E. injection E as <- Es. destruct (Ascii.eqb_spec a quote) as [-> | Na]; cbn [andb].
    + destruct (Ascii.eqb_spec c quote) as [-> | Nc].
      * rewrite Es. cbn [String.length substring]. rewrite str_app_length. cbn [String.length]. replace (S (String.length r + 1) - 2) with (String.length r) by lia. rewrite substring_app_l. apply (Q_quoted r).
      * constructor 2. intros x Ex. cbn [append] in Ex. injection Ex as Ex. rewrite Es in Ex. assert (R : String.length r = String.length x) by (apply (f_equal String.length) in Ex; rewrite !str_app_length in Ex; cbn in Ex; lia). pose proof (str_app_inj_len _ _ _ _ R Ex) as (_ & G). injection G as G. contradiction.
    + constructor 2. intros x Ex. cbn [append] in Ex. injection Ex as Ex _. contradiction.
  - apply Nat.ltb_ge in L. constructor 2. intros x Ex. rewrite Ex in L. cbn [append String.length] in L. rewrite str_app_length in L. cbn in L. lia.
Qed.
Lemma Unquoted_inv : forall s a, Unquoted s a -> s = ("'" ++ a ++ "'")%string \/ (a = s /\ forall r, s <> ("'" ++ r ++ "'")%string).
Proof. intros s a H. destruct H as [s | s H]; [left; reflexivity | right; split; [reflexivity | exact H]]. Qed.
Lemma Unquoted_fun : forall s a b, Unquoted s a -> Unquoted s b -> a = b.
Proof.
  intros s a b Ha Hb. apply Unquoted_inv in Ha, Hb. destruct Ha as [Ha | (Ha & Ha')], Hb as [Hb | (Hb & Hb')].
  - rewrite Ha in Hb. apply (str_app_inj_l "'") in Hb. exact (str_app_inj_r _ _ _ Hb).
  - exfalso. exact (Hb' _ Ha).
  - exfalso. exact (Ha' _ Hb).
  - congruence.
Qed.
Lemma Arrow_fun : forall s l r l' r', Arrow s l r -> Arrow s l' r' -> l = l' /\ r = r'.
Proof.
  intros s l r l' r' (E & H) (E' & H'). pose proof (H _ _ E') as A. pose proof (H' _ _ E) as B. assert (L : String.length l = String.length l') by lia. rewrite E in E'. destruct (str_app_inj_len _ _ _ _ L E') as (G1 & G2). apply str_app_inj_l in G2. split; assumption.
Qed.
Lemma normRule_ok : forall s, match normRule s with Some p => NormRule s p | None => forall a b, s <> (a ++ " -> " ++ b)%string end.
Proof.
  intros s. unfold normRule. destruct (index 0 " -> " s) as [p|] eqn:E; [|exact (index_none " -> " _ ltac:(discriminate) E)].
  apply index_some in E; [|discriminate]. destruct E as (a & b & Es & <- & Hmin). destruct (cut_at a " -> " b) as (C1 & C2). rewrite <- Es in C1, C2. change (String.length " -> ") with 4 in C2. rewrite C1, C2. exists a, b. split; [split; assumption|]. split; apply unquote_ok.
Qed.
Lemma getNormRules_ok : forall l, NormRules l (getNormRules l).
Proof. induction l as [|s l IH]; cbn [getNormRules]; [constructor|]. pose proof (normRule_ok s) as H. destruct (normRule s) as [p|]; [apply N_rule; assumption | apply N_skip; assumption]. Qed.
Lemma NormRule_fun : forall s p q, NormRule s p -> NormRule s q -> p = q.
Proof.
  intros s (a & b) (c & d) (l & r & H1 & H2 & H3) (l' & r' & G1 & G2 & G3). cbn [fst snd] in *. destruct (Arrow_fun _ _ _ _ _ H1 G1) as (-> & ->). rewrite (Unquoted_fun _ _ _ H2 G2), (Unquoted_fun _ _ _ H3 G3). reflexivity.
Qed.
Lemma NormRules_fun : forall l a b, NormRules l a -> NormRules l b -> a = b.
Proof.
  intros l a b H. revert b. induction H as [| s p l ps Hs H IH | s l ps Hs H IH]; intros b Hb; inversion Hb as [| s' p' l' ps' Hs' H' | s' l' ps' Hs' H']; subst.
  - reflexivity.
  - f_equal; [exact (NormRule_fun _ _ _ Hs Hs') | apply IH; exact H'].
  - destruct Hs as (x & y & (E & _) & _). exfalso. exact (Hs' _ _ E).
  - destruct Hs' as (x & y & (E & _) & _). exfalso. exact (Hs _ _ E).
  - apply IH. exact H'.
Qed.

(** ** Lists and outcomes *)
Lemma bind_ok : forall (A B : Type) (x : res A) (f : A -> res B) b, bind x f = Ok b -> exists a, x = Ok a /\ f a = Ok b.
Proof. intros A B [a | |] f b H; try discriminate. exists a. split; [reflexivity | exact H]. Qed.
Lemma mapM_ok : forall (A B : Type) (f : A -> res B) l l', mapM f l = Ok l' -> Forall2 (fun a b => f a = Ok b) l l'.
Proof.
  intros A B f l. induction l as [|a l IH]; intros l' H; cbn [mapM] in H; [injection H as <-; constructor|]. apply bind_ok in H. destruct H as (b & Hb & H). apply bind_ok in H. destruct H as (bs & Hbs & H). injection H as <-. constructor; [exact Hb | apply IH; exact Hbs].
Qed.
Lemma Forall2_len : forall (A B : Type) (R : A -> B -> Prop) l l', Forall2 R l l' -> length l = length l'.
Proof. intros A B R l l' H. induction H; cbn; congruence. Qed.
Lemma Forall2_back : forall (A B : Type) (R : A -> B -> Prop) l l' i y, Forall2 R l l' -> nth_error l' i = Some y -> exists x, nth_error l i = Some x /\ R x y.
Proof.
  intros A B R l l' i y H. revert i. induction H as [|a b l l' Hab H IH]; intros i Hi; [destruct i; discriminate|]. destruct i as [|i]; [injection Hi as <-; exists a; split; [reflexivity | exact Hab] | exact (IH i Hi)].
Qed.
Lemma Forall2_imp : forall (A B : Type) (R S : A -> B -> Prop) l l', (forall a b, R a b -> S a b) -> Forall2 R l l' -> Forall2 S l l'.
Proof. intros A B R S l l' H HF. induction HF; constructor; auto. Qed.
Lemma keyEqb_ok : forall a b, keyEqb a b = true <-> a = b.
Proof. intros (a & b) (c & d). unfold keyEqb. cbn [fst snd]. rewrite andb_true_iff, !String.eqb_eq. split; [intros (-> & ->); reflexivity | intros E; injection E as -> ->; split; reflexivity]. Qed.

Section Reader.
Variable split : string -> ascii -> list string.
Variable trim : string -> string.
Variable V : Type.
Variable asStr : V -> string.
Variable asArr : V -> ascii -> list string.
Variable asBool : V -> option bool.
Variable asInt : V -> option Z.
Variable asDouble asPos : V -> option Q.
Variable asDoubles : V -> ascii -> option (list Q).
Variable sec : string -> option V.
Notation Rule := (Rule split trim).
Notation FirstRule := (FirstRule split trim).
Notation getFRule := (getFRule split trim).

Lemma getFRule_ok : forall s f, getFRule s = Ok f -> Rule s (fKey f) (fVal f) (fFlags f).
Proof.
  intros s f H. unfold Config_model.getFRule in H. destruct (split (trim s) "|") as [|p fl] eqn:E; [discriminate|]. injection H as <-. exists p. cbn [fKey fVal fFlags]. split; [exact E | apply getKv_ok].
Qed.
Lemma getFRule_fun : forall s k v fl, Rule s k v fl -> getFRule s = Ok (mkF k v fl).
Proof. intros s k v fl (p & E & H). unfold Config_model.getFRule. rewrite E, (getKv_fun _ _ _ H). reflexivity. Qed.
Lemma Rule_fun : forall s k v fl k' v' fl', Rule s k v fl -> Rule s k' v' fl' -> k = k' /\ v = v' /\ fl = fl'.
Proof. intros s k v fl k' v' fl' H H'. apply getFRule_fun in H, H'. rewrite H in H'. injection H' as -> -> ->. repeat split. Qed.
Lemma addRules_ok : forall l m m', addRules split trim m l = Ok m' -> NoDup (map fst m) ->
  NoDup (map fst m') /\ forall k v f, In ((k, v), f) m' <-> (In ((k, v), f) m \/ (~ In (k, v) (map fst m) /\ FirstRule l k v f)).
Proof.
  induction l as [|s l IH]; intros m m' H Hn; cbn [addRules] in H.
  - injection H as <-. split; [exact Hn|]. intros k v f. split; [intros G; left; exact G | intros [G | (_ & l1 & s & l2 & fl & E & _)]; [exact G | destruct l1; discriminate]].
  - apply bind_ok in H. destruct H as (r & Hr & H). apply getFRule_ok in Hr. set (key := (fKey r, fVal r)) in *.
    assert (Hex : existsb (fun e => keyEqb (fst e) key) m = true <-> In key (map fst m)).
    { rewrite existsb_exists, in_map_iff. split; intros (e & H1 & H2); exists e; [apply keyEqb_ok in H2 | rewrite keyEqb_ok]; split; assumption. }
    assert (Hn' : NoDup (map fst (fmInsert m key (getFlags (fFlags r))))).
    { unfold fmInsert. destruct (existsb _ m) eqn:E; [exact Hn|]. rewrite map_app. cbn [map]. assert (Hk : ~ In key (map fst m)) by (intros G; apply Hex in G; congruence).
      clear - Hn Hk. induction (map fst m) as [|x xs IH]; cbn [app]; [constructor; [intros [] | constructor]|]. inversion Hn; subst. constructor; [intros G; apply in_app_or in G; destruct G as [G | [G | []]]; [contradiction | apply Hk; left; symmetry; exact G] | apply IH; [assumption | intros G; apply Hk; right; exact G]]. }
    destruct (IH _ _ H Hn') as (G1 & G2). split; [exact G1|]. intros k v f. rewrite G2. clear G2 G1 IH H Hn'. unfold fmInsert. destruct (existsb (fun e => keyEqb (fst e) key) m) eqn:E.
    + assert (Hk : In key (map fst m)) by (apply Hex; reflexivity). split; (intros [G | (G & F)]; [left; exact G | right; split; [exact G|]]); destruct F as (l1 & s' & l2 & fl & El & HR & HM & Hmin).
      * exists (s :: l1), s', l2, fl. split; [rewrite El; reflexivity|]. split; [exact HR|]. split; [exact HM|]. intros s2 fl2 [<- | Hs2]; [|exact (Hmin s2 fl2 Hs2)]. intros HR2. destruct (Rule_fun _ _ _ _ _ _ _ Hr HR2) as (E1 & E2 & _). apply G. rewrite <- E1, <- E2. exact Hk.
      * destruct l1 as [|s1 l1]; cbn [app] in El; injection El as E1 E2; subst.
        -- destruct (Rule_fun _ _ _ _ _ _ _ Hr HR) as (E1 & E2 & _). exfalso. apply G. rewrite <- E1, <- E2. exact Hk.
        -- exists l1, s', l2, fl. split; [reflexivity|]. split; [exact HR|]. split; [exact HM|]. intros s2 fl2 Hs2. apply Hmin. right. exact Hs2.
    + assert (Hk : ~ In key (map fst m)) by (intros G; apply Hex in G; congruence). rewrite map_app. cbn [map fst]. split.
      * intros [G | (G & F)].
        -- apply in_app_or in G. destruct G as [G | [G | []]]; [left; exact G|]. injection G as Ek Ev Ef. right. split; [rewrite <- Ek, <- Ev; exact Hk|]. exists [], s, l, (fFlags r). split; [reflexivity|]. split; [rewrite <- Ek, <- Ev; exact Hr|]. split; [rewrite <- Ef; apply getFlags_ok | intros s' fl' []].
        -- right. split; [intros G'; apply G, in_or_app; left; exact G'|]. destruct F as (l1 & s' & l2 & fl & El & HR & HM & Hmin). exists (s :: l1), s', l2, fl. split; [rewrite El; reflexivity|]. split; [exact HR|]. split; [exact HM|].
           intros s2 fl2 [<- | Hs2]; [|exact (Hmin s2 fl2 Hs2)]. intros HR2. destruct (Rule_fun _ _ _ _ _ _ _ Hr HR2) as (E1 & E2 & _). apply G, in_or_app. right. left. unfold key. rewrite E1, E2. reflexivity.
      * intros [G | (G & F)]; [left; apply in_or_app; left; exact G|]. destruct F as (l1 & s' & l2 & fl & El & HR & HM & Hmin). destruct l1 as [|s1 l1]; cbn [app] in El; injection El as E1 E2; subst.
        -- left. apply in_or_app. right. left. destruct (Rule_fun _ _ _ _ _ _ _ Hr HR) as (E1 & E2 & E3). unfold key. rewrite E1, E2, E3. f_equal. exact (Mask_fun _ _ _ (getFlags_ok fl) HM).
        -- right. split.
           ++ intros G'. apply in_app_or in G'. destruct G' as [G' | [G' | []]]; [contradiction|]. unfold key in G'. injection G' as E1 E2. apply (Hmin s1 (fFlags r)); [left; reflexivity|]. rewrite <- E1, <- E2. exact Hr.
           ++ exists l1, s', l2, fl. split; [reflexivity|]. split; [exact HR|]. split; [exact HM|]. intros s2 fl2 Hs2. apply Hmin. right. exact Hs2.
Qed.
Lemma filt_ok : forall name m, filt split trim V asArr sec name = Ok m -> FilterOf split trim V asArr sec name m.
Proof.
  intros name m H. unfold filt in H. unfold FilterOf. destruct (sec name) as [x|].
  - destruct (addRules_ok _ _ _ H (NoDup_nil _)) as (H1 & H2). split; [exact H1|]. intros k v f. rewrite H2. split.
    + intros [[] | (_ & G)]. exists x. split; [reflexivity | exact G].
    + intros (y & E & G). injection E as <-. right. split; [intros [] | exact G].
  - injection H as <-. split; [constructor|]. intros k v f. split; [intros [] | intros (y & E & _); discriminate].
Qed.
Lemma getDeep_ok : forall r d, getDeepAttrRule split trim r = Ok d -> DeepRule split trim r d.
Proof.
  intros r d H. unfold getDeepAttrRule in H. destruct r as [|c r].
  - cbn [String.get] in H. injection H as <-. constructor 2. intros x a E. discriminate.
  - change (String.get 0 (String c r)) with (Some c) in H. destruct (index 0 "]" (String c r)) as [p|] eqn:E.
    + apply index_some in E; [|discriminate]. destruct E as (a & b & Es & Ep & Hmin). destruct (Ascii.eqb_spec c "[") as [-> | Nc].
      * destruct a as [|c' a]; cbn [append] in Es; injection Es as Ec Es; [discriminate|]. subst c'. apply bind_ok in H. destruct H as (f & Hf & H). cbn [String.length] in Ep. subst p. replace (S (String.length a) - 1) with (String.length a) in Hf by lia.
        assert (Hs1 : substring 1 (String.length a) (String "[" r) = a) by (cbn [substring]; rewrite Es; apply substring_app_l).
        assert (Hs2 : substring (S (String.length a) + 1) (String.length (String "[" r) - (S (String.length a) + 1)) (String "[" r) = b).
        { rewrite Es. destruct (cut_at (String "[" a) "]" b) as (_ & C). cbn [append String.length] in C. exact C. }
        rewrite Hs1 in Hf. rewrite Hs2 in H. injection H as <-. apply getFRule_ok in Hf. destruct f as [k v fl]. cbn [fKey fVal fFlags] in Hf. apply (D_rel split trim _ a b k v fl); [rewrite Es; reflexivity | | exact Hf].
        intros G. apply has_iff in G. destruct G as (x & y & ->). specialize (Hmin (String "[" x) (y ++ "]" ++ b)%string). cbn [String.length] in Hmin. rewrite str_app_length in Hmin. cbn [String.length] in Hmin. rewrite Es in Hmin. rewrite <- str_app_assoc in Hmin. specialize (Hmin eq_refl). lia.
      * injection H as <-. constructor 2. intros x y E. cbn [append] in E. injection E as E _. contradiction.
    + injection H as <-. constructor 2. intros x y E2. apply (index_none "]" _ ltac:(discriminate) E (String "[" x) y). exact E2.
Qed.
Lemma DeepRule_fun : forall s a b, DeepRule split trim s a -> DeepRule split trim s b -> a = b.
Proof.
  intros s a b Ha Hb. destruct Ha as [r x k v fl E N R | N], Hb as [r' x' k' v' fl' E' N' R' | N'].
  - rewrite E in E'. apply (str_app_inj_l "[") in E'. destruct (first_eq "]" _ _ _ _ N N' E') as (-> & ->). destruct (Rule_fun _ _ _ _ _ _ _ R R') as (-> & -> & ->). reflexivity.
  - exfalso. exact (N' _ _ E).
  - exfalso. exact (N _ _ E').
  - reflexivity.
Qed.
Lemma deep_ok : forall name l, deep split trim V asArr sec name = Ok l -> DeepOf split trim V asArr sec name l.
Proof.
  intros name l H. unfold deep in H. unfold DeepOf. destruct (sec name) as [x|]; [|congruence]. apply mapM_ok in H. revert H. apply Forall2_imp. exact getDeep_ok.
Qed.
Lemma norms_ok : forall name, NormOf V asArr sec name (norms V asArr sec name).
Proof. intros name. unfold NormOf, norms. destruct (sec name); [apply getNormRules_ok | reflexivity]. Qed.
Lemma tags_ok : forall (proj : lineRules -> list string) name def l r0,
  (forall r s, proj (lineRule split r s) = if String.eqb (fst (getKv s)) name then split (snd (getKv s)) "," else proj r) -> proj r0 = def ->
  (exists l1 s l2 v, l = l1 ++ s :: l2 /\ KeyVal s name v /\ proj (fold_left (lineRule split) l r0) = split v "," /\ forall s' v', In s' l2 -> ~ KeyVal s' name v') \/
  ((forall s v, In s l -> ~ KeyVal s name v) /\ proj (fold_left (lineRule split) l r0) = def).
Proof.
  intros proj name def l r0 Hp H0. induction l as [|s l IH] using rev_ind; [right; split; [intros s v [] | exact H0]|]. rewrite fold_left_app. cbn [fold_left]. rewrite Hp. pose proof (getKv_ok s) as Hs. destruct (String.eqb_spec (fst (getKv s)) name) as [E | E].
  - left. exists l, s, [], (snd (getKv s)). split; [reflexivity|]. split; [rewrite <- E; exact Hs|]. split; [reflexivity | intros s' v' []].
  - assert (Hno : forall v, ~ KeyVal s name v) by (intros v Hv; destruct (KeyVal_fun _ _ _ _ _ Hs Hv) as (G & _); contradiction). destruct IH as [(l1 & s1 & l2 & v & -> & H1 & H2 & H3) | (H1 & H2)].
    + left. exists l1, s1, (l2 ++ [s]), v. split; [rewrite <- app_assoc; reflexivity|]. split; [exact H1|]. split; [exact H2|]. intros s' v' Hs'. apply in_app_or in Hs'. destruct Hs' as [Hs' | [<- | []]]; [apply H3; exact Hs' | apply Hno].
    + right. split; [|exact H2]. intros s' v' Hs'. apply in_app_or in Hs'. destruct Hs' as [Hs' | [<- | []]]; [apply H1; exact Hs' | apply Hno].
Qed.
Lemma lines_ok : forall proj name def, (forall r s, proj (lineRule split r s) = if String.eqb (fst (getKv s)) name then split (snd (getKv s)) "," else proj r) ->
  proj (mkLR [] [] [] ["colour"; "color"]) = def -> TagsOf split V asArr sec name def (proj (lineRulesOf split V asArr sec)).
Proof.
  intros proj name def Hp Hd. unfold TagsOf, lineRulesOf. destruct (sec "osm_line_relation_tags") as [x|]; [|exact Hd].
  destruct (tags_ok proj name def (asArr x " ") (mkLR [] [] [] ["colour"; "color"]) Hp Hd) as [(l1 & s & l2 & v & H1 & H2 & H3 & H4) | H]; [left; exists l1, s, l2, v; repeat split; try assumption; apply H2 | right; exact H].
Qed.
Lemma lineRule_proj : forall r s,
  lName (lineRule split r s) = (if String.eqb (fst (getKv s)) "line_name" then split (snd (getKv s)) "," else lName r) /\
  lFrom (lineRule split r s) = (if String.eqb (fst (getKv s)) "from_name" then split (snd (getKv s)) "," else lFrom r) /\
  lTo (lineRule split r s) = (if String.eqb (fst (getKv s)) "to_name" then split (snd (getKv s)) "," else lTo r) /\
  lColor (lineRule split r s) = (if String.eqb (fst (getKv s)) "line_color" then split (snd (getKv s)) "," else lColor r).
Proof.
  intros r s. unfold lineRule. destruct (getKv s) as [k v]. cbn [fst snd].
  destruct (String.eqb_spec k "from_name") as [-> | N1]; [repeat split|]. destruct (String.eqb_spec k "to_name") as [-> | N2]; [repeat split|].
  destruct (String.eqb_spec k "line_name") as [-> | N3]; [repeat split|]. destruct (String.eqb_spec k "line_color") as [-> | N4]; repeat split.
Qed.
(** Numbers *)
Lemma get_ok : forall (get : V -> option Q) name (d : Q) x, (match sec name with None => Ok d | Some v => lift (get v) end) = Ok x -> Val V sec get name (fun x => (x == d)%Q) x.
Proof.
  intros get name d x H. destruct (sec name) as [v|] eqn:E; [|injection H as <-; apply V_def; [exact E | apply Qeq_refl]]. unfold lift in H. destruct (get v) as [y|] eqn:F; [|discriminate]. injection H as <-. apply (V_set V sec get name _ _ v y E F). apply Qeq_refl.
Qed.
Lemma Val_imp : forall get name (P R : Q -> Prop) x, (forall y, P y -> R y) -> Val V sec get name P x -> Val V sec get name R x.
Proof. intros get name P R x H HV. destruct HV as [v y H1 H2 H3 | H1 H2]; [exact (V_set V sec get name R x v y H1 H2 H3) | apply V_def; [exact H1 | apply H; exact H2]]. Qed.
Lemma incr_ok : forall name x, incr V asPos sec name = Ok x -> exists y, (x == 1 + y)%Q /\ Val V sec asPos name (fun x => (x == 0)%Q) y.
Proof.
  intros name x H. unfold incr in H. destruct (sec name) as [v|] eqn:E.
  - apply bind_ok in H. destruct H as (y & Hy & H). injection H as <-. exists y. split; [apply Qeq_refl|]. unfold lift in Hy. destruct (asPos v) as [z|] eqn:F; [|discriminate]. injection Hy as <-. apply (V_set V sec asPos name _ _ v z E F). apply Qeq_refl.
  - injection H as <-. exists 0%Q. split; [reflexivity | apply V_def; [exact E | apply Qeq_refl]].
Qed.
Lemma lineFac_ok : forall name x, lineFac V asPos sec name = Ok x -> LineFac V asPos sec name x.
Proof.
  intros name x H. unfold lineFac in H. apply bind_ok in H. destruct H as (d & Hd & H). apply get_ok in H. unfold LineFac. apply (Val_imp _ _ (fun y => (y == d)%Q)); [|exact H]. intros z Hz. destruct (sec "routing_line_unmatched_punish_fac") as [v|] eqn:E.
  - apply bind_ok in Hd. destruct Hd as (y & Hy & Hd). injection Hd as <-. exists y. split; [exact Hz|]. unfold lift in Hy. destruct (asPos v) as [w|] eqn:F; [|discriminate]. injection Hy as <-. apply (V_set V sec asPos _ _ _ v w E F). apply Qeq_refl.
  - injection Hd as <-. exists 0%Q. split; [rewrite Hz; reflexivity | apply V_def; [exact E | apply Qeq_refl]].
Qed.
Lemma divQ_ok : forall a b x, divQ a b = Ok x -> x = (a / b)%Q /\ ~ (b == 0)%Q.
Proof. intros a b x H. unfold divQ in H. destruct (Qeq_bool b 0) eqn:E; [discriminate|]. injection H as <-. split; [reflexivity | apply Qeq_bool_neq; exact E]. Qed.
Lemma scaled_ok : forall old new s0 x, scaled V asPos sec old new s0 = Ok x -> Scaled V asPos sec old new s0 x.
Proof.
  intros old new s0 x H. unfold scaled in H. apply bind_ok in H. destruct H as (d & Hd & H). apply get_ok in H. unfold Scaled. apply (Val_imp _ _ (fun y => (y == d)%Q)); [|exact H]. intros z Hz. destruct (sec old) as [v|] eqn:E.
  - apply bind_ok in Hd. destruct Hd as (y & Hy & Hd). apply bind_ok in Hd. destruct Hd as (f & Hf & Hd). injection Hd as <-. apply divQ_ok in Hf. destruct Hf as (-> & _). exists y. split; [exact Hz|]. unfold lift in Hy. destruct (asPos v) as [w|] eqn:F; [|discriminate]. injection Hy as <-. apply (V_set V sec asPos _ _ _ v w E F). apply Qeq_refl.
  - injection Hd as <-. exists 0%Q. split; [rewrite Hz; ring | apply V_def; [exact E | apply Qeq_refl]].
Qed.
Lemma scaledDist_ok : forall s0 x, scaledDist V asPos sec s0 = Ok x -> Scaled V asPos sec "routing_station_distance_punish_fac" "routing_station_move_penalty_fac" s0 x.
Proof.
  intros s0 x H. unfold scaledDist in H. apply bind_ok in H. destruct H as (f & Hf & H). apply divQ_ok in Hf. destruct Hf as (-> & _). apply bind_ok in H. destruct H as (d & Hd & H). apply get_ok in H. unfold Scaled. apply (Val_imp _ _ (fun y => (y == d)%Q)); [|exact H]. intros z Hz. destruct (sec "routing_station_distance_punish_fac") as [v|] eqn:E.
  - apply bind_ok in Hd. destruct Hd as (y & Hy & Hd). injection Hd as <-. exists y. split; [exact Hz|]. unfold lift in Hy. destruct (asPos v) as [w|] eqn:F; [|discriminate]. injection Hy as <-. apply (V_set V sec asPos _ _ _ v w E F). apply Qeq_refl.
  - injection Hd as <-. exists 0%Q. split; [exact Hz | apply V_def; [exact E | apply Qeq_refl]].
Qed.
Lemma speeds_ok : forall l, speeds V asPos sec = Ok l -> length l = 8 /\ forall i x, nth_error l i = Some x -> SpeedOf V asPos sec i x.
Proof.
  intros l H. unfold speeds in H. apply bind_ok in H. destruct H as (a & Ha & H). apply bind_ok in H. destruct H as (b & Hb & H). injection H as <-. apply mapM_ok in Ha, Hb. split; [rewrite map_length, <- (Forall2_len _ _ _ _ _ Hb), <- (Forall2_len _ _ _ _ _ Ha); reflexivity|].
  intros i x Hx. rewrite nth_error_map in Hx. destruct (nth_error b i) as [pb|] eqn:Eb; [|discriminate]. injection Hx as <-. destruct (Forall2_back _ _ _ _ _ _ _ Hb Eb) as (pa & Ea & Hpb). destruct (Forall2_back _ _ _ _ _ _ _ Ha Ea) as (p0 & E0 & Hpa). clear Ha Hb Ea Eb.
  assert (Hi : fst p0 = i /\ (snd p0 == nth i [85; 70; 55; 40; 30; 20; 10; 5] 0 * (2777 # 10000))%Q /\ i < 8).
  { do 8 (destruct i as [|i]; [injection E0 as <-; repeat split; lia|]). destruct i; discriminate. }
  destruct Hi as (Hi & Hd & Hlt). unfold facSpeed in Hpa. unfold avgSpeed in Hpb.
  assert (Hn : forall pre post, lvl pre i post = (pre ++ digit i ++ post)%string) by (intros pre post; unfold lvl; f_equal; do 8 (destruct i as [|i]; [reflexivity|]); lia).
  unfold SpeedOf. rewrite <- !Hn. rewrite Hi in Hpa.
  assert (G : fst pa = i /\ exists y, (snd pa == y * (2777 # 10000))%Q /\ ((exists v f, sec (lvl "routing_lvl" i "_fac") = Some v /\ asPos v = Some f /\ ~ (f == 0)%Q /\ (y == 85 / f)%Q) \/ (sec (lvl "routing_lvl" i "_fac") = None /\ (y == nth i [85; 70; 55; 40; 30; 20; 10; 5] 0)%Q))).
  { destruct (sec (lvl "routing_lvl" i "_fac")) as [v|].
    - apply bind_ok in Hpa. destruct Hpa as (f & Hf & Hpa). apply bind_ok in Hpa. destruct Hpa as (y & Hy & Hpa). injection Hpa as <-. apply divQ_ok in Hy. destruct Hy as (-> & Hf0). cbn [fst snd]. split; [reflexivity|]. exists (85 / f)%Q. split; [apply Qeq_refl|]. left. exists v, f. unfold lift in Hf. destruct (asPos v) as [z|] eqn:F; [|discriminate]. injection Hf as <-. split; [reflexivity|]. split; [reflexivity|]. split; [exact Hf0 | apply Qeq_refl].
    - injection Hpa as <-. split; [exact Hi|]. eexists. split; [exact Hd|]. right. split; [reflexivity | apply Qeq_refl]. }
  destruct G as (Hi' & y & Hy & G). rewrite Hi' in Hpb. destruct (sec (lvl "osm_lvl" i "_avg_speed")) as [v|] eqn:E.
  - apply bind_ok in Hpb. destruct Hpb as (z & Hz & Hpb). injection Hpb as <-. exists z. split; [apply Qeq_refl|]. unfold lift in Hz. destruct (asPos v) as [w|] eqn:F; [|discriminate]. injection Hz as <-. apply (V_set V sec asPos _ _ _ v w E F). apply Qeq_refl.
  - injection Hpb as <-. exists y. split; [exact Hy | apply V_def; [exact E | exact G]].
Qed.
Lemma toU32_ok : forall x n, (0 <= x)%Q -> toU32 (cap32 (x * 10)) = Ok n -> Tenths x n.
Proof.
  intros x n Hx H. assert (Hp : (0 <= x * 10)%Q) by (apply Qmult_le_0_compat; [exact Hx | vm_compute; discriminate]). unfold toU32 in H. destruct (Qle_bool (cap32 (x * 10)) (-1) || _) in H; [discriminate|]. injection H as <-. unfold Tenths, cap32, Qltb, trunc. destruct (Qle_bool (x * 10) (inject_Z (2 ^ 32 - 1))) eqn:E; cbn [negb].
  - apply Qle_bool_iff in E. split; [|intros G; exfalso; exact (Qlt_not_le _ _ G E)]. intros _. assert (Hb : Qle_bool 0 (x * 10) = true) by (apply Qle_bool_iff; exact Hp). rewrite Hb.
    assert (Hf : (0 <= Qfloor (x * 10))%Z) by (change 0%Z with (Qfloor 0); apply Qfloor_resp_le; exact Hp). rewrite Z2N.id by exact Hf. split; [apply Qfloor_le | apply Qlt_floor].
  - assert (G : (inject_Z (2 ^ 32 - 1) < x * 10)%Q) by (destruct (Qlt_le_dec (inject_Z (2 ^ 32 - 1)) (x * 10)) as [G | G]; [exact G | apply Qle_bool_iff in G; congruence]). split; [intros G'; exfalso; exact (Qlt_not_le _ _ G G')|]. intros _. reflexivity.
Qed.
Lemma toU32_int : forall n m, toU32 (inject_Z (Z.of_N n) * 10) = Ok m -> m = (10 * n)%N.
Proof.
  intros n m H. unfold toU32 in H. destruct (Qle_bool _ (-1) || _) in H; [discriminate|]. injection H as <-. change (inject_Z (Z.of_N n) * 10)%Q with (inject_Z (Z.of_N n * 10)). unfold trunc. assert (Hb : Qle_bool 0 (inject_Z (Z.of_N n * 10)) = true) by (apply Qle_bool_iff; unfold Qle; cbn; lia). rewrite Hb, Qfloor_Z. lia.
Qed.

(** ** One section *)
Hypothesis pos_ok : forall v y, asPos v = Some y -> (0 <= y)%Q.
Lemma Val_nonneg : forall name (d : Q) x, (0 <= d)%Q -> Val V sec asPos name (fun x => (x == d)%Q) x -> (0 <= x)%Q.
Proof. intros name d x Hd H. destruct H as [v y H1 H2 H3 | H1 H2]; [rewrite H3; exact (pos_ok v y H2) | rewrite H2; exact Hd]. Qed.
Lemma SpeedOf_nonneg : forall i x, i < 8 -> SpeedOf V asPos sec i x -> (0 <= x)%Q.
Proof.
  intros i x Hi (y & E & H). rewrite E. apply Qmult_le_0_compat; [|vm_compute; discriminate]. destruct H as [v z H1 H2 H3 | H1 [(v & f & H2 & H3 & H4 & H5) | (H2 & H3)]].
  - rewrite H3. exact (pos_ok v z H2).
  - rewrite H5. pose proof (pos_ok v f H3) as Hf. apply Qle_shift_div_l; [apply Qle_lteq in Hf; destruct Hf as [Hf | Hf]; [exact Hf | exfalso; apply H4; symmetry; exact Hf] | rewrite Qmult_0_l; vm_compute; discriminate].
  - rewrite H3. do 8 (destruct i as [|i]; [vm_compute; discriminate|]). lia.
Qed.
Lemma fullTurn_ok : forall s0 n, (0 <= s0)%Q -> fullTurn V asPos sec s0 = Ok n ->
  match sec "routing_full_turn_penalty", sec "routing_full_turn_punish" with
  | Some v, _ => exists x, asPos v = Some x /\ Tenths x n
  | None, Some v => exists x, asPos v = Some x /\ Tenths (x / s0) n
  | None, None => n = 1000%N
  end.
Proof.
  intros s0 n Hs H. unfold fullTurn in H. apply bind_ok in H. destruct H as (a & Ha & H). destruct (sec "routing_full_turn_penalty") as [v|].
  - apply bind_ok in H. destruct H as (x & Hx & H). unfold lift in Hx. destruct (asPos v) as [y|] eqn:F; [|discriminate]. injection Hx as ->. exists x. split; [reflexivity | apply toU32_ok; [exact (pos_ok v x F) | exact H]].
  - injection H as <-. destruct (sec "routing_full_turn_punish") as [v|]; [|congruence]. apply bind_ok in Ha. destruct Ha as (x & Hx & H). unfold lift in Hx. destruct (asPos v) as [y|] eqn:F; [|discriminate]. injection Hx as ->. apply bind_ok in H. destruct H as (y & Hy & H). apply divQ_ok in Hy. destruct Hy as (-> & Hn).
    exists x. split; [reflexivity | apply toU32_ok; [|exact H]]. apply Qle_shift_div_l; [apply Qle_lteq in Hs; destruct Hs as [Hs | Hs]; [exact Hs | exfalso; apply Hn; symmetry; exact Hs] | rewrite Qmult_0_l; exact (pos_ok v x F)].
Qed.
Notation readSec := (readSec split trim V asStr asArr asBool asInt asDouble asPos asDoubles sec).
Ltac bk H x Hx := apply bind_ok in H; destruct H as (x & Hx & H).
Lemma readSec_ok : forall c, readSec = Ok c -> SettingsOf split trim V asStr asArr asBool asInt asDouble asPos asDoubles sec c /\
  oSpeedFac (cOsm c) = corFac [rLine (cRout c); rLineFrom (cRout c); rLineTo (cRout c); rNoLines (cRout c); oOneWayPen (cOsm c)] /\
  divQ (maxSpeed0 (oLevelSpeed (cOsm c))) (oSpeedFac (cOsm c)) = Ok (oSpeed (cOsm c)).
Proof.
  intros c H. unfold Config_model.readSec in H. cbv zeta in H.
  bk H us Hus. bk H keep Hkeep. bk H lvls Hlvls. bk H drop Hdrop. bk H snapLvl HsnapLvl. bk H nohup Hnohup. bk H ow How. bk H owr Howr. bk H tw Htw. bk H stat Hstat. bk H blk Hblk. bk H tc Htc. bk H posr Hposr. bk H negr Hnegr. bk H nor Hnor.
  bk H nameR HnameR. bk H platR HplatR. bk H idR HidR. bk H edgR HedgR. bk H sd Hsd. bk H cd Hcd. bk H osd Hosd. bk H bd Hbd. bk H spd Hspd. bk H owp0 Howp0. bk H owp Howp. bk H owc Howc. bk H tr0 Htr0. bk H ft Hft. bk H nsh Hnsh. bk H ang Hang. bk H sang Hsang. bk H tr Htr.
  bk H nl0 Hnl0. bk H nl Hnl. bk H lu Hlu. bk H lf Hlf. bk H lt' Hlt. bk H plat Hplat. bk H tp Htp. bk H sdp Hsdp. bk H nsp Hnsp. bk H sup Hsup. bk H ms Hms. injection H as <-. cbn [cOsm cRout oSpeedFac oSpeed oLevelSpeed rLine rLineFrom rLineTo rNoLines oOneWayPen].
  split; [|split; [reflexivity | exact Hms]]. destruct (speeds_ok spd Hspd) as (Hl & Hsp).
  assert (H0 : (0 <= nth 0 spd 0)%Q) by (destruct spd as [|x spd]; [discriminate|]; cbn [nth]; apply (SpeedOf_nonneg 0 x ltac:(lia)), Hsp; reflexivity).
  split; cbn [cOsm cRout].
  - constructor; cbn [oNoHup oKeep oLevels oDrop oOneWay oOneWayRev oTwoWay oStation oBlocker oTurnCycle oPosRestr oNegRestr oNoRestr oStatNorm oLineNorm oTrackNorm oIdNorm oLines oNameRule oPlatformRule oIdRule oEdgePlatform oSnapLevel oAngleSnap oSnapDist oCandDist oStatDists oBlockDist oLevelSpeed oOneWayPen oOneWayCost oNoLines oTurnAngle];
      try (apply filt_ok; assumption); try apply norms_ok; try (apply deep_ok; assumption).
    + apply mapM_ok in Hlvls. split; [rewrite <- (Forall2_len _ _ _ _ _ Hlvls); reflexivity|]. intros i m Hm. destruct (Forall2_back _ _ _ _ _ _ _ Hlvls Hm) as (j & Hj & Hf). assert (E : lvl "osm_filter_lvl" j "" = ("osm_filter_lvl" ++ digit i)%string) by (do 8 (destruct i as [|i]; [injection Hj as <-; reflexivity|]); destruct i; discriminate). rewrite E in Hf. apply filt_ok. exact Hf.
    + apply (lines_ok lName); [intros r s; apply lineRule_proj | reflexivity].
    + apply (lines_ok lFrom); [intros r s; apply lineRule_proj | reflexivity].
    + apply (lines_ok lTo); [intros r s; apply lineRule_proj | reflexivity].
    + apply (lines_ok lColor); [intros r s; apply lineRule_proj | reflexivity].
    + destruct (sec "osm_max_snap_level") as [v|]; [|congruence]. apply bind_ok in HsnapLvl. destruct HsnapLvl as (z & Hz & HH). injection HH as <-. exists z. unfold lift in Hz. destruct (asInt v); [|discriminate]. injection Hz as ->. split; [reflexivity|]. apply Z2N.id. apply Z.mod_pos_bound. lia.
    + apply get_ok in Hsang. exact Hsang.
    + unfold snapDist in Hsd. destruct (sec "osm_max_snap_distance") as [v|]; [|injection Hsd as <-; apply Qeq_refl]. apply bind_ok in Hsd. destruct Hsd as (l & Hd & HH). injection HH as <-. exists l. unfold lift in Hd. destruct (asDoubles v ","); [|discriminate]. injection Hd as ->. split; [reflexivity | apply Qeq_refl].
    + apply get_ok in Hcd. exact Hcd.
    + exists osd. split; [reflexivity|]. apply get_ok in Hosd, Hbd. split; assumption.
    + exact (conj Hl Hsp).
    + apply get_ok in Howp. apply (Val_imp _ _ (fun y => (y == owp0)%Q)); [|exact Howp]. intros z Hz. destruct (incr_ok _ _ Howp0) as (y & Hy & Hv). exists y. split; [rewrite Hz; exact Hy | exact Hv].
    + apply get_ok in Howc. exact Howc.
    + apply get_ok in Hnl. apply (Val_imp _ _ (fun y => (y == nl0)%Q)); [|exact Hnl]. intros z Hz. destruct (incr_ok _ _ Hnl0) as (y & Hy & Hv). exists y. split; [rewrite Hz; exact Hy | exact Hv].
    + apply get_ok in Hang. exact Hang.
  - constructor; cbn [oLevelSpeed oOneWayCost oNoLines oTurnAngle rFullTurn rTurnAngle rLine rLineFrom rLineTo rNoLines rPlatform rStatUnmatched rStatDist rNonStation rTurnRestr rPopReach rNoSelfHops rUseStations rTransition rTransMethod rEmMethod rSimiMethod]; try reflexivity.
    + apply fullTurn_ok; assumption.
    + apply lineFac_ok. exact Hlu.
    + apply lineFac_ok. exact Hlf.
    + apply lineFac_ok. exact Hlt.
    + apply scaled_ok. exact Hplat.
    + apply scaledDist_ok. exact Hsdp.
    + apply scaled_ok. exact Hnsp.
    + apply get_ok in Hsup. exact Hsup.
    + exists tr0. split; [apply toU32_ok; [|exact Htr0] | apply toU32_int; exact Htr]. apply get_ok in Howc. exact (Val_nonneg _ _ _ (Qle_refl 0) Howc).
    + unfold BoolOf. unfold bol in Hnsh. destruct (sec "routing_no_self_hops") as [v|]; [unfold lift in Hnsh; destruct (asBool v); congruence | congruence].
    + unfold BoolOf. unfold bol in Hus. destruct (sec "routing_use_stations") as [v|]; [unfold lift in Hus; destruct (asBool v); congruence | congruence].
    + apply get_ok in Htp. exact Htp.
    + unfold StrOf, str. destruct (sec "routing_transition_method"); reflexivity.
    + unfold StrOf, str. destruct (sec "routing_emission_method"); reflexivity.
    + unfold StrOf, str. destruct (sec "station_similarity_classification_method"); reflexivity.
Qed.
End Reader.

(** ** The greatest speed *)
Lemma maxSpeed0_ok : forall l s, In s l -> (s <= maxSpeed0 l)%Q.
Proof.
  intros l. unfold maxSpeed0. assert (G : forall a, (a <= fold_left (fun m s => if Qltb m s then s else m) l a)%Q /\ forall s, In s l -> (s <= fold_left (fun m s => if Qltb m s then s else m) l a)%Q).
  { induction l as [|x l IH]; intros a; cbn [fold_left]; [split; [apply Qle_refl | intros s []]|]. unfold Qltb at 2 4. destruct (Qle_bool x a) eqn:E; cbn [negb].
    - apply Qle_bool_iff in E. destruct (IH a) as (H1 & H2). split; [exact H1|]. intros s [<- | Hs]; [exact (Qle_trans _ _ _ E H1) | apply H2; exact Hs].
    - destruct (IH x) as (H1 & H2). assert (L : (a <= x)%Q) by (destruct (Qlt_le_dec x a) as [G | G]; [apply Qlt_le_weak, Qle_bool_iff in G; congruence | exact G]). split; [exact (Qle_trans _ _ _ L H1)|]. intros s [<- | Hs]; [exact H1 | apply H2; exact Hs]. }
  intros s Hs. apply (G 0%Q). exact Hs.
Qed.
Lemma maxSpeed0_nonneg : forall l, (0 <= maxSpeed0 l)%Q.
Proof.
  intros l. unfold maxSpeed0. assert (G : forall a, (a <= fold_left (fun m s => if Qltb m s then s else m) l a)%Q).
  { induction l as [|x l IH]; intros a; cbn [fold_left]; [apply Qle_refl|]. unfold Qltb at 2. destruct (Qle_bool x a) eqn:E; cbn [negb]; [apply IH|]. assert (L : (a <= x)%Q) by (destruct (Qlt_le_dec x a) as [G | G]; [apply Qlt_le_weak, Qle_bool_iff in G; congruence | exact G]). exact (Qle_trans _ _ _ L (IH x)). }
  apply G.
Qed.
Lemma maxSpeed0_in : forall l, maxSpeed0 l = 0%Q \/ In (maxSpeed0 l) l.
Proof.
  intros l. unfold maxSpeed0. assert (G : forall a, fold_left (fun m s => if Qltb m s then s else m) l a = a \/ In (fold_left (fun m s => if Qltb m s then s else m) l a) l).
  { induction l as [|x l IH]; intros a; cbn [fold_left]; [left; reflexivity|]. destruct (Qltb a x); [destruct (IH x) as [-> | H]; [right; left; reflexivity | right; right; exact H] | destruct (IH a) as [-> | H]; [left; reflexivity | right; right; exact H]]. }
  apply G.
Qed.
Lemma corFac_ok : forall l, (forall f, In f l -> (0 < f)%Q) -> (0 < corFac l)%Q /\ (corFac l <= 1)%Q /\ forall fs, Some_of fs l -> (corFac l <= product fs)%Q.
Proof.
  intros l Hl. unfold corFac.
  assert (G : forall a, (fold_left (fun m f => if Qltb f 1 then (m * f)%Q else m) l a == a * fold_right (fun f m => if Qltb f 1 then (f * m)%Q else m) 1%Q l)%Q).
  { clear Hl. induction l as [|f l IH]; intros a; cbn [fold_left fold_right]; [ring|]. rewrite IH. destruct (Qltb f 1); ring. }
  set (p := fold_right (fun f m => if Qltb f 1 then (f * m)%Q else m) 1%Q) in *.
  assert (P : forall l, (forall f, In f l -> (0 < f)%Q) -> (0 < p l)%Q /\ (p l <= 1)%Q).
  { clear. induction l as [|f l IH]; intros H; unfold p; cbn [fold_right]; [split; [reflexivity | apply Qle_refl]|]. fold (p l). destruct IH as (H1 & H2); [intros g Hg; apply H; right; exact Hg|]. assert (Hf : (0 < f)%Q) by (apply H; left; reflexivity). unfold Qltb. destruct (Qle_bool 1 f) eqn:E; cbn [negb]; [split; assumption|]. assert (L : (f <= 1)%Q) by (destruct (Qlt_le_dec 1 f) as [G | G]; [apply Qlt_le_weak, Qle_bool_iff in G; congruence | exact G]).
    split; [apply Qmult_lt_0_compat; assumption|]. apply (Qle_trans _ (1 * p l)%Q); [apply Qmult_le_compat_r; [exact L | apply Qlt_le_weak; exact H1] | rewrite Qmult_1_l; exact H2]. }
  destruct (P l Hl) as (H1 & H2). split; [rewrite G, Qmult_1_l; exact H1|]. split; [rewrite G, Qmult_1_l; exact H2|]. intros fs Hfs. rewrite G, Qmult_1_l. clear G H1 H2. induction Hfs as [| x a b Hs IH | x a b Hs IH].
  - apply Qle_refl.
  - assert (Hb : forall f, In f b -> (0 < f)%Q) by (intros f Hf; apply Hl; right; exact Hf). specialize (IH Hb). destruct (P b Hb) as (H1 & H2). assert (Hx : (0 < x)%Q) by (apply Hl; left; reflexivity). unfold p. cbn [fold_right]. fold (p b). unfold product. cbn [fold_right]. fold (product a). unfold Qltb. destruct (Qle_bool 1 x) eqn:E; cbn [negb].
    + apply Qle_bool_iff in E. apply (Qle_trans _ (1 * product a)%Q); [rewrite Qmult_1_l; exact IH|]. apply Qmult_le_compat_r; [exact E | apply (Qle_trans _ (p b)); [apply Qlt_le_weak; exact H1 | exact IH]].
    + rewrite !(Qmult_comm x). apply Qmult_le_compat_r; [exact IH | apply Qlt_le_weak; exact Hx].
  - assert (Hb : forall f, In f b -> (0 < f)%Q) by (intros f Hf; apply Hl; right; exact Hf). specialize (IH Hb). destruct (P b Hb) as (H1 & H2). assert (Hx : (0 < x)%Q) by (apply Hl; left; reflexivity). unfold p. cbn [fold_right]. fold (p b). unfold Qltb. destruct (Qle_bool 1 x) eqn:E; cbn [negb]; [exact IH|]. assert (L : (x <= 1)%Q) by (destruct (Qlt_le_dec 1 x) as [G | G]; [apply Qlt_le_weak, Qle_bool_iff in G; congruence | exact G]).
    apply (Qle_trans _ (1 * p b)%Q); [apply Qmult_le_compat_r; [exact L | apply Qlt_le_weak; exact H1] | rewrite Qmult_1_l; exact IH].
Qed.
(** The correction is the product of some of the factors. *)
Lemma corFac_some : forall l, exists fs, Some_of fs l /\ (corFac l == product fs)%Q.
Proof.
  intros l. unfold corFac. assert (G : forall a, exists fs, Some_of fs l /\ (fold_left (fun m f => if Qltb f 1 then (m * f)%Q else m) l a == a * product fs)%Q).
  { induction l as [|f l IH]; intros a; cbn [fold_left]; [exists []; split; [constructor | unfold product; cbn; ring]|]. destruct (Qltb f 1); [destruct (IH (a * f)%Q) as (fs & H1 & H2); exists (f :: fs); split; [constructor; exact H1 | rewrite H2; unfold product; cbn [fold_right]; ring] | destruct (IH a) as (fs & H1 & H2); exists fs; split; [constructor; exact H1 | exact H2]]. }
  destruct (G 1%Q) as (fs & H1 & H2). exists fs. split; [exact H1 | rewrite H2; ring].
Qed.

Lemma corFac_prod : forall l, (corFac l == product (filter (fun f => negb (Qle_bool 1 f)) l))%Q.
Proof.
  intros l. unfold corFac. assert (G : forall a, (fold_left (fun m f => if Qltb f 1 then (m * f)%Q else m) l a == a * product (filter (fun f => negb (Qle_bool 1 f)) l))%Q).
  { induction l as [|f l IH]; intros a; cbn [fold_left filter]; [unfold product; cbn; ring|]. unfold Qltb at 2. destruct (negb (Qle_bool 1 f)); rewrite IH; [unfold product; cbn [fold_right]; ring | reflexivity]. }
  rewrite G. ring.
Qed.
Lemma fastest : forall c, (forall s, In s (oLevelSpeed (cOsm c)) -> (0 <= s)%Q) -> oLevelSpeed (cOsm c) <> [] -> oSpeedFac (cOsm c) = corFac (factors c) -> divQ (maxSpeed0 (oLevelSpeed (cOsm c))) (oSpeedFac (cOsm c)) = Ok (oSpeed (cOsm c)) -> FastestOf c.
Proof.
  intros c Hp Hne HF HD. unfold divQ in HD. destruct (Qeq_bool (oSpeedFac (cOsm c)) 0) eqn:E; [discriminate|]. apply Qeq_bool_neq in E. injection HD as HD. constructor; [rewrite HF; apply corFac_prod | exact E|].
  destruct (maxSpeed0_in (oLevelSpeed (cOsm c))) as [Z | Hin].
  - destruct (oLevelSpeed (cOsm c)) as [|s l] eqn:L; [contradiction|]. exists s. pose proof (maxSpeed0_ok (s :: l)) as M. rewrite Z in M. assert (S0 : (s == 0)%Q) by (apply Qle_antisym; [apply M; left; reflexivity | apply Hp; left; reflexivity]). split; [rewrite <- HD, Z, S0; field; exact E|]. split; [left; reflexivity|]. intros x Hx. apply (Qle_trans _ 0); [apply M; exact Hx | apply Hp; left; reflexivity].
  - exists (maxSpeed0 (oLevelSpeed (cOsm c))). split; [rewrite <- HD; field; exact E|]. split; [exact Hin | intros x Hx; apply maxSpeed0_ok; exact Hx].
Qed.

(** ** The comparison of settings *)
Lemma Qltb_ok : forall a b, Qltb a b = true <-> (a < b)%Q.
Proof.
  intros a b. unfold Qltb. rewrite negb_true_iff. split; intros H.
  - destruct (Qlt_le_dec a b) as [G | G]; [exact G|]. apply Qle_bool_iff in G. congruence.
  - destruct (Qle_bool b a) eqn:E; [|reflexivity]. apply Qle_bool_iff in E. exfalso. exact (Qlt_irrefl _ (Qlt_le_trans _ _ _ H E)).
Qed.
Lemma closeQ_ok : forall t a b, (0 < t)%Q -> (closeQ t a b = true <-> within t a b).
Proof.
  intros t a b Ht. unfold closeQ, Qabsd, within. rewrite Qltb_ok. destruct (Qle_bool b a) eqn:E.
  - apply Qle_bool_iff in E. split; [|intros (H & _); exact H]. intros H. split; [exact H|]. apply (Qle_lt_trans _ 0); [|exact Ht]. apply (Qplus_le_l _ _ a). ring_simplify. exact E.
  - assert (L : (a <= b)%Q) by (destruct (Qlt_le_dec b a) as [G | G]; [apply Qlt_le_weak, Qle_bool_iff in G; congruence | exact G]). split; [|intros (_ & H); exact H]. intros H. split; [|exact H]. apply (Qle_lt_trans _ 0); [|exact Ht]. apply (Qplus_le_l _ _ b). ring_simplify. exact L.
Qed.
Lemma all2_ok : forall (A : Type) (f : A -> A -> bool) (R : A -> A -> Prop) a b, (forall x y, f x y = true <-> R x y) -> (all2 f a b = true <-> Forall2 R a b).
Proof.
  intros A f R a. induction a as [|x a IH]; intros [|y b] H; cbn [all2]; try (split; [discriminate | intros G; inversion G]); [split; [constructor | reflexivity]|]. rewrite andb_true_iff, H, (IH b H). split; [intros (H1 & H2); constructor; assumption | intros G; inversion G; split; assumption].
Qed.
Lemma Forall2_eq : forall (A : Type) (a b : list A), Forall2 eq a b <-> a = b.
Proof. intros A a b. split; [intros H; induction H; congruence | intros ->; induction b; constructor; auto]. Qed.
Lemma all2_eq : forall (A : Type) (f : A -> A -> bool) a b, (forall x y, f x y = true <-> x = y) -> (all2 f a b = true <-> a = b).
Proof. intros A f a b H. rewrite (all2_ok A f eq a b H). apply Forall2_eq. Qed.
Lemma setEqb_ok : forall (A : Type) (f : A -> A -> bool) a b, (forall x y, f x y = true <-> x = y) -> (setEqb f a b = true <-> sameSet a b).
Proof.
  intros A f a b H. assert (G : forall a b, subset f a b = true <-> incl a b).
  { clear a b. intros a b. unfold subset. rewrite forallb_forall. split; intros HH x Hx; [destruct (proj1 (existsb_exists _ _) (HH x Hx)) as (y & Hy & E); apply H in E; rewrite E; exact Hy | apply existsb_exists; exists x; split; [apply HH; exact Hx | apply H; reflexivity]]. }
  unfold setEqb. rewrite andb_true_iff, !G. unfold sameSet. split; [intros (H1 & H2) x; split; [apply H1 | apply H2] | intros HH; split; intros x Hx; apply HH; exact Hx].
Qed.
Lemma fmEqb_ok : forall a b, fmEqb a b = true <-> sameSet a b.
Proof. intros a b. apply setEqb_ok. intros (k & n) (k' & n'). unfold entryEqb. cbn [fst snd]. rewrite andb_true_iff, keyEqb_ok, N.eqb_eq. split; [intros (-> & ->); reflexivity | intros E; injection E as -> ->; split; reflexivity]. Qed.
Lemma druleEqb_ok : forall a b, druleEqb a b = true <-> sameRule a b.
Proof.
  intros a b. unfold druleEqb, fruleEqb, sameRule. rewrite !andb_true_iff, !String.eqb_eq, (setEqb_ok _ String.eqb _ _ String.eqb_eq). tauto.
Qed.
Lemma linesEqb_ok : forall a b, linesEqb a b = true <-> a = b.
Proof.
  intros [a1 a2 a3 a4] [b1 b2 b3 b4]. unfold linesEqb, strsEqb. cbn [lName lFrom lTo lColor]. rewrite !andb_true_iff, !(all2_eq _ String.eqb _ _ String.eqb_eq). split; [intros (((-> & ->) & ->) & ->); reflexivity | intros E; injection E as -> -> -> ->; repeat split].
Qed.
Lemma normEqb_ok : forall a b, normEqb a b = true <-> a = b.
Proof. intros a b. apply (all2_eq _ keyEqb). exact keyEqb_ok. Qed.
Lemma F2_cons : forall (A B : Type) (R : A -> B -> Prop) x y a b, Forall2 R (x :: a) (y :: b) <-> R x y /\ Forall2 R a b.
Proof. intros A B R x y a b. split; [intros H; inversion H; split; assumption | intros (H1 & H2); constructor; assumption]. Qed.
Lemma F2_nil : forall (A B : Type) (R : A -> B -> Prop), Forall2 R [] [] <-> True.
Proof. intros. split; [trivial | constructor]. Qed.
Lemma cfgEqb_ok : forall a b, cfgEqb a b = true <-> Agree a b.
Proof.
  assert (P10 : (0 < 1 # 10)%Q) by reflexivity. assert (P100 : (0 < 1 # 100)%Q) by reflexivity.
  intros a b. unfold cfgEqb, osmEqb, routEqb. rewrite !andb_true_iff, !fmEqb_ok, !normEqb_ok, linesEqb_ok, !(closeQ_ok _ _ _ P10), !(closeQ_ok _ _ _ P100), !N.eqb_eq, !String.eqb_eq, !Bool.eqb_true_iff.
  rewrite !(all2_ok _ druleEqb sameRule _ _ druleEqb_ok), (all2_ok _ fmEqb sameSet _ _ fmEqb_ok), !(all2_ok _ (closeQ (1 # 10)) near10 _ _ (fun x y => closeQ_ok _ x y P10)).
  split.
  - intros H. decompose [and] H. clear H. constructor; cbn [app]; repeat (first [assumption | apply F2_cons; split | apply F2_nil; exact Logic.I | split]).
  - intros [K1 K2 K3 K4 K5 K6 K7 K8 K9 K10 K11]. cbn [app] in K1. rewrite !F2_cons in K1. rewrite !F2_cons in K6. rewrite !F2_cons in K9. decompose [and] K1. decompose [and] K2. decompose [and] K4. decompose [and] K6. decompose [and] K9. decompose [and] K10. decompose [and] K11. repeat (first [assumption | apply conj]).
Qed.
Lemma Agree_refl : forall a, Agree a a.
Proof.
  intros a. assert (W : forall t x, (0 < t)%Q -> within t x x) by (intros t x Ht; unfold within; setoid_replace (x - x)%Q with 0%Q by ring; split; exact Ht).
  assert (FR : forall (A : Type) (R : A -> A -> Prop) l, (forall x, R x x) -> Forall2 R l l) by (intros A R l H; induction l; constructor; auto).
  constructor; try (repeat split; reflexivity); try (apply FR; intros x; apply W; reflexivity).
  - apply FR. intros x y. tauto.
  - split; apply FR; intros x; repeat split; try tauto; intros; assumption.
Qed.
Lemma Agree_sym : forall a b, Agree a b -> Agree b a.
Proof.
  intros a b H. assert (FS : forall (A : Type) (R : A -> A -> Prop) l l', (forall x y, R x y -> R y x) -> Forall2 R l l' -> Forall2 R l' l) by (intros A R l l' HS HF; induction HF; constructor; auto).
  assert (W : forall t x y, within t x y -> within t y x) by (intros t x y (H1 & H2); split; assumption).
  destruct H as [H1 (H21 & H22 & H23) H3 (H41 & H42) H5 H6 H7 H8 H9 (A1 & A2 & A3 & A4 & A5) (B1 & B2 & B3)]. constructor; try (apply FS; [exact (W _) | assumption]); try (repeat split; congruence).
  - apply FS; [|exact H1]. intros x y HH z. symmetry. apply HH.
  - assert (SR : forall x y, sameRule x y -> sameRule y x) by (intros x y (E1 & E2 & E3 & E4); repeat split; try congruence; intros; apply E4; assumption). split; apply FS; assumption.
Qed.

(** ** The configurations of all sections *)
Lemma addMots_ok : forall add ms t, In t (addMots ms add) <-> In t ms \/ In t add.
Proof.
  induction add as [|m add IH]; intros ms t; cbn [addMots]; [cbn; tauto|]. rewrite IH. cbn [In]. destruct (existsb (Nat.eqb m) ms) eqn:E.
  - apply existsb_exists in E. destruct E as (x & Hx & E). apply Nat.eqb_eq in E. subst x. split; [tauto | intros [H | [<- | H]]; tauto].
  - rewrite in_app_iff. cbn [In]. tauto.
Qed.
Lemma putCfg_ok : forall cs c ts,
  (exists a ex ms b, cs = a ++ (ex, ms) :: b /\ Agree c ex /\ (forall e m, In (e, m) a -> ~ Agree c e) /\ putCfg cs c ts = a ++ (ex, addMots ms ts) :: b) \/
  ((forall e m, In (e, m) cs -> ~ Agree c e) /\ putCfg cs c ts = cs ++ [(c, ts)]).
Proof.
  intros cs c ts. induction cs as [|(ex & ms) cs IH]; cbn [putCfg]; [right; split; [intros e m [] | reflexivity]|]. destruct (cfgEqb c ex) eqn:E.
  - left. exists [], ex, ms, cs. split; [reflexivity|]. split; [apply cfgEqb_ok; exact E|]. split; [intros e m [] | reflexivity].
  - assert (Hno : ~ Agree c ex) by (intros A; apply cfgEqb_ok in A; congruence). destruct IH as [(a & e & m & b & -> & H1 & H2 & H3) | (H1 & H2)].
    + left. exists ((ex, ms) :: a), e, m, b. split; [reflexivity|]. split; [exact H1|]. split; [intros e' m' [G | G]; [injection G as <- <-; exact Hno | exact (H2 _ _ G)] | rewrite H3; reflexivity].
    + right. split; [intros e m [G | G]; [injection G as <- <-; exact Hno | exact (H1 _ _ G)] | rewrite H2; reflexivity].
Qed.
Lemma Some_of_snoc : forall (A : Type) (a b : list A) x, Some_of a b -> Some_of (a ++ [x]) (b ++ [x]).
Proof. intros A a b x H. induction H; cbn; [apply So_keep; apply So_nil | apply So_keep; assumption | apply So_drop; assumption]. Qed.
Lemma Some_of_drop : forall (A : Type) (a b : list A) x, Some_of a b -> Some_of a (b ++ [x]).
Proof. intros A a b x H. induction H; cbn; [apply So_drop; apply So_nil | apply So_keep; assumption | apply So_drop; assumption]. Qed.
Section Sections.
Variable typesOf : string -> list nat.
Notation Merged := (Merged typesOf).
Lemma Merged_nil : Merged [] [].
Proof. constructor; [constructor | intros n c [] | intros [|i] ex ms H; discriminate | intros [|i] j a b ms ms' H H'; discriminate]. Qed.
Lemma Merged_step : forall read cs n c, Merged read cs -> Merged (read ++ [(n, c)]) (putCfg cs c (typesOf n)).
Proof.
  intros read cs n c [H1 H2 H3 H4]. destruct (putCfg_ok cs c (typesOf n)) as [(a & ex & ms & b & E & A & Na & ->) | (No & ->)].
  - subst cs. assert (F : forall i e m, nth_error (a ++ (ex, addMots ms (typesOf n)) :: b) i = Some (e, m) -> exists m', nth_error (a ++ (ex, ms) :: b) i = Some (e, m') /\ (i <> length a -> m' = m) /\ (i = length a -> e = ex /\ m' = ms /\ m = addMots ms (typesOf n))).
    { intros i e m H. destruct (lt_eq_lt_dec i (length a)) as [[L | L] | L].
      - rewrite nth_error_app1 in H by exact L. exists m. rewrite nth_error_app1 by exact L. repeat split; try assumption; lia.
      - rewrite nth_error_app2 in H by lia. subst i. rewrite Nat.sub_diag in H. cbn in H. injection H as <- <-. exists ms. rewrite nth_error_app2, Nat.sub_diag by lia. repeat split; lia.
      - rewrite nth_error_app2 in H by lia. exists m. rewrite nth_error_app2 by lia. destruct (i - length a) as [|k] eqn:K; [lia|]. repeat split; try assumption; lia. }
    assert (F' : forall i e m, nth_error (a ++ (ex, ms) :: b) i = Some (e, m) -> exists m', nth_error (a ++ (ex, addMots ms (typesOf n)) :: b) i = Some (e, m')).
    { intros i e m H. destruct (lt_eq_lt_dec i (length a)) as [[L | L] | L].
      - rewrite nth_error_app1 in H by exact L. exists m. rewrite nth_error_app1 by exact L. exact H.
      - rewrite nth_error_app2 in H by lia. subst i. rewrite Nat.sub_diag in H. cbn in H. injection H as <- <-. eexists. rewrite nth_error_app2, Nat.sub_diag by lia. reflexivity.
      - rewrite nth_error_app2 in H by lia. exists m. rewrite nth_error_app2 by lia. destruct (i - length a) as [|k] eqn:K; [lia | exact H]. }
    assert (FX : nth_error (a ++ (ex, ms) :: b) (length a) = Some (ex, ms)) by (rewrite nth_error_app2, Nat.sub_diag by lia; reflexivity).
    constructor.
    + rewrite !map_app. cbn [map fst snd]. apply Some_of_drop. rewrite map_app in H1. exact H1.
    + intros n' c' Hin. apply in_app_or in Hin. destruct Hin as [Hin | [G | []]].
      * destruct (H2 n' c' Hin) as (i & e & m & Hi & He). destruct (F' i e m Hi) as (m' & Hm'). exists i, e, m'. split; assumption.
      * injection G as <- <-. destruct (F' _ _ _ FX) as (m' & Hm'). exists (length a), ex, m'. split; assumption.
    + intros i e m Hi t. destruct (F i e m Hi) as (m' & Hm' & G1 & G2). specialize (H3 i e m' Hm' t). split.
      * intros Ht. assert (D : In t m' \/ (i = length a /\ In t (typesOf n))).
        { destruct (Nat.eq_dec i (length a)) as [D | D]; [destruct (G2 D) as (-> & -> & ->); apply addMots_ok in Ht; tauto | left; rewrite (G1 D); exact Ht]. }
        destruct D as [D | (D & Dt)].
        -- apply H3 in D. destruct D as (n1 & c1 & Q1 & Q2 & Q3 & Q4). exists n1, c1. split; [apply in_or_app; left; exact Q1|]. split; [exact Q2|]. split; [exact Q3|]. intros j e' ms' Hj Hn. destruct (F j e' ms' Hn) as (m2 & Hm2 & _). exact (Q4 j e' m2 Hj Hm2).
        -- destruct (G2 D) as (-> & -> & ->). exists n, c. split; [apply in_or_app; right; left; reflexivity|]. split; [exact Dt|]. split; [exact A|]. intros j e' ms' Hj Hn. rewrite nth_error_app1 in Hn by lia. exact (Na e' ms' (nth_error_In _ _ Hn)).
      * intros (n1 & c1 & Q1 & Q2 & Q3 & Q4). apply in_app_or in Q1. destruct Q1 as [Q1 | [Q1 | []]].
        -- assert (Ht : In t m') by (apply H3; exists n1, c1; split; [exact Q1|]; split; [exact Q2|]; split; [exact Q3|]; intros j e' ms' Hj Hn; destruct (F' j e' ms' Hn) as (m2 & Hm2); exact (Q4 j e' m2 Hj Hm2)).
           destruct (Nat.eq_dec i (length a)) as [D | D]; [destruct (G2 D) as (-> & -> & ->); apply addMots_ok; left; exact Ht | rewrite <- (G1 D); exact Ht].
        -- injection Q1 as <- <-. destruct (lt_eq_lt_dec i (length a)) as [[L | L] | L].
           ++ rewrite nth_error_app1 in Hi by exact L. exfalso. exact (Na e m (nth_error_In _ _ Hi) Q3).
           ++ destruct (G2 L) as (-> & -> & ->). apply addMots_ok. right. exact Q2.
           ++ destruct (F' _ _ _ FX) as (m2 & Hm2). exfalso. exact (Q4 _ _ _ L Hm2 A).
    + intros i j x y m m' Hij Hi Hj. destruct (F i x m Hi) as (m1 & Hm1 & _). destruct (F j y m' Hj) as (m2 & Hm2 & _). exact (H4 i j x y m1 m2 Hij Hm1 Hm2).
  - assert (F : forall i e m, nth_error (cs ++ [(c, typesOf n)]) i = Some (e, m) -> (i < length cs /\ nth_error cs i = Some (e, m)) \/ (i = length cs /\ e = c /\ m = typesOf n)).
    { intros i e m H. destruct (lt_dec i (length cs)) as [L | L]; [left; rewrite nth_error_app1 in H by exact L; split; assumption|]. rewrite nth_error_app2 in H by lia. destruct (i - length cs) as [|k] eqn:K; [injection H as <- <-; right; repeat split; lia | destruct k; discriminate]. }
    assert (F' : forall i x, nth_error cs i = Some x -> nth_error (cs ++ [(c, typesOf n)]) i = Some x) by (intros i x H; rewrite nth_error_app1; [exact H | apply nth_error_Some; congruence]).
    assert (FX : nth_error (cs ++ [(c, typesOf n)]) (length cs) = Some (c, typesOf n)) by (rewrite nth_error_app2, Nat.sub_diag by lia; reflexivity).
    constructor.
    + rewrite !map_app. cbn [map fst snd]. apply Some_of_snoc. exact H1.
    + intros n' c' Hin. apply in_app_or in Hin. destruct Hin as [Hin | [G | []]].
      * destruct (H2 n' c' Hin) as (i & e & m & Hi & He). exists i, e, m. split; [apply F'; exact Hi | exact He].
      * injection G as <- <-. exists (length cs), c, (typesOf n). split; [exact FX | apply Agree_refl].
    + intros i e m Hi t. destruct (F i e m Hi) as [(L & Hc) | (-> & -> & ->)].
      * rewrite (H3 i e m Hc t). split; intros (n1 & c1 & Q1 & Q2 & Q3 & Q4).
        -- exists n1, c1. split; [apply in_or_app; left; exact Q1|]. split; [exact Q2|]. split; [exact Q3|]. intros j e' ms' Hj Hn. rewrite nth_error_app1 in Hn by lia. exact (Q4 j e' ms' Hj Hn).
        -- apply in_app_or in Q1. destruct Q1 as [Q1 | [Q1 | []]]; [|injection Q1 as <- <-; exfalso; exact (No e m (nth_error_In _ _ Hc) Q3)]. exists n1, c1. split; [exact Q1|]. split; [exact Q2|]. split; [exact Q3|]. intros j e' ms' Hj Hn. exact (Q4 j e' ms' Hj (F' j _ Hn)).
      * split.
        -- intros Ht. exists n, c. split; [apply in_or_app; right; left; reflexivity|]. split; [exact Ht|]. split; [apply Agree_refl|]. intros j e' ms' Hj Hn. rewrite nth_error_app1 in Hn by exact Hj. exact (No e' ms' (nth_error_In _ _ Hn)).
        -- intros (n1 & c1 & Q1 & Q2 & Q3 & Q4). apply in_app_or in Q1. destruct Q1 as [Q1 | [Q1 | []]]; [|injection Q1 as <- <-; exact Q2]. destruct (H2 n1 c1 Q1) as (i & e & m & Hi' & He). exfalso. refine (Q4 i e m _ (F' i _ Hi') He). apply nth_error_Some. congruence.
    + intros i j x y m m' Hij Hi Hj. destruct (F j y m' Hj) as [(L & Hc) | (-> & -> & ->)].
      * rewrite nth_error_app1 in Hi by lia. exact (H4 i j x y m m' Hij Hi Hc).
      * rewrite nth_error_app1 in Hi by exact Hij. exact (No x m (nth_error_In _ _ Hi)).
Qed.
Variable split : string -> ascii -> list string.
Variable trim : string -> string.
Variable V : Type.
Variable asStr : V -> string.
Variable asArr : V -> ascii -> list string.
Variable asBool : V -> option bool.
Variable asInt : V -> option Z.
Variable asDouble asPos : V -> option Q.
Variable asDoubles : V -> ascii -> option (list Q).
Notation readSec := (readSec split trim V asStr asArr asBool asInt asDouble asPos asDoubles).
Notation parse := (parse split trim V asStr asArr asBool asInt asDouble asPos asDoubles typesOf).
Lemma parse_ok : forall secs cs read out, parse cs secs = Ok out -> Merged read cs ->
  exists new, Forall2 (fun s r => fst r = fst s /\ readSec (snd s) = Ok (snd r)) (filter (fun s => negb (String.eqb (fst s) "")) secs) new /\ Merged (read ++ new) out.
Proof.
  induction secs as [|(name & s) secs IH]; intros cs read out H M; cbn [Config_model.parse filter fst snd] in *.
  - injection H as <-. exists []. split; [constructor | rewrite app_nil_r; exact M].
  - destruct (String.eqb name "") eqn:E; cbn [negb]; [exact (IH cs read out H M)|]. apply bind_ok in H. destruct H as (c & Hc & H). destruct (IH _ (read ++ [(name, c)]) out H (Merged_step _ _ name c M)) as (new & H1 & H2). exists ((name, c) :: new). split; [constructor; [split; [reflexivity | exact Hc] | exact H1] | rewrite <- app_assoc in H2; exact H2].
Qed.
Lemma parse_err : forall secs cs, (forall out, parse cs secs <> Ok out) <-> exists n s, In (n, s) secs /\ n <> "" /\ forall c, readSec s <> Ok c.
Proof.
  induction secs as [|(name & s) secs IH]; intros cs; cbn [Config_model.parse].
  - split; [intros H; exfalso; exact (H cs eq_refl) | intros (n & s & [] & _)].
  - destruct (String.eqb_spec name "") as [E | E].
    + rewrite IH. split; intros (n & s' & H1 & H2 & H3); [exists n, s'; split; [right; exact H1 | split; assumption]|]. destruct H1 as [H1 | H1]; [injection H1 as <- <-; contradiction | exists n, s'; repeat split; assumption].
    + destruct (readSec s) as [c | |] eqn:R; cbn [bind].
      * rewrite IH. split; intros (n & s' & H1 & H2 & H3); [exists n, s'; split; [right; exact H1 | split; assumption]|]. destruct H1 as [H1 | H1]; [injection H1 as <- <-; exfalso; exact (H3 c R) | exists n, s'; repeat split; assumption].
      * split; [intros _; exists name, s; split; [left; reflexivity|]; split; [exact E | intros c; congruence] | intros _ out; discriminate].
      * split; [intros _; exists name, s; split; [left; reflexivity|]; split; [exact E | intros c; congruence] | intros _ out; discriminate].
Qed.
End Sections.
Lemma motISect_ok : forall a b m, In m (motISect a b) <-> In m a /\ In m b.
Proof.
  intros a b m. unfold motISect. rewrite filter_In, existsb_exists. split; [intros (H & x & Hx & E); apply Nat.eqb_eq in E; subst; split; assumption | intros (H1 & H2); split; [exact H1 | exists m; split; [exact H2 | apply Nat.eqb_refl]]].
Qed.
