(** Proofs for C75. *)
From Coq Require Import Ascii String List Arith Bool Lia.
From Verif Require Import StrAux Main_model Labels_model Labels_spec.
Import ListNotations.
Open Scope string_scope.
Open Scope list_scope.
Open Scope nat_scope.

Lemma has_in : forall l x, has l x = true <-> In x l.
Proof.
  intros l x. unfold has. rewrite existsb_exists. split.
  - intros (y & I & E). apply Nat.eqb_eq in E. now subst.
  - intros I. exists x. split; [exact I|apply Nat.eqb_refl].
Qed.
Lemma isect_in : forall a b x, In x (motISect a b) <-> In x a /\ In x b.
Proof. intros. unfold motISect. rewrite filter_In, has_in. tauto. Qed.
Lemma isect_nodup : forall a b, NoDup a -> NoDup (motISect a b).
Proof. intros. now apply NoDup_filter. Qed.
Lemma isect_all : forall a b, NoDup a -> NoDup b -> (length (motISect a b) = length b <-> incl b a).
Proof.
  intros a b Na Nb. assert (Ni : NoDup (motISect a b)) by now apply isect_nodup.
  assert (Ii : incl (motISect a b) b) by (intros x I; apply isect_in in I; tauto). split.
  - intros E. intros x I. assert (Q : incl b (motISect a b)) by (apply (NoDup_length_incl Ni); [lia|exact Ii]). apply Q, isect_in in I. tauto.
  - intros I. apply Nat.le_antisymm; [now apply NoDup_incl_length|]. apply NoDup_incl_length; [exact Nb|]. intros x X. apply isect_in. auto.
Qed.

Section L.
Variable typesOf : string -> list nat.
Variable typeStr : nat -> string.
Hypothesis Nd : forall n, NoDup (typesOf n).

Lemma takeNames_ok : forall ns tmp ts rest, NoDup tmp -> takeNames typesOf ns tmp = (ts, rest) ->
  incl ts ns /\ NoDup rest /\ (forall t, In t tmp <-> (exists n, In n ts /\ In t (typesOf n)) \/ In t rest) /\
  (forall t n, In t rest -> In n ts -> ~ In t (typesOf n)) /\
  (forall n, In n ns -> ~ In n ts -> ~ incl (typesOf n) rest).
Proof.
  induction ns as [|n ns IH]; intros tmp ts rest N E; cbn in E.
  - injection E as <- <-. split; [easy|]. split; [exact N|]. split; [intros t; firstorder|]. split; firstorder.
  - destruct (length (motISect tmp (typesOf n)) =? length (typesOf n)) eqn:L.
    + apply Nat.eqb_eq in L. apply isect_all in L; auto.
      destruct (takeNames typesOf ns _) as [ts' rest'] eqn:E'. injection E as <- <-.
      assert (Fi : forall t, In t (filter (fun t => negb (has (motISect tmp (typesOf n)) t)) tmp) <-> In t tmp /\ ~ In t (typesOf n)).
      { intros t. rewrite filter_In, negb_true_iff. split; intros [A B]; (split; [exact A|]).
        - intros X. assert (H : has (motISect tmp (typesOf n)) t = true) by (apply has_in, isect_in; auto). congruence.
        - destruct (has _ t) eqn:H; [|reflexivity]. apply has_in, isect_in in H. tauto. }
      apply IH in E'; [|now apply NoDup_filter]. destruct E' as (I & Nr & P & D & K).
      split; [intros x [<-|X]; [now left|right; auto]|]. split; [exact Nr|]. split.
      { intros t. split.
        - intros X. destruct (in_dec Nat.eq_dec t (typesOf n)) as [Y|Y]; [left; exists n; split; [now left|exact Y]|].
          assert (X' : In t (filter (fun t => negb (has (motISect tmp (typesOf n)) t)) tmp)) by (apply Fi; auto). apply P in X'. destruct X' as [(m & A & B)|X']; [left; exists m; split; [now right|exact B]|auto].
        - intros [(m & [<-|A] & B)|X]; [now apply L|apply Fi, P; left; eauto|apply Fi, P; now right]. }
      split.
      { intros t m Tr [<-|M]; [|now apply D]. assert (X : In t rest' ) by exact Tr. assert (Y : In t (filter (fun t => negb (has (motISect tmp (typesOf n)) t)) tmp)) by (apply P; now right). apply Fi in Y. tauto. }
      intros m [<-|M] X; [exfalso; apply X; now left|]. apply K; [exact M|]. intros Y. apply X. now right.
    + apply Nat.eqb_neq in L. rewrite isect_all in L; auto. apply IH in E; auto. destruct E as (I & Nr & P & D & K).
      split; [intros x X; right; auto|]. split; [exact Nr|]. split; [exact P|]. split; [exact D|].
      intros m [<-|M] X; [|now apply K]. intros Y. apply L. intros x Hx. apply P. right. auto.
Qed.

Lemma addTok_dashed : forall toks, (forall s, In s toks -> s <> ""%string) -> fold_left addTok toks ""%string = dashed toks.
Proof.
  assert (A : forall toks s, s <> ""%string -> (forall x, In x toks -> x <> ""%string) -> fold_left addTok toks s = dashed (s :: toks)).
  { induction toks as [|t toks IH]; intros s S F; [reflexivity|]. cbn [fold_left]. unfold addTok at 2.
    destruct (String.length s =? 0) eqn:L; [apply Nat.eqb_eq in L; now apply str_len_0 in L|].
    rewrite IH; [| |intros x X; apply F; now right].
    - destruct toks as [|u toks]; cbn [dashed]; [reflexivity|]. now rewrite !str_app_assoc.
    - destruct s; [now elim S|discriminate]. }
  intros [|t toks] F; [reflexivity|]. cbn [fold_left]. unfold addTok at 2. cbn. apply A; [apply F; now left|intros x X; apply F; now right].
Qed.

Notation nodash := (fun s => ~ In "-"%char (list_ascii_of_string s)).
Lemma app_dash : forall a b x y, nodash a -> nodash b -> (a ++ x)%string = (b ++ y)%string ->
  (x = ""%string \/ exists x', x = ("-" ++ x')%string) -> (y = ""%string \/ exists y', y = ("-" ++ y')%string) -> a = b /\ x = y.
Proof.
  induction a as [|c a IH]; intros b x y A B E X Y.
  - destruct b as [|d b]; [auto|]. cbn in E. destruct X as [->|(x' & ->)]; [discriminate|]. cbn in E. injection E as <- _. elim B. now left.
  - destruct b as [|d b].
    + cbn in E. destruct Y as [->|(y' & ->)]; [discriminate|]. cbn in E. injection E as -> _. elim A. now left.
    + cbn in E. injection E as <- E. destruct (IH b x y) as [-> ->]; auto; intros H; [apply A|apply B]; now right.
Qed.
Lemma dashed_inj : forall l k, (forall s, In s l -> s <> ""%string /\ nodash s) -> (forall s, In s k -> s <> ""%string /\ nodash s) -> dashed l = dashed k -> l = k.
Proof.
  assert (Tl : forall a l, (forall s, In s (a :: l) -> s <> ""%string /\ nodash s) ->
    exists x, dashed (a :: l) = (a ++ x)%string /\ (x = ""%string \/ exists x', x = ("-" ++ x')%string) /\ (x = ""%string -> l = []) /\ (forall x', x = ("-" ++ x')%string -> l <> [] /\ x' = dashed l)).
  { intros a [|b l] H.
    - exists ""%string. cbn. rewrite str_app_nil_r. split; [reflexivity|]. split; [auto|]. split; [auto|]. intros x' Q. discriminate.
    - exists ("-" ++ dashed (b :: l))%string. split; [reflexivity|]. split; [eauto|]. split; [discriminate|]. intros x' Q. split; [discriminate|]. cbn in Q. now injection Q. }
  induction l as [|a l IH]; intros k L K E.
  - destruct k as [|b k]; [reflexivity|]. destruct (Tl b k K) as (x & D & _). rewrite D in E. cbn in E. destruct (K b (or_introl eq_refl)) as [N _]. destruct b; [now elim N|discriminate].
  - destruct k as [|b k].
    + destruct (Tl a l L) as (x & D & _). rewrite D in E. cbn in E. destruct (L a (or_introl eq_refl)) as [N _]. destruct a; [now elim N|discriminate].
    + destruct (Tl a l L) as (x & Dx & Fx & Nx & Sx). destruct (Tl b k K) as (y & Dy & Fy & Ny & Sy). rewrite Dx, Dy in E.
      destruct (app_dash a b x y) as [-> Exy]; auto; [apply L; now left|apply K; now left|]. subst y. f_equal.
      destruct Fx as [F|(x' & F)]; [now rewrite (Nx F), (Ny F)|]. destruct (Sx _ F) as [_ ->]. destruct (Sy _ F) as [_ Q].
      apply IH; auto; intros s I; [apply L|apply K]; now right.
Qed.

Lemma split_names : forall (ts ts' : list string) (rs rs' : list nat), good_names names typeStr -> incl ts names -> incl ts' names -> ts ++ map typeStr rs = ts' ++ map typeStr rs' -> ts = ts' /\ rs = rs'.
Proof.
  intros ts ts' rs rs' G. revert ts'. induction ts as [|a ts IH]; intros [|b ts'] I I' E; cbn in E.
  - split; [reflexivity|]. revert rs' E. induction rs as [|r rs IHr]; intros [|r' rs'] E; try discriminate; [reflexivity|]. cbn in E. injection E as E1 E2. apply (gn_inj _ _ G) in E1. f_equal; auto.
  - destruct rs as [|r rs]; [discriminate|]. cbn in E. injection E as E1 _. elim (gn_other _ _ G r). rewrite E1. apply I'. now left.
  - destruct rs' as [|r rs']; [discriminate|]. cbn in E. injection E as E1 _. elim (gn_other _ _ G r). rewrite <- E1. apply I. now left.
  - injection E as -> E. destruct (IH ts') as [-> ->]; auto; intros x X; [apply I|apply I']; now right.
Qed.
Lemma names_ok : forall n, In n names -> n <> ""%string /\ ~ In "-"%char (list_ascii_of_string n).
Proof. intros n I. cbn in I. repeat (destruct I as [<-|I]; [split; [discriminate|cbn; intuition discriminate]|]). easy. Qed.

Lemma label_says : good_names names typeStr -> forall mots, NoDup mots -> exists ts rest,
  fileNameMotStr typesOf typeStr mots = dashed (ts ++ map typeStr rest) /\ incl ts names /\ NoDup rest /\
  (forall t, In t mots <-> (exists n, In n ts /\ In t (typesOf n)) \/ In t rest) /\
  (forall t n, In t rest -> In n ts -> ~ In t (typesOf n)) /\
  (forall n, In n names -> ~ In n ts -> ~ incl (typesOf n) rest).
Proof.
  intros G mots N. unfold fileNameMotStr. destruct (takeNames typesOf names mots) as [ts rest] eqn:E. exists ts, rest.
  destruct (takeNames_ok _ _ _ _ N E) as (I & Nr & P & D & K). split; [|auto].
  apply addTok_dashed. intros s S. apply in_app_or in S. destruct S as [S|S]; [apply names_ok; auto|]. apply in_map_iff in S. destruct S as (t & <- & _). apply (gn_some _ _ G).
Qed.
Lemma label_inj : good_names names typeStr -> forall a b, NoDup a -> NoDup b -> fileNameMotStr typesOf typeStr a = fileNameMotStr typesOf typeStr b -> forall t, In t a <-> In t b.
Proof.
  intros G a b Na Nb E. destruct (label_says G a Na) as (ts & rs & Ea & I & _ & P & _). destruct (label_says G b Nb) as (ts' & rs' & Eb & I' & _ & P' & _).
  rewrite Ea, Eb in E. apply dashed_inj in E.
  - destruct (split_names ts ts' rs rs' G I I' E) as [-> ->]. intros t. now rewrite P, P'.
  - intros s S. apply in_app_or in S. destruct S as [S|S]; [apply names_ok; auto|]. apply in_map_iff in S. destruct S as (t & <- & _). split; [apply (gn_some _ _ G)|apply (gn_dash _ _ G)].
  - intros s S. apply in_app_or in S. destruct S as [S|S]; [apply names_ok; auto|]. apply in_map_iff in S. destruct S as (t & <- & _). split; [apply (gn_some _ _ G)|apply (gn_dash _ _ G)].
Qed.

Lemma trg_not_graph : forall n u, trgraphFile typesOf typeStr n u <> "graph.json"%string.
Proof. intros n u. unfold trgraphFile. cbn. discriminate. Qed.

(** All writes, by the configuration they come from. *)
Lemma writes_in : forall wg wt cmd n cfgs k f c, In (f, c) (writesFrom typesOf typeStr wg wt cmd n k cfgs) ->
  exists i mots, c = k + i /\ nth_error cfgs i = Some mots /\ motISect mots cmd <> [] /\
    ((wg = true /\ f = "graph.json"%string) \/ (wt = true /\ f = trgraphFile typesOf typeStr n (motISect mots cmd))).
Proof.
  induction cfgs as [|mots cfgs IH]; intros k f c H; [easy|]. cbn [writesFrom] in H. apply in_app_or in H. destruct H as [H|H].
  - exists 0, mots. rewrite Nat.add_0_r. destruct (motISect mots cmd) as [|u us] eqn:U; [easy|]. cbn [length Nat.eqb] in H.
    apply in_app_or in H. destruct H as [H|H].
    + destruct wg; [|easy]. destruct H as [H|[]]. injection H as <- <-. repeat split; auto; discriminate.
    + destruct wt; [|easy]. destruct H as [H|[]]. injection H as <- <-. repeat split; auto; discriminate.
  - destruct (IH _ _ _ H) as (i & m & -> & E & R). exists (S i), m. split; [lia|]. auto.
Qed.
Lemma writes_at : forall wg wt cmd n cfgs k i mots, nth_error cfgs i = Some mots -> motISect mots cmd <> [] ->
  exists pre post, writesFrom typesOf typeStr wg wt cmd n k cfgs = pre ++ ((if wg then [("graph.json"%string, k + i)] else []) ++ (if wt then [(trgraphFile typesOf typeStr n (motISect mots cmd), k + i)] else [])) ++ post /\
    post = writesFrom typesOf typeStr wg wt cmd n (S (k + i)) (skipn (S i) cfgs).
Proof.
  induction cfgs as [|m cfgs IH]; intros k [|i] mots E U; try discriminate.
  - injection E as ->. exists [], (writesFrom typesOf typeStr wg wt cmd n (S k) cfgs). rewrite Nat.add_0_r. cbn [writesFrom skipn]. split; [|reflexivity].
    destruct (motISect mots cmd); [now elim U|]. reflexivity.
  - destruct (IH (S k) i mots E U) as (pre & post & W & Pp). cbn [writesFrom skipn]. rewrite W. replace (k + S i) with (S k + i) by lia. eexists _, post. split; [rewrite app_assoc; reflexivity|]. exact Pp.
Qed.
Lemma nth_skip : forall A (l : list A) n i x, nth_error (skipn n l) i = Some x -> nth_error l (n + i) = Some x.
Proof. induction l as [|a l IH]; intros [|n] i x H; cbn in *; auto; now destruct i. Qed.

Lemma used_some : forall cmd cfgs k mots, nth_error cfgs k = Some mots -> (motISect mots cmd <> [] <-> exists t, uses cmd cfgs k t).
Proof.
  intros cmd cfgs k mots E. split.
  - intros H. destruct (motISect mots cmd) as [|t l] eqn:U; [now elim H|]. exists t, mots. assert (I : In t (motISect mots cmd)) by (rewrite U; now left). apply isect_in in I. tauto.
  - intros (t & m & E' & A & B) H. rewrite E in E'. injection E' as <-. assert (I : In t (motISect mots cmd)) by (apply isect_in; auto). now rewrite H in I.
Qed.

Lemma trgraph_kept : good_names names typeStr -> forall wg cmd cfgs, (forall mots, In mots cfgs -> NoDup mots) ->
  forall k mots, nth_error cfgs k = Some mots -> (exists t, uses cmd cfgs k t) ->
  (forall j, k < j -> ~ same_types cmd cfgs k j) ->
  holds (writes typesOf typeStr wg true cmd cfgs) (trgraphFile typesOf typeStr (length cfgs) (motISect mots cmd)) k.
Proof.
  intros G wg cmd cfgs Nds k mots E U Ds. apply (used_some _ _ _ _ E) in U. unfold writes.
  destruct (writes_at wg true cmd (length cfgs) cfgs 0 k mots E U) as (pre & post & W & Pp). rewrite W. cbn [Nat.add] in *.
  exists (pre ++ (if wg then [("graph.json"%string, k)] else [])), post. split; [rewrite !app_assoc, <- app_assoc; reflexivity|].
  intros c' I. rewrite Pp in I. apply writes_in in I. destruct I as (i & m & -> & En & Um & [(_ & F)|(_ & F)]); [now apply trg_not_graph in F|].
  apply nth_skip in En. assert (Lt : 1 < length cfgs) by (assert (S k + i < length cfgs) by (apply nth_error_Some; congruence); lia).
  assert (X : fileNameMotStr typesOf typeStr (motISect mots cmd) = fileNameMotStr typesOf typeStr (motISect m cmd)).
  { unfold trgraphFile in F. apply Nat.ltb_lt in Lt. rewrite Lt in F. apply str_app_inj_l in F. now apply str_app_inj_r in F. }
  pose proof (label_inj G _ _ (isect_nodup _ cmd (Nds _ (nth_error_In _ _ E))) (isect_nodup _ cmd (Nds _ (nth_error_In _ _ En))) X) as Sm.
  apply (Ds (S k + i)); [lia|]. intros t. split.
  - intros (m1 & E1 & A & B). rewrite E in E1. injection E1 as <-. assert (Q : In t (motISect m cmd)) by (apply Sm, isect_in; auto). apply isect_in in Q. exists m. tauto.
  - intros (m1 & E1 & A & B). rewrite En in E1. injection E1 as <-. assert (Q : In t (motISect mots cmd)) by (apply Sm, isect_in; auto). apply isect_in in Q. exists mots. tauto.
Qed.
Lemma trgraph_only : forall wg cmd cfgs f c, holds (writes typesOf typeStr wg true cmd cfgs) f c -> f = "graph.json"%string \/
  exists mots, nth_error cfgs c = Some mots /\ (exists t, uses cmd cfgs c t) /\ f = trgraphFile typesOf typeStr (length cfgs) (motISect mots cmd).
Proof.
  intros wg cmd cfgs f c (pre & post & W & _). assert (I : In (f, c) (writes typesOf typeStr wg true cmd cfgs)) by (rewrite W; apply in_elt).
  apply writes_in in I. destruct I as (i & m & -> & En & Um & [(_ & F)|(_ & F)]); [auto|]. right. cbn. exists m. split; [exact En|]. split; [now apply (used_some _ _ _ _ En)|exact F].
Qed.
Lemma graph_last : forall wt cmd cfgs k, (exists t, uses cmd cfgs k t) -> (holds (writes typesOf typeStr true wt cmd cfgs) "graph.json" k <-> forall j, k < j -> ~ exists t, uses cmd cfgs j t).
Proof.
  intros wt cmd cfgs k U. destruct U as (t & mots & E & A & B). assert (Un : motISect mots cmd <> []) by (apply (used_some _ _ _ _ E); exists t, mots; auto).
  destruct (writes_at true wt cmd (length cfgs) cfgs 0 k mots E Un) as (pre & post & W & Pp). cbn [Nat.add] in *. split.
  - intros (p1 & q1 & W1 & F) j Lt (u & m & Ej & Aj & Bj). assert (Uj : motISect m cmd <> []) by (apply (used_some _ _ _ _ Ej); exists u, m; auto).
    destruct (writes_at true wt cmd (length cfgs) cfgs 0 j m Ej Uj) as (p2 & q2 & W2 & _). cbn [Nat.add] in *.
    unfold writes in W1. rewrite W1 in W2. clear W.
    (* the write of [j] cannot be before that of [k] *)
    assert (O : forall n cf b i1 i2 f1 f2 c1 c2 xs ys zs, writesFrom typesOf typeStr true wt cmd n b cf = xs ++ (f1, c1) :: ys ++ (f2, c2) :: zs -> i1 = c1 -> i2 = c2 -> c1 <= c2).
    { clear. intros n cf. induction cf as [|m cf IH]; intros b i1 i2 f1 f2 c1 c2 xs ys zs H _ _; [now destruct xs|]. cbn [writesFrom] in H.
      set (hd := if length (motISect m cmd) =? 0 then [] else _) in H.
      assert (Hd : forall f c, In (f, c) hd -> c = b). { intros f c I. unfold hd in I. destruct (_ =? 0); [easy|]. apply in_app_or in I. destruct I as [I|I]; [destruct I as [I|[]]; congruence|]. destruct wt; [|easy]. destruct I as [I|[]]. congruence. }
      assert (Tl : forall f c, In (f, c) (writesFrom typesOf typeStr true wt cmd n (S b) cf) -> S b <= c). { intros f c I. apply writes_in in I. destruct I as (i & _ & -> & _). lia. }
      clearbody hd. revert xs H. induction hd as [|(f0, c0) hd IHh]; intros xs H; [cbn in H; eapply IH; eauto|].
      destruct xs as [|x xs]; cbn in H.
      - injection H as -> -> H. assert (C1 : c1 = b) by (apply (Hd f1); now left). subst c1.
        assert (I2 : In (f2, c2) (hd ++ writesFrom typesOf typeStr true wt cmd n (S b) cf)) by (rewrite H; apply in_or_app; right; now left).
        apply in_app_or in I2. destruct I2 as [I2|I2]; [assert (c2 = b) by (apply (Hd f2); now right); lia|apply Tl in I2; lia].
      - injection H as _ H. apply (IHh (fun f c I => Hd f c (or_intror I)) xs H). }
    assert (Ij : In ("graph.json"%string, j) (p1 ++ ("graph.json"%string, k) :: q1)). { rewrite W2. apply in_or_app. right. now left. }
    apply in_app_or in Ij. destruct Ij as [Ij|[Ij|Ij]]; [|injection Ij as ->; lia|now apply F in Ij].
    apply in_split in Ij. destruct Ij as (a & b & ->). rewrite <- app_assoc in W1. cbn in W1.
    pose proof (O _ _ _ _ _ _ _ _ _ _ _ _ W1 eq_refl eq_refl). lia.
  - intros L. exists pre, ((if wt then [(trgraphFile typesOf typeStr (length cfgs) (motISect mots cmd), k)] else []) ++ post). split; [unfold writes; rewrite W; reflexivity|].
    intros c' I. apply in_app_or in I. destruct I as [I|I].
    + destruct wt; [|easy]. destruct I as [I|[]]. apply (f_equal fst) in I. cbn [fst] in I. now apply trg_not_graph in I.
    + rewrite Pp in I. apply writes_in in I. destruct I as (i & m & -> & En & Um & _). apply nth_skip in En. apply (L (S k + i)); [lia|]. now apply (used_some _ _ _ _ En).
Qed.
End L.
