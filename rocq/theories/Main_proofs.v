(** Proofs about a run of the program. *)
From Coq Require Import List Arith Bool Lia.
From Verif Require Import ListAux Main_model Main_spec.
Import ListNotations.
Local Arguments Nat.ltb : simpl never.
Local Arguments Nat.eqb : simpl never.

Lemma has_iff : forall l x, has l x = true <-> In x l.
Proof.
  intros l x. unfold has. rewrite existsb_exists. split.
  - intros (y & I & E). apply Nat.eqb_eq in E. now subst.
  - intros I. exists x. split; [auto|apply Nat.eqb_refl].
Qed.
Lemma sect_iff : forall a b x, In x (motISect a b) <-> In x a /\ In x b.
Proof. intros a b x. unfold motISect. rewrite filter_In, has_iff. tauto. Qed.
Lemma shares_iff : forall a b, shares a b = true <-> exists m, In m a /\ In m b.
Proof.
  intros a b. unfold shares. rewrite existsb_exists. split; intros (m & I & H); exists m; (split; [exact I|now apply has_iff]).
Qed.
Lemma optsFor_ok : forall cs k mots j, In j (optsFor k cs mots) <-> exists c i, j = k + i /\ nth_error cs i = Some c /\ exists m, In m (cMots c) /\ In m mots.
Proof.
  induction cs as [|c r IH]; intros k mots j; cbn.
  - split; [intros []|intros (c & i & _ & E & _); destruct i; discriminate].
  - assert (X : In j (optsFor (S k) r mots) <-> exists c' i, j = k + S i /\ nth_error r i = Some c' /\ exists m, In m (cMots c') /\ In m mots).
    { rewrite IH. split; intros (c' & i & E & H); exists c', i; (split; [lia|exact H]). }
    destruct (shares (cMots c) mots) eqn:SH.
    + apply shares_iff in SH. cbn. rewrite X. split.
      * intros [<-|(c' & i & E & H)]; [exists c, 0; split; [lia|auto]|exists c', (S i); auto].
      * intros (c' & [|i] & E & N & H); [left; lia|right; exists c', i; auto].
    + rewrite X. split.
      * intros (c' & i & E & H). exists c', (S i). auto.
      * intros (c' & [|i] & E & N & H); [|exists c', i; auto]. cbn in N. injection N as <-. apply shares_iff in H. congruence.
Qed.
Fixpoint ascending (l : list nat) : Prop := match l with [] => True | x :: r => Forall (fun y => x < y) r /\ ascending r end.
Lemma optsFor_asc : forall cs k mots, ascending (optsFor k cs mots).
Proof.
  assert (G : forall cs k mots, Forall (fun y => k <= y) (optsFor k cs mots)).
  { intros. apply Forall_forall. intros j I. apply optsFor_ok in I. destruct I as (c & i & E & _). lia. }
  induction cs as [|c r IH]; intros k mots; cbn; [exact Logic.I|]. destruct (shares (cMots c) mots); [|apply IH]. split; [apply (G r (S k))|apply IH].
Qed.

Section Proofs.
Variable W : world.
Variable o : opts.

Lemma stops_iff : forall c ts, hasStops ts (motISect (cMots c) (oMots o)) (oTrip o) = true <->
  exists t, In t ts /\ for_type o c (tType t) /\ 1 <= tStops t /\ match oTrip o with None => True | Some i => tId t = i end.
Proof.
  intros c ts. unfold hasStops. rewrite existsb_exists. unfold for_type. split.
  - intros (t & I & H). apply andb_true_iff in H. destruct H as (H & S). apply andb_true_iff in H. destruct H as (T & H). apply has_iff, sect_iff in H. apply Nat.ltb_lt in S.
    exists t. repeat split; try tauto; try lia. destruct (oTrip o); [now apply Nat.eqb_eq|exact Logic.I].
  - intros (t & I & H & S & T). exists t. split; [exact I|]. rewrite !andb_true_iff. split; [split|].
    + destruct (oTrip o); [now apply Nat.eqb_eq|reflexivity].
    + apply has_iff, sect_iff. exact H.
    + apply Nat.ltb_lt. lia.
Qed.
Lemma empty_sect : forall c, match motISect (cMots c) (oMots o) with [] => true | _ => false end = true <-> ~ exists m, for_type o c m.
Proof.
  intros c. destruct (motISect (cMots c) (oMots o)) as [|m l] eqn:E; split; intros H; try discriminate; try reflexivity.
  - intros (m & I). apply (sect_iff (cMots c) (oMots o) m) in I. rewrite E in I. destruct I.
  - exfalso. apply H. exists m. apply (sect_iff (cMots c) (oMots o) m). rewrite E. now left.
Qed.

Definition same (t t' : trip) : Prop := tId t' = tId t /\ tType t' = tType t /\ tStops t' = tStops t.
Lemma becomes_same : forall cfgs t t', becomes o cfgs t t' -> same t t'.
Proof. intros cfgs t t' (A & B & C & _). repeat split; auto. Qed.
Lemma needs_same : forall single ts ts' c, Forall2 same ts ts' -> needs_osm o single ts c <-> needs_osm o single ts' c.
Proof.
  intros single ts ts' c F. split.
  - intros (t & I & H). induction F as [|x y l l' S F IH]; [destruct I|]. destruct I as [->|I].
    + exists y. destruct S as (A & B & C). rewrite A, B, C. split; [now left|exact H].
    + destruct (IH I) as (z & J & H'). exists z. split; [now right|exact H'].
  - intros (t & I & H). induction F as [|x y l l' S F IH]; [destruct I|]. destruct I as [->|I].
    + exists x. destruct S as (A & B & C). rewrite A, B, C in H. split; [now left|exact H].
    + destruct (IH I) as (z & J & H'). exists z. split; [now right|exact H'].
Qed.

(** One configuration more *)
Lemma becomes_skip : forall pre c t t', (forall m, ~ for_type o c m) -> becomes o pre t t' -> becomes o (pre ++ [c]) t t'.
Proof.
  intros pre c t t' N (A & B & C & D). repeat split; auto. destruct D as [(E & k & (c1 & K1 & K2 & K3) & S)|(E & S)].
  - left. split; [exact E|]. exists k. split; [|exact S]. exists c1. split; [now apply nth_snoc_some|]. split; [exact K2|].
    intros j c' J F. apply nth_snoc_inv in J. destruct J as [J|(_ & <-)]; [exact (K3 _ _ J F)|]. destruct (N _ F).
  - right. split; [|exact S]. destruct E as [E|E]; [now left|]. right. intros k c' J F. apply nth_snoc_inv in J. destruct J as [J|(_ & <-)]; [exact (E _ _ J F)|]. destruct (N _ F).
Qed.
Lemma becomes_step : forall pre c t t', becomes o pre t t' -> becomes o (pre ++ [c]) t (shapeOne (length pre) (motISect (cMots c) (oMots o)) (oDrop o) t').
Proof.
  intros pre c t t' (A & B & C & D). unfold shapeOne.
  destruct (has (motISect (cMots c) (oMots o)) (tType t')) eqn:H.
  - apply has_iff, sect_iff in H. rewrite B in H. cbn [negb]. rewrite orb_false_r.
    destruct (tStops t' <? 2) eqn:L.
    { apply Nat.ltb_lt in L. rewrite orb_true_r. repeat split; auto. right. assert (NE : ~ eligible o t) by (intros (E & _); lia). split; [now left|].
      destruct D as [(E & _)|(_ & S)]; [destruct (NE E)|exact S]. }
    apply Nat.ltb_ge in L. rewrite orb_false_r.
    assert (NEW : forall j c', nth_error (pre ++ [c]) j = Some c' -> j <= length pre).
    { intros j c' J. apply nth_lt in J. rewrite app_length in J. cbn in J. lia. }
    assert (HERE : nth_error (pre ++ [c]) (length pre) = Some c) by apply nth_snoc_eq.
    destruct (oDrop o) eqn:DR; cbn [negb andb].
    + split; [exact A|]. split; [exact B|]. split; [exact C|]. left. split; [split; [lia|now left]|]. exists (length pre). split; [|reflexivity].
      exists c. split; [exact HERE|]. split; [exact H|]. rewrite DR. intros j c' J _. eauto.
    + destruct D as [((E1 & E2) & k & (c1 & K1 & K2 & K3) & S)|(E & S)].
      * rewrite S. repeat split; auto. left. split; [split; auto|]. exists k. split; [|exact S]. exists c1. split; [now apply nth_snoc_some|]. split; [exact K2|].
        rewrite DR in *. intros j c' J F. apply nth_snoc_inv in J. destruct J as [J|(-> & <-)]; [exact (K3 _ _ J F)|]. apply nth_lt in K1. lia.
      * destruct (tShape t') as [|s|s] eqn:TS.
        -- split; [exact A|]. split; [exact B|]. split; [exact C|]. left. split; [split; [lia|right; now symmetry]|]. exists (length pre). split; [|reflexivity].
           destruct E as [E|E]; [exfalso; apply E; split; [lia|right; now symmetry]|].
           exists c. split; [exact HERE|]. split; [exact H|]. rewrite DR. intros j c' J F. apply nth_snoc_inv in J. destruct J as [J|(-> & <-)]; [destruct (E _ _ J F)|lia].
        -- repeat split; auto. right. rewrite TS. split; [left; intros (_ & [F|F]); congruence|exact S].
        -- repeat split; auto. right. rewrite TS. split; [left; intros (_ & [F|F]); congruence|exact S].
  - assert (NF : ~ for_type o c (tType t)).
    { intros F. rewrite <- B in F. apply (sect_iff (cMots c) (oMots o)), has_iff in F. congruence. }
    cbn [negb]. rewrite orb_true_r. repeat split; auto. destruct D as [(E & k & (c1 & K1 & K2 & K3) & S)|(E & S)].
    + left. split; [exact E|]. exists k. split; [|exact S]. exists c1. split; [now apply nth_snoc_some|]. split; [exact K2|].
      intros j c' J F. apply nth_snoc_inv in J. destruct J as [J|(_ & <-)]; [exact (K3 _ _ J F)|]. destruct (NF F).
    + right. split; [|exact S]. destruct E as [E|E]; [now left|]. right. intros k c' J F. apply nth_snoc_inv in J. destruct J as [J|(_ & <-)]; [exact (E _ _ J F)|]. destruct (NF F).
Qed.
Lemma becomes_nil : forall t, becomes o [] t t.
Proof. intros t. repeat split; auto. right. split; [|reflexivity]. right. intros k c E. destruct k; discriminate. Qed.

(** Events that a configuration may have *)
Definition inner (e : event) : Prop := match e with EOsm _ | EMatch _ _ | EGraph _ | ETransit _ => True | _ => False end.

Lemma F2_map_r : forall A B C (R : A -> B -> Prop) (R' : A -> C -> Prop) f l l', (forall a b, R a b -> R' a (f b)) -> Forall2 R l l' -> Forall2 R' l (map f l').
Proof. intros A B C R R' f l l' H F. induction F; cbn; constructor; auto. Qed.
Lemma F2_imp : forall A B (R R' : A -> B -> Prop) l l', (forall a b, R a b -> R' a b) -> Forall2 R l l' -> Forall2 R' l l'.
Proof. intros A B R R' l l' H F. induction F; constructor; auto. Qed.

Lemma loop_all : forall cs pre ts0 ts, oTrip o = None -> Forall2 (becomes o pre) ts0 ts -> reaches W o (pre ++ cs) None ts0 (length pre) ->
  let '(ev, res) := loop W o (length pre) cs None ts in
  Forall inner ev /\
  (forall j ms, In (EMatch j ms) ev -> length pre <= j /\ exists c, used o (pre ++ cs) None j c /\ forall m, In m ms <-> for_type o c m) /\
  match res with
  | inl c => exists j cf, used o (pre ++ cs) None j cf /\ reaches W o (pre ++ cs) None ts0 j /\
      ((c = 7 /\ bad_osm W o None ts0 j cf) \/ (c = 1 /\ ~ bad_osm W o None ts0 j cf /\ bad_method cf))
  | inr ts' => Forall2 (becomes o (pre ++ cs)) ts0 ts' /\ reaches W o (pre ++ cs) None ts0 (length (pre ++ cs)) /\
      (forall j c, length pre <= j -> used o (pre ++ cs) None j c -> exists ms, In (EMatch j ms) ev)
  end.
Proof.
  induction cs as [|c r IH]; intros pre ts0 ts OT F R.
  - cbn. split; [constructor|]. split; [intros j ms []|]. rewrite app_nil_r in *. split; [exact F|]. split; [exact R|].
    intros j c L (N & _). apply nth_lt in N. lia.
  - cbn [loop].
    assert (HERE : nth_error (pre ++ c :: r) (length pre) = Some c) by (rewrite nth_error_app2, Nat.sub_diag; [reflexivity|lia]).
    assert (EQ : pre ++ c :: r = (pre ++ [c]) ++ r) by (now rewrite <- app_assoc).
    assert (LEN : length (pre ++ [c]) = S (length pre)) by (rewrite app_length; cbn; lia).
    assert (SM : Forall2 same ts0 ts) by (eapply F2_imp; [|exact F]; intros a b; apply becomes_same).
    destruct (match motISect (cMots c) (oMots o) with [] => true | _ => false end) eqn:ES.
    + apply empty_sect in ES.
      assert (R' : reaches W o ((pre ++ [c]) ++ r) None ts0 (length (pre ++ [c]))).
      { rewrite <- EQ, LEN. intros j c' L U. destruct (Nat.eq_dec j (length pre)) as [->|NE]; [|apply (R j c'); [lia|exact U]].
        destruct U as (N & U). rewrite HERE in N. injection N as <-. destruct (ES U). }
      specialize (IH (pre ++ [c]) ts0 ts OT). rewrite LEN in IH. rewrite LEN in R'. rewrite <- EQ in IH, R'.
      assert (F' : Forall2 (becomes o (pre ++ [c])) ts0 ts) by (eapply F2_imp; [|exact F]; intros a b; apply becomes_skip; intros m H; apply ES; eauto).
      specialize (IH F' R'). destruct (loop W o (S (length pre)) r None ts) as [ev res]. destruct IH as (I1 & I2 & I3).
      split; [exact I1|]. split; [intros j ms I; apply I2 in I; destruct I as (L & X); split; [lia|exact X]|].
      destruct res as [k|ts']; [exact I3|]. destruct I3 as (J1 & J2 & J3). split; [exact J1|]. split; [exact J2|].
      intros j c' L U. destruct (Nat.eq_dec j (length pre)) as [->|NE]; [|apply (J3 j c'); [lia|exact U]].
      destruct U as (N & U). rewrite HERE in N. injection N as <-. destruct (ES U).
    + assert (UF : exists m, for_type o c m).
      { destruct (motISect (cMots c) (oMots o)) as [|m l] eqn:E; [discriminate|]. exists m. apply (sect_iff (cMots c) (oMots o) m). rewrite E. now left. }
      assert (UH : used o (pre ++ c :: r) None (length pre) c) by (split; assumption).
      pose proof (stops_iff c ts) as ST. rewrite OT in ST. change (exists t, In t ts /\ for_type o c (tType t) /\ 1 <= tStops t /\ True) with (needs_osm o None ts c) in ST.
      rewrite <- (needs_same None ts0 ts c SM) in ST. rewrite OT.
      set (stops := hasStops ts (motISect (cMots c) (oMots o)) None) in *.
      assert (IEV : Forall inner (if stops then [EOsm (length pre)] else [])) by (destruct stops; repeat constructor).
      assert (NEV : forall j ms, ~ In (EMatch j ms) (if stops then [EOsm (length pre)] else [])) by (intros j ms I; destruct stops; [destruct I as [I|[]]; discriminate|destruct I]).
      destruct (stops && negb (wOsm W (length pre))) eqn:BO.
      { apply andb_true_iff in BO. destruct BO as (B1 & B2). apply negb_true_iff in B2. split; [exact IEV|]. split; [intros j ms I; destruct (NEV _ _ I)|].
        exists (length pre), c. split; [exact UH|]. split; [exact R|]. left. split; [reflexivity|]. split; [now apply ST|exact B2]. }
      assert (NB : ~ bad_osm W o None ts0 (length pre) c).
      { intros (B1 & B2). apply ST in B1. rewrite B1, B2 in BO. discriminate. }
      destruct (cSimi c) eqn:CS; cbn [negb].
      2:{ split; [exact IEV|]. split; [intros j ms I; destruct (NEV _ _ I)|]. exists (length pre), c. split; [exact UH|]. split; [exact R|]. right. split; [reflexivity|]. split; [exact NB|now left]. }
      destruct (cTrans c) eqn:CT; cbn [negb].
      2:{ split; [exact IEV|]. split; [intros j ms I; destruct (NEV _ _ I)|]. exists (length pre), c. split; [exact UH|]. split; [exact R|]. right. split; [reflexivity|]. split; [exact NB|now right]. }
      assert (R' : reaches W o ((pre ++ [c]) ++ r) None ts0 (length (pre ++ [c]))).
      { rewrite <- EQ, LEN. intros j c' L U. destruct (Nat.eq_dec j (length pre)) as [->|NE]; [|apply (R j c'); [lia|exact U]].
        destruct U as (N & U). rewrite HERE in N. injection N as <-. split; [reflexivity|]. split; [exact NB|]. intros [X|X]; congruence. }
      specialize (IH (pre ++ [c]) ts0 (map (shapeOne (length pre) (motISect (cMots c) (oMots o)) (oDrop o)) ts) OT). rewrite LEN in IH. rewrite LEN in R'. rewrite <- EQ in IH, R'.
      assert (F' : Forall2 (becomes o (pre ++ [c])) ts0 (map (shapeOne (length pre) (motISect (cMots c) (oMots o)) (oDrop o)) ts)) by (eapply F2_map_r; [|exact F]; intros a b; apply becomes_step).
      specialize (IH F' R'). destruct (loop W o (S (length pre)) r None _) as [ev res]. destruct IH as (I1 & I2 & I3).
      split.
      { rewrite !Forall_app. split; [exact IEV|]. split; [repeat constructor|]. split; [destruct (oGraph o); repeat constructor|]. split; [destruct (oTransit o); repeat constructor|exact I1]. }
      split.
      { intros j ms I. rewrite !in_app_iff in I. destruct I as [I|[I|[I|[I|I]]]].
        - destruct (NEV _ _ I).
        - destruct I as [I|[]]. injection I as <- <-. split; [lia|]. exists c. split; [exact UH|]. intros m. apply sect_iff.
        - destruct (oGraph o); [destruct I as [I|[]]; discriminate|destruct I].
        - destruct (oTransit o); [destruct I as [I|[]]; discriminate|destruct I].
        - apply I2 in I. destruct I as (L & X). split; [lia|exact X]. }
      destruct res as [k|ts']; [exact I3|]. destruct I3 as (J1 & J2 & J3). split; [exact J1|]. split; [exact J2|].
      intros j c' L U. destruct (Nat.eq_dec j (length pre)) as [->|NE].
      * eexists. rewrite !in_app_iff. right. left. left. reflexivity.
      * destruct (J3 j c') as (ms & I); [lia|exact U|]. exists ms. rewrite !in_app_iff. auto.
Qed.

(** With -T *)
Definition quiet (e : event) : Prop := match e with EOsm _ | EGraph _ => True | _ => False end.
Lemma loop_one : forall t ts, oTrip o = Some (tId t) -> forall cs pre, (forall j c, j < length pre -> ~ used o (pre ++ cs) (Some t) j c) ->
  let '(ev, res) := loop W o (length pre) cs (Some t) ts in
  match res with
  | inr ts' => ts' = ts /\ ev = [] /\ forall j c, ~ used o (pre ++ cs) (Some t) j c
  | inl x => exists k c, used o (pre ++ cs) (Some t) k c /\ (forall j c', j < k -> ~ used o (pre ++ cs) (Some t) j c') /\
      ((x = 7 /\ bad_osm W o (Some t) ts k c /\ ev = [EOsm k]) \/
       (x = 1 /\ ~ bad_osm W o (Some t) ts k c /\ bad_method c /\ Forall quiet ev) \/
       (x = 0 /\ ~ bad_osm W o (Some t) ts k c /\ ~ bad_method c /\ exists a b, ev = a ++ EPath k (tId t) :: b /\ Forall quiet a /\ Forall quiet b))
  end.
Proof.
  intros t ts OT. induction cs as [|c r IH]; intros pre NP.
  - cbn. split; [reflexivity|]. split; [reflexivity|]. intros j c (N & U). apply (NP j c); [|split; assumption]. apply nth_lt in N. rewrite app_nil_r in N. exact N.
  - cbn [loop].
    assert (HERE : nth_error (pre ++ c :: r) (length pre) = Some c) by (rewrite nth_error_app2, Nat.sub_diag; [reflexivity|lia]).
    assert (EQ : pre ++ c :: r = (pre ++ [c]) ++ r) by (now rewrite <- app_assoc).
    assert (LEN : length (pre ++ [c]) = S (length pre)) by (rewrite app_length; cbn; lia).
    assert (SKIP : ~ for_type o c (tType t) ->
      let '(ev, res) := loop W o (S (length pre)) r (Some t) ts in
      match res with
      | inr ts' => ts' = ts /\ ev = [] /\ forall j c', ~ used o (pre ++ c :: r) (Some t) j c'
      | inl x => exists k c', used o (pre ++ c :: r) (Some t) k c' /\ (forall j c'', j < k -> ~ used o (pre ++ c :: r) (Some t) j c'') /\
          ((x = 7 /\ bad_osm W o (Some t) ts k c' /\ ev = [EOsm k]) \/
           (x = 1 /\ ~ bad_osm W o (Some t) ts k c' /\ bad_method c' /\ Forall quiet ev) \/
           (x = 0 /\ ~ bad_osm W o (Some t) ts k c' /\ ~ bad_method c' /\ exists a b, ev = a ++ EPath k (tId t) :: b /\ Forall quiet a /\ Forall quiet b))
      end).
    { intros NF. rewrite EQ, <- LEN. apply IH. rewrite <- EQ, LEN. intros j c' L U. destruct (Nat.eq_dec j (length pre)) as [->|NE]; [|apply (NP j c'); [lia|exact U]].
      destruct U as (N & U). rewrite HERE in N. injection N as <-. exact (NF U). }
    destruct (match motISect (cMots c) (oMots o) with [] => true | _ => false end) eqn:ES.
    { apply SKIP. apply empty_sect in ES. intros F. apply ES. eauto. }
    destruct (has (motISect (cMots c) (oMots o)) (tType t)) eqn:H; cbn [negb].
    2:{ apply SKIP. intros F. apply (sect_iff (cMots c) (oMots o)), has_iff in F. congruence. }
    clear SKIP. apply has_iff, sect_iff in H.
    assert (UH : used o (pre ++ c :: r) (Some t) (length pre) c) by (split; assumption).
    pose proof (stops_iff c ts) as ST. rewrite OT in ST. change (exists t0, In t0 ts /\ for_type o c (tType t0) /\ 1 <= tStops t0 /\ tId t0 = tId t) with (needs_osm o (Some t) ts c) in ST.
    rewrite OT. set (stops := hasStops ts (motISect (cMots c) (oMots o)) (Some (tId t))) in *.
    assert (IEV : Forall quiet (if stops then [EOsm (length pre)] else [])) by (destruct stops; repeat constructor).
    destruct (stops && negb (wOsm W (length pre))) eqn:BO.
    { apply andb_true_iff in BO. destruct BO as (B1 & B2). apply negb_true_iff in B2. exists (length pre), c. split; [exact UH|]. split; [exact NP|]. left. split; [reflexivity|].
      split; [split; [now apply ST|exact B2]|]. now rewrite B1. }
    assert (NB : ~ bad_osm W o (Some t) ts (length pre) c).
    { intros (B1 & B2). apply ST in B1. rewrite B1, B2 in BO. discriminate. }
    destruct (cSimi c) eqn:CS; cbn [negb].
    2:{ exists (length pre), c. split; [exact UH|]. split; [exact NP|]. right. left. split; [reflexivity|]. split; [exact NB|]. split; [now left|exact IEV]. }
    destruct (cTrans c) eqn:CT; cbn [negb].
    2:{ exists (length pre), c. split; [exact UH|]. split; [exact NP|]. right. left. split; [reflexivity|]. split; [exact NB|]. split; [now right|exact IEV]. }
    exists (length pre), c. split; [exact UH|]. split; [exact NP|]. right. right. split; [reflexivity|]. split; [exact NB|]. split; [intros [X|X]; congruence|].
    exists (if stops then [EOsm (length pre)] else []), (if oGraph o then [EGraph (length pre)] else []). split; [reflexivity|]. split; [exact IEV|]. destruct (oGraph o); repeat constructor.
Qed.

(** Reading the feeds *)
Lemma readAll_ok : forall ps, let '(ev, fs) := readAll W ps in
  Forall (fun e => exists p, e = EFeed p /\ In p ps) ev /\
  match fs with
  | None => exists p, In p ps /\ wFeed W p = None
  | Some fs => Forall2 (fun p f => wFeed W p = Some f) ps fs /\ ev = map EFeed ps
  end.
Proof.
  induction ps as [|p r IH]; cbn; [repeat constructor|]. destruct (wFeed W p) as [f|] eqn:E.
  - destruct (readAll W r) as [ev fs]. destruct IH as (A & B). split.
    + constructor; [exists p; split; [reflexivity|now left]|]. eapply Forall_impl; [|exact A]. intros e (q & -> & I). exists q. split; [reflexivity|now right].
    + destruct fs as [fs|]; [destruct B as (B & ->); split; [constructor; auto|reflexivity]|]. destruct B as (q & I & N). exists q. split; [now right|exact N].
  - split; [repeat constructor; exists p; split; [reflexivity|now left]|]. exists p. split; [now left|exact E].
Qed.
End Proofs.

Lemma first_here : forall (P : Prop) c l d, P -> first_of ((P, c) :: l) d c.
Proof. intros P c l d H. left. exists 0, P. split; [reflexivity|]. split; [exact H|]. intros j P' c' L. lia. Qed.
Lemma first_next : forall (P : Prop) x c l d, ~ P -> first_of l d c -> first_of ((P, x) :: l) d c.
Proof.
  intros P x c l d N [(i & Q & E & H & B)|(E & B)].
  - left. exists (S i), Q. split; [exact E|]. split; [exact H|]. intros [|j] P' c' L A; cbn in A; [injection A as <- _; exact N|apply (B j P' c'); [lia|exact A]].
  - right. split; [exact E|]. intros [|j] P' c' A; cbn in A; [injection A as <- _; exact N|eapply B; exact A].
Qed.
Lemma first_none : forall d, first_of [] d d.
Proof. intros d. right. split; [reflexivity|]. intros [|j] P c E; discriminate. Qed.

(** The trip asked for *)
Lemma find_asked : forall i (ts : list trip) t, find (fun t => tId t =? i) ts = Some t -> exists l r, tId t = i /\ ts = l ++ t :: r /\ Forall (fun x => tId x <> i) l.
Proof.
  induction ts as [|a l IH]; intros t H; [discriminate|]. cbn in H. destruct (tId a =? i) eqn:E.
  - injection H as <-. apply Nat.eqb_eq in E. exists [], l. repeat split; auto.
  - apply Nat.eqb_neq in E. destruct (IH t H) as (x & r & A & B & C). exists (a :: x), r. rewrite B. repeat split; auto.
Qed.
Lemma asked_inj : forall o ts s s', asked o ts s -> asked o ts s' -> s = s'.
Proof.
  intros o ts s s'. unfold asked. destruct (oTrip o) as [i|]; [|congruence].
  intros (t & l & r & -> & A & B & C) (t' & l' & r' & -> & A' & B' & C'). f_equal. rewrite B in B'. clear B. revert l' C' B'.
  induction C as [|x l Hx C IH]; intros l' C' E.
  - destruct l' as [|y l']; cbn in E; [congruence|]. injection E as E _. subst y. inversion C' as [|? ? K]; subst. now destruct K.
  - destruct C' as [|y l' Hy C']; cbn in E; injection E as E1 E2; [subst x; now destruct Hx|]. eauto.
Qed.

Section Main.
Variable W : world.
Variable o : opts.
Notation code := (snd (main W o)).
Notation events := (fst (main W o)).

(** What happens before a run without -X, -a and -f gets to the configurations *)
Definition out : nat := match oFeeds o with [p] => if oInPlace o then p else oOut o | _ => oOut o end.

(** Everything main does, by cases *)
Inductive outcome : list event -> nat -> Prop :=
| ONoCfg : wCfgs W = None -> outcome [] 6
| ONoOsm : forall cs, wCfgs W = Some cs -> oOsm o = false -> oQuery o = false -> oRules o = false -> outcome [] 5
| OEmpty : wCfgs W = Some [] -> (oOsm o = true \/ oQuery o = true \/ oRules o = true) -> outcome [] 9
| OBadFeed : forall ev, wCfgs W <> None -> wCfgs W <> Some [] -> (oOsm o = true \/ oQuery o = true \/ oRules o = true) ->
    (length (oFeeds o) = 1 \/ oExtract o = true \/ oQuery o = true) -> (exists p, In p (oFeeds o) /\ wFeed W p = None) ->
    Forall (fun e => exists p, e = EFeed p /\ In p (oFeeds o)) ev -> outcome ev 4
| OMany : wCfgs W <> None -> wCfgs W <> Some [] -> (oOsm o = true \/ oQuery o = true \/ oRules o = true) ->
    2 <= length (oFeeds o) -> oExtract o = false -> oQuery o = false -> outcome [] 2
| OGood : forall cfgs fs ev c, wCfgs W = Some cfgs -> cfgs <> [] -> (oOsm o = true \/ oQuery o = true \/ oRules o = true) ->
    Forall2 (fun p f => wFeed W p = Some f) (oFeeds o) fs -> (length (oFeeds o) <= 1 \/ oExtract o = true \/ oQuery o = true) ->
    outcome2 cfgs fs ev c -> outcome (map EFeed (oFeeds o) ++ ev) c
with outcome2 : list mcfg -> list (list trip) -> list event -> nat -> Prop :=
| ONoTripFeed : forall cfgs fs, oTrip o <> None -> oFeeds o = [] -> outcome2 cfgs fs [] 1
| ONoTrip : forall cfgs fs i f r, oTrip o = Some i -> fs = f :: r -> Forall (fun t => tId t <> i) f -> outcome2 cfgs fs [] 3
| OOk : forall cfgs fs single ev c, (fs = [] -> oTrip o = None) -> asked o (hd [] fs) single -> outcome3 cfgs (hd [] fs) single ev c -> outcome2 cfgs fs ev c
with outcome3 : list mcfg -> list trip -> option trip -> list event -> nat -> Prop :=
| OExtract : forall cfgs f s, oExtract o = true -> outcome3 cfgs f s [EExtract (optsFor 0 cfgs (oMots o)) (oFeeds o)] (if wFilter W then 0 else 7)
| OQuery : forall cfgs f s, oExtract o = false -> oQuery o = true -> outcome3 cfgs f s [EQuery (optsFor 0 cfgs (oMots o)) (oFeeds o)] 0
| ORules : forall cfgs f s, oExtract o = false -> oQuery o = false -> oRules o = true -> outcome3 cfgs f s [ERules (optsFor 0 cfgs (oMots o))] 0
| ONoFeed : forall cfgs f s, plain o -> oFeeds o = [] -> outcome3 cfgs f s [] 1
| OStop : forall cfgs f s ev c p, plain o -> oFeeds o = [p] -> loop W o 0 cfgs s f = (ev, inl c) -> outcome3 cfgs f s ev c
| OWrite : forall cfgs f s ev ts p, plain o -> oFeeds o = [p] -> loop W o 0 cfgs s f = (ev, inr ts) ->
    outcome3 cfgs f s (ev ++ (if oStats o then [EStats] else []) ++ [EWrite (if oInPlace o then p else oOut o) ts (wWrite W (if oInPlace o then p else oOut o))])
      (if wWrite W (if oInPlace o then p else oOut o) then 0 else 8).

Lemma main_outcome : outcome events code.
Proof.
  unfold main. destruct (wCfgs W) as [cfgs|] eqn:WC; [|now apply ONoCfg].
  destruct (negb (oOsm o) && negb (oQuery o) && negb (oRules o)) eqn:NO.
  { apply andb_true_iff in NO. destruct NO as (NO & N3). apply andb_true_iff in NO. destruct NO as (N1 & N2). apply negb_true_iff in N1, N2, N3. eapply ONoOsm; eauto. }
  assert (OK : oOsm o = true \/ oQuery o = true \/ oRules o = true).
  { destruct (oOsm o); [auto|]. destruct (oQuery o); [auto|]. destruct (oRules o); [auto|discriminate]. }
  clear NO. destruct (match cfgs with [] => true | _ => false end) eqn:CE.
  { destruct cfgs; [|discriminate]. now apply OEmpty. }
  assert (NE : cfgs <> []) by (destruct cfgs; congruence). clear CE.
  assert (WN : wCfgs W <> None) by congruence. assert (WE : wCfgs W <> Some []) by congruence.
  pose proof (readAll_ok W (oFeeds o)) as RA.
  (* everything after the feeds are read *)
  assert (REST : forall fs, Forall2 (fun p f => wFeed W p = Some f) (oFeeds o) fs -> (length (oFeeds o) <= 1 \/ oExtract o = true \/ oQuery o = true) ->
    let first := match fs with f :: _ => f | [] => [] end in
    let r := match (match oTrip o with
              | None => inr None
              | Some i => match oFeeds o with
                          | [] => inl 1
                          | _ => match find (fun t => tId t =? i) first with Some t => inr (Some t) | None => inl 3 end
                          end
              end) with
            | inl c => (map EFeed (oFeeds o), c)
            | inr st =>
                if oExtract o then (map EFeed (oFeeds o) ++ [EExtract (optsFor 0 cfgs (oMots o)) (oFeeds o)], if wFilter W then 0 else 7)
                else if oQuery o then (map EFeed (oFeeds o) ++ [EQuery (optsFor 0 cfgs (oMots o)) (oFeeds o)], 0)
                else if oRules o then (map EFeed (oFeeds o) ++ [ERules (optsFor 0 cfgs (oMots o))], 0)
                else match oFeeds o with
                     | [] => (map EFeed (oFeeds o), 1)
                     | _ =>
                         let '(ev2, res) := loop W o 0 cfgs st first in
                         match res with
                         | inl c => (map EFeed (oFeeds o) ++ ev2, c)
                         | inr ts => let ok := wWrite W out in
                             (map EFeed (oFeeds o) ++ ev2 ++ (if oStats o then [EStats] else []) ++ [EWrite out ts ok], if ok then 0 else 8)
                         end
                     end
            end in outcome (fst r) (snd r)).
  { intros fs F2 MODE first. cbv zeta.
    assert (LOAD : forall ev c, outcome2 cfgs fs ev c -> outcome (map EFeed (oFeeds o) ++ ev) c) by (intros; eapply OGood; eauto).
    assert (FH : first = hd [] fs) by (subst first; destruct fs; reflexivity). rewrite FH.
    assert (GO : forall st, (fs = [] -> oTrip o = None) -> asked o (hd [] fs) st ->
      outcome (fst (if oExtract o then (map EFeed (oFeeds o) ++ [EExtract (optsFor 0 cfgs (oMots o)) (oFeeds o)], if wFilter W then 0 else 7)
                else if oQuery o then (map EFeed (oFeeds o) ++ [EQuery (optsFor 0 cfgs (oMots o)) (oFeeds o)], 0)
                else if oRules o then (map EFeed (oFeeds o) ++ [ERules (optsFor 0 cfgs (oMots o))], 0)
                else match oFeeds o with
                     | [] => (map EFeed (oFeeds o), 1)
                     | _ =>
                         let '(ev2, res) := loop W o 0 cfgs st (hd [] fs) in
                         match res with
                         | inl c => (map EFeed (oFeeds o) ++ ev2, c)
                         | inr ts => let ok := wWrite W out in
                             (map EFeed (oFeeds o) ++ ev2 ++ (if oStats o then [EStats] else []) ++ [EWrite out ts ok], if ok then 0 else 8)
                         end
                     end))
              (snd (if oExtract o then (map EFeed (oFeeds o) ++ [EExtract (optsFor 0 cfgs (oMots o)) (oFeeds o)], if wFilter W then 0 else 7)
                else if oQuery o then (map EFeed (oFeeds o) ++ [EQuery (optsFor 0 cfgs (oMots o)) (oFeeds o)], 0)
                else if oRules o then (map EFeed (oFeeds o) ++ [ERules (optsFor 0 cfgs (oMots o))], 0)
                else match oFeeds o with
                     | [] => (map EFeed (oFeeds o), 1)
                     | _ =>
                         let '(ev2, res) := loop W o 0 cfgs st (hd [] fs) in
                         match res with
                         | inl c => (map EFeed (oFeeds o) ++ ev2, c)
                         | inr ts => let ok := wWrite W out in
                             (map EFeed (oFeeds o) ++ ev2 ++ (if oStats o then [EStats] else []) ++ [EWrite out ts ok], if ok then 0 else 8)
                         end
                     end))).
    { intros st TF A.
      assert (L3 : forall ev c, outcome3 cfgs (hd [] fs) st ev c -> outcome (map EFeed (oFeeds o) ++ ev) c) by (intros ev c H; apply LOAD; eapply OOk; eauto).
      destruct (oExtract o) eqn:OE; [cbn [fst snd]; now apply L3, OExtract|].
      destruct (oQuery o) eqn:OQ; [cbn [fst snd]; now apply L3, OQuery|].
      destruct (oRules o) eqn:OR; [cbn [fst snd]; now apply L3, ORules|].
      assert (PL : plain o) by (repeat split; assumption).
      destruct (oFeeds o) as [|p [|q r]] eqn:OF.
      - cbn [fst snd]. rewrite <- (app_nil_r (map EFeed [])). apply L3. now apply ONoFeed.
      - destruct (loop W o 0 cfgs st (hd [] fs)) as [ev2 res] eqn:LP. destruct res as [c|ts]; cbn [fst snd].
        + apply L3. eapply OStop; eauto.
        + apply L3. unfold out. rewrite OF. eapply OWrite; eauto.
      - exfalso. destruct MODE as [M|[M|M]]; [cbn in M; lia|discriminate|discriminate]. }
    destruct (oTrip o) as [i|] eqn:OT.
    - destruct (oFeeds o) as [|p r] eqn:OF.
      + cbn [fst snd]. rewrite <- (app_nil_r (map EFeed [])). apply LOAD. apply ONoTripFeed; congruence.
      + destruct fs as [|f fr]; [inversion F2|]. cbn [hd] in *.
        destruct (find (fun t => tId t =? i) f) as [t|] eqn:FD.
        * apply GO; [discriminate|]. apply find_asked in FD. destruct FD as (l & r' & A & B & C). unfold asked. rewrite OT. eauto 8.
        * cbn [fst snd]. rewrite <- (app_nil_r (map EFeed _)). apply LOAD. eapply ONoTrip; eauto.
          apply Forall_forall. intros t I E. apply (find_none _ _ FD) in I. cbn beta in I. apply Nat.eqb_neq in I. congruence.
    - apply GO; [reflexivity|]. unfold asked. now rewrite OT. }
  fold out in REST |- *. destruct (oFeeds o) as [|p [|q r]] eqn:OF.
  - destruct (oExtract o || oQuery o) eqn:EQ.
    + cbn [readAll] in *. cbn iota beta. apply (REST []); [constructor|left; cbn; lia].
    + cbn [length]. change (1 <? 0) with false. cbn iota beta. apply (REST []); [constructor|left; cbn; lia].
  - destruct (readAll W [p]) as [ev fs] eqn:RD. destruct RA as (A & B). destruct fs as [fs|]; cbn iota beta.
    + destruct B as (B & ->). apply (REST fs B). left. cbn. lia.
    + cbn [fst snd]. apply OBadFeed; auto; rewrite OF; [left; reflexivity|exact B|exact A].
  - destruct (oExtract o || oQuery o) eqn:EQ.
    + assert (EQ' : oExtract o = true \/ oQuery o = true) by (now apply orb_true_iff).
      destruct (readAll W (p :: q :: r)) as [ev fs] eqn:RD. destruct RA as (A & B). destruct fs as [fs|]; cbn iota beta.
      * destruct B as (B & ->). apply (REST fs B). right. exact EQ'.
      * cbn [fst snd]. apply OBadFeed; auto; rewrite OF; [exact B|exact A].
    + apply orb_false_iff in EQ. destruct EQ as (E1 & E2). change (1 <? length (p :: q :: r)) with true. cbn iota beta. cbn [fst snd]. apply OMany; auto. rewrite OF. cbn. lia.
Qed.
End Main.
