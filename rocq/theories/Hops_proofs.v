From Coq Require Import List Arith ZArith QArith Qround Qabs Bool Lia Lqa.
From Verif Require Import ListAux HopCache_model HopCache_proofs Router_model Hops_model Hops_spec.
Import ListNotations.
Open Scope nat_scope.

Section Pf.
Variable enum : list edge -> list edge.
Variable ecost : edge -> Z.
Variable len : edge -> Q.
Variable compF compT : edge -> nat.
Variable search : edge -> list edge -> Z -> edge -> Z * list edge.
Variable needDist : bool.
Variable step : edge -> edge -> option Z.
Hypothesis HE : enumerates enum.
Hypothesis HGr : graph_ok step ecost compF compT.
Hypothesis HS : search_ok step search.
Notation walk := (walk step).
Notation cheapest := (cheapest step).
Notation hop_cost := (hop_cost step ecost).
Notation edgesOf := (edgesOf enum).
Notation maxProgrStart := (maxProgrStart ecost).
Notation shortcut := (shortcut compF compT needDist).
Notation row := (row len compF compT search needDist).
Notation rows := (rows len compF compT search needDist).
Notation partial := (partial ecost).
Notation hops := (hops enum ecost len compF compT search needDist).

Lemma Qltb_true : forall a b, Qltb a b = true <-> (a < b)%Q.
Proof.
  intros a b. unfold Qltb. destruct (Qlt_le_dec a b) as [H|H]; split; intros X; auto; [discriminate|].
  exfalso. apply (Qlt_irrefl a). eapply Qlt_le_trans; eassumption.
Qed.
Lemma Qltb_false : forall a b, Qltb a b = false <-> (b <= a)%Q.
Proof.
  intros a b. unfold Qltb. destruct (Qlt_le_dec a b) as [H|H]; split; intros X; auto; [discriminate|].
  exfalso. apply (Qlt_irrefl a). eapply Qlt_le_trans; eassumption.
Qed.
Lemma whole_floor : forall q, whole q (Qfloor q).
Proof. intros q. split; [apply Qfloor_le|apply Qlt_floor]. Qed.
Lemma whole_uniq : forall q a b, whole q a -> whole q b -> a = b.
Proof.
  intros q a b [A1 A2] [B1 B2].
  assert (H1 : (inject_Z a < inject_Z (b + 1))%Q) by (eapply Qle_lt_trans; eassumption).
  assert (H2 : (inject_Z b < inject_Z (a + 1))%Q) by (eapply Qle_lt_trans; eassumption).
  rewrite <- Zlt_Qlt in H1, H2. lia.
Qed.
Lemma whole_bounds : forall q z lo hi, whole q z -> (inject_Z lo <= q <= inject_Z hi)%Q -> (lo <= z <= hi)%Z.
Proof.
  intros q z lo hi [A1 A2] [B1 B2].
  assert (H1 : (inject_Z lo < inject_Z (z + 1))%Q) by (eapply Qle_lt_trans; eassumption).
  assert (H2 : (inject_Z z <= inject_Z hi)%Q) by (eapply Qle_trans; eassumption).
  rewrite <- Zlt_Qlt in H1. rewrite <- Zle_Qle in H2. lia.
Qed.
Lemma u32max_eq : u32max = 4294967295%Z. Proof. reflexivity. Qed.
Lemma wrap32_id : forall z, (0 <= z <= u32max)%Z -> wrap32 z = z.
Proof. intros z H. unfold wrap32. rewrite u32max_eq in H. apply Z.mod_small. change (2 ^ 32)%Z with 4294967296%Z. lia. Qed.
Lemma offset_range : forall e p, (0 <= p <= 1)%Q -> (inject_Z 0 <= inject_Z (ecost e) * p <= inject_Z (ecost e))%Q.
Proof.
  intros e p [P1 P2]. destruct (gk_cost _ _ _ _ HGr e) as [C1 _]. rewrite Zle_Qle in C1. change (inject_Z 0) with 0%Q in *.
  split; nra.
Qed.
Lemma trunc32_offset : forall e p, (0 <= p <= 1)%Q ->
  whole (inject_Z (ecost e) * p) (trunc32 (inject_Z (ecost e) * p)) /\ (0 <= trunc32 (inject_Z (ecost e) * p) <= ecost e)%Z.
Proof.
  intros e p Hp. pose proof (whole_bounds _ _ _ _ (whole_floor (inject_Z (ecost e) * p)) (offset_range e p Hp)) as B.
  destruct (gk_cost _ _ _ _ HGr e) as [C1 C2].
  unfold trunc32. rewrite wrap32_id by lia. split; [apply whole_floor|exact B].
Qed.

(** ** The largest offset *)
Lemma maxProgrStart_spec : forall l, cands_ok l -> largest_offset ecost l (maxProgrStart l).
Proof.
  intros l H. unfold Hops_model.maxProgrStart.
  set (stp := fun (m : Q) (c : pcand) => match fst c with
                       | None => m
                       | Some e =>
                           let s := (if Qltb 0 (snd c) then inject_Z (ecost e) * snd c else 0)%Q in
                           if Qltb m s then s else m
                       end).
  assert (G : forall l m0, cands_ok l -> (0 <= m0)%Q -> (m0 <= fold_left stp l m0)%Q /\
    (forall e p, In (Some e, p) l -> (inject_Z (ecost e) * p <= fold_left stp l m0)%Q) /\
    ((fold_left stp l m0 == m0)%Q \/ exists e p, In (Some e, p) l /\ (fold_left stp l m0 == inject_Z (ecost e) * p)%Q)).
  { clear l H. induction l as [|[oe p] l IH]; intros m0 H H0; cbn [fold_left].
    - split; [apply Qle_refl|]. split; [intros e p []|left; reflexivity].
    - assert (Hl : cands_ok l) by (intros e q I; apply (H e q); right; exact I).
      assert (S : (m0 <= stp m0 (oe, p))%Q /\ (forall e, oe = Some e -> (inject_Z (ecost e) * p <= stp m0 (oe, p))%Q) /\
        ((stp m0 (oe, p) == m0)%Q \/ exists e, oe = Some e /\ (stp m0 (oe, p) == inject_Z (ecost e) * p)%Q)).
      { unfold stp. cbn [fst snd]. destruct oe as [e|]; [|split; [apply Qle_refl|split; [discriminate|left; reflexivity]]].
        cbn zeta. destruct (offset_range e p (H e p (or_introl eq_refl))) as [R1 R2].
        destruct (Qltb 0 p) eqn:Pp.
        - destruct (Qltb m0 (inject_Z (ecost e) * p)) eqn:X.
          + apply Qltb_true in X. split; [apply Qlt_le_weak; exact X|]. split; [intros e' Y; inversion Y; subst; apply Qle_refl|].
            right. exists e. split; [reflexivity|reflexivity].
          + apply Qltb_false in X. split; [apply Qle_refl|]. split; [intros e' Y; inversion Y; subst; exact X|left; reflexivity].
        - apply Qltb_false in Pp. destruct (Qltb m0 0) eqn:X; [apply Qltb_true in X; exfalso; apply (Qlt_irrefl 0); exact (Qle_lt_trans _ _ _ H0 X)|].
          split; [apply Qle_refl|]. split; [|left; reflexivity]. intros e' Y. inversion Y; subst e'.
          destruct (H e p (or_introl eq_refl)) as [P1 _]. assert (Z : (p == 0)%Q) by (apply Qle_antisym; assumption). rewrite Z.
          setoid_replace (inject_Z (ecost e) * 0)%Q with 0%Q by ring. exact H0. }
      destruct S as (S1 & S2 & S3). destruct (IH _ Hl (Qle_trans _ _ _ H0 S1)) as (I1 & I2 & I3).
      split; [eapply Qle_trans; eassumption|]. split.
      + intros e q [Y|Y]; [inversion Y; subst; eapply Qle_trans; [apply S2; reflexivity|exact I1]|eapply I2; exact Y].
      + destruct I3 as [I3|(e & q & I & X)]; [|right; exists e, q; split; [right; exact I|exact X]].
        destruct S3 as [S3|(e & -> & X)]; [left; rewrite I3; exact S3|]. right. exists e, p. split; [left; reflexivity|]. rewrite I3. exact X. }
  destruct (G l 0%Q H (Qle_refl 0)) as (A & B & D). split; [exact A|]. split; [exact B|exact D].
Qed.
Lemma offset_u32 : forall l M, largest_offset ecost l M -> cands_ok l -> (0 <= M <= inject_Z u32max)%Q.
Proof.
  intros l M (A & B & D) H. split; [exact A|]. destruct D as [D|(e & p & I & D)]; rewrite D.
  - change 0%Q with (inject_Z 0). rewrite <- Zle_Qle. rewrite u32max_eq. lia.
  - destruct (offset_range e p (H _ _ I)) as [_ R]. eapply Qle_trans; [exact R|]. rewrite <- Zle_Qle. apply (gk_cost _ _ _ _ HGr).
Qed.

(** ** Walks *)
Lemma walk_nonneg : forall a b d es, walk a b d es -> (0 <= d)%Z.
Proof.
  intros a b d es W. induction W as [|e f t w c es S W IH]; [lia|].
  pose proof (gk_step _ _ _ _ HGr _ _ _ S). pose proof (gk_cost _ _ _ _ HGr e). lia.
Qed.
Lemma cheapest_self : forall e d, cheapest e e d -> d = 0%Z.
Proof.
  intros e d [(es & W) M]. pose proof (walk_nonneg _ _ _ _ W). pose proof (M _ _ (w_one _ e)). lia.
Qed.
Lemma cheapest_leave : forall a b d, a <> b -> cheapest a b d -> (ecost a <= d)%Z.
Proof.
  intros a b d N [(es & W) _]. inversion W as [|e f t w c es' S W']; subst; [contradiction|].
  pose proof (gk_step _ _ _ _ HGr _ _ _ S). pose proof (walk_nonneg _ _ _ _ W'). lia.
Qed.
Lemma cheapest_det : forall a b d d', cheapest a b d -> cheapest a b d' -> d = d'.
Proof. intros a b d d' [(es & W) M] [(es' & W') M']. pose proof (M _ _ W'). pose proof (M' _ _ W). lia. Qed.

(** ** The partial first and last edge *)
Lemma partial_spec : forall ef et pf pt d, cheapest ef et d -> (0 <= pf <= 1)%Q -> (0 <= pt <= 1)%Q ->
  (forall c, hop_cost ef et pf pt c -> (c <= u32max)%Z) -> (d <= u32max)%Z ->
  forall c, partial ef et pf pt d = Some c <-> hop_cost ef et pf pt c.
Proof.
  intros ef et pf pt d Ch Hf Ht Ub Dd c.
  destruct (trunc32_offset ef pf Hf) as [Wf Bf]. destruct (trunc32_offset et pt Ht) as [Wt Bt].
  set (zf := trunc32 (inject_Z (ecost ef) * pf)) in *. set (zt := trunc32 (inject_Z (ecost et) * pt)) in *.
  assert (Uniq : forall c', hop_cost ef et pf pt c' -> c' = (d - zf + zt)%Z).
  { intros c' (d' & zf' & zt' & Ch' & Wf' & Wt' & _ & ->). rewrite (cheapest_det _ _ _ _ Ch' Ch), (whole_uniq _ _ _ Wf' Wf), (whole_uniq _ _ _ Wt' Wt). reflexivity. }
  assert (Ex : (ef = et -> (pf <= pt)%Q) -> hop_cost ef et pf pt (d - zf + zt)%Z).
  { intros X. exists d, zf, zt. auto. }
  unfold Hops_model.partial. fold zf. fold zt. destruct (Nat.eqb_spec ef et) as [E|N].
  - destruct (Qle_bool pf pt) eqn:Q.
    + apply Qle_bool_iff in Q. pose proof (Ub _ (Ex (fun _ => Q))) as U. subst et.
      assert (Z0 : d = 0%Z) by (eapply cheapest_self; exact Ch).
      assert (Le : (zf <= zt)%Z).
      { destruct Wf as [Wf1 _]. destruct Wt as [_ Wt2].
        assert (X : (inject_Z zf < inject_Z (zt + 1))%Q).
        { eapply Qle_lt_trans; [|exact Wt2]. eapply Qle_trans; [exact Wf1|]. destruct (gk_cost _ _ _ _ HGr ef) as [C1 _]. rewrite Zle_Qle in C1. change (inject_Z 0) with 0%Q in C1. nra. }
        rewrite <- Zlt_Qlt in X. lia. }
      rewrite (wrap32_id (zt - zf)) by (pose proof (gk_cost _ _ _ _ HGr ef); lia). rewrite wrap32_id by lia.
      split; [intros X; inversion X; subst c; replace (d + (zt - zf))%Z with (d - zf + zt)%Z by lia; apply Ex; auto|].
      intros X. rewrite (Uniq _ X). f_equal. lia.
    + split; [discriminate|]. intros (d' & zf' & zt' & _ & _ & _ & X & _). specialize (X E). apply Qle_bool_iff in X. congruence.
  - pose proof (cheapest_leave _ _ _ N Ch) as Lv. specialize (Ex (fun X => match N X with end)). pose proof (Ub _ Ex) as U.
    assert (C1 : (if Qltb 0 pf then wrap32 (d - zf) else d) = (d - zf)%Z).
    { destruct (Qltb 0 pf) eqn:Q; [apply wrap32_id; lia|]. apply Qltb_false in Q.
      assert (Z : (pf == 0)%Q) by (apply Qle_antisym; tauto).
      assert (zf = 0)%Z; [|lia]. eapply whole_uniq; [exact Wf|]. unfold whole. rewrite Z.
      setoid_replace (inject_Z (ecost ef) * 0)%Q with 0%Q by ring. split; [apply Qle_refl|reflexivity]. }
    assert (C2 : (if Qltb 0 pt then wrap32 (d - zf + zt) else (d - zf)%Z) = (d - zf + zt)%Z).
    { destruct (Qltb 0 pt) eqn:Q; [apply wrap32_id; lia|]. apply Qltb_false in Q.
      assert (Z : (pt == 0)%Q) by (apply Qle_antisym; tauto).
      assert (zt = 0)%Z; [|lia]. eapply whole_uniq; [exact Wt|]. unfold whole. rewrite Z.
      setoid_replace (inject_Z (ecost et) * 0)%Q with 0%Q by ring. split; [apply Qle_refl|reflexivity]. }
    rewrite C1, C2. split; [intros X; inversion X; subst; exact Ex|intros X; f_equal; symmetry; apply Uniq; exact X].
Qed.

(** ** Rows *)
Definition hvalid (hc : option cache) : Prop :=
  match hc with None => True | Some c => forall a b v, get c a b = (v, true) -> cheapest a b v end.
Definition cell_ok (lim : Z) (a b : edge) (c : Z) : Prop :=
  ((c < lim)%Z -> cheapest a b c) /\ ((lim <= c)%Z -> forall d es, walk a b d es -> (lim <= d)%Z).

Lemma get_cset : forall c x y v a b, get (cset c x y v) a b =
  if (x =? a) && (y =? b) then (if (v <? 0)%Z then (wrap32 (- v - 1), true) else (wrap32 v, false)) else get c a b.
Proof. intros. unfold get, cset. cbn [cget]. destruct ((x =? a) && (y =? b)); reflexivity. Qed.

Lemma store_valid : forall lim a rem hc, (0 <= lim <= u32max)%Z -> hvalid hc -> hvalid (store search lim a rem hc).
Proof.
  intros lim a rem hc L V. destruct hc as [c|]; [|exact I]. cbn [store].
  set (f := fun (c0 : cache) (eTo : edge) => match snd (search a rem lim eTo) with
                                            | [] => setMin c0 a eTo lim
                                            | _ => setEx c0 a eTo (fst (search a rem lim eTo))
                                            end).
  assert (G : forall l, (forall x, In x l -> In x rem) -> forall c, hvalid (Some c) -> hvalid (Some (fold_left f l c))).
  { induction l as [|x l IH]; intros Sub c0 V0; [exact V0|]. cbn [fold_left]. apply IH; [intros y Y; apply Sub; right; exact Y|].
    intros u w v. unfold f, setMin, setEx.
    pose proof (HS a rem lim x (Sub x (or_introl eq_refl))) as Sx. destruct (search a rem lim x) as [cc p]. cbn [fst snd].
    destruct p as [|e p]; rewrite get_cset; destruct (Nat.eqb_spec a u) as [->|]; cbn [andb]; try (apply V0);
      destruct (Nat.eqb_spec x w) as [->|]; cbn [andb]; try (apply V0).
    - destruct (Z.ltb_spec lim 0); [lia|]. discriminate.
    - destruct Sx as [(_ & Ch & Lt & W)|(X & _)]; [|discriminate]. pose proof (walk_nonneg _ _ _ _ W) as Nn.
      destruct (Z.ltb_spec (- (cc + 1)) 0); [|lia]. replace (- - (cc + 1) - 1)%Z with cc by lia. rewrite wrap32_id by lia.
      intros X. inversion X; subst. exact Ch. }
  apply G; auto.
Qed.

Lemma shortcut_ok : forall hc lim a b v, hvalid hc -> (hc = None \/ lim <> 1%Z) -> (0 <= lim)%Z ->
  shortcut hc lim a b = Some v -> cell_ok lim a b v.
Proof.
  intros hc lim a b v V L L0. unfold Hops_model.shortcut.
  destruct (cachedVal hc a b) as [cv ex] eqn:EC.
  destruct (Nat.eqb_spec (compF a) (compT b)) as [Ec|Nc]; cbn [negb].
  2:{ intros X; inversion X; subst. split; [intros H; lia|]. intros _ d es W. exfalso. apply Nc. exact (gk_comp _ _ _ _ HGr _ _ _ _ W). }
  destruct (Z.leb_spec lim (if ex then 1 else 0)) as [Le|Gt].
  - intros X; inversion X; subst. split; [intros H; lia|]. intros _ d es W. pose proof (walk_nonneg _ _ _ _ W).
    destruct ex; [|lia]. destruct L as [->|L]; [discriminate EC|]. lia.
  - destruct (negb needDist && ex) eqn:Q; [|discriminate]. intros X; inversion X; subst.
    apply andb_true_iff in Q. destruct Q as [_ ->]. destruct hc as [c|]; [|discriminate EC]. cbn [cachedVal] in EC.
    specialize (V _ _ _ EC). split; [intros _; exact V|]. intros Le d es W. destruct V as [_ M]. specialize (M _ _ W). lia.
Qed.

Lemma row_ok : forall hc lim eTos a b, hvalid hc -> (hc = None \/ lim <> 1%Z) -> (0 <= lim)%Z -> In b eTos ->
  exists c, find (fun c => ceTo c =? b) (fst (row hc lim eTos a)) = Some c /\ cell_ok lim a b (ceC c).
Proof.
  intros hc lim eTos a b V L L0 I. unfold Hops_model.row. cbn [fst].
  set (rem := filter (fun eTo => match shortcut hc lim a eTo with None => true | Some _ => false end) eTos).
  set (g := fun eTo => match shortcut hc lim a eTo with
                   | Some v => mkCell eTo v (inject_Z u32max)
                   | None => let '(c, p) := search a rem lim eTo in
                             mkCell eTo c (match p with [] => inject_Z u32max | _ => pathLen len p end)
                   end).
  assert (Gt : forall x, ceTo (g x) = x).
  { intros x. unfold g. destruct (shortcut hc lim a x); [reflexivity|]. destruct (search a rem lim x). reflexivity. }
  assert (Gc : In b rem \/ shortcut hc lim a b <> None).
  { destruct (shortcut hc lim a b) eqn:X; [right; discriminate|]. left. apply filter_In. split; [exact I|]. rewrite X. reflexivity. }
  exists (g b). split.
  - clear Gc. revert I. generalize eTos. induction eTos0 as [|x l IH]; intros I; [destruct I|]. cbn [map find]. rewrite Gt.
    destruct (Nat.eqb_spec x b) as [->|N]; [reflexivity|]. apply IH. destruct I as [->|I]; [contradiction|exact I].
  - unfold g. destruct (shortcut hc lim a b) as [v|] eqn:X.
    + cbn [ceC]. eapply shortcut_ok; eassumption.
    + destruct Gc as [Gc|Gc]; [|congruence]. pose proof (HS a rem lim b Gc) as Sb. destruct (search a rem lim b) as [c p]. cbn [ceC].
      destruct Sb as [(_ & Ch & Lt & _)|(_ & Le & M)]; split; intros H; auto; try lia.
Qed.
Lemma row_hc : forall hc lim eTos a, hvalid hc -> (0 <= lim <= u32max)%Z -> hvalid (snd (row hc lim eTos a)).
Proof. intros. unfold Hops_model.row. cbn [snd]. apply store_valid; assumption. Qed.
Lemma row_none : forall hc lim eTos a, snd (row hc lim eTos a) = None <-> hc = None.
Proof. intros hc lim eTos a. unfold Hops_model.row. cbn [snd]. destruct hc; cbn [store]; split; congruence. Qed.

Lemma rows_ok : forall eFrs hc lim eTos a b, hvalid hc -> (hc = None \/ lim <> 1%Z) -> (0 <= lim <= u32max)%Z -> In a eFrs -> In b eTos ->
  cell_ok lim a b (fst (lookup (fst (rows hc lim eFrs eTos)) a b)).
Proof.
  induction eFrs as [|x l IH]; intros hc lim eTos a b V L L0 Ia Ib; [destruct Ia|]. cbn [Hops_model.rows].
  destruct (row hc lim eTos x) as [r hc1] eqn:ER. destruct (rows hc1 lim l eTos) as [rs hc2] eqn:ES. cbn [fst].
  unfold lookup. cbn [find fst]. destruct (Nat.eqb_spec x a) as [->|N].
  - destruct (row_ok hc lim eTos a b V L (proj1 L0) Ib) as (c & F & K). rewrite ER in F. cbn [fst] in F. rewrite F. exact K.
  - destruct Ia as [->|Ia]; [contradiction|].
    assert (V1 : hvalid hc1) by (pose proof (row_hc hc lim eTos x V L0) as Q; rewrite ER in Q; exact Q).
    assert (L1 : hc1 = None \/ lim <> 1%Z).
    { destruct L as [L|L]; [left|right; exact L]. pose proof (row_none hc lim eTos x) as Q. rewrite ER in Q. apply Q. exact L. }
    specialize (IH hc1 lim eTos a b V1 L1 L0 Ia Ib). rewrite ES in IH. exact IH.
Qed.
Lemma rows_hc : forall eFrs hc lim eTos, hvalid hc -> (0 <= lim <= u32max)%Z -> hvalid (snd (rows hc lim eFrs eTos)).
Proof.
  induction eFrs as [|x l IH]; intros hc lim eTos V L0; [exact V|]. cbn [Hops_model.rows].
  destruct (row hc lim eTos x) as [r hc1] eqn:ER.
  assert (V1 : hvalid hc1) by (pose proof (row_hc hc lim eTos x V L0) as Q; rewrite ER in Q; exact Q).
  specialize (IH hc1 lim eTos V1 L0). destruct (rows hc1 lim l eTos) as [rs hc2]. exact IH.
Qed.

(** ** The limit *)
Lemma trunc32_M : forall M, (0 <= M <= inject_Z u32max)%Q -> whole M (trunc32 M) /\ (0 <= trunc32 M <= u32max)%Z.
Proof.
  intros M H. pose proof (whole_bounds _ _ 0 u32max (whole_floor M) H) as B. unfold trunc32. rewrite wrap32_id by lia.
  split; [apply whole_floor|exact B].
Qed.
Lemma limit_spec : forall M maxCost, (0 <= M <= inject_Z u32max)%Q -> (0 <= maxCost <= u32max)%Z ->
  let lim := addNonOverflow maxCost (trunc32 M) in
  (maxCost <= lim <= u32max)%Z /\
  forall c, ((inject_Z c < inject_Z lim - M)%Q <-> (c < maxCost)%Z /\ (inject_Z c < inject_Z u32max - M)%Q).
Proof.
  intros M maxCost HM Hm. destruct (trunc32_M M HM) as [[W1 W2] B]. cbn zeta.
  rewrite addNonOverflow_sat by assumption. set (z := trunc32 M) in *.
  split; [lia|]. intros c.
  rewrite inject_Z_plus in W2. change (inject_Z 1) with 1%Q in W2.
  destruct (Z_le_gt_dec (maxCost + z) u32max) as [Le|Gt].
  - rewrite Z.min_l by exact Le. rewrite inject_Z_plus. split.
    + intros H. assert (X : (inject_Z c < inject_Z maxCost)%Q) by lra. split; [rewrite Zlt_Qlt; exact X|].
      rewrite Zle_Qle, inject_Z_plus in Le. lra.
    + intros [H _]. assert (X : (c + 1 <= maxCost)%Z) by lia. rewrite Zle_Qle, inject_Z_plus in X. change (inject_Z 1) with 1%Q in X. lra.
  - rewrite Z.min_r by lia. split; [|intros [_ H]; exact H]. intros H. split; [|exact H].
    assert (X : (u32max + 1 <= maxCost + z)%Z) by lia. rewrite Zle_Qle, !inject_Z_plus in X. change (inject_Z 1) with 1%Q in X.
    rewrite Zlt_Qlt. lra.
Qed.

(** ** Entries *)
Lemma In_indexed : forall A (l : list A) i x, In (i, x) (indexed l) <-> nth_error l i = Some x.
Proof.
  intros A l i x. unfold indexed.
  assert (G : forall (l : list A) k, In (i, x) (combine (seq k (List.length l)) l) <-> k <= i /\ nth_error l (i - k) = Some x).
  { induction l0 as [|y l0 IH]; intros k; cbn [List.length seq combine].
    - split; [intros []|]. intros [_ H]. destruct (i - k); discriminate.
    - split.
      + intros [X|X]; [inversion X; subst; split; [lia|rewrite Nat.sub_diag; reflexivity]|]. apply IH in X. destruct X as [L X].
        split; [lia|]. replace (i - k) with (Datatypes.S (i - Datatypes.S k)) by lia. exact X.
      + intros [L X]. destruct (i - k) as [|j] eqn:Q.
        * left. cbn in X. inversion X; subst. f_equal. lia.
        * right. apply IH. split; [lia|]. replace (i - Datatypes.S k) with j by lia. exact X. }
  rewrite G, Nat.sub_0_r. split; [intros [_ X]; exact X|intros X; split; [lia|exact X]].
Qed.
Lemma In_entries : forall m lim M froms tos a,
  In a (entries ecost len needDist m lim M froms tos) <->
  exists i j f t, nth_error froms i = Some f /\ nth_error tos j = Some t /\ In a (entry ecost len needDist m lim M i j f t).
Proof.
  intros. unfold entries. rewrite in_concat. split.
  - intros (l & Il & Ia). apply in_map_iff in Il. destruct Il as ([i f] & <- & If). apply In_indexed in If.
    rewrite in_concat in Ia. destruct Ia as (l & Il & Ia). apply in_map_iff in Il. destruct Il as ([j t] & <- & It). apply In_indexed in It.
    exists i, j, f, t. auto.
  - intros (i & j & f & t & If & It & Ia).
    exists (concat (map (fun t => entry ecost len needDist m lim M i (fst t) f (snd t)) (indexed tos))). split.
    + apply in_map_iff. exists (i, f). split; [reflexivity|]. apply In_indexed. exact If.
    + rewrite in_concat. exists (entry ecost len needDist m lim M i j f t). split; [|exact Ia].
      apply in_map_iff. exists (j, t). split; [reflexivity|]. apply In_indexed. exact It.
Qed.
Lemma In_edgesOf : forall l e, In e (edgesOf l) <-> exists p, In (Some e, p) l.
Proof.
  intros l e. unfold Hops_model.edgesOf. rewrite (proj2 (HE _)). rewrite in_concat. split.
  - intros (x & Ix & Ie). apply in_map_iff in Ix. destruct Ix as ([[e'|] p] & <- & I); cbn in Ie; [|destruct Ie].
    destruct Ie as [->|[]]. exists p. exact I.
  - intros (p & I). exists [e]. split; [|left; reflexivity]. apply in_map_iff. exists (Some e, p). split; [reflexivity|exact I].
Qed.

Lemma hop_cost_facts : forall ef et pf pt c M froms, largest_offset ecost froms M -> In (Some ef, pf) froms ->
  (0 <= pf <= 1)%Q -> (0 <= pt <= 1)%Q -> hop_cost ef et pf pt c ->
  exists d, cheapest ef et d /\ (0 <= c)%Z /\ forall lim, (inject_Z c < inject_Z lim - M)%Q -> (d < lim)%Z.
Proof.
  intros ef et pf pt c M froms (A & B & _) I Hf Ht (d & zf & zt & Ch & Wf & Wt & Q & ->).
  exists d. split; [exact Ch|].
  pose proof (whole_bounds _ _ 0 (ecost ef) Wf (offset_range ef pf Hf)) as Bf.
  pose proof (whole_bounds _ _ 0 (ecost et) Wt (offset_range et pt Ht)) as Bt. split.
  - destruct (Nat.eq_dec ef et) as [E|N].
    + specialize (Q E). subst et. pose proof (cheapest_self _ _ Ch) as ->.
      assert (X : (inject_Z zf < inject_Z (zt + 1))%Q).
      { destruct Wf as [Wf1 _]. destruct Wt as [_ Wt2].
        eapply Qle_lt_trans; [|exact Wt2]. eapply Qle_trans; [exact Wf1|]. destruct (gk_cost _ _ _ _ HGr ef) as [C1 _].
        rewrite Zle_Qle in C1. change (inject_Z 0) with 0%Q in C1. nra. }
      rewrite <- Zlt_Qlt in X. lia.
    + pose proof (cheapest_leave _ _ _ N Ch). lia.
  - intros lim H. specialize (B _ _ I). destruct Wf as [Wf1 _]. rewrite Zlt_Qlt.
    assert (X : (0 <= zt)%Z) by lia. rewrite Zle_Qle in X. change (inject_Z 0) with 0%Q in X.
    unfold Z.sub in H; rewrite !inject_Z_plus, inject_Z_opp in H. lra.
Qed.

Definition valid_cost (froms : list pcand) (M : Q) (maxCost : Z) (ef et : edge) (pf pt : Q) (c : Z) : Prop :=
  hop_cost ef et pf pt c /\ (c < maxCost)%Z /\ (inject_Z c < inject_Z u32max - M)%Q.

Lemma entry_ok : forall m froms tos maxCost i j f t a, cands_ok froms -> cands_ok tos -> fits step ecost froms tos ->
  (0 <= maxCost <= u32max)%Z ->
  let M := maxProgrStart froms in
  let lim := addNonOverflow maxCost (trunc32 M) in
  nth_error froms i = Some f -> nth_error tos j = Some t ->
  (forall ef et, fst f = Some ef -> fst t = Some et -> cell_ok lim ef et (fst (lookup m ef et))) ->
  (In a (entry ecost len needDist m lim M i j f t) ->
    aFr a = i /\ aTo a = j /\ exists ef et, fst f = Some ef /\ fst t = Some et /\ valid_cost froms M maxCost ef et (snd f) (snd t) (aC a)) /\
  forall ef et c, fst f = Some ef -> fst t = Some et -> valid_cost froms M maxCost ef et (snd f) (snd t) c ->
    exists D, entry ecost len needDist m lim M i j f t = [mkAns i j c D].
Proof.
  intros m froms tos maxCost i j f t a Hf Ht F Hm M lim If It K.
  pose proof (maxProgrStart_spec froms Hf) as LO. pose proof (offset_u32 froms M LO Hf) as MB.
  destruct (limit_spec M maxCost MB Hm) as [LB LS]. fold lim in LB, LS.
  apply nth_error_In in If, It. destruct f as [[ef|] pf], t as [[et|] pt]; unfold entry; cbn [fst snd];
    try (split; [intros []|intros; discriminate]).
  specialize (K ef et eq_refl eq_refl). destruct (lookup m ef et) as [c0 d0]. cbn [fst] in K.
  destruct (Z.leb_spec lim c0) as [Le|Lt].
  - split; [intros []|]. intros ef' et' c E1 E2 (HC & C1 & C2). cbn in E1, E2. inversion E1; inversion E2; subst ef' et'.
    cbn [snd] in HC. destruct (hop_cost_facts _ _ _ _ _ _ _ LO If (Hf _ _ If) (Ht _ _ It) HC) as (d & [(es & W) _] & _ & X).
    specialize (X lim (proj2 (LS c) (conj C1 C2))). destruct K as [_ K]. specialize (K Le _ _ W). lia.
  - destruct K as [K _]. specialize (K Lt).
    assert (Ub : forall c, hop_cost ef et pf pt c -> (c <= u32max)%Z) by (intros c HC; apply (F ef pf et pt c0 c If It K); [lia|exact HC]).
    assert (PS := partial_spec ef et pf pt c0 K (Hf _ _ If) (Ht _ _ It) Ub ltac:(lia)).
    destruct (partial ef et pf pt c0) as [c1|] eqn:P.
    + assert (HC := proj1 (PS c1) eq_refl).
      destruct (Qltb (inject_Z c1) (inject_Z lim - M)) eqn:Q.
      * apply Qltb_true in Q. apply LS in Q. split.
        -- intros [<-|[]]. cbn [aFr aTo aC]. split; [reflexivity|]. split; [reflexivity|]. exists ef, et.
           split; [reflexivity|]. split; [reflexivity|]. split; [exact HC|exact Q].
        -- intros ef' et' c E1 E2 (HC' & _). inversion E1; inversion E2; subst ef' et'. apply PS in HC'. inversion HC'; subst. eexists. reflexivity.
      * apply Qltb_false in Q. split; [intros []|]. intros ef' et' c E1 E2 (HC' & C1 & C2). inversion E1; inversion E2; subst ef' et'.
        apply PS in HC'. inversion HC'; subst. pose proof (proj2 (LS c) (conj C1 C2)). lra.
    + split; [intros []|]. intros ef' et' c E1 E2 (HC' & _). inversion E1; inversion E2; subst ef' et'. apply PS in HC'. discriminate.
Qed.

Lemma hops_eq : forall hc froms tos maxCost, let M := maxProgrStart froms in let lim := addNonOverflow maxCost (trunc32 M) in
  fst (hops hc froms tos maxCost) = entries ecost len needDist (fst (rows hc lim (edgesOf froms) (edgesOf tos))) lim M froms tos /\
  snd (hops hc froms tos maxCost) = snd (rows hc lim (edgesOf froms) (edgesOf tos)).
Proof.
  intros. unfold Hops_model.hops. fold M. fold lim. destruct (rows hc lim (edgesOf froms) (edgesOf tos)). split; reflexivity.
Qed.
Lemma lim_bounds : forall froms maxCost, cands_ok froms -> (0 <= maxCost <= u32max)%Z ->
  (maxCost <= addNonOverflow maxCost (trunc32 (maxProgrStart froms)) <= u32max)%Z.
Proof. intros froms maxCost Hf Hm. apply limit_spec; [|exact Hm]. eapply offset_u32; [apply maxProgrStart_spec; exact Hf|exact Hf]. Qed.

Lemma hops_hc : forall hc froms tos maxCost, hvalid hc -> cands_ok froms -> (0 <= maxCost <= u32max)%Z ->
  hvalid (snd (hops hc froms tos maxCost)).
Proof.
  intros hc froms tos maxCost V Hf Hm. destruct (hops_eq hc froms tos maxCost) as [_ ->].
  pose proof (lim_bounds froms maxCost Hf Hm). apply rows_hc; [exact V|lia].
Qed.

Theorem hops_spec : forall hc froms tos maxCost M, hvalid hc -> cands_ok froms -> cands_ok tos -> fits step ecost froms tos ->
  (0 <= maxCost <= u32max)%Z -> (hc = None \/ (2 <= maxCost)%Z) -> largest_offset ecost froms M ->
  forall i j c, (exists a, In a (fst (hops hc froms tos maxCost)) /\ aFr a = i /\ aTo a = j /\ aC a = c) <->
    exists ef et pf pt, nth_error froms i = Some (Some ef, pf) /\ nth_error tos j = Some (Some et, pt) /\
      hop_cost ef et pf pt c /\ (c < maxCost)%Z /\ (inject_Z c < inject_Z u32max - M)%Q.
Proof.
  intros hc froms tos maxCost M V Hf Ht F Hm Hc LO i j c.
  assert (EM : (M == maxProgrStart froms)%Q).
  { pose proof (maxProgrStart_spec froms Hf) as (A & B & D). destruct LO as (A' & B' & D'). apply Qle_antisym.
    - destruct D' as [->|(e & p & I & ->)]; [exact A|apply B; exact I].
    - destruct D as [->|(e & p & I & ->)]; [exact A'|apply B'; exact I]. }
  destruct (hops_eq hc froms tos maxCost) as [-> _].
  pose proof (lim_bounds froms maxCost Hf Hm) as LB. set (M1 := maxProgrStart froms) in *. set (lim := addNonOverflow maxCost (trunc32 M1)) in *.
  assert (K : forall i j f t, nth_error froms i = Some f -> nth_error tos j = Some t -> forall ef et, fst f = Some ef -> fst t = Some et ->
     cell_ok lim ef et (fst (lookup (fst (rows hc lim (edgesOf froms) (edgesOf tos))) ef et))).
  { intros i0 j0 [oe pf] [oe' pt] If It ef et E1 E2. cbn in E1, E2. subst. apply nth_error_In in If, It. apply rows_ok.
    - exact V.
    - destruct Hc as [Hc|Hc]; [left; exact Hc|right; lia].
    - lia.
    - apply In_edgesOf. eexists. exact If.
    - apply In_edgesOf. eexists. exact It. }
  split.
  - intros (a & Ia & Ei & Ej & Ec). apply In_entries in Ia. destruct Ia as (i0 & j0 & f & t & If & It & Ia).
    destruct (entry_ok _ froms tos maxCost i0 j0 f t a Hf Ht F Hm If It (K _ _ _ _ If It)) as [S _].
    destruct (S Ia) as (E1 & E2 & ef & et & F1 & F2 & HC & C1 & C2). destruct f as [of_ pf], t as [ot pt]. cbn in F1, F2, HC. subst.
    exists ef, et, pf, pt. rewrite EM. auto.
  - intros (ef & et & pf & pt & If & It & HC & C1 & C2). rewrite EM in C2.
    destruct (entry_ok (fst (rows hc lim (edgesOf froms) (edgesOf tos))) froms tos maxCost i j _ _ (mkAns 0 0 0 0) Hf Ht F Hm If It (K _ _ _ _ If It)) as [_ S].
    destruct (S ef et c eq_refl eq_refl (conj HC (conj C1 C2))) as (D & E).
    exists (mkAns i j c D). split; [|auto]. apply In_entries. exists i, j, (Some ef, pf), (Some et, pt).
    split; [exact If|]. split; [exact It|]. fold M1 in E. fold lim in E. rewrite E. left. reflexivity.
Qed.

(** ** Transparency of the cache *)
Lemma shortcut_dist : forall hc lim a b, needDist = true -> (2 <= lim)%Z -> shortcut hc lim a b = shortcut None lim a b.
Proof.
  intros hc lim a b N L. unfold Hops_model.shortcut. cbn [cachedVal]. rewrite N. cbn [negb andb].
  destruct (cachedVal hc a b) as [v ex]. destruct (compF a =? compT b); cbn [negb]; [|reflexivity].
  destruct (Z.leb_spec lim (if ex then 1 else 0)); [destruct ex; lia|]. destruct (Z.leb_spec lim (if false then 1 else 0)); [lia|reflexivity].
Qed.
Lemma row_dist : forall hc lim eTos a, needDist = true -> (2 <= lim)%Z -> fst (row hc lim eTos a) = fst (row None lim eTos a).
Proof.
  intros hc lim eTos a N L. unfold Hops_model.row. cbn [fst].
  assert (E : filter (fun eTo => match shortcut hc lim a eTo with None => true | Some _ => false end) eTos =
              filter (fun eTo => match shortcut None lim a eTo with None => true | Some _ => false end) eTos).
  { apply filter_ext. intros x. rewrite (shortcut_dist hc lim a x N L). reflexivity. }
  rewrite E. apply map_ext. intros x. rewrite (shortcut_dist hc lim a x N L). reflexivity.
Qed.
Lemma rows_none : forall l lim eTos, snd (rows None lim l eTos) = None.
Proof.
  induction l as [|x l IH]; intros lim eTos; [reflexivity|]. cbn [Hops_model.rows].
  destruct (row None lim eTos x) as [r hc1] eqn:ER. assert (hc1 = None) as -> by (pose proof (row_none None lim eTos x) as Q; rewrite ER in Q; apply Q; reflexivity).
  specialize (IH lim eTos). destruct (rows None lim l eTos). exact IH.
Qed.
Lemma rows_dist : forall l hc lim eTos, needDist = true -> (2 <= lim)%Z -> fst (rows hc lim l eTos) = fst (rows None lim l eTos).
Proof.
  induction l as [|x l IH]; intros hc lim eTos N L; [reflexivity|]. cbn [Hops_model.rows].
  pose proof (row_dist hc lim eTos x N L) as R.
  destruct (row None lim eTos x) as [r0 hc0] eqn:E0. assert (hc0 = None) as -> by (pose proof (row_none None lim eTos x) as Q; rewrite E0 in Q; apply Q; reflexivity).
  destruct (row hc lim eTos x) as [r hc1]. cbn [fst] in R. subst r0. specialize (IH hc1 lim eTos N L).
  destruct (rows hc1 lim l eTos), (rows None lim l eTos). cbn [fst] in *. subst. reflexivity.
Qed.

Lemma entry_transparent : forall m1 m2 lim M i j f t,
  (forall ef et, fst f = Some ef -> fst t = Some et ->
     cell_ok lim ef et (fst (lookup m1 ef et)) /\ cell_ok lim ef et (fst (lookup m2 ef et)) /\
     (needDist = true -> lookup m1 ef et = lookup m2 ef et)) ->
  entry ecost len needDist m1 lim M i j f t = entry ecost len needDist m2 lim M i j f t.
Proof.
  intros m1 m2 lim M i j f t H. unfold entry. destruct (fst f) as [ef|], (fst t) as [et|]; try reflexivity.
  destruct (H ef et eq_refl eq_refl) as ([K1 K1'] & [K2 K2'] & N). destruct (lookup m1 ef et) as [c1 d1], (lookup m2 ef et) as [c2 d2]. cbn [fst] in *.
  destruct (Z.leb_spec lim c1) as [L1|L1], (Z.leb_spec lim c2) as [L2|L2]; [reflexivity| | |].
  - destruct (K2 L2) as [(es & W) _]. specialize (K1' L1 _ _ W). lia.
  - destruct (K1 L1) as [(es & W) _]. specialize (K2' L2 _ _ W). lia.
  - rewrite <- (cheapest_det _ _ _ _ (K1 L1) (K2 L2)). destruct needDist; [|reflexivity].
    specialize (N eq_refl). inversion N; subst. reflexivity.
Qed.

Theorem hops_transparent : forall hc froms tos maxCost, hvalid hc -> cands_ok froms -> (2 <= maxCost <= u32max)%Z ->
  fst (hops hc froms tos maxCost) = fst (hops None froms tos maxCost).
Proof.
  intros hc froms tos maxCost V Hf Hm. destruct (hops_eq hc froms tos maxCost) as [-> _]. destruct (hops_eq None froms tos maxCost) as [-> _].
  pose proof (lim_bounds froms maxCost Hf ltac:(lia)) as LB. set (lim := addNonOverflow _ _) in *.
  unfold entries. f_equal. apply map_ext_in. intros [i f] If. f_equal. apply map_ext_in. intros [j t] It. cbn [fst snd].
  apply In_indexed in If, It. apply nth_error_In in If, It. destruct f as [of_ pf], t as [ot pt].
  apply entry_transparent. cbn [fst]. intros ef et -> ->.
  assert (Ia : In ef (edgesOf froms)) by (apply In_edgesOf; eexists; exact If).
  assert (Ib : In et (edgesOf tos)) by (apply In_edgesOf; eexists; exact It).
  split; [apply rows_ok; auto; [right; lia|lia]|]. split; [apply rows_ok; auto; [exact I|lia]|].
  intros N. rewrite (rows_dist _ hc lim _ N ltac:(lia)). reflexivity.
Qed.

Lemma hops_none : forall froms tos maxCost, snd (hops None froms tos maxCost) = None.
Proof. intros. destruct (hops_eq None froms tos maxCost) as [_ ->]. apply rows_none. Qed.

Theorem hopsRun_transparent : forall calls,
  Forall (fun x => cands_ok (hcF x) /\ (2 <= hcMax x <= u32max)%Z) calls ->
  forall hc, hvalid hc ->
  hopsRun enum ecost len compF compT search needDist hc calls = hopsRun enum ecost len compF compT search needDist None calls.
Proof.
  induction 1 as [|x l [Hf Hm] _ IH]; intros hc V; [reflexivity|]. cbn [hopsRun].
  pose proof (hops_transparent hc (hcF x) (hcT x) (hcMax x) V Hf Hm) as T.
  pose proof (hops_hc hc (hcF x) (hcT x) (hcMax x) V Hf ltac:(lia)) as V1.
  pose proof (hops_none (hcF x) (hcT x) (hcMax x)) as N.
  destruct (hops hc (hcF x) (hcT x) (hcMax x)) as [r hc1], (hops None (hcF x) (hcT x) (hcMax x)) as [r0 hc0]. cbn [fst snd] in *. subst.
  f_equal. apply IH. exact V1.
Qed.

(** ** Distances *)
Lemma rows_path : forall l lim eTos a b, In a l -> In b eTos -> (0 <= lim)%Z ->
  (fst (lookup (fst (rows None lim l eTos)) a b) < lim)%Z ->
  exists p, p <> [] /\ walk a b (fst (lookup (fst (rows None lim l eTos)) a b)) (rev p) /\
    snd (lookup (fst (rows None lim l eTos)) a b) = pathLen len p.
Proof.
  induction l as [|x l IH]; intros lim eTos a b Ia Ib L0; [destruct Ia|]. cbn [Hops_model.rows].
  destruct (row None lim eTos x) as [r hc1] eqn:ER. assert (hc1 = None) as -> by (pose proof (row_none None lim eTos x) as Q; rewrite ER in Q; apply Q; reflexivity).
  specialize (IH lim eTos a b). destruct (rows None lim l eTos) as [rs hc2]. cbn [fst] in *. unfold lookup in *. cbn [find fst].
  destruct (Nat.eqb_spec x a) as [->|N]; [|apply IH; auto; destruct Ia as [->|Ia]; [contradiction|exact Ia]].
  clear IH. unfold Hops_model.row in ER. apply (f_equal fst) in ER. cbn [fst] in ER. subst r.
  set (rem := filter (fun eTo => match shortcut None lim a eTo with None => true | Some _ => false end) eTos).
  set (g := fun eTo => match shortcut None lim a eTo with
                   | Some v => mkCell eTo v (inject_Z u32max)
                   | None => let '(c, p) := search a rem lim eTo in
                             mkCell eTo c (match p with [] => inject_Z u32max | _ => pathLen len p end)
                   end).
  assert (Gt : forall x, ceTo (g x) = x).
  { intros x. unfold g. destruct (shortcut None lim a x); [reflexivity|]. destruct (search a rem lim x). reflexivity. }
  assert (Fd : find (fun c => ceTo c =? b) (map g eTos) = Some (g b)).
  { generalize Ib. generalize eTos at 1 2. induction eTos0 as [|y m IH]; intros J; [destruct J|]. cbn [map find]. rewrite Gt.
    destruct (Nat.eqb_spec y b) as [->|N]; [reflexivity|]. apply IH. destruct J as [->|J]; [contradiction|exact J]. }
  rewrite Fd. cbn [fst snd]. unfold g. destruct (shortcut None lim a b) as [v|] eqn:X; cbn [ceC ceD].
  - unfold Hops_model.shortcut in X. cbn [cachedVal] in X. rewrite andb_false_r in X.
    destruct (compF a =? compT b); cbn [negb] in X; [|inversion X; lia]. destruct (Z.leb_spec lim 0); [inversion X; lia|discriminate].
  - assert (Ir : In b rem) by (apply filter_In; split; [exact Ib|rewrite X; reflexivity]).
    pose proof (HS a rem lim b Ir) as Sb. destruct (search a rem lim b) as [c p]. cbn [ceC ceD]. intros Lt.
    destruct Sb as [(Np & _ & _ & W)|(_ & Le & _)]; [|lia]. exists p. split; [exact Np|]. split; [exact W|]. destruct p; [contradiction|reflexivity].
Qed.
Lemma pathLen_walk : forall p, (pathLen len p == walk_length len (rev p))%Q.
Proof.
  intros [|e p]; [reflexivity|]. unfold pathLen, walk_length. cbn [tl rev]. rewrite removelast_last.
  assert (G : forall l, (fold_right (fun e s => len e + s) 0 (rev l) == fold_right (fun e s => len e + s) 0 l)%Q).
  { induction l as [|x l IH]; [reflexivity|]. cbn [rev fold_right]. rewrite <- IH.
    generalize (rev l). induction l0 as [|y l0 IH0]; cbn [app fold_right]; [reflexivity|]. rewrite IH0. ring. }
  symmetry. apply G.
Qed.
Theorem hops_dist : forall hc froms tos maxCost a, needDist = true -> cands_ok froms -> cands_ok tos -> (2 <= maxCost <= u32max)%Z ->
  In a (fst (hops hc froms tos maxCost)) ->
  exists ef et pf pt d es, nth_error froms (aFr a) = Some (Some ef, pf) /\ nth_error tos (aTo a) = Some (Some et, pt) /\
    cheapest ef et d /\ walk ef et d es /\
    (ef <> et -> whole (walk_length len es - len ef * pf + len et * pt) (aD a)) /\
    (ef = et -> whole (walk_length len es) (aD a)).
Proof.
  intros hc froms tos maxCost a N Hf Ht Hm Ia. destruct (hops_eq hc froms tos maxCost) as [E _]. rewrite E in Ia. clear E.
  pose proof (lim_bounds froms maxCost Hf ltac:(lia)) as LB. set (M := maxProgrStart froms) in *. set (lim := addNonOverflow maxCost (trunc32 M)) in *.
  rewrite rows_dist in Ia; [|exact N|lia].
  apply In_entries in Ia. destruct Ia as (i & j & [oe pf] & [oe' pt] & If & It & Ia). unfold entry in Ia. cbn [fst snd] in Ia.
  destruct oe as [ef|], oe' as [et|]; try (destruct Ia; fail).
  assert (IA : In ef (edgesOf froms)) by (apply In_edgesOf; eexists; eapply nth_error_In; exact If).
  assert (IB : In et (edgesOf tos)) by (apply In_edgesOf; eexists; eapply nth_error_In; exact It).
  pose proof (rows_ok _ None lim _ ef et I (or_introl eq_refl) ltac:(lia) IA IB) as K.
  pose proof (rows_path _ lim _ ef et IA IB ltac:(lia)) as RP.
  destruct (lookup (fst (rows None lim (edgesOf froms) (edgesOf tos))) ef et) as [c d]. cbn [fst snd] in *.
  destruct (Z.leb_spec lim c) as [Le|Lt]; [destruct Ia|]. destruct K as [K _]. specialize (K Lt).
  destruct (RP Lt) as (p & Np & W & ->). clear RP.
  destruct (partial ef et pf pt c) as [c'|]; [|destruct Ia].
  destruct (Qltb (inject_Z c') (inject_Z lim - M)); [|destruct Ia]. destruct Ia as [<-|[]]. cbn [aFr aTo aD].
  exists ef, et, pf, pt, c, (rev p). split; [exact If|]. split; [exact It|]. split; [exact K|]. split; [exact W|].
  rewrite N. unfold partialDist. apply nth_error_In in If, It. specialize (Hf _ _ If). specialize (Ht _ _ It).
  split.
  - intros Ne. apply Nat.eqb_neq in Ne. rewrite Ne.
    assert (Ez : (walk_length len (rev p) - len ef * pf + len et * pt ==
       (if Qltb 0 pt then (if Qltb 0 pf then pathLen len p - len ef * pf else pathLen len p) + len et * pt
        else (if Qltb 0 pf then pathLen len p - len ef * pf else pathLen len p)))%Q).
    { rewrite <- pathLen_walk. destruct (Qltb 0 pf) eqn:Q1; [|apply Qltb_false in Q1; assert (Z1 : (pf == 0)%Q) by (apply Qle_antisym; tauto); rewrite Z1];
      (destruct (Qltb 0 pt) eqn:Q2; [|apply Qltb_false in Q2; assert (Z2 : (pt == 0)%Q) by (apply Qle_antisym; tauto); rewrite Z2]); ring. }
    unfold whole. rewrite Ez. apply whole_floor.
  - intros ->. rewrite Nat.eqb_refl. unfold whole. rewrite <- pathLen_walk. apply whole_floor.
Qed.

(** ** hopsFast *)
Variable searchN : list edge -> list edge -> (edge -> Z) -> Z -> Z -> list (edge * (edge * Z)).
Hypothesis HN : searchN_ok step searchN.
Notation initCost := (initCost ecost).
Notation hopsFast := (hopsFast enum ecost compF searchN).

Lemma off_le : forall (froms : list fcand) M f e, largest_offset ecost (map fst froms) M -> In f froms -> fst (fst f) = Some e ->
  (inject_Z (ecost e) * snd (fst f) <= M)%Q.
Proof.
  intros froms M [[oe p] oz] e (_ & B & _) I E. cbn in *. subst. apply B. apply in_map_iff. eexists. split; [|exact I]. reflexivity.
Qed.
Lemma off_ge : forall (froms : list fcand) f e, cands_ok (map fst froms) -> In f froms -> fst (fst f) = Some e ->
  (0 <= inject_Z (ecost e) * snd (fst f))%Q.
Proof.
  intros froms [[oe p] oz] e H I E. cbn in *. subst. assert (J : In (Some e, p) (map fst froms)) by (apply in_map_iff; eexists; split; [|exact I]; reflexivity).
  apply (offset_range e p (H _ _ J)).
Qed.

(** The initial cost of an edge. *)
Lemma initCost_spec : forall M froms0 e, (forall f z e', In f froms0 -> snd f = Some z -> fst (fst f) = Some e' ->
     (0 <= inject_Z z + M - inject_Z (ecost e') * snd (fst f) < inject_Z u32max)%Q) ->
  (0 <= initCost M froms0 e <= u32max)%Z /\
  (forall p z, In ((Some e, p), Some z) froms0 ->
     (inject_Z (initCost M froms0 e) <= inject_Z z + M - inject_Z (ecost e) * p)%Q /\ (initCost M froms0 e < u32max)%Z) /\
  (initCost M froms0 e = u32max \/ exists p z, In ((Some e, p), Some z) froms0 /\
     whole (inject_Z z + M - inject_Z (ecost e) * p) (initCost M froms0 e)).
Proof.
  intros M froms0 e H. unfold Hops_model.initCost.
  set (st := fun (m : Z) (f : fcand) => match fst (fst f), prepInit ecost M f with
                        | Some e', Some q => if (e' =? e) && Qltb q (inject_Z m) then trunc32 q else m
                        | _, _ => m
                        end).
  assert (G : forall l m, (forall f, In f l -> In f froms0) -> (0 <= m <= u32max)%Z ->
    (0 <= fold_left st l m <= m)%Z /\
    (forall p z, In ((Some e, p), Some z) l -> (inject_Z (fold_left st l m) <= inject_Z z + M - inject_Z (ecost e) * p)%Q) /\
    (fold_left st l m = m \/ exists p z, In ((Some e, p), Some z) froms0 /\
       whole (inject_Z z + M - inject_Z (ecost e) * p) (fold_left st l m))).
  { induction l as [|[[oe p] oz] l IH]; intros m Sub Hm; cbn [fold_left].
    - split; [lia|]. split; [intros p z []|left; reflexivity].
    - assert (Sl : forall f, In f l -> In f froms0) by (intros f X; apply Sub; right; exact X).
      assert (St : (0 <= st m ((oe, p), oz) <= m)%Z /\
        (forall z, oe = Some e -> oz = Some z -> (inject_Z (st m ((oe, p), oz)) <= inject_Z z + M - inject_Z (ecost e) * p)%Q) /\
        (st m ((oe, p), oz) = m \/ exists z, oe = Some e /\ oz = Some z /\
           whole (inject_Z z + M - inject_Z (ecost e) * p) (st m ((oe, p), oz)))).
      { unfold st. cbn [fst snd]. unfold prepInit. cbn [fst snd]. destruct oe as [e'|]; [|split; [lia|split; [discriminate|left; reflexivity]]].
        destruct oz as [z|]; [|split; [lia|split; [discriminate|left; reflexivity]]].
        destruct (Nat.eqb_spec e' e) as [->|Ne]; cbn [andb]; [|split; [lia|split; [intros z' X; inversion X; contradiction|left; reflexivity]]].
        pose proof (H _ z e (Sub _ (or_introl eq_refl)) eq_refl eq_refl) as R. cbn [fst snd] in R.
        destruct (Qltb _ (inject_Z m)) eqn:Q.
        - apply Qltb_true in Q.
          assert (T := trunc32_M (inject_Z z + M - inject_Z (ecost e) * p) (conj (proj1 R) (Qlt_le_weak _ _ (proj2 R)))).
          destruct T as [W B]. split; [|split].
          + destruct W as [W _]. assert (X : (inject_Z (trunc32 (inject_Z z + M - inject_Z (ecost e) * p)) < inject_Z m)%Q) by (eapply Qle_lt_trans; eassumption).
            rewrite <- Zlt_Qlt in X. lia.
          + intros z' _ X. inversion X; subst z'. apply W.
          + right. exists z. auto.
        - apply Qltb_false in Q. split; [lia|]. split; [|left; reflexivity]. intros z' _ X. inversion X; subst z'. exact Q. }
      destruct St as (S1 & S2 & S3). destruct (IH (st m ((oe, p), oz)) Sl ltac:(lia)) as (I1 & I2 & I3).
      split; [lia|]. split.
      + intros p' z [X|X]; [inversion X; subst; eapply Qle_trans; [|apply S2; reflexivity]; rewrite <- Zle_Qle; lia|apply I2; exact X].
      + destruct I3 as [I3|I3]; [|right; exact I3]. rewrite I3. destruct S3 as [S3|(z & -> & -> & W)]; [left; exact S3|].
        right. exists p, z. split; [apply Sub; left; reflexivity|exact W]. }
  destruct (G froms0 u32max (fun _ x => x) ltac:(rewrite u32max_eq; lia)) as (A & B & D).
  split; [exact A|]. split; [|exact D]. intros p z I. specialize (B p z I). split; [exact B|].
  pose proof (H _ z e I eq_refl eq_refl) as R. cbn [fst snd] in R.
  assert (X : (inject_Z (fold_left st froms0 u32max) < inject_Z u32max)%Q) by (eapply Qle_lt_trans; [exact B|apply R]).
  rewrite <- Zlt_Qlt in X. exact X.
Qed.
Lemma maxOf_spec : forall l, (forall x, In x l -> x <> u32max -> (x <= maxOf l)%Z) /\ (maxOf l = 0%Z \/ In (maxOf l) l) /\ (0 <= maxOf l)%Z.
Proof.
  unfold maxOf. set (st := fun m x => if negb (x =? u32max)%Z && (m <? x)%Z then x else m).
  assert (G : forall l m, (m <= fold_left st l m)%Z /\ (forall x, In x l -> x <> u32max -> (x <= fold_left st l m)%Z) /\
    (fold_left st l m = m \/ In (fold_left st l m) l)).
  { induction l as [|y l IH]; intros m; cbn [fold_left]; [split; [lia|split; [intros x []|left; reflexivity]]|].
    assert (S : (m <= st m y)%Z /\ (y <> u32max -> (y <= st m y)%Z) /\ (st m y = m \/ st m y = y)).
    { unfold st. destruct (Z.eqb_spec y u32max); cbn [negb andb]; [split; [lia|split; [contradiction|left; reflexivity]]|].
      destruct (Z.ltb_spec m y); split; try lia; split; auto; lia. }
    destruct S as (S1 & S2 & S3). destruct (IH (st m y)) as (I1 & I2 & I3). split; [lia|]. split.
    - intros x [->|X] Nx; [specialize (S2 Nx); lia|apply I2; assumption].
    - destruct I3 as [I3|I3]; [|right; right; exact I3]. rewrite I3. destruct S3 as [->|S3]; [left; reflexivity|]. right. left. symmetry. exact S3. }
  intros l. destruct (G l 0%Z) as (A & B & D). auto.
Qed.
Lemma minOf_spec : forall l, (forall x, In x l -> (minOf l <= x)%Z) /\ (minOf l = u32max \/ In (minOf l) l).
Proof.
  unfold minOf. set (st := fun m x => if (x <? m)%Z then x else m).
  assert (G : forall l m, (fold_left st l m <= m)%Z /\ (forall x, In x l -> (fold_left st l m <= x)%Z) /\
    (fold_left st l m = m \/ In (fold_left st l m) l)).
  { induction l as [|y l IH]; intros m; cbn [fold_left]; [split; [lia|split; [intros x []|left; reflexivity]]|].
    assert (S : (st m y <= m)%Z /\ (st m y <= y)%Z /\ (st m y = m \/ st m y = y)).
    { unfold st. destruct (Z.ltb_spec y m); split; try lia; split; auto; lia. }
    destruct S as (S1 & S2 & S3). destruct (IH (st m y)) as (I1 & I2 & I3). split; [lia|]. split.
    - intros x [->|X]; [lia|apply I2; assumption].
    - destruct I3 as [I3|I3]; [|right; right; exact I3]. rewrite I3. destruct S3 as [->|S3]; [left; reflexivity|]. right. left. symmetry. exact S3. }
  intros l. destruct (G l u32max) as (A & B & D). auto.
Qed.

(** The parts of a call. *)
Definition F_eFrs (froms : list fcand) (tos : list pcand) := edgesOf (map fst (filter (liveFr compF tos) froms)).
Definition F_use (hc : option cache) (froms : list fcand) (tos : list pcand) (maxCost : Z) (t : pcand) : bool :=
  connectedTo compF (map fst froms) t &&
    negb (match hc, fst t with Some c, Some e => cacheDrop c (F_eFrs froms tos) e maxCost | _, _ => false end).
Definition F_eTos hc froms tos maxCost := edgesOf (filter (F_use hc froms tos maxCost) tos).
Definition F_M (froms : list fcand) := maxProgrStart (map fst froms).
Definition F_inits froms tos := map (initCost (F_M froms) froms) (F_eFrs froms tos).
Definition F_init froms tos (e : edge) := wrap32 (initCost (F_M froms) froms e - minOf (F_inits froms tos)).
Definition F_lim froms maxCost := addNonOverflow maxCost (trunc32 (F_M froms)).
Definition F_lim2 froms tos maxCost := wrap32 (F_lim froms maxCost + wrap32 (maxOf (F_inits froms tos) - minOf (F_inits froms tos))).
Definition F_costs hc froms tos maxCost := searchN (F_eFrs froms tos) (F_eTos hc froms tos maxCost) (F_init froms tos) (F_lim froms maxCost) (F_lim2 froms tos maxCost).

Lemma fast_cases : forall hc froms tos maxCost,
  ((F_eFrs froms tos = [] \/ F_eTos hc froms tos maxCost = []) /\ hopsFast hc froms tos maxCost = ([], hc)) \/
  (F_eFrs froms tos <> [] /\ F_eTos hc froms tos maxCost <> [] /\
   snd (hopsFast hc froms tos maxCost) =
     match hc with
     | None => None
     | Some ca => Some (fold_left (fun ca r => let '(et, (_, c2)) := r in
                             if (F_lim2 froms tos maxCost <=? c2)%Z then setMinFrs ca (F_eFrs froms tos) et (F_lim froms maxCost) else ca)
                          (F_costs hc froms tos maxCost) ca)
     end /\
   forall a, In a (fst (hopsFast hc froms tos maxCost)) <->
     exists et ef c2 i j pf pt oz c', In (et, (ef, c2)) (F_costs hc froms tos maxCost) /\ (c2 < F_lim2 froms tos maxCost)%Z /\
       (wrap32 (c2 - F_init froms tos ef) < F_lim froms maxCost)%Z /\
       nth_error froms i = Some ((Some ef, pf), oz) /\ nth_error tos j = Some (Some et, pt) /\
       liveFr compF tos ((Some ef, pf), oz) = true /\ F_use hc froms tos maxCost (Some et, pt) = true /\
       partial ef et pf pt (wrap32 (c2 - F_init froms tos ef)) = Some c' /\
       (inject_Z c' < inject_Z (F_lim froms maxCost) - F_M froms)%Q /\ a = mkAns i j c' 0).
Proof.
  intros hc froms tos maxCost. unfold Hops_model.hopsFast.
  change (edgesOf (map fst (filter (liveFr compF tos) froms))) with (F_eFrs froms tos).
  change (fun t : pcand => connectedTo compF (map fst froms) t &&
    negb (match hc, fst t with Some c, Some e => cacheDrop c (F_eFrs froms tos) e maxCost | _, _ => false end)) with (F_use hc froms tos maxCost).
  change (edgesOf (filter (F_use hc froms tos maxCost) tos)) with (F_eTos hc froms tos maxCost).
  destruct (F_eFrs froms tos) as [|x l] eqn:E1; [left; split; [left; reflexivity|reflexivity]|].
  destruct (F_eTos hc froms tos maxCost) as [|y m] eqn:E2; [left; split; [right; reflexivity|reflexivity]|].
  right. rewrite <- E1, <- E2. split; [rewrite E1; discriminate|]. split; [rewrite E2; discriminate|]. cbn zeta. cbn [fst snd].
  split; [reflexivity|]. intros a.
  change (maxProgrStart (map fst froms)) with (F_M froms).
  change (map (initCost (F_M froms) froms) (F_eFrs froms tos)) with (F_inits froms tos).
  change (addNonOverflow maxCost (trunc32 (F_M froms))) with (F_lim froms maxCost).
  change (wrap32 (F_lim froms maxCost + wrap32 (maxOf (F_inits froms tos) - minOf (F_inits froms tos)))) with (F_lim2 froms tos maxCost).
  change (fun e : edge => wrap32 (initCost (F_M froms) froms e - minOf (F_inits froms tos))) with (F_init froms tos).
  change (searchN (F_eFrs froms tos) (F_eTos hc froms tos maxCost) (F_init froms tos) (F_lim froms maxCost) (F_lim2 froms tos maxCost)) with (F_costs hc froms tos maxCost).
  rewrite in_concat. split.
  - intros (lst & Il & Ia). apply in_map_iff in Il. destruct Il as ([et [ef c2]] & <- & Ir). cbn beta iota zeta in Ia.
    change (wrap32 (initCost (F_M froms) froms ef - minOf (F_inits froms tos))) with (F_init froms tos ef) in Ia.
    destruct (Z.leb_spec (F_lim2 froms tos maxCost) c2) as [|Lt2]; [destruct Ia|].
    destruct (Z.leb_spec (F_lim froms maxCost) (wrap32 (c2 - F_init froms tos ef))) as [|Lt1]; [destruct Ia|].
    rewrite in_concat in Ia. destruct Ia as (lst & Il & Ia). apply in_map_iff in Il. destruct Il as ([i [[oe pf] oz]] & <- & If). apply In_indexed in If.
    rewrite in_concat in Ia. destruct Ia as (lst & Il & Ia). apply in_map_iff in Il. destruct Il as ([j [oe' pt]] & <- & It). apply In_indexed in It.
    cbn [fst snd] in Ia. destruct oe as [e1|]; [|exfalso; exact Ia]. destruct oe' as [e2|]; [|exfalso; exact Ia].
    destruct (Nat.eqb_spec e1 ef) as [->|]; [|destruct Ia]. destruct (Nat.eqb_spec e2 et) as [->|]; [|destruct Ia]. cbn [andb] in Ia.
    match type of Ia with In _ (if ?b && _ then _ else _) => destruct b eqn:Lv end; [|destruct Ia]. cbn [andb] in Ia.
    match type of Ia with In _ (if ?b then _ else _) => destruct b eqn:Us end; [|destruct Ia].
    destruct (partial ef et pf pt _) as [c'|] eqn:P; [|destruct Ia]. destruct (Qltb _ _) eqn:Q; [|destruct Ia]. destruct Ia as [<-|[]].
    apply Qltb_true in Q. exists et, ef, c2, i, j, pf, pt, oz, c'. repeat (split; [first [assumption|reflexivity]|]). reflexivity.
  - intros (et & ef & c2 & i & j & pf & pt & oz & c' & Ir & Lt2 & Lt1 & If & It & Lv & Us & P & Q & ->).
    eexists. split; [apply in_map_iff; exists (et, (ef, c2)); split; [reflexivity|exact Ir]|].
    cbn beta iota zeta. change (wrap32 (initCost (F_M froms) froms ef - minOf (F_inits froms tos))) with (F_init froms tos ef).
    destruct (Z.leb_spec (F_lim2 froms tos maxCost) c2) as [|_]; [lia|].
    destruct (Z.leb_spec (F_lim froms maxCost) (wrap32 (c2 - F_init froms tos ef))) as [|_]; [lia|].
    rewrite in_concat. eexists. split; [apply in_map_iff; exists (i, ((Some ef, pf), oz)); split; [reflexivity|apply In_indexed; exact If]|].
    rewrite in_concat. eexists. split; [apply in_map_iff; exists (j, (Some et, pt)); split; [reflexivity|apply In_indexed; exact It]|].
    cbn [fst snd]. rewrite !Nat.eqb_refl. cbn [andb].
    match goal with |- In _ (if ?b && _ then _ else _) => replace b with true by (symmetry; exact Lv) end. cbn [andb].
    match goal with |- In _ (if ?b then _ else _) => replace b with true by (symmetry; exact Us) end. rewrite P. apply Qltb_true in Q. rewrite Q. left. reflexivity.
Qed.

Lemma F_lim_ok : forall froms maxCost, cands_ok (map fst froms) -> (0 <= maxCost <= u32max)%Z ->
  largest_offset ecost (map fst froms) (F_M froms) /\ (0 <= F_M froms <= inject_Z u32max)%Q /\
  (maxCost <= F_lim froms maxCost <= u32max)%Z /\
  forall c, ((inject_Z c < inject_Z (F_lim froms maxCost) - F_M froms)%Q <-> (c < maxCost)%Z /\ (inject_Z c < inject_Z u32max - F_M froms)%Q).
Proof.
  intros froms maxCost H Hm. pose proof (maxProgrStart_spec _ H) as LO. pose proof (offset_u32 _ _ LO H) as B.
  split; [exact LO|]. split; [exact B|]. apply limit_spec; assumption.
Qed.

(** Every answer is a true hop. *)
Theorem fast_sound : forall hc froms tos maxCost M a, cands_ok (map fst froms) -> cands_ok tos ->
  fits step ecost (map fst froms) tos -> (0 <= maxCost <= u32max)%Z -> largest_offset ecost (map fst froms) M ->
  In a (fst (hopsFast hc froms tos maxCost)) ->
  exists ef et pf pt z, nth_error froms (aFr a) = Some ((Some ef, pf), Some z) /\ nth_error tos (aTo a) = Some (Some et, pt) /\
    hop_cost ef et pf pt (aC a) /\ (aC a < maxCost)%Z /\ (inject_Z (aC a) < inject_Z u32max - M)%Q.
Proof.
  intros hc froms tos maxCost M a Hf Ht F Hm LO' Ia.
  destruct (F_lim_ok froms maxCost Hf Hm) as (LO & MB & LB & LS).
  assert (EM : (M == F_M froms)%Q).
  { destruct LO as (A & B & D). destruct LO' as (A' & B' & D'). apply Qle_antisym.
    - destruct D' as [->|(e & p & I & ->)]; [exact A|apply B; exact I].
    - destruct D as [->|(e & p & I & ->)]; [exact A'|apply B'; exact I]. }
  destruct (fast_cases hc froms tos maxCost) as [[_ X]|(_ & _ & _ & X)]; [rewrite X in Ia; destruct Ia|].
  apply X in Ia. clear X. destruct Ia as (et & ef & c2 & i & j & pf & pt & oz & c' & Ir & Lt2 & Lt1 & If & It & Lv & Us & P & Q & ->).
  destruct (HN (F_eFrs froms tos) (F_eTos hc froms tos maxCost) (F_init froms tos) (F_lim froms maxCost) (F_lim2 froms tos maxCost)) as [_ A].
  destruct (A _ _ _ Ir) as (_ & A1 & _). destruct (A1 Lt2) as (_ & (d & Ch & E2) & _). clear A A1.
  assert (Wd : wrap32 (c2 - F_init froms tos ef) = d).
  { replace (c2 - F_init froms tos ef)%Z with d by lia. apply wrap32_id.
    destruct Ch as [(es & W) _]. pose proof (walk_nonneg _ _ _ _ W).
    assert (0 <= F_init froms tos ef)%Z by (unfold F_init, wrap32; apply Z.mod_pos_bound; reflexivity).
    assert (F_lim2 froms tos maxCost <= u32max)%Z by (unfold F_lim2; unfold wrap32 at 1; rewrite u32max_eq; match goal with |- (?x mod ?y <= _)%Z => pose proof (Z.mod_pos_bound x y eq_refl) as X; change (2 ^ 32)%Z with 4294967296%Z in * end; lia).
    lia. }
  rewrite Wd in *. unfold liveFr in Lv. cbn [snd] in Lv. destruct oz as [z|]; [|discriminate Lv].
  assert (J1 : In (Some ef, pf) (map fst froms)) by (apply in_map_iff; eexists; split; [|eapply nth_error_In; exact If]; reflexivity).
  assert (J2 : In (Some et, pt) tos) by (eapply nth_error_In; exact It).
  assert (Ub : forall c, hop_cost ef et pf pt c -> (c <= u32max)%Z) by (intros c HC; apply (F ef pf et pt d c J1 J2 Ch); [lia|exact HC]).
  apply (partial_spec ef et pf pt d Ch (Hf _ _ J1) (Ht _ _ J2) Ub ltac:(lia)) in P.
  exists ef, et, pf, pt, z. cbn [aFr aTo aC]. apply LS in Q. rewrite EM. auto.
Qed.

(** ** The best source is found *)
Definition lower_ok (hc : option cache) : Prop :=
  match hc with None => True | Some c => forall a b d es, walk a b d es -> (fst (get c a b) <= d)%Z end.

Lemma In_eFrs : forall froms tos e, In e (F_eFrs froms tos) <-> exists p z, In ((Some e, p), Some z) froms /\ connectedFr compF (Some e, p) tos = true.
Proof.
  intros froms tos e. unfold F_eFrs. rewrite In_edgesOf. split.
  - intros (p & I). apply in_map_iff in I. destruct I as ([[oe p'] oz] & E & I). apply filter_In in I. cbn in E. inversion E; subst.
    destruct I as [I L]. unfold liveFr in L. cbn [snd fst] in L. destruct oz as [z|]; [|discriminate]. eauto.
  - intros (p & z & I & L). exists p. apply in_map_iff. exists ((Some e, p), Some z). split; [reflexivity|]. apply filter_In. split; [exact I|exact L].
Qed.

Lemma F_bounds : forall froms tos maxCost, cands_ok (map fst froms) -> (0 <= maxCost <= u32max)%Z -> small ecost froms maxCost ->
  F_eFrs froms tos <> [] ->
  (forall e, In e (F_eFrs froms tos) -> F_init froms tos e = (initCost (F_M froms) froms e - minOf (F_inits froms tos))%Z /\
     (0 <= F_init froms tos e)%Z /\ (F_init froms tos e + F_lim froms maxCost <= F_lim2 froms tos maxCost)%Z) /\
  (forall e p z, In ((Some e, p), Some z) froms -> (inject_Z (initCost (F_M froms) froms e) <= inject_Z z + F_M froms - inject_Z (ecost e) * p)%Q) /\
  (forall e, In e (F_eFrs froms tos) -> exists p z, In ((Some e, p), Some z) froms /\
     whole (inject_Z z + F_M froms - inject_Z (ecost e) * p) (initCost (F_M froms) froms e)).
Proof.
  intros froms tos maxCost Hf Hm Sm Ne.
  destruct (F_lim_ok froms maxCost Hf Hm) as (LO & MB & LB & LS).
  assert (m0 : (0 <= inject_Z maxCost)%Q) by (change 0%Q with (inject_Z 0); rewrite <- Zle_Qle; lia).
  assert (R : forall f z e', In f froms -> snd f = Some z -> fst (fst f) = Some e' ->
     (0 <= inject_Z z + F_M froms - inject_Z (ecost e') * snd (fst f))%Q /\
     (inject_Z z + F_M froms - inject_Z (ecost e') * snd (fst f) + inject_Z maxCost + F_M froms + 1 < inject_Z u32max)%Q).
  { intros [c oz] z e' I E1 E2. cbn [fst snd] in *. subst oz. destruct (Sm (F_M froms) c z LO I) as [z0 S].
    pose proof (off_le froms (F_M froms) _ e' LO I E2) as O1. pose proof (off_ge froms _ e' Hf I E2) as O2. cbn [fst snd] in *.
    rewrite Zle_Qle in z0. change (inject_Z 0) with 0%Q in z0. split; lra. }
  assert (R' : forall f z e', In f froms -> snd f = Some z -> fst (fst f) = Some e' ->
     (0 <= inject_Z z + F_M froms - inject_Z (ecost e') * snd (fst f) < inject_Z u32max)%Q).
  { intros f z e' I E1 E2. destruct (R f z e' I E1 E2). split; lra. }
  pose proof (fun e => initCost_spec (F_M froms) froms e R') as IC.
  assert (Whole : forall e, In e (F_eFrs froms tos) -> exists p z, In ((Some e, p), Some z) froms /\
     whole (inject_Z z + F_M froms - inject_Z (ecost e) * p) (initCost (F_M froms) froms e)).
  { intros e I. destruct (IC e) as (_ & B & D). destruct D as [D|D]; [|exact D]. apply In_eFrs in I. destruct I as (p & z & I & _).
    destruct (B p z I) as [_ X]. lia. }
  assert (Big : forall x, In x (F_inits froms tos) -> (0 <= x)%Z /\ (x + maxCost + trunc32 (F_M froms) + 1 < u32max)%Z).
  { intros x X. apply in_map_iff in X. destruct X as (e & <- & I). destruct (Whole e I) as (p & z & J & W1 & W2).
    destruct (IC e) as (A & _ & _). split; [lia|]. destruct (R _ z e J eq_refl eq_refl) as [_ R2]. cbn [fst snd] in R2.
    destruct (trunc32_M _ MB) as [[T1 _] _]. rewrite Zlt_Qlt, !inject_Z_plus. change (inject_Z 1) with 1%Q. lra. }
  destruct (maxOf_spec (F_inits froms tos)) as (MX1 & MX2 & MX3). destruct (minOf_spec (F_inits froms tos)) as (MN1 & MN2).
  set (mx := maxOf (F_inits froms tos)) in *. set (mn := minOf (F_inits froms tos)) in *.
  destruct (F_eFrs froms tos) as [|e0 l0] eqn:EF; [contradiction|]. rewrite <- EF in *.
  assert (I0 : In (initCost (F_M froms) froms e0) (F_inits froms tos)) by (apply in_map; rewrite EF; left; reflexivity).
  assert (tM : (0 <= trunc32 (F_M froms) <= u32max)%Z) by apply (trunc32_M _ MB).
  assert (Imn : In mn (F_inits froms tos)).
  { destruct MN2 as [X|X]; [|exact X]. specialize (MN1 _ I0). destruct (Big _ I0). lia. }
  pose proof (Big _ Imn) as [mn0 _].
  assert (mxmn : (mn <= mx)%Z) by (apply MX1; [exact Imn|]; destruct (Big _ Imn) as [_ Q]; lia).
  assert (L2 : F_lim2 froms tos maxCost = (F_lim froms maxCost + (mx - mn))%Z).
  { unfold F_lim2. fold mx mn.
    assert (mxB : (mx + maxCost + trunc32 (F_M froms) + 1 < u32max)%Z).
    { destruct MX2 as [X|X]; [|apply Big; exact X]. rewrite X. destruct (Big _ Imn). lia. }
    assert (Lm : (F_lim froms maxCost <= maxCost + trunc32 (F_M froms))%Z) by (unfold F_lim; rewrite addNonOverflow_sat by lia; lia).
    rewrite (wrap32_id (mx - mn)) by lia. apply wrap32_id. lia. }
  split; [|split].
  - intros e I. assert (Ii : In (initCost (F_M froms) froms e) (F_inits froms tos)) by (apply in_map; exact I).
    pose proof (MN1 _ Ii). destruct (Big _ Ii). assert (Nu : initCost (F_M froms) froms e <> u32max) by lia. specialize (MX1 _ Ii Nu).
    assert (E : F_init froms tos e = (initCost (F_M froms) froms e - mn)%Z) by (unfold F_init; fold mn; apply wrap32_id; lia).
    rewrite E, L2. split; [reflexivity|]. split; lia.
  - intros e p z I. destruct (IC e) as (_ & B & _). apply B. exact I.
  - exact Whole.
Qed.

Theorem fast_best : forall hc froms tos maxCost, lower_ok hc -> cands_ok (map fst froms) -> cands_ok tos ->
  fits step ecost (map fst froms) tos -> (0 <= maxCost <= u32max)%Z -> small ecost froms maxCost ->
  forall i j ef et pf pt z d c, nth_error froms i = Some ((Some ef, pf), Some z) -> nth_error tos j = Some (Some et, pt) ->
  hop_via step ecost ef et pf pt d c -> (c < maxCost)%Z -> (hc = None \/ (d <= maxCost)%Z) ->
  exists k ef' pf' z' d', nth_error froms k = Some ((Some ef', pf'), Some z') /\ cheapest ef' et d' /\
    ((ef' = et /\ (pt < pf')%Q) \/
     exists c', hop_via step ecost ef' et pf' pt d' c' /\ (z' + c' <= z + c + 1)%Z /\
       ((maxCost <= c')%Z \/ exists a, In a (fst (hopsFast hc froms tos maxCost)) /\ aFr a = k /\ aTo a = j /\ aC a = c')).
Proof.
  intros hc froms tos maxCost V Hf Ht F Hm Sm i j ef et pf pt z d c If It [Ch HC] Lc Hc.
  destruct (F_lim_ok froms maxCost Hf Hm) as (LO & MB & LB & LS).
  assert (J1 : In ((Some ef, pf), Some z) froms) by (eapply nth_error_In; exact If).
  assert (J1' : In (Some ef, pf) (map fst froms)) by (apply in_map_iff; eexists; split; [|exact J1]; reflexivity).
  assert (J2 : In (Some et, pt) tos) by (eapply nth_error_In; exact It).
  assert (Cm : compF ef = compF et).
  { destruct Ch as [(es & W) _]. rewrite (gk_comp _ _ _ _ HGr _ _ _ _ W). symmetry. exact (gk_comp _ _ _ _ HGr _ _ _ _ (w_one _ et)). }
  assert (IA : In ef (F_eFrs froms tos)).
  { apply In_eFrs. exists pf, z. split; [exact J1|]. cbn [connectedFr fst]. apply existsb_exists. exists (Some et, pt).
    split; [exact J2|]. cbn [fst]. apply Nat.eqb_eq. exact Cm. }
  assert (Us : F_use hc froms tos maxCost (Some et, pt) = true).
  { unfold F_use. cbn [fst]. apply andb_true_iff. split.
    - cbn [connectedTo fst]. apply existsb_exists. exists (Some ef, pf). split; [exact J1'|]. cbn [fst]. apply Nat.eqb_eq. exact Cm.
    - destruct hc as [ca|]; [|reflexivity]. destruct Hc as [Hc|Hc]; [discriminate Hc|]. cbn [lower_ok] in V.
      destruct (cacheDrop ca (F_eFrs froms tos) et maxCost) eqn:D; [|reflexivity]. exfalso.
      apply cacheDrop_spec with (fr := ef) in D; [|exact IA]. destruct Ch as [(es & W) _]. specialize (V _ _ _ _ W). lia. }
  assert (IB : In et (F_eTos hc froms tos maxCost)).
  { apply In_edgesOf. exists pt. apply filter_In. split; [exact J2|exact Us]. }
  destruct (fast_cases hc froms tos maxCost) as [[[X|X] _]|(NeF & NeT & _ & Ans)]; [rewrite X in IA; destruct IA|rewrite X in IB; destruct IB|].
  destruct (F_bounds froms tos maxCost Hf Hm Sm NeF) as (FB1 & FB2 & FB3).
  destruct (Sm (F_M froms) _ z LO J1) as [z0 Sz].
  assert (m0 : (0 <= inject_Z maxCost)%Q) by (change 0%Q with (inject_Z 0); rewrite <- Zle_Qle; lia).
  assert (zq : (0 <= inject_Z z)%Q) by (rewrite Zle_Qle in z0; exact z0).
  (* every cost below maxCost is below u32max - M *)
  assert (Fit : forall c, (c < maxCost)%Z -> (inject_Z c < inject_Z (F_lim froms maxCost) - F_M froms)%Q).
  { intros c0 L. apply LS. split; [exact L|]. rewrite Zlt_Qlt in L. lra. }
  assert (dl : (d < F_lim froms maxCost)%Z).
  { destruct (hop_cost_facts _ _ _ _ _ _ _ LO J1' (Hf _ _ J1') (Ht _ _ J2) HC) as (d1 & Ch1 & _ & X).
    rewrite (cheapest_det _ _ _ _ Ch Ch1). apply X. apply Fit. exact Lc. }
  destruct (HN (F_eFrs froms tos) (F_eTos hc froms tos maxCost) (F_init froms tos) (F_lim froms maxCost) (F_lim2 froms tos maxCost)) as [Tot A].
  specialize (Tot et IB). apply in_map_iff in Tot. destruct Tot as ([et' [es c2]] & E & Ir). cbn in E. subst et'.
  destruct (A _ _ _ Ir) as (_ & A1 & A2). destruct (FB1 ef IA) as (Ei & Ei0 & Ei2).
  destruct (Z_lt_ge_dec c2 (F_lim2 froms tos maxCost)) as [L2|L2]; [|destruct Ch as [(w & W) _]; specialize (A2 ltac:(lia) ef d w IA W dl); lia].
  destruct (A1 L2) as (Is & (d' & Ch' & Ec2) & Best). assert (Best' : (c2 <= F_init froms tos ef + d)%Z) by (destruct Ch as [(w & W) _]; exact (Best ef d w IA W dl)). clear Best. clear A A1 A2.
  destruct (FB1 es Is) as (Es & Es0 & Es2). destruct (FB3 es Is) as (pf' & z' & Js & W1 & W2).
  specialize (FB2 ef pf z J1).
  assert (Js' : In (Some es, pf') (map fst froms)) by (apply in_map_iff; eexists; split; [|exact Js]; reflexivity).
  destruct (In_nth_error _ _ Js) as [k Ik]. exists k, es, pf', z', d'. split; [exact Ik|]. split; [exact Ch'|].
  destruct (Qlt_le_dec pt pf') as [Lp|Lp]; [destruct (Nat.eq_dec es et) as [Es1|Ns]; [left; split; assumption|]|]; right.
  1, 2: (
    pose (zf := trunc32 (inject_Z (ecost es) * pf')); pose (zt := trunc32 (inject_Z (ecost et) * pt));
    destruct (trunc32_offset es pf' (Hf _ _ Js')) as [Wf Bf]; destruct (trunc32_offset et pt (Ht _ _ J2)) as [Wt Bt];
    fold zf in Wf, Bf; fold zt in Wt, Bt;
    assert (HC' : hop_cost es et pf' pt (d' - zf + zt)) by (exists d', zf, zt; split; [exact Ch'|]; split; [exact Wf|]; split; [exact Wt|]; split; [intros X; first [exact Lp|contradiction]|reflexivity]);
    exists (d' - zf + zt)%Z; split; [split; assumption|]; split;
    [ destruct HC as (d1 & zf1 & zt1 & Ch1 & Wf1 & Wt1 & _ & ->); rewrite (cheapest_det _ _ _ _ Ch1 Ch), (whole_uniq _ _ _ Wt1 Wt);
      destruct Wf as [Wf2 Wf3]; destruct Wf1 as [Wg2 Wg3];
      rewrite inject_Z_plus in Wf3; rewrite inject_Z_plus in W2; change (inject_Z 1) with 1%Q in *;
      assert (B2 : (initCost (F_M froms) froms es + d' <= initCost (F_M froms) froms ef + d)%Z) by lia;
      rewrite Zle_Qle, !inject_Z_plus in B2;
      assert (G : (inject_Z (z' + (d' - zf)) < inject_Z (z + (d - zf1) + 2))%Q) by (unfold Z.sub; rewrite !inject_Z_plus, !inject_Z_opp; change (inject_Z 2) with 2%Q; lra);
      rewrite <- Zlt_Qlt in G; lia
    | destruct (Z_lt_ge_dec (d' - zf + zt) maxCost) as [L|L]; [right|left; lia];
      exists (mkAns k j (d' - zf + zt) 0); split; [|auto];
      apply Ans; exists et, es, c2, k, j, pf', pt, (Some z'), (d' - zf + zt)%Z;
      assert (dl' : (d' < F_lim froms maxCost)%Z) by (
        destruct (hop_cost_facts _ _ _ _ _ _ _ LO Js' (Hf _ _ Js') (Ht _ _ J2) HC') as (d1 & Ch1 & _ & X);
        rewrite (cheapest_det _ _ _ _ Ch' Ch1); apply X; apply Fit; exact L);
      assert (d0 : (0 <= d')%Z) by (destruct Ch' as [(w & W) _]; eapply walk_nonneg; exact W);
      assert (Wd : wrap32 (c2 - F_init froms tos es) = d') by (rewrite Ec2; replace (F_init froms tos es + d' - F_init froms tos es)%Z with d' by lia; apply wrap32_id; lia);
      rewrite Wd;
      split; [exact Ir|]; split; [exact L2|]; split; [exact dl'|]; split; [exact Ik|]; split; [exact It|];
      split; [cbn [liveFr snd fst]; apply In_eFrs in Is; destruct Is as (p9 & z9 & _ & Cn); exact Cn|];
      split; [exact Us|]; split;
      [ apply (partial_spec es et pf' pt d' Ch' (Hf _ _ Js') (Ht _ _ J2)); [intros c9 H9; apply (F es pf' et pt d' c9 Js' J2 Ch'); [lia|exact H9]|lia|exact HC']
      | split; [apply Fit; exact L|reflexivity] ] ] ).
Qed.

(** ** The cache of hopsFast *)
Lemma fast_lower : forall hc froms tos maxCost, lower_ok hc -> cands_ok (map fst froms) -> (0 <= maxCost <= u32max)%Z ->
  small ecost froms maxCost -> lower_ok (snd (hopsFast hc froms tos maxCost)).
Proof.
  intros hc froms tos maxCost V Hf Hm Sm.
  destruct (fast_cases hc froms tos maxCost) as [[_ ->]|(NeF & NeT & -> & _)]; [exact V|].
  destruct hc as [ca|]; [|exact I].
  destruct (F_lim_ok froms maxCost Hf Hm) as (LO & MB & LB & LS).
  destruct (F_bounds froms tos maxCost Hf Hm Sm NeF) as (FB1 & _ & _).
  destruct (HN (F_eFrs froms tos) (F_eTos (Some ca) froms tos maxCost) (F_init froms tos) (F_lim froms maxCost) (F_lim2 froms tos maxCost)) as [_ A].
  change (searchN (F_eFrs froms tos) (F_eTos (Some ca) froms tos maxCost) (F_init froms tos) (F_lim froms maxCost) (F_lim2 froms tos maxCost)) with (F_costs (Some ca) froms tos maxCost) in A.
  assert (A' : forall b a c2, In (b, (a, c2)) (F_costs (Some ca) froms tos maxCost) -> (F_lim2 froms tos maxCost <= c2)%Z ->
    forall a' d' es, In a' (F_eFrs froms tos) -> walk a' b d' es -> (d' < F_lim froms maxCost)%Z -> (F_lim2 froms tos maxCost <= F_init froms tos a' + d')%Z)
    by (intros b a c2 I; apply (A b a c2 I)).
  clear A. rename A' into A.
  cbn [lower_ok]. cbn [lower_ok] in V. revert A. generalize (F_costs (Some ca) froms tos maxCost). intros costs A. clear NeT. revert ca V.
  induction costs as [|[b [a c2]] l IH]; intros ca V; cbn [fold_left]; [exact V|].
  apply IH; [intros b' a' c' I; apply (A b' a' c'); right; exact I|].
  destruct (Z.leb_spec (F_lim2 froms tos maxCost) c2) as [Le|Lt]; [|exact V].
  intros x y d es W. unfold get, setMinFrs. rewrite fold_frs.
  destruct (existsb (Nat.eqb x) (F_eFrs froms tos) && (b =? y)) eqn:Q; [|exact (V x y d es W)].
  apply andb_true_iff in Q. destruct Q as [Q1 Q2]. apply existsb_eqb_In in Q1. apply Nat.eqb_eq in Q2. subst b.
  destruct (Z.ltb_spec (F_lim froms maxCost) 0) as [|_]; [lia|]. cbn [fst]. rewrite wrap32_id by lia.
  pose proof (A _ _ _ (or_introl eq_refl)) as A2.
  destruct (Z_lt_ge_dec d (F_lim froms maxCost)) as [Ld|Ld]; [|lia]. exfalso.
  destruct (FB1 x Q1) as (_ & X0 & X2).
  specialize (A2 Le x d es Q1 W Ld). lia.
Qed.
Lemma fastRun_lower : forall calls hc, lower_ok hc -> Forall (fcall_ok ecost) calls ->
  lower_ok (fastRun enum ecost compF searchN hc calls).
Proof.
  induction calls as [|x l IH]; intros hc V H; [exact V|]. inversion H as [|? ? (Hf & Ht & Hm & Sm) H']; subst.
  unfold fastRun. cbn [fold_left]. apply IH; [|exact H']. apply fast_lower; assumption.
Qed.
End Pf.

Lemma hop_cost_nonneg : forall step ecost compF compT ef et pf pt c, graph_ok step ecost compF compT ->
  (0 <= pf <= 1)%Q -> (0 <= pt <= 1)%Q -> hop_cost step ecost ef et pf pt c -> (0 <= c)%Z.
Proof.
  intros step ecost compF compT ef et pf pt c G Hf Ht HC.
  assert (O : (0 <= inject_Z (ecost ef) * pf)%Q) by apply (offset_range ecost compF compT step G ef pf Hf).
  destruct (hop_cost_facts ecost compF compT step G ef et pf pt c (inject_Z (ecost ef) * pf)%Q [(Some ef, pf)]) as (d & _ & X & _); auto.
  - split; [exact O|]. split; [intros e p [E|[]]; inversion E; subst; apply Qle_refl|]. right. exists ef, pf. split; [left; reflexivity|reflexivity].
  - left. reflexivity.
Qed.

(** ** An example graph: the edges 0, 1, 2, ... in a line, each of cost [K] *)
Section Line.
Variable K : Z.
Hypothesis HK : (0 <= K <= u32max)%Z.
Definition lstep (a b : edge) : option Z := if b =? S a then Some K else None.
Definition lcost (_ : edge) : Z := K.
Definition lcomp (_ : edge) : nat := 0.
Definition ldist (a b : edge) : Z := (K * Z.of_nat (b - a))%Z.
Definition lsearch (a : edge) (_ : list edge) (lim : Z) (b : edge) : Z * list edge :=
  if (a <=? b) && (ldist a b <? lim)%Z then (ldist a b, rev (seq a (S (b - a)))) else (lim, []).
Definition lpick (init : edge -> Z) (stall : Z) (b : edge) (acc : edge * Z) (a : edge) : edge * Z :=
  if (a <=? b) && (ldist a b <? stall)%Z && (init a + ldist a b <? snd acc)%Z then (a, init a + ldist a b)%Z else acc.
Definition lsearchN (frs tos : list edge) (init : edge -> Z) (stall lim : Z) : list (edge * (edge * Z)) :=
  map (fun b => (b, fold_left (lpick init stall b) frs (0, lim))) tos.

Lemma line_walk : forall a b d es, walk lstep a b d es <-> a <= b /\ d = ldist a b /\ es = seq a (S (b - a)).
Proof.
  intros a b d es. split.
  - intros W. induction W as [e|e f t w c es St W IH].
    + split; [lia|]. unfold ldist. rewrite Nat.sub_diag. split; [lia|reflexivity].
    + unfold lstep in St. destruct (Nat.eqb_spec f (S e)) as [->|]; [|discriminate]. inversion St; subst w.
      destruct IH as (L & -> & ->). split; [lia|]. unfold ldist. replace (t - e) with (S (t - S e)) by lia. split; [lia|]. reflexivity.
  - intros (L & -> & ->). remember (b - a) as n eqn:En. revert a L En. induction n as [|n IH]; intros a L En.
    + assert (b = a) by lia. subst b. unfold ldist. rewrite Nat.sub_diag. replace (K * Z.of_nat 0)%Z with 0%Z by lia. apply w_one.
    + assert (E : ldist a b = (K + ldist (S a) b)%Z) by (unfold ldist; replace (b - a) with (S (b - S a)) by lia; lia).
      rewrite E. change (seq a (S (S n))) with (a :: seq (S a) (S n)). eapply w_cons; [|apply IH; lia].
      unfold lstep. rewrite Nat.eqb_refl. reflexivity.
Qed.
Lemma line_cheapest : forall a b, a <= b -> cheapest lstep a b (ldist a b).
Proof.
  intros a b L. split; [eexists; apply line_walk; auto|]. intros d' es W. apply line_walk in W. lia.
Qed.
Lemma line_graph : graph_ok lstep lcost lcomp lcomp.
Proof.
  split; [intros e; exact HK| |reflexivity]. intros e f w St. unfold lstep in St. destruct (f =? S e); inversion St; subst; unfold lcost; lia.
Qed.
Lemma line_search : search_ok lstep lsearch.
Proof.
  intros a tos lim b _. unfold lsearch. destruct (Nat.leb_spec a b) as [L|L]; cbn [andb].
  - destruct (Z.ltb_spec (ldist a b) lim) as [Q|Q].
    + left. split; [|split; [apply line_cheapest; exact L|split; [exact Q|rewrite rev_involutive; apply line_walk; auto]]].
      cbn [seq rev]. intros X. apply app_eq_nil in X. destruct X as [_ X]. discriminate.
    + right. split; [reflexivity|]. split; [lia|]. intros d es W. apply line_walk in W. lia.
  - right. split; [reflexivity|]. split; [lia|]. intros d es W. apply line_walk in W. lia.
Qed.
Lemma line_searchN : searchN_ok lstep lsearchN.
Proof.
  intros frs tos init stall lim. split.
  - intros b I. apply in_map_iff. exists (b, fold_left (lpick init stall b) frs (0, lim)). split; [reflexivity|]. apply in_map_iff. exists b. auto.
  - intros b a c I. apply in_map_iff in I. destruct I as (b' & E & I). injection E as -> E. split; [exact I|].
    assert (G : forall l acc, (forall x, In x l -> In x frs) ->
      ((snd acc < lim)%Z -> In (fst acc) frs /\ exists d, cheapest lstep (fst acc) b d /\ snd acc = (init (fst acc) + d)%Z) -> (snd acc <= lim)%Z ->
      let r := fold_left (lpick init stall b) l acc in
      (snd r <= snd acc)%Z /\ ((snd r < lim)%Z -> In (fst r) frs /\ exists d, cheapest lstep (fst r) b d /\ snd r = (init (fst r) + d)%Z) /\
      forall a' d' es, In a' l -> walk lstep a' b d' es -> (d' < stall)%Z -> (snd r <= init a' + d')%Z).
    { induction l as [|x l IH]; intros acc Sub A0 A1; cbn [fold_left]; cbn zeta; [split; [lia|]; split; [exact A0|intros a' d' es []]|].
      assert (S1 : (snd (lpick init stall b acc x) <= snd acc)%Z /\
        ((snd (lpick init stall b acc x) < lim)%Z -> In (fst (lpick init stall b acc x)) frs /\ exists d, cheapest lstep (fst (lpick init stall b acc x)) b d /\ snd (lpick init stall b acc x) = (init (fst (lpick init stall b acc x)) + d)%Z) /\
        forall d' es, walk lstep x b d' es -> (d' < stall)%Z -> (snd (lpick init stall b acc x) <= init x + d')%Z).
      { unfold lpick. destruct (Nat.leb_spec x b) as [L|L]; cbn [andb].
        2:{ split; [lia|]. split; [exact A0|]. intros d' es W. apply line_walk in W. lia. }
        destruct (Z.ltb_spec (ldist x b) stall) as [Q|Q]; cbn [andb].
        2:{ split; [lia|]. split; [exact A0|]. intros d' es W. apply line_walk in W. lia. }
        destruct (Z.ltb_spec (init x + ldist x b) (snd acc)) as [R|R]; cbn [fst snd].
        - split; [lia|]. split; [|intros d' es W; apply line_walk in W; lia]. intros _. split; [apply Sub; left; reflexivity|].
          exists (ldist x b). split; [apply line_cheapest; exact L|reflexivity].
        - split; [lia|]. split; [exact A0|]. intros d' es W. apply line_walk in W. lia. }
      destruct S1 as (S1 & S2 & S3).
      destruct (IH (lpick init stall b acc x) (fun y Y => Sub y (or_intror Y)) S2 ltac:(lia)) as (I1 & I2 & I3).
      split; [lia|]. split; [exact I2|]. intros a' d' es [->|J] W Ls; [|eapply I3; eassumption]. specialize (S3 _ _ W Ls). lia. }
    destruct (G frs (0, lim) (fun _ x => x)) as (G1 & G2 & G3); [cbn [snd]; lia|cbn [snd]; lia|]. rewrite E in *. cbn [fst snd] in *.
    split; [intros L; destruct (G2 L) as [X Y]; split; [exact X|]; split; [exact Y|exact G3]|].
    intros L a' d' es J W Ls. specialize (G3 _ _ _ J W Ls). lia.
Qed.
End Line.
Definition lenum : list edge -> list edge := nodup Nat.eq_dec.
Lemma line_enum : enumerates lenum.
Proof. intros l. split; [apply NoDup_nodup|]. intros x. apply nodup_In. Qed.
