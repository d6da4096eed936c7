(** Proofs for C74. *)
From Coq Require Import List Arith NArith ZArith QArith Qminmax Bool Lia Lqa.
From Verif Require Import Weights_model Weights_spec Weights_proofs OsmGraph_model OsmGraph_spec OsmGraph_proofs Finish_model Finish_spec Finish_proofs Astar_spec.
Import ListNotations.
Open Scope Q_scope.

Lemma tenths_lb : forall s r, tenths s r -> r = u32max \/ s * 10 <= Zq r.
Proof.
  intros s r (v & (_ & V) & ->). destruct (Z.min_spec v u32max) as [[_ ->]|[_ ->]]; auto.
Qed.
Lemma tenths_nonneg : forall s r, 0 <= s -> tenths s r -> u32 r.
Proof.
  intros s r S (v & (V1 & V2) & ->). assert ((0 <= v)%Z) by (apply Zq_le; rewrite Zq_0; lra). unfold u32, u32max. lia.
Qed.
Lemma min1_le : forall f, min1 f <= f.
Proof. intros f. unfold min1. destruct (Qltb f 1) eqn:L; [lra|apply Qltb_ge in L; exact L]. Qed.
Lemma scale_lb : forall c f ex r q, u32 c -> 0 < f -> 0 <= ex -> tenths (Zq c / 10 * f + ex) r -> q <= Zq c -> 0 <= q -> r = u32max \/ q * min1 f <= Zq r.
Proof.
  intros c f ex r q [C _] F E T Q1 Q0. destruct (tenths_lb _ _ T) as [H|H]; [auto|]. right.
  pose proof (min1_pos f F) as M. pose proof (min1_le f). assert (0 <= Zq c) by lra.
  assert (Zq c * min1 f <= Zq c * f) by nra. pose proof (mul_mono_r _ _ _ Q1 M).
  assert ((Zq c / 10 * f + ex) * 10 == Zq c * f + 10 * ex) by field. lra.
Qed.
Lemma scale_u32 : forall c f ex r, u32 c -> 0 < f -> 0 <= ex -> tenths (Zq c / 10 * f + ex) r -> u32 r.
Proof.
  intros c f ex r [C _] F E. apply tenths_nonneg. assert (0 <= Zq c) by (apply Zq_nonneg; exact C). assert (0 <= Zq c * f) by (apply Qmult_le_0_compat; lra). assert (Ef : Zq c / 10 * f == (Zq c * f) * (1 # 10)) by field. rewrite Ef. lra.
Qed.
(** The lower bound of an edge's cost: its time, or the greatest cost, times the factors. *)
Lemma edge_cost_lb : forall len speed ow hl sp ec nl r, 0 <= len -> 0 < speed -> 0 < sp -> 0 <= ec -> 0 < nl ->
  edge_cost len speed ow hl sp ec nl r ->
  u32 r /\ (Zq u32max * (min1 sp * min1 nl) <= Zq r \/ 10 * (len / speed) * (min1 sp * min1 nl) <= Zq r).
Proof.
  intros len speed ow hl sp ec nl r L S Sp Ec Nl (c0 & c1 & T0 & O1 & O2 & N1 & N2).
  assert (Q0 : 0 <= len / speed) by (apply Qle_shift_div_l; lra).
  pose proof (tenths_nonneg _ _ Q0 T0) as U0. pose proof (min1_pos _ Sp) as M1. pose proof (min1_pos _ Nl) as M2.
  assert (B : 0 <= Zq u32max) by (vm_compute; discriminate).
  assert (L0 : exists q, (q = Zq u32max \/ q = 10 * (len / speed)) /\ 0 <= q /\ q <= Zq c0 /\ q <= Zq u32max).
  { destruct U0 as [_ U0]. apply Zq_le in U0. destruct (tenths_lb _ _ T0) as [->|H].
    - exists (Zq u32max). split; [auto|]. split; [auto|]. split; lra.
    - exists (10 * (len / speed)). split; [auto|]. split; [lra|]. split; lra. }
  destruct L0 as (q & Qe & Qn & Q1 & Q2).
  assert (Q3 : q * min1 sp <= Zq u32max /\ 0 <= q * min1 sp) by (pose proof (mul_unit_le q _ Qn M1); split; [lra|apply Qmult_le_0_compat; lra]).
  assert (u32 c1 /\ q * min1 sp <= Zq c1) as [U1 L1].
  { destruct ow.
    - specialize (O1 eq_refl). split; [exact (scale_u32 _ _ _ _ U0 Sp Ec O1)|]. destruct (scale_lb _ _ _ _ _ U0 Sp Ec O1 Q1 Qn) as [->|H]; [tauto|exact H].
    - rewrite (O2 eq_refl). split; [exact U0|]. pose proof (mul_unit_le q _ Qn M1). lra. }
  assert (u32 r /\ q * min1 sp * min1 nl <= Zq r) as [U2 L2].
  { assert (D : (hl = true \/ nl == 1) \/ (hl = false /\ ~ nl == 1)).
    { destruct hl; [auto|]. destruct (Qeq_dec nl 1); auto. }
    destruct D as [D|[D1 D2]].
    - rewrite (N1 D). split; [exact U1|]. pose proof (mul_unit_le (q * min1 sp) _ (proj2 Q3) M2). lra.
    - specialize (N2 D1 D2). assert (N3 : tenths (Zq c1 / 10 * nl + 0) r).
      { destruct N2 as (v & (V1 & V2) & E). exists v. split; [split; lra|exact E]. }
      split; [exact (scale_u32 _ _ _ _ U1 Nl (Qle_refl 0) N3)|].
      destruct (scale_lb _ _ _ _ _ U1 Nl (Qle_refl 0) N3 L1 (proj2 Q3)) as [->|H]; [|exact H].
      pose proof (mul_unit_le (q * min1 sp) _ (proj2 Q3) M2). lra. }
  split; [exact U2|]. assert (E : q * min1 sp * min1 nl == q * (min1 sp * min1 nl)) by ring. rewrite E in L2.
  destruct Qe as [->| ->]; auto.
Qed.

Section A.
Context {P : Type}.
Variable pos : nat -> P.

Lemma chain_app : forall c1 c2 u v, chain u (c1 ++ c2) v -> exists w, chain (P := P) u c1 w /\ chain w c2 v.
Proof.
  induction c1 as [|h c1 IH]; intros c2 u v C; cbn in *; [exists u; auto|]. destruct C as [S C]. destruct (IH _ _ _ C) as (w & A & B). exists w. auto.
Qed.
Lemma runs_ends : forall c l, runs pos c l -> (forall h, In h c -> ends_fit pos (fst h)) -> forall u v, chain u c v -> exists m, l = pos u :: m ++ [pos v].
Proof.
  induction 1 as [h|c1 c2 l1 l2 l R1 IH1 R2 IH2 J]; intros F u v C.
  - cbn in C. destruct C as [<- <-]. apply line_ends. apply F. now left.
  - destruct (chain_app _ _ _ _ C) as (w & C1 & C2). destruct (IH1 (fun h I => F h (in_or_app _ _ _ (or_introl I))) _ _ C1) as (m1 & E1).
    destruct (IH2 (fun h I => F h (in_or_app _ _ _ (or_intror I))) _ _ C2) as (m2 & E2). rewrite E1, E2 in J. now apply joined_ends in J.
Qed.
Lemma connected_trans : forall (g : graph P) u v w, connected g u v -> connected g v w -> connected g u w.
Proof. intros g u v w A B. induction B as [|v' w e B IH I E]; [exact A|]. eapply cn_step; eauto. Qed.

Variable station turn : nat -> bool.
Variable len : list P -> Q.
Variable simplify : list P -> list P.
Variable speed : nat -> Q.
Variable sp ec nl : Q.
Variable fl : Q -> Q.
Variable eps : Q.
Variable dist : P -> P -> Q.
Variable o : ropts.
Hypothesis L0 : forall l, 0 <= len l.
Hypothesis V0 : forall l, 0 < speed l.
Hypothesis Sp : 0 < sp.
Hypothesis Ec : 0 <= ec.
Hypothesis Nl : 0 < nl.
Hypothesis Ho : opts_ok o.
Hypothesis Hd : is_dist dist.
Hypothesis Hz : forall p, dist p p == 0.
Hypothesis Hs : no_shortcut dist len.
Hypothesis He : 0 <= eps < 1.
Hypothesis Hf : loses_at_most fl eps.
Notation k := (maxSpeedCorFac o nl sp).
Variable B : Z.
Hypothesis HB : Zq B <= Zq u32max * k.
Hypothesis HBe : Zq B * eps < 1.

Variable g g' : graph P.
Variable c : nat -> nat.
Variable ms : list Q.
Variable num : nat.
Hypothesis Fin : finished pos station turn len simplify speed sp ec nl g g'.
Hypothesis Ar : areas (fun l => speed l / k) fl g g' c ms num.
Hypothesis Fit : forall e, In e (edges g) -> ends_fit pos e.

Variable place : nat -> P.
Variable baseCost : nat -> Z.
Variable eFrom eTo : nat -> nat.
Hypothesis Sn : seen pos g' place baseCost eFrom eTo.
Variable lineSimis : nat -> list simi.
Variable noAttrs : bool.
Variable turnCycle : nat -> bool.
Variable deg : nat -> nat.
Variable sharp : nat -> nat -> nat -> bool.
Variable restricted : nat -> bool.
Variable may : nat -> nat -> nat -> bool.
Variable cost : nat -> nat -> Z.
Notation TC := (transition_cost baseCost lineSimis noAttrs eFrom eTo turnCycle deg sharp restricted may o).

Lemma k_unit : 0 < k <= 1.
Proof.
  destruct Ho as (_ & _ & F1 & F2 & F3). rewrite maxSpeedCorFac_prod.
  apply unit_mul; [apply unit_mul; [apply unit_mul|]|apply unit_mul]; now apply min1_pos.
Qed.
Lemma B_le : (B <= u32max)%Z.
Proof. apply Zq_le. pose proof k_unit as K. assert (0 <= Zq u32max) by (vm_compute; discriminate). pose proof (mul_unit_le _ _ H K). lra. Qed.

Lemma cost_u32 : forall e, In e (edges g') -> u32 (Z.of_N (OsmGraph_model.cost (ePl e))).
Proof.
  intros e I. destruct (fi_edges _ _ _ _ _ _ _ _ _ _ _ Fin e I) as [(_ & _ & ->)|(ch & T & (l & _ & _ & E))]; [unfold u32, u32max; lia|].
  eapply edge_cost_lb; [| | | | |exact E]; auto.
Qed.
Lemma base_u32 : forall i, u32 (baseCost i).
Proof.
  intros i. destruct (nth_error (edges g') i) as [e|] eqn:N.
  - rewrite (sn_cost _ _ _ _ _ _ Sn _ _ N). apply cost_u32. eapply nth_error_In; eauto.
  - rewrite (sn_none _ _ _ _ _ _ Sn _ N). unfold u32, u32max; lia.
Qed.

(** The greatest speed of the area of [n], without the loss by rounding, is an upper bound
    for the speed at which an edge of the area is driven. *)
Lemma area_speed : forall n e ch m, In n (nodes g') -> In e (edges g') -> connected g' n (from e) -> traced station turn g e ch ->
  nth_error ms (c n - 1) = Some m -> (1 - eps) * (speed (lvl (ePl e)) / k) <= m.
Proof.
  intros n e ch m In_ Ie Cn T M. destruct (fi_ok _ _ _ _ _ _ _ _ _ _ _ Fin) as [_ Ends]. destruct (Ends e Ie) as [Nf Nt].
  destruct (ar_speed _ _ _ _ _ _ _ Ar n In_) as (m' & M' & Up & _). rewrite M in M'. injection M' as <-.
  destruct ch as [|h ch]; [now elim (tr_some _ _ _ _ _ T)|].
  assert (Ih : In (fst h) (edges g)) by (apply (tr_in _ _ _ _ _ T); now left).
  assert (C0 : connected g n (from e)) by now apply (ar_same _ _ _ _ _ _ _ Ar).
  assert (Cs : connected g n (src h)).
  { pose proof (tr_chain _ _ _ _ _ T) as Ch. destruct (rev_ (ePl e)); destruct Ch as [Ch _]; rewrite Ch; [|exact C0].
    apply (ar_same _ _ _ _ _ _ _ Ar); auto. apply (cn_step _ _ (from e) _ e); auto. }
  assert (Cf : connected g n (from (fst h))).
  { unfold src in Cs. destruct (snd h); [exact Cs|]. apply (cn_step _ _ _ _ (fst h) Cs Ih). right. auto. }
  pose proof (Up _ Ih Cf) as U. rewrite (tr_level _ _ _ _ _ T h (or_introl eq_refl)) in U.
  assert (0 < speed (lvl (ePl e)) / k) by (apply Qlt_shift_div_l; [apply k_unit|pose proof (V0 (lvl (ePl e))); lra]).
  pose proof (Hf _ H). lra.
Qed.

(** One step of the search. *)
Lemma step_lb : forall n m maxV i j, In n (nodes g') -> nth_error ms (c n - 1) = Some m -> m <= maxV -> 0 < maxV ->
  follows g' i j -> connected g' n (eFrom i) -> (exists v, TC (Some i) (Some (v, j)) (cost i j)) -> (cost i j < B)%Z ->
  (0 <= cost i j)%Z /\ 10 * (dist (place i) (place j) / (maxV / (1 - eps))) <= Zq (cost i j).
Proof.
  intros n m maxV i j In_ M Mv Vp (x & y & Ex & Ey & J) Cn (v & T) Lt.
  pose proof B_le as BU. pose proof k_unit as K.
  destruct (TC_lower _ _ _ _ _ _ _ _ _ _ _ base_u32 Ho _ _ _ T) as [[U1 _] LB]. split; [exact U1|].
  destruct LB as [LB|LB]; [lia|]. fold min1 in LB.
  assert (Nb : baseCost i <> u32max) by (intro E; destruct T as [[_ T]|[(T & _)|(T & _)]]; [lia|contradiction|contradiction]).
  pose proof (nth_error_In _ _ Ex) as Ix. rewrite (sn_from _ _ _ _ _ _ Sn _ _ Ex) in Cn.
  assert (Ec1 := sn_cost _ _ _ _ _ _ Sn _ _ Ex).
  assert (D : exists l ch, dist (place i) (place j) <= len l /\ traced station turn g x ch /\
    edge_cost (len l) (speed (lvl (ePl x))) (oneWay (ePl x) =? 2)%nat (negb (length (lines (ePl x)) =? 0)%nat) sp ec nl (Z.of_N (OsmGraph_model.cost (ePl x)))).
  { destruct (fi_edges _ _ _ _ _ _ _ _ _ _ _ Fin x Ix) as [(_ & _ & E)|(ch & Tr & (l & _ & R & E))].
    - exfalso. apply Nb. rewrite Ec1, E. reflexivity.
    - exists l, ch. split; [|split; assumption]. rewrite (sn_place _ _ _ _ _ _ Sn _ _ Ex), (sn_place _ _ _ _ _ _ Sn _ _ Ey), <- J.
      destruct (Nat.eq_dec (from x) (to x)) as [Q|Q]; [rewrite Q, Hz; apply L0|]. specialize (R Q).
      assert (Fh : forall h, In h ch -> ends_fit pos (fst h)) by (intros h Ih; apply Fit, (tr_in _ _ _ _ _ Tr), Ih).
      pose proof (tr_chain _ _ _ _ _ Tr) as Ch. destruct (rev_ (ePl x)).
      + destruct (runs_ends _ _ R Fh _ _ Ch) as (mm & ->). destruct Hd as (_ & Sy & _). rewrite Sy. apply Hs.
      + destruct (runs_ends _ _ R Fh _ _ Ch) as (mm & ->). apply Hs. }
  destruct D as (l & ch & Dl & Tr & E).
  pose proof (area_speed _ _ _ _ In_ Ix Cn Tr M) as As.
  destruct (edge_cost_lb _ _ _ _ _ _ _ _ (L0 l) (V0 _) Sp Ec Nl E) as [_ C]. rewrite <- Ec1 in C.
  destruct Ho as (_ & _ & F1 & F2 & F3).
  pose proof (min1_pos _ F1) as M1. pose proof (min1_pos _ F2) as M2. pose proof (min1_pos _ F3) as M3.
  pose proof (min1_pos _ Sp) as M4. pose proof (min1_pos _ Nl) as M5.
  pose proof (unit_mul _ _ (unit_mul _ _ M1 M2) M3) as K1. pose proof (unit_mul _ _ M4 M5) as K2.
  rewrite maxSpeedCorFac_prod in As. pose proof HB as HB'. rewrite maxSpeedCorFac_prod in HB'. clear K.
  pose proof (unit_mul _ _ K1 K2) as K.
  unfold min1 in LB. fold (min1 (fName o)) (min1 (fFrom o)) (min1 (fTo o)) in LB.
  set (k1 := min1 (fName o) * min1 (fFrom o) * min1 (fTo o)) in *.
  set (k2 := min1 sp * min1 nl) in *. set (s := speed (lvl (ePl x))) in *. assert (Sx : 0 < s) by apply V0.
  apply Zq_lt in Lt.
  destruct C as [C|C].
  { exfalso. pose proof (mul_mono_r _ _ _ C K1) as C'. assert (Zq u32max * k2 * k1 == Zq u32max * (k1 * k2)) by ring. lra. }
  pose proof (mul_mono_r _ _ _ C K1) as C'.
  set (t := len l / s) in *. assert (T0 : 0 <= t) by (apply Qle_shift_div_l; [exact Sx|pose proof (L0 l); lra]).
  assert (Tl : len l == t * s) by (unfold t; field; lra).
  assert (S : (1 - eps) * s <= maxV * (k1 * k2)).
  { assert (Q1 : (1 - eps) * (s / (k1 * k2)) <= maxV) by lra. apply Qmult_le_compat_r with (z := k1 * k2) in Q1; [|lra].
    assert ((1 - eps) * (s / (k1 * k2)) * (k1 * k2) == (1 - eps) * s) by (field; split; lra). lra. }
  assert (W : dist (place i) (place j) / (maxV / (1 - eps)) <= t * (k1 * k2)).
  { apply Qle_shift_div_r; [apply Qlt_shift_div_l; lra|].
    assert (t * ((1 - eps) * s) <= t * (maxV * (k1 * k2))) by (rewrite !(Qmult_comm t); apply Qmult_le_compat_r; assumption).
    assert (E1 : t * (k1 * k2) * (maxV / (1 - eps)) == t * (maxV * (k1 * k2)) / (1 - eps)) by (field; lra). rewrite E1.
    apply Qle_shift_div_l; [lra|]. assert ((t * s) * (1 - eps) == t * ((1 - eps) * s)) by ring.
    assert (dist (place i) (place j) * (1 - eps) <= t * s * (1 - eps)) by (apply Qmult_le_compat_r; lra). lra. }
  assert (10 * t * k2 * k1 == 10 * (t * (k1 * k2))) by ring. lra.
Qed.

Lemma step_conn : forall n i j, follows g' i j -> connected g' n (eFrom i) -> connected g' n (eFrom j).
Proof.
  intros n i j (x & y & Ex & Ey & J) C. rewrite (sn_from _ _ _ _ _ _ Sn _ _ Ex) in C. rewrite (sn_from _ _ _ _ _ _ Sn _ _ Ey), <- J.
  apply (cn_step _ _ _ _ x C); [eapply nth_error_In; eauto|auto].
Qed.
Lemma cost_nonneg : forall i j, (exists v, TC (Some i) (Some (v, j)) (cost i j)) -> (0 <= cost i j)%Z.
Proof. intros i j (v & T). destruct (TC_lower _ _ _ _ _ _ _ _ _ _ _ base_u32 Ho _ _ _ T) as [[U1 _] _]. exact U1. Qed.
Definition steps (path : list nat) : Prop := path_all (fun x y => follows g' x y /\ exists v, TC (Some x) (Some (v, y)) (cost x y)) path.
Lemma path_nonneg : forall path a, steps (a :: path) -> (0 <= path_cost cost (a :: path))%Z.
Proof.
  induction path as [|b path IH]; intros a A; [cbn; lia|]. destruct A as [[_ A2] A3]. pose proof (cost_nonneg _ _ A2). specialize (IH b A3).
  change (path_cost cost (a :: b :: path)) with (cost a b + path_cost cost (b :: path))%Z. lia.
Qed.

Lemma hq_path : forall n m maxV center tos, In n (nodes g') -> nth_error ms (c n - 1) = Some m -> m <= maxV -> 0 < maxV ->
  forall path a t, In t tos -> last (a :: path) a = t -> connected g' n (eFrom a) -> steps (a :: path) -> (path_cost cost (a :: path) < B)%Z ->
  hq dist place center (maxV / (1 - eps)) tos a <= Zq (path_cost cost (a :: path)).
Proof.
  intros n m maxV center tos In_ M Mv Vp. assert (V' : 0 < maxV / (1 - eps)) by (apply Qlt_shift_div_l; lra).
  induction path as [|b path IH]; intros a t It L Cn A Lt.
  - cbn in L. subst t. cbn [path_cost]. unfold hq. apply Q.max_lub; [rewrite Zq_0; lra|].
    pose proof (maxCentD_ge dist place center _ V' _ _ It). rewrite Zq_0. lra.
  - destruct A as [[A1 A2] A3]. pose proof (path_nonneg _ _ A3) as N3.
    change (path_cost cost (a :: b :: path)) with (cost a b + path_cost cost (b :: path))%Z in *.
    pose proof (cost_nonneg _ _ A2) as N2.
    destruct (step_lb n m maxV a b In_ M Mv Vp A1 Cn A2 ltac:(lia)) as [_ S].
    assert (L' : last (b :: path) b = t) by (rewrite <- L; change (last (a :: b :: path) a) with (last (b :: path) a); apply last_indep).
    specialize (IH b t It L' (step_conn _ _ _ A1 Cn) A3 ltac:(lia)).
    pose proof (hq_step dist place center _ Hd V' tos a b _ S). rewrite Zq_add. lra.
Qed.

Lemma hq_scale : forall maxV center tos a, 0 < maxV -> (1 - eps) * hq dist place center maxV tos a <= hq dist place center (maxV / (1 - eps)) tos a.
Proof.
  intros maxV center tos a Vp. unfold hq. set (y := (dist (place a) center / maxV - maxCentD P dist place center maxV tos) * 10).
  assert (E : (dist (place a) center / (maxV / (1 - eps)) - maxCentD P dist place center (maxV / (1 - eps)) tos) * 10 == (1 - eps) * y).
  { unfold y, maxCentD. field. split; lra. }
  destruct (Q.max_spec 0 y) as [[_ Hm]|[_ Hm]]; rewrite Hm.
  - rewrite <- E. apply Q.le_max_r.
  - rewrite Qmult_0_r. apply Q.le_max_l.
Qed.

Lemma astar_admissible : forall n m maxV center tos, In n (nodes g') -> nth_error ms (c n - 1) = Some m -> m <= maxV -> 0 < maxV ->
  forall path a t, In t tos -> last (a :: path) a = t -> connected g' n (eFrom a) -> steps (a :: path) -> (path_cost cost (a :: path) < B)%Z ->
  (heurPure P dist place center maxV tos a <= path_cost cost (a :: path))%Z.
Proof.
  intros n m maxV center tos In_ M Mv Vp path a t It L Cn A Lt.
  pose proof (hq_path n m maxV center tos In_ M Mv Vp path a t It L Cn A Lt) as H. pose proof (hq_scale maxV center tos a Vp) as S.
  pose proof (path_nonneg _ _ A) as N. set (pc := path_cost cost (a :: path)) in *.
  destruct (heur_min dist place center maxV tos a) as (z & [Z1 Z2] & ->).
  set (h := hq dist place center maxV tos a) in *.
  assert (X : h < Zq (pc + 1)).
  { rewrite Zq_add, Zq_1. assert (Q1 : (pc + 1 <= B)%Z) by lia. apply Zq_le in Q1. rewrite Zq_add, Zq_1 in Q1.
    assert (Q2 : (Zq pc + 1) * eps <= Zq B * eps) by (apply Qmult_le_compat_r; lra).
    assert (Q3 : Zq pc < (1 - eps) * (Zq pc + 1)) by lra.
    destruct (Qlt_le_dec h (Zq pc + 1)) as [|G]; [assumption|]. exfalso.
    assert ((1 - eps) * (Zq pc + 1) <= (1 - eps) * h) by (rewrite !(Qmult_comm (1 - eps)); apply Qmult_le_compat_r; lra). lra. }
  assert ((z < pc + 1)%Z) by (apply Zq_lt; lra). lia.
Qed.
End A.
