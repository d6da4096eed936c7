(** Proofs for C81: the moves the router compares are the drives through the network. *)
From Coq Require Import List Arith ZArith QArith Qround Bool Lia Lqa.
From Verif Require Import ListAux HopCache_model TripTrie_model TripTrie_spec Router_model Router_spec Router_proofs Router_props
  Hops_model Hops_spec Hops_proofs Ecm_model Optimal_spec.
Import ListNotations.
Open Scope nat_scope.

(** ** Only the limits asked for matter *)
Section Ext.
Context {pos attrs C E P St : Type}.
Variable lt : C -> C -> bool.
Variable add : C -> C -> C.
Variable inf : C.
Variables ask1 ask2 : St -> nat -> nat -> list C -> Z -> list ans * St.
Variable weight : nat -> nat -> Z -> Z -> Z -> C.
Variable ofZ : Z -> C.
Variable limit0 : nat -> nat -> Z.
Variable tnds : list (node pos attrs).
Variable ecm : list (list (cand C E P)).
Variable okl : Z -> Prop.
Hypothesis Same : forall s p n cs l, okl l -> ask1 s p n cs l = ask2 s p n cs l.
Hypothesis L0 : forall p n, okl (limit0 p n).
Hypothesis Ld : forall l, okl l -> okl (double l).

Lemma doubling_ext : forall k p n frC toC frL s M toL mc nm, okl nm ->
  doubling C lt add E P St ask1 weight k p n frC toC frL s M toL mc nm = doubling C lt add E P St ask2 weight k p n frC toC frL s M toL mc nm.
Proof.
  induction k as [|k IH]; intros p n frC toC frL s M toL mc nm O; [reflexivity|]. cbn [doubling]. rewrite (Same _ _ _ _ _ O).
  destruct (ask2 s p n (map fst frL) nm) as [a s1]. destruct (hopTrans _ _ _ _ _ _ _ _ _) as [ts|]; [|reflexivity].
  destruct (relaxAll _ _ _ _ _ _) as [[toL1 b]|]; [|reflexivity].
  change (if (nm <=? u32max / 2)%Z then (nm * 2)%Z else u32max) with (double nm).
  destruct b; [reflexivity|]. destruct (double nm =? nm)%Z; [reflexivity|]. rewrite IH; [reflexivity|apply Ld; exact O].
Qed.
Lemma child_ext : forall p r n,
  child pos attrs C lt add E P St ask1 weight ofZ limit0 tnds ecm p r n = child pos attrs C lt add E P St ask2 weight ofZ limit0 tnds ecm p r n.
Proof.
  intros p r n. unfold child. destruct (nth_error tnds p); [|reflexivity]. destruct (nth_error tnds n); [|reflexivity].
  destruct (nth_error ecm p); [|reflexivity]. destruct (nth_error ecm n); [|reflexivity].
  destruct (nth_error (rLay _ _ r) p); [|reflexivity]. destruct (nth_error (rLay _ _ r) n); [|reflexivity].
  destruct (_ && _); [reflexivity|]. rewrite doubling_ext; [reflexivity|apply L0].
Qed.
Lemma childLoop_ext : forall cs p r,
  childLoop pos attrs C lt add E P St ask1 weight ofZ limit0 tnds ecm p r cs = childLoop pos attrs C lt add E P St ask2 weight ofZ limit0 tnds ecm p r cs.
Proof. induction cs as [|c cs IH]; intros p r; [reflexivity|]. cbn [childLoop]. rewrite child_ext. destruct (child _ _ _ _ _ _ _ _ _ _ _ _ _ _ _ _ _); [apply IH|reflexivity]. Qed.
Lemma routeLoop_ext : forall fuel st r,
  routeLoop pos attrs C lt add E P St ask1 weight ofZ limit0 tnds ecm fuel st r = routeLoop pos attrs C lt add E P St ask2 weight ofZ limit0 tnds ecm fuel st r.
Proof.
  induction fuel as [|f IH]; intros [|n st] r; [reflexivity|reflexivity|reflexivity|]. cbn [routeLoop]. destruct (nth_error tnds n) as [nd|]; [|reflexivity].
  rewrite childLoop_ext. destruct (childLoop _ _ _ _ _ _ _ _ _ _ _ _ _ _ _ _ _); [apply IH|reflexivity].
Qed.
Lemma route_ext : forall p0 startCost spath s leaves,
  route pos attrs C lt add inf E P p0 St ask1 weight ofZ limit0 startCost spath tnds ecm s leaves =
  route pos attrs C lt add inf E P p0 St ask2 weight ofZ limit0 startCost spath tnds ecm s leaves.
Proof.
  intros p0 startCost spath s leaves. unfold route, solve. destruct tnds as [|rn t] eqn:Et; [reflexivity|]. rewrite <- Et.
  destruct (initLayers _ _ _ _ _ _ _) as [ls|]; [|reflexivity]. destruct (initFirst _ _ _ _ _ _) as [ls1|]; [|reflexivity].
  rewrite routeLoop_ext. reflexivity.
Qed.
End Ext.

(** ** Limits *)
Lemma double_min : forall l0 k, (0 <= l0)%Z -> (0 <= k)%Z ->
  double (Z.min (2 ^ k * l0) u32max) = Z.min (2 ^ (k + 1) * l0) u32max.
Proof.
  intros l0 k H K. rewrite Z.pow_add_r by lia. unfold double. set (q := (2 ^ k)%Z). assert (0 < q)%Z by (unfold q; apply Z.pow_pos_nonneg; lia).
  assert (E : (u32max / 2 = 2147483647)%Z) by reflexivity. rewrite E. unfold u32max.
  destruct (Z.leb_spec (Z.min (q * l0) (2 ^ 32 - 1)) 2147483647); nia.
Qed.
Lemma iter_double_min : forall k l0 j x, (0 <= l0 <= u32max)%Z -> nth_error (iter_double k l0) j = Some x ->
  x = Z.min (2 ^ Z.of_nat j * l0) u32max.
Proof.
  intros k l0 j x H. enough (G : forall k q j x, nth_error (iter_double k (Z.min (2 ^ Z.of_nat q * l0) u32max)) j = Some x -> x = Z.min (2 ^ Z.of_nat (q + j) * l0) u32max).
  { intros E. apply (G k 0 j). cbn [Z.of_nat]. replace (Z.min (2 ^ 0 * l0) u32max) with l0 by (change (2 ^ 0)%Z with 1%Z; lia). exact E. }
  clear j x. induction k0 as [|k0 IH]; intros q j x E; [destruct j; discriminate|]. destruct j as [|j]; cbn in E.
  - injection E as <-. rewrite Nat.add_0_r. reflexivity.
  - rewrite double_min in E by lia. replace (Z.of_nat q + 1)%Z with (Z.of_nat (S q)) in E by lia. apply IH in E. rewrite E. do 4 f_equal. lia.
Qed.
Lemma iter_double_length : forall k l, length (iter_double k l) = k.
Proof. induction k as [|k IH]; intros l; cbn; [reflexivity|]. rewrite IH. reflexivity. Qed.
Lemma last_nth : forall A (l : list A) d, l <> [] -> nth_error l (length l - 1) = Some (last l d).
Proof.
  intros A l d N. destruct (exists_last N) as (l' & x & ->). rewrite last_last, app_length. cbn.
  replace (length l' + 1 - 1) with (length l') by lia. rewrite nth_error_app2 by lia. rewrite Nat.sub_diag. reflexivity.
Qed.

Lemma cand_nth : forall C P (ecm : list (list (cand C edge P))) n i x, cand_at ecm n i x <-> nth_error (nth n ecm []) i = Some x.
Proof.
  intros C P ecm n i x. split.
  - intros (cs & E & X). rewrite (nth_error_nth _ _ [] E). exact X.
  - intros X. destruct (nth_error ecm n) as [cs|] eqn:E.
    + exists cs. rewrite (nth_error_nth _ _ [] E) in X. auto.
    + rewrite nth_overflow in X by (apply nth_error_None; exact E). destruct i; discriminate.
Qed.
Lemma walk_ext : forall s1 s2, (forall a b, s1 a b = s2 a b) -> forall a b d es, walk s1 a b d es -> walk s2 a b d es.
Proof. intros s1 s2 H a b d es W. induction W as [|e f t w c es St W IH]; [constructor|]. econstructor; [rewrite <- H; exact St|exact IH]. Qed.
Lemma cheapest_ext : forall s1 s2, (forall a b, s1 a b = s2 a b) -> forall a b d, cheapest s1 a b d -> cheapest s2 a b d.
Proof.
  intros s1 s2 H a b d ((es & W) & L). split; [exists es; eapply walk_ext; eassumption|].
  intros d' es' W'. eapply L. eapply walk_ext; [|exact W']. intros; symmetry; apply H.
Qed.
Lemma hvalid_ext : forall s1 s2, (forall a b, s1 a b = s2 a b) -> forall hc, hvalid s1 hc -> hvalid s2 hc.
Proof. intros s1 s2 H [c|] V; [|exact I]. intros a b v G. eapply cheapest_ext; [exact H|]. apply V. exact G. Qed.

Section Main.
Context {pos attrs C P : Type}.
Variable lt : C -> C -> bool.
Variable add : C -> C -> C.
Variable inf : C.
Variable p0 : P.
Variable w : nat -> nat -> Z -> Z -> C.
Variable ofZ : Z -> C.
Variable step : nat -> edge -> edge -> option Z.
Variable ecost : nat -> edge -> Z.
Variable compF compT : edge -> nat.
Variable search : nat -> edge -> list edge -> Z -> edge -> Z * list edge.
Variable searchN : nat -> list edge -> list edge -> (edge -> Z) -> Z -> Z -> list (edge * (edge * Z)).
Variable spath : nat -> edge -> edge -> Z -> Z * list edge.
Variable limit0 : nat -> nat -> Z.
Variable enum : list edge -> list edge.
Variable len : edge -> Q.
Variable invWeight : C -> option Z.
Variable needDist allowsFast noFastHops : bool.
Variable tnds : list (node pos attrs).
Variable ecm : list (list (cand C edge P)).
Hypothesis CL : cost_laws lt add inf.
Hypothesis T : tree tnds.
Hypothesis HE : enumerates enum.
Hypothesis PO : problem_ok step ecost compF compT search spath limit0 tnds ecm.
Hypothesis Slow : noFastHops || negb allowsFast = true.
Notation cand := (cand C edge P).
Notation cE := (cE C edge P).
Notation cProgr := (cProgr C edge P).
Notation ask := (askHops ecm invWeight enum ecost len compF compT search searchN needDist allowsFast noFastHops).
Notation weight := (fun (p n : nat) (c d t : Z) => w p n c t).
Notation fr n := (map asP (nth n ecm [])).

Lemma cands_progr : forall n, cands_ok (fr n).
Proof.
  intros n e q I. apply in_map_iff in I. destruct I as (x & E & I). unfold asP in E. injection E as E1 E2. subst q.
  destruct (In_nth_error _ _ I) as (i & Ei). eapply (po_progr _ _ _ _ _ _ _ _ _ PO n i x e); [apply cand_nth; exact Ei|exact E1].
Qed.
Lemma cands_in : forall n i e q, nth_error (fr n) i = Some (Some e, q) <-> exists x, cand_at ecm n i x /\ cE x = Some e /\ cProgr x = q.
Proof.
  intros n i e q. rewrite nth_error_map. split.
  - intros X. destruct (nth_error (nth n ecm []) i) as [x|] eqn:E; [|discriminate]. cbn in X. injection X as X1 X2. exists x.
    split; [apply cand_nth; exact E|]. auto.
  - intros (x & Cx & E1 & <-). apply cand_nth in Cx. rewrite Cx. cbn. unfold asP. rewrite E1. reflexivity.
Qed.
Lemma fits_of : forall n p, parent tnds n p -> ~ stays tnds p n -> fits (step n) (ecost n) (fr p) (fr n).
Proof.
  intros n p Pn NS ef pf et pt d c I1 I2 Ch L (d' & zf & zt & Ch' & Wf & Wt & _ & ->).
  rewrite (cheapest_det (step n) _ _ _ _ Ch' Ch).
  destruct (In_nth_error _ _ I1) as (f & E1). destruct (In_nth_error _ _ I2) as (i & E2).
  pose proof (cands_progr p _ _ I1) as P1. pose proof (cands_progr n _ _ I2) as P2.
  apply cands_in in E1. apply cands_in in E2. destruct E1 as (x & Cx & X1 & X2). destruct E2 as (y & Cy & Y1 & Y2).
  pose proof (po_fits _ _ _ _ _ _ _ _ _ PO n p f i x y ef et d Pn NS Cx Cy X1 Y1 Ch L) as R.
  pose proof (po_graph _ _ _ _ _ _ _ _ _ PO n) as G.
  pose proof (whole_bounds _ _ _ _ Wf (offset_range (ecost n) compF compT (step n) G ef pf P1)).
  pose proof (whole_bounds _ _ _ _ Wt (offset_range (ecost n) compF compT (step n) G et pt P2)). lia.
Qed.

(** ** The answers of the engine *)
Variable cached : bool.
Definition okl (l : Z) : Prop := (0 <= l <= u32max)%Z /\ (cached = true -> (2 <= l)%Z).
Definition ask' (s : option cache) (p n : nat) (cs : list C) (l : Z) : list ans * option cache :=
  if (0 <=? l)%Z && (l <=? u32max)%Z && (negb cached || (2 <=? l)%Z) then ask s p n cs l else ([], s).
Lemma ask_same : forall s p n cs l, okl l -> ask s p n cs l = ask' s p n cs l.
Proof.
  intros s p n cs l [[A B] D]. unfold ask'. apply Z.leb_le in A, B. rewrite A, B. cbn [andb].
  destruct cached; cbn [negb orb]; [|reflexivity]. specialize (D eq_refl). apply Z.leb_le in D. rewrite D. reflexivity.
Qed.
Lemma okl_double : forall l, okl l -> okl (double l).
Proof.
  intros l [A B]. unfold okl, double. assert (E : (u32max / 2 = 2147483647)%Z) by reflexivity. rewrite E. unfold u32max in *.
  destruct (Z.leb_spec l 2147483647); split; try lia; intros X; specialize (B X); lia.
Qed.
Definition Inv (s : option cache) : Prop := (forall n, hvalid (step n) s) /\ (cached = false -> s = None).
Definition Good (p n : nat) (cs : list C) (l : Z) (la : list ans) : Prop :=
  parent tnds n p -> ~ stays tnds p n -> okl l -> (l <= 8 * limit0 p n)%Z -> forall i j c,
  (exists a, In a la /\ aFr a = i /\ aTo a = j /\ aC a = c) <->
  exists x y ef et, cand_at ecm p i x /\ cand_at ecm n j y /\ cE x = Some ef /\ cE y = Some et /\
    hop_cost (step n) (ecost n) ef et (cProgr x) (cProgr y) c /\ (c < l)%Z.
Hypothesis OneNet : cached = true -> forall n m a b, step n a b = step m a b.

Lemma ask_good : forall s p n cs l, Inv s -> Good p n cs l (fst (ask' s p n cs l)) /\ Inv (snd (ask' s p n cs l)).
Proof.
  intros s p n cs l [V N]. unfold ask'.
  destruct ((0 <=? l)%Z && (l <=? u32max)%Z && (negb cached || (2 <=? l)%Z)) eqn:O.
  2:{ split; [|split; assumption]. intros _ _ [[A B] D] _. exfalso. apply Z.leb_le in A, B. rewrite A, B in O. cbn in O.
      destruct cached; [|discriminate]. specialize (D eq_refl). apply Z.leb_le in D. rewrite D in O. discriminate. }
  apply andb_true_iff in O. destruct O as [O O2]. apply andb_true_iff in O. destruct O as [O0 O1]. apply Z.leb_le in O0, O1.
  unfold askHops. rewrite Slow. cbv zeta.
  pose proof (po_graph _ _ _ _ _ _ _ _ _ PO n) as G. pose proof (po_search _ _ _ _ _ _ _ _ _ PO n) as S.
  split; [|split].
  - intros Pn NS _ L8 i j c.
    pose proof (maxProgrStart_spec (ecost n) compF compT (step n) G (fr p) (cands_progr p)) as LO.
    set (M := maxProgrStart (ecost n) (fr p)) in *.
    rewrite (hops_spec enum (ecost n) len compF compT (search n) needDist (step n) HE G S s (fr p) (fr n) l M (V n) (cands_progr p) (cands_progr n) (fits_of n p Pn NS) (conj O0 O1)).
    + split.
      * intros (ef & et & pf & pt & I1 & I2 & Hc & L & _). apply cands_in in I1. apply cands_in in I2.
        destruct I1 as (x & Cx & X1 & <-). destruct I2 as (y & Cy & Y1 & <-). exists x, y, ef, et. auto 8.
      * intros (x & y & ef & et & Cx & Cy & X1 & Y1 & Hc & L). exists ef, et, (cProgr x), (cProgr y).
        split; [apply cands_in; eauto|]. split; [apply cands_in; eauto|]. split; [exact Hc|]. split; [exact L|].
        destruct LO as (_ & _ & LM). destruct LM as [E|(e & q & I & E)].
        { rewrite E. assert (c < u32max)%Z by lia. rewrite Zlt_Qlt in H. lra. }
        pose proof (cands_progr p _ _ I) as Pq. destruct (In_nth_error _ _ I) as (f & If). apply cands_in in If. destruct If as (x0 & C0 & E0 & _).
        pose proof (po_room _ _ _ _ _ _ _ _ _ PO n p f x0 e Pn NS C0 E0) as R.
        pose proof (offset_range (ecost n) compF compT (step n) G e q Pq) as [_ R2].
        assert (c + ecost n e < u32max)%Z as R3 by lia. rewrite Zlt_Qlt in R3. rewrite inject_Z_plus in R3. rewrite E. lra.
    + destruct cached; [right; cbn in O2; apply Z.leb_le in O2; exact O2|left; apply N; reflexivity].
    + exact LO.
  - intros m. pose proof (hops_hc enum (ecost n) len compF compT (search n) needDist (step n) G S s (fr p) (fr n) l (V n) (cands_progr p) (conj O0 O1)) as H.
    destruct cached eqn:Ec; [apply (hvalid_ext (step n)); [intros; apply OneNet; reflexivity|exact H]|].
    rewrite (N eq_refl). rewrite hops_none. exact I.
  - intros Ec. rewrite (N Ec). apply hops_none.
Qed.

(** ** From the log to the network *)
Hypothesis Lim2 : cached = true -> forall p n, (2 <= limit0 p n)%Z.
Lemma okl_limit0 : forall p n, okl (limit0 p n).
Proof. intros p n. split; [apply (po_limit _ _ _ _ _ _ _ _ _ PO)|intros X; apply Lim2; exact X]. Qed.
Variable log : list (nat * hinfo).
Hypothesis ND : NoDup (map fst log).
Hypothesis Has : forall n p, parent tnds n p -> ~ stays tnds p n -> exists h, In (n, h) log.
Notation seqcost := (seqcost add weight ofZ tnds ecm log).
Hypothesis Facts : forall n h, In (n, h) log -> exists p cs, parent tnds n p /\ ~ stays tnds p n /\ limits_ok (limit0 p n) h /\
    (forall l a, In (l, a) (hTrace h) -> Good p n cs l a) /\
    (hFailed h = true -> forall lim la a x y is c, In (lim, la) (hTrace h) -> In a la -> cand_at ecm p (aFr a) x ->
       cand_at ecm n (aTo a) y -> seqcost p (aFr a :: is) c ->
       lt (add (add c (cPen _ _ _ y)) (w p n (aC a) (cTime _ _ _ y - cTime _ _ _ x)%Z)) inf = false) /\
    (hFailed h = false -> exists i is c, seqcost n (i :: is) c /\ lt c inf = true).

Definition limOf (n : nat) : Z :=
  match find (fun e => fst e =? n) log with Some (_, h) => last (map fst (hTrace h)) 0%Z | None => 0%Z end.
Definition stuckOf (n : nat) : Prop := exists h, In (n, h) log /\ hFailed h = true.
Notation drive := (drive w step ecost ecm limOf).
Notation move := (move w ofZ step ecost tnds ecm limOf stuckOf).
Notation way := (way add w ofZ step ecost tnds ecm limOf stuckOf).

Lemma log_uniq : forall n h h', In (n, h) log -> In (n, h') log -> h = h'.
Proof. intros n h h' A B. eapply NoDup_fst_inj; eassumption. Qed.
Lemma limOf_eq : forall n h, In (n, h) log -> limOf n = last (map fst (hTrace h)) 0%Z.
Proof.
  intros n h I. unfold limOf. destruct (find (fun e => fst e =? n) log) as [[m h']|] eqn:F.
  - apply find_some in F. destruct F as [I' E]. apply Nat.eqb_eq in E. cbn in E. subst m. rewrite (log_uniq _ _ _ I I'). reflexivity.
  - eapply find_none in F; [|exact I]. cbn in F. rewrite Nat.eqb_refl in F. discriminate.
Qed.
Lemma parent_fun : forall n p q, parent tnds n p -> parent tnds n q -> p = q.
Proof. intros n p q (a & A & B & _) (b & A' & B' & _). congruence. Qed.
(** The limits tried for a node. *)
Lemma trace_limits : forall p n h, limits_ok (limit0 p n) h -> In (n, h) log ->
  (exists k, k < 4 /\ limOf n = Z.min (2 ^ Z.of_nat k * limit0 p n) u32max) /\
  (forall l la, In (l, la) (hTrace h) -> (l <= limOf n)%Z /\ okl l /\ (l <= 8 * limit0 p n)%Z) /\
  (exists la, In (limOf n, la) (hTrace h)) /\
  (hFailed h = true -> limOf n = Z.min (8 * limit0 p n) u32max).
Proof.
  intros p n h (E & [K1 K4] & Fl) Ih. pose proof (okl_limit0 p n) as [[L1 L2] L3].
  set (k := length (hTrace h)) in *. rewrite (limOf_eq _ _ Ih).
  assert (Nn : map fst (hTrace h) <> []) by (intros X; apply map_eq_nil in X; unfold k in K1; rewrite X in K1; cbn in K1; lia).
  assert (Lst : nth_error (iter_double k (limit0 p n)) (k - 1) = Some (last (map fst (hTrace h)) 0%Z)).
  { rewrite <- E. replace (k - 1) with (length (map fst (hTrace h)) - 1) by (rewrite map_length; reflexivity). apply last_nth. exact Nn. }
  pose proof (iter_double_min _ _ _ _ (conj L1 L2) Lst) as EL.
  assert (Mono : forall a b, a <= b -> (2 ^ Z.of_nat a <= 2 ^ Z.of_nat b)%Z) by (intros; apply Z.pow_le_mono_r; lia).
  split; [exists (k - 1); split; [lia|exact EL]|]. split; [|split].
  - intros l la I. apply (in_map fst) in I. cbn in I. rewrite E in I. destruct (In_nth_error _ _ I) as (j & Ej).
    assert (j < k) by (pose proof (proj1 (nth_error_Some (iter_double k (limit0 p n)) j)) as Q; rewrite iter_double_length in Q; apply Q; congruence).
    pose proof (iter_double_min _ _ _ _ (conj L1 L2) Ej) as ->. rewrite EL.
    pose proof (Mono j (k - 1) ltac:(lia)). pose proof (Mono j 3 ltac:(lia)) as M3. change (2 ^ Z.of_nat 3)%Z with 8%Z in M3.
    pose proof (Mono 0 j ltac:(lia)) as M0. change (2 ^ Z.of_nat 0)%Z with 1%Z in M0.
    split; [nia|]. split; [split; [nia|]|nia]. intros X. specialize (L3 X). assert (2 <= u32max)%Z by (unfold u32max; lia). nia.
  - destruct (exists_last Nn) as (l' & x & X). rewrite X, last_last.
    assert (I : In x (map fst (hTrace h))) by (rewrite X; apply in_or_app; right; left; reflexivity).
    apply in_map_iff in I. destruct I as ([x' la] & <- & I). exists la. exact I.
  - intros F. rewrite EL. destruct (Fl F) as [->|(l & El & D)]; [reflexivity|].
    assert (X : l = last (map fst (hTrace h)) 0%Z).
    { rewrite <- El. destruct (exists_last Nn) as (l' & y & ->). rewrite !last_last. reflexivity. }
    rewrite X, EL in D. rewrite double_min in D by lia. rewrite Z.pow_add_r in D by lia. set (q := (2 ^ Z.of_nat (k - 1))%Z) in *.
    pose proof (Mono (k - 1) 3 ltac:(lia)) as M3. fold q in M3. change (2 ^ Z.of_nat 3)%Z with 8%Z in M3.
    pose proof (Mono 0 (k - 1) ltac:(lia)) as M0. fold q in M0. change (2 ^ Z.of_nat 0)%Z with 1%Z in M0. nia.
Qed.

Lemma hop_drive : forall n p h, parent tnds n p -> ~ stays tnds p n -> In (n, h) log -> forall f i adds,
  drive p n f i adds <-> exists l la a x y, In (l, la) (hTrace h) /\ In a la /\ aFr a = f /\ aTo a = i /\ cand_at ecm p f x /\ cand_at ecm n i y /\
    adds = [cPen _ _ _ y; w p n (aC a) (cTime _ _ _ y - cTime _ _ _ x)%Z].
Proof.
  intros n p h Pn NS Ih f i adds. destruct (Facts n h Ih) as (p' & cs & Pn' & _ & LO & Gd & _).
  pose proof (parent_fun _ _ _ Pn Pn'). subst p'. destruct (trace_limits p n h LO Ih) as (_ & Lt & (la0 & I0) & _). split.
  - intros (x & y & ef & et & c & Cx & Cy & X & Y & Hc & L & ->). destruct (Lt _ _ I0) as (_ & O & L8).
    destruct (proj2 (Gd _ _ I0 Pn NS O L8 f i c)) as (a & Ia & E1 & E2 & E3); [exists x, y, ef, et; auto 8|].
    exists (limOf n), la0, a, x, y. rewrite E3. auto 10.
  - intros (l & la & a & x & y & Il & Ia & Ef & Ei & Cx & Cy & ->). destruct (Lt _ _ Il) as (Le & O & L8).
    destruct (proj1 (Gd _ _ Il Pn NS O L8 f i (aC a))) as (x' & y' & ef & et & Cx' & Cy' & X & Y & Hc & L); [exists a; auto|].
    apply cand_nth in Cx, Cy, Cx', Cy'. rewrite Cx in Cx'. injection Cx' as <-. rewrite Cy in Cy'. injection Cy' as <-.
    exists x, y, ef, et, (aC a). split; [apply cand_nth; exact Cx|]. split; [apply cand_nth; exact Cy|]. repeat (split; [assumption|]). split; [lia|reflexivity].
Qed.
Lemma offers_move : forall n p f i adds, parent tnds n p ->
  (offers weight ofZ tnds ecm log p n f i adds <-> move p n f i adds).
Proof.
  intros n p f i adds Pn. split.
  - intros O. destruct O as [f i x Sy Cx If|h l la a x y NS Ih Il Ia Cx Cy|h tr l la f i x y NS Ih Hf Tr Cx Cy Nu|h f i j x y z e NS Ih Hf Cx Cy J Cz Ez].
    + eapply mv_stay; eassumption.
    + apply mv_drive; [exact NS|]. apply (hop_drive n p h Pn NS Ih). exists l, la, a, x, y. auto 10.
    + assert (El : limOf n = l) by (rewrite (limOf_eq _ _ Ih), Tr, map_app; cbn; apply last_last).
      rewrite <- El. unfold wrap32. change (2 ^ 32)%Z with 4294967296%Z. eapply mv_off; [exact NS|exists h; auto|exact Cx|exact Cy|exact Nu].
    + eapply mv_jump; [exact NS|exists h; auto|exact Cx|exact Cy|exact J|exact Cz|exact Ez].
  - intros O. destruct O as [f i x Sy Cx If|f i adds NS D|f i x y NS (h & Ih & Hf) Cx Cy Nu|f i j x y z e NS (h & Ih & Hf) Cx Cy J Cz Ez].
    + eapply of_stay; eassumption.
    + destruct (Has n p Pn NS) as (h & Ih). apply (hop_drive n p h Pn NS Ih) in D. destruct D as (l & la & a & x & y & Il & Ia & <- & <- & Cx & Cy & ->).
      exact (of_hop weight ofZ tnds ecm log p n h l la a x y NS Ih Il Ia Cx Cy).
    + destruct (Facts n h Ih) as (p' & cs & Pn' & _ & (E & [K1 _] & _) & _).
      assert (Nn : hTrace h <> []) by (intros X; rewrite X in K1; cbn in K1; lia). destruct (exists_last Nn) as (tr & [l la] & X).
      assert (El : limOf n = l) by (rewrite (limOf_eq _ _ Ih), X, map_app; cbn; apply last_last). rewrite El.
      change 4294967296%Z with (2 ^ 32)%Z. exact (of_null weight ofZ tnds ecm log p n h tr l la f i x y NS Ih Hf X Cx Cy Nu).
    + exact (of_dummy weight ofZ tnds ecm log p n h f i j x y z e NS Ih Hf Cx Cy J Cz Ez).
Qed.
Lemma seq_way : forall n is c, seqcost n is c <-> way n is c.
Proof.
  intros n is c. split; intros S.
  - induction S as [n i x F Cx|n p i f is c adds Pn S IH O]; [constructor; assumption|].
    eapply wy_move; [exact Pn|exact IH|]. apply offers_move; assumption.
  - induction S as [n i x F Cx|n p i f is c adds Pn S IH O]; [constructor; assumption|].
    eapply sc_step; [exact Pn|exact IH|]. apply offers_move; assumption.
Qed.
Lemma limits_hold : limits_from tnds limOf limit0.
Proof.
  intros n p Pn NS. destruct (Has n p Pn NS) as (h & Ih). destruct (Facts n h Ih) as (p' & cs & Pn' & _ & LO & _).
  pose proof (parent_fun _ _ _ Pn Pn'). subst p'. destruct (trace_limits p n h LO Ih) as ((k & K & E) & _). exists (Z.of_nat k). split; [lia|]. exact E.
Qed.
Lemma stuck_hold : gives_up_only_then lt add inf w ofZ step ecost tnds ecm limOf stuckOf limit0.
Proof.
  intros n p Pn NS. destruct (Has n p Pn NS) as (h & Ih). destruct (Facts n h Ih) as (p' & cs & Pn' & _ & LO & _ & Ft & Ff).
  pose proof (parent_fun _ _ _ Pn Pn'). subst p'. destruct (trace_limits p n h LO Ih) as (_ & _ & _ & L8). split.
  - split.
    + intros (h' & Ih' & Hf) (p' & f & i & is & c & adds & Pn'' & W & D & Fi). pose proof (parent_fun _ _ _ Pn Pn''). subst p'.
      rewrite (log_uniq _ _ _ Ih' Ih) in Hf. apply (hop_drive n p h Pn NS Ih) in D. destruct D as (l & la & a & x & y & Il & Ia & <- & <- & Cx & Cy & ->).
      apply seq_way in W. specialize (Ft Hf l la a x y is c Il Ia Cx Cy W). cbn in Fi. congruence.
    + intros ND'. destruct (hFailed h) eqn:Hf; [exists h; auto|]. exfalso. apply ND'. destruct (Ff eq_refl) as (i & is & c & S & Fi).
      apply seq_way in S. inversion S as [? ? ? (nd & E & P0 & N0)|? q ? f is' c' adds Pq W M]; subst.
      * destruct Pn as (nd' & E' & P' & _ & Pz). congruence.
      * pose proof (parent_fun _ _ _ Pn Pq). subst q. exists p, f, i, is', c', adds. split; [exact Pn|]. split; [exact W|]. split; [|exact Fi].
        destruct M as [? ? ? Sy|? ? ? _ D|? ? ? ? _ (h' & I' & H')|? ? ? ? ? ? ? _ (h' & I' & H')]; [contradiction|exact D| |];
          rewrite (log_uniq _ _ _ I' Ih) in H'; congruence.
  - intros (h' & Ih' & Hf). rewrite (log_uniq _ _ _ Ih' Ih) in Hf. exact (L8 Hf).
Qed.

(** ** The drives drawn *)
Lemma hop_drawn : forall n p x y h f i, parent tnds n p -> ~ stays tnds p n -> cand_at ecm p f x -> cand_at ecm n i y ->
  is_hop ecost spath ecm log p n x y h ->
  (forall ef et c, cE x = Some ef -> cE y = Some et ->
       hop_cost (step n) (ecost n) ef et (cProgr x) (cProgr y) c -> (c < limOf n)%Z ->
       exists d, cheapest (step n) ef et d /\ walk (step n) ef et d (rev (hEdges _ _ h))) /\
    (cE x = None \/ cE y = None -> hEdges _ _ h = []).
Proof.
  intros n p x y h f i Pn NS Cx Cy (lim & cs & b & (h0 & tr & la & Ih & Tr) & Ec & SL & H). split.
  2:{ intros [E|E]; rewrite E in H; destruct (cE x); destruct (cE y); try discriminate; apply H. }
  intros ef et c Ex Ey (d & zf & zt & Ch & Wf & Wt & _ & ->) L. rewrite Ex, Ey in H. destruct H as (_ & _ & _ & _ & H).
  assert (El : limOf n = lim) by (rewrite (limOf_eq _ _ Ih), Tr, map_app; cbn; apply last_last). rewrite El in L.
  destruct (Facts n h0 Ih) as (p' & ? & Pn' & _ & LO & _). pose proof (parent_fun _ _ _ Pn Pn'). subst p'.
  destruct (trace_limits p n h0 LO Ih) as (_ & Lt & _). destruct (Lt lim la) as (_ & _ & L8); [rewrite Tr; apply in_or_app; right; left; reflexivity|].
  pose proof (po_graph _ _ _ _ _ _ _ _ _ PO n) as G.
  pose proof (po_progr _ _ _ _ _ _ _ _ _ PO p f x ef Cx Ex) as P1. pose proof (po_progr _ _ _ _ _ _ _ _ _ PO n i y et Cy Ey) as P2.
  pose proof (offset_range (ecost n) compF compT (step n) G ef (cProgr x) P1) as R1.
  pose proof (whole_bounds _ _ _ _ Wf R1) as B1. pose proof (whole_bounds _ _ _ _ Wt (offset_range (ecost n) compF compT (step n) G et (cProgr y) P2)) as B2.
  pose proof (po_room _ _ _ _ _ _ _ _ _ PO n p f x ef Pn NS Cx Ex) as R.
  assert (Db : (d < b)%Z).
  { destruct SL as (M & M0 & Ms & _ & S1 & S2).
    destruct (Qlt_le_dec (inject_Z lim + M) (inject_Z u32max)) as [Q|Q]; [|specialize (S2 Q); lia]. destruct (S1 Q) as [_ S3].
    assert (Zm : (inject_Z zf <= M)%Q).
    { destruct (Qlt_le_dec 0 (cProgr x)) as [X|X].
      - destruct Cx as (cs' & Ec' & Ex'). rewrite Ec in Ec'. injection Ec' as <-.
        pose proof (Ms x ef (nth_error_In _ _ Ex') Ex X). destruct Wf. lra.
      - assert (E0 : (cProgr x == 0)%Q) by lra. destruct Wf as [W1 _]. rewrite E0 in W1. lra. }
    assert (lim + zf < b + 1)%Z by (rewrite Zlt_Qlt, inject_Z_plus; lra). lia. }
  pose proof (po_path _ _ _ _ _ _ _ _ _ PO n ef et b) as Ps. destruct (spath n ef et b) as [sc sp]. cbn [fst snd] in H.
  destruct Ps as [(Cs & Lb & Ws)|(_ & Nb)].
  - apply Z.ltb_lt in Lb. rewrite Lb in H. rewrite H. exists sc. split; [exact Cs|exact Ws].
  - destruct Ch as ((es & W) & _). specialize (Nb _ _ W). lia.
Qed.
Lemma yields_drawn : forall n is hs, yields ecost spath tnds ecm log n is hs -> drawn step ecost tnds ecm limOf n is hs.
Proof.
  intros n is hs Y. induction Y as [n i F|n p i f is hs Pn Sy Y IH|n p i f is hs x y h Pn NS Y IH Cx Cy H].
  - constructor. exact F.
  - eapply dr_stay; eassumption.
  - destruct (is_hop_ends _ _ _ ecost spath ecm _ _ _ _ _ _ H) as [E1 E2]. destruct (hop_drawn n p x y h f i Pn NS Cx Cy H) as [D1 D2].
    eapply dr_drive; eassumption.
Qed.
End Main.

Lemma route_keeps : forall pos attrs C E P St lt add inf p0 ask weight ofZ limit0 startCost spath
    (tnds : list (node pos attrs)) (ecm : list (list (cand C E P))),
  cost_laws lt add inf -> tree tnds ->
  forall Inv : St -> Prop, (forall s p n cs l, Inv s -> Inv (snd (ask s p n cs l))) ->
  forall (s0 : St) leaves r m, Inv s0 ->
  route pos attrs C lt add inf E P p0 St ask weight ofZ limit0 startCost spath tnds ecm s0 leaves = Some (r, m) -> Inv (rSt _ _ r).
Proof.
  intros pos attrs C E P St lt add inf p0 ask weight ofZ limit0 startCost spath tnds ecm CL T Inv HG s0 leaves r m I0 H.
  unfold route in H. destruct (solve _ _ _ _ _ _ _ _ _ _ _ _ _ _ _ s0) as [r'|] eqn:Es; [|discriminate].
  destruct (allLeaves _ _ _ _ _ _ _ _ _ _ _ _ _ r' leaves) as [m'|] eqn:Em; [|discriminate]. inversion H; subst r' m'.
  destruct (solve_inv pos attrs C E P lt add inf St ask weight ofZ limit0 startCost spath tnds ecm CL T Inv (fun _ _ _ _ _ => True)
    (fun s p n cs l X => conj I (HG s p n cs l X)) s0 r I0 Es) as (D & G & _).
  exact (gi_inv _ _ _ _ _ _ _ _ _ _ _ _ _ _ _ _ _ _ G).
Qed.
Lemma cheapest_core_inv : forall pos attrs C P lt add inf p0 w ofZ step ecost compF compT search searchN spath limit0 enum len
    invWeight needDist allowsFast noFastHops (tnds : list (node pos attrs)) (ecm : list (list (cand C edge P))),
  cost_laws lt add inf -> tree tnds -> enumerates enum ->
  problem_ok step ecost compF compT search spath limit0 tnds ecm -> noFastHops || negb allowsFast = true ->
  forall cached, (cached = true -> forall n m a b, step n a b = step m a b) -> (cached = true -> forall p n, (2 <= limit0 p n)%Z) ->
  forall hc leaves r m, Inv step cached hc ->
  route pos attrs C lt add inf edge P p0 (option cache)
    (askHops ecm invWeight enum ecost len compF compT search searchN needDist allowsFast noFastHops)
    (fun p n c _ t => w p n c t) ofZ limit0 ecost spath tnds ecm hc leaves = Some (r, m) ->
  let lim := limOf (rLog _ _ r) in let stuck := stuckOf (rLog _ _ r) in
    Inv step cached (rSt _ _ r) /\
    limits_from tnds lim limit0 /\
    gives_up_only_then lt add inf w ofZ step ecost tnds ecm lim stuck limit0 /\
    (forall n is c, seqcost add (fun p n c _ t => w p n c t) ofZ tnds ecm (rLog _ _ r) n is c <-> way add w ofZ step ecost tnds ecm lim stuck n is c) /\
    forall leaf hs, In (leaf, hs) m ->
      (exists is c, way add w ofZ step ecost tnds ecm lim stuck leaf is c /\ lt c inf = true) ->
      cheapest_way lt add inf w ofZ step ecost tnds ecm lim stuck leaf hs.
Proof.
  intros pos attrs C P lt add inf p0 w ofZ step ecost compF compT search searchN spath limit0 enum len
    invWeight needDist allowsFast noFastHops tnds ecm CL T HE PO Slow cached ON L2 hc leaves r m I0 Ro.
  rewrite (route_ext lt add inf _ (ask' ecost compF compT search searchN enum len invWeight needDist allowsFast noFastHops ecm cached)
    (fun p n c _ t => w p n c t) ofZ limit0 tnds ecm (okl cached)
    (ask_same ecost compF compT search searchN enum len invWeight needDist allowsFast noFastHops ecm cached)
    (okl_limit0 step ecost compF compT search spath limit0 tnds ecm PO cached L2) (okl_double cached)) in Ro.
  destruct (C25_moves_are_answers pos attrs C edge P (option cache) lt add inf p0 _ _ _ _ _ _ tnds ecm CL T (Inv step cached)
    (Good step ecost limit0 tnds ecm cached)
    (ask_good step ecost compF compT search searchN spath limit0 enum len invWeight needDist allowsFast noFastHops tnds ecm HE PO Slow cached ON)
    hc leaves r m I0 Ro) as (ND & Has & Facts).
  assert (Fx : forall n h, In (n, h) (rLog _ _ r) -> exists p cs, parent tnds n p /\ ~ stays tnds p n /\ limits_ok (limit0 p n) h /\
    (forall l a, In (l, a) (hTrace h) -> Good step ecost limit0 tnds ecm cached p n cs l a) /\
    (hFailed h = true -> forall lim la a x y is c, In (lim, la) (hTrace h) -> In a la -> cand_at ecm p (aFr a) x ->
       cand_at ecm n (aTo a) y -> seqcost add (fun p n c _ t => w p n c t) ofZ tnds ecm (rLog _ _ r) p (aFr a :: is) c ->
       lt (add (add c (cPen _ _ _ y)) (w p n (aC a) (cTime _ _ _ y - cTime _ _ _ x)%Z)) inf = false) /\
    (hFailed h = false -> exists i is c, seqcost add (fun p n c _ t => w p n c t) ofZ tnds ecm (rLog _ _ r) n (i :: is) c /\ lt c inf = true)).
  { intros n h I. destruct (Facts n h I) as (p & cs & A1 & A2 & A3 & _ & A4 & A5 & A6). exists p, cs. auto 8. }
  pose proof (route_keeps pos attrs C edge P (option cache) lt add inf p0 _ _ _ _ _ _ tnds ecm CL T (Inv step cached)
    (fun s p n cs l X => proj2 (ask_good step ecost compF compT search searchN spath limit0 enum len invWeight needDist allowsFast noFastHops tnds ecm HE PO Slow cached ON s p n cs l X))
    hc leaves r m I0 Ro) as Keep.
  set (log := rLog _ _ r) in *. cbv zeta. split; [exact Keep|].
  split; [exact (limits_hold lt add inf w ofZ step ecost compF compT search spath limit0 tnds ecm PO cached L2 log ND Has Fx)|].
  split; [exact (stuck_hold lt add inf w ofZ step ecost compF compT search spath limit0 tnds ecm PO cached L2 log ND Has Fx)|].
  pose proof (seq_way lt add inf w ofZ step ecost compF compT search spath limit0 tnds ecm PO cached L2 log ND Has Fx) as SW.
  split; [exact SW|]. intros leaf hs I (is0 & c0 & W0 & F0).
  destruct (C25_chosen_sequence_optimal _ _ _ _ _ _ _ _ _ _ _ _ _ _ _ _ _ _ CL T _ _ _ _ Ro leaf hs I) as (is & c & S & Y & Mn).
  { exists is0, c0. split; [apply SW; exact W0|exact F0]. }
  exists is, c. split; [apply SW; exact S|]. split.
  { destruct (lt c inf) eqn:X; [reflexivity|]. rewrite (cl_ntrans _ _ _ CL _ _ _ (Mn _ _ (proj2 (SW _ _ _) W0)) X) in F0. discriminate. }
  split.
  - exact (yields_drawn lt add inf w ofZ step ecost compF compT search spath limit0 tnds ecm PO cached L2 log ND Fx leaf is hs Y).
  - intros is' c' W'. apply (Mn is' c'). apply SW. exact W'.
Qed.
Lemma cheapest_core : forall pos attrs C P lt add inf p0 w ofZ step ecost compF compT search searchN spath limit0 enum len
    invWeight needDist allowsFast noFastHops (tnds : list (node pos attrs)) (ecm : list (list (cand C edge P))),
  cost_laws lt add inf -> tree tnds -> enumerates enum ->
  problem_ok step ecost compF compT search spath limit0 tnds ecm -> noFastHops || negb allowsFast = true ->
  forall hc leaves r m, cache_ok step limit0 hc ->
  route pos attrs C lt add inf edge P p0 (option cache)
    (askHops ecm invWeight enum ecost len compF compT search searchN needDist allowsFast noFastHops)
    (fun p n c _ t => w p n c t) ofZ limit0 ecost spath tnds ecm hc leaves = Some (r, m) ->
  let lim := limOf (rLog _ _ r) in let stuck := stuckOf (rLog _ _ r) in
    limits_from tnds lim limit0 /\
    gives_up_only_then lt add inf w ofZ step ecost tnds ecm lim stuck limit0 /\
    (forall n is c, seqcost add (fun p n c _ t => w p n c t) ofZ tnds ecm (rLog _ _ r) n is c <-> way add w ofZ step ecost tnds ecm lim stuck n is c) /\
    forall leaf hs, In (leaf, hs) m ->
      (exists is c, way add w ofZ step ecost tnds ecm lim stuck leaf is c /\ lt c inf = true) ->
      cheapest_way lt add inf w ofZ step ecost tnds ecm lim stuck leaf hs.
Proof.
  intros pos attrs C P lt add inf p0 w ofZ step ecost compF compT search searchN spath limit0 enum len
    invWeight needDist allowsFast noFastHops tnds ecm CL T HE PO Slow hc leaves r m CO Ro.
  set (cached := match hc with Some _ => true | None => false end).
  assert (ON : cached = true -> forall n m a b, step n a b = step m a b).
  { intros X. destruct CO as [->|(-> & A & _)]; [discriminate|exact A]. }
  assert (L2 : cached = true -> forall p n, (2 <= limit0 p n)%Z).
  { intros X. destruct CO as [->|(-> & _ & A)]; [discriminate|exact A]. }
  assert (I0 : Inv step cached hc).
  { destruct CO as [->|(-> & _)]; (split; [intros n|]); cbn; auto; try discriminate. }
  exact (proj2 (cheapest_core_inv pos attrs C P lt add inf p0 w ofZ step ecost compF compT search searchN spath limit0 enum len
    invWeight needDist allowsFast noFastHops tnds ecm CL T HE PO Slow cached ON L2 hc leaves r m I0 Ro)).
Qed.
