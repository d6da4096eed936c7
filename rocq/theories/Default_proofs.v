(** Proofs for C83: what the default engine offers are drives through the network. *)
From Coq Require Import List Arith ZArith QArith Qround Bool Lia Lqa.
From Verif Require Import ListAux HopCache_model TripTrie_model TripTrie_spec Router_model Router_spec Router_proofs Router_props
  Hops_model Hops_spec Hops_proofs Ecm_model Optimal_spec Optimal_proofs Default_spec.
Import ListNotations.
Open Scope nat_scope.

Section Main.
Context {pos attrs C P : Type}.
Variable lt : C -> C -> bool.
Variable add : C -> C -> C.
Variable inf : C.
Variable p0 : P.
Variable w : nat -> nat -> Z -> Z -> C.
Variable ofZ : Z -> C.
Variable step : nat -> edge -> edge -> option Z.
Variable ecost : nat -> edge -> Z.
Variable compF compT : edge -> nat.
Variable search : nat -> edge -> list edge -> Z -> edge -> Z * list edge.
Variable searchN : nat -> list edge -> list edge -> (edge -> Z) -> Z -> Z -> list (edge * (edge * Z)).
Variable spath : nat -> edge -> edge -> Z -> Z * list edge.
Variable limit0 : nat -> nat -> Z.
Variable enum : list edge -> list edge.
Variable len : edge -> Q.
Variable invWeight : C -> option Z.
Variable needDist allowsFast noFastHops : bool.
Variable tnds : list (node pos attrs).
Variable ecm : list (list (cand C edge P)).
Hypothesis CL : cost_laws lt add inf.
Hypothesis T : tree tnds.
Hypothesis HE : enumerates enum.
Hypothesis PO : fast_problem_ok step ecost compF compT searchN spath limit0 tnds ecm.
Hypothesis Fast : noFastHops || negb allowsFast = false.
Notation cand := (cand C edge P).
Notation cE := (cE C edge P).
Notation cProgr := (cProgr C edge P).
Notation ask := (askHops ecm invWeight enum ecost len compF compT search searchN needDist allowsFast noFastHops).
Notation weight := (fun (p n : nat) (c d t : Z) => w p n c t).
Notation fr n := (map asP (nth n ecm [])).

Lemma cands_progr : forall n, cands_ok (fr n).
Proof.
  intros n e q I. apply in_map_iff in I. destruct I as (x & E & I). unfold asP in E. injection E as E1 E2. subst q.
  destruct (In_nth_error _ _ I) as (i & Ei). eapply (fp_progr _ _ _ _ _ _ _ _ _ PO n i x e); [apply cand_nth; exact Ei|exact E1].
Qed.
Lemma cands_in : forall n i e q, nth_error (fr n) i = Some (Some e, q) <-> exists x, cand_at ecm n i x /\ cE x = Some e /\ cProgr x = q.
Proof.
  intros n i e q. rewrite nth_error_map. split.
  - intros X. destruct (nth_error (nth n ecm []) i) as [x|] eqn:E; [|discriminate]. cbn in X. injection X as X1 X2. exists x.
    split; [apply cand_nth; exact E|]. auto.
  - intros (x & Cx & E1 & <-). apply cand_nth in Cx. rewrite Cx. cbn. unfold asP. rewrite E1. reflexivity.
Qed.
Lemma fits_of : forall n p, parent tnds n p -> ~ stays tnds p n -> fits (step n) (ecost n) (fr p) (fr n).
Proof.
  intros n p Pn NS ef pf et pt d c I1 I2 Ch L (d' & zf & zt & Ch' & Wf & Wt & _ & ->).
  rewrite (cheapest_det (step n) _ _ _ _ Ch' Ch).
  destruct (In_nth_error _ _ I1) as (f & E1). destruct (In_nth_error _ _ I2) as (i & E2).
  pose proof (cands_progr p _ _ I1) as P1. pose proof (cands_progr n _ _ I2) as P2.
  apply cands_in in E1. apply cands_in in E2. destruct E1 as (x & Cx & X1 & X2). destruct E2 as (y & Cy & Y1 & Y2).
  pose proof (fp_fits _ _ _ _ _ _ _ _ _ PO n p f i x y ef et d Pn NS Cx Cy X1 Y1 Ch L) as R.
  pose proof (fp_graph _ _ _ _ _ _ _ _ _ PO n) as G.
  pose proof (whole_bounds _ _ _ _ Wf (offset_range (ecost n) compF compT (step n) G ef pf P1)).
  pose proof (whole_bounds _ _ _ _ Wt (offset_range (ecost n) compF compT (step n) G et pt P2)). unfold u32max. lia.
Qed.

(** ** The answers of the engine *)
Definition okl (l : Z) : Prop := (0 <= l <= u32max)%Z.
Definition Sound (p n : nat) (cs : list C) (l : Z) (la : list ans) : Prop :=
  parent tnds n p -> ~ stays tnds p n -> okl l -> forall a, In a la ->
  exists x y ef et, cand_at ecm p (aFr a) x /\ cand_at ecm n (aTo a) y /\ cE x = Some ef /\ cE y = Some et /\
    hop_cost (step n) (ecost n) ef et (cProgr x) (cProgr y) (aC a) /\ (aC a < l)%Z.
Lemma nth_combine : forall A B (l1 : list A) (l2 : list B) i x y, nth_error (combine l1 l2) i = Some (x, y) -> nth_error l1 i = Some x.
Proof. induction l1 as [|a l1 IH]; intros [|b l2] [|i] x y E; try discriminate; cbn in E |- *; [injection E as -> _; reflexivity|eauto]. Qed.
Lemma combine_incl : forall A B (l1 : list A) (l2 : list B) x, In x (map fst (combine l1 l2)) -> In x l1.
Proof. intros A B l1 l2 x I. apply in_map_iff in I. destruct I as ([a b] & <- & I). apply in_combine_l in I. exact I. Qed.
Lemma ask_sound : forall s p n cs l, Sound p n cs l (fst (ask s p n cs l)).
Proof.
  intros s p n cs l Pn NS O a Ia. unfold askHops in Ia. rewrite Fast in Ia. cbv zeta in Ia.
  pose proof (fp_graph _ _ _ _ _ _ _ _ _ PO n) as G. pose proof (fp_search _ _ _ _ _ _ _ _ _ PO n) as S.
  set (fs := combine (fr p) (map invWeight cs)) in *.
  assert (Cf : cands_ok (map fst fs)) by (intros e q I; apply (cands_progr p e q); eapply combine_incl; exact I).
  destruct (fast_sound enum (ecost n) len compF compT (step n) G (searchN n) S s fs (fr n) l (maxProgrStart (ecost n) (map fst fs)) a Cf (cands_progr n)) as (ef & et & pf & pt & z & E1 & E2 & Hc & L & _).
  - intros ef pf et pt d c I1 I2. apply (fits_of n p Pn NS ef pf et pt d c); [eapply combine_incl; exact I1|exact I2].
  - exact O.
  - exact (maxProgrStart_spec (ecost n) compF compT (step n) G (map fst fs) Cf).
  - exact Ia.
  - apply nth_combine in E1. apply cands_in in E1. apply cands_in in E2. destruct E1 as (x & Cx & X1 & <-). destruct E2 as (y & Cy & Y1 & <-).
    exists x, y, ef, et. auto 8.
Qed.

(** ** From the log to the network *)
Lemma okl_limit0 : forall p n, okl (limit0 p n).
Proof. intros p n. apply (fp_limit _ _ _ _ _ _ _ _ _ PO). Qed.
Variable log : list (nat * hinfo).
Hypothesis ND : NoDup (map fst log).
Hypothesis Has : forall n p, parent tnds n p -> ~ stays tnds p n -> exists h, In (n, h) log.
Notation seqcost := (seqcost add weight ofZ tnds ecm log).
Hypothesis Facts : forall n h, In (n, h) log -> exists p cs, parent tnds n p /\ ~ stays tnds p n /\ limits_ok (limit0 p n) h /\
    (forall l a, In (l, a) (hTrace h) -> Sound p n cs l a) /\
    (hFailed h = true -> forall lim la a x y is c, In (lim, la) (hTrace h) -> In a la -> cand_at ecm p (aFr a) x ->
       cand_at ecm n (aTo a) y -> seqcost p (aFr a :: is) c ->
       lt (add (add c (cPen _ _ _ y)) (w p n (aC a) (cTime _ _ _ y - cTime _ _ _ x)%Z)) inf = false) /\
    (hFailed h = false -> exists i is c, seqcost n (i :: is) c /\ lt c inf = true).

Definition limOf (n : nat) : Z :=
  match find (fun e => fst e =? n) log with Some (_, h) => last (map fst (hTrace h)) 0%Z | None => 0%Z end.
Definition stuckOf (n : nat) : Prop := exists h, In (n, h) log /\ hFailed h = true.
Notation drive := (drive w step ecost ecm limOf).
Notation move := (move w ofZ step ecost tnds ecm limOf stuckOf).
Notation way := (way add w ofZ step ecost tnds ecm limOf stuckOf).

Lemma log_uniq : forall n h h', In (n, h) log -> In (n, h') log -> h = h'.
Proof. intros n h h' A B. eapply NoDup_fst_inj; eassumption. Qed.
Lemma limOf_eq : forall n h, In (n, h) log -> limOf n = last (map fst (hTrace h)) 0%Z.
Proof.
  intros n h I. unfold limOf. destruct (find (fun e => fst e =? n) log) as [[m h']|] eqn:F.
  - apply find_some in F. destruct F as [I' E]. apply Nat.eqb_eq in E. cbn in E. subst m. rewrite (log_uniq _ _ _ I I'). reflexivity.
  - eapply find_none in F; [|exact I]. cbn in F. rewrite Nat.eqb_refl in F. discriminate.
Qed.
Lemma parent_fun : forall n p q, parent tnds n p -> parent tnds n q -> p = q.
Proof. intros n p q (a & A & B & _) (b & A' & B' & _). congruence. Qed.
(** The limits tried for a node. *)
Lemma trace_limits : forall p n h, limits_ok (limit0 p n) h -> In (n, h) log ->
  (exists k, k < 4 /\ limOf n = Z.min (2 ^ Z.of_nat k * limit0 p n) u32max) /\
  (forall l la, In (l, la) (hTrace h) -> (l <= limOf n)%Z /\ okl l /\ (l <= 8 * limit0 p n)%Z) /\
  (exists la, In (limOf n, la) (hTrace h)) /\
  (hFailed h = true -> limOf n = Z.min (8 * limit0 p n) u32max).
Proof.
  intros p n h (E & [K1 K4] & Fl) Ih. pose proof (okl_limit0 p n) as [L1 L2].
  set (k := length (hTrace h)) in *. rewrite (limOf_eq _ _ Ih).
  assert (Nn : map fst (hTrace h) <> []) by (intros X; apply map_eq_nil in X; unfold k in K1; rewrite X in K1; cbn in K1; lia).
  assert (Lst : nth_error (iter_double k (limit0 p n)) (k - 1) = Some (last (map fst (hTrace h)) 0%Z)).
  { rewrite <- E. replace (k - 1) with (length (map fst (hTrace h)) - 1) by (rewrite map_length; reflexivity). apply last_nth. exact Nn. }
  pose proof (iter_double_min _ _ _ _ (conj L1 L2) Lst) as EL.
  assert (Mono : forall a b, a <= b -> (2 ^ Z.of_nat a <= 2 ^ Z.of_nat b)%Z) by (intros; apply Z.pow_le_mono_r; lia).
  split; [exists (k - 1); split; [lia|exact EL]|]. split; [|split].
  - intros l la I. apply (in_map fst) in I. cbn in I. rewrite E in I. destruct (In_nth_error _ _ I) as (j & Ej).
    assert (j < k) by (pose proof (proj1 (nth_error_Some (iter_double k (limit0 p n)) j)) as Q; rewrite iter_double_length in Q; apply Q; congruence).
    pose proof (iter_double_min _ _ _ _ (conj L1 L2) Ej) as ->. rewrite EL.
    pose proof (Mono j (k - 1) ltac:(lia)). pose proof (Mono j 3 ltac:(lia)) as M3. change (2 ^ Z.of_nat 3)%Z with 8%Z in M3.
    pose proof (Mono 0 j ltac:(lia)) as M0. change (2 ^ Z.of_nat 0)%Z with 1%Z in M0.
    split; [nia|]. split; [|nia]. split; nia.
  - destruct (exists_last Nn) as (l' & x & X). rewrite X, last_last.
    assert (I : In x (map fst (hTrace h))) by (rewrite X; apply in_or_app; right; left; reflexivity).
    apply in_map_iff in I. destruct I as ([x' la] & <- & I). exists la. exact I.
  - intros F. rewrite EL. destruct (Fl F) as [->|(l & El & D)]; [reflexivity|].
    assert (X : l = last (map fst (hTrace h)) 0%Z).
    { rewrite <- El. destruct (exists_last Nn) as (l' & y & ->). rewrite !last_last. reflexivity. }
    rewrite X, EL in D. rewrite double_min in D by lia. rewrite Z.pow_add_r in D by lia. set (q := (2 ^ Z.of_nat (k - 1))%Z) in *.
    pose proof (Mono (k - 1) 3 ltac:(lia)) as M3. fold q in M3. change (2 ^ Z.of_nat 3)%Z with 8%Z in M3.
    pose proof (Mono 0 (k - 1) ltac:(lia)) as M0. fold q in M0. change (2 ^ Z.of_nat 0)%Z with 1%Z in M0. nia.
Qed.

Lemma hop_drive : forall n p h, parent tnds n p -> ~ stays tnds p n -> In (n, h) log -> forall l la a x y,
  In (l, la) (hTrace h) -> In a la -> cand_at ecm p (aFr a) x -> cand_at ecm n (aTo a) y ->
  drive p n (aFr a) (aTo a) [cPen _ _ _ y; w p n (aC a) (cTime _ _ _ y - cTime _ _ _ x)%Z].
Proof.
  intros n p h Pn NS Ih l la a x y Il Ia Cx Cy. destruct (Facts n h Ih) as (p' & cs & Pn' & _ & LO & Gd & _).
  pose proof (parent_fun _ _ _ Pn Pn'). subst p'. destruct (trace_limits p n h LO Ih) as (_ & Lt & _). destruct (Lt _ _ Il) as (Le & O & _).
  destruct (Gd _ _ Il Pn NS O a Ia) as (x' & y' & ef & et & Cx' & Cy' & X & Y & Hc & L).
  apply cand_nth in Cx, Cy, Cx', Cy'. rewrite Cx in Cx'. injection Cx' as <-. rewrite Cy in Cy'. injection Cy' as <-.
  exists x, y, ef, et, (aC a). split; [apply cand_nth; exact Cx|]. split; [apply cand_nth; exact Cy|]. repeat (split; [assumption|]). split; [lia|reflexivity].
Qed.
Lemma offers_move : forall n p f i adds, parent tnds n p ->
  offers weight ofZ tnds ecm log p n f i adds -> move p n f i adds.
Proof.
  intros n p f i adds Pn O. destruct O as [f i x Sy Cx If|h l la a x y NS Ih Il Ia Cx Cy|h tr l la f i x y NS Ih Hf Tr Cx Cy Nu|h f i j x y z e NS Ih Hf Cx Cy J Cz Ez].
  + eapply mv_stay; eassumption.
  + apply mv_drive; [exact NS|]. eapply (hop_drive n p h Pn NS Ih); eassumption.
  + assert (El : limOf n = l) by (rewrite (limOf_eq _ _ Ih), Tr, map_app; cbn; apply last_last).
    rewrite <- El. unfold wrap32. change (2 ^ 32)%Z with 4294967296%Z. eapply mv_off; [exact NS|exists h; auto|exact Cx|exact Cy|exact Nu].
  + eapply mv_jump; [exact NS|exists h; auto|exact Cx|exact Cy|exact J|exact Cz|exact Ez].
Qed.
Lemma seq_way : forall n is c, seqcost n is c -> way n is c.
Proof.
  intros n is c S. induction S as [n i x F Cx|n p i f is c adds Pn S IH O]; [constructor; assumption|].
  eapply wy_move; [exact Pn|exact IH|]. apply offers_move; assumption.
Qed.
Lemma limits_hold : limits_from tnds limOf limit0.
Proof.
  intros n p Pn NS. destruct (Has n p Pn NS) as (h & Ih). destruct (Facts n h Ih) as (p' & cs & Pn' & _ & LO & _).
  pose proof (parent_fun _ _ _ Pn Pn'). subst p'. destruct (trace_limits p n h LO Ih) as ((k & K & E) & _). exists (Z.of_nat k). split; [lia|]. exact E.
Qed.
Lemma stuck_hold : gives_up_last tnds limOf stuckOf limit0.
Proof.
  intros n p Pn NS (h & Ih & Hf). destruct (Facts n h Ih) as (p' & cs & Pn' & _ & LO & _).
  pose proof (parent_fun _ _ _ Pn Pn'). subst p'. destruct (trace_limits p n h LO Ih) as (_ & _ & _ & L8). exact (L8 Hf).
Qed.

(** ** The drives drawn *)
Lemma hop_drawn : forall n p x y h f i, parent tnds n p -> ~ stays tnds p n -> cand_at ecm p f x -> cand_at ecm n i y ->
  is_hop ecost spath ecm log p n x y h ->
  (forall ef et c, cE x = Some ef -> cE y = Some et ->
       hop_cost (step n) (ecost n) ef et (cProgr x) (cProgr y) c -> (c < limOf n)%Z ->
       exists d, cheapest (step n) ef et d /\ walk (step n) ef et d (rev (hEdges _ _ h))) /\
    (cE x = None \/ cE y = None -> hEdges _ _ h = []).
Proof.
  intros n p x y h f i Pn NS Cx Cy (lim & cs & b & (h0 & tr & la & Ih & Tr) & Ec & SL & H). split.
  2:{ intros [E|E]; rewrite E in H; destruct (cE x); destruct (cE y); try discriminate; apply H. }
  intros ef et c Ex Ey (d & zf & zt & Ch & Wf & Wt & _ & ->) L. rewrite Ex, Ey in H. destruct H as (_ & _ & _ & _ & H).
  assert (El : limOf n = lim) by (rewrite (limOf_eq _ _ Ih), Tr, map_app; cbn; apply last_last). rewrite El in L.
  destruct (Facts n h0 Ih) as (p' & ? & Pn' & _ & LO & _). pose proof (parent_fun _ _ _ Pn Pn'). subst p'.
  destruct (trace_limits p n h0 LO Ih) as (_ & Lt & _). destruct (Lt lim la) as (_ & _ & L8); [rewrite Tr; apply in_or_app; right; left; reflexivity|].
  pose proof (fp_graph _ _ _ _ _ _ _ _ _ PO n) as G.
  pose proof (fp_progr _ _ _ _ _ _ _ _ _ PO p f x ef Cx Ex) as P1. pose proof (fp_progr _ _ _ _ _ _ _ _ _ PO n i y et Cy Ey) as P2.
  pose proof (offset_range (ecost n) compF compT (step n) G ef (cProgr x) P1) as R1.
  pose proof (whole_bounds _ _ _ _ Wf R1) as B1. pose proof (whole_bounds _ _ _ _ Wt (offset_range (ecost n) compF compT (step n) G et (cProgr y) P2)) as B2.
  pose proof (fp_room _ _ _ _ _ _ _ _ _ PO n p f x ef Pn NS Cx Ex) as R. change 4294967295%Z with u32max in R.
  assert (Db : (d < b)%Z).
  { destruct SL as (M & M0 & Ms & _ & S1 & S2).
    destruct (Qlt_le_dec (inject_Z lim + M) (inject_Z u32max)) as [Q|Q]; [|specialize (S2 Q); lia]. destruct (S1 Q) as [_ S3].
    assert (Zm : (inject_Z zf <= M)%Q).
    { destruct (Qlt_le_dec 0 (cProgr x)) as [X|X].
      - destruct Cx as (cs' & Ec' & Ex'). rewrite Ec in Ec'. injection Ec' as <-.
        pose proof (Ms x ef (nth_error_In _ _ Ex') Ex X). destruct Wf. lra.
      - assert (E0 : (cProgr x == 0)%Q) by lra. destruct Wf as [W1 _]. rewrite E0 in W1. lra. }
    assert (lim + zf < b + 1)%Z by (rewrite Zlt_Qlt, inject_Z_plus; lra). lia. }
  pose proof (fp_path _ _ _ _ _ _ _ _ _ PO n ef et b) as Ps. destruct (spath n ef et b) as [sc sp]. cbn [fst snd] in H.
  destruct Ps as [(Cs & Lb & Ws)|(_ & Nb)].
  - apply Z.ltb_lt in Lb. rewrite Lb in H. rewrite H. exists sc. split; [exact Cs|exact Ws].
  - destruct Ch as ((es & W) & _). specialize (Nb _ _ W). lia.
Qed.
Lemma yields_drawn : forall n is hs, yields ecost spath tnds ecm log n is hs -> drawn step ecost tnds ecm limOf n is hs.
Proof.
  intros n is hs Y. induction Y as [n i F|n p i f is hs Pn Sy Y IH|n p i f is hs x y h Pn NS Y IH Cx Cy H].
  - constructor. exact F.
  - eapply dr_stay; eassumption.
  - destruct (is_hop_ends _ _ _ ecost spath ecm _ _ _ _ _ _ H) as [E1 E2]. destruct (hop_drawn n p x y h f i Pn NS Cx Cy H) as [D1 D2].
    eapply dr_drive; eassumption.
Qed.
End Main.

Lemma cand_fun : forall C P (ecm : list (list (cand C edge P))) n i x y, cand_at ecm n i x -> cand_at ecm n i y -> x = y.
Proof. intros C P ecm n i x y A B. apply cand_nth in A, B. congruence. Qed.
Lemma first_parent : forall pos attrs (tnds : list (node pos attrs)) n p, first_node tnds n -> parent tnds n p -> False.
Proof. intros pos attrs tnds n p (nd & E & P0 & N0) (nd' & E' & P' & _ & Pz). congruence. Qed.
(** Where driving was not given up, the network was used. *)
Lemma way_driven : forall pos attrs C P add w ofZ step ecost (tnds : list (node pos attrs)) (ecm : list (list (cand C edge P))) lim stuck n is hs,
  drawn step ecost tnds ecm lim n is hs -> forall c, way add w ofZ step ecost tnds ecm lim stuck n is c -> driven step tnds ecm stuck n is hs.
Proof.
  intros pos attrs C P add w ofZ step ecost tnds ecm lim stuck n is hs D.
  induction D as [n i F|n p i f is hs Pn Sy D IH|n p i f is hs x y h Pn NS D IH Cx Cy S E H1 H2]; intros c W.
  - constructor. exact F.
  - inversion W as [|? q ? ? ? c' adds Pq W' M]; subst. pose proof (parent_fun _ _ _ _ Pn Pq). subst q. eapply dv_stay; eauto.
  - inversion W as [|? q ? ? ? c' adds Pq W' M]; subst. pose proof (parent_fun _ _ _ _ Pn Pq). subst q. eapply dv_drive; eauto.
    intros Ns. destruct M as [f i x0 Sy|f i adds _ Dr|f i x0 y0 _ St|f i j x0 y0 z e _ St]; [contradiction| |contradiction|contradiction].
    destruct Dr as (x' & y' & ef & et & c0 & Cx' & Cy' & Ex & Ey & Hc & L & _).
    rewrite <- (cand_fun _ _ _ _ _ _ _ Cx Cx') in Ex, Hc. rewrite <- (cand_fun _ _ _ _ _ _ _ Cy Cy') in Ey, Hc.
    destruct (H1 ef et c0 Ex Ey Hc L) as (d & Ch & Wk). exists ef, et, d. auto.
Qed.

Lemma default_core : forall pos attrs C P lt add inf p0 w ofZ step ecost compF compT search searchN spath limit0 enum len
    invWeight needDist allowsFast noFastHops (tnds : list (node pos attrs)) (ecm : list (list (cand C edge P))),
  cost_laws lt add inf -> tree tnds -> enumerates enum ->
  fast_problem_ok step ecost compF compT searchN spath limit0 tnds ecm -> noFastHops || negb allowsFast = false ->
  forall hc leaves r m,
  route pos attrs C lt add inf edge P p0 (option cache)
    (askHops ecm invWeight enum ecost len compF compT search searchN needDist allowsFast noFastHops)
    (fun p n c _ t => w p n c t) ofZ limit0 ecost spath tnds ecm hc leaves = Some (r, m) ->
  let lim := limOf (rLog _ _ r) in let stuck := stuckOf (rLog _ _ r) in
    limits_from tnds lim limit0 /\ gives_up_last tnds lim stuck limit0 /\
    forall leaf hs, In (leaf, hs) m ->
      (exists is c, seqcost add (fun p n c _ t => w p n c t) ofZ tnds ecm (rLog _ _ r) leaf is c /\ lt c inf = true) ->
      exists is c, way add w ofZ step ecost tnds ecm lim stuck leaf is c /\ lt c inf = true /\
        drawn step ecost tnds ecm lim leaf is hs /\ driven step tnds ecm stuck leaf is hs.
Proof.
  intros pos attrs C P lt add inf p0 w ofZ step ecost compF compT search searchN spath limit0 enum len
    invWeight needDist allowsFast noFastHops tnds ecm CL T HE PO Fast hc leaves r m Ro.
  destruct (C25_moves_are_answers pos attrs C edge P (option cache) lt add inf p0 _ _ _ _ _ _ tnds ecm CL T (fun _ => True)
    (Sound step ecost tnds ecm)
    (fun s p n cs l _ => conj (ask_sound step ecost compF compT search searchN spath limit0 enum len invWeight needDist allowsFast noFastHops tnds ecm PO Fast s p n cs l) I)
    hc leaves r m I Ro) as (ND & Has & Facts).
  assert (Fx : forall n h, In (n, h) (rLog _ _ r) -> exists p cs, parent tnds n p /\ ~ stays tnds p n /\ limits_ok (limit0 p n) h /\
    (forall l a, In (l, a) (hTrace h) -> Sound step ecost tnds ecm p n cs l a) /\
    (hFailed h = true -> forall lim la a x y is c, In (lim, la) (hTrace h) -> In a la -> cand_at ecm p (aFr a) x ->
       cand_at ecm n (aTo a) y -> seqcost add (fun p n c _ t => w p n c t) ofZ tnds ecm (rLog _ _ r) p (aFr a :: is) c ->
       lt (add (add c (cPen _ _ _ y)) (w p n (aC a) (cTime _ _ _ y - cTime _ _ _ x)%Z)) inf = false) /\
    (hFailed h = false -> exists i is c, seqcost add (fun p n c _ t => w p n c t) ofZ tnds ecm (rLog _ _ r) n (i :: is) c /\ lt c inf = true)).
  { intros n h J. destruct (Facts n h J) as (p & cs & A1 & A2 & A3 & _ & A4 & A5 & A6). exists p, cs. auto 8. }
  set (log := rLog _ _ r) in *. cbv zeta.
  split; [eapply limits_hold; eassumption|]. split; [eapply stuck_hold; eassumption|].
  intros leaf hs J (is0 & c0 & S0 & F0).
  destruct (C25_chosen_sequence_optimal _ _ _ _ _ _ _ _ _ _ _ _ _ _ _ _ _ _ CL T _ _ _ _ Ro leaf hs J) as (is & c & S & Y & Mn).
  { exists is0, c0. auto. }
  assert (W : way add w ofZ step ecost tnds ecm (limOf log) (stuckOf log) leaf is c) by (eapply seq_way; eassumption).
  assert (D : drawn step ecost tnds ecm (limOf log) leaf is hs) by (eapply yields_drawn; eassumption).
  exists is, c. split; [exact W|]. split.
  { destruct (lt c inf) eqn:X; [reflexivity|]. rewrite (cl_ntrans _ _ _ CL _ _ _ (Mn _ _ S0) X) in F0. discriminate. }
  split; [exact D|]. eapply way_driven; [exact D|exact W].
Qed.
