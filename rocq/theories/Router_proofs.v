(** Proofs for Router_model.v. *)
From Coq Require Import List Arith ZArith QArith Qround Bool Lia Permutation.
From Verif Require Import ListAux HopCache_model TripTrie_model TripTrie_spec Router_model Router_spec.
Import ListNotations.
Open Scope nat_scope.

Section P.
Variables pos attrs C E P : Type.
Variable lt : C -> C -> bool.
Variable add : C -> C -> C.
Variable inf : C.
Variable p0 : P.
Variable St : Type.
Notation cand := (cand C E P).
Notation layer := (layer C).
Notation trans := (trans C).
Variable ask : St -> nat -> nat -> list C -> Z -> list ans * St.
Variable weight : nat -> nat -> Z -> Z -> Z -> C.
Variable ofZ : Z -> C.
Variable limit0 : nat -> nat -> Z.
Variable startCost : nat -> E -> Z.
Variable spath : nat -> E -> E -> Z -> Z * list E.
Notation node := (node pos attrs).
Variable tnds : list node.
Variable ecm : list (list cand).
Hypothesis laws : cost_laws lt add inf.

Notation relax := (relax C lt add).
Notation relaxAll := (relaxAll C lt add).
Notation tFr := (tFr C).
Notation tTo := (tTo C).
Notation tAdds := (tAdds C).
Notation cE := (cE C E P).
Notation cPen := (cPen C E P).
Notation cPrede := (cPrede C E P).
Notation cTime := (cTime C E P).
Notation inNode := (inNode C E P).
Notation hopTrans := (hopTrans C E P weight).
Notation doubling := (doubling C lt add E P St ask weight).
Notation nulls := (nulls C E P).
Notation nullTrans := (nullTrans C E P ofZ).
Notation dummyTrans := (dummyTrans C E P).
Notation rLay := (rLay C St).
Notation rSt := (rSt C St).
Notation rMax := (rMax C St).
Notation rLog := (rLog C St).
Notation rstate := (rstate C St).
Notation child := (child pos attrs C lt add E P St ask weight ofZ limit0 tnds ecm).
Notation childLoop := (childLoop pos attrs C lt add E P St ask weight ofZ limit0 tnds ecm).
Notation routeLoop := (routeLoop pos attrs C lt add E P St ask weight ofZ limit0 tnds ecm).
Notation solve := (solve pos attrs C lt add inf E P St ask weight ofZ limit0 tnds ecm).
Notation initLayers := (initLayers C inf E P ecm).
Notation initFirst := (initFirst C E P ecm).
Notation retrieve := (retrieve pos attrs C E P p0 St startCost spath tnds ecm).
Notation leafHops := (leafHops pos attrs C lt inf E P p0 St startCost spath tnds ecm).
Notation allLeaves := (allLeaves pos attrs C lt inf E P p0 St startCost spath tnds ecm).
Notation route := (route pos attrs C lt add inf E P p0 St ask weight ofZ limit0 startCost spath tnds ecm).
Notation offers := (offers weight ofZ tnds ecm).
Notation seqcost := (seqcost add weight ofZ tnds ecm).
Notation stays := (stays tnds).
Notation cand_at := (cand_at ecm).
Notation parent := (parent tnds).
Notation first_node := (first_node tnds).
Notation nParent := (nParent pos attrs).
Notation nChilds := (nChilds pos attrs).
Notation nArr := (nArr pos attrs).
Notation argmin := (argmin C lt).

Definition addAll (adds : list C) (c : C) : C := fold_left add adds c.
Definition costAt (L : layer) (i : nat) (c : C) : Prop := exists p, nth_error L i = Some (c, p).

Lemma addAll_mono : forall adds a b, lt a b = false -> lt (addAll adds a) (addAll adds b) = false.
Proof. induction adds as [|x adds IH]; intros a b H; [exact H|]. cbn. apply IH. apply (cl_mono _ _ _ laws). exact H. Qed.
Lemma addAll_inf : forall adds, lt (addAll adds inf) inf = false.
Proof.
  induction adds as [|x adds IH] using rev_ind; [apply (cl_irrefl _ _ _ laws)|].
  unfold addAll in *. rewrite fold_left_app. cbn [fold_left].
  eapply (cl_ntrans _ _ _ laws); [apply (cl_mono _ _ _ laws); exact IH|apply (cl_add_inf _ _ _ laws)].
Qed.
Lemma addAll_not_inf : forall adds c, lt (addAll adds c) inf = true -> lt c inf = true.
Proof.
  intros adds c H. destruct (lt c inf) eqn:X; [reflexivity|]. exfalso.
  pose proof (addAll_mono adds _ _ X) as Y. pose proof (cl_ntrans _ _ _ laws _ _ _ Y (addAll_inf adds)) as Z. congruence.
Qed.
Lemma lt_asym : forall a b, lt a b = true -> lt b a = false.
Proof.
  intros a b H. destruct (lt b a) eqn:X; [|reflexivity].
  pose proof (cl_trans _ _ _ laws _ _ _ H X) as Y. rewrite (cl_irrefl _ _ _ laws) in Y. discriminate.
Qed.
(** [lt a b], [b <= c] gives [lt a c]. *)
Lemma lt_le_lt : forall a b c, lt a b = true -> lt c b = false -> lt a c = true.
Proof.
  intros a b c H1 H2. destruct (lt a c) eqn:X; [reflexivity|].
  pose proof (cl_ntrans _ _ _ laws _ _ _ X H2). congruence.
Qed.
Lemma le_lt_lt : forall a b c, lt b a = false -> lt b c = true -> lt a c = true.
Proof.
  intros a b c H1 H2. destruct (lt a c) eqn:X; [reflexivity|].
  pose proof (cl_ntrans _ _ _ laws _ _ _ H1 X). congruence.
Qed.

(** ** Relaxation *)
Definition justified (frL : layer) (ts : list trans) (i : nat) (c : C) (f : nat) : Prop :=
  exists t cf, In t ts /\ tTo t = i /\ tFr t = f /\ costAt frL f cf /\ c = addAll (tAdds t) cf.
Definition relaxed (frL toL : layer) (ts : list trans) (toL' : layer) (b : bool) : Prop :=
  List.length toL' = List.length toL /\
  (forall i c p, nth_error toL i = Some (c, p) -> exists c' p', nth_error toL' i = Some (c', p') /\ lt c c' = false /\
     ((c' = c /\ p' = p) \/ (lt c' c = true /\ b = true /\ exists f, p' = Some f /\ justified frL ts i c' f))) /\
  (forall t, In t ts -> exists cf c', costAt frL (tFr t) cf /\ costAt toL' (tTo t) c' /\ lt (addAll (tAdds t) cf) c' = false) /\
  (b = true -> exists i c c', costAt toL i c /\ costAt toL' i c' /\ lt c' c = true).

Lemma justified_weaken : forall frL ts ts' i c f, (forall t, In t ts -> In t ts') ->
  justified frL ts i c f -> justified frL ts' i c f.
Proof. intros frL ts ts' i c f H (t & cf & I & X). exists t, cf. split; [apply H; exact I|exact X]. Qed.

Lemma relax_spec : forall frL toL t toL' b, relax frL toL t = Some (toL', b) -> relaxed frL toL [t] toL' b.
Proof.
  intros frL toL t toL' b H. unfold Router_model.relax in H.
  destruct (nth_error frL (tFr t)) as [[cf pf]|] eqn:Ef; [|discriminate].
  destruct (nth_error toL (tTo t)) as [[ct pt]|] eqn:Et; [|discriminate].
  change (fold_left add (tAdds t) cf) with (addAll (tAdds t) cf) in H.
  destruct (lt (addAll (tAdds t) cf) ct) eqn:L; inversion H; subst; clear H.
  - split; [apply upd_length|]. split; [|split].
    + intros i c p Ei. rewrite upd_nth. destruct (i =? tTo t) eqn:X.
      * apply Nat.eqb_eq in X. subst i. rewrite Et in Ei. inversion Ei; subst c p. rewrite Et. cbn [option_map].
        eexists _, _. split; [reflexivity|]. split; [apply lt_asym; exact L|]. right. split; [exact L|]. split; [reflexivity|].
        exists (tFr t). split; [reflexivity|]. exists t, cf. split; [left; reflexivity|]. split; [reflexivity|]. split; [reflexivity|].
        split; [exists pf; exact Ef|reflexivity].
      * exists c, p. split; [exact Ei|]. split; [apply (cl_irrefl _ _ _ laws)|]. left. auto.
    + intros u [<-|[]]. exists cf, (addAll (tAdds t) cf). split; [exists pf; exact Ef|].
      split; [|apply (cl_irrefl _ _ _ laws)]. exists (Some (tFr t)). rewrite (upd_nth_eq _ _ _ _ _ Et). reflexivity.
    + intros _. exists (tTo t), ct, (addAll (tAdds t) cf). split; [exists pt; exact Et|]. split; [|exact L].
      exists (Some (tFr t)). rewrite (upd_nth_eq _ _ _ _ _ Et). reflexivity.
  - split; [reflexivity|]. split; [|split].
    + intros i c p Ei. exists c, p. split; [exact Ei|]. split; [apply (cl_irrefl _ _ _ laws)|left; auto].
    + intros u [<-|[]]. exists cf, ct. split; [exists pf; exact Ef|]. split; [exists pt; exact Et|exact L].
    + discriminate.
Qed.
Lemma relaxed_nil : forall frL toL, relaxed frL toL [] toL false.
Proof.
  intros. split; [reflexivity|]. split; [|split].
  - intros i c p H. exists c, p. split; [exact H|]. split; [apply (cl_irrefl _ _ _ laws)|left; auto].
  - intros t [].
  - discriminate.
Qed.
Lemma relaxed_trans : forall frL a ts1 b f1 ts2 c f2, relaxed frL a ts1 b f1 -> relaxed frL b ts2 c f2 ->
  relaxed frL a (ts1 ++ ts2) c (f1 || f2).
Proof.
  intros frL a ts1 b f1 ts2 c f2 (L1 & A1 & B1 & C1) (L2 & A2 & B2 & C2).
  split; [congruence|]. split; [|split].
  - intros i x p Ei. destruct (A1 _ _ _ Ei) as (x1 & p1 & E1 & N1 & D1).
    destruct (A2 _ _ _ E1) as (x2 & p2 & E2 & N2 & D2). exists x2, p2. split; [exact E2|].
    split; [eapply (cl_ntrans _ _ _ laws); eassumption|].
    destruct D2 as [[-> ->]|(Lt2 & F2 & f & -> & J2)].
    + destruct D1 as [[-> ->]|(Lt1 & F1 & f & -> & J1)]; [left; auto|]. right.
      split; [exact Lt1|]. split; [rewrite F1; reflexivity|]. exists f. split; [reflexivity|].
      eapply justified_weaken; [|exact J1]. intros t I. apply in_or_app. left. exact I.
    + right. split; [eapply lt_le_lt; [exact Lt2|]; exact N1|]. split; [rewrite F2; apply orb_true_r|].
      exists f. split; [reflexivity|]. eapply justified_weaken; [|exact J2]. intros t I. apply in_or_app. right. exact I.
  - intros t I. apply in_app_or in I. destruct I as [I|I]; [|exact (B2 t I)].
    destruct (B1 t I) as (cf & c1 & Hf & (p1 & E1) & N). destruct (A2 _ _ _ E1) as (c2 & p2 & E2 & N2 & _).
    exists cf, c2. split; [exact Hf|]. split; [exists p2; exact E2|]. eapply (cl_ntrans _ _ _ laws); eassumption.
  - intros H. apply orb_true_iff in H. destruct H as [H|H].
    + destruct (C1 H) as (i & x & x1 & Hx & (p1 & E1) & Lt1). destruct (A2 _ _ _ E1) as (x2 & p2 & E2 & N2 & _).
      exists i, x, x2. split; [exact Hx|]. split; [exists p2; exact E2|]. eapply le_lt_lt; [exact N2|exact Lt1].
    + destruct (C2 H) as (i & x1 & x2 & (p1 & E1) & Hx2 & Lt2).
      assert (Lb : i < List.length a) by (rewrite <- L1; eapply nth_lt; exact E1).
      destruct (nth_ex _ a i Lb) as ([x p] & Ea). destruct (A1 _ _ _ Ea) as (y & q & Ey & N1 & _).
      rewrite E1 in Ey. inversion Ey; subst y q. exists i, x, x2. split; [exists p; exact Ea|]. split; [exact Hx2|].
      eapply lt_le_lt; [exact Lt2|exact N1].
Qed.
Lemma relaxAll_spec : forall ts frL toL toL' b, relaxAll frL toL ts = Some (toL', b) -> relaxed frL toL ts toL' b.
Proof.
  induction ts as [|t ts IH]; intros frL toL toL' b H; cbn [Router_model.relaxAll] in H.
  - inversion H; subst. apply relaxed_nil.
  - destruct (relax frL toL t) as [[to1 b1]|] eqn:R; [|discriminate].
    destruct (relaxAll frL to1 ts) as [[to2 b2]|] eqn:R2; [|discriminate]. inversion H; subst.
    change (t :: ts) with ([t] ++ ts). eapply relaxed_trans; [apply relax_spec; exact R|apply IH; exact R2].
Qed.

(** ** The attempts *)
Lemma in_combine_seq : forall A (l : list A) s i x,
  In (i, x) (combine (seq s (List.length l)) l) <-> s <= i /\ nth_error l (i - s) = Some x.
Proof.
  intros A. induction l as [|y l IH]; intros s i x; cbn [List.length seq combine In].
  - split; [intros []|]. intros [_ H]. destruct (i - s); discriminate.
  - rewrite IH. split.
    + intros [H|[H1 H2]].
      * inversion H; subst. rewrite Nat.sub_diag. auto.
      * split; [lia|]. replace (i - s) with (S (i - S s)) by lia. exact H2.
    + intros [H1 H2]. destruct (Nat.eq_dec i s) as [->|N].
      * rewrite Nat.sub_diag in H2. inversion H2; subst. left. reflexivity.
      * right. split; [lia|]. replace (i - s) with (S (i - S s)) in H2 by lia. exact H2.
Qed.
Lemma in_skip_seq : forall A (l : list A) k s i x,
  In (i, x) (skipn k (combine (seq s (List.length l)) l)) <-> s + k <= i /\ nth_error l (i - s) = Some x.
Proof.
  intros A. induction l as [|y l IH]; intros k s i x.
  - cbn. rewrite skipn_nil. split; [intros []|]. intros [_ H]. destruct (i - s); discriminate.
  - destruct k as [|k]; [cbn [skipn]; rewrite in_combine_seq; replace (s + 0) with s by lia; tauto|].
    cbn [List.length seq combine skipn]. rewrite IH. split.
    + intros [H1 H2]. split; [lia|]. replace (i - s) with (S (i - S s)) by lia. exact H2.
    + intros [H1 H2]. split; [lia|]. replace (i - s) with (S (i - S s)) in H2 by lia. exact H2.
Qed.
Lemma inNode_in : forall toC t, In t (inNode toC) <->
  exists i x f, nth_error toC i = Some x /\ In f (cPrede x) /\ t = mkTrans C f i [cPen x].
Proof.
  intros toC t. unfold Router_model.inNode. rewrite in_concat. split.
  - intros (l & H & I). apply in_map_iff in H. destruct H as ([i x] & <- & H). apply in_combine_seq in H.
    rewrite Nat.sub_0_r in H. apply in_map_iff in I. destruct I as (f & <- & I). exists i, x, f. tauto.
  - intros (i & x & f & H & I & ->). eexists. split; [apply in_map_iff; exists (i, x); split; [reflexivity|]|].
    + apply in_combine_seq. rewrite Nat.sub_0_r. split; [lia|exact H].
    + cbn. apply in_map_iff. exists f. auto.
Qed.
Lemma nulls_lt : forall l i, i < nulls l <-> i < List.length l /\ forall j z, j <= i -> nth_error l j = Some z -> cE z = None.
Proof.
  induction l as [|x l IH]; intros i; cbn [Router_model.nulls List.length].
  - split; [lia|]. intros [H _]. lia.
  - destruct (cE x) as [e|] eqn:X.
    + split; [lia|]. intros [_ H]. specialize (H 0 x). rewrite X in H. specialize (H ltac:(lia) eq_refl). discriminate.
    + destruct i as [|i].
      * split; [|lia]. intros _. split; [lia|]. intros [|j] z Hj Ez; [inversion Ez; subst; exact X|lia].
      * split.
        -- intros H. assert (H' : i < nulls l) by lia. apply IH in H'. destruct H' as [H1 H2]. split; [lia|].
           intros [|j] z Hj Ez; [inversion Ez; subst; exact X|]. apply (H2 j); [lia|exact Ez].
        -- intros [H1 H2]. assert (H' : i < nulls l); [|lia]. apply IH. split; [lia|].
           intros j z Hj Ez. apply (H2 (S j)); [lia|exact Ez].
Qed.
Lemma nullTrans_in : forall frC toC m t, In t (nullTrans frC toC m) <->
  exists f i, f < List.length frC /\ i < nulls toC /\ t = mkTrans C f i [ofZ (wrap32 (m * 100))].
Proof.
  intros frC toC m t. unfold Router_model.nullTrans. rewrite in_concat. split.
  - intros (l & H & I). apply in_map_iff in H. destruct H as (f & <- & H). apply in_seq in H.
    apply in_map_iff in I. destruct I as (i & <- & I). apply in_seq in I. exists f, i. repeat split; lia.
  - intros (f & i & Hf & Hi & ->). eexists. split; [apply in_map_iff; exists f; split; [reflexivity|apply in_seq; lia]|].
    apply in_map_iff. exists i. split; [reflexivity|apply in_seq; lia].
Qed.
Lemma dummyTrans_in : forall frC toC t, In t (dummyTrans frC toC) <->
  exists f i y, f < List.length frC /\ nth_error toC i = Some y /\ dummyStart C E P toC <= i /\ t = mkTrans C f i [cPen y].
Proof.
  intros frC toC t. unfold Router_model.dummyTrans. rewrite in_concat. split.
  - intros (l & H & I). apply in_map_iff in H. destruct H as (f & <- & H). apply in_seq in H.
    apply in_map_iff in I. destruct I as ([i y] & <- & I). apply in_skip_seq in I. rewrite Nat.sub_0_r in I.
    exists f, i, y. cbn. repeat split; try lia; tauto.
  - intros (f & i & y & Hf & Hi & Hs & ->). eexists. split; [apply in_map_iff; exists f; split; [reflexivity|apply in_seq; lia]|].
    apply in_map_iff. exists (i, y). split; [reflexivity|]. apply in_skip_seq. rewrite Nat.sub_0_r. split; [lia|exact Hi].
Qed.
Lemma dummyStart_le : forall toC i, i < List.length toC ->
  (dummyStart C E P toC <= i <-> exists j z e, 1 <= j <= i /\ nth_error toC j = Some z /\ cE z = Some e).
Proof.
  intros toC i Hi. unfold dummyStart. destruct toC as [|x l]; [cbn in Hi; lia|]. cbn [tl List.length] in *. split.
  - intros H. destruct i as [|i]; [lia|]. assert (N : ~ i < nulls l) by lia. rewrite nulls_lt in N.
    assert (Hx : forall n, n <= i -> (forall j z, j < n -> nth_error l j = Some z -> cE z = None) \/
      exists j z e, j < n /\ nth_error l j = Some z /\ cE z = Some e).
    { clear. induction n as [|n IH]; intros Hn; [left; lia|]. destruct IH as [A|(j & z & e & A & B)]; [lia| |].
      - destruct (nth_error l n) as [z|] eqn:Ez.
        + destruct (cE z) as [e|] eqn:Ee.
          * right. exists n, z, e. auto.
          * left. intros j z' Hj Ez'. destruct (Nat.eq_dec j n) as [->|]; [congruence|]. eapply A; [|exact Ez']. lia.
        + left. intros j z' Hj Ez'. destruct (Nat.eq_dec j n) as [->|]; [congruence|]. eapply A; [|exact Ez']. lia.
      - right. exists j, z, e. split; [lia|exact B]. }
    destruct (nth_ex _ l i ltac:(lia)) as (zi & Ezi).
    destruct (cE zi) as [ei|] eqn:Eei; [exists (S i), zi, ei; cbn; repeat split; auto; lia|].
    destruct (Hx i (le_n i)) as [A|(j & z & e & A & B & D)].
    + exfalso. apply N. split; [lia|]. intros j z Hj Ez. destruct (Nat.eq_dec j i) as [->|]; [congruence|]. eapply A; [|exact Ez]. lia.
    + exists (S j), z, e. cbn. repeat split; auto; lia.
  - intros (j & z & e & Hj & Ez & Ee). destruct j as [|j]; [lia|]. cbn in Ez.
    destruct (le_lt_dec (nulls l) (i - 1)) as [L|L]; [lia|]. exfalso. apply nulls_lt in L. destruct L as [_ L].
    rewrite (L j z) in Ee; [discriminate|lia|exact Ez].
Qed.

Definition fromAns (frNid toNid : nat) (frC toC : list cand) (M : list ans) (t : trans) : Prop :=
  exists a x y, In a M /\ nth_error frC (aFr a) = Some x /\ nth_error toC (aTo a) = Some y /\
    t = mkTrans C (aFr a) (aTo a) [cPen y; weight frNid toNid (aC a) (aD a) (cTime y - cTime x)%Z].
Lemma hopTrans_in : forall frNid toNid frC toC M ts, hopTrans frNid toNid frC toC M = Some ts ->
  forall t, In t ts <-> fromAns frNid toNid frC toC M t.
Proof.
  intros frNid toNid frC toC. induction M as [|a M IH]; intros ts H t; cbn [Router_model.hopTrans] in H.
  - inversion H; subst. split; [intros []|]. intros (a & _ & _ & [] & _).
  - destruct (nth_error frC (aFr a)) as [x|] eqn:Ex; [|discriminate].
    destruct (nth_error toC (aTo a)) as [y|] eqn:Ey; [|discriminate].
    destruct (hopTrans frNid toNid frC toC M) as [ts'|]; [|discriminate]. inversion H; subst.
    specialize (IH _ eq_refl t). cbn [In]. rewrite IH. split.
    + intros [<-|(b & x' & y' & I & X)]; [exists a, x, y; cbn; auto|exists b, x', y'; cbn; tauto].
    + intros (b & x' & y' & [<-|I] & X1 & X2 & X3); [left; congruence|]. right. exists b, x', y'. auto.
Qed.
Lemma iter_double_snoc : forall k m, k <> 0 -> exists l, iter_double k m = l ++ [last (iter_double k m) m].
Proof. intros k m H. exists (removelast (iter_double k m)). apply app_removelast_last. destruct k; [lia|discriminate]. Qed.

Definition traceAns (tr : list (Z * list ans)) : list ans := concat (map snd tr).
Lemma doubling_spec : forall k frNid toNid frC toC frL s M toL mc nm d,
  doubling k frNid toNid frC toC frL s M toL mc nm = Some d ->
  exists ts, relaxed frL toL ts (dLay _ _ d) (dFound _ _ d) /\
    (forall t, In t ts -> fromAns frNid toNid frC toC (M ++ traceAns (dTrace _ _ d)) t) /\
    (1 <= k -> forall t, fromAns frNid toNid frC toC (M ++ traceAns (dTrace _ _ d)) t -> In t ts) /\
    map fst (dTrace _ _ d) = iter_double (List.length (dTrace _ _ d)) nm /\
    List.length (dTrace _ _ d) <= k /\
    (k = 0 -> dMax _ _ d = mc /\ dTrace _ _ d = []) /\
    (1 <= k -> exists tr l, dTrace _ _ d = tr ++ [(dMax _ _ d, l)]) /\
    (dFound _ _ d = false -> List.length (dTrace _ _ d) = k \/ double (dMax _ _ d) = dMax _ _ d) /\
    (forall (Inv : St -> Prop) (Good : nat -> nat -> list C -> Z -> list ans -> Prop),
       (forall s p n cs l, Inv s -> Good p n cs l (fst (ask s p n cs l)) /\ Inv (snd (ask s p n cs l))) ->
       Inv s -> Inv (dSt _ _ d) /\ forall l a, In (l, a) (dTrace _ _ d) -> Good frNid toNid (map fst frL) l a).
Proof.
  induction k as [|k IH]; intros frNid toNid frC toC frL s M toL mc nm d H; cbn [Router_model.doubling] in H.
  - inversion H; subst. cbn. exists []. split; [apply relaxed_nil|]. split; [intros t []|]. split; [lia|].
    split; [reflexivity|]. split; [lia|]. split; [auto|]. split; [lia|]. split; [auto|]. intros Inv Good _ I. split; [exact I|intros ? ? []].
  - destruct (ask s frNid toNid (map fst frL) nm) as [a s1] eqn:A.
    destruct (hopTrans frNid toNid frC toC (M ++ a)) as [ts|] eqn:T; [|discriminate].
    destruct (relaxAll frL toL ts) as [[toL1 found]|] eqn:R; [|discriminate].
    pose proof (hopTrans_in _ _ _ _ _ _ T) as Tin. apply relaxAll_spec in R.
    assert (G1 : forall (Inv : St -> Prop) (Good : nat -> nat -> list C -> Z -> list ans -> Prop),
       (forall s p n cs l, Inv s -> Good p n cs l (fst (ask s p n cs l)) /\ Inv (snd (ask s p n cs l))) ->
       Inv s -> Inv s1 /\ Good frNid toNid (map fst frL) nm a).
    { intros Inv Good HG HI. specialize (HG s frNid toNid (map fst frL) nm HI). rewrite A in HG. cbn in HG. tauto. }
    change (if (nm <=? u32max / 2)%Z then (nm * 2)%Z else u32max) with (double nm) in H.
    destruct found.
    + inversion H; subst. cbn [dLay dFound dTrace dMax dSt]. exists ts. unfold traceAns. cbn [map snd fst concat List.length].
      rewrite app_nil_r. split; [exact R|]. split; [intros t; apply Tin|]. split; [intros _ t; apply Tin|].
      split; [reflexivity|]. split; [lia|]. split; [lia|]. split; [intros _; exists [], a; reflexivity|]. split; [discriminate|].
      intros Inv Good HG HI. destruct (G1 Inv Good HG HI). split; [assumption|]. intros l b [X|[]]. inversion X; subst. assumption.
    + destruct (double nm =? nm)%Z eqn:D.
      * apply Z.eqb_eq in D. inversion H; subst. cbn [dLay dFound dTrace dMax dSt]. exists ts. unfold traceAns. cbn [map snd fst concat List.length].
        rewrite app_nil_r. split; [exact R|]. split; [intros t; apply Tin|]. split; [intros _ t; apply Tin|].
        split; [reflexivity|]. split; [lia|]. split; [lia|]. split; [intros _; exists [], a; reflexivity|]. split; [right; exact D|].
        intros Inv Good HG HI. destruct (G1 Inv Good HG HI). split; [assumption|]. intros l b [X|[]]. inversion X; subst. assumption.
      * destruct (doubling k frNid toNid frC toC frL s1 (M ++ a) toL1 nm (double nm)) as [d'|] eqn:D'; [|discriminate].
        inversion H; subst. clear H. destruct (IH _ _ _ _ _ _ _ _ _ _ _ D') as (ts' & R' & I1 & I2 & Lm & Len & K0 & K1 & Nf & G).
        cbn [dLay dFound dTrace dMax dSt]. exists (ts ++ ts').
        assert (Tr : M ++ traceAns ((nm, a) :: dTrace _ _ d') = (M ++ a) ++ traceAns (dTrace _ _ d')).
        { unfold traceAns. cbn [map snd concat]. rewrite app_assoc. reflexivity. }
        rewrite Tr.
        split; [change (dFound _ _ d') with (false || dFound _ _ d'); eapply relaxed_trans; eassumption|].
        split.
        { intros t I. apply in_app_or in I. destruct I as [I|I]; [|apply I1; exact I]. apply Tin in I.
          destruct I as (b & x & y & I & X). exists b, x, y. split; [apply in_or_app; left; exact I|exact X]. }
        split.
        { intros _ t F. apply in_or_app. destruct k as [|k]; [left|right; apply I2; [lia|exact F]].
          apply Tin. destruct (K0 eq_refl) as [_ Z]. rewrite Z in F. unfold traceAns in F. cbn in F. rewrite app_nil_r in F. exact F. }
        cbn [map fst List.length iter_double]. rewrite Lm. split; [reflexivity|]. split; [lia|]. split; [lia|].
        split.
        { intros _. destruct k as [|k].
          - destruct (K0 eq_refl) as [-> ->]. exists [], a. reflexivity.
          - destruct (K1 ltac:(lia)) as (tr & l & ->). exists ((nm, a) :: tr), l. reflexivity. }
        split; [intros F; destruct (Nf F) as [X|X]; [left; lia|right; exact X]|].
        intros Inv Good HG HI. destruct (G1 Inv Good HG HI) as [HI1 HG1]. destruct (G Inv Good HG HI1) as [HI2 HG2].
        split; [exact HI2|]. intros l b [X|X]; [inversion X; subst; exact HG1|apply HG2; exact X].
Qed.

(** ** One node *)
Definition layer_ok (log : list (nat * hinfo)) (p n : nat) (frL toL : layer) : Prop :=
  (forall i c, nth_error toL i = Some (c, None) -> c = inf) /\
  (forall i c f, nth_error toL i = Some (c, Some f) -> lt c inf = true /\
     exists adds cf, offers log p n f i adds /\ costAt frL f cf /\ c = addAll adds cf) /\
  (forall f i adds, offers log p n f i adds ->
     exists cf c, costAt frL f cf /\ costAt toL i c /\ lt (addAll adds cf) c = false).
Definition fresh (L : layer) : Prop := forall i c q, nth_error L i = Some (c, q) -> c = inf /\ q = None.
Definition hasFinite (L : layer) : Prop := exists i c, costAt L i c /\ lt c inf = true.

Lemma relaxed_layer_ok : forall log p n frL toL ts toL' b, fresh toL -> relaxed frL toL ts toL' b ->
  (forall t, In t ts -> offers log p n (tFr t) (tTo t) (tAdds t)) ->
  (forall f i adds, offers log p n f i adds -> In (mkTrans C f i adds) ts) ->
  layer_ok log p n frL toL' /\ (b = true -> hasFinite toL').
Proof.
  intros log p n frL toL ts toL' b F (L & A & B & D) I1 I2. split; [split; [|split]|].
  - intros i c Ei. assert (Li : i < List.length toL) by (rewrite <- L; eapply nth_lt; exact Ei).
    destruct (nth_ex _ toL i Li) as ([c0 q0] & E0). destruct (A _ _ _ E0) as (c' & p' & E' & _ & X).
    rewrite Ei in E'. inversion E'; subst c' p'. destruct (F _ _ _ E0) as [-> ->].
    destruct X as [[X _]|(_ & _ & f & X & _)]; [exact X|discriminate].
  - intros i c f Ei. assert (Li : i < List.length toL) by (rewrite <- L; eapply nth_lt; exact Ei).
    destruct (nth_ex _ toL i Li) as ([c0 q0] & E0). destruct (A _ _ _ E0) as (c' & p' & E' & _ & X).
    rewrite Ei in E'. inversion E'; subst c' p'. destruct (F _ _ _ E0) as [-> ->].
    destruct X as [[_ X]|(Lt & _ & f' & X & t & cf & It & T1 & T2 & T3 & T4)]; [discriminate|]. injection X as X. rewrite X.
    split; [exact Lt|]. exists (tAdds t), cf. split; [|split; [exact T3|exact T4]]. rewrite <- T1, <- T2. apply I1. exact It.
  - intros f i adds O. destruct (B _ (I2 _ _ _ O)) as (cf & c' & H1 & H2 & H3). exists cf, c'. auto.
  - intros ->. destruct (D eq_refl) as (i & c & c' & (q & E0) & H2 & Lt). destruct (F _ _ _ E0) as [-> _]. exists i, c'. auto.
Qed.

(** The log entry of the hop into [n]. *)
Definition node_log (r : rstate) (p n : nat) (frL toL : layer) : Prop :=
  ~ stays p n -> exists h tr l, In (n, h) (rLog r) /\ limits_ok (limit0 p n) h /\
    hTrace h = tr ++ [(nth n (rMax r) 0%Z, l)] /\ (hFailed h = false -> hasFinite toL) /\
    (hFailed h = true -> forall lim la a x y cf, In (lim, la) (hTrace h) -> In a la -> cand_at p (aFr a) x ->
       cand_at n (aTo a) y -> costAt frL (aFr a) cf ->
       lt (add (add cf (cPen y)) (weight p n (aC a) (aD a) (cTime y - cTime x)%Z)) inf = false).

Lemma stays_dec : forall p n a b, nth_error tnds p = Some a -> nth_error tnds n = Some b ->
  (stays p n <-> nArr a && negb (nArr b) = true).
Proof.
  intros p n a b Ea Eb. unfold Router_spec.stays. rewrite andb_true_iff, negb_true_iff. split.
  - intros (a' & b' & X1 & X2 & X3 & X4). rewrite Ea in X1. rewrite Eb in X2. inversion X1; inversion X2; subst. auto.
  - intros [H1 H2]. exists a, b. auto.
Qed.
Lemma cand_at_iff : forall n cs i x, nth_error ecm n = Some cs -> (cand_at n i x <-> nth_error cs i = Some x).
Proof.
  intros n cs i x H. split.
  - intros (cs' & H' & X). rewrite H in H'. inversion H'; subst. exact X.
  - intros X. exists cs. auto.
Qed.

Lemma child_spec : forall p n r r' toL, child p r n = Some r' ->
  nth_error (rLay r) n = Some toL -> fresh toL -> (forall h, ~ In (n, h) (rLog r)) -> n < List.length (rMax r) ->
  exists frL toL', nth_error (rLay r) p = Some frL /\ rLay r' = upd n (fun _ => toL') (rLay r) /\
    List.length toL' = List.length toL /\ layer_ok (rLog r') p n frL toL' /\ node_log r' p n frL toL' /\
    ((rLog r' = rLog r /\ rMax r' = rMax r) \/
     (exists h m, rLog r' = (n, h) :: rLog r /\ rMax r' = upd n (fun _ => m) (rMax r) /\ ~ stays p n)) /\
    (forall (Inv : St -> Prop) (Good : nat -> nat -> list C -> Z -> list ans -> Prop),
       (forall s p n cs l, Inv s -> Good p n cs l (fst (ask s p n cs l)) /\ Inv (snd (ask s p n cs l))) ->
       Inv (rSt r) -> Inv (rSt r') /\
       forall h l a, In (n, h) (rLog r') -> In (l, a) (hTrace h) -> Good p n (map fst frL) l a).
Proof.
  intros p n r r' toL H Et F NL Ln. unfold Router_model.child in H.
  destruct (nth_error tnds p) as [pnd|] eqn:Ep; [|discriminate].
  destruct (nth_error tnds n) as [nnd|] eqn:En; [|discriminate].
  destruct (nth_error ecm p) as [frC|] eqn:Ecp; [|discriminate].
  destruct (nth_error ecm n) as [toC|] eqn:Ecn; [|discriminate].
  destruct (nth_error (rLay r) p) as [frL|] eqn:Lp; [|discriminate].
  rewrite Et in H. pose proof (stays_dec _ _ _ _ Ep En) as SD.
  destruct (nArr pnd && negb (nArr nnd)) eqn:S.
  - (* inside a stop *)
    assert (Sy : stays p n) by (apply SD; reflexivity).
    destruct (relaxAll frL toL (inNode toC)) as [[toL' b]|] eqn:R; [|discriminate]. inversion H; subst r'. clear H.
    apply relaxAll_spec in R. cbn [Router_model.rLay Router_model.rLog Router_model.rMax Router_model.rSt].
    exists frL, toL'. split; [reflexivity|]. split; [reflexivity|]. split; [apply R|].
    split.
    { eapply relaxed_layer_ok; [exact F|exact R| |].
      - intros t It. apply inNode_in in It. destruct It as (i & x & f & X1 & X2 & ->). cbn. apply of_stay; [exact Sy| |exact X2].
        eapply cand_at_iff; eassumption.
      - intros f i adds O. apply inNode_in. destruct O; try contradiction. exists i, x, f.
        split; [eapply cand_at_iff; eassumption|]. auto. }
    split; [intros NS; contradiction|]. split; [left; auto|].
    intros Inv Good HG HI. split; [exact HI|]. intros h l a I. destruct (NL _ I).
  - (* a hop *)
    assert (Sn : ~ stays p n) by (intros X; apply SD in X; discriminate).
    destruct (doubling (Datatypes.S MAX_STEPS) p n frC toC frL (rSt r) [] toL (limit0 p n) (limit0 p n)) as [d|] eqn:D; [|discriminate].
    destruct (doubling_spec _ _ _ _ _ _ _ _ _ _ _ _ D) as (ts & R & I1 & I2 & Lm & Len & _ & K1 & Nf & G).
    cbn [app] in I1, I2. specialize (I2 ltac:(unfold MAX_STEPS; lia)). destruct (K1 ltac:(unfold MAX_STEPS; lia)) as (tr & l & Tr).
    set (h := mkHinfo (dTrace _ _ d) (negb (dFound _ _ d))).
    assert (Lim : limits_ok (limit0 p n) h).
    { unfold limits_ok, h. cbn [hTrace hFailed]. split; [exact Lm|]. split.
      - split; [rewrite Tr, app_length; cbn; lia|unfold MAX_STEPS in Len; exact Len].
      - intros X. apply negb_true_iff in X. destruct (Nf X) as [Y|Y]; [left; exact Y|right].
        exists (dMax _ _ d). split; [|exact Y]. rewrite Tr, map_app. cbn. apply last_last. }
    assert (Hop : exists fb b toL', (fb = [] /\ dFound _ _ d = true \/ fb = nullTrans frC toC (dMax _ _ d) ++ dummyTrans frC toC /\ dFound _ _ d = false) /\
       relaxed frL toL (ts ++ fb) toL' (dFound _ _ d || b) /\
       r' = mkRs _ _ (upd n (fun _ => toL') (rLay r)) (dSt _ _ d) (upd n (fun _ => dMax _ _ d) (rMax r)) ((n, h) :: rLog r)).
    { destruct (dFound _ _ d) eqn:Fd.
      - inversion H; subst r'. exists [], false, (dLay _ _ d). split; [left; auto|]. rewrite app_nil_r. split; [exact R|reflexivity].
      - destruct (relaxAll frL (dLay C St d) (nullTrans frC toC (dMax C St d) ++ dummyTrans frC toC)) as [[toL' b]|] eqn:R2; [|discriminate].
        inversion H; subst r'. apply relaxAll_spec in R2.
        eexists _, b, toL'. split; [right; split; [reflexivity|reflexivity]|]. split; [|reflexivity].
        eapply relaxed_trans; eassumption. }
    destruct Hop as (fb & b & toL' & Fb & R2 & ->). cbn [Router_model.rLay Router_model.rLog Router_model.rMax Router_model.rSt].
    exists frL, toL'. split; [reflexivity|]. split; [reflexivity|]. split; [apply R2|].
    assert (Uniq : forall h', In (n, h') ((n, h) :: rLog r) -> h' = h).
    { intros h' [X|X]; [inversion X; reflexivity|destruct (NL _ X)]. }
    assert (OK : layer_ok ((n, h) :: rLog r) p n frL toL' /\ (dFound _ _ d || b = true -> hasFinite toL')).
    { eapply relaxed_layer_ok; [exact F|exact R2| |].
      - intros t It. apply in_app_or in It. destruct It as [It|It].
        + destruct (I1 _ It) as (a & x & y & Ia & X1 & X2 & ->). cbn [Router_model.tFr Router_model.tTo Router_model.tAdds].
          unfold traceAns in Ia. apply in_concat in Ia. destruct Ia as (la & Y1 & Y2). apply in_map_iff in Y1. destruct Y1 as ([lim la'] & Y1 & Y3).
          cbn in Y1. subst la'. eapply of_hop; [exact Sn|left; reflexivity|exact Y3|exact Y2|eapply cand_at_iff; eassumption|eapply cand_at_iff; eassumption].
        + destruct Fb as [[-> _]|[-> Fd]]; [destruct It|]. apply in_app_or in It. destruct It as [It|It].
          * apply nullTrans_in in It. destruct It as (f & i & X1 & X2 & ->). cbn [Router_model.tFr Router_model.tTo Router_model.tAdds].
            apply nulls_lt in X2. destruct X2 as [X2 X3]. destruct (nth_ex _ _ _ X1) as (x & Ex). destruct (nth_ex _ _ _ X2) as (y & Ey).
            eapply of_null with (h := h) (x := x) (y := y); [exact Sn|left; reflexivity|unfold h; cbn; rewrite Fd; reflexivity|exact Tr| | |].
            -- eapply cand_at_iff; eassumption.
            -- eapply cand_at_iff; eassumption.
            -- intros j z Hj Hz. eapply X3; [exact Hj|]. eapply cand_at_iff; eassumption.
          * apply dummyTrans_in in It. destruct It as (f & i & y & X1 & X2 & X3 & ->). cbn [Router_model.tFr Router_model.tTo Router_model.tAdds].
            destruct (nth_ex _ _ _ X1) as (x & Ex). apply dummyStart_le in X3; [|eapply nth_lt; exact X2].
            destruct X3 as (j & z & e & J1 & J2 & J3).
            eapply of_dummy with (h := h) (x := x) (z := z); [exact Sn|left; reflexivity|unfold h; cbn; rewrite Fd; reflexivity| | |exact J1| |exact J3];
              eapply cand_at_iff; eassumption.
      - intros f i adds O. apply in_or_app. destruct O as [f i x X|h' lim la a x y X1 X2 X3 X4 X5 X6|h' tr' lim la f i x y X1 X2 X3 X4 X5 X6 X7|h' f i j x y z e X1 X2 X3 X4 X5 X6 X7 X8].
        + contradiction.
        + apply Uniq in X2. subst h'. left. apply I2. exists a, x, y. split.
          { unfold traceAns. apply in_concat. exists la. split; [apply in_map_iff; exists (lim, la); split; [reflexivity|exact X3]|exact X4]. }
          split; [eapply cand_at_iff; eassumption|]. split; [eapply cand_at_iff; eassumption|reflexivity].
        + apply Uniq in X2. subst h'. right. unfold h in X3. cbn in X3. apply negb_true_iff in X3.
          destruct Fb as [[_ Y]|[-> _]]; [congruence|]. apply in_or_app. left. apply nullTrans_in. exists f, i.
          split; [eapply nth_lt; eapply cand_at_iff; eassumption|]. split.
          { apply nulls_lt. split; [eapply nth_lt; eapply cand_at_iff; eassumption|]. intros j z Hj Hz. eapply X7; [exact Hj|]. eapply cand_at_iff; eassumption. }
          unfold h in X4. cbn in X4. rewrite Tr in X4. apply app_inj_tail in X4. destruct X4 as [_ X4]. inversion X4; subst. reflexivity.
        + apply Uniq in X2. subst h'. right. unfold h in X3. cbn in X3. apply negb_true_iff in X3.
          destruct Fb as [[_ Y]|[-> _]]; [congruence|]. apply in_or_app. right. apply dummyTrans_in. exists f, i, y.
          split; [eapply nth_lt; eapply cand_at_iff; eassumption|]. split; [eapply cand_at_iff; eassumption|]. split; [|reflexivity].
          apply dummyStart_le; [eapply nth_lt; eapply cand_at_iff; eassumption|]. exists j, z, e. split; [exact X6|]. split; [eapply cand_at_iff; eassumption|exact X8]. }
    split; [apply OK|]. split.
    { intros _. exists h, tr, l. split; [left; reflexivity|]. split; [exact Lim|]. split.
      - unfold h. cbn [hTrace Router_model.rMax]. rewrite Tr. f_equal. f_equal. f_equal.
        destruct (nth_ex _ (rMax r) n Ln) as (m & Em). symmetry. apply nth_error_nth. apply (upd_nth_eq _ n (fun _ => dMax C St d) _ _ Em).
      - split; [unfold h; cbn; intros X; apply negb_false_iff in X; apply OK; rewrite X; reflexivity|].
        unfold h. cbn [hTrace hFailed]. intros X lim la a x y cf J1 J2 J3 J4 J5. apply negb_true_iff in X.
        assert (It : In (mkTrans C (aFr a) (aTo a) [cPen y; weight p n (aC a) (aD a) (cTime y - cTime x)%Z]) ts).
        { apply I2. exists a, x, y. split; [|split; [eapply cand_at_iff; eassumption|split; [eapply cand_at_iff; eassumption|reflexivity]]].
          unfold traceAns. apply in_concat. exists la. split; [|exact J2]. apply in_map_iff. exists (lim, la). split; [reflexivity|exact J1]. }
        destruct R as (RL & RA & RB & _). destruct (RB _ It) as (cf' & c' & (q1 & Y1) & (q2 & Y2) & Y3).
        cbn [Router_model.tFr Router_model.tTo Router_model.tAdds] in Y1, Y2, Y3. destruct J5 as (q3 & J5). rewrite J5 in Y1. inversion Y1; subst cf' q1.
        assert (Li : aTo a < List.length toL) by (rewrite <- RL; eapply nth_lt; exact Y2).
        destruct (nth_ex _ toL _ Li) as ([c0 q0] & E0). destruct (RA _ _ _ E0) as (c1 & q1 & E1 & _ & Z).
        rewrite Y2 in E1. inversion E1; subst c1 q1. destruct (F _ _ _ E0) as [-> ->].
        destruct Z as [[-> _]|(_ & Z & _)]; [exact Y3|congruence]. }
    split; [right; exists h, (dMax _ _ d); auto|].
    intros Inv Good HG HI. destruct (G Inv Good HG HI) as [G1 G2]. split; [exact G1|].
    intros h' l' a' I I'. apply Uniq in I. subst h'. apply G2. exact I'.
Qed.

(** ** The whole trie *)
Hypothesis T : tree tnds.
Variable Inv : St -> Prop.
Variable Good : nat -> nat -> list C -> Z -> list ans -> Prop.
Hypothesis HG : forall s p n cs l, Inv s -> Good p n cs l (fst (ask s p n cs l)) /\ Inv (snd (ask s p n cs l)).

Record ginv (r : rstate) (D : list nat) : Prop := {
  gi_len : List.length (rLay r) = List.length tnds;
  gi_maxlen : List.length (rMax r) = List.length tnds;
  gi_lay : forall n L, n <> 0 -> nth_error (rLay r) n = Some L -> exists cs, nth_error ecm n = Some cs /\ List.length L = List.length cs;
  gi_fresh : forall n L, n <> 0 -> ~ In n D -> nth_error (rLay r) n = Some L -> fresh L;
  gi_log : forall n h, In (n, h) (rLog r) -> In n D;
  gi_first : forall n, first_node n -> In n D -> exists cs, nth_error ecm n = Some cs /\
    nth_error (rLay r) n = Some (map (fun x => (cPen x, None)) cs);
  gi_ok : forall n p, parent n p -> In n D -> In p D /\ exists frL toL,
    nth_error (rLay r) p = Some frL /\ nth_error (rLay r) n = Some toL /\
    layer_ok (rLog r) p n frL toL /\ node_log r p n frL toL;
  gi_D : forall n, In n D -> n < List.length tnds /\ n <> 0;
  gi_inv : Inv (rSt r);
  gi_good : forall n h, In (n, h) (rLog r) -> exists p frL, parent n p /\ ~ stays p n /\ nth_error (rLay r) p = Some frL /\
    forall l a, In (l, a) (hTrace h) -> Good p n (map fst frL) l a;
  gi_uniq : NoDup (map fst (rLog r))
}.

Lemma offers_other : forall log m h p n f i adds, m <> n ->
  (offers ((m, h) :: log) p n f i adds <-> offers log p n f i adds).
Proof.
  intros log m h p n f i adds N.
  assert (I : forall h', In (n, h') ((m, h) :: log) <-> In (n, h') log).
  { intros h'. cbn. split; [intros [X|X]; [congruence|exact X]|auto]. }
  split; intros O; destruct O.
  - apply of_stay; assumption.
  - eapply of_hop; try eassumption. apply I. assumption.
  - eapply of_null; try eassumption. apply I. assumption.
  - eapply of_dummy; try eassumption. apply I. assumption.
  - apply of_stay; assumption.
  - eapply of_hop; try eassumption. apply I. assumption.
  - eapply of_null; try eassumption. apply I. assumption.
  - eapply of_dummy; try eassumption. apply I. assumption.
Qed.
Lemma layer_ok_other : forall log log' p n frL toL, (log' = log \/ exists m h, log' = (m, h) :: log /\ m <> n) ->
  layer_ok log p n frL toL -> layer_ok log' p n frL toL.
Proof.
  intros log log' p n frL toL [->|(m & h & -> & N)] H; [exact H|]. destruct H as (A & B & D). split; [exact A|]. split.
  - intros i c f Ei. destruct (B _ _ _ Ei) as (Lt & adds & cf & O & X). split; [exact Lt|]. exists adds, cf.
    split; [apply offers_other; assumption|exact X].
  - intros f i adds O. apply D. apply offers_other in O; assumption.
Qed.

Lemma parent_unique : forall n p q, parent n p -> parent n q -> p = q.
Proof. intros n p q (a & E1 & P1 & _) (b & E2 & P2 & _). congruence. Qed.

Lemma child_inv : forall p n r r' D, ginv r D -> child p r n = Some r' -> parent n p -> In p D -> ~ In n D ->
  ginv r' (n :: D).
Proof.
  intros p n r r' D G H Pn Ip Nn.
  destruct Pn as (nd & End & Pnd & N0 & P0).
  assert (Ln : n < List.length tnds) by (eapply nth_lt; exact End).
  destruct (nth_ex _ (rLay r) n ltac:(rewrite (gi_len _ _ G); exact Ln)) as (toL & Et).
  assert (NL : forall h, ~ In (n, h) (rLog r)) by (intros h I; apply Nn; eapply gi_log; eassumption).
  destruct (child_spec p n r r' toL H Et (gi_fresh _ _ G _ _ N0 Nn Et) NL ltac:(rewrite (gi_maxlen _ _ G); exact Ln))
    as (frL & toL' & Ep & Lay & Len & OK & NdL & Lg & GG).
  specialize (GG Inv Good HG (gi_inv _ _ G)). destruct GG as [G1 G2].
  assert (Np : p <> n) by (intros ->; contradiction).
  assert (Old : forall m, m <> n -> nth_error (rLay r') m = nth_error (rLay r) m).
  { intros m X. rewrite Lay. apply upd_nth_ne. exact X. }
  assert (New : nth_error (rLay r') n = Some toL') by (rewrite Lay; apply (upd_nth_eq _ n (fun _ => toL') _ _ Et)).
  assert (LogI : forall m h, In (m, h) (rLog r') -> In (m, h) (rLog r) \/ m = n).
  { intros m h I. destruct Lg as [[E1 _]|(h' & x & E1 & _)]; rewrite E1 in I; [left; exact I|].
    destruct I as [X|X]; [inversion X; auto|left; exact X]. }
  assert (LogM : forall m h, In (m, h) (rLog r) -> In (m, h) (rLog r')).
  { intros m h I. destruct Lg as [[-> _]|(h' & x & -> & _)]; [exact I|right; exact I]. }
  assert (MaxO : forall m, m <> n -> nth m (rMax r') 0%Z = nth m (rMax r) 0%Z).
  { intros m X. destruct Lg as [[_ ->]|(h' & x & _ & -> & _)]; [reflexivity|].
    rewrite <- !nth_default_eq. unfold nth_default. rewrite upd_nth_ne by exact X. reflexivity. }
  constructor.
  - rewrite Lay, upd_length. apply (gi_len _ _ G).
  - destruct Lg as [[_ ->]|(h' & x & _ & -> & _)]; [|rewrite upd_length]; apply (gi_maxlen _ _ G).
  - intros m L M0 Em. destruct (Nat.eq_dec m n) as [->|X].
    + rewrite New in Em. inversion Em; subst L. destruct (gi_lay _ _ G _ _ N0 Et) as (cs & X1 & X2). exists cs. split; [exact X1|congruence].
    + rewrite Old in Em by exact X. eapply gi_lay; eassumption.
  - intros m L M0 NI Em. destruct (Nat.eq_dec m n) as [->|X]; [exfalso; apply NI; left; reflexivity|].
    rewrite Old in Em by exact X. eapply gi_fresh; [exact G|exact M0| |exact Em]. intros I. apply NI. right. exact I.
  - intros m h I. destruct (LogI _ _ I) as [X| ->]; [right; eapply gi_log; eassumption|left; reflexivity].
  - intros m Fm I. destruct I as [<-|I].
    + destruct Fm as (nd' & X1 & X2 & _). rewrite End in X1. inversion X1; subst nd'. congruence.
    + destruct (gi_first _ _ G _ Fm I) as (cs & X1 & X2). exists cs. split; [exact X1|]. rewrite Old; [exact X2|].
      intros ->. contradiction.
  - intros m q Pm I. destruct I as [<-|I].
    + assert (q = p). { eapply parent_unique; [exact Pm|]. exists nd. auto. } subst q.
      split; [right; exact Ip|]. exists frL, toL'. split; [rewrite Old; [exact Ep|exact Np]|]. split; [exact New|]. split; [exact OK|exact NdL].
    + destruct (gi_ok _ _ G _ _ Pm I) as (Iq & fL & tL & X1 & X2 & X3 & X4).
      assert (Nm : m <> n) by (intros ->; contradiction). assert (Nq : q <> n) by (intros ->; contradiction).
      split; [right; exact Iq|]. exists fL, tL. split; [rewrite Old by exact Nq; exact X1|]. split; [rewrite Old by exact Nm; exact X2|].
      split.
      { eapply layer_ok_other; [|exact X3]. destruct Lg as [[E1 _]|(h' & x & E1 & _)]; [left; exact E1|right].
        exists n, h'. split; [exact E1|congruence]. }
      intros NS. destruct (X4 NS) as (h & tr & l & Y1 & Y2 & Y3 & Y4). exists h, tr, l. split; [apply LogM; exact Y1|].
      split; [exact Y2|]. split; [rewrite MaxO by exact Nm; exact Y3|exact Y4].
  - intros m [<-|I]; [split; assumption|]. eapply gi_D; eassumption.
  - exact G1.
  - intros m h I. destruct (LogI _ _ I) as [X| ->].
    + assert (Nm : In m D) by (eapply gi_log; eassumption). destruct (gi_good _ _ G _ _ X) as (q & fL & Y1 & Y0 & Y2 & Y3).
      exists q, fL. split; [exact Y1|]. split; [exact Y0|]. split; [|exact Y3]. rewrite Old; [exact Y2|].
      destruct (gi_ok _ _ G _ _ Y1 Nm) as (Iq & _). intros ->. contradiction.
    + exists p, frL. split; [exists nd; auto|].
      split; [destruct Lg as [[E1 _]|(h' & x & _ & _ & NS)]; [exfalso; rewrite E1 in I; exact (NL _ I)|exact NS]|].
      split; [rewrite Old; [exact Ep|exact Np]|]. intros l a. apply (G2 h). exact I.
  - destruct Lg as [[-> _]|(h' & x & -> & _)]; [apply (gi_uniq _ _ G)|]. cbn [map fst]. constructor; [|apply (gi_uniq _ _ G)].
    intros I. apply in_map_iff in I. destruct I as ([m h] & X & I). cbn in X. subst m. exact (NL _ I).
Qed.

Lemma childLoop_inv : forall cs p r r' D, ginv r D -> childLoop p r cs = Some r' -> In p D -> NoDup cs ->
  (forall n, In n cs -> parent n p /\ ~ In n D) -> ginv r' (rev cs ++ D).
Proof.
  induction cs as [|c cs IH]; intros p r r' D G H Ip ND Hc; cbn [Router_model.childLoop] in H.
  - inversion H; subst. exact G.
  - destruct (child p r c) as [r1|] eqn:E1; [|discriminate]. inversion ND; subst.
    destruct (Hc c (or_introl eq_refl)) as [Pc Nc].
    pose proof (child_inv _ _ _ _ _ G E1 Pc Ip Nc) as G1.
    cbn [rev]. rewrite <- app_assoc. cbn [app]. eapply IH; [exact G1|exact H|right; exact Ip|assumption|].
    intros n I. destruct (Hc n (or_intror I)) as [Pn Nn]. split; [exact Pn|]. intros [X|X]; [subst; contradiction|contradiction].
Qed.

Lemma ginv_ext : forall r D D', (forall n, In n D <-> In n D') -> ginv r D -> ginv r D'.
Proof.
  intros r D D' H G. destruct G. constructor; try assumption.
  - intros n L N0 NI. apply gi_fresh0; [exact N0|]. rewrite H. exact NI.
  - intros n h I. apply H. eauto.
  - intros n F I. apply gi_first0; [exact F|apply H; exact I].
  - intros n p Pn I. destruct (gi_ok0 _ _ Pn (proj2 (H n) I)) as (Ip & X). split; [apply H; exact Ip|exact X].
  - intros n I. apply gi_D0. apply H. exact I.
Qed.

Definition closed_stack (stack popped : list nat) : Prop :=
  NoDup (stack ++ popped) /\
  (forall c p, In c (stack ++ popped) -> parent c p -> In p popped) /\
  (forall p c nd, In p popped -> nth_error tnds p = Some nd -> In c (nChilds nd) -> In c (stack ++ popped)).

Lemma child_parent : forall p nd c, p <> 0 -> nth_error tnds p = Some nd -> In c (nChilds nd) -> parent c p.
Proof.
  intros p nd c P0 Ep I. destruct (tr_child _ T _ _ _ Ep I) as [C0 (ndc & Ec & Pc)]. exists ndc. auto.
Qed.
Lemma NoDup_app_intro : forall (a b : list nat), NoDup a -> NoDup b -> (forall x, In x a -> ~ In x b) -> NoDup (a ++ b).
Proof.
  induction a as [|x a IH]; intros b Na Nb H; [exact Nb|]. inversion Na; subst. cbn. constructor.
  - intros I. apply in_app_or in I. destruct I as [I|I]; [contradiction|]. apply (H x); [left; reflexivity|exact I].
  - apply IH; auto. intros y I. apply H. right. exact I.
Qed.
Lemma closed_step : forall n rest popped nd, closed_stack (n :: rest) popped -> n <> 0 -> nth_error tnds n = Some nd ->
  (forall c, In c (nChilds nd) -> ~ In c ((n :: rest) ++ popped)) /\
  closed_stack (rev (nChilds nd) ++ rest) (n :: popped).
Proof.
  intros n rest popped nd (ND & CP & CC) N0 En.
  assert (Np : ~ In n (rest ++ popped)) by (inversion ND; assumption).
  assert (Fr : forall c, In c (nChilds nd) -> ~ In c ((n :: rest) ++ popped)).
  { intros c I X. pose proof (CP c n X (child_parent _ _ _ N0 En I)) as Y. apply Np. apply in_or_app. right. exact Y. }
  split; [exact Fr|]. split; [|split].
  - rewrite <- app_assoc. apply NoDup_app_intro.
    + apply NoDup_rev. eapply tr_nodup; eassumption.
    + eapply Permutation_NoDup; [apply Permutation_middle|exact ND].
    + intros x I X. apply in_rev in I. apply (Fr x I). apply in_app_or in X. apply in_or_app.
      destruct X as [X|[X|X]]; [left; right; exact X|left; left; exact X|right; exact X].
  - intros c p I Pc. rewrite <- app_assoc in I. apply in_app_or in I. destruct I as [I|I].
    + apply in_rev in I. pose proof (parent_unique _ _ _ Pc (child_parent _ _ _ N0 En I)). left. congruence.
    + right. apply (CP c); [|exact Pc]. apply in_app_or in I. apply in_or_app.
      destruct I as [I|[I|I]]; [left; right; exact I|left; left; exact I|right; exact I].
  - intros p c nd' Ip Ep Ic. apply in_or_app. destruct Ip as [<-|Ip].
    + rewrite En in Ep. inversion Ep; subst nd'. left. apply in_or_app. left. apply in_rev. rewrite rev_involutive. exact Ic.
    + pose proof (CC p c nd' Ip Ep Ic) as X. apply in_app_or in X. destruct X as [[X|X]|X].
      * right. left. exact X.
      * left. apply in_or_app. right. exact X.
      * right. right. exact X.
Qed.

Lemma routeLoop_inv : forall fuel stack popped r r', ginv r (stack ++ popped) -> closed_stack stack popped ->
  routeLoop fuel stack r = Some r' ->
  exists popped', ginv r' popped' /\ closed_stack [] popped' /\ (forall n, In n (stack ++ popped) -> In n popped').
Proof.
  induction fuel as [|fuel IH]; intros stack popped r r' G CS H; cbn [Router_model.routeLoop] in H.
  - destruct stack; [|discriminate]. inversion H; subst. exists popped. auto.
  - destruct stack as [|n rest]; [inversion H; subst; exists popped; auto|].
    destruct (nth_error tnds n) as [nd|] eqn:En; [|discriminate].
    destruct (childLoop n r (nChilds nd)) as [r1|] eqn:E1; [|discriminate].
    destruct (gi_D _ _ G n (or_introl eq_refl)) as [_ N0].
    destruct (closed_step _ _ _ _ CS N0 En) as [Fr CS'].
    assert (G1 : ginv r1 (rev (nChilds nd) ++ (n :: rest) ++ popped)).
    { eapply childLoop_inv; [exact G|exact E1|left; reflexivity|eapply tr_nodup; eassumption|].
      intros c I. split; [eapply child_parent; eassumption|apply Fr; exact I]. }
    assert (G2 : ginv r1 ((rev (nChilds nd) ++ rest) ++ n :: popped)).
    { eapply ginv_ext; [|exact G1]. intros m. repeat first [rewrite in_app_iff | progress cbn [In app]]. tauto. }
    destruct (IH _ _ _ _ G2 CS' H) as (pp & X1 & X2 & X3). exists pp. split; [exact X1|]. split; [exact X2|].
    intros m I. apply X3. repeat first [rewrite in_app_iff in I | progress cbn [In app] in I]; repeat first [rewrite in_app_iff | progress cbn [In app]]. tauto.
Qed.

Lemma initLayers_spec : forall k nid ls, initLayers k nid = Some ls -> List.length ls = k /\
  forall j, j < k -> exists cs, nth_error ecm (nid + j) = Some cs /\ nth_error ls j = Some (map (fun _ => (inf, None)) cs).
Proof.
  induction k as [|k IH]; intros nid ls H; cbn [Router_model.initLayers] in H.
  - inversion H; subst. split; [reflexivity|]. lia.
  - destruct (nth_error ecm nid) as [cs|] eqn:Ec; [|discriminate].
    destruct (initLayers k (S nid)) as [ls'|] eqn:E'; [|discriminate]. inversion H; subst.
    destruct (IH _ _ E') as [L F]. split; [cbn; congruence|]. intros [|j] Hj.
    + exists cs. rewrite Nat.add_0_r. split; [exact Ec|reflexivity].
    + destruct (F j) as (cs' & X1 & X2); [lia|]. exists cs'. rewrite Nat.add_succ_r. split; [exact X1|exact X2].
Qed.

Lemma solve_eq : forall s0 rootNd, nth_error tnds 0 = Some rootNd ->
  solve s0 = match initLayers (List.length tnds - 1) 1 with
             | None => None
             | Some ls => match initFirst (nChilds rootNd) ([] :: ls) with
                          | None => None
                          | Some ls1 => routeLoop (List.length tnds) (rev (nChilds rootNd))
                                          (mkRs C St ls1 s0 (repeat 0%Z (List.length tnds)) [])
                          end
             end.
Proof. intros s0 rootNd H. unfold Router_model.solve. clear T. destruct tnds as [|x l]; [discriminate|]. inversion H; subst. reflexivity. Qed.
Lemma init_ginv : forall s0 rootNd ls ls1, Inv s0 -> nth_error tnds 0 = Some rootNd ->
  initLayers (List.length tnds - 1) 1 = Some ls -> initFirst (nChilds rootNd) ([] :: ls) = Some ls1 ->
  ginv (mkRs C St ls1 s0 (repeat 0%Z (List.length tnds)) []) (rev (nChilds rootNd) ++ []) /\
  closed_stack (rev (nChilds rootNd)) [].
Proof.
  intros s0 rootNd ls ls1 I0 E0 EL EF.
  destruct (initLayers_spec _ _ _ EL) as [LL LF].
  assert (Llen : S (List.length ls) = List.length tnds) by (pose proof (nth_lt _ _ _ _ E0); rewrite LL; lia).
  assert (Lay0 : forall n, n <> 0 -> n < List.length tnds -> exists cs, nth_error ecm n = Some cs /\
     nth_error ([] :: ls : list layer) n = Some (map (fun _ => (inf, None)) cs)).
  { intros [|n] N0 Hn; [lia|]. destruct (LF n) as (cs & X1 & X2); [lia|]. exists cs. auto. }
  assert (Fresh0 : forall cs : list cand, fresh (map (fun _ => (inf, None)) cs)).
  { intros cs i c q X. rewrite nth_error_map in X. destruct (nth_error cs i); cbn in X; [|discriminate]. inversion X. auto. }
  assert (NoFirst : nChilds rootNd = [] -> forall n, ~ first_node n).
  { intros X n (nd & E1 & P1 & N1). destruct (tr_parent _ T _ _ E1 N1) as [_ (q & Eq & Iq & _)]. rewrite P1, E0 in Eq. inversion Eq; subst q.
    rewrite X in Iq. destruct Iq. }
  split.
  {
    assert (NP : forall n p, parent n p -> ~ In n (rev (nChilds rootNd) ++ [])).
    { intros n p (nd & E1 & P1 & _ & P0) I. rewrite app_nil_r in I. apply in_rev in I.
      destruct (tr_child _ T _ _ _ E0 I) as [_ (x & Ex & Px)]. congruence. }
    destruct (tr_one _ T _ E0) as [Ch|Ch]; rewrite Ch in EF; cbn [Router_model.initFirst] in EF.
    - inversion EF; subst ls1. constructor; cbn [Router_model.rLay Router_model.rMax Router_model.rLog Router_model.rSt].
      + exact Llen.
      + apply repeat_length.
      + intros n L N0 En. destruct (Lay0 n N0) as (cs & X1 & X2); [rewrite <- Llen; change (n < List.length (([] : layer) :: ls)); eapply nth_lt; exact En|].
        pose proof (eq_trans (eq_sym En) X2) as Q; injection Q as Q; subst L. exists cs. split; [exact X1|apply map_length].
      + intros n L N0 _ En. destruct (Lay0 n N0) as (cs & X1 & X2); [rewrite <- Llen; change (n < List.length (([] : layer) :: ls)); eapply nth_lt; exact En|].
        pose proof (eq_trans (eq_sym En) X2) as Q; injection Q as Q; subst L. apply Fresh0.
      + intros n h [].
      + intros n F _. destruct (NoFirst Ch n F).
      + intros n p Pn I. destruct (NP _ _ Pn I).
      + rewrite Ch. intros n [].
      + exact I0.
      + intros n h [].
      + constructor.
    - destruct (nth_error ecm 1) as [cs1|] eqn:Ec1; [|discriminate]. inversion EF; subst ls1. clear EF.
      destruct (tr_child _ T 0 rootNd 1 E0 ltac:(rewrite Ch; left; reflexivity)) as [_ (nd1 & En1 & Pn1)].
      assert (L1 : 1 < List.length tnds) by (eapply nth_lt; exact En1).
      set (up := upd 1 (fun _ => map (fun x : cand => (cPen x, None)) cs1) ([] :: ls : list layer)).
      assert (U1 : nth_error up 1 = Some (map (fun x : cand => (cPen x, None)) cs1)).
      { destruct (Lay0 1 ltac:(lia) L1) as (cs & X1 & X2). unfold up. rewrite (upd_nth_eq _ _ _ _ _ X2). reflexivity. }
      assert (U2 : forall n, n <> 1 -> nth_error up n = nth_error ([] :: ls) n) by (intros n X; apply upd_nth_ne; exact X).
      assert (UL : List.length up = List.length tnds) by (unfold up; rewrite upd_length; exact Llen).
      constructor; cbn [Router_model.rLay Router_model.rMax Router_model.rLog Router_model.rSt]; rewrite ?Ch; cbn [rev app].
      + exact UL.
      + apply repeat_length.
      + intros n L N0 En. destruct (Nat.eq_dec n 1) as [->|X].
        * pose proof (eq_trans (eq_sym En) U1) as Q; injection Q as Q; subst L. exists cs1. split; [exact Ec1|apply map_length].
        * pose proof (eq_trans (eq_sym (U2 n X)) En) as En'; clear En; rename En' into En. destruct (Lay0 n N0) as (cs & X1 & X2); [rewrite <- Llen; change (n < List.length (([] : layer) :: ls)); eapply nth_lt; exact En|].
          pose proof (eq_trans (eq_sym En) X2) as Q; injection Q as Q; subst L. exists cs. split; [exact X1|apply map_length].
      + intros n L N0 NI En. destruct (Nat.eq_dec n 1) as [->|X]; [exfalso; apply NI; left; reflexivity|].
        pose proof (eq_trans (eq_sym (U2 n X)) En) as En'; clear En; rename En' into En. destruct (Lay0 n N0) as (cs & X1 & X2); [rewrite <- Llen; change (n < List.length (([] : layer) :: ls)); eapply nth_lt; exact En|].
        pose proof (eq_trans (eq_sym En) X2) as Q; injection Q as Q; subst L. apply Fresh0.
      + intros n h [].
      + intros n F [<-|[]]. exists cs1. split; [exact Ec1|exact U1].
      + intros n p Pn I. exfalso. apply (NP _ _ Pn). rewrite Ch. exact I.
      + intros n [<-|[]]. split; [exact L1|lia].
      + exact I0.
      + intros n h [].
      + constructor.
  }
  { split; [|split].
    - rewrite app_nil_r. apply NoDup_rev. eapply tr_nodup; eassumption.
    - intros c p I (nd & E1 & P1 & _ & P0). exfalso. rewrite app_nil_r in I. apply in_rev in I.
      destruct (tr_child _ T _ _ _ E0 I) as [_ (x & Ex & Px)]. congruence.
    - intros p c nd []. }
Qed.
Lemma solve_inv : forall s0 r, Inv s0 -> solve s0 = Some r ->
  exists D, ginv r D /\ forall n, n < List.length tnds -> n <> 0 -> In n D.
Proof.
  intros s0 r I0 H. destruct (tr_root _ T) as (rootNd & E0 & _). rewrite (solve_eq _ _ E0) in H.
  destruct (initLayers (List.length tnds - 1) 1) as [ls|] eqn:EL; [|discriminate].
  destruct (initFirst (nChilds rootNd) ([] :: ls)) as [ls1|] eqn:EF; [|discriminate].
  destruct (init_ginv s0 rootNd ls ls1 I0 E0 EL EF) as [G CS].
  destruct (routeLoop_inv _ _ _ _ _ G CS H) as (D & GD & (_ & _ & CC) & Sub). exists D. split; [exact GD|].
  intros n. induction n as [n IHn] using lt_wf_ind. intros Hn N0.
  destruct (nth_ex _ tnds n Hn) as (nd & En). destruct (tr_parent _ T _ _ En N0) as [Lp (q & Eq & Iq & _)].
  destruct (Nat.eq_dec (nParent nd) 0) as [Z|NZ].
  - apply Sub. rewrite app_nil_r. apply in_rev. rewrite rev_involutive. rewrite Z, E0 in Eq. inversion Eq; subst q. exact Iq.
  - apply (CC (nParent nd) n q); [apply IHn; [exact Lp|lia|exact NZ]|exact Eq|exact Iq].
Qed.

(** ** Optimality *)
Lemma costAt_det : forall (L : layer) i c c', costAt L i c -> costAt L i c' -> c = c'.
Proof. intros L i c c' (p & H) (q & H'). congruence. Qed.

Lemma seq_lower : forall r D, ginv r D -> (forall n, n < List.length tnds -> n <> 0 -> In n D) ->
  forall n is c, seqcost (rLog r) n is c -> forall i is', is = i :: is' ->
  exists L cl, nth_error (rLay r) n = Some L /\ costAt L i cl /\ lt c cl = false.
Proof.
  intros r D G All n is c S. induction S as [n i x F Cx|n p i f is c adds Pn S IH O]; intros i' is' E'; injection E' as <- <-.
  - assert (In n D) by (destruct F as (nd & En & _ & N0); apply All; [eapply nth_lt; exact En|exact N0]).
    destruct (gi_first _ _ G _ F H) as (cs & Ec & El). exists (map (fun x => (cPen x, None)) cs), (cPen x). split; [exact El|].
    split; [|apply (cl_irrefl _ _ _ laws)]. exists None. rewrite nth_error_map. rewrite (proj1 (cand_at_iff _ _ _ _ Ec) Cx). reflexivity.
  - destruct (IH _ _ eq_refl) as (Lp & cl & Ep & Hc & Le).
    assert (In n D) by (destruct Pn as (nd & En & _ & N0 & _); apply All; [eapply nth_lt; exact En|exact N0]).
    destruct (gi_ok _ _ G _ _ Pn H) as (_ & frL & toL & X1 & X2 & (_ & _ & X3) & _).
    destruct (X3 _ _ _ O) as (cf & ci & Y1 & Y2 & Y3). rewrite Ep in X1. inversion X1; subst frL.
    assert (cf = cl) by (eapply costAt_det; eassumption). subst cf.
    exists toL, ci. split; [exact X2|]. split; [exact Y2|]. change (fold_left add adds c) with (addAll adds c).
    eapply (cl_ntrans _ _ _ laws); [apply addAll_mono; exact Le|exact Y3].
Qed.

Notation yields := (yields startCost spath tnds ecm).
Notation is_hop := (is_hop startCost spath ecm).

Lemma maxProgr_spec : forall n (l : list cand) m0, (0 <= m0)%Q ->
  let step := (fun (m : Q) (c : cand) => match cE c with
                        | None => m
                        | Some e =>
                            let s := (if Qlt_le_dec 0 (cProgr C E P c) then inject_Z (startCost n e) * cProgr C E P c else 0)%Q in
                            if Qlt_le_dec m s then s else m
                        end) in
  let M := fold_left step l m0 in
  (m0 <= M)%Q /\
  (forall c e, In c l -> cE c = Some e -> (0 < cProgr C E P c)%Q -> (inject_Z (startCost n e) * cProgr C E P c <= M)%Q) /\
  (M = m0 \/ exists c e, In c l /\ cE c = Some e /\ (M == inject_Z (startCost n e) * cProgr C E P c)%Q).
Proof.
  intros n l. induction l as [|c l IH]; intros m0 H0 step M.
  - split; [apply Qle_refl|]. split; [intros c e []|left; reflexivity].
  - assert (Hs : (m0 <= step m0 c)%Q /\ (forall e, cE c = Some e -> (0 < cProgr C E P c)%Q -> (inject_Z (startCost n e) * cProgr C E P c <= step m0 c)%Q) /\
      (step m0 c = m0 \/ exists e, cE c = Some e /\ (step m0 c == inject_Z (startCost n e) * cProgr C E P c)%Q)).
    { unfold step. destruct (cE c) as [e|]; [|split; [apply Qle_refl|split; [discriminate|left; reflexivity]]].
      destruct (Qlt_le_dec 0 (cProgr C E P c)) as [Pc|Pc]; cbn zeta.
      - destruct (Qlt_le_dec m0 (inject_Z (startCost n e) * cProgr C E P c)) as [X|X].
        + split; [apply Qlt_le_weak; exact X|]. split; [intros e' Ee; inversion Ee; subst; intros; apply Qle_refl|].
          right. exists e. split; [reflexivity|reflexivity].
        + split; [apply Qle_refl|]. split; [intros e' Ee; inversion Ee; subst; auto|left; reflexivity].
      - destruct (Qlt_le_dec m0 0) as [X|X]; [exfalso; apply (Qlt_irrefl 0); eapply Qle_lt_trans; eassumption|].
        split; [apply Qle_refl|]. split; [intros e' _ Y; exfalso; apply (Qlt_irrefl 0); eapply Qlt_le_trans; eassumption|left; reflexivity]. }
    destruct Hs as (S1 & S2 & S3). assert (H1 : (0 <= step m0 c)%Q) by (eapply Qle_trans; eassumption).
    destruct (IH _ H1) as (I1 & I2 & I3). fold step in I1, I2, I3. change (fold_left step l (step m0 c)) with M in I1, I2, I3.
    split; [eapply Qle_trans; eassumption|]. split.
    + intros d e [<-|I] Ee Pd; [eapply Qle_trans; [apply S2; assumption|exact I1]|eapply I2; eassumption].
    + destruct I3 as [I3|(d & e & I & Ee & X)].
      * destruct S3 as [S3|(e & Ee & X)]; [left; congruence|]. right. exists c, e. split; [left; reflexivity|]. split; [exact Ee|].
        rewrite I3. exact X.
      * right. exists d, e. split; [right; exact I|]. auto.
Qed.
Lemma pathLimit_spec : forall n lim cs, search_limit startCost n lim cs (pathLimit C E P startCost n lim cs).
Proof.
  intros n lim cs. destruct (maxProgr_spec n cs 0%Q (Qle_refl 0)) as (A & B & D). exists (maxProgr C E P startCost n cs).
  split; [exact A|]. split; [exact B|]. split; [destruct D as [D|D]; [left; assert (Dq : maxProgr C E P startCost n cs = 0%Q) by exact D; rewrite Dq; reflexivity|right; exact D]|].
  unfold pathLimit. set (m := (inject_Z lim + maxProgr C E P startCost n cs)%Q). split; intros H.
  - destruct (Qlt_le_dec m (inject_Z u32max)) as [X|X]; [|exfalso; apply (Qlt_irrefl m); eapply Qlt_le_trans; eassumption].
    split; [apply Qfloor_le|apply Qlt_floor].
  - destruct (Qlt_le_dec m (inject_Z u32max)) as [X|X]; [|reflexivity]. exfalso. apply (Qlt_irrefl m). eapply Qlt_le_trans; eassumption.
Qed.
Lemma mkHopOf_is_hop : forall log p n lim frC fr to, nth_error ecm p = Some frC -> last_limit log n lim ->
  is_hop log p n fr to (mkHopOf C E P p0 startCost spath n lim frC fr to).
Proof.
  intros log p n lim frC fr to Ec Ll. exists lim, frC, (pathLimit C E P startCost n lim frC).
  split; [exact Ll|]. split; [exact Ec|]. split; [apply pathLimit_spec|].
  unfold mkHopOf. destruct (cE fr) as [ef|]; destruct (cE to) as [et|]; cbn; auto.
  destruct (spath n ef et (pathLimit C E P startCost n lim frC)) as [c es] eqn:X. cbn. auto.
Qed.

Lemma retrieve_spec : forall r D, ginv r D -> (forall n, n < List.length tnds -> n <> 0 -> In n D) ->
  forall fuel n i L c q, n <> 0 -> n < List.length tnds -> nth_error (rLay r) n = Some L -> nth_error L i = Some (c, q) ->
  lt c inf = true -> forall hs, retrieve fuel r n i = Some hs ->
  exists is, seqcost (rLog r) n (i :: is) c /\ yields (rLog r) n (i :: is) hs.
Proof.
  intros r D G All. induction fuel as [|fuel IH]; intros n i L c q N0 Hn El Ei Lt hs H; cbn [Router_model.retrieve] in H;
    rewrite El, Ei in H.
  - destruct q as [f|]; [discriminate|]. inversion H; subst hs.
    destruct (nth_ex _ tnds n Hn) as (nd & En). destruct (Nat.eq_dec (nParent nd) 0) as [Z|NZ].
    + assert (F : first_node n) by (exists nd; auto). destruct (gi_first _ _ G _ F (All _ Hn N0)) as (cs & Ec & El').
      rewrite El in El'. inversion El'; subst L. rewrite nth_error_map in Ei. destruct (nth_error cs i) as [x|] eqn:Ex; [|discriminate].
      cbn in Ei. inversion Ei; subst c. exists []. split; [apply sc_first; [exact F|eapply cand_at_iff; eassumption]|apply y_first; exact F].
    + assert (Pn : parent n (nParent nd)) by (exists nd; auto).
      destruct (gi_ok _ _ G _ _ Pn (All _ Hn N0)) as (_ & frL & toL & _ & X2 & (X3 & _) & _). rewrite El in X2. inversion X2; subst toL.
      rewrite (X3 _ _ Ei), (cl_irrefl _ _ _ laws) in Lt. discriminate.
  - destruct (nth_ex _ tnds n Hn) as (nd & En). destruct (Nat.eq_dec (nParent nd) 0) as [Z|NZ].
    + assert (F : first_node n) by (exists nd; auto). destruct (gi_first _ _ G _ F (All _ Hn N0)) as (cs & Ec & El').
      rewrite El in El'. inversion El'; subst L. rewrite nth_error_map in Ei. destruct (nth_error cs i) as [x|] eqn:Ex; [|discriminate].
      cbn in Ei. inversion Ei; subst c q. inversion H; subst hs. exists [].
      split; [apply sc_first; [exact F|eapply cand_at_iff; eassumption]|apply y_first; exact F].
    + assert (Pn : parent n (nParent nd)) by (exists nd; auto).
      destruct (gi_ok _ _ G _ _ Pn (All _ Hn N0)) as (_ & frL & toL & X1 & X2 & (X3 & X4 & X5) & X6). rewrite El in X2. inversion X2; subst toL.
      destruct q as [f|]; [|rewrite (X3 _ _ Ei), (cl_irrefl _ _ _ laws) in Lt; discriminate].
      destruct (X4 _ _ _ Ei) as (_ & adds & cf & O & (qf & Ef) & Ec). rewrite En in H.
      set (p := nParent nd) in *.
      destruct (nth_error tnds p) as [pnd|] eqn:Epn; [|discriminate].
      destruct (nth_error ecm p) as [frC|] eqn:Ecp; [|discriminate].
      destruct (nth_error ecm n) as [toC|] eqn:Ecn; [|discriminate].
      assert (Ltf : lt cf inf = true) by (apply (addAll_not_inf adds); rewrite <- Ec; exact Lt).
      assert (Hp : p < List.length tnds) by (eapply nth_lt; exact Epn).
      pose proof (stays_dec _ _ _ _ Epn En) as SD.
      destruct (nArr pnd && negb (nArr nd)) eqn:S.
      * destruct (IH p f frL cf qf NZ Hp X1 Ef Ltf hs H) as (is & Sq & Yl). exists (f :: is). split.
        -- rewrite Ec. eapply sc_step; [exact Pn|exact Sq|exact O].
        -- eapply y_stay; [exact Pn|apply SD; reflexivity|exact Yl].
      * destruct (nth_error frC f) as [xf|] eqn:Exf; [|discriminate]. destruct (nth_error toC i) as [xi|] eqn:Exi; [|discriminate].
        destruct (retrieve fuel r p f) as [rest|] eqn:Rr; [|discriminate]. inversion H; subst hs.
        destruct (IH p f frL cf qf NZ Hp X1 Ef Ltf rest Rr) as (is & Sq & Yl). exists (f :: is). split.
        -- rewrite Ec. eapply sc_step; [exact Pn|exact Sq|exact O].
        -- assert (NS : ~ stays p n) by (intros Y; apply SD in Y; discriminate).
           eapply y_hop; [exact Pn|exact NS|exact Yl|eapply cand_at_iff; eassumption|eapply cand_at_iff; eassumption|].
           apply mkHopOf_is_hop; [exact Ecp|]. destruct (X6 NS) as (h & tr & l & Y1 & _ & Y3 & _). exists h, tr, l. auto.
Qed.

Lemma argmin_spec : forall L i best bestC k c, argmin L i best bestC = (k, c) ->
  lt bestC c = false /\ (forall j cj qj, nth_error L j = Some (cj, qj) -> lt cj c = false) /\
  ((k = best /\ c = bestC) \/ exists q, i <= k /\ nth_error L (k - i) = Some (c, q)).
Proof.
  induction L as [|[x q] L IH]; intros i best bestC k c H; cbn [Router_model.argmin] in H.
  - inversion H; subst. split; [apply (cl_irrefl _ _ _ laws)|]. split; [intros [|j] ? ? X; discriminate|left; auto].
  - destruct (lt x bestC) eqn:Lx; destruct (IH _ _ _ _ _ H) as (A & B & D).
    + split; [eapply (cl_ntrans _ _ _ laws); [apply lt_asym; exact Lx|exact A]|]. split.
      * intros [|j] cj qj X; [inversion X; subst; exact A|]. eapply B. exact X.
      * right. destruct D as [[-> ->]|(q' & D1 & D2)].
        -- exists q. rewrite Nat.sub_diag. split; [lia|reflexivity].
        -- exists q'. split; [lia|]. replace (k - i) with (Datatypes.S (k - Datatypes.S i)) by lia. exact D2.
    + split; [exact A|]. split.
      * intros [|j] cj qj X; [inversion X; subst; eapply (cl_ntrans _ _ _ laws); [exact Lx|exact A]|]. eapply B. exact X.
      * destruct D as [D|(q' & D1 & D2)]; [left; exact D|right]. exists q'. split; [lia|].
        replace (k - i) with (Datatypes.S (k - Datatypes.S i)) by lia. exact D2.
Qed.

Lemma allLeaves_in : forall leaves r m leaf hs, allLeaves r leaves = Some m -> In (leaf, hs) m ->
  In leaf leaves /\ leafHops r leaf = Some hs.
Proof.
  induction leaves as [|n t IH]; intros r m leaf hs H I; cbn [Router_model.allLeaves] in H; [inversion H; subst; destruct I|].
  destruct (leafHops r n) as [h|] eqn:Eh; [|discriminate]. destruct (allLeaves r t) as [m'|] eqn:Em; [|discriminate].
  inversion H; subst. destruct I as [I|I]; [inversion I; subst; cbn; auto|]. destruct (IH _ _ _ _ Em I). cbn. auto.
Qed.

Lemma seqcost_nonempty : forall log n is c, seqcost log n is c -> exists i is', is = i :: is'.
Proof. intros log n is c S. destruct S; eauto. Qed.
Lemma seqcost_node : forall log n is c, seqcost log n is c -> n <> 0 /\ n < List.length tnds.
Proof.
  intros log n is c S. destruct S as [n i x (nd & En & _ & N0) _|n p i f is c adds (nd & En & _ & N0 & _) _ _];
    (split; [exact N0|eapply nth_lt; exact En]).
Qed.

Lemma leaf_optimal : forall r D, ginv r D -> (forall n, n < List.length tnds -> n <> 0 -> In n D) ->
  forall leaf hs, leafHops r leaf = Some hs ->
  (exists is' c', seqcost (rLog r) leaf is' c' /\ lt c' inf = true) ->
  exists is c, seqcost (rLog r) leaf is c /\ yields (rLog r) leaf is hs /\
    forall is' c', seqcost (rLog r) leaf is' c' -> lt c' c = false.
Proof.
  intros r D G All leaf hs H (is0 & c0 & S0 & F0). unfold Router_model.leafHops in H.
  destruct (seqcost_node _ _ _ _ S0) as [N0 Hn].
  destruct (nth_error (rLay r) leaf) as [L|] eqn:El; [|discriminate].
  destruct (argmin L 0 0 inf) as [k c] eqn:Am. cbn [fst] in H. destruct (argmin_spec _ _ _ _ _ _ Am) as (A & B & Dj).
  assert (Low : forall is' c', seqcost (rLog r) leaf is' c' -> lt c' c = false).
  { intros is' c' S'. destruct (seqcost_nonempty _ _ _ _ S') as (i & is'' & ->).
    destruct (seq_lower _ _ G All _ _ _ S' _ _ eq_refl) as (L' & cl & E1 & (q & E2) & Le). rewrite El in E1. inversion E1; subst L'.
    eapply (cl_ntrans _ _ _ laws); [exact Le|eapply B; exact E2]. }
  assert (Fc : lt c inf = true). { eapply le_lt_lt; [apply (Low _ _ S0)|exact F0]. }
  destruct Dj as [[_ X]|(q & _ & Ek)]; [rewrite X, (cl_irrefl _ _ _ laws) in Fc; discriminate|]. rewrite Nat.sub_0_r in Ek.
  destruct (retrieve_spec _ _ G All leaf leaf k L c q N0 Hn El Ek Fc hs H) as (is & Sq & Yl).
  exists (k :: is), c. auto.
Qed.

(** ** One hop per pair of stops *)
Lemma yields_nhops : forall log n is hs, yields log n is hs -> nhops tnds n (List.length hs).
Proof.
  intros log n is hs Y. induction Y; cbn [List.length].
  - apply nh_first. assumption.
  - eapply nh_stay; eassumption.
  - eapply nh_hop; eassumption.
Qed.
Lemma nhops_det : forall n k, nhops tnds n k -> forall k', nhops tnds n k' -> k = k'.
Proof.
  intros n k H. induction H as [n F|n p k Pn S H IH|n p k Pn S H IH]; intros k' H'; inversion H' as [n' F'|n' p' k'' Pn' S' H''|n' p' k'' Pn' S' H'']; subst; try reflexivity.
  - exfalso. destruct F as (a & A1 & A2 & _). destruct Pn' as (b & B1 & B2 & _ & B3). congruence.
  - exfalso. destruct F as (a & A1 & A2 & _). destruct Pn' as (b & B1 & B2 & _ & B3). congruence.
  - exfalso. destruct F' as (a & A1 & A2 & _). destruct Pn as (b & B1 & B2 & _ & B3). congruence.
  - rewrite (parent_unique _ _ _ Pn Pn') in *. auto.
  - exfalso. rewrite (parent_unique _ _ _ Pn Pn') in *. contradiction.
  - exfalso. destruct F' as (a & A1 & A2 & _). destruct Pn as (b & B1 & B2 & _ & B3). congruence.
  - exfalso. rewrite (parent_unique _ _ _ Pn Pn') in *. contradiction.
  - rewrite (parent_unique _ _ _ Pn Pn') in *. f_equal. auto.
Qed.

Lemma finite_seq : forall r D, ginv r D -> (forall n, n < List.length tnds -> n <> 0 -> In n D) ->
  forall n i L c q, n <> 0 -> n < List.length tnds -> nth_error (rLay r) n = Some L -> nth_error L i = Some (c, q) -> lt c inf = true ->
  exists is, seqcost (rLog r) n (i :: is) c.
Proof.
  intros r D G All n. induction n as [n IH] using lt_wf_ind. intros i L c q N0 Hn El Ei Lt.
  destruct (nth_ex _ tnds n Hn) as (nd & En). destruct (Nat.eq_dec (nParent nd) 0) as [Z|NZ].
  - assert (F : first_node n) by (exists nd; auto). destruct (gi_first _ _ G _ F (All _ Hn N0)) as (cs & Ec & El').
    rewrite El in El'. inversion El'; subst L. rewrite nth_error_map in Ei. destruct (nth_error cs i) as [x|] eqn:Ex; [|discriminate].
    cbn in Ei. inversion Ei; subst c q. exists []. apply sc_first; [exact F|eapply cand_at_iff; eassumption].
  - assert (Pn : parent n (nParent nd)) by (exists nd; auto). destruct (tr_parent _ T _ _ En N0) as [Lp _].
    destruct (gi_ok _ _ G _ _ Pn (All _ Hn N0)) as (_ & frL & toL & X1 & X2 & (X3 & X4 & X5) & X6). rewrite El in X2. inversion X2; subst toL.
    destruct q as [f|]; [|rewrite (X3 _ _ Ei), (cl_irrefl _ _ _ laws) in Lt; discriminate].
    destruct (X4 _ _ _ Ei) as (_ & adds & cf & O & (qf & Ef) & Ec).
    assert (Ltf : lt cf inf = true) by (apply (addAll_not_inf adds); rewrite <- Ec; exact Lt).
    destruct (IH (nParent nd) Lp f frL cf qf NZ ltac:(lia) X1 Ef Ltf) as (is & Sq). exists (f :: is).
    rewrite Ec. eapply sc_step; [exact Pn|exact Sq|exact O].
Qed.
Lemma NoDup_fst_inj : forall A B (l : list (A * B)) a b b', NoDup (map fst l) -> In (a, b) l -> In (a, b') l -> b = b'.
Proof.
  induction l as [|[x y] l IH]; intros a b b' N I I'; [destruct I|]. cbn in N. inversion N as [|x' l' N1 N2]; subst.
  destruct I as [I|I]; destruct I' as [I'|I'].
  - congruence.
  - inversion I; subst. exfalso. apply N1. apply in_map_iff. exists (a, b'). auto.
  - inversion I'; subst. exfalso. apply N1. apply in_map_iff. exists (a, b). auto.
  - eauto.
Qed.
Notation best_costs := (best_costs lt add inf weight ofZ tnds ecm).
Lemma log_facts : forall r D, ginv r D -> (forall n, n < List.length tnds -> n <> 0 -> In n D) ->
  NoDup (map fst (rLog r)) /\
  (forall n p, parent n p -> ~ stays p n -> exists h, In (n, h) (rLog r)) /\
  forall n h, In (n, h) (rLog r) -> exists p cs, parent n p /\ ~ stays p n /\ limits_ok (limit0 p n) h /\
    best_costs (rLog r) p cs /\ (forall l a, In (l, a) (hTrace h) -> Good p n cs l a) /\
    (hFailed h = true -> forall lim la a x y is c, In (lim, la) (hTrace h) -> In a la -> cand_at p (aFr a) x ->
       cand_at n (aTo a) y -> seqcost (rLog r) p (aFr a :: is) c ->
       lt (add (add c (cPen y)) (weight p n (aC a) (aD a) (cTime y - cTime x)%Z)) inf = false) /\
    (hFailed h = false -> exists i is c, seqcost (rLog r) n (i :: is) c /\ lt c inf = true).
Proof.
  intros r D G All. split; [apply (gi_uniq _ _ G)|]. split.
  - intros n p Pn NS. assert (Hn : n < List.length tnds /\ n <> 0) by (destruct Pn as (nd & X & _ & N0 & _); split; [eapply nth_lt; exact X|exact N0]).
    destruct (gi_ok _ _ G _ _ Pn (All _ (proj1 Hn) (proj2 Hn))) as (_ & frL & toL & _ & _ & _ & X).
    destruct (X NS) as (h & _ & _ & I & _). eauto.
  - intros n h I. destruct (gi_good _ _ G _ _ I) as (p & frL & Pn & NS & Ep & Gd). exists p, (map fst frL).
    assert (Hn : n < List.length tnds /\ n <> 0) by (destruct Pn as (nd & X & _ & N0 & _); split; [eapply nth_lt; exact X|exact N0]).
    destruct (gi_ok _ _ G _ _ Pn (All _ (proj1 Hn) (proj2 Hn))) as (Ip & fL & tL & X1 & X2 & X3 & X4).
    rewrite Ep in X1. inversion X1; subst fL. destruct (gi_D _ _ G _ Ip) as [Hp P0].
    destruct (X4 NS) as (h' & tr & l & Y1 & Y2 & _ & Y3 & Y4).
    assert (h' = h) by (eapply NoDup_fst_inj; [apply (gi_uniq _ _ G)|exact Y1|exact I]). subst h'.
    split; [exact Pn|]. split; [exact NS|]. split; [exact Y2|]. split; [|split; [exact Gd|split]].
    + intros i c Ei. rewrite nth_error_map in Ei. destruct (nth_error frL i) as [[c0 q]|] eqn:E0; [|discriminate]. cbn in Ei. injection Ei as <-.
      split.
      * intros is c' S. destruct (seq_lower _ _ G All _ _ _ S _ _ eq_refl) as (L & cl & Z1 & (q' & Z2) & Z3).
        rewrite Ep in Z1. inversion Z1; subst L. rewrite E0 in Z2. inversion Z2; subst. exact Z3.
      * intros Fi. eapply finite_seq; eassumption.
    + intros Hf lim la a x y is c J1 J2 J3 J4 S.
      destruct (seq_lower _ _ G All _ _ _ S _ _ eq_refl) as (L & cl & Z1 & Z2 & Z3). rewrite Ep in Z1. inversion Z1; subst L.
      specialize (Y4 Hf lim la a x y cl J1 J2 J3 J4 Z2).
      eapply (cl_ntrans _ _ _ laws); [|exact Y4]. apply (cl_mono _ _ _ laws). apply (cl_mono _ _ _ laws). exact Z3.
    + intros Hf. destruct (Y3 Hf) as (i & c & (q & Ei) & Lt). destruct (finite_seq r D G All n i tL c q (proj2 Hn) (proj1 Hn) X2 Ei Lt) as (is & S).
      exists i, is, c. auto.
Qed.

Lemma is_hop_ends : forall log p n x y h, is_hop log p n x y h -> ends_at h y /\ starts_at h x.
Proof.
  intros log p n x y h (lim & cs & b & _ & _ & _ & H). unfold ends_at, starts_at.
  destruct (cE x) as [ef|] eqn:Ex; destruct (cE y) as [et|] eqn:Ey.
  - destruct H as (-> & -> & -> & -> & _). repeat split; auto; discriminate.
  - destruct H as (_ & -> & -> & -> & ->). repeat split; auto; try discriminate; intros X; contradiction.
  - destruct H as (_ & -> & -> & -> & ->). repeat split; auto; try discriminate; intros X; contradiction.
  - destruct H as (_ & -> & -> & -> & ->). repeat split; auto; intros X; contradiction.
Qed.
Lemma cand_at_det : forall n i x y, cand_at n i x -> cand_at n i y -> x = y.
Proof. intros n i x y (a & A1 & A2) (b & B1 & B2). congruence. Qed.
Lemma pos_transfer : forall (x y : cand) h, cE x = cE y -> Router_model.cProgr C E P x = Router_model.cProgr C E P y ->
  Router_model.cPoint C E P x = Router_model.cPoint C E P y -> ends_at h y -> ends_at h x.
Proof. intros x y h H1 H2 H3. unfold ends_at. rewrite H1, H2, H3. auto. Qed.
Lemma yields_chained : aligned tnds ecm -> forall log n is c, seqcost log n is c -> forall hs, yields log n is hs ->
  chained (C:=C) hs /\ forall i is' x h hs', is = i :: is' -> cand_at n i x -> hs = h :: hs' -> ends_at h x.
Proof.
  intros Al log n is c S. induction S as [n i x F Cx|n p i f is c adds Pn S IH O]; intros hs Y.
  - inversion Y; subst. split; [exact I|]. intros; discriminate.
  - inversion Y as [|n' p' i' f' is' hs' Pn' Sy Yp|n' p' i' f' is' hs' x y h Pn' NS Yp Cx Cy Hh]; subst.
    + pose proof (parent_unique _ _ _ Pn Pn') as <-. destruct (IH _ Yp) as [Ch En]. split; [exact Ch|].
      intros i0 is0 x0 h hs0 E0 Cx0 Eh. injection E0 as <- <-. subst hs.
      assert (Ix : In f (cPrede x0)).
      { destruct O as [f i x Sx Cx Ix| | |]; [rewrite (cand_at_det _ _ _ _ Cx0 Cx); exact Ix|contradiction|contradiction|contradiction]. }
      assert (Cy : exists y, cand_at p f y).
      { inversion S; subst; [eauto|].
        match goal with O' : offers _ _ _ _ f _ |- _ => destruct O' end; eauto. }
      destruct Cy as (y & Cy). destruct (Al _ _ _ _ _ _ Pn Sy Cx0 Ix Cy) as (A1 & A2 & A3).
      eapply pos_transfer; [exact A1|exact A2|exact A3|]. eapply En; [reflexivity|exact Cy|reflexivity].
    + pose proof (parent_unique _ _ _ Pn Pn') as <-. destruct (IH _ Yp) as [Ch En].
      destruct (is_hop_ends _ _ _ _ _ _ Hh) as [He Hs]. split.
      * cbn [chained]. destruct hs' as [|h1 hs']; [exact I|]. split; [|exact Ch]. exists x. split; [|exact Hs].
        eapply En; [reflexivity|exact Cx|reflexivity].
      * intros i0 is0 x0 h0 hs0 E0 Cx0 Eh. injection E0 as <- <-. injection Eh as <- <-. rewrite (cand_at_det _ _ _ _ Cx0 Cy). exact He.
Qed.

(** ** Nothing is out of range *)
Notation in_range := (in_range tnds ecm ask Inv).
Hypothesis EO : ecm_ok tnds ecm in_range.

Lemma relaxAll_total : forall ts frL toL, (forall t, In t ts -> tFr t < List.length frL /\ tTo t < List.length toL) ->
  exists toL' b, relaxAll frL toL ts = Some (toL', b).
Proof.
  induction ts as [|t ts IH]; intros frL toL H; cbn [Router_model.relaxAll]; [eauto|].
  destruct (H t (or_introl eq_refl)) as [Hf Ht]. unfold Router_model.relax.
  destruct (nth_ex _ _ _ Hf) as ([cf qf] & ->). destruct (nth_ex _ _ _ Ht) as ([ct qt] & ->).
  destruct (lt _ ct).
  - destruct (IH frL (upd (tTo t) (fun _ => (fold_left add (tAdds t) cf, Some (tFr t))) toL)) as (a & b & ->).
    { intros u I. rewrite upd_length. apply H. right. exact I. } eauto.
  - destruct (IH frL toL) as (a & b & ->). { intros u I. apply H. right. exact I. } eauto.
Qed.
Lemma hopTrans_total : forall frNid toNid frC toC M,
  (forall a, In a M -> aFr a < List.length frC /\ aTo a < List.length toC) -> exists ts, hopTrans frNid toNid frC toC M = Some ts.
Proof.
  intros frNid toNid frC toC. induction M as [|a M IH]; intros H; cbn [Router_model.hopTrans]; [eauto|].
  destruct (H a (or_introl eq_refl)) as [H1 H2]. destruct (nth_ex _ _ _ H1) as (x & ->). destruct (nth_ex _ _ _ H2) as (y & ->).
  destruct IH as (ts & ->); [intros b I; apply H; right; exact I|]. eauto.
Qed.
Lemma relaxAll_length : forall ts frL toL toL' b, relaxAll frL toL ts = Some (toL', b) -> List.length toL' = List.length toL.
Proof. intros ts frL toL toL' b H. apply relaxAll_spec in H. apply H. Qed.
Lemma doubling_total : forall k p n frC toC frL s M toL mc nm, Inv s -> parent n p -> ~ stays p n ->
  nth_error ecm p = Some frC -> nth_error ecm n = Some toC ->
  List.length frL = List.length frC -> List.length toL = List.length toC ->
  (forall a, In a M -> aFr a < List.length frC /\ aTo a < List.length toC) ->
  exists d, doubling k p n frC toC frL s M toL mc nm = Some d /\ List.length (dLay _ _ d) = List.length toC.
Proof.
  induction k as [|k IH]; intros p n frC toC frL s M toL mc nm HI Pn NS Ep En Lf Lt HM; cbn [Router_model.doubling].
  - eexists. split; [reflexivity|exact Lt].
  - destruct (ask s p n (map fst frL) nm) as [a s1] eqn:A.
    assert (HM1 : forall b, In b (M ++ a) -> aFr b < List.length frC /\ aTo b < List.length toC).
    { intros b I. apply in_app_or in I. destruct I as [I|I]; [apply HM; exact I|].
      destruct (eo_ask _ _ _ EO s p n (map fst frL) nm b HI Pn NS) as ((x & X) & (y & Y));
        [intros c Hc; rewrite Ep in Hc; inversion Hc; subst c; rewrite map_length; exact Lf|rewrite A; exact I|].
      split; eapply nth_lt; eapply cand_at_iff; eassumption. }
    destruct (hopTrans_total p n frC toC (M ++ a) HM1) as (ts & Ht). rewrite Ht.
    destruct (relaxAll_total ts frL toL) as (toL1 & b & R).
    { intros t I. apply (hopTrans_in _ _ _ _ _ _ Ht) in I. destruct I as (u & x & y & I & X1 & X2 & ->). cbn. rewrite Lf, Lt.
      split; eapply nth_lt; eassumption. }
    rewrite R. pose proof (relaxAll_length _ _ _ _ _ R) as RL.
    destruct b; [eexists; split; [reflexivity|cbn; congruence]|].
    set (nm1 := (if (nm <=? u32max / 2)%Z then nm * 2 else u32max)%Z).
    destruct (nm1 =? nm)%Z; [eexists; split; [reflexivity|cbn; congruence]|].
    destruct (HG s p n (map fst frL) nm HI) as [_ HI1]. rewrite A in HI1. cbn in HI1.
    destruct (IH p n frC toC frL s1 (M ++ a) toL1 nm nm1 HI1 Pn NS Ep En Lf ltac:(congruence) HM1) as (d & -> & Ld).
    eexists. split; [reflexivity|exact Ld].
Qed.
Lemma child_total : forall p n r D, ginv r D -> parent n p -> In p D -> exists r', child p r n = Some r'.
Proof.
  intros p n r D G Pn Ip. pose proof Pn as (nd & End & Pnd & N0 & P0).
  destruct (gi_D _ _ G _ Ip) as [Lp _]. assert (Ln : n < List.length tnds) by (eapply nth_lt; exact End).
  unfold Router_model.child. destruct (nth_ex _ tnds p Lp) as (pnd & Epnd). rewrite Epnd, End.
  destruct (eo_nodes _ _ _ EO p Lp P0) as (frC & Ecp). destruct (eo_nodes _ _ _ EO n Ln N0) as (toC & Ecn). rewrite Ecp, Ecn.
  destruct (nth_ex _ (rLay r) p ltac:(rewrite (gi_len _ _ G); exact Lp)) as (frL & Elp).
  destruct (nth_ex _ (rLay r) n ltac:(rewrite (gi_len _ _ G); exact Ln)) as (toL & Eln). rewrite Elp, Eln.
  destruct (gi_lay _ _ G _ _ P0 Elp) as (c1 & X1 & Lf). rewrite Ecp in X1. inversion X1; subst c1.
  destruct (gi_lay _ _ G _ _ N0 Eln) as (c2 & X2 & Lt). rewrite Ecn in X2. inversion X2; subst c2.
  pose proof (stays_dec _ _ _ _ Epnd End) as SD.
  destruct (nArr pnd && negb (nArr nd)) eqn:S.
  - destruct (relaxAll_total (inNode toC) frL toL) as (toL' & b & ->); [|eauto].
    intros t I. apply inNode_in in I. destruct I as (i & x & f & Y1 & Y2 & ->). cbn. rewrite Lf, Lt.
    split; [|eapply nth_lt; exact Y1]. destruct (eo_prede _ _ _ EO p n i x f Pn (proj2 SD eq_refl)) as (y & Y); [|exact Y2|].
    + eapply cand_at_iff; eassumption.
    + eapply nth_lt. eapply cand_at_iff; eassumption.
  - destruct (doubling_total (Datatypes.S MAX_STEPS) p n frC toC frL (rSt r) [] toL (limit0 p n) (limit0 p n) (gi_inv _ _ G) Pn ltac:(intros Y; apply SD in Y; discriminate) Ecp Ecn Lf Lt)
      as (d & -> & Ld); [intros a []|].
    destruct (dFound _ _ d); [eauto|].
    destruct (relaxAll_total (nullTrans frC toC (dMax C St d) ++ dummyTrans frC toC) frL (dLay _ _ d)) as (toL' & b & ->); [|eauto].
    intros t I. rewrite Lf, Ld. apply in_app_or in I. destruct I as [I|I].
    + apply nullTrans_in in I. destruct I as (f & i & Y1 & Y2 & ->). cbn. apply nulls_lt in Y2. tauto.
    + apply dummyTrans_in in I. destruct I as (f & i & y & Y1 & Y2 & Y3 & ->). cbn. split; [exact Y1|eapply nth_lt; exact Y2].
Qed.
Lemma childLoop_total : forall cs p r D, ginv r D -> In p D -> NoDup cs ->
  (forall n, In n cs -> parent n p /\ ~ In n D) -> exists r', childLoop p r cs = Some r'.
Proof.
  induction cs as [|c cs IH]; intros p r D G Ip ND Hc; cbn [Router_model.childLoop]; [eauto|].
  destruct (Hc c (or_introl eq_refl)) as [Pc Nc]. destruct (child_total _ _ _ _ G Pc Ip) as (r1 & E1). rewrite E1.
  inversion ND; subst. apply (IH p r1 (c :: D)); [eapply child_inv; eassumption|right; exact Ip|assumption|].
  intros n I. destruct (Hc n (or_intror I)) as [Pn Nn]. split; [exact Pn|]. intros [X|X]; [subst; contradiction|contradiction].
Qed.
Lemma routeLoop_total : forall fuel stack popped r, ginv r (stack ++ popped) -> closed_stack stack popped ->
  List.length tnds <= fuel + List.length popped -> exists r', routeLoop fuel stack r = Some r'.
Proof.
  induction fuel as [|fuel IH]; intros stack popped r G CS Hf; destruct stack as [|n rest]; cbn [Router_model.routeLoop]; eauto.
  - exfalso. destruct CS as (ND & _). assert (Inc : incl ((n :: rest) ++ popped) (seq 1 (List.length tnds - 1))).
    { intros x I. destruct (gi_D _ _ G _ I) as [X Y]. apply in_seq. lia. }
    pose proof (NoDup_incl_length ND Inc) as Y. rewrite seq_length, app_length in Y. cbn [List.length] in Y.
    destruct (gi_D _ _ G n (or_introl eq_refl)). lia.
  - destruct (gi_D _ _ G n (or_introl eq_refl)) as [Hn N0]. destruct (nth_ex _ tnds n Hn) as (nd & En). rewrite En.
    destruct (closed_step _ _ _ _ CS N0 En) as [Fr CS'].
    assert (Hc : forall c, In c (nChilds nd) -> parent c n /\ ~ In c ((n :: rest) ++ popped)).
    { intros c I. split; [eapply child_parent; eassumption|apply Fr; exact I]. }
    assert (NDc : NoDup (nChilds nd)) by (eapply tr_nodup; eassumption).
    destruct (childLoop_total (nChilds nd) n r _ G (or_introl eq_refl) NDc Hc) as (r1 & E1). rewrite E1.
    assert (G1 : ginv r1 (rev (nChilds nd) ++ (n :: rest) ++ popped)).
    { eapply childLoop_inv; [exact G|exact E1|left; reflexivity|exact NDc|exact Hc]. }
    apply (IH _ (n :: popped)); [|exact CS'|cbn [List.length]; lia].
    eapply ginv_ext; [|exact G1]. intros m. repeat first [rewrite in_app_iff | progress cbn [In app]]. tauto.
Qed.

Lemma initLayers_total : forall k nid, (forall n, nid <= n < nid + k -> exists cs, nth_error ecm n = Some cs) ->
  exists ls, initLayers k nid = Some ls.
Proof.
  induction k as [|k IH]; intros nid H; cbn [Router_model.initLayers]; [eauto|].
  destruct (H nid) as (cs & ->); [lia|]. destruct (IH (Datatypes.S nid)) as (ls & ->); [intros n Hn; apply H; lia|]. eauto.
Qed.
Lemma initFirst_total : forall cs ls, (forall n, In n cs -> exists x, nth_error ecm n = Some x) -> exists ls1, initFirst cs ls = Some ls1.
Proof.
  induction cs as [|c cs IH]; intros ls H; cbn [Router_model.initFirst]; [eauto|].
  destruct (H c (or_introl eq_refl)) as (x & ->). apply IH. intros n I. apply H. right. exact I.
Qed.
Lemma solve_total : forall s0, Inv s0 -> exists r, solve s0 = Some r.
Proof.
  intros s0 I0. destruct (tr_root _ T) as (rootNd & E0 & _). rewrite (solve_eq _ _ E0).
  destruct (initLayers_total (List.length tnds - 1) 1) as (ls & EL); [intros n Hn; apply (eo_nodes _ _ _ EO); lia|]. rewrite EL.
  destruct (initFirst_total (nChilds rootNd) ([] :: ls)) as (ls1 & EF).
  { intros n I. destruct (tr_child _ T _ _ _ E0 I) as [N0 (x & Ex & _)]. apply (eo_nodes _ _ _ EO); [eapply nth_lt; exact Ex|exact N0]. }
  rewrite EF. destruct (init_ginv s0 rootNd ls ls1 I0 E0 EL EF) as [G CS].
  eapply routeLoop_total; [exact G|exact CS|cbn; lia].
Qed.
Lemma retrieve_total : forall r D, ginv r D -> (forall n, n < List.length tnds -> n <> 0 -> In n D) ->
  forall fuel n i L, n <> 0 -> n < List.length tnds -> n <= fuel -> nth_error (rLay r) n = Some L -> i < List.length L ->
  exists hs, retrieve fuel r n i = Some hs.
Proof.
  intros r D G All. induction fuel as [|fuel IH]; intros n i L N0 Hn Hf El Hi; [lia|]. cbn [Router_model.retrieve]. rewrite El.
  destruct (nth_ex _ _ _ Hi) as ([c q] & Ei). rewrite Ei. destruct q as [f|]; [|eauto].
  destruct (nth_ex _ tnds n Hn) as (nd & End). rewrite End.
  destruct (Nat.eq_dec (nParent nd) 0) as [Z|NZ].
  { exfalso. assert (F : first_node n) by (exists nd; auto). destruct (gi_first _ _ G _ F (All _ Hn N0)) as (cs & Ec & El').
    rewrite El in El'. inversion El'; subst L. rewrite nth_error_map in Ei. destruct (nth_error cs i); discriminate. }
  assert (Pn : parent n (nParent nd)) by (exists nd; auto). set (p := nParent nd) in *.
  destruct (gi_ok _ _ G _ _ Pn (All _ Hn N0)) as (Ip & frL & toL & X1 & X2 & (X3 & X4 & X5) & X6).
  rewrite El in X2. inversion X2; subst toL. destruct (X4 _ _ _ Ei) as (_ & adds & cf & O & (qf & Ef) & Ec).
  destruct (gi_D _ _ G _ Ip) as [Hp P0]. destruct (nth_ex _ tnds p Hp) as (pnd & Epn). rewrite Epn.
  destruct (gi_lay _ _ G _ _ P0 X1) as (frC & Ecp & Lf). destruct (gi_lay _ _ G _ _ N0 El) as (toC & Ecn & Lt). rewrite Ecp, Ecn.
  destruct (tr_parent _ T _ _ End N0) as [Lp _]. change (nParent nd) with p in Lp.
  destruct (IH p f frL P0 Hp ltac:(lia) X1 (nth_lt _ _ _ _ Ef)) as (hs & Hs). rewrite Hs.
  destruct (nArr pnd && negb (nArr nd)); [eauto|].
  destruct (nth_ex _ frC f ltac:(rewrite <- Lf; eapply nth_lt; exact Ef)) as (xf & ->).
  destruct (nth_ex _ toC i ltac:(rewrite <- Lt; exact Hi)) as (xi & ->). eauto.
Qed.
Lemma leafHops_total : forall r D, ginv r D -> (forall n, n < List.length tnds -> n <> 0 -> In n D) ->
  forall leaf, leaf <> 0 -> leaf < List.length tnds -> exists hs, leafHops r leaf = Some hs.
Proof.
  intros r D G All leaf N0 Hn. unfold Router_model.leafHops.
  destruct (nth_ex _ (rLay r) leaf ltac:(rewrite (gi_len _ _ G); exact Hn)) as (L & El). rewrite El.
  destruct (gi_lay _ _ G _ _ N0 El) as (cs & Ec & Lc). pose proof (eo_nonempty _ _ _ EO leaf cs Hn N0 Ec) as NE.
  assert (L0 : 0 < List.length L) by (rewrite Lc; destruct cs; [contradiction|cbn; lia]).
  destruct (argmin L 0 0 inf) as [k c] eqn:Am. destruct (argmin_spec _ _ _ _ _ _ Am) as (_ & _ & Dj). cbn [fst].
  eapply retrieve_total; [exact G|exact All|exact N0|exact Hn|lia|exact El|].
  destruct Dj as [[-> _]|(q & _ & Ek)]; [exact L0|]. rewrite Nat.sub_0_r in Ek. eapply nth_lt; exact Ek.
Qed.
Lemma route_total : forall s0 leaves, Inv s0 -> (forall n, In n leaves -> n <> 0 /\ n < List.length tnds) ->
  exists r m, route s0 leaves = Some (r, m) /\ map fst m = leaves.
Proof.
  intros s0 leaves I0 HL. unfold Router_model.route. destruct (solve_total s0 I0) as (r & Es). rewrite Es.
  destruct (solve_inv _ _ I0 Es) as (D & G & All).
  assert (X : exists m, allLeaves r leaves = Some m /\ map fst m = leaves).
  { clear Es. induction leaves as [|n t IH]; cbn [Router_model.allLeaves]; [exists []; auto|].
    destruct (HL n (or_introl eq_refl)) as [N0 Hn]. destruct (leafHops_total r D G All n N0 Hn) as (h & ->).
    destruct IH as (m & -> & <-); [intros x I; apply HL; right; exact I|]. eexists. split; [reflexivity|reflexivity]. }
  destruct X as (m & -> & Hm). exists r, m. auto.
Qed.

(** ** Every trip gets a route *)
Hypothesis EL : ecm_live lt add inf ofZ tnds ecm.
Lemma all_finite : forall r D, ginv r D -> (forall n, n < List.length tnds -> n <> 0 -> In n D) ->
  forall n, n <> 0 -> n < List.length tnds -> exists L, nth_error (rLay r) n = Some L /\ hasFinite L.
Proof.
  intros r D G All n. induction n as [n IH] using lt_wf_ind. intros N0 Hn.
  destruct (nth_ex _ tnds n Hn) as (nd & En). destruct (Nat.eq_dec (nParent nd) 0) as [Z|NZ].
  - assert (F : first_node n) by (exists nd; auto). destruct (gi_first _ _ G _ F (All _ Hn N0)) as (cs & Ec & El).
    eexists. split; [exact El|]. pose proof (eo_nonempty _ _ _ EO n cs Hn N0 Ec) as NE. destruct cs as [|x cs]; [contradiction|].
    exists 0, (cPen x). split; [exists None; reflexivity|]. eapply (el_pen _ _ _ _ _ _ EL n 0 x). exists (x :: cs). auto.
  - assert (Pn : parent n (nParent nd)) by (exists nd; auto). set (p := nParent nd) in *.
    destruct (gi_ok _ _ G _ _ Pn (All _ Hn N0)) as (Ip & frL & toL & X1 & X2 & (X3 & X4 & X5) & X6).
    exists toL. split; [exact X2|]. destruct (tr_parent _ T _ _ En N0) as [Lp _].
    destruct (gi_D _ _ G _ Ip) as [Hp P0]. destruct (IH p Lp P0 Hp) as (L' & El' & (f & cf & (qf & Hf) & Ff)).
    rewrite X1 in El'. inversion El'; subst L'. destruct (gi_lay _ _ G _ _ P0 X1) as (frC & Ecp & Lf).
    destruct (nth_ex _ frC f ltac:(rewrite <- Lf; eapply nth_lt; exact Hf)) as (y & Ey).
    assert (Cy : cand_at p f y) by (exists frC; auto).
    assert (Fin : forall i adds, offers (rLog r) p n f i adds -> (forall x, In x adds -> lt x inf = true) -> hasFinite toL).
    { intros i adds O Fa. destruct (X5 _ _ _ O) as (cf' & ci & (qf' & Y1) & Y2 & Y3). rewrite Hf in Y1. inversion Y1; subst cf' qf'.
      exists i, ci. split; [exact Y2|]. eapply le_lt_lt; [exact Y3|]. clear -Ff Fa EL. revert cf Ff.
      induction adds as [|x adds IHa]; intros cf Ff; [exact Ff|]. cbn. apply IHa; [intros z I; apply Fa; right; exact I|].
      apply (el_add _ _ _ _ _ _ EL); [exact Ff|apply Fa; left; reflexivity]. }
    destruct (nth_ex _ tnds p Hp) as (pnd & Epn). pose proof (stays_dec _ _ _ _ Epn En) as SD.
    destruct (nArr pnd && negb (nArr nd)) eqn:S.
    + assert (Sy : stays p n) by (apply SD; reflexivity). destruct (el_stay _ _ _ _ _ _ EL p n f y Pn Sy Cy) as (i & x & Cx & Ix).
      apply (Fin i [cPen x]); [apply of_stay; assumption|]. intros z [<-|[]]. eapply (el_pen _ _ _ _ _ _ EL); exact Cx.
    + assert (NS : ~ stays p n) by (intros Y; apply SD in Y; discriminate).
      destruct (X6 NS) as (h & tr & l & Y1 & _ & Y3 & Y4). destruct (hFailed h) eqn:Fh; [|apply Y4; reflexivity].
      destruct (el_null _ _ _ _ _ _ EL p n Pn NS) as (x & Cx & Nx).
      apply (Fin 0 [ofZ (wrap32 (nth n (rMax r) 0%Z * 100))]); [|intros z [<-|[]]; apply (el_ofZ _ _ _ _ _ _ EL)].
      eapply of_null; [exact NS|exact Y1|exact Fh|exact Y3|exact Cy|exact Cx|]. intros j z Hj Cz. assert (j = 0) by lia. subst j.
      destruct Cx as (a & A1 & A2). destruct Cz as (b & B1 & B2). congruence.
Qed.
Lemma leaf_reached : forall r D, ginv r D -> (forall n, n < List.length tnds -> n <> 0 -> In n D) ->
  forall n, n <> 0 -> n < List.length tnds -> exists is c, seqcost (rLog r) n is c /\ lt c inf = true.
Proof.
  intros r D G All n N0 Hn. destruct (all_finite r D G All n N0 Hn) as (L & El & i & c & (q & Ei) & Lt).
  destruct (finite_seq r D G All n i L c q N0 Hn El Ei Lt) as (is & S). eauto.
Qed.
End P.

(** ** The number of hops of a trip *)
From Verif Require Import TripTrie_spec.
Lemma last_cons : forall A (l : list A) x d, last (x :: l) d = last l x.
Proof.
  induction l as [|y l IH]; intros x d; [reflexivity|]. rewrite (IH y x), <- (IH y d). reflexivity.
Qed.
Lemma spells_nhops_later : forall pos attrs (near : pos -> pos -> bool) (l : list (TripTrie_model.node pos attrs)) tE start rest cur nd k p,
  spells near l tE cur p (later_keys start rest) -> rest <> [] -> cur <> 0 ->
  nth_error l cur = Some nd -> TripTrie_model.nArr _ _ nd = false -> nhops l cur k ->
  nhops l (last p cur) (k + List.length rest).
Proof.
  intros pos attrs near l tE start. induction rest as [|st rest IH]; intros cur nd k p S NE C0 Ec Ar H; [contradiction|].
  cbn [later_keys] in S. inversion S as [|? n nd1 r path ? ? En Pn N0 _ _ A1 _ S1]; subst.
  assert (Hop : nhops l n (Datatypes.S k)).
  { eapply nh_hop; [|intros X|exact H]; [exists nd1; auto|]. destruct X as (a & b & X1 & X2 & X3 & X4). congruence. }
  destruct rest as [|st2 rest].
  - inversion S1; subst. cbn [last List.length]. rewrite Nat.add_1_r. exact Hop.
  - inversion S1 as [|? m nd2 r2 path2 ? ? Em Pm M0 _ _ A2 _ S2]; subst. cbn [kArr] in A1, A2.
    assert (Hm : nhops l m (Datatypes.S k)).
    { eapply nh_stay; [|exists nd1, nd2|exact Hop]; [exists nd2; auto|auto]. }
    pose proof (IH m nd2 _ path2 S2 ltac:(discriminate) M0 Em A2 Hm) as R.
    cbn [List.length] in R |- *. rewrite Nat.add_succ_r. cbn [Nat.add] in R.
    rewrite !last_cons. exact R.
Qed.
Lemma spells_nhops : forall pos attrs (near : pos -> pos -> bool) (l : list (TripTrie_model.node pos attrs)) tE start sts p,
  spells near l tE 0 p (trip_keys start sts) -> 2 <= List.length sts ->
  last p 0 <> 0 /\ nhops l (last p 0) (List.length sts - 1).
Proof.
  intros pos attrs near l tE start sts p S L. destruct sts as [|st [|st2 rest]]; [cbn in L; lia|cbn in L; lia|].
  unfold trip_keys in S. inversion S as [|? n nd1 r path ? ? En Pn N0 _ _ A1 _ S1]; subst.
  assert (H : nhops l n 0) by (apply nh_first; exists nd1; auto).
  pose proof (spells_nhops_later _ _ _ _ _ start (st2 :: rest) _ _ _ _ S1 ltac:(discriminate) N0 En A1 H) as R.
  rewrite last_cons. cbn [List.length Nat.sub Nat.add] in R |- *. split; [|exact R].
  destruct R as [m (a & _ & _ & X)|m q k (a & _ & _ & X & _)|m q k (a & _ & _ & X & _)]; exact X.
Qed.

