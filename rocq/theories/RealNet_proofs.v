From Coq Require Import List ListDec Arith NArith ZArith QArith Bool Lia Lqa.
From Verif Require Import Weights_model Weights_spec Weights_proofs OsmGraph_model OsmGraph_spec OsmGraph_proofs Finish_model Finish_spec Finish_proofs Astar_spec Astar_proofs
  HopCache_model TripTrie_model Router_model Router_spec Hops_model Hops_spec Optimal_spec RealNet_model RealNet_spec.
Import ListNotations.
Open Scope nat_scope.

Section Proofs.
Context {P : Type}.
Variable g : graph P.
Variable baseCost : nat -> Z.
Variable lineSimis : nat -> list simi.
Variable noAttrs : bool.
Variable eFrom eTo : nat -> nat.
Variable turnCycle : nat -> bool.
Variable deg : nat -> nat.
Variable sharp : nat -> nat -> nat -> bool.
Variable restricted : nat -> bool.
Variable may : nat -> nat -> nat -> bool.
Variable o : ropts.
Hypothesis Ub : forall e, u32 (baseCost e).
Hypothesis Ho : opts_ok o.
Notation TC := (transition_cost baseCost lineSimis noAttrs eFrom eTo turnCycle deg sharp restricted may o).
Notation ask := (asked baseCost lineSimis noAttrs eFrom eTo turnCycle deg sharp restricted may o).

Lemma Forall2_last : forall A B (R : A -> B -> Prop) l1 l2 a b d, Forall2 R (l1 ++ [a]) l2 -> b = last l2 d -> R a b.
Proof.
  intros A B R l1 l2 a b d F ->. apply Forall2_app_inv_l in F. destruct F as (m1 & m2 & _ & F & ->).
  inversion F as [|? y ? ? Ry Fn]; subst. inversion Fn; subst. rewrite last_last. exact Ry.
Qed.
Lemma asked_ok : forall h f t, TC f t (ask h (f, t)).
Proof.
  intros h f t.
  exact (Forall2_last _ _ (fun ft r => TC (fst ft) (snd ft) r) _ _ (f, t) _ 0%Z (costRun_spec baseCost lineSimis noAttrs eFrom eTo turnCycle deg sharp restricted may o Ub Ho (h ++ [(f, t)])) eq_refl).
Qed.
Lemma net_costs : forall hs hc, network_costs g TC
  (netStep P g baseCost lineSimis noAttrs eFrom eTo turnCycle deg sharp restricted may o hs)
  (netCost baseCost lineSimis noAttrs eFrom eTo turnCycle deg sharp restricted may o hc).
Proof.
  intros hs hc. split.
  - intros i j w. unfold netStep. destruct (nth_error (edges g) i) as [x|] eqn:Ei; [|split; [discriminate|intros (x & y & A & _); discriminate]].
    destruct (nth_error (edges g) j) as [y|] eqn:Ej; [|split; [discriminate|intros (x' & y & _ & A & _); discriminate]].
    destruct (Nat.eqb_spec (to x) (from y)) as [E|E]; split.
    + intros W. injection W as <-. exists x, y. split; [reflexivity|]. split; [reflexivity|]. split; [exact E|]. apply asked_ok.
    + intros (x' & y' & A & B & _ & T). injection A as <-. injection B as <-. f_equal.
      eapply TC_unique; [apply asked_ok|exact T].
    + discriminate.
    + intros (x' & y' & A & B & C & _). injection A as <-. injection B as <-. contradiction.
  - intros i. unfold netCost. apply asked_ok.
Qed.

Lemma TC_grows : forall i q a b, TC (Some i) None a -> TC (Some i) (Some q) b -> (a <= b)%Z.
Proof.
  intros i [n j] a b A B. destruct (TC_lower _ _ _ _ _ _ _ _ _ _ _ Ub Ho _ _ _ A) as [[_ Ua] _].
  destruct Ho as ([F0 _] & [R0 _] & _).
  destruct A as [[Ba ->]|[(Ba & La & ->)|(Ba & l & tp & rp & La & (-> & ->) & ->)]];
    destruct B as [[Bb ->]|[(Bb & Lb & ->)|(Bb & l' & tp' & rp' & Lb & (Pt & Pr) & ->)]]; try contradiction; try lia.
  - pose proof (LM_unique _ _ _ _ _ _ _ La Lb) as E. discriminate.
  - pose proof (LM_unique _ _ _ _ _ _ _ La Lb) as E. injection E as <-.
    destruct Pt as [[_ ->]|[_ ->]], Pr as [[_ ->]|[_ ->]]; lia.
Qed.

Variable c : nat -> nat.
Hypothesis Hc : forall e, In e (edges g) -> c (from e) = c (to e).
Lemma costs_graph : forall step ecost, network_costs g TC step ecost ->
  Hops_spec.graph_ok step ecost (edgeComp P g c from) (edgeComp P g c to).
Proof.
  intros step ecost [Ns Nc]. split.
  - intros e. apply (TC_lower _ _ _ _ _ _ _ _ _ _ _ Ub Ho _ _ _ (Nc e)).
  - intros e f w S. apply Ns in S. destruct S as (x & y & _ & _ & _ & T). eapply TC_grows; [apply Nc|exact T].
  - assert (K : forall e, edgeComp P g c from e = edgeComp P g c to e).
    { intros e. unfold edgeComp. destruct (nth_error (edges g) e) eqn:E; [|reflexivity]. apply Hc. eapply nth_error_In; eauto. }
    intros a b d es W. induction W as [e|e f t w c' es S W IH]; [apply K|]. rewrite <- IH. rewrite K. apply Ns in S. destruct S as (x & y & Ex & Ey & J & _).
    unfold edgeComp. rewrite Ex, Ey, J. reflexivity.
Qed.
End Proofs.

Lemma areas_edge : forall P sp fl (g g' : graph P) c ms num, areas sp fl g g' c ms num -> OsmGraph_spec.graph_ok g' ->
  forall e, In e (edges g') -> c (from e) = c (to e).
Proof.
  intros P sp fl g g' c ms num A [_ Ends] e I. destruct (Ends e I) as [Nf Nt].
  apply (ar_iff _ _ _ _ _ _ _ A); auto. apply (ar_same _ _ _ _ _ _ _ A); auto.
  eapply cn_step; [constructor|exact I|auto].
Qed.

Lemma problem_from : forall pos attrs C P step ecost compF compT search spath limit0 (tnds : list (node pos attrs)) (ecm : list (list (cand C edge P))),
  (forall n, Hops_spec.graph_ok (step n) (ecost n) compF compT) ->
  searches_ok step ecost search spath limit0 tnds ecm -> problem_ok step ecost compF compT search spath limit0 tnds ecm.
Proof. intros pos attrs C P step ecost compF compT search spath limit0 tnds ecm G [A B D E F H]. split; assumption. Qed.

(** *** A search that meets what is assumed of the searches, for every network. *)
Section Ref.
Variable step : nat -> nat -> option Z.
Variable n : nat.
Hypothesis Sn : forall i j w, step i j = Some w -> (i < n /\ j < n /\ (0 <= w)%Z).
Notation walk := (walk step).

Definition better (x y : option (Z * list nat)) : option (Z * list nat) :=
  match x, y with
  | None, _ => y
  | _, None => x
  | Some (c, _), Some (d, _) => if (c <=? d)%Z then x else y
  end.
(** The cheapest walk of at most [k] steps. *)
Fixpoint refPath (k a b : nat) : option (Z * list nat) :=
  let here := if a =? b then Some (0%Z, [a]) else None in
  match k with
  | 0 => here
  | S k' => fold_right better here (map (fun f => match step a f with
      | Some w => match refPath k' f b with Some (c, p) => Some ((w + c)%Z, a :: p) | None => None end
      | None => None end) (seq 0 n))
  end.
Definition refSearch (a b : nat) (lim : Z) : Z * list nat :=
  match refPath n a b with Some (c, p) => if (c <? lim)%Z then (c, rev p) else (lim, []) | None => (lim, []) end.

Lemma better_in : forall l h x, fold_right better h l = Some x -> h = Some x \/ In (Some x) l.
Proof.
  induction l as [|y l IH]; cbn; intros h x E; [auto|]. unfold better in E at 1. destruct y as [[c p]|].
  - destruct (fold_right better h l) as [[d q]|] eqn:F; [|right; left; congruence]. destruct (c <=? d)%Z; [right; left; congruence|]. rewrite E in F. destruct (IH _ _ F) as [A|A]; auto.
  - destruct (IH _ _ E) as [A|A]; auto.
Qed.
Lemma better_le : forall l h c p, h = Some (c, p) \/ In (Some (c, p)) l -> exists d q, fold_right better h l = Some (d, q) /\ (d <= c)%Z.
Proof.
  induction l as [|y l IH]; cbn; intros h c p H.
  - destruct H as [->|[]]. exists c, p. split; [reflexivity|lia].
  - unfold better at 1. assert (D : y = Some (c, p) \/ (h = Some (c, p) \/ In (Some (c, p)) l)) by tauto. destruct D as [->|D].
    + destruct (fold_right better h l) as [[d q]|]; [|exists c, p; split; [reflexivity|lia]]. destruct (Z.leb_spec c d); [exists c, p|exists d, q]; (split; [reflexivity|lia]).
    + destruct (IH h c p D) as (d & q & -> & L). destruct y as [[e r]|]; [|exists d, q; auto]. destruct (Z.leb_spec e d); [exists e, r|exists d, q]; (split; [reflexivity|lia]).
Qed.
Lemma refPath_sound : forall k a b c p, refPath k a b = Some (c, p) -> walk a b c p.
Proof.
  induction k as [|k IH]; intros a b c p E; cbn [refPath] in E.
  - destruct (Nat.eqb_spec a b) as [->|]; [|discriminate]. injection E as <- <-. constructor.
  - apply better_in in E. destruct E as [E|E].
    + destruct (Nat.eqb_spec a b) as [->|]; [|discriminate]. injection E as <- <-. constructor.
    + apply in_map_iff in E. destruct E as (f & E & _). destruct (step a f) as [w|] eqn:S; [|discriminate].
      destruct (refPath k f b) as [[d q]|] eqn:R; [|discriminate]. injection E as <- <-. econstructor; eauto.
Qed.
Lemma refPath_best : forall k a b d es, walk a b d es -> length es <= S k -> exists c p, refPath k a b = Some (c, p) /\ (c <= d)%Z.
Proof.
  induction k as [|k IH]; intros a b d es W L; inversion W as [e|e f t w c es' S W']; subst; cbn [refPath].
  - exists 0%Z, [b]. rewrite Nat.eqb_refl. split; [reflexivity|lia].
  - cbn in L. inversion W'; subst; cbn in L; lia.
  - apply (better_le _ _ 0%Z [b]). left. now rewrite Nat.eqb_refl.
  - cbn in L. destruct (IH f b c es' W' ltac:(lia)) as (c' & p & R & Lc).
    destruct (better_le (map (fun f => match step a f with
      | Some w => match refPath k f b with Some (c, p) => Some ((w + c)%Z, a :: p) | None => None end
      | None => None end) (seq 0 n)) (if a =? b then Some (0%Z, [a]) else None) (w + c')%Z (a :: p)) as (x & q & E & Lx).
    + right. apply in_map_iff. exists f. rewrite S, R. split; [reflexivity|]. apply in_seq. destruct (Sn _ _ _ S) as (_ & ? & _). lia.
    + exists x, q. split; [exact E|lia].
Qed.
Lemma walk_nonneg : forall a b d es, walk a b d es -> (0 <= d)%Z.
Proof. intros a b d es W. induction W as [|e f t w c es S W IH]; [lia|]. destruct (Sn _ _ _ S) as (_ & _ & ?). lia. Qed.
Lemma walk_head : forall a b d es, walk a b d es -> exists t, es = a :: t.
Proof. intros a b d es W. destruct W; eauto. Qed.
Lemma walk_after : forall l1 x l2 a b d, walk a b d (l1 ++ x :: l2) -> exists d2, walk x b d2 (x :: l2) /\ (d2 <= d)%Z.
Proof.
  induction l1 as [|y l1 IH]; intros x l2 a b d W; cbn in W.
  - destruct (walk_head _ _ _ _ W) as (t & E). injection E as -> <-. exists d. split; [exact W|lia].
  - inversion W as [? E|e f t w c es S W' E1 E2 E3]; subst.
    + destruct l1; discriminate.
    + destruct (IH _ _ _ _ _ W') as (d2 & W2 & L). exists d2. split; [exact W2|]. destruct (Sn _ _ _ S) as (_ & _ & ?). lia.
Qed.
(** Going round in circles does not pay. *)
Lemma walk_cut : forall l1 x l2 l3 a b d, walk a b d (l1 ++ x :: l2 ++ x :: l3) -> exists d', walk a b d' (l1 ++ x :: l3) /\ (d' <= d)%Z.
Proof.
  induction l1 as [|y l1 IH]; intros x l2 l3 a b d W; cbn in W |- *.
  - destruct (walk_head _ _ _ _ W) as (t & E). injection E as E _. subst a. apply (walk_after (x :: l2) x l3 x b d W).
  - inversion W as [? E|e f t w c es S W' E1 E2 E3]; subst.
    + destruct l1; discriminate.
    + destruct (IH _ _ _ _ _ _ W') as (d' & W2 & L). exists (w + d')%Z. split; [econstructor; eauto|lia].
Qed.
Lemma dup_split : forall l : list nat, ~ NoDup l -> exists l1 x l2 l3, l = l1 ++ x :: l2 ++ x :: l3.
Proof.
  induction l as [|y l IH]; intros H; [destruct H; constructor|]. destruct (in_dec Nat.eq_dec y l) as [I|I].
  - apply in_split in I. destruct I as (l2 & l3 & ->). exists [], y, l2, l3. reflexivity.
  - destruct IH as (l1 & x & l2 & l3 & ->). { intros N. apply H. constructor; auto. } exists (y :: l1), x, l2, l3. reflexivity.
Qed.
Lemma walk_below : forall a b d es, walk a b d es -> length es = 1 \/ forall x, In x es -> x < n.
Proof.
  intros a b d es W. induction W as [|e f t w c es S W IH]; [auto|]. right. destruct (Sn _ _ _ S) as (? & Lf & _).
  intros x [<-|I]; [assumption|]. destruct IH as [L1|IH]; [|auto]. destruct (walk_head _ _ _ _ W) as (tl & ->). destruct tl; [|discriminate]. destruct I as [<-|[]]. exact Lf.
Qed.
Lemma walk_short : forall m a b d es, length es <= m -> walk a b d es -> exists d' es', walk a b d' es' /\ (d' <= d)%Z /\ length es' <= S n.
Proof.
  induction m as [|m IH]; intros a b d es L W.
  - destruct (walk_head _ _ _ _ W) as (t & ->). cbn in L. lia.
  - destruct (ListDec.NoDup_dec Nat.eq_dec es) as [N|N].
    + exists d, es. split; [exact W|]. split; [lia|]. destruct (walk_below _ _ _ _ W) as [L1|B]; [lia|].
      assert (I : incl es (seq 0 n)) by (intros x Ix; apply in_seq; specialize (B x Ix); lia).
      pose proof (NoDup_incl_length N I) as Le. rewrite seq_length in Le. apply Nat.le_trans with n; [exact Le|lia].
    + destruct (dup_split es N) as (l1 & x & l2 & l3 & ->). destruct (walk_cut _ _ _ _ _ _ _ W) as (d1 & W1 & L1).
      destruct (IH a b d1 (l1 ++ x :: l3)) as (d' & es' & W' & L' & S'); [|exact W1|].
      * rewrite !app_length in *. cbn in *. rewrite app_length in L. cbn in L. lia.
      * exists d', es'. split; [exact W'|]. split; [lia|exact S'].
Qed.
Lemma refSearch_ok : forall a b lim, let '(c, p) := refSearch a b lim in
  (p <> [] /\ cheapest step a b c /\ (c < lim)%Z /\ walk a b c (rev p)) \/ (p = [] /\ c = lim /\ forall d es, walk a b d es -> (lim <= d)%Z).
Proof.
  intros a b lim. unfold refSearch.
  assert (Best : forall d es, walk a b d es -> exists c p, refPath n a b = Some (c, p) /\ (c <= d)%Z).
  { intros d es W. destruct (walk_short _ _ _ _ _ (le_n _) W) as (d' & es' & W' & L & S'). destruct (refPath_best n _ _ _ _ W' S') as (c & p & E & Lc). exists c, p. split; [exact E|lia]. }
  destruct (refPath n a b) as [[c p]|] eqn:E.
  - pose proof (refPath_sound _ _ _ _ _ E) as W. destruct (Z.ltb_spec c lim) as [L|L].
    + left. split.
      { intros R. destruct (walk_head _ _ _ _ W) as (t & Ep). apply (f_equal (@length _)) in R. rewrite rev_length, Ep in R. discriminate. }
      split; [|split; [exact L|rewrite rev_involutive; exact W]]. split; [exists p; exact W|]. intros d es Wd. destruct (Best d es Wd) as (c' & p' & E' & Lc). injection E' as <- <-. exact Lc.
    + right. split; [reflexivity|]. split; [reflexivity|]. intros d es Wd. destruct (Best d es Wd) as (c' & p' & E' & Lc). injection E' as <- <-. lia.
  - right. split; [reflexivity|]. split; [reflexivity|]. intros d es Wd. destruct (Best d es Wd) as (c' & p' & E' & Lc). discriminate.
Qed.
Lemma ref_search : search_ok step (fun a _ lim b => refSearch a b lim).
Proof.
  intros a tos lim b _. pose proof (refSearch_ok a b lim) as R. destruct (refSearch a b lim) as [c p]. destruct R as [R|(-> & -> & R)]; [left; exact R|right].
  split; [reflexivity|]. split; [lia|exact R].
Qed.
Lemma ref_path : path_search_ok step refSearch.
Proof.
  intros a b lim. pose proof (refSearch_ok a b lim) as R. destruct (refSearch a b lim) as [c p]. destruct R as [(_ & R)|(-> & -> & R)]; [left; exact R|right].
  split; [lia|exact R].
Qed.
End Ref.
