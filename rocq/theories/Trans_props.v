(** C70: the transition penalties of the three methods, and the limit for the search between two stops. *)
From Coq Require Import String List Arith ZArith QArith Qround Qminmax Qabs Bool Lia Lqa.
From Verif Require Import Weights_model Weights_spec Weights_proofs Router_model TripTrie_spec Router_spec Router_proofs Router_props Trans_model Trans_spec Trans_proofs.
Import ListNotations.
Open Scope Q_scope.

(** The weight is the penalty of the method, and no other value is. *)
Theorem C70_penalty : forall m pen c d t0 d0 w,
  (penalty m pen (Zq c / 10) d t0 d0 w -> same (weight m pen c d t0 d0) w) /\
  penalty m pen (Zq c / 10) d t0 d0 (weight m pen c d t0 d0).
Proof.
  intros. split; [|apply penalty_weight]. intro H. apply (penalty_unique m pen (Zq c / 10) d t0 d0); auto. apply penalty_weight.
Qed.
Print Assumptions C70_penalty.
Example C70_penalty_case : weight TimeNorm (1 # 2) 400 0 20 0 = Some (21 # 1) \/ same (weight TimeNorm (1 # 2) 400 0 20 0) (Some 21).
Proof. right. vm_compute. reflexivity. Qed.

(** Penalties are never negative. *)
Theorem C70_never_negative : forall m pen c d t0 d0 w,
  0 <= pen -> (0 <= c)%Z -> weight m pen c d t0 d0 = Some w -> 0 <= w.
Proof. exact weight_nonneg. Qed.
Print Assumptions C70_never_negative.
Example C70_never_negative_case : exists w, weight DistDiff (1 # 2) 10 100 0 300 = Some w /\ w == 100.
Proof. eexists. split; reflexivity. Qed.

(** With a positive penalty factor, [exp] prefers the quicker way, and the penalties of two legs add up. *)
Theorem C70_exp_order : forall pen a b d d' t t' e e' x y z,
  0 < pen -> weight Exp pen a d t e = Some x -> weight Exp pen b d' t' e' = Some y -> weight Exp pen (a + b) d t e = Some z ->
  (x < y <-> (a < b)%Z) /\ z == x + y.
Proof.
  intros pen a b d d' t t' e e' x y z P A B C. simpl in A, B, C. injection A as <-. injection B as <-. injection C as <-.
  split.
  - rewrite !exp_eq. rewrite Qmult_lt_l by exact P. rewrite (Zlt_Qlt a b). unfold Zq, Qdiv.
    apply (Qmult_lt_r (inject_Z a) (inject_Z b) (/ 10)). reflexivity.
  - unfold expWeight, Zq. rewrite inject_Z_plus. field.
Qed.
Print Assumptions C70_exp_order.
Example C70_exp_order_case : exists x y, weight Exp (3 # 2) 100 0 0 0 = Some x /\ weight Exp (3 # 2) 101 7 8 9 = Some y /\ x == 15 /\ x < y.
Proof. do 2 eexists. repeat split; reflexivity. Qed.

(** [distdiff] costs nothing exactly if the way is as long as the stops are apart; without a penalty factor,
    [timenorm] costs nothing exactly if the way takes as long as scheduled (but 10 seconds at least), and a
    candidate that is left before it is reached is never used. *)
Theorem C70_best : forall pen c d t0 d0,
  (forall w, 0 < pen -> weight DistDiff pen c d t0 d0 = Some w -> (w == 0 <-> d == d0)) /\
  (forall w, pen == 0 -> 10 <= t0 -> weight TimeNorm pen c d t0 d0 = Some w -> (w == 0 <-> Zq c / 10 == t0)) /\
  (forall w, pen == 0 -> 0 <= t0 -> t0 <= 10 -> weight TimeNorm pen c d t0 d0 = Some w -> (w == 0 <-> Zq c / 10 == 10)) /\
  (weight TimeNorm pen c d t0 d0 = None <-> t0 < 0).
Proof.
  intros pen c d t0 d0. pose proof (penalty_weight TimeNorm pen c d t0 d0) as PN. split; [|split; [|split]].
  - intros w P H. simpl in H. injection H as <-. unfold distWeight. split; intro E.
    + apply Qmult_integral in E. destruct E as [E|E]; [lra|].
      pose proof (Qle_Qabs (d - d0)). pose proof (Qle_Qabs (- (d - d0))) as Q. rewrite Qabs_opp in Q. lra.
    + assert (d - d0 == 0) as Z by lra. rewrite Z. simpl. ring.
  - intros w P T H. rewrite H in PN. inversion PN; subst.
    + match goal with A : w * _ == _ |- _ => rename A into W end. rewrite P in W. split; intro E.
      * rewrite E in W. assert ((Zq c / 10 - t0) * (Zq c / 10 - t0) == 0) as S by (rewrite Qmult_0_l in W; lra).
        apply sq_zero in S. lra.
      * rewrite E in W. apply (cancel w 0 (t0 * t0)); [intro X; apply sq_zero in X; lra|]. rewrite W. ring.
    + match goal with A : w * _ == _ |- _ => rename A into W end. rewrite P in W. assert (t0 == 10) as T' by lra. split; intro E.
      * rewrite E in W. assert ((Zq c / 10 - 10) * (Zq c / 10 - 10) == 0) as S by lra. apply sq_zero in S. lra.
      * rewrite E, T' in W. apply (cancel w 0 100); [discriminate|]. rewrite W. ring.
  - intros w P T0 T H. rewrite H in PN. inversion PN; subst.
    + match goal with A : w * _ == _ |- _ => rename A into W end. assert (t0 == 10) as T' by lra. rewrite P, T' in W. split; intro E.
      * rewrite E in W. assert ((Zq c / 10 - 10) * (Zq c / 10 - 10) == 0) as S by lra. apply sq_zero in S. lra.
      * rewrite E in W. apply (cancel w 0 (10 * 10)); [discriminate|]. rewrite W. ring.
    + match goal with A : w * _ == _ |- _ => rename A into W end. rewrite P in W. split; intro E.
      * rewrite E in W. assert ((Zq c / 10 - 10) * (Zq c / 10 - 10) == 0) as S by lra. apply sq_zero in S. lra.
      * rewrite E in W. apply (cancel w 0 100); [discriminate|]. rewrite W. ring.
  - split; intro H.
    + rewrite H in PN. inversion PN; subst; auto.
    + simpl. unfold normWeight. rewrite (proj2 (Qltb_lt t0 0) H). reflexivity.
Qed.
Print Assumptions C70_best.
Example C70_best_case : (exists w, weight TimeNorm 0 600 5 60 9 = Some w /\ w == 0) /\ (exists w, weight DistDiff 2 600 5 60 5 = Some w /\ w == 0).
Proof. split; eexists; (split; [reflexivity|reflexivity]). Qed.

(** The fast search converts accumulated penalties back to costs: exactly for the penalty of a single way, and to
    the nearest tenth of a second otherwise. *)
Theorem C70_inverse : forall pen, 0 < pen ->
  (forall c d t0 d0 x, (0 <= c <= u32max)%Z -> weight Exp pen c d t0 d0 = Some x -> invWeight Exp pen x = Value c) /\
  (forall x z, 0 <= x -> (invWeight Exp pen x = Value z <-> rounds_nearest (x / pen * 10) z /\ (z <= u32max)%Z)).
Proof.
  intros pen P. split.
  - intros. apply (inv_weight pen c d t0 d0); auto.
  - intros. apply inv_nearest; auto.
Qed.
Print Assumptions C70_inverse.
Example C70_inverse_case : invWeight Exp (3 # 7) (3702 # 70) = Value 1234 /\ invWeight Exp 2 (1 # 3) = Value 2.
Proof. split; reflexivity. Qed.

(** A run uses the fast search only with the method [exp], so that the conversion is never attempted where it is
    rejected; any method name but the three ends the run. *)
Theorem C70_method : forall s,
  (methodOf s = None <-> s <> "exp" /\ s <> "distdiff" /\ s <> "timenorm")%string /\
  forall m nf, methodOf s = Some m ->
    (usesFast m nf = true <-> nf = false /\ s = "exp"%string) /\
    (usesFast m nf = true -> forall pen c, invWeight m pen c <> Throws) /\
    (needsDist m = true <-> s = "distdiff"%string).
Proof.
  intro s. unfold methodOf. destruct (String.eqb s "exp") eqn:A; [|destruct (String.eqb s "distdiff") eqn:B; [|destruct (String.eqb s "timenorm") eqn:C]];
    repeat match goal with X : String.eqb _ _ = true |- _ => apply String.eqb_eq in X | X : String.eqb _ _ = false |- _ => apply String.eqb_neq in X end; subst.
  - split; [split; [discriminate|intros [H _]; congruence]|]. intros m nf H. injection H as <-. split; [|split].
    + destruct nf; simpl; split; try discriminate; auto. intros [H _]. discriminate H.
    + intros _ pen c. simpl. destruct (Qeq_bool pen 0); [discriminate|]. destruct (toU32 _); discriminate.
    + split; discriminate.
  - split; [split; [discriminate|intros [_ [H _]]; congruence]|]. intros m nf H. injection H as <-. split; [|split].
    + destruct nf; simpl; split; try discriminate; intros [_ H]; discriminate H.
    + destruct nf; discriminate.
    + split; auto.
  - split; [split; [discriminate|intros [_ [_ H]]; congruence]|]. intros m nf H. injection H as <-. split; [|split].
    + destruct nf; simpl; split; try discriminate; intros [_ H]; discriminate H.
    + destruct nf; discriminate.
    + split; discriminate.
  - split; [split; auto|]. discriminate.
Qed.
Print Assumptions C70_method.

(** The first limit between two stops: three times the scheduled time (or the distance at the greatest speed, or a
    minute, if that is more) with all punishments, in tenths of seconds, rounded up; it is defined if and only if
    that fits in 32 bits. [distdiff] never limits. *)
Theorem C70_limit : forall m o dep arr dist cands,
  (m = DistDiff -> limit m o dep arr dist cands = Some u32max) /\
  forall v t z, m <> DistDiff -> fastest cands v -> 0 < v -> hop_seconds (arr - dep) dist v t ->
  (limit m o dep arr dist cands = Some z <-> rounds_up (10 * (3 * t) * (fName o * fFrom o * fTo o)) z /\ (0 <= z <= u32max)%Z).
Proof. intros. split; [intros ->; reflexivity|]. intros v t z. apply limit_spec. Qed.
Print Assumptions C70_limit.
Example C70_limit_case : let o := mkOpts 0 0 (3 # 2) 1 2 in
  fastest [None; Some 10; Some 30] 30 /\ hop_seconds (100 - 30) 3000 30 100 /\
  limit Exp o 30 100 3000 [None; Some 10; Some 30] = Some 9000%Z.
Proof.
  split; [|split; [|reflexivity]].
  - split; [right; right; left; reflexivity|]. intros u [H|[H|[H|[]]]]; inversion H; subst; discriminate.
  - split; [split; [|split]; discriminate|]. right. left. reflexivity.
Qed.

(** A way that takes at most three times as long as scheduled is within the limit, even if it is punished for its
    name, its origin and its destination. *)
Theorem C70_generous : forall m o dep arr dist cands v z c,
  fastest cands v -> 0 < v -> 0 <= fName o * fFrom o * fTo o -> (c <= u32max)%Z ->
  limit m o dep arr dist cands = Some z ->
  Zq c <= 10 * (3 * (arr - dep)) * (fName o * fFrom o * fTo o) -> (c <= z)%Z.
Proof.
  intros m o dep arr dist cands v z c F V P C L H.
  assert (m = DistDiff \/ m <> DistDiff) as [->|M] by (destruct m; auto; right; discriminate).
  - simpl in L. injection L as <-. exact C.
  - destruct (hop_ok dep arr dist cands v F V) as [q [_ Hq]].
    apply (proj1 (limit_spec m o dep arr dist cands v _ z M F V Hq)) in L. destruct L as [[_ R] _].
    destruct Hq as [[A _] _]. rewrite Zle_Qle. fold (Zq c). fold (Zq z).
    eapply Qle_trans; [exact H|]. eapply Qle_trans; [|exact R].
    apply Qmult_le_compat_r; auto. lra.
Qed.
Print Assumptions C70_generous.
Example C70_generous_case : let o := mkOpts 0 0 (3 # 2) 1 2 in
  limit Exp o 30 130 0 [Some 30] = Some 9000%Z /\ Zq 9000 <= 10 * (3 * (130 - 30)) * (fName o * fFrom o * fTo o).
Proof. split; [reflexivity|discriminate]. Qed.

(** The weight of a move is the penalty of its way, and the weight of several moves the sum of their penalties,
    infinite if one of them is impossible. *)
Theorem C70_move : forall m pen dist p n c d t,
  penalty m pen (Zq c / 10) (Zq d) (Zq t) (dist p n) (moveWeight m pen dist p n c d t).
Proof.
  intros. unfold moveWeight. replace (weight m pen c _ (Zq t) (dist p n)) with (weight m pen c (Zq d) (Zq t) (dist p n)) by (destruct m; reflexivity).
  apply penalty_weight.
Qed.
Print Assumptions C70_move.
Example C70_move_case : same (moveWeight DistDiff 2 (fun _ _ => 300) 4 5 77 500 60) (Some 400) /\ moveWeight TimeNorm 2 (fun _ _ => 300) 4 5 77 500 (-1) = None.
Proof. split; reflexivity. Qed.
Theorem C70_total : forall l, exists r, total l r /\ same (fold_left addC l (Some 0)) r.
Proof.
  assert (forall l, fold_left addC l None = None) as N by (induction l as [|[x|] l IH]; auto).
  assert (forall l a, (In None l -> fold_left addC l (Some a) = None) /\
            (~ In None l -> exists s r, total l (Some s) /\ fold_left addC l (Some a) = Some r /\ r == a + s)) as G.
  { induction l as [|[x|] l IH]; intro a; simpl.
    - split; [contradiction|]. intros _. exists 0, a. split; [constructor|]. split; [reflexivity|ring].
    - destruct (IH (a + x)) as [A B]. split.
      + intros [H|H]; [discriminate|]. apply A, H.
      + intro H. destruct B as [s [r [T [F E]]]]; [tauto|]. exists (x + s), r. split; [apply (tt_more x l s); auto; reflexivity|].
        split; auto. rewrite E. ring.
    - split; [intros _; apply N|]. intro H. destruct H. auto. }
  intro l. destruct (in_dec (fun a b : option Q => ltac:(repeat decide equality) : {a = b} + {a <> b}) None l) as [H|H]; destruct (G l 0) as [A B].
  - exists None. split; [constructor; auto|]. rewrite (A H). exact I.
  - destruct (B H) as [s [r [T [F E]]]]. exists (Some s). split; auto. rewrite F. simpl. rewrite E. ring.
Qed.
Print Assumptions C70_total.

(** The penalties satisfy the laws under which the chosen sequence of candidates is optimal (C25). *)
Theorem C70_optimal : forall pos attrs E P St m pen dist p0 ask ofZ limit0 startCost spath
    (tnds : list (TripTrie_model.node pos attrs)) (ecm : list (list (cand cost E P))),
  tree tnds ->
  forall (s0 : St) leaves r mp,
  let w := moveWeight m pen dist in
  route pos attrs cost ltC addC None E P p0 St ask w ofZ limit0 startCost spath tnds ecm s0 leaves = Some (r, mp) ->
  let seqcost := seqcost addC w ofZ tnds ecm (rLog _ _ r) in
  forall leaf hs, In (leaf, hs) mp ->
  (exists is' x, seqcost leaf is' (Some x)) ->
  exists is c, seqcost leaf is (Some c) /\ yields startCost spath tnds ecm (rLog _ _ r) leaf is hs /\
    forall is' c', seqcost leaf is' (Some c') -> c <= c'.
Proof.
  intros pos attrs E P St m pen dist p0 ask ofZ limit0 startCost spath tnds ecm T s0 leaves r mp w H sq leaf hs I [is' [x F]].
  destruct (C25_chosen_sequence_optimal pos attrs cost E P St ltC addC None p0 ask w ofZ limit0 startCost spath tnds ecm laws T s0 leaves r mp H
              leaf hs I) as [is [c [A [B C]]]].
  { exists is', (Some x). split; [exact F|reflexivity]. }
  destruct c as [c|]; [|specialize (C _ _ F); discriminate].
  exists is, c. split; [exact A|]. split; [exact B|]. intros i2 c2 H2. specialize (C _ _ H2). simpl in C. apply Qltb_ge. exact C.
Qed.
Print Assumptions C70_optimal.

(** ** What does not hold *)
(** "The limit is always defined": not if no candidate of a stop has an edge (a stop far from the network), nor if
    the punishments are large. *)
Theorem C70_limit_refuted :
  (forall m o dep arr dist cands, m <> DistDiff -> 0 < dist -> (forall c, In c cands -> c = None) -> limit m o dep arr dist cands = None) /\
  exists o v, fastest [Some v] v /\ 0 < v /\ 1 <= fName o /\ 1 <= fFrom o /\ 1 <= fTo o /\ limit Exp o 0 36000 1000 [Some v] = None.
Proof.
  split.
  - intros m o dep arr dist cands M D H. unfold limit, hopTime. rewrite (speed_none _ H). unfold minTime. simpl.
    destruct (Qeq_bool dist 0) eqn:E; [apply Qeq_bool_iff in E; lra|]. destruct m; auto. congruence.
  - exists (mkOpts 0 0 20 20 20), 10. split; [split; [left; reflexivity|intros u [X|[]]; inversion X; subst; apply Qle_refl]|].
    repeat split; discriminate.
Qed.
Print Assumptions C70_limit_refuted.
(** "The conversion back is always defined": not with the penalty factor 0. *)
Theorem C70_inverse_refuted : forall c, invWeight Exp 0 c = Undefined.
Proof. reflexivity. Qed.
Print Assumptions C70_inverse_refuted.
(** "timenorm prefers the way that takes as long as scheduled": not with a penalty factor. *)
Theorem C70_timenorm_refuted : exists pen w w', 0 < pen /\ weight TimeNorm pen 600 0 60 0 = Some w /\ weight TimeNorm pen 300 0 60 0 = Some w' /\ w' < w.
Proof. exists (1 # 100). do 2 eexists. repeat split; reflexivity. Qed.
Print Assumptions C70_timenorm_refuted.
