(** Proofs about turn restrictions in the network built from an OSM file. *)
From Coq Require Import Ascii String List Arith NArith ZArith QArith Bool Lia Permutation.
From Verif Require Import ListAux OsmGraph_model OsmGraph_spec OsmGraph_proofs Gaps_model Restrictor_model Restrictor_spec Restrictor_proofs Finish_model Finish_spec Finish_proofs Build_model Build_spec Build_proofs Turns_spec.
From Verif Require OsmRead_model OsmRead_spec OsmRead_proofs Snap_model Snap_spec Snap_proofs.
Import ListNotations.
Open Scope nat_scope.
Open Scope list_scope.

(** * The restrictor is told of new edges *)
Definition ruleMap (h : nat -> nat) : list rule -> list rule := map (fun q : rule => (h (fst q), option_map h (snd q))).
Section Told.
Variable f : nat -> nat * nat.
Variable lim : nat.
Notation Splits := (Splits f lim).
Notation told3 := (nat * nat * nat)%type.

(** The nodes of edges, by number *)
Lemma ends_agree : forall (base : nat -> nat * nat) N A T A', Splits N A T A' -> (forall x, A' x -> base x = f x) ->
  forall x, A x \/ N <= x < N + 2 * length T ->
  fold_right (fun (t : told3) g x => if x =? fst (fst t) then (fst (g (snd (fst t))), snd (g (snd t))) else g x) base T x = f x.
Proof.
  intros base N A T A' H. induction H as [N A A' E|N A o T A' Ho Hl H1 H2 H3 H4 H IH]; intros B x Hx.
  - cbn in *. apply B. apply E. destruct Hx; [auto|lia].
  - cbn [fold_right fst snd length] in *. destruct (Nat.eqb_spec x o) as [->|N0].
    + rewrite !IH; auto. rewrite H1, H2. now destruct (f o).
    + apply IH; auto. destruct Hx as [Hx|Hx]; [auto|]. destruct (Nat.eq_dec x N) as [->|]; [auto|]. destruct (Nat.eq_dec x (S N)) as [->|]; [auto|]. right. lia.
Qed.

(** What becomes of edge [x] at node [v] *)
Definition heir1 (v : nat) (x : nat) (t : told3) : nat :=
  if x =? fst (fst t) then (if fst (f (fst (fst t))) =? v then snd (fst t) else if snd (f (fst (fst t))) =? v then snd t else x) else x.
Definition heir (v : nat) (T : list told3) (x : nat) : nat := fold_left (heir1 v) T x.
Lemma ruleMap_comp : forall (h k : nat -> nat) l, ruleMap k (ruleMap h l) = ruleMap (fun x => k (h x)) l.
Proof. intros h k l. unfold ruleMap. rewrite map_map. apply map_ext. intros [a [b|]]; reflexivity. Qed.
Lemma ruleMap_ext : forall (h k : nat -> nat) l, (forall x, h x = k x) -> ruleMap h l = ruleMap k l.
Proof. intros h k l E. apply map_ext. intros [a [b|]]; cbn; now rewrite ?E. Qed.
Lemma ruleMap_id : forall l, ruleMap (fun x => x) l = l.
Proof. intros l. unfold ruleMap. rewrite <- (map_id l) at 2. apply map_ext. intros [a [b|]]; reflexivity. Qed.

Lemma replace_rules : forall (ef et : nat -> nat) t o a b v, ef o = fst (f o) -> et o = snd (f o) -> ef a = fst (f a) -> fst (f a) = fst (f o) -> a <> o ->
  rPos (replaceEdge ef et t o a b) v = ruleMap (fun x => heir1 v x (o, a, b)) (rPos t v) /\
  rNeg (replaceEdge ef et t o a b) v = ruleMap (fun x => heir1 v x (o, a, b)) (rNeg t v).
Proof.
  intros ef et t o a b v E1 E2 E3 E4 N. unfold replaceEdge. rewrite E1, E3, E4, Nat.eqb_refl. cbn [orb].
  unfold replaceAt. cbn [rPos rNeg]. rewrite E2.
  assert (G : forall l : list rule, (if snd (f o) =? v then map (replIn o b) (if fst (f o) =? v then map (replIn o a) l else l) else (if fst (f o) =? v then map (replIn o a) l else l)) =
    ruleMap (fun x => heir1 v x (o, a, b)) l).
  { intros l. unfold heir1. cbn [fst snd]. assert (RM : forall n l, map (replIn o n) l = ruleMap (ren o n) l) by (intros; apply replIn_map).
    destruct (fst (f o) =? v), (snd (f o) =? v); rewrite ?RM, ?ruleMap_comp.
    - apply ruleMap_ext. intros x. unfold ren. destruct (x =? o) eqn:X; [|now rewrite X]. now rewrite (proj2 (Nat.eqb_neq a o) N).
    - apply ruleMap_ext. intros x. reflexivity.
    - apply ruleMap_ext. intros x. reflexivity.
    - rewrite <- (ruleMap_id l) at 1. apply ruleMap_ext. intros x. now destruct (x =? o). }
  rewrite <- !G. unfold set1. rewrite !(Nat.eqb_sym v). destruct (Nat.eqb_spec (snd (f o)) v) as [->|]; [|split; destruct (fst (f o) =? v) eqn:X; [apply Nat.eqb_eq in X; now rewrite X|auto|apply Nat.eqb_eq in X; now rewrite X|auto]].
  rewrite !(Nat.eqb_sym v). destruct (Nat.eqb_spec (fst (f o)) v) as [->|]; auto.
Qed.
Lemma retold_rules : forall (E : nat -> nat * nat) v N A T A', Splits N A T A' -> (forall x, A x \/ N <= x < N + 2 * length T -> E x = f x) ->
  forall t, let t' := fold_left (fun t c => replaceEdge (fun x => fst (E x)) (fun x => snd (E x)) t (fst (fst c)) (snd (fst c)) (snd c)) T t in
  rPos t' v = ruleMap (heir v T) (rPos t v) /\ rNeg t' v = ruleMap (heir v T) (rNeg t v).
Proof.
  intros E v N A T A' H. induction H as [N A A' E0|N A o T A' Ho Hl H1 H2 H3 H4 H IH]; intros B t.
  - cbn. change (heir v []) with (fun x : nat => x). now rewrite !ruleMap_id.
  - cbn [fold_left fst snd length] in *. destruct (replace_rules (fun x => fst (E x)) (fun x => snd (E x)) t o N (S N) v) as (P1 & Q1); try (rewrite ?B by auto; auto; fail).
    + rewrite B; [reflexivity|right; lia].
    + lia.
    + destruct (IH) with (t := replaceEdge (fun x => fst (E x)) (fun x => snd (E x)) t o N (S N)) as (P2 & Q2).
      { intros x [[(X & _)|[-> | ->]]|X]; apply B; [now left|right; lia|right; lia|right; lia]. }
      cbv zeta. rewrite P2, Q2, P1, Q1, !ruleMap_comp. split; reflexivity.
Qed.
(** It is injective, and gives edges that were there or are new *)
Lemma heir1_lt : forall v N x o, x < N -> heir1 v x (o, N, S N) < S (S N).
Proof. intros v N x o L. unfold heir1. cbn [fst snd]. destruct (x =? o); [destruct (_ =? v); [lia|destruct (_ =? v); lia]|lia]. Qed.
Lemma heir1_inj : forall v N x y o, x < N -> y < N -> heir1 v x (o, N, S N) = heir1 v y (o, N, S N) -> x = y.
Proof.
  intros v N x y o Lx Ly. unfold heir1. cbn [fst snd]. destruct (Nat.eqb_spec x o) as [->|], (Nat.eqb_spec y o) as [->|]; auto; destruct (_ =? v); [lia| |lia|]; destruct (_ =? v); lia.
Qed.
Lemma heir_lt : forall v N A T A', Splits N A T A' -> forall x, x < N -> heir v T x < N + 2 * length T.
Proof.
  intros v N A T A' H. induction H as [N A A' E0|N A o T A' Ho Hl H1 H2 H3 H4 H IH]; intros x L; [cbn; lia|].
  cbn [heir fold_left length]. pose proof (IH _ (heir1_lt v N x o L)) as X. unfold heir in X. lia.
Qed.
Lemma heir_inj : forall v N A T A', Splits N A T A' -> forall x y, x < N -> y < N -> heir v T x = heir v T y -> x = y.
Proof.
  intros v N A T A' H. induction H as [N A A' E0|N A o T A' Ho Hl H1 H2 H3 H4 H IH]; intros x y Lx Ly E; [exact E|].
  cbn [heir fold_left] in E. apply (heir1_inj v N x y o Lx Ly). apply IH; [now apply heir1_lt|now apply heir1_lt|exact E].
Qed.
(** Numbers that are not in use do not change *)
Lemma heir_big : forall v N A T A', Splits N A T A' -> forall x, N + 2 * length T <= x -> heir v T x = x.
Proof.
  intros v N A T A' H. induction H as [N A A' E0|N A o T A' Ho Hl H1 H2 H3 H4 H IH]; intros x L; [reflexivity|].
  cbn [heir fold_left length] in *. unfold heir1 at 2. cbn [fst]. rewrite (proj2 (Nat.eqb_neq x o)) by lia. apply IH. lia.
Qed.
Lemma heir_dead : forall v N A T A', Splits N A T A' -> forall x, x < N -> ~ A x -> heir v T x = x /\ ~ A' x.
Proof.
  intros v N A T A' H. induction H as [N A A' E0|N A o T A' Ho Hl H1 H2 H3 H4 H IH]; intros x L D; [split; [reflexivity|now rewrite <- E0]|].
  assert (x <> o) by congruence. cbn [heir fold_left]. unfold heir1 at 2. cbn [fst]. rewrite (proj2 (Nat.eqb_neq x o)) by auto. apply IH; [lia|]. intros [(X & _)|X]; [auto|lia].
Qed.
(** It is the piece at [v] *)
Lemma replay_app : forall T l m, Snap_spec.replay T (l ++ m) = Snap_spec.replay T l ++ Snap_spec.replay T m.
Proof. induction T as [|t T IH]; intros l m; [reflexivity|]. cbn [Snap_spec.replay fold_left]. rewrite flat_map_app. apply IH. Qed.
Lemma heir_first : forall v N A T A', Splits N A T A' -> forall x l, fst (f x) = v -> exists l', Snap_spec.replay T (x :: l) = heir v T x :: l'.
Proof.
  intros v N A T A' H. induction H as [N A A' E0|N A o T A' Ho Hl H1 H2 H3 H4 H IH]; intros x l E; [exists l; reflexivity|].
  cbn [Snap_spec.replay fold_left flat_map fst snd]. cbn [heir fold_left]. unfold heir1 at 2. cbn [fst snd]. destruct (Nat.eqb_spec x o) as [->|].
  - rewrite (proj2 (Nat.eqb_eq (fst (f o)) v) E). cbn [app]. apply IH. congruence.
  - cbn [app]. apply IH. exact E.
Qed.
Lemma heir_last : forall v N A T A', Splits N A T A' -> v < lim -> forall x l, snd (f x) = v -> fst (f x) <> v -> exists l', Snap_spec.replay T (l ++ [x]) = l' ++ [heir v T x].
Proof.
  intros v N A T A' H Lv. induction H as [N A A' E0|N A o T A' Ho Hl H1 H2 H3 H4 H IH]; intros x l E D; [exists l; reflexivity|].
  cbn [Snap_spec.replay fold_left]. rewrite flat_map_app. cbn [flat_map fst snd]. cbn [heir fold_left]. unfold heir1 at 2. cbn [fst snd]. destruct (Nat.eqb_spec x o) as [->|].
  - rewrite (proj2 (Nat.eqb_neq (fst (f o)) v) D), (proj2 (Nat.eqb_eq (snd (f o)) v) E). rewrite app_nil_r.
    match goal with |- context [fold_left _ T (?a ++ [N; S N])] => change (a ++ [N; S N]) with (a ++ ([N] ++ [S N])) end. rewrite app_assoc. apply IH; [congruence|lia].
  - rewrite app_nil_r. apply IH; auto.
Qed.
End Told.

(** * The table *)
Lemma may_same : forall r r' a b a' b' v (h : nat -> nat),
  rPos r' v = ruleMap h (rPos r v) -> rNeg r' v = ruleMap h (rNeg r v) ->
  a' = h a -> b' = h b -> (forall x, mentions (rPos r v) x \/ mentions (rNeg r v) x -> (h x = h a -> x = a) /\ (h x = h b -> x = b)) ->
  may r' a' b' v = may r a b v.
Proof.
  intros r r' a b a' b' v h E1 E2 -> -> H. unfold may. rewrite E1, E2. unfold ruleMap. rewrite posLoop_map, hits_map; auto; intros x I; apply H; unfold mentions; auto.
Qed.
Lemma may_other : forall r a b b' v, unmentioned r b v -> unmentioned r b' v -> may r a b v = may r a b' v.
Proof.
  intros r a b b' v (P1 & Q1) (P2 & Q2). unfold may.
  assert (H1 : posLoop (rPos r v) a b = posLoop (rPos r v) a b').
  { revert P1 P2. generalize (rPos r v). induction l as [|[x [y|]] l IH]; intros P1 P2; [reflexivity| |].
    - cbn. destruct (x =? a); [|apply IH; unfold mentions in *; cbn in *; tauto].
      rewrite (proj2 (Nat.eqb_neq y b)), (proj2 (Nat.eqb_neq y b')); [reflexivity| |]; intros ->; [apply P2|apply P1]; right; now left.
    - cbn. apply IH; unfold mentions in *; cbn in *; tauto. }
  assert (H2 : existsb (hits a b) (rNeg r v) = existsb (hits a b') (rNeg r v)).
  { revert Q1 Q2. generalize (rNeg r v). induction l as [|[x [y|]] l IH]; intros P1' P2'; [reflexivity| |].
    - cbn. rewrite IH; try (unfold mentions in *; cbn in *; tauto). f_equal. unfold hits. cbn. f_equal.
      rewrite (proj2 (Nat.eqb_neq y b)), (proj2 (Nat.eqb_neq y b')); [reflexivity| |]; intros ->; [apply P2'|apply P1']; right; now left.
    - cbn. rewrite IH; [reflexivity| |]; unfold mentions in *; cbn in *; tauto. }
  now rewrite H1, H2.
Qed.
Lemma mention_source : forall h r v e, runR emptyRestr h = Some r -> mentions (rPos r v) e \/ mentions (rNeg r v) e ->
  exists c, In c h /\ match c with Add x _ n _ => x = e /\ n = v | Relax _ n x => x = e /\ n = v end.
Proof.
  intros h r v e E M. destruct (run_inv h) as [r1 [E1 [P [Q _]]]]. rewrite E in E1. injection E1 as <-.
  assert (G : forall p, mentions (map asRule (entries p v (rev h))) e -> exists c, In c h /\ match c with Add x _ n _ => x = e /\ n = v | Relax _ n x => x = e /\ n = v end).
  { intros p Mp. apply mentions_named in Mp. destruct Mp as [a [t [I Mp]]]. apply in_map_iff in I. destruct I as [en [X I]].
    unfold asRule in X. injection X as <- <-. destruct (ent_sound _ _ _ _ I) as [h1 [h2 [H [L [E1 E2]]]]].
    rewrite rev_involutive in H. destruct Mp as [Mp|Mp].
    - exists (Add (eF en) (eW en) v p). split; [rewrite H; apply in_app_iff; cbn; auto|auto].
    - assert (LA : lastAnn h1 (eW en) v = Some e \/ lastAnn h2 (eW en) v = Some e).
      { unfold target in Mp. rewrite E2, E1 in Mp. destruct (lastAnn h1 (eW en) v) as [x|]; auto. }
      exists (Relax (eW en) v e). split; [|auto]. rewrite H. destruct LA as [LA|LA]; apply lastAnn_some in LA; destruct LA as [g1 [g2 [-> _]]]; rewrite !in_app_iff; cbn; rewrite ?in_app_iff; cbn; auto. }
  rewrite P, Q in M. destruct M as [M|M]; eapply G; eauto.
Qed.
Lemma mentions_map : forall (h : nat -> nat) l x, mentions (ruleMap h l) x -> exists y, mentions l y /\ x = h y.
Proof.
  intros h l x M. apply mentions_named in M. destruct M as (a & b & I & M). apply in_map_iff in I. destruct I as ([c d] & E & I). cbn in E. injection E as <- <-. destruct M as [<- | M].
  - exists c. split; [|reflexivity]. apply mentions_named. unfold named. eauto.
  - destruct d as [d|]; [|discriminate]. injection M as <-. exists d. split; [|reflexivity]. apply mentions_named. unfold named. eauto.
Qed.
Lemma duplicateAll_ext : forall ps (a b a' b' : nat -> nat) r, (forall o, In o (map fst ps) -> a o = a' o /\ b o = b' o) -> duplicateAll a b r ps = duplicateAll a' b' r ps.
Proof.
  induction ps as [|[o n] ps IH]; intros a b a' b' r H; [reflexivity|]. unfold duplicateAll in *. cbn [fold_left fst snd].
  assert (E : duplicateEdge a b r o n = duplicateEdge a' b' r o n).
  { unfold duplicateEdge, duplicateAt, dupIn. destruct (H o) as (-> & ->); [now left|]. reflexivity. }
  rewrite E. apply IH. intros x I. apply H. now right.
Qed.
Lemma unmentioned_all : forall ps (a b : nat -> nat) r v x, ~ In x (map snd ps) -> unmentioned r x v -> unmentioned (duplicateAll a b r ps) x v.
Proof.
  induction ps as [|[o n] ps IH]; intros a b r v x N U; [exact U|]. unfold duplicateAll in *. cbn [fold_left fst snd map] in *. apply IH; [cbn in N; tauto|].
  apply unmentioned_dup; [cbn in N; intros ->; tauto|exact U].
Qed.

(** * Reading *)
Section Calls.
Lemma rules_at_raw : forall rests b id l, rules_at rests b id l -> l = rawAt rests b id.
Proof.
  intros rests b id l H. unfold rules_at in H. induction H as [|e es l W H IH|e es l W H IH]; [reflexivity| |]; unfold rawAt; cbn [filter].
  - destruct W as (<- & <-). rewrite Bool.eqb_reflx, Nat.eqb_refl. cbn [andb map]. now rewrite IH.
  - destruct (Bool.eqb (fst (fst (fst e))) b && (snd (fst (fst e)) =? id)) eqn:C; [|exact IH]. exfalso. apply W. apply andb_prop in C. destruct C as (C1 & C2).
    apply Bool.eqb_prop in C1. apply Nat.eqb_eq in C2. auto.
Qed.
Variable rests : list (bool * nat * nat * nat).
Variable segs : list OsmRead_model.seg.
Variable v id : nat.
Hypothesis Hid : forall s, In s segs -> (OsmRead_model.sgN s = v -> OsmRead_model.sgId s = id) /\ (OsmRead_model.sgLast s = v -> OsmRead_model.sgLastId s = id).
Variable t : Restrictor_model.restr.
Hypothesis Ht : runR emptyRestr (readCalls rests segs) = Some t.
Notation pos := (rawAt rests true id). Notation neg := (rawAt rests false id).

Lemma calls_at : filter (atNode v) (readCalls rests segs) = readAt pos neg v (arms segs v).
Proof.
  clear Ht. unfold readCalls, readAt, arms. revert Hid. induction segs as [|s l IH]; intros H; [reflexivity|].
  cbn [flat_map]. rewrite !filter_app, IH, !processRestr_at, !flat_map_app by (intros x I; apply H; now right). destruct (H s (or_introl eq_refl)) as (H1 & H2). f_equal. f_equal.
  - destruct (Nat.eqb_spec (OsmRead_model.sgN s) v) as [E|]; cbn [flat_map fst snd]; auto. rewrite (H1 E), E. now rewrite app_nil_r.
  - destruct (Nat.eqb_spec (OsmRead_model.sgLast s) v) as [E|]; cbn [flat_map fst snd]; auto. rewrite (H2 E), E. now rewrite app_nil_r.
Qed.
Lemma calls_may : NoDup (map fst (arms segs v)) -> NoDup (map snd (arms segs v)) -> no_self (pos ++ neg) ->
  forall wf ef wt et, In (wf, ef) (arms segs v) -> In (wt, et) (arms segs v) ->
  (may t ef et v = true <-> way_turn_allowed pos neg (map fst (arms segs v)) wf wt).
Proof.
  intros W D S wf ef wt et F T. destruct (read_at_node pos neg v (arms segs v) W D S) as [r' [E' R]].
  rewrite <- (R wf ef wt et F T). rewrite <- calls_at in E'. destruct (may_filter _ _ _ _ Ht E') as [P Q]. unfold may. rewrite P, Q. tauto.
Qed.
Lemma calls_mention : forall x, mentions (rPos t v) x \/ mentions (rNeg t v) x -> exists w, In (w, x) (arms segs v) /\ names_way rests id w.
Proof.
  intros x M. destruct (mention_source _ _ _ _ Ht M) as (c & I & Hc).
  assert (J : In c (filter (atNode v) (readCalls rests segs))).
  { apply filter_In. split; [exact I|]. destruct c; cbn; destruct Hc as (_ & ->); apply Nat.eqb_refl. }
  rewrite calls_at in J. unfold readAt in J. apply in_flat_map in J. destruct J as ([w e] & Ia & J). cbn [fst snd] in J.
  assert (G : forall p raw, (forall a b, In (a, b) raw -> In (p, id, a, b) rests) -> In c (restrCalls p raw w e v) -> e = x /\ names_way rests id w).
  { intros p raw Hr K. unfold restrCalls in K. apply in_flat_map in K. destruct K as ([a b] & Ir & K). cbn [fst snd] in K. apply Hr in Ir. unfold names_way.
    destruct (Nat.eqb_spec a w) as [->|]; [destruct K as [<- | []]; destruct Hc; subst; eauto 8|].
    destruct (Nat.eqb_spec b w) as [->|]; [destruct K as [<- | []]; destruct Hc; subst; eauto 8|destruct K]. }
  unfold processRestr in J. apply in_app_or in J. destruct J as [J|J]; [apply (G true) in J|apply (G false) in J]; try (intros a b Iab; now apply rawAt_in); destruct J as (<- & Nw); exists w; auto.
Qed.
(** a way that no rule names *)
Lemma unnamed_allowed : forall l wf wt, ~ names_way rests id wf -> way_turn_allowed pos neg l wf wt.
Proof.
  intros l wf wt N. right. split.
  - intros t' (p1 & p2 & E & _). apply N. exists true, wf, t'. split; [|auto]. apply rawAt_in. rewrite E. apply in_or_app. right. now left.
  - intros I. apply N. apply rawAt_in in I. exists false, wf, wt. auto.
Qed.
End Calls.
Lemma NoDup_tail : forall (B : Type) (a b : list B), NoDup (a ++ b) -> NoDup b.
Proof. induction a as [|x a IH]; intros b N; [exact N|]. inversion N; auto. Qed.
Lemma arms_in : forall segs v w e, In (w, e) (arms segs v) <-> exists s, In s segs /\ OsmRead_model.sgWay s = w /\ OsmRead_model.sgEdge s = e /\ (OsmRead_model.sgN s = v \/ OsmRead_model.sgLast s = v).
Proof.
  intros segs v w e. unfold arms. rewrite in_flat_map. split.
  - intros (s & I & J). exists s. split; [exact I|]. apply in_app_or in J. destruct J as [J|J];
    [destruct (Nat.eqb_spec (OsmRead_model.sgN s) v)|destruct (Nat.eqb_spec (OsmRead_model.sgLast s) v)]; try (destruct J; fail); destruct J as [J|[]]; injection J as <- <-; auto.
  - intros (s & I & <- & <- & D). exists s. split; [exact I|]. apply in_or_app. destruct D as [D|D]; [left|right]; rewrite D, Nat.eqb_refl; now left.
Qed.
(** an edge that occurs once at a node is no loop *)
Lemma arms_loop : forall segs v w e, NoDup (map snd (arms segs v)) -> In (w, e) (arms segs v) -> forall s, In s segs -> OsmRead_model.sgEdge s = e -> ~ (OsmRead_model.sgN s = v /\ OsmRead_model.sgLast s = v).
Proof.
  intros segs v w e N I s Is Es (E1 & E2). apply in_split in Is. destruct Is as (l1 & l2 & ->). unfold arms in N. rewrite flat_map_app in N. cbn [flat_map] in N. rewrite E1, E2, Nat.eqb_refl in N.
  rewrite map_app in N. cbn in N. apply NoDup_tail in N. inversion N as [|? ? X _]. apply X. now left.
Qed.

(** * The network *)
Lemma number_id : forall (P : Type) es l k (x : @Snap_model.edge (pl P)) j, In x (number es k l) -> OsmRead_model.findEdge es (Snap_model.eFrom x) (Snap_model.eTo x) 0 = Some j -> Snap_model.eId x = j.
Proof.
  induction l as [|e l IH]; intros k x j I F; [destruct I|]. cbn in I. destruct I as [<-|I]; [|eapply IH; eauto].
  cbn [Snap_model.eFrom Snap_model.eTo Snap_model.eId] in *. now rewrite F.
Qed.
Lemma splits_sub : forall f lim N A T A', Splits f lim N A T A' -> forall x, A' x -> A x \/ N <= x < N + 2 * length T.
Proof.
  intros f lim N A T A' H. induction H as [N A A' E|N A o T A' Ho Hl H1 H2 H3 H4 H IH]; intros x Ax; [left; now apply E|].
  cbn [length]. destruct (IH x Ax) as [[(X & _)|[-> | ->]]|X]; [now left|right; lia|right; lia|right; lia].
Qed.
Lemma place_some : forall (P : Type) (ds : list (edge P)) a b k i, place ds a b k = Some i -> k <= i < k + length ds /\ exists d, nth_error ds (i - k) = Some d /\ from d = a /\ to d = b.
Proof.
  induction ds as [|d ds IH]; intros a b k i H; [discriminate|]. cbn in H. destruct ((from d =? a) && (to d =? b)) eqn:C.
  - injection H as <-. cbn [length]. split; [lia|]. exists d. rewrite Nat.sub_diag. apply andb_prop in C. rewrite !Nat.eqb_eq in C. cbn. tauto.
  - apply IH in H. destruct H as (L & d' & N & H). cbn [length]. split; [lia|]. exists d'. replace (i - k) with (S (i - S k)) by lia. auto.
Qed.
Lemma place_none : forall (P : Type) (ds : list (edge P)) a b k, place ds a b k = None -> forall d, In d ds -> ~ (from d = a /\ to d = b).
Proof.
  induction ds as [|x ds IH]; intros a b k H d I; [destruct I|]. cbn in H. destruct ((from x =? a) && (to x =? b)) eqn:C; [discriminate|].
  destruct I as [<-|I]; [|eapply IH; eauto]. intros (A & B). rewrite A, B, !Nat.eqb_refl in C. discriminate.
Qed.

Section Main.
Context {P SI : Type}.
Variable origin : P.
Variable s : @OsmRead_model.ngraph P SI.
Variable r : OsmRead_model.rels.
Variable g : OsmRead_model.graph.
Variable close : nat -> nat -> bool.
Variable lv : pl P -> nat.
Variable mL : nat.
Variable noTrack : SI -> bool.
Variable takeTrack : SI -> SI -> SI.
Notation n0 := (OsmRead_model.ngSize s).
Notation rests := (OsmRead_model.rests r).
Notation segs := (OsmRead_model.gSegs g).
Notation g0 := (readGraph (P := P) r g n0).
Variable g1 : graph P.
Variable s2 : @Snap_model.st P SI (pl P).
Notation s1 := (toSnap origin g s g1).
Notation g2 := (fromSnap g1 n0 s2).
Hypothesis Hr : readable g n0.
Hypothesis Hm : mended (hasInfo s) close g0 g1.
Hypothesis Ho : Snap_spec.Ok s2.
Hypothesis Hk : Snap_spec.Kept noTrack takeTrack lv mL s1 s2.
Hypothesis Hsg : forall sg, In sg segs -> exists e, nth_error (OsmRead_model.gEdges g) (OsmRead_model.sgEdge sg) = Some e /\ OsmRead_model.eFrom e = OsmRead_model.sgLast sg /\ OsmRead_model.eTo e = OsmRead_model.sgN sg.
Variable f : nat -> nat * nat.
Notation T := (Snap_model.told s2).
Notation N := (Snap_model.nextE s1).
Hypothesis HT : Splits f n0 N (living s1) T (living s2).
Hypothesis Hnx : Snap_model.nextE s2 = N + 2 * length T.
Hypothesis Hf1 : forall e, In e (Snap_model.edges s1) -> f (Snap_model.eId e) = (Snap_model.eFrom e, Snap_model.eTo e).
Hypothesis Hf2 : forall e, In e (Snap_model.edges s2) -> f (Snap_model.eId e) = (Snap_model.eFrom e, Snap_model.eTo e).
Variable nt : network P.
Hypothesis Hd : doubled g2 (net nt) (dup nt).
Hypothesis Hsim : simple (net nt).
Notation ds := (dup nt).
Notation nx := (Snap_model.nextE s2).
Notation conv := (fun e : @Snap_model.edge (pl P) => mkE (Snap_model.eFrom e) (Snap_model.eTo e) (Snap_model.ePl e)).

(** The pieces of an edge *)
Definition sPieces (i : nat) : list (@Snap_model.edge (pl P)) :=
  flat_map (fun x => match Snap_model.findE s2 x with Some e => [e] | None => [] end) (Snap_spec.replay T [i]).
Definition ePieces (i : nat) : list (edge P) := map conv (sPieces i).
Lemma s1_pieces : forall e, In e (Snap_model.edges s1) -> exists mid, Snap_spec.Chain (Snap_model.ePl e) (Snap_model.eFrom e) (Snap_model.eTo e) (sPieces (Snap_model.eId e)) mid /\
  map Snap_model.eId (sPieces (Snap_model.eId e)) = Snap_spec.replay T [Snap_model.eId e] /\
  (forall y, In y (sPieces (Snap_model.eId e)) -> In y (Snap_model.edges s2)) /\ forall n, In n mid -> n0 <= n < Snap_model.size s2.
Proof.
  intros e I. destruct (Snap_spec.kp_edges _ _ _ _ _ _ Hk) as (T' & L & M & ET & HL & HM & PL & PM & HE). cbn [toSnap Snap_model.told app] in ET. subst T'.
  apply In_nth_error in I. destruct I as (i & I). destruct (HE i e I) as (l & mid & Il & Im & C & Re & _).
  assert (Sub : forall y, In y l -> In y (Snap_model.edges s2)).
  { intros y Iy. apply (Permutation_in _ PL). apply in_concat. exists l. split; [eapply nth_error_In; eauto|exact Iy]. }
  assert (El : sPieces (Snap_model.eId e) = l).
  { unfold sPieces. rewrite <- Re. clear - Ho Sub. induction l as [|y l IH]; [reflexivity|]. cbn [map flat_map]. rewrite (Snap_proofs.findE_In s2 y Ho) by (apply Sub; now left).
    cbn [app]. f_equal. apply IH. intros z Iz. apply Sub. now right. }
  rewrite El. exists mid. split; [exact C|]. split; [exact Re|]. split; [exact Sub|].
  intros n In0. assert (X : In n (concat M)) by (apply in_concat; exists mid; split; [eapply nth_error_In; eauto|exact In0]).
  apply (Permutation_in _ PM) in X. apply in_seq in X. cbn in X. lia.
Qed.
(** Edges that were read *)
Lemma read_edge : forall i e, nth_error (OsmRead_model.gEdges g) i = Some e -> In (OsmRead_model.eFrom e) (nodes g2) -> In (OsmRead_model.eTo e) (nodes g2) ->
  exists e', In e' (Snap_model.edges s1) /\ Snap_model.eId e' = i /\ conv e' = readE rests segs i e.
Proof.
  intros i e Ni F Tt. assert (Ie : In (readE rests segs i e) (edges g1)).
  { destruct (rb_ends _ _ Hr e (nth_error_In _ _ Ni)) as (LF & LT). cbn in F, Tt. rewrite in_app_iff, in_seq in F, Tt.
    apply (md_kept _ _ _ _ Hm); [cbn; apply readEdgs_in; eauto| |]; cbn; [destruct F; [auto|lia]|destruct Tt; [auto|lia]]. }
  pose proof (number_map (P := P) (OsmRead_model.gEdges g) (edges g1) (length (OsmRead_model.gEdges g))) as Mp.
  rewrite <- Mp in Ie. apply in_map_iff in Ie. destruct Ie as (e' & Ec & I'). exists e'. split; [exact I'|]. split; [|exact Ec].
  eapply number_id; [exact I'|]. injection Ec as E1 E2 _. apply (findEdge_hit _ _ _ i e); [apply Hr|exact Ni|auto|auto].
Qed.
Lemma living_read : forall i e, nth_error (OsmRead_model.gEdges g) i = Some e -> living s1 i -> In (OsmRead_model.eFrom e) (nodes g2) /\ In (OsmRead_model.eTo e) (nodes g2).
Proof.
  intros i e Ni A. unfold living in A. apply in_map_iff in A. destruct A as (e' & Ei & I'). cbn in I'. apply number_in in I'. destruct I' as (I' & D).
  assert (Li : i < length (OsmRead_model.gEdges g)) by (apply nth_error_Some; congruence).
  destruct D as [D|D]; [|lia]. apply findEdge_some in D. destruct D as (_ & e2 & N2 & F2 & T2). rewrite Nat.sub_0_r, Ei, Ni in N2. injection N2 as <-.
  destruct (go_ends _ (md_ok _ _ _ _ Hm) _ I') as (X & Y). cbn in X, Y. rewrite F2, T2. cbn. rewrite !in_app_iff. auto.
Qed.
Lemma read_small : forall i e, nth_error (OsmRead_model.gEdges g) i = Some e -> i < N.
Proof. intros i e Ni. cbn. apply Nat.lt_le_trans with (length (OsmRead_model.gEdges g)); [apply nth_error_Some; congruence|lia]. Qed.
Lemma pieces_ok : forall i e, nth_error (OsmRead_model.gEdges g) i = Some e -> In (OsmRead_model.eFrom e) (nodes g2) -> In (OsmRead_model.eTo e) (nodes g2) ->
  in_pieces rests g n0 (isStation s2) g2 i e (ePieces i).
Proof.
  intros i e Ni F Tt. destruct (read_edge i e Ni F Tt) as (e' & I' & Ei & Ec). destruct (s1_pieces e' I') as (mid & C & _ & Sub & Hmid). rewrite Ei in *. injection Ec as E1 E2 E3. rewrite E1, E2, E3 in C.
  destruct (chain_of _ _ _ _ _ C) as (Ne & Ch & Bt & Pl). unfold in_pieces, ePieces. rewrite map_map. split; [destruct (sPieces i); [congruence|discriminate]|]. split; [exact Ch|]. split.
  - intros x I. apply in_map_iff in I. destruct I as (x' & <- & Ix). split; [cbn; apply in_map_iff; exists x'; auto|]. cbn [ePl]. rewrite (Pl x' Ix). apply readPl_street.
  - rewrite Bt. intros n Im. apply Hmid in Im. split; [lia|]. unfold isStation. destruct (Snap_spec.kp_new _ _ _ _ _ _ Hk n) as (k & ->); [cbn; lia|reflexivity].
Qed.
Lemma Chain_first : forall (q : pl P) a b l mid, Snap_spec.Chain q a b l mid -> exists x l', l = x :: l' /\ Snap_model.eFrom x = a.
Proof. intros q a b l mid C. destruct C as [e E|e b l mid E C]; eauto. Qed.
Lemma Chain_last : forall (q : pl P) a b l mid, Snap_spec.Chain q a b l mid -> exists x l', l = l' ++ [x] /\ Snap_model.eTo x = b.
Proof.
  intros q a b l mid C. induction C as [e E|e b l mid E C (x & l' & -> & X)]; [exists e, []; auto|]. exists x, (e :: l'). auto.
Qed.
(** The piece at a node has the number the restrictor was told of *)
Lemma piece_no : forall i e v x, nth_error (OsmRead_model.gEdges g) i = Some e -> In (OsmRead_model.eFrom e) (nodes g2) -> In (OsmRead_model.eTo e) (nodes g2) -> v < n0 ->
  OsmRead_model.eFrom e <> OsmRead_model.eTo e -> piece_at (ePieces i) v x ->
  exists x', In x' (Snap_model.edges s2) /\ conv x' = x /\ Snap_model.eId x' = heir f v T i /\ ePl x = readPl rests segs i e /\ from x <> to x.
Proof.
  intros i e v x Ni F Tt Lv Nl Pa. destruct (read_edge i e Ni F Tt) as (e' & I' & Ei & Ec). destruct (s1_pieces e' I') as (mid & C & Re & Sub & Hmid). pose proof (Hf1 e' I') as Fi. rewrite Ei in *.
  injection Ec as E1 E2 E3. rewrite E1, E2 in Fi. rewrite E1, E2, E3 in C. destruct (chain_of _ _ _ _ _ C) as (_ & _ & _ & Pl).
  destruct (rb_ends _ _ Hr e (nth_error_In _ _ Ni)) as (LF & LT).
  assert (Big : forall m, In m mid -> n0 <= m) by (intros m Im; now apply Hmid).
  destruct Pa as [(Fx & c' & Ec)|(Tx & c' & Ec)].
  - destruct (Chain_first _ _ _ _ _ C) as (x' & l' & El & Fx'). unfold ePieces in Ec. rewrite El in Ec. cbn [map] in Ec. injection Ec as Ex _.
    exists x'. assert (Ix : In x' (sPieces i)) by (rewrite El; now left). split; [now apply Sub|]. split; [exact Ex|]. split; [|split].
    + destruct (heir_first f n0 v _ _ _ _ HT i []) as (l2 & R2); [rewrite Fi; cbn; rewrite <- Fx, <- Ex; cbn; congruence|]. rewrite R2, El in Re. cbn [map] in Re. now injection Re.
    + rewrite <- Ex. cbn. now apply Pl.
    + rewrite <- Ex. cbn. rewrite Fx'. destruct (chain_ends _ _ _ _ _ _ C Ix) as (_ & [Y|Y]); [congruence|]. apply Big in Y. lia.
  - destruct (Chain_last _ _ _ _ _ C) as (x' & l' & El & Tx'). unfold ePieces in Ec. rewrite El, map_app in Ec. cbn [map] in Ec. apply app_inj_tail in Ec. destruct Ec as (_ & Ex).
    exists x'. assert (Ix : In x' (sPieces i)) by (rewrite El; apply in_or_app; right; now left). split; [now apply Sub|]. split; [exact Ex|].
    assert (Ev : OsmRead_model.eTo e = v) by (rewrite <- Tx, <- Ex; cbn; congruence). split; [|split].
    + destruct (heir_last f n0 v _ _ _ _ HT Lv i []) as (l2 & R2); [now rewrite Fi|rewrite Fi; cbn; congruence|]. cbn [app] in R2. rewrite R2, El, map_app in Re. cbn [map] in Re. now apply app_inj_tail in Re.
    + rewrite <- Ex. cbn. now apply Pl.
    + rewrite <- Ex. cbn. rewrite Tx'. destruct (chain_ends _ _ _ _ _ _ C Ix) as ([Y|Y] & _); [congruence|]. apply Big in Y. lia.
Qed.

(** Numbers and nodes *)
Lemma living_ends : forall e, In e (Snap_model.edges s2) -> endsOf s2 (Snap_model.eId e) = (Snap_model.eFrom e, Snap_model.eTo e).
Proof.
  intros e I. rewrite <- (Hf2 e I). unfold endsOf. apply (ends_agree f n0 _ N (living s1) T (living s2) HT).
  - intros x A. unfold living in A. apply in_map_iff in A. destruct A as (y & <- & Iy). unfold Snap_model.fromOf, Snap_model.toOf. rewrite (Snap_proofs.findE_In s2 y Ho Iy). symmetry. now apply Hf2.
  - apply (splits_sub _ _ _ _ _ _ HT). unfold living. now apply in_map.
Qed.
Lemma told_ends : forall x, living s1 x \/ N <= x < N + 2 * length T -> endsOf s2 x = f x.
Proof.
  intros x Hx. unfold endsOf. apply (ends_agree f n0 _ N (living s1) T (living s2) HT); [|exact Hx].
  intros y A. unfold living in A. apply in_map_iff in A. destruct A as (z & <- & Iz). unfold Snap_model.fromOf, Snap_model.toOf. rewrite (Snap_proofs.findE_In s2 z Ho Iz). symmetry. now apply Hf2.
Qed.
Lemma snapNo_in : forall e, In e (Snap_model.edges s2) -> snapNo s2 (Snap_model.eFrom e) (Snap_model.eTo e) = Some (Snap_model.eId e).
Proof.
  intros e I. unfold snapNo. destruct (find _ (Snap_model.edges s2)) as [y|] eqn:Fi.
  - apply find_some in Fi. destruct Fi as (Iy & C). apply andb_prop in C. rewrite !Nat.eqb_eq in C. cbn. f_equal. f_equal. apply (Snap_spec.ok_pair _ Ho); tauto.
  - pose proof (find_none _ _ Fi e I) as X. cbn in X. rewrite !Nat.eqb_refl in X. discriminate.
Qed.
Lemma snapNo_some : forall a b i, snapNo s2 a b = Some i -> exists e, In e (Snap_model.edges s2) /\ Snap_model.eFrom e = a /\ Snap_model.eTo e = b /\ Snap_model.eId e = i.
Proof.
  intros a b i H. unfold snapNo in H. destruct (find _ (Snap_model.edges s2)) as [y|] eqn:Fi; [|discriminate]. cbn in H. injection H as <-.
  apply find_some in Fi. destruct Fi as (Iy & C). apply andb_prop in C. rewrite !Nat.eqb_eq in C. exists y. tauto.
Qed.
Lemma dup_snap : forall d, In d ds -> from d <> to d /\ exists x, In x (Snap_model.edges s2) /\ Snap_model.eFrom x = from d /\ Snap_model.eTo x = to d /\ snapNo s2 (from d) (to d) = Some (Snap_model.eId x).
Proof.
  intros d I. destruct (db_edge _ _ _ Hd d I) as (Nl & (x & Ix & Fx & Tx & _) & _). split; [exact Nl|]. cbn in Ix. apply in_map_iff in Ix. destruct Ix as (x' & <- & Ix). cbn in Fx, Tx.
  exists x'. rewrite <- Fx, <- Tx. split; [exact Ix|]. split; [reflexivity|]. split; [reflexivity|]. now apply snapNo_in.
Qed.
Lemma combine_fst : forall (A B : Type) (l : list A) (m : list B), length l = length m -> map fst (combine l m) = l.
Proof. induction l as [|a l IH]; intros [|b m] E; cbn in *; try discriminate; auto. f_equal. apply IH. lia. Qed.
Lemma combine_snd : forall (A B : Type) (l : list A) (m : list B), length l = length m -> map snd (combine l m) = m.
Proof. induction l as [|a l IH]; intros [|b m] E; cbn in *; try discriminate; auto. f_equal. apply IH. lia. Qed.
Lemma combine_nth : forall (A B : Type) (l : list A) (m : list B) k a b, nth_error l k = Some a -> nth_error m k = Some b -> nth_error (combine l m) k = Some (a, b).
Proof. induction l as [|x l IH]; intros [|y m] [|k] a b H1 H2; cbn in *; try discriminate; [congruence|now apply IH]. Qed.
Lemma nth_combine : forall (A B : Type) (l : list A) (m : list B) k a b, nth_error (combine l m) k = Some (a, b) -> nth_error l k = Some a /\ nth_error m k = Some b.
Proof. induction l as [|x l IH]; intros [|y m] [|k] a b H; cbn in *; try discriminate; [injection H as <- <-; auto|now apply IH]. Qed.
Lemma nth_seq : forall n a k, k < n -> nth_error (seq a n) k = Some (a + k).
Proof. induction n as [|n IH]; intros a [|k] L; cbn; try lia; [now rewrite Nat.add_0_r|]. rewrite IH by lia. f_equal. lia. Qed.
Notation ps := (dupPairs s2 ds).
Lemma ps_snd : map snd ps = seq nx (length ds).
Proof. unfold dupPairs. apply combine_snd. now rewrite map_length, seq_length. Qed.
Lemma ps_nth : forall k d, nth_error ds k = Some d -> exists x, In x (Snap_model.edges s2) /\ Snap_model.eFrom x = from d /\ Snap_model.eTo x = to d /\ nth_error ps k = Some (Snap_model.eId x, nx + k).
Proof.
  intros k d Hk0. destruct (dup_snap d (nth_error_In _ _ Hk0)) as (_ & x & Ix & Fx & Tx & Sn). exists x. split; [exact Ix|]. split; [exact Fx|]. split; [exact Tx|].
  unfold dupPairs. apply combine_nth; [rewrite nth_error_map, Hk0; cbn; now rewrite Sn|]. apply nth_seq. apply nth_error_Some. congruence.
Qed.
Lemma ps_in : forall o n, In (o, n) ps -> exists k d x, nth_error ds k = Some d /\ n = nx + k /\ In x (Snap_model.edges s2) /\ Snap_model.eFrom x = from d /\ Snap_model.eTo x = to d /\ o = Snap_model.eId x.
Proof.
  intros o n I. apply In_nth_error in I. destruct I as (k & I). pose proof I as I0. unfold dupPairs in I. apply nth_combine in I. destruct I as (I & _). rewrite nth_error_map in I.
  destruct (nth_error ds k) as [d|] eqn:Ed; [|discriminate]. destruct (ps_nth k d Ed) as (x & Ix & Fx & Tx & Ep). rewrite Ep in I0. injection I0 as <- <-. exists k, d, x. auto 10.
Qed.
Definition E3 (z v x : nat) : nat * nat := if x =? z then (v, v) else netEnds s2 ds x.
Lemma net_old : forall x, In x (Snap_model.edges s2) -> netEnds s2 ds (Snap_model.eId x) = (Snap_model.eFrom x, Snap_model.eTo x).
Proof. intros x I. unfold netEnds. rewrite (proj2 (Nat.ltb_lt _ _) (Snap_spec.ok_new _ Ho x I)). now apply living_ends. Qed.
Lemma net_new : forall k d, nth_error ds k = Some d -> netEnds s2 ds (nx + k) = (to d, from d).
Proof. intros k d H. unfold netEnds. rewrite (proj2 (Nat.ltb_ge _ _)) by lia. replace (nx + k - nx) with k by lia. now rewrite H. Qed.
Lemma pairs_ok : forall z v, z = nx + length ds -> opposite_pairs (fun x => fst (E3 z v x)) (fun x => snd (E3 z v x)) ps.
Proof.
  intros z v Hz. split.
  - rewrite ps_snd. apply NoDup_app_intro; [|apply seq_NoDup|].
    + unfold dupPairs. rewrite combine_fst by (now rewrite map_length, seq_length).
      pose proof (db_once _ _ _ Hd) as Nd. pose proof dup_snap as Ds. revert Nd Ds. generalize ds. intros l. induction l as [|d l IH]; intros Nd Ds; [constructor|]. cbn [map] in *. inversion Nd as [|? ? N1 N2]; subst.
      constructor; [|apply IH; auto; intros; apply Ds; now right]. intros I. apply in_map_iff in I. destruct I as (d2 & Ed & I2). apply N1.
      destruct (Ds d (or_introl eq_refl)) as (_ & x & Ix & Fx & Tx & Sx). destruct (Ds d2 (or_intror I2)) as (_ & y & Iy & Fy & Ty & Sy). rewrite Sx, Sy in Ed.
      assert (x = y) as <- by (symmetry; eapply Snap_proofs.NoDup_id; eauto; apply Ho). apply in_map_iff. exists d2. split; [congruence|exact I2].
    + intros x I J. apply in_map_iff in I. destruct I as ([o n] & <- & I). apply ps_in in I. destruct I as (k & d & y & _ & _ & Iy & _ & _ & ->). apply in_seq in J. pose proof (Snap_spec.ok_new _ Ho y Iy). cbn in *. lia.
  - intros o n I. apply ps_in in I. destruct I as (k & d & x & Ek & -> & Ix & Fx & Tx & ->). unfold E3.
    assert (Lk : k < length ds) by (apply nth_error_Some; congruence). pose proof (Snap_spec.ok_new _ Ho x Ix) as Lx.
    rewrite (proj2 (Nat.eqb_neq (nx + k) z)), (proj2 (Nat.eqb_neq (Snap_model.eId x) z)) by lia. rewrite (net_new k d Ek), (net_old x Ix), Fx, Tx. cbn.
    destruct (dup_snap d (nth_error_In _ _ Ek)) as (Nl & _). auto.
Qed.
(** The number of a restricted edge of the network *)
Lemma restricted_no : forall st tu e x' d, In e (edges (net nt)) -> OsmGraph_model.restr (ePl e) = true -> In x' (Snap_model.edges s2) -> Snap_model.eFrom x' <> Snap_model.eTo x' ->
  (exists tr, traced st tu g2 e tr /\ In (conv x', d) tr) ->
  stands_for ps (netNo s2 ds e) (Snap_model.eId x') /\ netEnds s2 ds (netNo s2 ds e) = (from e, to e) /\ netNo s2 ds e < nx + length ds.
Proof.
  intros st tu e x' d Ie Re Ix Nl (tr & Tr & It). destruct (tr_single _ _ _ _ _ Tr Re) as (x & ->). destruct It as [It|[]]. injection It as -> _. pose proof (tr_chain _ _ _ _ _ Tr) as Ch.
  unfold netNo. destruct (rev_ (ePl e)) eqn:Rv; cbn in Ch; destruct Ch as (C1 & C2).
  - destruct (db_rev _ _ _ Hd e Ie) as (dd & Id & Fd & Td); auto; [congruence|]. destruct (place ds (to e) (from e) nx) as [k|] eqn:Pk; [|exfalso; apply (place_none _ _ _ _ _ Pk dd Id); auto].
    apply place_some in Pk. destruct Pk as (Lk & d2 & Ed & Fd2 & Td2). destruct (ps_nth _ _ Ed) as (y & Iy & Fy & Ty & Ep). replace (nx + (k - nx)) with k in Ep by lia.
    assert (y = x') as -> by (apply (Snap_spec.ok_pair _ Ho); auto; congruence). split; [left; eapply nth_error_In; eauto|]. split; [|lia].
    replace k with (nx + (k - nx)) by lia. rewrite (net_new _ _ Ed). congruence.
  - rewrite <- C1, <- C2, (snapNo_in x' Ix). pose proof (Snap_spec.ok_new _ Ho x' Ix) as L. split; [|split; [now apply net_old|lia]].
    right. split; [reflexivity|]. rewrite ps_snd, in_seq. lia.
Qed.

(** The table at node [v] *)
Section At.
Variable t0 : Restrictor_model.restr.
Hypothesis Ht0 : runR emptyRestr (readCalls rests segs) = Some t0.
Variable v id : nat.
Hypothesis Hv : v < n0.
Hypothesis Hid : forall s, In s segs -> (OsmRead_model.sgN s = v -> OsmRead_model.sgId s = id) /\ (OsmRead_model.sgLast s = v -> OsmRead_model.sgLastId s = id).
Hypothesis Hw : NoDup (map fst (arms segs v)).
Hypothesis He : NoDup (map snd (arms segs v)).
Notation h := (heir f v T).
Notation tab := (duplicateAll (fun x => fst (netEnds s2 ds x)) (fun x => snd (netEnds s2 ds x)) (retold s2 t0) ps).
Notation z := (nx + length ds).

Lemma retold_at : rPos (retold s2 t0) v = ruleMap h (rPos t0 v) /\ rNeg (retold s2 t0) v = ruleMap h (rNeg t0 v).
Proof. unfold retold. apply (retold_rules f n0 (endsOf s2) v N (living s1) T (living s2) HT). exact told_ends. Qed.
Lemma arm_edge : forall w i, In (w, i) (arms segs v) -> exists e, nth_error (OsmRead_model.gEdges g) i = Some e /\ (OsmRead_model.eFrom e = v \/ OsmRead_model.eTo e = v) /\ OsmRead_model.eFrom e <> OsmRead_model.eTo e /\
  (marked rests segs i = false -> ~ names_way rests id w).
Proof.
  intros w i I. pose proof I as I0. apply arms_in in I. destruct I as (sg & Is & Ew & Ee & D). destruct (Hsg sg Is) as (e & Ne & Fe & Te). rewrite Ee in Ne. exists e. split; [exact Ne|]. split; [rewrite Fe, Te; tauto|]. split.
  - intros X. apply (arms_loop segs v w i He I0 sg Is Ee). rewrite Fe, Te in X. destruct D; split; congruence.
  - intros Mk Nw. assert (R : ruled rests segs i); [|apply marked_iff in R; congruence]. exists sg. split; [exact Is|]. split; [exact Ee|]. destruct (Hid sg Is) as (H1 & H2). rewrite Ew. destruct D as [D|D]; [left; now rewrite (H1 D)|right; now rewrite (H2 D)].
Qed.
Lemma named_read : forall x, mentions (rPos t0 v) x \/ mentions (rNeg t0 v) x -> exists w e, In (w, x) (arms segs v) /\ nth_error (OsmRead_model.gEdges g) x = Some e /\ x < N /\ marked rests segs x = true.
Proof.
  intros x M. destruct (calls_mention rests segs v id Hid t0 Ht0 x M) as (w & I & Nw). destruct (arm_edge w x I) as (e & Ne & _ & _ & Mk). exists w, e. split; [exact I|]. split; [exact Ne|]. split; [eapply read_small; eauto|].
  destruct (marked rests segs x); [reflexivity|]. exfalso. now apply Mk.
Qed.
Lemma retold_named : forall y, mentions (rPos (retold s2 t0) v) y \/ mentions (rNeg (retold s2 t0) v) y -> exists x, (mentions (rPos t0 v) x \/ mentions (rNeg t0 v) x) /\ y = h x.
Proof.
  intros y M. destruct retold_at as (-> & ->) in M. destruct M as [M|M]; apply mentions_map in M; destruct M as (x & M & ->); eauto.
Qed.
Lemma retold_small : forall y, nx <= y -> unmentioned (retold s2 t0) y v.
Proof.
  assert (G : forall y, mentions (rPos (retold s2 t0) v) y \/ mentions (rNeg (retold s2 t0) v) y -> y < nx).
  { intros y M. apply retold_named in M. destruct M as (x & M & ->). destruct (named_read x M) as (_ & _ & _ & _ & L & _). rewrite Hnx. eapply heir_lt; eauto. }
  intros y L. split; intros M; [specialize (G y (or_introl M))|specialize (G y (or_intror M))]; lia.
Qed.
Lemma piece_some : forall i e, nth_error (OsmRead_model.gEdges g) i = Some e -> In (OsmRead_model.eFrom e) (nodes g2) -> In (OsmRead_model.eTo e) (nodes g2) ->
  OsmRead_model.eFrom e = v \/ OsmRead_model.eTo e = v -> exists x, piece_at (ePieces i) v x.
Proof.
  intros i e Ni F Tt D. destruct (read_edge i e Ni F Tt) as (e' & I' & Ei & Ec). destruct (s1_pieces e' I') as (mid & C & _). rewrite Ei in *. injection Ec as E1 E2 E4. rewrite E1, E2 in C. unfold piece_at, ePieces. destruct D as [D|D].
  - destruct (Chain_first _ _ _ _ _ C) as (x' & l' & -> & Fx'). exists (conv x'). left. cbn. split; [congruence|eauto].
  - destruct (Chain_last _ _ _ _ _ C) as (x' & l' & -> & Tx'). exists (conv x'). right. rewrite map_app. cbn. split; [congruence|eauto].
Qed.
Lemma unnamed_plain : forall y, In y (Snap_model.edges s2) -> OsmGraph_model.restr (Snap_model.ePl y) = false -> unmentioned (retold s2 t0) (Snap_model.eId y) v.
Proof.
  intros y Iy Ry. assert (G : ~ (mentions (rPos (retold s2 t0) v) (Snap_model.eId y) \/ mentions (rNeg (retold s2 t0) v) (Snap_model.eId y))); [|split; tauto].
  intros M. apply retold_named in M. destruct M as (x & M & Ex). destruct (named_read x M) as (w & e & Ia & Ne & Lx & Mk). destruct (in_dec Nat.eq_dec x (map Snap_model.eId (Snap_model.edges s1))) as [Lv|Dead].
  - destruct (living_read x e Ne Lv) as (Fe & Te). destruct (arm_edge w x Ia) as (e' & Ne' & D & Nl & _). rewrite Ne in Ne'. injection Ne' as <-.
    destruct (piece_some x e Ne Fe Te D) as (p & Pa). destruct (piece_no x e v p Ne Fe Te Hv Nl Pa) as (y' & Iy' & Ec & Eid & Epl & _).
    assert (y' = y) as -> by (eapply Snap_proofs.NoDup_id; eauto; [apply Ho|congruence]). rewrite <- Ec in Epl. cbn in Epl. rewrite Epl in Ry. cbn in Ry. congruence.
  - destruct (heir_dead f n0 v _ _ _ _ HT x Lx Dead) as (E1 & E2). apply E2. rewrite <- E1, <- Ex. unfold living. now apply in_map.
Qed.
Lemma old_unnamed : forall y, In y (Snap_model.edges s2) -> OsmGraph_model.restr (Snap_model.ePl y) = false -> unmentioned tab (Snap_model.eId y) v.
Proof.
  intros y Iy Ry. apply unmentioned_all; [|now apply unnamed_plain]. rewrite ps_snd, in_seq. pose proof (Snap_spec.ok_new _ Ho y Iy). lia.
Qed.
Lemma z_unnamed : unmentioned tab z v.
Proof. apply unmentioned_all; [rewrite ps_snd, in_seq; lia|]. apply retold_small. lia. Qed.
Lemma plain_unnamed : forall t, In t (edges (net nt)) -> OsmGraph_model.restr (ePl t) = false -> unmentioned tab (netNo s2 ds t) v.
Proof.
  intros t It Rt. unfold netNo. destruct (rev_ (ePl t)).
  - destruct (place ds (to t) (from t) nx) as [k|] eqn:Pk; [|apply z_unnamed]. exfalso. apply place_some in Pk. destruct Pk as (_ & d & Ed & Fd & Td).
    destruct (db_edge _ _ _ Hd d (nth_error_In _ _ Ed)) as (_ & _ & e & Ie & Fe & Te & Re). assert (e = t) as -> by (apply (simple_eq (net nt)); auto; congruence). congruence.
  - destruct (snapNo s2 (from t) (to t)) as [i|] eqn:Sn; [|apply z_unnamed]. apply snapNo_some in Sn. destruct Sn as (y & Iy & Fy & Ty & <-). apply old_unnamed; [exact Iy|].
    destruct (OsmGraph_model.restr (Snap_model.ePl y)) eqn:Ry; [|reflexivity]. exfalso.
    destruct (db_stay _ _ _ Hd (conv y)) as (e & Ie & Fe & Te & _ & Re); [cbn; apply in_map_iff; eauto|exact Ry|]. cbn in Fe, Te.
    assert (e = t) as -> by (apply (simple_eq (net nt)); auto; congruence). congruence.
Qed.
Lemma tab_ends : forall w, tab = duplicateAll (fun x => fst (E3 z w x)) (fun x => snd (E3 z w x)) (retold s2 t0) ps.
Proof.
  intros w. apply duplicateAll_ext. intros o I. apply in_map_iff in I. destruct I as ([o' n] & <- & I). apply ps_in in I. destruct I as (k & d & x & _ & _ & Ix & _ & _ & ->).
  pose proof (Snap_spec.ok_new _ Ho x Ix) as L. unfold E3. cbn [fst]. rewrite (proj2 (Nat.eqb_neq _ _)) by lia. auto.
Qed.
Lemma heir_safe : forall x y, mentions (rPos t0 v) x \/ mentions (rNeg t0 v) x -> y < N \/ y = z -> h x = h y -> x = y.
Proof.
  intros x y M Ly E. destruct (named_read x M) as (_ & _ & _ & _ & L & _). destruct Ly as [Ly| ->]; [eapply heir_inj; eauto|].
  exfalso. rewrite (heir_big f n0 v _ _ _ _ HT z) in E by lia. pose proof (heir_lt f n0 v _ _ _ _ HT x L). lia.
Qed.
Lemma tab_may : forall a b a' b', stands_for ps a (h a') -> stands_for ps b (h b') -> a' < N -> b' < N \/ b' = z -> snd (netEnds s2 ds a) = v -> a <> z -> (b = z \/ (fst (netEnds s2 ds b) = v /\ b <> z)) ->
  may tab a b v = may t0 a' b' v.
Proof.
  intros a b a' b' Sa Sb La Lb Ea Na Eb. rewrite (tab_ends v).
  rewrite (opposite_keeps _ _ (retold s2 t0) ps v (pairs_ok z v eq_refl)) with (f0 := h a') (t0 := h b'); auto.
  - destruct retold_at as (Rp & Rn). apply (may_same t0 (retold s2 t0) a' b' _ _ v h Rp Rn eq_refl eq_refl). intros x M. split; apply heir_safe; auto.
  - intros n I. apply unmentioned_iff. apply retold_small. rewrite ps_snd, in_seq in I. lia.
  - unfold E3. now rewrite (proj2 (Nat.eqb_neq _ _) Na).
  - unfold E3. destruct Eb as [-> | (Eb & Nb)]; [now rewrite Nat.eqb_refl|]. now rewrite (proj2 (Nat.eqb_neq _ _) Nb).
Qed.

Theorem turn_at : forall st tu wf ef wt et e1 e2, no_self (rawAt rests true id ++ rawAt rests false id) -> In (wf, ef) (arms segs v) -> In (wt, et) (arms segs v) ->
  nth_error (OsmRead_model.gEdges g) ef = Some e1 -> In (OsmRead_model.eFrom e1) (nodes g2) -> In (OsmRead_model.eTo e1) (nodes g2) ->
  nth_error (OsmRead_model.gEdges g) et = Some e2 -> In (OsmRead_model.eFrom e2) (nodes g2) -> In (OsmRead_model.eTo e2) (nodes g2) ->
  forall a b x y, In a (edges (net nt)) -> In b (edges (net nt)) -> to a = v -> from b = v -> piece_at (ePieces ef) v x -> piece_at (ePieces et) v y ->
  made_with st tu g2 a x -> made_with st tu g2 b y ->
  ((OsmGraph_model.restr (ePl a) = true /\ may tab (netNo s2 ds a) (netNo s2 ds b) v = false) <-> ~ way_turn_allowed (rawAt rests true id) (rawAt rests false id) (map fst (arms segs v)) wf wt).
Proof.
  intros st tu wf ef wt et e1 e2 Ns If It N1 F1 T1 N2 F2 T2 a b x y Ia Ib Ta Fb Px Py Mx My.
  destruct (arm_edge wf ef If) as (e1' & N1' & D1 & Nl1 & Mk1). rewrite N1 in N1'. injection N1' as <-. destruct (arm_edge wt et It) as (e2' & N2' & D2 & Nl2 & Mk2). rewrite N2 in N2'. injection N2' as <-.
  destruct (piece_no ef e1 v x N1 F1 T1 Hv Nl1 Px) as (x' & Ix & Ex & Idx & Plx & Lx). destruct (piece_no et e2 v y N2 F2 T2 Hv Nl2 Py) as (y' & Iy & Ey & Idy & Ply & Ly).
  destruct Mx as (tr & d & Tr & Itr). destruct My as (tr2 & d2 & Tr2 & Itr2).
  pose proof (tr_restr _ _ _ _ _ Tr _ Itr) as Ra. pose proof (tr_restr _ _ _ _ _ Tr2 _ Itr2) as Rb. cbn [fst] in Ra, Rb. rewrite Plx in Ra. rewrite Ply in Rb. cbn in Ra, Rb.
  pose proof (calls_may rests segs v id Hid t0 Ht0 Hw He Ns wf ef wt et If It) as CM.
  destruct (OsmGraph_model.restr (ePl a)) eqn:Rsa.
  - assert (E : may tab (netNo s2 ds a) (netNo s2 ds b) v = may t0 ef et v).
    { destruct (restricted_no st tu a x' d Ia Rsa Ix) as (Sa & Ea & La); [rewrite <- Ex in Lx; exact Lx|exists tr; rewrite Ex; auto|]. rewrite Idx in Sa.
      destruct (OsmGraph_model.restr (ePl b)) eqn:Rsb.
      - destruct (restricted_no st tu b y' d2 Ib Rsb Iy) as (Sb & Eb & Lb); [rewrite <- Ey in Ly; exact Ly|exists tr2; rewrite Ey; auto|]. rewrite Idy in Sb.
        apply tab_may; auto; try (eapply read_small; eauto; fail); [left; eapply read_small; eauto|now rewrite Ea|lia|right; rewrite Eb; split; [exact Fb|lia]].
      - rewrite (may_other tab _ _ z v (plain_unnamed b Ib Rsb) z_unnamed).
        assert (Uz : unmentioned t0 z v). { split; intros M; destruct (named_read z) as (_ & _ & _ & _ & L & _); auto; lia. }
        assert (Ut : unmentioned t0 et v). { split; intros M; destruct (named_read et) as (_ & _ & _ & _ & _ & Mk); auto; congruence. }
        rewrite (may_other t0 ef et z v Ut Uz). apply tab_may; auto; [|eapply read_small; eauto|now rewrite Ea|lia].
        rewrite (heir_big f n0 v _ _ _ _ HT z) by lia. right. split; [reflexivity|]. rewrite ps_snd, in_seq. lia. }
    rewrite E. destruct (may t0 ef et v); split; try (intros (_ & X); discriminate); try (intros _; split; [reflexivity|]; reflexivity).
    + intros X. exfalso. apply X. now apply CM.
    + intros _ X. apply CM in X. discriminate.
  - split; [intros (X & _); discriminate|]. intros X. exfalso. apply X. apply unnamed_allowed. now apply Mk1.
Qed.
End At.
End Main.

(** * What the restrictor hears *)
Lemma Forall2_in_r : forall (A B : Type) (R : A -> B -> Prop) l m, Forall2 R l m -> forall y, In y m -> exists x, In x l /\ R x y.
Proof. intros A B R l m H. induction H as [|x y l m Hxy H IH]; intros z E; [easy|]. destruct E as [E|E]; [subst; exists x; split; [now left|exact Hxy]|]. destruct (IH z E) as (w & W & Rw). exists w. split; [now right|exact Rw]. Qed.
Lemma segs_ok : forall level oneway onewayrev lo hup has wl g O, OsmRead_spec.GraphOf level oneway onewayrev lo hup has wl g O ->
  (forall sg, In sg (OsmRead_model.gSegs g) -> exists e, nth_error (OsmRead_model.gEdges g) (OsmRead_model.sgEdge sg) = Some e /\ OsmRead_model.eFrom e = OsmRead_model.sgLast sg /\ OsmRead_model.eTo e = OsmRead_model.sgN sg) /\
  forall id v, In (id, v) (concat O) -> forall s, In s (OsmRead_model.gSegs g) -> (OsmRead_model.sgN s = v -> OsmRead_model.sgId s = id) /\ (OsmRead_model.sgLast s = v -> OsmRead_model.sgLastId s = id).
Proof.
  intros level oneway onewayrev lo hup has wl g O Go. pose proof (OsmRead_spec.go_segs _ _ _ _ _ _ _ _ _ Go) as Gs.
  assert (A : forall sg, In sg (OsmRead_model.gSegs g) -> (exists e, nth_error (OsmRead_model.gEdges g) (OsmRead_model.sgEdge sg) = Some e /\ OsmRead_model.eFrom e = OsmRead_model.sgLast sg /\ OsmRead_model.eTo e = OsmRead_model.sgN sg) /\
    In (OsmRead_model.sgLastId sg, OsmRead_model.sgLast sg) (concat O) /\ In (OsmRead_model.sgId sg, OsmRead_model.sgN sg) (concat O)).
  { intros sg I. destruct (Forall2_in_r _ _ _ _ _ Gs sg I) as (st & Ist & _ & Ea & Eb & Ex). split; [exact Ex|]. apply in_flat_map in Ist. destruct Ist as (p & Ip & Ist). apply in_map_iff in Ist. destruct Ist as (q & <- & Iq).
    cbn [fst snd] in Ea, Eb. rewrite Ea, Eb. destruct q as [qa qb]. cbn [fst snd]. apply neighbours_in in Iq. destruct p as [w l]. apply in_combine_r in Ip. cbn [fst snd] in Iq. split; apply in_concat; exists l; tauto. }
  split; [intros sg I; apply (A sg I)|]. intros id v Iv sg I. destruct (A sg I) as (_ & A1 & A2).
  assert (U : forall id', In (id', v) (concat O) -> id' = id).
  { intros id' I'. apply In_nth_error in Iv, I'. destruct Iv as (i & Ei), I' as (j & Ej). destruct (Nat.eq_dec i j) as [->|D]; [rewrite Ei in Ej; congruence|].
    destruct (proj1 (OsmRead_spec.go_shared _ _ _ _ _ _ _ _ _ Go i j id v id' v Ei Ej D) eq_refl) as (-> & _). reflexivity. }
  split; intros <-; auto.
Qed.
