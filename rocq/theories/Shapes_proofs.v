(** Proofs for the generated shapes (C35, C57). *)
From Coq Require Import List Arith ZArith QArith Bool Lia.
From Verif Require Import ListAux Router_model Router_spec Shapes_model Shapes_spec.
Import ListNotations.
Open Scope nat_scope.

Lemma first_is_app : forall A (l k : list A) x, first_is l x -> first_is (l ++ k) x.
Proof. intros A l k x (t & ->). exists (t ++ k). reflexivity. Qed.
Lemma last_is_app : forall A (l k : list A) x, last_is k x -> last_is (l ++ k) x.
Proof. intros A l k x (t & ->). exists (l ++ t). rewrite app_assoc. reflexivity. Qed.
Lemma last_is_nil : forall A (x : A), ~ last_is [] x.
Proof. intros A x (t & H). destruct t; discriminate. Qed.
Lemma last_is_det : forall A (l : list A) x y, last_is l x -> last_is l y -> x = y.
Proof. intros A l x y (t & ->) (t' & H). apply app_inj_tail in H. tauto. Qed.
Lemma first_is_det : forall A (l : list A) x y, first_is l x -> first_is l y -> x = y.
Proof. intros A l x y (t & ->) (t' & H). congruence. Qed.
Lemma first_ex : forall A (l : list A), l <> [] -> exists x, first_is l x.
Proof. intros A [|x l] N; [congruence|]. exists x, l. reflexivity. Qed.
Lemma last_ex : forall A (l : list A), l <> [] -> exists x, last_is l x.
Proof. intros A l N. destruct (exists_last N) as (t & x & ->). exists x, t. reflexivity. Qed.
Lemma sub_refl : forall A (l : list A), sub l l.
Proof. induction l; constructor; assumption. Qed.
Lemma sub_nil_l : forall A (l : list A), sub [] l.
Proof. induction l; constructor; assumption. Qed.

Lemma front_spec : forall Pt (l : list Pt) x, front Pt l = Some x <-> first_is l x.
Proof.
  intros Pt [|p l] x; split; cbn.
  - discriminate.
  - intros (t & H). discriminate.
  - intros H. injection H as <-. exists l. reflexivity.
  - intros (t & H). congruence.
Qed.
Lemma last_snoc : forall A (t : list A) x d, last (t ++ [x]) d = x.
Proof. induction t as [|y t IH]; intros x d; [reflexivity|]. cbn [app last]. rewrite IH. destruct (t ++ [x]) eqn:E; [destruct t; discriminate|reflexivity]. Qed.
Lemma back_spec : forall Pt (l : list Pt) x, last_is l x -> back Pt l = Some x.
Proof.
  intros Pt l x (t & ->). destruct t as [|y t]; [reflexivity|]. cbn [app back]. rewrite last_snoc. reflexivity.
Qed.

Section P.
Context {E Pt C : Type}.
Variable eqE : E -> E -> bool.
Variable geom : E -> option (list Pt).
Variable isRev : E -> bool.
Variable fromPt toPt : E -> Pt.
Variable len : E -> Q.
Variable segment : list Pt -> Q -> Q -> list Pt.
Variable simplify : list Pt -> list Pt.
Variable pos : list Pt -> Q -> Pt.
Variable hav : Pt -> Pt -> Q.
Variable rndF rndD : Q -> Q.
Variable colorsOf : E -> list N.
Notation hop := (hop E Pt).
Notation edgeLine := (edgeLine E Pt geom isRev fromPt toPt).
Notation hopLine := (hopLine E Pt eqE geom isRev fromPt toPt len segment simplify).
Notation hopGeom := (hopGeom E Pt eqE geom isRev fromPt toPt len segment simplify).
Notation drawn := (drawn geom isRev fromPt toPt).
Notation covers := (covers pos).

Lemma edgeLine_drawn : forall e, drawn e (edgeLine e).
Proof. intros e. unfold Shapes_spec.drawn, Shapes_model.edgeLine. destruct (geom e) as [[|p g]|]; auto. destruct (isRev e); reflexivity. Qed.
Lemma drawn_det : forall e l, drawn e l -> l = edgeLine e.
Proof. intros e l. unfold Shapes_spec.drawn, Shapes_model.edgeLine. destruct (geom e) as [[|p g]|]; auto. destruct (isRev e); auto. Qed.

Section Geo.
Hypothesis eqE_ok : forall a b, eqE a b = true <-> a = b.
Hypothesis GO : geometries_ok geom isRev fromPt toPt.
Hypothesis GE : geometry segment simplify pos.

Lemma line_first : forall e, first_is (edgeLine e) (fromPt e).
Proof. intros e. exact (proj1 (GO _ _ (edgeLine_drawn e))). Qed.
Lemma line_last : forall e, last_is (edgeLine e) (toPt e).
Proof. intros e. exact (proj2 (GO _ _ (edgeLine_drawn e))). Qed.
Lemma line_ne : forall e, edgeLine e <> [].
Proof. intros e H. destruct (line_first e) as (t & X). congruence. Qed.
Lemma pos0 : forall e q, (q == 0)%Q -> pos (edgeLine e) q = fromPt e.
Proof. intros e q Q0. exact (ge_0 _ _ _ GE _ _ _ (line_first e) Q0). Qed.
Lemma pos1 : forall e q, (q == 1)%Q -> pos (edgeLine e) q = toPt e.
Proof. intros e q Q1. exact (ge_1 _ _ _ GE _ _ _ (line_last e) Q1). Qed.

Lemma covers_first : forall l a b p, covers l a b p -> first_is p (pos l a).
Proof. intros l a b p (inner & _ & [-> | [-> _]]); eexists; reflexivity. Qed.
Lemma covers_last : forall l a b p, covers l a b p -> last_is p (pos l b).
Proof. intros l a b p (inner & _ & [-> | [-> H]]); [exists (pos l a :: inner); reflexivity|exists []; rewrite H; reflexivity]. Qed.

Lemma isPos_true : forall q, isPos q = true -> (0 < q)%Q.
Proof. intros q. unfold isPos. destruct (Qlt_le_dec 0 q); [auto|discriminate]. Qed.
Lemma isPos_false : forall q, isPos q = false -> (q <= 0)%Q.
Proof. intros q. unfold isPos. destruct (Qlt_le_dec 0 q); [discriminate|auto]. Qed.
Lemma share_zero : forall q, is_share q -> isPos q = false -> (q == 0)%Q.
Proof. intros q [A _] H. apply isPos_false in H. apply Qle_antisym; assumption. Qed.

Lemma seg_cov : forall e a b, (0 <= a)%Q -> (a <= b)%Q -> (b <= 1)%Q -> covers (edgeLine e) a b (segment (edgeLine e) a b).
Proof. intros e a b A B D. apply (ge_segment _ _ _ GE); auto. apply line_ne. Qed.
Lemma whole_cov : forall e a, (a == 0)%Q -> covers (edgeLine e) a 1 (edgeLine e).
Proof.
  intros e a A0. unfold Shapes_spec.covers. rewrite (pos0 e a A0), (pos1 e 1%Q (Qeq_refl _)).
  destruct (line_first e) as (t & F), (line_last e) as (t' & L). rewrite F in *.
  destruct t' as [|y t'].
  - cbn in L. injection L as L1 L2. exists []. split; [apply sub_nil_l|]. right. subst t. rewrite L1. auto.
  - cbn in L. injection L as L1 L2. exists t'. subst t. split; [|left; reflexivity].
    constructor. clear. induction t' as [|z t' IH]; [apply sub_nil_l|]. cbn. constructor. exact IH.
Qed.

Lemma start_share : forall e a, is_share a ->
  (if isPos a then front Pt (segment (edgeLine e) a 1) else front Pt (edgeLine e)) = Some (pos (edgeLine e) a).
Proof.
  intros e a S. destruct (isPos a) eqn:P; apply (proj2 (front_spec _ _ _)).
  - apply (covers_first _ _ 1%Q). destruct S. apply seg_cov; auto. apply Qle_refl.
  - rewrite (pos0 e a (share_zero _ S P)). apply line_first.
Qed.
Lemma start_share' : forall e a, is_share a ->
  (if isPos a then front Pt (segment (edgeLine e) a 1) else Some (fromPt e)) = Some (pos (edgeLine e) a).
Proof.
  intros e a S. destruct (isPos a) eqn:P.
  - apply (proj2 (front_spec _ _ _)). apply (covers_first _ _ 1%Q). destruct S. apply seg_cov; auto. apply Qle_refl.
  - rewrite (pos0 e a (share_zero _ S P)). reflexivity.
Qed.
Lemma end_share : forall e a, is_share a ->
  (if isPos a then back Pt (segment (edgeLine e) 0 a) else Some (fromPt e)) = Some (pos (edgeLine e) a).
Proof.
  intros e a S. destruct (isPos a) eqn:P.
  - apply back_spec. apply (covers_last _ 0%Q a). destruct S. apply seg_cov; auto. apply Qle_refl.
  - rewrite (pos0 e a (share_zero _ S P)). reflexivity.
Qed.

Lemma meet_app : forall (a : list (list Pt)) x (b : list Pt), meet (a ++ [x]) -> (exists p, last_is x p /\ first_is b p) -> meet (a ++ [x; b]).
Proof.
  induction a as [|y a IH]; intros x b M X; [cbn; auto|].
  destruct a as [|z a]; cbn [app meet] in *; [tauto|]. destruct M as [M1 M2]. split; [exact M1|]. apply IH; auto.
Qed.

(** The lines of a path meet. *)
Lemma lines_meet : forall p1 s mids, path fromPt toPt (s :: mids) -> last_is p1 (toPt s) -> meet (p1 :: map edgeLine mids).
Proof.
  intros p1 s mids. revert p1 s. induction mids as [|m mids IH]; intros p1 s Pa L; [exact I|].
  destruct Pa as [Pa1 Pa2]. cbn [map meet]. split.
  - exists (toPt s). split; [exact L|]. rewrite Pa1. apply line_first.
  - apply (IH _ m); [exact Pa2|apply line_last].
Qed.
Lemma lines_end : forall p1 s mids e, path fromPt toPt (s :: mids ++ [e]) -> last_is p1 (toPt s) ->
  last_is (p1 ++ concat (map edgeLine mids)) (fromPt e).
Proof.
  intros p1 s mids e. revert p1 s. induction mids as [|m mids IH]; intros p1 s Pa L.
  - cbn in *. rewrite app_nil_r, <- (proj1 Pa). exact L.
  - cbn [map concat]. rewrite app_assoc. apply (IH _ m); [exact (proj2 Pa)|]. apply last_is_app, line_last.
Qed.
Lemma meet_snoc : forall p1 s mids e p3, path fromPt toPt (s :: mids ++ [e]) -> last_is p1 (toPt s) -> first_is p3 (fromPt e) ->
  meet (p1 :: map edgeLine mids ++ [p3]).
Proof.
  intros p1 s mids e p3. revert p1 s. induction mids as [|m mids IH]; intros p1 s Pa L F.
  - cbn in *. split; [|exact I]. exists (fromPt e). split; [rewrite <- (proj1 Pa); exact L|exact F].
  - cbn [map app meet]. destruct Pa as [Pa1 Pa2]. split.
    + exists (toPt s). split; [exact L|]. rewrite Pa1. apply line_first.
    + apply (IH _ m); auto. apply line_last.
Qed.

(** The loop over the inner edges visits them in driving order. *)
Lemma middle_ok : forall (a : list E) (e s : E), middle E (e :: a ++ [s]) (length a) = Some (rev a).
Proof.
  intros a e s.
  assert (G : forall k, k <= length a -> middle E (e :: a ++ [s]) k = Some (rev (firstn k a))).
  { induction k as [|k IH]; intros L; [reflexivity|].
    cbn [middle nth_error]. rewrite IH by lia. rewrite nth_error_app1 by lia.
    destruct (nth_error a k) as [x|] eqn:X; [|apply nth_error_None in X; lia].
    f_equal. assert (F : firstn (S k) a = firstn k a ++ [x]).
    { clear - X. revert k X. induction a as [|y a IH]; intros [|k] X; try discriminate; cbn in *; [congruence|]. f_equal. auto. }
    rewrite F, rev_app_distr. reflexivity. }
  rewrite (G (length a)) by lia. rewrite firstn_all. reflexivity.
Qed.

Lemma path_single : forall A (l : list A) s e, rev l = [s] -> last_is [s] e -> l = [s] /\ e = s.
Proof.
  intros A l s e R L. split.
  - rewrite <- (rev_involutive l), R. reflexivity.
  - apply (last_is_det _ [s]); [exact L|exists []; reflexivity].
Qed.

Lemma flat_map_map : forall A B (f : A -> list B) l, flat_map f l = concat (map f l).
Proof. induction l; cbn; congruence. Qed.
Lemma Forall2_map_r : forall l, Forall2 drawn l (map edgeLine l).
Proof. induction l; cbn; constructor; auto. apply edgeLine_drawn. Qed.

Lemma hopLine_ok : forall h s e, hStart _ _ h = Some s -> hEnd _ _ h = Some e -> hop_ok fromPt toPt h -> forward h ->
  exists part cs, hopLine h s e = Some (part, cs) /\
    first_is part (pos (edgeLine s) (hPrS _ _ h)) /\ last_is part (pos (edgeLine e) (hPrE _ _ h)) /\
    (hEdges _ _ h <> [] -> along geom isRev fromPt toPt pos h part) /\
    (hEdges _ _ h = [] -> part = [pos (edgeLine s) (hPrS _ _ h); pos (edgeLine e) (hPrE _ _ h)]).
Proof.
  intros h s e Hs He (Sh1 & Sh2 & Pa) Fw.
  specialize (Sh1 ltac:(congruence)). specialize (Sh2 ltac:(congruence)). specialize (Pa _ _ Hs He).
  unfold Shapes_model.hopLine.
  destruct (hEdges _ _ h) as [|e0 es] eqn:Es.
  - rewrite (start_share s _ Sh1), (end_share e _ Sh2). do 2 eexists. split; [reflexivity|].
    split; [eexists; reflexivity|]. split; [exists [pos (edgeLine s) (hPrS _ _ h)]; reflexivity|]. split; [congruence|auto].
  - destruct Pa as [Pa | (Pa & Ps & Pe)]; [discriminate|].
    destruct es as [|e1 es].
    + (* one edge *)
      cbn [rev app] in Ps, Pe, Pa. destruct Ps as (t & Ps). injection Ps as P1 _. subst e0.
      assert (e = s) by (apply (last_is_det _ [s]); [exact Pe|exists []; reflexivity]). subst e.
      replace (eqE s s) with true by (symmetry; apply eqE_ok; reflexivity). cbn [length Nat.eqb andb].
      specialize (Fw _ Hs He Es).
      assert (CV : covers (edgeLine s) (hPrS _ _ h) (hPrE _ _ h) (segment (edgeLine s) (hPrS _ _ h) (hPrE _ _ h))).
      { apply seg_cov; [exact (proj1 Sh1)|exact Fw|exact (proj2 Sh2)]. }
      do 2 eexists. split; [reflexivity|]. split; [exact (covers_first _ _ _ _ CV)|].
      split; [exact (covers_last _ _ _ _ CV)|]. split; [|congruence].
      intros _. left. exists s, (edgeLine s). split; [exact Es|]. split; [apply edgeLine_drawn|exact CV].
    + (* several edges *)
      replace (length (e0 :: e1 :: es) =? 1) with false by reflexivity. cbn [andb].
      assert (D : exists a, e1 :: es = a ++ [s]).
      { destruct (exists_last (l:=e1 :: es) ltac:(discriminate)) as (a & z & Z). rewrite Z in *.
        exists a. f_equal. f_equal. cbn [rev] in Ps. rewrite rev_app_distr in Ps. cbn in Ps. destruct Ps as (t & Ps). congruence. }
      destruct D as (a & D). rewrite D in *.
      assert (e0 = e).
      { cbn [rev] in Pe. apply (last_is_det _ (rev (a ++ [s]) ++ [e0])); [exists (rev (a ++ [s])); reflexivity|exact Pe]. }
      subst e0.
      assert (RE : rev (e :: a ++ [s]) = s :: rev a ++ [e]) by (cbn [rev]; rewrite rev_app_distr; reflexivity).
      rewrite RE in Pa. clear Ps Pe.
      replace (1 <? length (e :: a ++ [s])) with true by (symmetry; apply Nat.ltb_lt; cbn; rewrite app_length; cbn; lia).
      replace (length (e :: a ++ [s]) - 2) with (length a) by (cbn; rewrite app_length; cbn; lia).
      rewrite middle_ok. rewrite (flat_map_map _ _ edgeLine).
      set (l1 := if isPos (hPrS _ _ h) then segment (edgeLine s) (hPrS _ _ h) 1 else edgeLine s).
      assert (C1 : covers (edgeLine s) (hPrS _ _ h) 1 l1).
      { unfold l1. destruct (isPos (hPrS _ _ h)) eqn:P1.
        - destruct Sh1. apply seg_cov; auto. apply Qle_refl.
        - apply whole_cov. apply share_zero; auto. }
      pose proof (covers_first _ _ _ _ C1) as F1.
      pose proof (covers_last _ _ _ _ C1) as L1. rewrite (pos1 s 1%Q (Qeq_refl _)) in L1.
      set (l3 := if isPos (hPrE _ _ h) then segment (edgeLine e) 0 (hPrE _ _ h) else []).
      set (tr := l1 ++ concat (map edgeLine (rev a)) ++ l3).
      assert (FT : first_is tr (pos (edgeLine s) (hPrS _ _ h))) by (apply first_is_app; exact F1).
      assert (LT : last_is tr (pos (edgeLine e) (hPrE _ _ h))).
      { unfold tr, l3. destruct (isPos (hPrE _ _ h)) eqn:P3.
        - apply last_is_app, last_is_app. apply (covers_last _ 0%Q). destruct Sh2. apply seg_cov; auto. apply Qle_refl.
        - rewrite app_nil_r, (pos0 e _ (share_zero _ Sh2 P3)). apply (lines_end _ s); auto. }
      do 2 eexists. split; [reflexivity|]. fold tr.
      set (res := if 1 <? length tr then simplify tr else tr).
      assert (SR : sub res tr). { unfold res. destruct (1 <? length tr); [apply (ge_simplify _ _ _ GE)|apply sub_refl]. }
      assert (FR : first_is res (pos (edgeLine s) (hPrS _ _ h))).
      { unfold res. destruct (1 <? length tr); [apply (ge_simplify_first _ _ _ GE)|]; exact FT. }
      assert (LR : last_is res (pos (edgeLine e) (hPrE _ _ h))).
      { unfold res. destruct (1 <? length tr); [apply (ge_simplify_last _ _ _ GE)|]; exact LT. }
      split; [exact FR|]. split; [exact LR|]. split; [|intros X; discriminate].
      intros _. right.
      destruct (isPos (hPrE _ _ h)) eqn:P3.
      * exists s, (rev a), e, (edgeLine s), (edgeLine e), (map edgeLine (rev a)), l1, l3, (l1 :: map edgeLine (rev a) ++ [l3]).
        assert (C3 : covers (edgeLine e) 0 (hPrE _ _ h) l3).
        { unfold l3. destruct Sh2. apply seg_cov; auto. apply Qle_refl. }
        rewrite Es. split; [exact RE|]. split; [apply edgeLine_drawn|]. split; [apply edgeLine_drawn|].
        split; [apply Forall2_map_r|]. split; [exact C1|]. split; [left; split; [exact C3|reflexivity]|].
        split.
        -- apply (meet_snoc _ s _ e); auto. rewrite <- (pos0 e 0%Q (Qeq_refl _)). exact (covers_first _ _ _ _ C3).
        -- cbn [concat]. rewrite concat_app. cbn [concat]. rewrite app_nil_r. exact SR.
      * exists s, (rev a), e, (edgeLine s), (edgeLine e), (map edgeLine (rev a)), l1, l3, (l1 :: map edgeLine (rev a)).
        rewrite Es. split; [exact RE|]. split; [apply edgeLine_drawn|]. split; [apply edgeLine_drawn|].
        split; [apply Forall2_map_r|]. split; [exact C1|]. split; [right; split; [apply share_zero; auto|reflexivity]|].
        split.
        -- apply (lines_meet _ s); auto. clear - Pa. revert Pa. generalize s. induction (rev a) as [|m r IH]; intros s0 Pa; [exact I|].
           destruct Pa as [A B]. split; [exact A|]. exact (IH _ B).
        -- cbn [concat]. unfold tr, l3 in SR. rewrite app_nil_r in SR. exact SR.
Qed.

Lemma hopGeom_ok : forall h, hop_ok fromPt toPt h -> forward h ->
  exists part cs, hopGeom h = Some (part, cs) /\ part_ok geom isRev fromPt toPt pos h part.
Proof.
  intros h HO Fw. unfold Shapes_model.hopGeom, part_ok, start_pos, end_pos, routed.
  destruct (hStart _ _ h) as [s|] eqn:Hs; destruct (hEnd _ _ h) as [e|] eqn:He.
  - destruct (hopLine_ok h s e Hs He HO Fw) as (part & cs & H & F & L & A & B).
    exists part, cs. split; [exact H|]. do 2 eexists. split; [intros l Dl; rewrite (drawn_det _ _ Dl); reflexivity|].
    split; [intros l Dl; rewrite (drawn_det _ _ Dl); reflexivity|]. split; [exact F|]. split; [exact L|]. split.
    + intros (_ & _ & X). exact (A X).
    + intros X. apply B. destruct (hEdges _ _ h); [reflexivity|]. exfalso. apply X. repeat split; discriminate.
  - destruct HO as (Sh & _ & _). rewrite (start_share' s _ (Sh ltac:(congruence))).
    do 2 eexists. split; [reflexivity|]. do 2 eexists. split; [intros l Dl; rewrite (drawn_det _ _ Dl); reflexivity|].
    split; [reflexivity|]. split; [eexists; reflexivity|]. split; [eexists [_]; reflexivity|]. split; [intros (_ & X & _); congruence|reflexivity].
  - destruct HO as (_ & Sh & _). rewrite (end_share e _ (Sh ltac:(congruence))).
    do 2 eexists. split; [reflexivity|]. do 2 eexists. split; [reflexivity|]. split; [intros l Dl; rewrite (drawn_det _ _ Dl); reflexivity|].
    split; [eexists; reflexivity|]. split; [eexists [_]; reflexivity|]. split; [intros (X & _); congruence|reflexivity].
  - do 2 eexists. split; [reflexivity|]. do 2 eexists. split; [reflexivity|]. split; [reflexivity|].
    split; [eexists; reflexivity|]. split; [eexists [_]; reflexivity|]. split; [intros (X & _); congruence|reflexivity].
Qed.

Lemma mapM_hops : forall hs, Forall (hop_ok fromPt toPt) hs -> Forall forward hs ->
  exists r, mapM hopGeom hs = Some r /\ Forall2 (part_ok geom isRev fromPt toPt pos) hs (map fst r).
Proof.
  induction hs as [|h hs IH]; intros A B; [exists []; split; [reflexivity|constructor]|].
  inversion A; inversion B; subst. destruct IH as (r & R & F); auto.
  destruct (hopGeom_ok h) as (part & cs & H & PO); auto.
  exists ((part, cs) :: r). cbn [mapM]. rewrite H, R. split; [reflexivity|]. cbn. constructor; auto.
Qed.

(** Lines of chained hops meet. *)
Fixpoint chainedF (hs : list hop) : Prop :=
  match hs with
  | h1 :: ((h2 :: _) as t) => (exists x : cand C E Pt, ends_at h1 x /\ starts_at h2 x) /\ chainedF t
  | _ => True
  end.
Lemma chainedF_snoc : forall hs h2, chainedF hs ->
  (forall h1, last_is hs h1 -> exists x : cand C E Pt, ends_at h1 x /\ starts_at h2 x) -> chainedF (hs ++ [h2]).
Proof.
  induction hs as [|h hs IH]; intros h2 A B; [exact I|]. cbn [app].
  destruct hs as [|k hs].
  - cbn. split; [|exact I]. apply B. exists []. reflexivity.
  - destruct A as [A1 A2]. split; [exact A1|]. apply (IH h2 A2). intros h1 (t & L). apply B. exists (h :: t). rewrite L. reflexivity.
Qed.
Lemma chained_rev : forall hs, chained (C:=C) hs -> chainedF (rev hs).
Proof.
  induction hs as [|h hs IH]; intros A; [exact I|]. cbn [rev]. apply chainedF_snoc.
  - apply IH. destruct hs; [exact I|]. exact (proj2 A).
  - intros h1 L. destruct hs as [|k hs]; [destruct (last_is_nil _ _ L)|].
    assert (h1 = k). { apply (last_is_det _ (rev (k :: hs))); [exact L|]. exists (rev hs). reflexivity. }
    subst h1. exact (proj1 A).
Qed.
Lemma meet_positions : forall (h1 h2 : hop) (x : cand C E Pt) b a,
  ends_at h1 x -> starts_at h2 x -> end_pos geom isRev fromPt toPt pos h1 b -> start_pos geom isRev fromPt toPt pos h2 a -> a = b.
Proof.
  intros h1 h2 x b a (E1 & E2 & E3) (S1 & S2 & S3) B A. unfold end_pos in B. unfold start_pos in A.
  rewrite E1 in B. rewrite S1 in A. destruct (cE _ _ _ x) as [e|] eqn:X.
  - rewrite (A _ (edgeLine_drawn e)), (B _ (edgeLine_drawn e)). rewrite (E2 ltac:(discriminate)), (S2 ltac:(discriminate)). reflexivity.
  - rewrite A, B, (E3 eq_refl), (S3 eq_refl). reflexivity.
Qed.
Lemma parts_meet : forall hs parts, chainedF hs -> Forall2 (part_ok geom isRev fromPt toPt pos) hs parts -> meet parts.
Proof.
  intros hs parts CH F. induction F as [|h p hs parts A F IH]; [exact I|].
  destruct F as [|h' p' hs parts A' F]; [exact I|]. destruct CH as [(x & X1 & X2) CH].
  split; [|exact (IH CH)].
  destruct A as (a & b & _ & Eb & _ & L & _), A' as (a' & b' & Sa & _ & Fi & _).
  exists b. split; [exact L|]. rewrite <- (meet_positions h h' x b a' X1 X2 Eb Sa). exact Fi.
Qed.
End Geo.

(** * Measures *)
Section Measure.
Hypothesis RO : rounding rndF rndD.
Hypothesis hav_pos : forall p q, (0 <= hav p q)%Q.
Notation measureLoop := (measureLoop Pt hav rndF rndD).

(** What the measures of a list of points are. *)
Inductive marks : list Pt -> list Q -> Prop :=   (* both last first *)
| mk_one : forall p, marks [p] [0%Q]
| mk_more : forall p q m ps ms, marks (p :: ps) (m :: ms) -> marks (q :: p :: ps) (rndF (rndD (m + hav p q)) :: m :: ms).
Lemma measureLoop_marks : forall pts l ps ms, marks (l :: ps) ms -> marks (rev pts ++ l :: ps) (measureLoop pts l ms).
Proof.
  induction pts as [|p pts IH]; intros l ps ms M; [exact M|]. cbn [Shapes_model.measureLoop rev].
  rewrite <- app_assoc. cbn [app]. apply IH. destruct ms as [|m ms]; [inversion M|]. constructor. exact M.
Qed.
Lemma marks_len : forall ps ms, marks ps ms -> length ps = length ms.
Proof. induction 1; cbn in *; lia. Qed.
Lemma marks_first : forall ps ms, marks ps ms -> exists t, ms = t ++ [0%Q].
Proof. induction 1; [exists []; reflexivity|]. destruct IHmarks as (t & ->). eexists (_ :: t). reflexivity. Qed.

Lemma marks_float : forall ps ms m, marks ps (m :: ms) -> (rndF (rndD m) == m)%Q.
Proof.
  intros ps ms m M. inversion M; subst; [exact (ro_zero _ _ RO)|]. apply (ro_float _ _ RO).
Qed.
Lemma marks_step : forall ps ms m d, marks ps (m :: ms) -> (0 <= d)%Q -> (m <= rndF (rndD (m + d)))%Q.
Proof.
  intros ps ms m d M D. rewrite <- (marks_float _ _ _ M) at 1.
  apply (ro_monoF _ _ RO), (ro_monoD _ _ RO). rewrite <- (Qplus_0_r m) at 1. apply Qplus_le_compat; [apply Qle_refl|exact D].
Qed.

Definition stepwise (l : list Q) := forall i a b, nth_error l i = Some a -> nth_error l (S i) = Some b -> (a <= b)%Q.
Lemma stepwise_mono : forall l, stepwise l -> forall i j a b, i <= j -> nth_error l i = Some a -> nth_error l j = Some b -> (a <= b)%Q.
Proof.
  intros l S i j a b L. revert a b. induction L as [|j L IH]; intros a b A B; [assert (a = b) by congruence; subst; apply Qle_refl|].
  destruct (nth_error l j) as [x|] eqn:X.
  - apply (Qle_trans _ x); [apply IH; auto|exact (S _ _ _ X B)].
  - exfalso. apply nth_error_None in X. assert (nth_error l (Datatypes.S j) <> None) by congruence. apply nth_error_Some in H. lia.
Qed.

Lemma marks_next : forall ps ms, marks ps ms -> forall i p m p' m',
  nth_error (rev ps) i = Some p -> nth_error (rev ms) i = Some m ->
  nth_error (rev ps) (S i) = Some p' -> nth_error (rev ms) (S i) = Some m' -> m' = rndF (rndD (m + hav p p')).
Proof.
  induction 1 as [p0|p0 q m0 ps ms M IH]; intros i p m p' m' A B A' B'.
  - cbn in A'. destruct i; discriminate.
  - pose proof (marks_len _ _ M) as Ln.
    destruct (Nat.eq_dec (S i) (length (p0 :: ps))) as [Ei|Ei].
    + cbn [rev] in A', B'. 
      rewrite nth_error_app2 in A' by (change (rev ps ++ [p0]) with (rev (p0 :: ps)); rewrite rev_length; lia).
      rewrite nth_error_app2 in B' by (change (rev ms ++ [m0]) with (rev (m0 :: ms)); rewrite rev_length; lia).
      change (rev ps ++ [p0]) with (rev (p0 :: ps)) in A'. change (rev ms ++ [m0]) with (rev (m0 :: ms)) in B'.
      rewrite rev_length in A', B'. replace (S i - length (p0 :: ps)) with 0 in A' by lia. replace (S i - length (m0 :: ms)) with 0 in B' by lia.
      cbn in A', B'. injection A' as <-. injection B' as <-.
      change (rev (q :: p0 :: ps)) with (rev (p0 :: ps) ++ [q]) in A.
      change (rev (?x :: m0 :: ms)) with (rev (m0 :: ms) ++ [x]) in B.
      rewrite nth_error_app1 in A by (rewrite rev_length; lia). rewrite nth_error_app1 in B by (rewrite rev_length; lia).
      cbn [rev] in A, B. rewrite nth_error_app2 in A by (rewrite rev_length; cbn in Ei; lia).
      rewrite nth_error_app2 in B by (rewrite rev_length; cbn in Ei, Ln; lia). rewrite rev_length in A, B.
      replace (i - length ps) with 0 in A by (cbn in Ei; lia). replace (i - length ms) with 0 in B by (cbn in Ei, Ln; lia).
      cbn in A, B. injection A as <-. injection B as <-. reflexivity.
    + assert (Lt : S i < length (p0 :: ps)).
      { assert (S i < length (rev (q :: p0 :: ps))) by (apply nth_error_Some; congruence). rewrite rev_length in H. cbn in *. lia. }
      change (rev (q :: p0 :: ps)) with (rev (p0 :: ps) ++ [q]) in A, A'.
      change (rev (?x :: m0 :: ms)) with (rev (m0 :: ms) ++ [x]) in B, B'.
      rewrite nth_error_app1 in A by (rewrite rev_length; lia). rewrite nth_error_app1 in A' by (rewrite rev_length; lia).
      rewrite nth_error_app1 in B by (rewrite rev_length; lia). rewrite nth_error_app1 in B' by (rewrite rev_length; lia).
      exact (IH _ _ _ _ _ A B A' B').
Qed.
Lemma marks_stepwise : forall ps ms, marks ps ms -> stepwise (rev ms).
Proof.
  intros ps ms M. induction M as [p0|p0 q m0 ps ms M IH]; intros i a b A B.
  - destruct i; discriminate.
  - change (rev (?x :: m0 :: ms)) with (rev (m0 :: ms) ++ [x]) in A, B.
    destruct (Nat.lt_ge_cases (S i) (length (m0 :: ms))) as [Lt|Ge].
    + rewrite nth_error_app1 in A by (rewrite rev_length; lia). rewrite nth_error_app1 in B by (rewrite rev_length; lia). exact (IH _ _ _ A B).
    + rewrite nth_error_app2 in B by (rewrite rev_length; lia). rewrite rev_length in B.
      destruct (S i - length (m0 :: ms)) as [|k] eqn:K; [|destruct k; discriminate]. cbn in B. injection B as <-.
      rewrite nth_error_app1 in A by (rewrite rev_length; lia). cbn [rev] in A.
      rewrite nth_error_app2 in A by (rewrite rev_length; cbn in *; lia). rewrite rev_length in A.
      replace (i - length ms) with 0 in A by (cbn in *; lia). cbn in A. injection A as <-.
      apply (marks_step _ _ _ _ M). apply hav_pos.
Qed.

(** The numbering loop. *)
Lemma pointLoop_ok : forall l ms k r, pointLoop Pt l ms k = Some r ->
  map (fun p => fst (fst p)) r = l /\ map snd r = List.seq k (length l) /\
  forall i x, nth_error r i = Some x -> nth_error ms (k + i) = Some (snd (fst x)).
Proof.
  induction l as [|p l IH]; intros ms k r H; cbn in H.
  - injection H as <-. repeat split. intros [|i] x X; discriminate.
  - destruct (nth_error ms k) as [m|] eqn:Em; [|discriminate]. destruct (pointLoop Pt l ms (S k)) as [r'|] eqn:Er; [|discriminate].
    injection H as <-. destruct (IH _ _ _ Er) as (A & B & D). cbn. rewrite A, B. split; [reflexivity|]. split; [reflexivity|].
    intros [|i] x X; cbn in X; [injection X as <-; rewrite Nat.add_0_r; exact Em|]. rewrite Nat.add_succ_r. exact (D _ _ X).
Qed.
Lemma lineLoop_ok : forall gl ms k ps ds, lineLoop Pt gl ms k = Some (ps, ds) ->
  map (fun p => fst (fst p)) ps = concat gl /\ map snd ps = List.seq k (length (concat gl)) /\
  (forall i x, nth_error ps i = Some x -> nth_error ms (k + i) = Some (snd (fst x))) /\
  length ds = length gl /\
  (forall i, i < length gl -> exists d, nth_error ds i = Some d /\ 1 <= k + length (concat (firstn (S i) gl)) /\
     nth_error ms (k + length (concat (firstn (S i) gl)) - 1) = Some d).
Proof.
  induction gl as [|l gl IH]; intros ms k ps ds H; cbn [lineLoop] in H.
  - injection H as <- <-. repeat split; [intros [|i] x X; discriminate|]. intros i L. cbn in L. lia.
  - destruct (pointLoop Pt l ms k) as [ps1|] eqn:E1; [|discriminate].
    destruct (pointLoop_ok _ _ _ _ E1) as (A & B & D).
    destruct (k + length l) as [|n] eqn:En; [discriminate|]. destruct (nth_error ms n) as [d|] eqn:Ed; [|discriminate].
    destruct (lineLoop Pt gl ms (S n)) as [[ps2 ds2]|] eqn:E2; [|discriminate]. injection H as <- <-.
    destruct (IH _ _ _ _ E2) as (A2 & B2 & D2 & Ln & M2).
    assert (L1 : length ps1 = length l) by (rewrite <- A, map_length; reflexivity).
    split; [rewrite map_app, A, A2; reflexivity|]. split.
    { rewrite map_app, B, B2, <- En. cbn [concat]. rewrite app_length, seq_app. reflexivity. }
    split.
    { intros i x X. destruct (Nat.lt_ge_cases i (length ps1)) as [Lt|Ge].
      - rewrite nth_error_app1 in X by lia. auto.
      - rewrite nth_error_app2 in X by lia. specialize (D2 _ _ X). rewrite <- D2. f_equal. lia. }
    split; [cbn; lia|]. intros [|i] Li.
    + exists d. cbn [firstn concat]. rewrite app_nil_r, En. split; [reflexivity|]. split; [lia|]. rewrite <- Ed. f_equal. lia.
    + cbn [length] in Li. destruct (M2 i ltac:(lia)) as (d' & X & Y & Z). exists d'. split; [exact X|].
      change (firstn (S (S i)) (l :: gl)) with (l :: firstn (S i) gl). cbn [concat]. rewrite app_length.
      split; [lia|]. rewrite <- Z. f_equal. lia.
Qed.

(** ... and it stays in range. *)
Lemma pointLoop_some : forall l ms k, k + length l <= length ms -> exists r, pointLoop Pt l ms k = Some r.
Proof.
  induction l as [|p l IH]; intros ms k L; [eexists; reflexivity|]. cbn in *.
  destruct (nth_error ms k) as [m|] eqn:Em; [|apply nth_error_None in Em; lia].
  destruct (IH ms (S k)) as (r & ->); [lia|]. eexists. reflexivity.
Qed.
Lemma lineLoop_some : forall gl ms k, (k = 0 -> match gl with [] :: _ => False | _ => True end) -> k + length (concat gl) <= length ms ->
  exists ps ds, lineLoop Pt gl ms k = Some (ps, ds).
Proof.
  induction gl as [|l gl IH]; intros ms k K L; [do 2 eexists; reflexivity|]. cbn [lineLoop concat] in *. rewrite app_length in L.
  destruct (pointLoop_some l ms k) as (r & ->); [lia|].
  destruct (k + length l) as [|n] eqn:En.
  - exfalso. assert (k = 0) by lia. specialize (K H). destruct l; [exact K|cbn in En; lia].
  - destruct (nth_error ms n) as [d|] eqn:Ed; [|apply nth_error_None in Ed; lia].
    destruct (IH ms (S n)) as (ps & ds & ->); [discriminate|lia|]. do 2 eexists. reflexivity.
Qed.

Lemma getMeasure_ok : forall gl ms, getMeasure Pt hav rndF rndD gl = Some ms -> marks (rev (concat gl)) (rev ms).
Proof.
  intros gl ms H. unfold getMeasure in H. destruct gl as [|[|p l] gl]; try discriminate.
  assert (X : rev (measureLoop (concat ((p :: l) :: gl)) p []) = ms) by congruence. clear H. subst ms.
  rewrite rev_involutive. cbn [concat app rev Shapes_model.measureLoop].
  exact (measureLoop_marks (l ++ concat gl) p [] [0%Q] (mk_one p)).
Qed.

Lemma firstn_S_nth : forall (A : Type) (i j : nat) (l : list (list A)), i <= j -> length (concat (firstn i l)) <= length (concat (firstn j l)).
Proof.
  induction i as [|i IH]; intros j l L; [cbn; lia|]. destruct j as [|j]; [lia|]. destruct l as [|x l]; [cbn; lia|].
  cbn. rewrite !app_length. specialize (IH j l). lia.
Qed.

Lemma loop_measured : forall gl ms ps ds, getMeasure Pt hav rndF rndD gl = Some ms -> lineLoop Pt gl ms 0 = Some (ps, ds) ->
  measured hav rndF rndD gl ps (0%Q :: ds).
Proof.
  intros gl ms ps ds HM HL. pose proof (getMeasure_ok _ _ HM) as MK. pose proof (marks_len _ _ MK) as Ln. rewrite !rev_length in Ln.
  destruct (lineLoop_ok _ _ _ _ _ HL) as (A & B & D & Ld & M). cbn [plus] in D.
  assert (Lp : length ps = length (concat gl)) by (rewrite <- A, map_length; reflexivity).
  pose proof (marks_stepwise _ _ MK) as ST. rewrite rev_involutive in ST.
  assert (M0 : nth_error ms 0 = Some 0%Q).
  { destruct (marks_first _ _ MK) as (t & T). rewrite <- (rev_involutive ms), T, rev_app_distr. reflexivity. }
  assert (Pt_ : forall i p m n, nth_error ps i = Some (p, m, n) -> nth_error (concat gl) i = Some p /\ nth_error ms i = Some m).
  { intros i p m n X. split; [|exact (D _ _ X)]. rewrite <- A, nth_error_map, X. reflexivity. }
  assert (DM : forall i d, nth_error ds i = Some d -> exists k, k = length (concat (firstn (S i) gl)) - 1 /\ nth_error ms k = Some d).
  { intros i d X. assert (Li : i < length gl) by (rewrite <- Ld; apply nth_error_Some; congruence).
    destruct (M i Li) as (d' & X' & _ & Z). eexists. split; [reflexivity|]. assert (d = d') by congruence. subst d'. exact Z. }
  constructor.
  - exact A.
  - rewrite B, Lp. reflexivity.
  - destruct gl as [|[|p l] gl]; try discriminate HM. destruct ps as [|[[p' m] n] ps]; [discriminate A|].
    specialize (D 0 _ eq_refl). rewrite M0 in D. cbn in D. cbn in B. injection B as -> _. exists p', ps. injection D as <-. reflexivity.
  - intros i p m n p' m' n' X Y. destruct (Pt_ _ _ _ _ X) as [X1 X2], (Pt_ _ _ _ _ Y) as [Y1 Y2].
    apply (marks_next _ _ MK i); rewrite rev_involutive; assumption.
  - intros i j p m n p' m' n' L X Y. destruct (Pt_ _ _ _ _ X) as [X1 X2], (Pt_ _ _ _ _ Y) as [Y1 Y2].
    exact (stepwise_mono _ ST _ _ _ _ L X2 Y2).
  - cbn. lia.
  - reflexivity.
  - intros i Li. destruct (M i Li) as (d & X & L1 & Z). cbn [plus] in L1, Z.
    assert (Lk : length (concat (firstn (S i) gl)) <= length (concat gl)).
    { rewrite <- (firstn_skipn (S i) gl) at 2. rewrite concat_app, app_length. lia. }
    destruct (nth_error ps (length (concat (firstn (S i) gl)) - 1)) as [[[p m] n]|] eqn:Ep; [|apply nth_error_None in Ep; lia].
    exists p, m, n. split; [reflexivity|]. destruct (Pt_ _ _ _ _ Ep) as [_ Em]. cbn. congruence.
  - intros i j d d' L X Y. destruct i as [|i].
    + cbn in X. injection X as <-. destruct j as [|j]; [cbn in Y; injection Y as <-; apply Qle_refl|].
      destruct (DM _ _ Y) as (k & -> & K). exact (stepwise_mono _ ST _ _ _ _ (Nat.le_0_l _) M0 K).
    + destruct j as [|j]; [lia|]. destruct (DM _ _ X) as (k & -> & K), (DM _ _ Y) as (k' & -> & K').
      pose proof (firstn_S_nth _ (S i) (S j) gl L) as FL.
      apply (stepwise_mono _ ST (length (concat (firstn (S i) gl)) - 1) (length (concat (firstn (S j) gl)) - 1)); auto. lia.
Qed.

Lemma mapM_len : forall A B (f : A -> option B) l r, mapM f l = Some r -> length r = length l.
Proof.
  induction l as [|x l IH]; intros r H; cbn in H; [injection H as <-; reflexivity|].
  destruct (f x); [|discriminate]. destruct (mapM f l) eqn:E1; [|discriminate]. injection H as <-. cbn. f_equal. auto.
Qed.

Notation getGtfsShape := (getGtfsShape E Pt eqE geom isRev fromPt toPt len segment simplify hav rndF rndD colorsOf).
Lemma shape_measured : forall noc hops ps ds c, getGtfsShape noc hops = Some (ps, ds, c) ->
  exists parts, length parts = length hops /\ measured hav rndF rndD parts ps ds.
Proof.
  intros noc hops ps ds c H. unfold Shapes_model.getGtfsShape, getGeom in H.
  destruct (mapM hopGeom (rev hops)) as [r|] eqn:Er; [|discriminate].
  destruct (getMeasure Pt hav rndF rndD (map fst r)) as [ms|] eqn:Em; [|discriminate].
  destruct (lineLoop Pt (map fst r) ms 0) as [[ps' ds']|] eqn:El; [|discriminate]. injection H as -> <- _.
  exists (map fst r). split; [rewrite map_length, (mapM_len _ _ _ _ _ Er), rev_length; reflexivity|].
  exact (loop_measured _ _ _ _ Em El).
Qed.

Lemma shape_ok : (forall a b, eqE a b = true <-> a = b) -> geometries_ok geom isRev fromPt toPt -> geometry segment simplify pos ->
  forall noc hops, hops <> [] -> chained (C:=C) hops -> Forall (hop_ok fromPt toPt) hops -> Forall forward hops ->
  exists parts ps ds c, getGtfsShape noc hops = Some (ps, ds, c) /\ measured hav rndF rndD parts ps ds /\
    Forall2 (part_ok geom isRev fromPt toPt pos) (rev hops) parts /\ meet parts.
Proof.
  intros EQ GO GE noc hops NE CH HO FW. apply Forall_rev in HO. apply Forall_rev in FW.
  destruct (mapM_hops EQ GO GE (rev hops) HO FW) as (r & Er & F).
  unfold Shapes_model.getGtfsShape, getGeom. rewrite Er.
  assert (FirstNe : exists p l t, map fst r = (p :: l) :: t).
  { destruct (rev hops) as [|h hs] eqn:Eh; [apply (f_equal (@rev _)) in Eh; rewrite rev_involutive in Eh; contradiction|].
    inversion F as [|? part ? ? PO]; subst. destruct PO as (a & b & _ & _ & (t & ->) & _). do 3 eexists. reflexivity. }
  destruct FirstNe as (p & l & t & Ef). 
  destruct (getMeasure Pt hav rndF rndD (map fst r)) as [ms|] eqn:Em; [|rewrite Ef in Em; discriminate].
  destruct (lineLoop_some (map fst r) ms 0) as (ps & ds & El).
  { rewrite Ef. auto. }
  { pose proof (marks_len _ _ (getMeasure_ok _ _ Em)) as Ln. rewrite !rev_length in Ln. cbn. lia. }
  rewrite El. exists (map fst r), ps, (0%Q :: ds). eexists. split; [reflexivity|]. split; [exact (loop_measured _ _ _ _ Em El)|].
  split; [exact F|]. exact (parts_meet _ _ (chained_rev _ CH) F).
Qed.
(** Without [forward]: a shape is still drawn, with a part for each hop. *)
Lemma hopGeom_some : (forall a b, eqE a b = true <-> a = b) -> geometries_ok geom isRev fromPt toPt -> geometry segment simplify pos ->
  (forall l a b, l <> [] -> is_share a -> is_share b -> segment l a b <> []) ->
  forall h, hop_ok fromPt toPt h -> exists part cs, hopGeom h = Some (part, cs) /\ part <> [] /\
    (forward h -> part_ok geom isRev fromPt toPt pos h part).
Proof.
  intros EQ GO GE SN h HO.
  assert (K : forward h -> exists part cs, hopGeom h = Some (part, cs) /\ part <> [] /\ (forward h -> part_ok geom isRev fromPt toPt pos h part)).
  { intros Fw. destruct (hopGeom_ok EQ GO GE h HO Fw) as (part & cs & G & PO). exists part, cs. split; [exact G|]. split; [|auto].
    destruct PO as (a & b & _ & _ & (t & ->) & _). discriminate. }
  destruct (Qlt_le_dec (hPrE _ _ h) (hPrS _ _ h)) as [L|L]; [|apply K; intros s _ _ _; exact L].
  destruct (hStart _ _ h) as [s|] eqn:Hs; [|apply K; intros x X; congruence].
  destruct (hEnd _ _ h) as [e|] eqn:He; [|apply K; intros x _ X; congruence].
  destruct (hEdges _ _ h) as [|e0 [|e1 es]] eqn:Es; [apply K; intros x _ _ X; congruence| |apply K; intros x _ _ X; congruence].
  pose proof HO as (Sh1 & Sh2 & Pa). specialize (Sh1 ltac:(congruence)). specialize (Sh2 ltac:(congruence)). specialize (Pa _ _ Hs He).
  rewrite Es in Pa. destruct Pa as [Pa|(Pa & Ps & Pe)]; [discriminate|]. cbn [rev app] in Ps, Pe.
  destruct Ps as (t & Ps). injection Ps as P1 _. subst e0.
  assert (e = s) as -> by (destruct Pe as ([|x t'] & Pe); cbn in Pe; [congruence|destruct t'; discriminate]).
  unfold Shapes_model.hopGeom, Shapes_model.hopLine. rewrite Hs, He, Es. cbn [length Nat.eqb andb]. rewrite (proj2 (EQ s s) eq_refl).
  do 2 eexists. split; [reflexivity|]. split; [apply SN; [exact (line_ne GO s)|assumption|assumption]|].
  intros Fw. exfalso. exact (Qlt_not_le _ _ L (Fw s Hs He Es)).
Qed.
Lemma shape_some : (forall a b, eqE a b = true <-> a = b) -> geometries_ok geom isRev fromPt toPt -> geometry segment simplify pos ->
  (forall l a b, l <> [] -> is_share a -> is_share b -> segment l a b <> []) ->
  forall noc hops, hops <> [] -> chained (C:=C) hops -> Forall (hop_ok fromPt toPt) hops ->
  exists parts ps ds c, getGtfsShape noc hops = Some (ps, ds, c) /\ measured hav rndF rndD parts ps ds /\ length parts = length hops /\
    (Forall forward hops -> Forall2 (part_ok geom isRev fromPt toPt pos) (rev hops) parts /\ meet parts).
Proof.
  intros EQ GO GE SN noc hops NE CH HO.
  assert (M : forall hs, Forall (hop_ok fromPt toPt) hs -> exists r, mapM hopGeom hs = Some r /\
    Forall2 (fun h p => p <> [] /\ (forward h -> part_ok geom isRev fromPt toPt pos h p)) hs (map fst r)).
  { induction hs as [|h hs IH]; intros A; [exists []; split; [reflexivity|constructor]|]. inversion A; subst.
    destruct IH as (r & R & F); auto. destruct (hopGeom_some EQ GO GE SN h) as (part & cs & G & N & PO); auto.
    exists ((part, cs) :: r). cbn [mapM]. rewrite G, R. split; [reflexivity|]. cbn. constructor; auto. }
  destruct (M (rev hops) (Forall_rev HO)) as (r & Er & F). unfold Shapes_model.getGtfsShape, getGeom. rewrite Er.
  assert (FirstNe : exists p l t, map fst r = (p :: l) :: t).
  { destruct (rev hops) as [|h hs] eqn:Eh; [apply (f_equal (@rev _)) in Eh; rewrite rev_involutive in Eh; contradiction|].
    inversion F as [|? part ? ? (N & _)]; subst. destruct part as [|p l]; [contradiction|]. do 3 eexists. reflexivity. }
  destruct FirstNe as (p & l & t & Ef).
  destruct (getMeasure Pt hav rndF rndD (map fst r)) as [ms|] eqn:Em; [|rewrite Ef in Em; discriminate].
  destruct (lineLoop_some (map fst r) ms 0) as (ps & ds & El).
  { rewrite Ef. auto. }
  { pose proof (marks_len _ _ (getMeasure_ok _ _ Em)) as Ln. rewrite !rev_length in Ln. cbn. lia. }
  rewrite El. exists (map fst r), ps, (0%Q :: ds). eexists. split; [reflexivity|]. split; [exact (loop_measured _ _ _ _ Em El)|].
  split; [rewrite map_length, (mapM_len _ _ _ _ _ Er), rev_length; reflexivity|]. intros FW. apply Forall_rev in FW.
  assert (F2 : Forall2 (part_ok geom isRev fromPt toPt pos) (rev hops) (map fst r)).
  { clear - F FW. revert FW. generalize dependent (map fst r). induction (rev hops) as [|h hs IH]; intros ps F FW; inversion F; subst; constructor;
      inversion FW; subst; [apply H1; assumption|apply IH; assumption]. }
  split; [exact F2|]. exact (parts_meet _ _ (chained_rev _ CH) F2).
Qed.
End Measure.
End P.

(** * From the router to the shape *)
Section Routed.
Context {pos_ attrs C E P : Type}.
Variable p0 : P.
Variable startCost : nat -> E -> Z.
Variable spath : nat -> E -> E -> Z -> Z * list E.
Variable tnds : list (TripTrie_model.node pos_ attrs).
Variable ecm : list (list (cand C E P)).
Variable fromPt toPt : E -> P.
Hypothesis shares : forall n i x e, cand_at ecm n i x -> cE _ _ _ x = Some e -> is_share (cProgr _ _ _ x).
Hypothesis paths : forall n a b lim, (fst (spath n a b lim) < lim)%Z ->
  snd (spath n a b lim) = [] \/
  (path fromPt toPt (rev (snd (spath n a b lim))) /\ first_is (rev (snd (spath n a b lim))) a /\ last_is (rev (snd (spath n a b lim))) b).

Lemma is_hop_ok : forall log p n f i x y h, cand_at ecm p f x -> cand_at ecm n i y ->
  is_hop startCost spath ecm log p n x y h -> hop_ok fromPt toPt h.
Proof.
  intros log p n f i x y h X Y (lim & cs & b & _ & _ & _ & H).
  destruct (cE _ _ _ x) as [ef|] eqn:Ex; destruct (cE _ _ _ y) as [et|] eqn:Ey.
  - destruct H as (H1 & H2 & H3 & H4 & H5). split; [rewrite H3; intros _; eauto|]. split; [rewrite H4; intros _; eauto|].
    intros s e Hs He. rewrite H1 in Hs. rewrite H2 in He. injection Hs as <-. injection He as <-. rewrite H5.
    destruct (fst (spath n ef et b) <? b)%Z eqn:L; [|left; reflexivity]. apply Z.ltb_lt in L. exact (paths _ _ _ _ L).
  - destruct H as (H0 & H1 & H2 & H3 & _). split; [rewrite H3; intros _; eauto|]. split; [congruence|]. intros s e _ He. congruence.
  - destruct H as (H0 & H1 & H2 & H3 & _). split; [congruence|]. split; [rewrite H3; intros _; eauto|]. intros s e Hs He. congruence.
  - destruct H as (H0 & H1 & H2 & _). split; [congruence|]. split; [congruence|]. intros s e Hs He. congruence.
Qed.
Lemma yields_hop_ok : forall log n is hs, yields startCost spath tnds ecm log n is hs -> Forall (hop_ok fromPt toPt) hs.
Proof.
  intros log n is hs Y. induction Y as [n i F|n p i f is hs Pa St Y IH|n p i f is hs x y h Pa St Y IH X1 X2 H]; [constructor|exact IH|].
  constructor; [|exact IH]. exact (is_hop_ok _ _ _ _ _ _ _ _ X1 X2 H).
Qed.
End Routed.
