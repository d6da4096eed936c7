(** Proofs about the passes over the OSM graph. *)
From Coq Require Import List Arith NArith QArith Bool Permutation Lia.
From Verif Require Import ListAux OsmGraph_model OsmGraph_spec.
Import ListNotations.
Open Scope nat_scope.

(** ** Lists *)
Lemma filter_split : forall (A : Type) (f : A -> bool) l, Permutation l (filter f l ++ filter (fun x => negb (f x)) l).
Proof.
  induction l as [|x l IH]; cbn; [constructor|]. destruct (f x); cbn.
  - now constructor.
  - rewrite IH at 1. apply Permutation_middle.
Qed.
Lemma filter_filter : forall (A : Type) (f h : A -> bool) l, filter f (filter h l) = filter (fun x => h x && f x) l.
Proof. induction l as [|x l IH]; cbn; [reflexivity|]. destruct (h x) eqn:E; cbn; [destruct (f x); now rewrite IH|auto]. Qed.
Lemma filter_ext' : forall (A : Type) (f h : A -> bool) l, (forall x, In x l -> f x = h x) -> filter f l = filter h l.
Proof.
  induction l as [|x l IH]; cbn; intros H; [reflexivity|]. rewrite (H x (or_introl eq_refl)), IH; [reflexivity|]. intros y I. apply H. now right.
Qed.
Lemma NoDup_map_in : forall (A B : Type) (f : A -> B) l x y, NoDup (map f l) -> In x l -> In y l -> f x = f y -> x = y.
Proof.
  induction l as [|a l IH]; cbn; intros x y Nd Ix Iy E; [easy|]. inversion Nd; subst. destruct Ix as [->|Ix], Iy as [->|Iy]; auto.
  - exfalso. apply H1. rewrite E. now apply in_map.
  - exfalso. apply H1. rewrite <- E. now apply in_map.
Qed.
Lemma NoDup_map_filter : forall (A B : Type) (f : A -> B) h l, NoDup (map f l) -> NoDup (map f (filter h l)).
Proof.
  induction l as [|a l IH]; cbn; intros Nd; [constructor|]. inversion Nd; subst. destruct (h a); cbn; [|auto]. constructor; [|auto].
  intros I. apply H1. apply in_map_iff in I. destruct I as (x & <- & I). apply filter_In in I. apply in_map. tauto.
Qed.
Lemma NoDup_of_map : forall (A B : Type) (f : A -> B) l, NoDup (map f l) -> NoDup l.
Proof. induction l as [|a l IH]; cbn; intros Nd; [constructor|]. inversion Nd; subst. constructor; [|auto]. intros I. apply H1. now apply in_map. Qed.
Lemma NoDup_snoc : forall (A : Type) (l : list A) x, NoDup l -> ~ In x l -> NoDup (l ++ [x]).
Proof. intros A l x Nd N0. apply (Permutation_NoDup (l := x :: l)); [apply Permutation_cons_append|]. now constructor. Qed.
(** One element of a list without duplicates moved to the front. *)
Lemma pull : forall (A : Type) (f : A -> bool) l x, NoDup l -> In x l -> (forall y, In y l -> (f y = true <-> y = x)) ->
  Permutation l (x :: filter (fun y => negb (f y)) l).
Proof.
  intros A f l x Nd I H. rewrite (filter_split A f l) at 1. assert (E : filter f l = [x]); [|rewrite E; reflexivity].
  clear - Nd I H. induction l as [|a l IH]; [easy|]. inversion Nd; subst. cbn. destruct I as [->|I].
  - rewrite (proj2 (H x (or_introl eq_refl)) eq_refl). f_equal. assert (N0 : forall y, In y l -> f y = false).
    { intros y Iy. destruct (f y) eqn:E; [|reflexivity]. apply H in E; [|now right]. subst. contradiction. }
    clear - N0. induction l as [|b l IH]; cbn; [reflexivity|]. rewrite (N0 b (or_introl eq_refl)). apply IH. intros y Iy. apply N0. now right.
  - destruct (f a) eqn:E.
    + apply H in E; [|now left]. subst. contradiction.
    + apply IH; auto. intros y Iy. apply H. now right.
Qed.

Section Proofs.
Context {P : Type}.
Variable pos : nat -> P.
Variable station turn : nat -> bool.
Notation edge := (edge P). Notation graph := (graph P).
Notation hop := (edge * bool)%type.
Notation stands_for := (stands_for pos station turn).
Notation runs := (runs pos).
Notation shape := (shape pos).
Notation line := (line pos).

Lemma isEdg_iff : forall a b (e : edge), isEdg _ a b e = true <-> from e = a /\ to e = b.
Proof. clear pos station turn. intros. unfold isEdg. rewrite andb_true_iff, !Nat.eqb_eq. tauto. Qed.
Lemma hasEdg_iff : forall (g : graph) a b, hasEdg _ g a b = true <-> exists e, In e (edges g) /\ from e = a /\ to e = b.
Proof.
  clear pos station turn. intros. unfold hasEdg, getEdg. destruct (find (isEdg P a b) (edges g)) as [e|] eqn:F.
  - apply find_some in F. rewrite isEdg_iff in F. split; [exists e; tauto|auto].
  - split; [discriminate|]. intros (e & I & E). apply isEdg_iff in E. rewrite (find_none _ _ F e I) in E. discriminate.
Qed.
Lemma hasEdg_false : forall (g : graph) a b, hasEdg _ g a b = false <-> forall e, In e (edges g) -> ~ (from e = a /\ to e = b).
Proof.
  clear pos station turn. intros. split.
  - intros H e I E. assert (hasEdg P g a b = true) by (apply hasEdg_iff; eauto). congruence.
  - intros H. destruct (hasEdg P g a b) eqn:E; [|reflexivity]. apply hasEdg_iff in E. destruct E as (e & I & E). exfalso. eapply H; eauto.
Qed.
Lemma addEdg_new : forall (g : graph) a b p, hasEdg _ g a b = false -> addEdg _ g a b p = mkG (nodes g) (edges g ++ [mkE a b p]).
Proof. clear pos station turn. intros g a b p H. unfold addEdg. unfold hasEdg in H. destruct (getEdg P g a b); [discriminate|reflexivity]. Qed.
Lemma adjOut_in : forall (g : graph) n e, In e (adjOut _ g n) <-> In e (edges g) /\ from e = n.
Proof. clear pos station turn. intros. unfold adjOut. rewrite filter_In, Nat.eqb_eq. tauto. Qed.
Lemma adjIn_in : forall (g : graph) n e, In e (adjIn _ g n) <-> In e (edges g) /\ to e = n.
Proof. clear pos station turn. intros. unfold adjIn. rewrite filter_In, Nat.eqb_eq. tauto. Qed.
Lemma simple_eq : forall (g : graph) e e', simple g -> In e (edges g) -> In e' (edges g) -> from e = from e' -> to e = to e' -> e = e'.
Proof. intros g e e' S I I' F T. apply (NoDup_map_in _ _ (fun e => (from e, to e)) (edges g)); auto; cbn; congruence. Qed.

(** ** Chains *)
Definition flip1 (h : hop) : hop := (fst h, negb (snd h)).
Definition flip (c : list hop) : list hop := rev (map flip1 c).
Lemma src_flip : forall h, src (flip1 h) = dst h.
Proof. intros [e []]; reflexivity. Qed.
Lemma dst_flip : forall h, dst (flip1 h) = src h.
Proof. intros [e []]; reflexivity. Qed.
Lemma chain_app : forall c1 c2 u v w, chain (P := P) u c1 v -> chain v c2 w -> chain u (c1 ++ c2) w.
Proof. induction c1 as [|h c1 IH]; cbn; intros c2 u v w H H2; [now subst|]. destruct H as (A & B). exact (conj A (IH _ _ _ _ B H2)). Qed.
Lemma chain_flip : forall c u v, chain u c v -> chain v (flip c) u.
Proof.
  induction c as [|h c IH]; cbn; intros u v H; [auto|]. destruct H as (E & H). unfold flip. cbn. apply (chain_app _ _ _ (dst h)).
  - now apply IH.
  - cbn. rewrite src_flip, dst_flip. auto.
Qed.
Lemma between_app : forall c1 c2 u v, c1 <> [] -> c2 <> [] -> chain (P := P) u c1 v ->
  forall n, In n (between (c1 ++ c2)) <-> In n (between c1) \/ n = v \/ In n (between c2).
Proof.
  induction c1 as [|h c1 IH]; intros c2 u v N1 N2 Ch n; [easy|]. destruct c1 as [|h' c1].
  - destruct c2 as [|h2 c2]; [easy|]. destruct Ch as (_ & <-). cbn. intuition.
  - destruct Ch as (E & Ch). change (between ((h :: h' :: c1) ++ c2)) with (dst h :: between ((h' :: c1) ++ c2)).
    change (between (h :: h' :: c1)) with (dst h :: between (h' :: c1)). cbn [In]. rewrite (IH c2 (dst h) v); [tauto|discriminate|auto|exact Ch].
Qed.
Lemma flip_nonempty : forall c, c <> [] -> flip c <> [].
Proof. intros [|h c] H E; [easy|]. unfold flip in E. cbn in E. apply app_eq_nil in E. destruct E. discriminate. Qed.
Lemma between_flip : forall c u v, chain u c v -> forall n, In n (between (flip c)) -> In n (between c).
Proof.
  induction c as [|h c IH]; intros u v Ch n I; [easy|]. destruct c as [|h' c]; [easy|].
  destruct Ch as (E & Ch). unfold flip in I. change (map flip1 (h :: h' :: c)) with (flip1 h :: map flip1 (h' :: c)) in I. cbn [rev] in I. fold (flip (h' :: c)) in I.
  rewrite (between_app (flip (h' :: c)) [flip1 h] v (dst h)) in I; [|now apply flip_nonempty|discriminate|now apply chain_flip].
  change (between (h :: h' :: c)) with (dst h :: between (h' :: c)). destruct I as [I|[->|[]]]; [right; eapply IH; eauto|now left].
Qed.
Lemma flip_in : forall c h, In h (flip c) -> exists h', In h' c /\ h = flip1 h'.
Proof. intros c h I. unfold flip in I. apply in_rev in I. apply in_map_iff in I. destruct I as (h' & <- & I). eauto. Qed.
Lemma flip_length : forall c, length (flip c) = length c.
Proof. intros. unfold flip. now rewrite rev_length, map_length. Qed.
Lemma flip_fst : forall c, Permutation (map fst (flip c)) (map fst c).
Proof.
  intros c. unfold flip. rewrite map_rev, map_map. rewrite <- Permutation_rev. apply Permutation_refl.
Qed.
Lemma joined_rev : forall l1 l2 l : list P, joined l1 l2 l -> joined (rev l2) (rev l1) (rev l).
Proof.
  intros l1 l2 l [x y|x p y].
  - rewrite rev_app_distr. constructor.
  - rewrite !rev_app_distr. cbn. rewrite <- app_assoc. cbn. constructor.
Qed.
Lemma runs_flip : forall c l, runs c l -> runs (flip c) (rev l).
Proof.
  induction 1 as [h|c1 c2 l1 l2 l R1 IH1 R2 IH2 J].
  - assert (E : rev (line h) = line (flip1 h)).
    { destruct h as [e []]; unfold line; cbn; [reflexivity|apply rev_involutive]. }
    rewrite E. apply r_one.
  - assert (E : flip (c1 ++ c2) = flip c2 ++ flip c1) by (unfold flip; rewrite map_app, rev_app_distr; reflexivity).
    rewrite E. apply (r_app pos _ _ _ _ _ IH2 IH1). now apply joined_rev.
Qed.

(** ** One step of collapseEdges *)
Lemma geomOf_shape : forall e, geomOf _ pos e = shape e.
Proof. reflexivity. Qed.

(** The facts about a step: edge [a], driven as [da], leads to [n], edge [b] from [n]. *)
Record step (g : graph) (n : nat) (a b : edge) (da db : bool) : Prop := {
  st_a : In a (edges g); st_b : In b (edges g);
  st_n1 : dst (a, da) = n; st_n2 : src (b, db) = n; st_u : src (a, da) <> n; st_v : dst (b, db) <> n;
  st_only : forall e, In e (edges g) -> touches e n -> e = a \/ e = b;
  st_ne : a <> b;
  st_plain : station n = false /\ turn n = false;
  st_no1 : forall e, In e (edges g) -> ~ (from e = src (a, da) /\ to e = dst (b, db));
  st_no2 : forall e, In e (edges g) -> ~ (from e = dst (b, db) /\ to e = src (a, da));
  st_lvl : lvl (ePl a) = lvl (ePl b); st_lines : lines (ePl a) = lines (ePl b);
  st_restr : restr (ePl a) = false /\ restr (ePl b) = false;
  st_ow : (oneWay (ePl a) = 0 /\ oneWay (ePl b) = 0) \/ (oneWay (ePl a) <> 0 /\ oneWay (ePl b) <> 0 /\ da = true /\ db = true);
  (* the loop of two edges that are not one-way is taken the right way round *)
  st_loop : src (a, da) = dst (b, db) -> oneWay (ePl a) = 0 -> from a = to b /\ from a = n
}.
Definition keepEdge (a b e : edge) : bool := negb (isEdg _ (from a) (to a) e) && negb (isEdg _ (from b) (to b) e).
Definition merged (g : graph) (a b : edge) (da db : bool) : graph :=
  mkG (nodes g) (filter (keepEdge a b) (edges g) ++ [mkE (src (a, da)) (dst (b, db)) (mergeEdgePL _ pos a b)]).

Lemma edgesSim_true : forall a b : edge, edgesSim _ a b = true ->
  lvl (ePl a) = lvl (ePl b) /\ lines (ePl a) = lines (ePl b) /\ restr (ePl a) = false /\ restr (ePl b) = false /\
  ((oneWay (ePl a) = 0 /\ oneWay (ePl b) = 0) \/ (oneWay (ePl a) <> 0 /\ oneWay (ePl b) <> 0 /\ (from a = to b \/ to a = from b))).
Proof.
  intros a b. unfold edgesSim, isOW. destruct (Nat.eqb_spec (oneWay (ePl a)) 0) as [Ea|Ea], (Nat.eqb_spec (oneWay (ePl b)) 0) as [Eb|Eb]; cbn; try discriminate;
  (destruct (Nat.eqb_spec (lvl (ePl a)) (lvl (ePl b))) as [El|]; cbn; [|discriminate]);
  (destruct (length (lines (ePl a)) =? length (lines (ePl b))); cbn; [|discriminate]).
  - destruct (restr (ePl a)), (restr (ePl b)); cbn; try discriminate. destruct list_eq_dec; [|discriminate]. intros _. auto 10.
  - destruct (Nat.eqb_spec (from a) (to b)) as [Ef|Ef], (Nat.eqb_spec (to a) (from b)) as [Et|Et]; cbn; try discriminate;
    destruct (restr (ePl a)), (restr (ePl b)); cbn; try discriminate; (destruct list_eq_dec; [|discriminate]); intros _; auto 10.
Qed.

Lemma del2 : forall (g : graph) u v p a b, (forall e, In e (edges g) -> ~ (from e = u /\ to e = v)) -> In a (edges g) -> In b (edges g) ->
  delEdg _ (delEdg _ (addEdg _ g u v p) (from a) (to a)) (from b) (to b) = mkG (nodes g) (filter (keepEdge a b) (edges g) ++ [mkE u v p]).
Proof.
  intros g u v p a b N0 Ia Ib. rewrite addEdg_new by (now apply hasEdg_false). unfold delEdg. cbn [nodes edges]. f_equal.
  rewrite filter_filter, filter_app. f_equal. cbn [filter]. assert (E : keepEdge a b (mkE u v p) = true).
  { unfold keepEdge. apply andb_true_intro. split; apply negb_true_iff; apply not_true_iff_false; rewrite isEdg_iff; cbn; intros (F & T); [apply (N0 a Ia)|apply (N0 b Ib)]; auto. }
  unfold keepEdge in E. now rewrite E.
Qed.
Lemma filter_comm_keep : forall (g : graph) a b, filter (keepEdge a b) (edges g) = filter (keepEdge b a) (edges g).
Proof. intros. apply filter_ext'. intros e _. unfold keepEdge. apply andb_comm. Qed.

Lemma two_of : forall (A : Type) (l : list A) a b, NoDup l -> l = [a; b] -> a <> b.
Proof. intros A l a b Nd -> E. inversion Nd; subst. apply H1. now left. Qed.

Lemma collapseAt_cases : forall (g : graph) n sw, simple g ->
  collapseAt _ pos station turn g (n, sw) = g \/
  exists a b da db, step g n a b da db /\ collapseAt _ pos station turn g (n, sw) = merged g a b da db.
Proof.
  intros g n sw S. unfold collapseAt. cbn [fst snd].
  destruct (negb (deg P g n =? 2) || station n || turn n) eqn:C; [now left|].
  apply orb_false_iff in C. destruct C as (C & Ct). apply orb_false_iff in C. destruct C as (Cd & Cs). apply negb_false_iff, Nat.eqb_eq in Cd. unfold deg in Cd.
  assert (NdO : NoDup (adjOut P g n)) by (apply NoDup_filter, (NoDup_of_map _ _ _ _ S)).
  assert (NdI : NoDup (adjIn P g n)) by (apply NoDup_filter, (NoDup_of_map _ _ _ _ S)).
  pose proof (adjOut_in g n) as HO. pose proof (adjIn_in g n) as HI.
  (* out, out *)
  assert (Two : forall a b, adjOut P g n = [a; b] \/ adjOut P g n = [b; a] -> adjIn P g n = [] -> a <> b ->
    hasEdg P g (other P a n) (other P b n) = false -> hasEdg P g (other P b n) (other P a n) = false -> edgesSim P a b = true ->
    step g n a b false true /\ oneWay (ePl a) = 0 /\ other P a n = to a /\ other P b n = to b).
  { intros a b HOut HIn Ne H1 H2 Si.
    assert (Oa : In a (edges g) /\ from a = n) by (apply HO; destruct HOut as [-> | ->]; cbn; auto).
    assert (Ob : In b (edges g) /\ from b = n) by (apply HO; destruct HOut as [-> | ->]; cbn; auto).
    assert (La : to a <> n) by (intros E; assert (I : In a (adjIn P g n)) by (apply HI; tauto); rewrite HIn in I; easy).
    assert (Lb : to b <> n) by (intros E; assert (I : In b (adjIn P g n)) by (apply HI; tauto); rewrite HIn in I; easy).
    assert (Fa : other P a n = to a) by (unfold other; destruct (Nat.eqb_spec (from a) n); tauto).
    assert (Fb : other P b n = to b) by (unfold other; destruct (Nat.eqb_spec (from b) n); tauto).
    rewrite Fa, Fb in *. apply edgesSim_true in Si. destruct Si as (S1 & S2 & S3 & S4 & S5).
    assert (O0 : oneWay (ePl a) = 0 /\ oneWay (ePl b) = 0) by (destruct S5 as [|(_ & _ & [E|E])]; [auto|exfalso; apply Lb; destruct Oa; congruence|exfalso; apply La; destruct Ob; congruence]).
    split; [|tauto]. constructor; cbn; try tauto.
    - intros e I [T|T].
      + assert (I' : In e (adjOut P g n)) by (apply HO; tauto). destruct HOut as [E|E]; rewrite E in I'; cbn in I'; intuition.
      + assert (I' : In e (adjIn P g n)) by (apply HI; tauto). rewrite HIn in I'. easy.
    - now apply hasEdg_false.
    - now apply hasEdg_false.
    - intros E _. exfalso. apply Ne. apply (simple_eq g); try tauto. destruct Oa, Ob. congruence. }
  assert (TwoI : forall a b, adjIn P g n = [a; b] \/ adjIn P g n = [b; a] -> adjOut P g n = [] -> a <> b ->
    hasEdg P g (other P a n) (other P b n) = false -> hasEdg P g (other P b n) (other P a n) = false -> edgesSim P a b = true ->
    step g n a b true false /\ oneWay (ePl a) = 0 /\ other P a n = from a /\ other P b n = from b).
  { intros a b HIn HOut Ne H1 H2 Si.
    assert (Oa : In a (edges g) /\ to a = n) by (apply HI; destruct HIn as [-> | ->]; cbn; auto).
    assert (Ob : In b (edges g) /\ to b = n) by (apply HI; destruct HIn as [-> | ->]; cbn; auto).
    assert (La : from a <> n) by (intros E; assert (I : In a (adjOut P g n)) by (apply HO; tauto); rewrite HOut in I; easy).
    assert (Lb : from b <> n) by (intros E; assert (I : In b (adjOut P g n)) by (apply HO; tauto); rewrite HOut in I; easy).
    assert (Fa : other P a n = from a) by (unfold other; destruct (Nat.eqb_spec (from a) n); tauto).
    assert (Fb : other P b n = from b) by (unfold other; destruct (Nat.eqb_spec (from b) n); tauto).
    rewrite Fa, Fb in *. apply edgesSim_true in Si. destruct Si as (S1 & S2 & S3 & S4 & S5).
    assert (O0 : oneWay (ePl a) = 0 /\ oneWay (ePl b) = 0) by (destruct S5 as [|(_ & _ & [E|E])]; [auto|exfalso; apply La; destruct Ob; congruence|exfalso; apply Lb; destruct Oa; congruence]).
    split; [|tauto]. constructor; cbn; try tauto.
    - intros e I [T|T].
      + assert (I' : In e (adjOut P g n)) by (apply HO; tauto). rewrite HOut in I'. easy.
      + assert (I' : In e (adjIn P g n)) by (apply HI; tauto). destruct HIn as [E|E]; rewrite E in I'; cbn in I'; intuition.
    - now apply hasEdg_false.
    - now apply hasEdg_false.
    - intros E _. exfalso. apply Ne. apply (simple_eq g); try tauto. destruct Oa, Ob. congruence. }
  destruct (adjOut P g n) as [|o1 [|o2 [|o3 os]]] eqn:Out; cbn [length] in Cd; [| | |lia].
  - destruct (adjIn P g n) as [|i1 [|i2 [|i3 is]]] eqn:Inn; cbn [length] in Cd; try lia. cbn [pick].
    assert (Ne : i1 <> i2) by now apply (two_of _ [i1; i2]).
    destruct sw.
    + destruct (hasEdg P g (other P i2 n) (other P i1 n)) eqn:H1; [now left|]. destruct (hasEdg P g (other P i1 n) (other P i2 n)) eqn:H2; [now left|].
      destruct (edgesSim P i2 i1) eqn:Si; [|now left]. right. destruct (TwoI i2 i1) as (St & O0 & F1 & F2); auto.
      exists i2, i1, true, false. split; [exact St|]. unfold isOW. rewrite O0. cbn [Nat.eqb negb andb]. rewrite F1, F2.
      rewrite del2; [reflexivity|apply (st_no1 _ _ _ _ _ _ St)|apply (st_a _ _ _ _ _ _ St)|apply (st_b _ _ _ _ _ _ St)].
    + destruct (hasEdg P g (other P i1 n) (other P i2 n)) eqn:H1; [now left|]. destruct (hasEdg P g (other P i2 n) (other P i1 n)) eqn:H2; [now left|].
      destruct (edgesSim P i1 i2) eqn:Si; [|now left]. right. destruct (TwoI i1 i2) as (St & O0 & F1 & F2); auto.
      exists i1, i2, true, false. split; [exact St|]. unfold isOW. rewrite O0. cbn [Nat.eqb negb andb]. rewrite F1, F2.
      rewrite del2; [reflexivity|apply (st_no1 _ _ _ _ _ _ St)|apply (st_a _ _ _ _ _ _ St)|apply (st_b _ _ _ _ _ _ St)].
  - destruct (adjIn P g n) as [|i1 [|i2 is]] eqn:Inn; cbn [length] in Cd; try lia. cbn [pick].
    assert (Oa : In o1 (edges g) /\ from o1 = n) by (apply HO; cbn; auto).
    assert (Ob : In i1 (edges g) /\ to i1 = n) by (apply HI; cbn; auto).
    assert (Fa : other P o1 n = to o1) by (unfold other; destruct (Nat.eqb_spec (from o1) n); tauto).
    assert (Lo : to o1 = n -> o1 = i1) by (intros E; assert (I : In o1 [i1]) by (apply HI; tauto); destruct I as [->|[]]; auto).
    destruct (Nat.eq_dec (to o1) n) as [E0|La].
    { pose proof (Lo E0). subst i1. assert (H1 : hasEdg P g (other P o1 n) (other P o1 n) = true).
      { rewrite Fa, E0. apply hasEdg_iff. exists o1. tauto. }
      rewrite H1. now left. }
    assert (Lb : from i1 <> n).
    { intros E. assert (I : In i1 [o1]) by (apply HO; tauto). destruct I as [->|[]]. apply La. tauto. }
    assert (Fb : other P i1 n = from i1) by (unfold other; destruct (Nat.eqb_spec (from i1) n); tauto).
    rewrite Fa, Fb. destruct (hasEdg P g (to o1) (from i1)) eqn:H1; [now left|]. destruct (hasEdg P g (from i1) (to o1)) eqn:H2; [now left|].
    destruct (edgesSim P o1 i1) eqn:Si; [|now left]. right. apply edgesSim_true in Si. destruct Si as (S1 & S2 & S3 & S4 & S5).
    assert (Only : forall e, In e (edges g) -> touches e n -> e = o1 \/ e = i1).
    { intros e I [T|T].
      - assert (I' : In e [o1]) by (apply HO; tauto). destruct I' as [->|[]]; auto.
      - assert (I' : In e [i1]) by (apply HI; tauto). destruct I' as [->|[]]; auto. }
    assert (Ne : o1 <> i1) by (intros ->; tauto).
    destruct S5 as [(O1 & O2)|(O1 & O2 & O3)].
    + exists o1, i1, false, false. assert (St : step g n o1 i1 false false).
      { constructor; cbn; try tauto; [now apply hasEdg_false|now apply hasEdg_false|]. intros _ _. destruct Oa, Ob. split; congruence. }
      split; [exact St|]. unfold isOW. rewrite O1. cbn [Nat.eqb negb andb].
      rewrite del2; [reflexivity|apply (st_no1 _ _ _ _ _ _ St)|apply (st_a _ _ _ _ _ _ St)|apply (st_b _ _ _ _ _ _ St)].
    + exists i1, o1, true, true. assert (St : step g n i1 o1 true true).
      { constructor; cbn; try tauto; try (now apply hasEdg_false); try congruence. intros e I T. destruct (Only e I T); auto. }
      split; [exact St|]. unfold isOW. destruct (Nat.eqb_spec (oneWay (ePl o1)) 0) as [E|_]; [congruence|].
      destruct (Nat.eqb_spec (to o1) (from o1)) as [E|_]; [exfalso; apply La; destruct Oa; congruence|]. cbn [Nat.eqb negb andb].
      rewrite del2; [|apply (st_no1 _ _ _ _ _ _ St)|tauto|tauto]. unfold merged. rewrite filter_comm_keep. reflexivity.
  - destruct (adjIn P g n) as [|i1 is] eqn:Inn; cbn [length] in Cd; [|lia]. cbn [pick].
    assert (Ne : o1 <> o2) by now apply (two_of _ [o1; o2]).
    destruct sw.
    + destruct (hasEdg P g (other P o2 n) (other P o1 n)) eqn:H1; [now left|]. destruct (hasEdg P g (other P o1 n) (other P o2 n)) eqn:H2; [now left|].
      destruct (edgesSim P o2 o1) eqn:Si; [|now left]. right. destruct (Two o2 o1) as (St & O0 & F1 & F2); auto.
      exists o2, o1, false, true. split; [exact St|]. unfold isOW. rewrite O0. cbn [Nat.eqb negb andb]. rewrite F1, F2.
      rewrite del2; [reflexivity|apply (st_no1 _ _ _ _ _ _ St)|apply (st_a _ _ _ _ _ _ St)|apply (st_b _ _ _ _ _ _ St)].
    + destruct (hasEdg P g (other P o1 n) (other P o2 n)) eqn:H1; [now left|]. destruct (hasEdg P g (other P o2 n) (other P o1 n)) eqn:H2; [now left|].
      destruct (edgesSim P o1 o2) eqn:Si; [|now left]. right. destruct (Two o1 o2) as (St & O0 & F1 & F2); auto.
      exists o1, o2, false, true. split; [exact St|]. unfold isOW. rewrite O0. cbn [Nat.eqb negb andb]. rewrite F1, F2.
      rewrite del2; [reflexivity|apply (st_no1 _ _ _ _ _ _ St)|apply (st_a _ _ _ _ _ _ St)|apply (st_b _ _ _ _ _ _ St)].
Qed.

Lemma line_ends : forall h : hop, ends_fit pos (fst h) -> exists m, line h = pos (src h) :: m ++ [pos (dst h)].
Proof.
  intros [e d] F. unfold ends_fit in F. cbn in F. unfold line, src, dst, OsmGraph_spec.shape. cbn [fst snd].
  assert (H : exists m, match geom (ePl e) with Some l => l | None => [pos (from e); pos (to e)] end = pos (from e) :: m ++ [pos (to e)]).
  { destruct (geom (ePl e)); [exact F|exists []; reflexivity]. }
  destruct H as (m & ->). destruct d; [eauto|]. cbn. rewrite rev_app_distr. cbn. eauto.
Qed.

Definition loop_ow (a : edge) (da : bool) (b : edge) (db : bool) : Prop := src (a, da) = dst (b, db) /\ oneWay (ePl a) <> 0.
Lemma merge_line : forall g n a b da db, step g n a b da db -> ends_fit pos a -> ends_fit pos b -> ~ loop_ow a da b db ->
  exists L, mergeEdgePL _ pos a b = setGeom _ (ePl a) L /\ joined (line (a, da)) (line (b, db)) L.
Proof.
  intros g n a b da db St Fa Fb NL. destruct (line_ends (a, da) Fa) as (ma & La). destruct (line_ends (b, db) Fb) as (mb & Lb).
  assert (J : forall L2, L2 = line (b, db) \/ L2 = [pos (dst (b, db))] /\ line (b, db) = [pos n; pos (dst (b, db))] -> joined (line (a, da)) (line (b, db)) (line (a, da) ++ L2)).
  { intros L2 [->|(-> & E)]; [constructor|]. rewrite La, E, (st_n1 _ _ _ _ _ _ St).
    change (pos (src (a, da)) :: ma ++ [pos n]) with ((pos (src (a, da)) :: ma) ++ [pos n]). rewrite <- app_assoc. cbn [app]. apply (j_once (pos (src (a, da)) :: ma)). }
  assert (NL' : src (a, da) = dst (b, db) -> from a = to b /\ from a = n).
  { intros E. destruct (Nat.eq_dec (oneWay (ePl a)) 0) as [O|O]; [now apply (st_loop _ _ _ _ _ _ St)|]. exfalso. apply NL. split; auto. }
  pose proof (st_n1 _ _ _ _ _ _ St) as N1. pose proof (st_n2 _ _ _ _ _ _ St) as N2. pose proof (st_u _ _ _ _ _ _ St) as U. pose proof (st_v _ _ _ _ _ _ St) as V.
  clear St La Lb ma mb NL. unfold mergeEdgePL. rewrite geomOf_shape. unfold line, src, dst in *. unfold OsmGraph_spec.shape in J at 3 4. cbn [fst snd] in *.
  destruct da, db.
  - assert (E : (if from a =? from b then from a else if from a =? to b then from a else to a) = n).
    { destruct (Nat.eqb_spec (from a) (from b)) as [E|_]; [congruence|]. destruct (Nat.eqb_spec (from a) (to b)) as [E|_]; [|auto]. destruct (NL' E). congruence. }
    rewrite E. rewrite N1, N2, Nat.eqb_refl. destruct (Nat.eqb_spec (to b) n) as [X|_]; [congruence|]. cbn [andb]. eexists. split; [reflexivity|]. apply J.
    unfold OsmGraph_spec.shape. destruct (geom (ePl b)); [now left|right]. split; [reflexivity|congruence].
  - assert (E : (if from a =? from b then from a else if from a =? to b then from a else to a) = n).
    { destruct (Nat.eqb_spec (from a) (from b)) as [E|_]; [destruct (NL' E); congruence|]. destruct (Nat.eqb_spec (from a) (to b)) as [E|_]; [congruence|auto]. }
    rewrite E. rewrite N1, N2, Nat.eqb_refl. cbn [andb]. eexists. split; [reflexivity|]. apply J.
    unfold OsmGraph_spec.shape. destruct (geom (ePl b)); [now left|right]. cbn. split; [reflexivity|congruence].
  - assert (E : (if from a =? from b then from a else if from a =? to b then from a else to a) = n).
    { destruct (Nat.eqb_spec (from a) (from b)) as [E|Ne]; [congruence|]. congruence. }
    rewrite E. rewrite N1, N2, Nat.eqb_refl. destruct (Nat.eqb_spec (to a) n) as [X|_]; [congruence|]. destruct (Nat.eqb_spec (to b) n) as [X|_]; [congruence|]. cbn [andb]. eexists. split; [reflexivity|]. apply J.
    unfold OsmGraph_spec.shape. destruct (geom (ePl b)); [now left|right]. split; [reflexivity|congruence].
  - assert (E : (if from a =? from b then from a else if from a =? to b then from a else to a) = n).
    { destruct (Nat.eqb_spec (from a) (from b)) as [E|Ne]; [congruence|]. destruct (Nat.eqb_spec (from a) (to b)) as [E|Ne']; congruence. }
    rewrite E. rewrite N1, N2, Nat.eqb_refl. destruct (Nat.eqb_spec (to a) n) as [X|_]; [congruence|]. cbn [andb]. eexists. split; [reflexivity|]. apply J.
    unfold OsmGraph_spec.shape. destruct (geom (ePl b)); [now left|right]. cbn. split; [reflexivity|congruence].
Qed.
Lemma merge_flags : forall a b : edge, exists L, mergeEdgePL _ pos a b = setGeom _ (ePl a) L.
Proof.
  intros a b. unfold mergeEdgePL. cbv zeta. repeat match goal with |- context [if ?c then setGeom _ _ _ else _] => destruct c end; eexists; reflexivity.
Qed.
Lemma joined_ends : forall u m1 n m2 v L, joined (pos u :: m1 ++ [pos n]) (pos n :: m2 ++ [pos v]) L -> exists m, L = pos u :: m ++ [pos v].
Proof.
  intros u m1 n m2 v L J. remember (pos u :: m1 ++ [pos n]) as A eqn:EA. remember (pos n :: m2 ++ [pos v]) as B eqn:EB. destruct J as [l1 l2|l1 p l2].
  - subst. exists (m1 ++ [pos n] ++ pos n :: m2). cbn. rewrite <- !app_assoc. reflexivity.
  - injection EB; intros -> ->. destruct l1 as [|x l1]; cbn in EA.
    + injection EA; intros E _. destruct m1; discriminate.
    + injection EA; intros E ->. apply app_inj_tail in E. destruct E as (-> & _). exists (m1 ++ pos n :: m2). cbn. rewrite <- app_assoc. reflexivity.
Qed.

(** ** The invariant *)
Definition orient (c : list hop) (d : bool) : list hop := if d then c else flip c.
Lemma orient_chain : forall e c d, stands_for e c -> chain (src (e, d)) (orient c d) (dst (e, d)).
Proof. intros e c [] [[_ Ch]]; unfold orient, src, dst; cbn; [exact Ch|now apply chain_flip]. Qed.
Lemma orient_in : forall c d h, In h (orient c d) -> exists h', In h' c /\ fst h = fst h' /\ (d = true -> h = h').
Proof.
  intros c [] h I; cbn in I; [exists h; auto|]. apply flip_in in I. destruct I as (h' & I & ->). exists h'. split; [auto|]. split; [reflexivity|discriminate].
Qed.
Lemma orient_between : forall e c d n, stands_for e c -> In n (between (orient c d)) -> In n (between c).
Proof. intros e c [] n [[_ Ch]] I; cbn in I; [auto|]. eapply between_flip; eauto. Qed.
Lemma orient_length : forall c d, length (orient c d) = length c.
Proof. intros c []; cbn; [reflexivity|apply flip_length]. Qed.
Lemma orient_runs : forall e c d, runs c (shape e) -> runs (orient c d) (line (e, d)).
Proof. intros e c [] R; unfold orient, line; cbn; [exact R|now apply runs_flip]. Qed.
Lemma orient_fst : forall c d, Permutation (map fst (orient c d)) (map fst c).
Proof. intros c []; cbn; [reflexivity|apply flip_fst]. Qed.
Lemma nonempty_len : forall (A : Type) (l : list A), l <> [] -> 1 <= length l.
Proof. intros A [|x l]; [easy|cbn; lia]. Qed.

Lemma not_loop : forall g n a b da db, step g n a b da db -> (from a <> to a) /\ (from b <> to b).
Proof.
  intros g n a b da db St. pose proof (st_n1 _ _ _ _ _ _ St) as N1. pose proof (st_n2 _ _ _ _ _ _ St) as N2.
  pose proof (st_u _ _ _ _ _ _ St) as U. pose proof (st_v _ _ _ _ _ _ St) as V. clear St. unfold src, dst in *. cbn [fst snd] in *.
  destruct da, db; split; congruence.
Qed.

Lemma stands_merge : forall g n a b da db ca cb, step g n a b da db -> stands_for a ca -> stands_for b cb ->
  stands_for (mkE (src (a, da)) (dst (b, db)) (mergeEdgePL _ pos a b)) (orient ca da ++ orient cb db).
Proof.
  intros g n a b da db ca cb St Sa Sb. destruct (not_loop _ _ _ _ _ _ St) as (NLa & NLb).
  destruct (merge_flags a b) as (L0 & E0). destruct (sf_line _ _ _ _ _ Sa) as (Ra & Fa); [tauto|]. destruct (sf_line _ _ _ _ _ Sb) as (Rb & Fb); [tauto|].
  destruct (sf_chain _ _ _ _ _ Sa) as (Nea & _). destruct (sf_chain _ _ _ _ _ Sb) as (Neb & _).
  pose proof (nonempty_len _ _ Nea) as La. pose proof (nonempty_len _ _ Neb) as Lb.
  assert (Cha : chain (src (a, da)) (orient ca da) n) by (rewrite <- (st_n1 _ _ _ _ _ _ St); now apply orient_chain).
  assert (Chb : chain n (orient cb db) (dst (b, db))) by (rewrite <- (st_n2 _ _ _ _ _ _ St) at 1; now apply orient_chain).
  assert (Ne1 : orient ca da <> []) by (intros E; apply (f_equal (@length _)) in E; rewrite orient_length in E; cbn in E; lia).
  assert (Ne2 : orient cb db <> []) by (intros E; apply (f_equal (@length _)) in E; rewrite orient_length in E; cbn in E; lia).
  assert (InC : forall h, In h (orient ca da ++ orient cb db) -> (exists h', In h' ca /\ fst h = fst h' /\ (da = true -> h = h')) \/ (exists h', In h' cb /\ fst h = fst h' /\ (db = true -> h = h'))).
  { intros h I. apply in_app_iff in I. destruct I as [I|I]; [left|right]; now apply orient_in. }
  constructor; cbn [from to ePl].
  - split; [intros E; apply app_eq_nil in E; tauto|]. eapply chain_app; eauto.
  - rewrite app_length, !orient_length. lia.
  - intros NL. assert (NL' : ~ loop_ow a da b db).
    { intros (E1 & E2). apply NL. split; [rewrite app_length, !orient_length; lia|]. split; [rewrite E0; exact E2|exact E1]. }
    destruct (merge_line g n a b da db St Fa Fb NL') as (L & E & J). split.
    + unfold OsmGraph_spec.shape. cbn [ePl from to]. rewrite E. cbn. apply (r_app pos _ _ (line (a, da)) (line (b, db))); auto; now apply orient_runs.
    + unfold ends_fit. cbn [ePl from to]. rewrite E. cbn [geom setGeom]. destruct (line_ends (a, da) Fa) as (m1 & E1). destruct (line_ends (b, db) Fb) as (m2 & E2).
      rewrite E1, E2, (st_n1 _ _ _ _ _ _ St), (st_n2 _ _ _ _ _ _ St) in J. now apply joined_ends in J.
  - rewrite E0. cbn. intros h I. destruct (InC h I) as [(h' & I' & -> & _)|(h' & I' & -> & _)]; [now apply (sf_level _ _ _ _ _ Sa)|].
    rewrite (st_lvl _ _ _ _ _ _ St). now apply (sf_level _ _ _ _ _ Sb).
  - rewrite E0. cbn. intros h I. destruct (InC h I) as [(h' & I' & -> & _)|(h' & I' & -> & _)]; [now apply (sf_lines _ _ _ _ _ Sa)|].
    rewrite (st_lines _ _ _ _ _ _ St). now apply (sf_lines _ _ _ _ _ Sb).
  - intros _. rewrite E0. cbn. destruct (st_restr _ _ _ _ _ _ St) as (Rsa & Rsb). split; [exact Rsa|].
    intros h I. destruct (InC h I) as [(h' & I' & -> & _)|(h' & I' & -> & _)].
    + destruct (Nat.eq_dec (length ca) 1) as [E|E]; [rewrite (sf_same _ _ _ _ _ Sa E) in I'; destruct I' as [<-|[]]; exact Rsa|].
      apply (sf_restr _ _ _ _ _ Sa); [lia|auto].
    + destruct (Nat.eq_dec (length cb) 1) as [E|E]; [rewrite (sf_same _ _ _ _ _ Sb E) in I'; destruct I' as [<-|[]]; exact Rsb|].
      apply (sf_restr _ _ _ _ _ Sb); [lia|auto].
  - rewrite E0. cbn. intros O h I. destruct (st_ow _ _ _ _ _ _ St) as [(Oa & Ob)|(Oa & _)]; [|congruence].
    destruct (InC h I) as [(h' & I' & -> & _)|(h' & I' & -> & _)]; [now apply (sf_both _ _ _ _ _ Sa)|now apply (sf_both _ _ _ _ _ Sb)].
  - rewrite E0. cbn. intros O. destruct (st_ow _ _ _ _ _ _ St) as [(Oa & Ob)|(Oa & Ob & Da & Db)]; [congruence|].
    destruct (sf_one _ _ _ _ _ Sa Oa) as (Aa & ha & Iha & Eha). destruct (sf_one _ _ _ _ _ Sb Ob) as (Ab & _). split.
    + intros h I. destruct (InC h I) as [(h' & I' & _ & Eh)|(h' & I' & _ & Eh)]; rewrite (Eh ltac:(assumption)); auto.
    + exists ha. split; [|exact Eha]. apply in_or_app. left. subst da. exact Iha.
  - intros m I. apply (between_app _ _ (src (a, da)) n) in I; auto. destruct I as [I|[->|I]].
    + apply (sf_plain _ _ _ _ _ Sa). eapply orient_between; eauto.
    + apply (st_plain _ _ _ _ _ _ St).
    + apply (sf_plain _ _ _ _ _ Sb). eapply orient_between; eauto.
Qed.

(** The invariant, with the chains beside the edges. *)
Definition covers (g0 g : graph) (l : list (edge * list hop)) : Prop :=
  map fst l = edges g /\ Forall (fun x => stands_for (fst x) (snd x)) l /\
  Permutation (flat_map (fun x => map fst (snd x)) l) (edges g0) /\
  forall x n, In x l -> In n (between (snd x)) -> forall e, In e (edges g) -> ~ touches e n.
Definition inv (g0 g : graph) : Prop := nodes g = nodes g0 /\ simple g /\ exists l, covers g0 g l.

Lemma merged_simple : forall g n a b da db, simple g -> step g n a b da db -> simple (merged g a b da db).
Proof.
  intros g n a b da db S St. unfold simple, merged. cbn [edges]. rewrite map_app. cbn [map from to]. apply NoDup_snoc; [now apply NoDup_map_filter|].
  intros I. apply in_map_iff in I. destruct I as (e & E & I). apply filter_In in I. injection E; intros. apply (st_no1 _ _ _ _ _ _ St e); tauto.
Qed.
Lemma merged_in : forall g a b da db e, In e (edges (merged g a b da db)) -> (In e (edges g) /\ e <> a /\ e <> b) \/ e = mkE (src (a, da)) (dst (b, db)) (mergeEdgePL _ pos a b).
Proof.
  intros g a b da db e I. cbn in I. apply in_app_iff in I. destruct I as [I|[<-|[]]]; [|now right]. left. apply filter_In in I. destruct I as (I & K). split; [auto|].
  unfold keepEdge in K. apply andb_prop in K. destruct K as (K1 & K2). 
  assert (Ra : forall x : edge, isEdg P (from x) (to x) x = true) by (intros; apply isEdg_iff; auto).
  split; intros ->; rewrite Ra in *; discriminate.
Qed.
Lemma merged_keeps : forall g n a b da db e, simple g -> step g n a b da db -> In e (edges g) -> e <> a -> e <> b -> In e (edges (merged g a b da db)).
Proof.
  intros g n a b da db e S St I Na Nb. cbn. apply in_or_app. left. apply filter_In. split; [auto|]. unfold keepEdge. apply andb_true_intro.
  split; apply negb_true_iff, not_true_iff_false; rewrite isEdg_iff; intros (F & T).
  - apply Na. apply (simple_eq g); auto. apply (st_a _ _ _ _ _ _ St).
  - apply Nb. apply (simple_eq g); auto. apply (st_b _ _ _ _ _ _ St).
Qed.
Lemma merged_untouched : forall g n a b da db e, step g n a b da db -> In e (edges (merged g a b da db)) -> ~ touches e n.
Proof.
  intros g n a b da db e St I T. apply merged_in in I. destruct I as [(I & Na & Nb)| ->].
  - destruct (st_only _ _ _ _ _ _ St e I T); contradiction.
  - destruct T as [T|T]; cbn in T; [now apply (st_u _ _ _ _ _ _ St)|now apply (st_v _ _ _ _ _ _ St)].
Qed.
Lemma end_touches : forall g n a b da db m, step g n a b da db -> m = src (a, da) \/ m = dst (b, db) -> (touches a m \/ touches b m).
Proof. intros g n a b da db m St [-> | ->]; [left; destruct da|right; destruct db]; unfold touches, src, dst; cbn; auto. Qed.

Lemma inv_step : forall g0 g ns, inv g0 g -> inv g0 (collapseAt _ pos station turn g ns).
Proof.
  intros g0 g [n sw] (En & S & l & El & Fl & Pl & Bt). destruct (collapseAt_cases g n sw S) as [->|(a & b & da & db & St & ->)].
  { split; [auto|]. split; [auto|]. exists l. repeat split; auto. }
  split; [exact En|]. split; [eapply merged_simple; eauto|].
  assert (Xa : exists ca, In (a, ca) l).
  { pose proof (st_a _ _ _ _ _ _ St) as I. rewrite <- El in I. apply in_map_iff in I. destruct I as ([e c] & E & I). cbn in E. subst e. eauto. }
  assert (Xb : exists cb, In (b, cb) l).
  { pose proof (st_b _ _ _ _ _ _ St) as I. rewrite <- El in I. apply in_map_iff in I. destruct I as ([e c] & E & I). cbn in E. subst e. eauto. }
  destruct Xa as (ca & Ia). destruct Xb as (cb & Ib). rewrite Forall_forall in Fl.
  pose proof (Fl _ Ia) as Sa. pose proof (Fl _ Ib) as Sb. cbn in Sa, Sb.
  pose proof (stands_merge _ _ _ _ _ _ _ _ St Sa Sb) as Sn. set (new := mkE _ _ _) in Sn.
  pose (kp := fun x : edge * list hop => keepEdge a b (fst x)).
  assert (NdL : NoDup (map (fun x : edge * list hop => (from (fst x), to (fst x))) l)).
  { rewrite <- (map_map fst (fun e => (from e, to e))), El. exact S. }
  assert (KeyA : forall x, In x l -> (isEdg P (from a) (to a) (fst x) = true <-> x = (a, ca))).
  { intros x Ix. rewrite isEdg_iff. split; [|intros ->; cbn; auto]. intros (F & T). apply (NoDup_map_in _ _ _ _ _ _ NdL Ix Ia). cbn. congruence. }
  assert (KeyB : forall x, In x l -> (isEdg P (from b) (to b) (fst x) = true <-> x = (b, cb))).
  { intros x Ix. rewrite isEdg_iff. split; [|intros ->; cbn; auto]. intros (F & T). apply (NoDup_map_in _ _ _ _ _ _ NdL Ix Ib). cbn. congruence. }
  assert (Pm : Permutation l ((a, ca) :: (b, cb) :: filter kp l)).
  { rewrite (pull _ (fun x => isEdg P (from a) (to a) (fst x)) l (a, ca) (NoDup_of_map _ _ _ _ NdL) Ia KeyA) at 1. constructor.
    set (l1 := filter (fun y => negb (isEdg P (from a) (to a) (fst y))) l).
    assert (I1 : In (b, cb) l1). { apply filter_In. split; [auto|]. apply negb_true_iff, not_true_iff_false. rewrite (KeyA _ Ib). intros E. injection E; intros. symmetry in H0. now apply (st_ne _ _ _ _ _ _ St). }
    rewrite (pull _ (fun x => isEdg P (from b) (to b) (fst x)) l1 (b, cb)); [|apply NoDup_filter, (NoDup_of_map _ _ _ _ NdL)|exact I1|intros y Iy; apply KeyB; apply filter_In in Iy; tauto].
    constructor. unfold l1. rewrite filter_filter. apply Permutation_refl. }
  exists (filter kp l ++ [(new, orient ca da ++ orient cb db)]). split; [|split; [|split]].
  - rewrite map_app. cbn [map fst merged edges]. f_equal. rewrite <- El. clear. induction l as [|[e c] l IH]; cbn; [reflexivity|].
    unfold kp at 1. cbn. destruct (keepEdge a b e); cbn; now rewrite IH.
  - apply Forall_app. split; [|constructor; [exact Sn|constructor]]. apply Forall_forall. intros x Ix. apply filter_In in Ix. apply Fl. tauto.
  - rewrite flat_map_app. cbn [flat_map snd]. rewrite app_nil_r. rewrite <- Pl. rewrite (Permutation_flat_map _ Pm). cbn [flat_map snd].
    rewrite map_app, !orient_fst. rewrite Permutation_app_comm, <- app_assoc. apply Permutation_refl.
  - intros x m Ix Im e Ie T.
    assert (Old : forall y, In y l -> In m (between (snd y)) -> False).
    { intros y Iy Imy. apply merged_in in Ie. destruct Ie as [(Ie & _)| ->]; [exact (Bt y m Iy Imy e Ie T)|].
      destruct (end_touches g n a b da db m St) as [Ta|Tb]; [destruct T as [<- | <-]; cbn; auto| |].
      - exact (Bt y m Iy Imy a (st_a _ _ _ _ _ _ St) Ta).
      - exact (Bt y m Iy Imy b (st_b _ _ _ _ _ _ St) Tb). }
    apply in_app_iff in Ix. destruct Ix as [Ix|[<-|[]]].
    + apply filter_In in Ix. apply (Old x); tauto.
    + cbn [snd] in Im. destruct (sf_chain _ _ _ _ _ Sa) as (Nea & _). destruct (sf_chain _ _ _ _ _ Sb) as (Neb & _).
      apply (between_app _ _ (src (a, da)) n) in Im.
      * destruct Im as [Im|[->|Im]].
        -- apply (Old (a, ca) Ia). eapply orient_between; eauto.
        -- exact (merged_untouched _ _ _ _ _ _ _ St Ie T).
        -- apply (Old (b, cb) Ib). eapply orient_between; eauto.
      * intros E. apply (f_equal (@length _)) in E. rewrite orient_length in E. apply Nea. now apply length_zero_iff_nil.
      * intros E. apply (f_equal (@length _)) in E. rewrite orient_length in E. apply Neb. now apply length_zero_iff_nil.
      * rewrite <- (st_n1 _ _ _ _ _ _ St). now apply orient_chain.
Qed.

Lemma stands_self : forall e, ends_fit pos e -> stands_for e [(e, true)].
Proof.
  intros e F. constructor; cbn.
  - split; [discriminate|]. auto.
  - auto.
  - intros _. split; [|exact F]. change (shape e) with (line (e, true)). constructor.
  - intros h [<-|[]]. reflexivity.
  - intros h [<-|[]]. reflexivity.
  - lia.
  - intros O h [<-|[]]. exact O.
  - intros O. split; [intros h [<-|[]]; auto|]. exists (e, true). auto.
  - easy.
Qed.
Lemma inv_start : forall g, simple g -> (forall e, In e (edges g) -> ends_fit pos e) -> inv g g.
Proof.
  intros g S F. split; [reflexivity|]. split; [exact S|]. exists (map (fun e => (e, [(e, true)])) (edges g)). split; [|split; [|split]].
  - rewrite map_map. cbn. apply map_id.
  - apply Forall_forall. intros x I. apply in_map_iff in I. destruct I as (e & <- & I). cbn. apply stands_self. auto.
  - assert (E : flat_map (fun x : edge * list hop => map fst (snd x)) (map (fun e => (e, [(e, true)])) (edges g)) = edges g); [|rewrite E; reflexivity].
    clear. induction (edges g) as [|e l IH]; [reflexivity|]. cbn [map flat_map snd fst app]. now rewrite IH.
  - intros x n I. apply in_map_iff in I. destruct I as (e & <- & I). cbn. easy.
Qed.
Lemma inv_all : forall ns g0 g, inv g0 g -> inv g0 (collapse _ pos station turn g ns).
Proof. unfold collapse. induction ns as [|n ns IH]; cbn [fold_left]; intros g0 g I; [exact I|]. apply IH. now apply inv_step. Qed.
Lemma inv_collapsed : forall g0 g, inv g0 g -> collapsed pos station turn g0 g.
Proof.
  intros g0 g (En & S & l & El & Fl & Pl & Bt). split; [exact En|]. split; [exact S|]. exists (map snd l). split; [|split].
  - rewrite <- El. clear - Fl. induction l as [|x l IH]; cbn; [constructor|]. inversion Fl; subst. constructor; auto.
  - rewrite <- Pl. clear. induction l as [|x l IH]; cbn; [constructor|]. rewrite map_app. now apply Permutation_app_head.
  - intros c n Ic In_ e Ie. apply in_map_iff in Ic. destruct Ic as (x & <- & Ix). eapply Bt; eauto.
Qed.
Lemma collapse_ok : forall g ns, simple g -> (forall e, In e (edges g) -> ends_fit pos e) -> collapsed pos station turn g (collapse _ pos station turn g ns).
Proof. intros. apply inv_collapsed, inv_all. now apply inv_start. Qed.

(** ** Reachability *)
Notation newE a b da db := (mkE (src (a, da)) (dst (b, db)) (mergeEdgePL P pos a b)).
Lemma new_code : forall a b da db, oneWay (ePl (newE a b da db)) = oneWay (ePl a).
Proof. intros. cbn. destruct (merge_flags a b) as (L & ->). reflexivity. Qed.
Lemma step_meet : forall g n a b da db, step g n a b da db -> oneWay (ePl a) <> 0 -> meet g n a b /\ oneWay (ePl b) <> 0 /\ da = true /\ db = true.
Proof.
  intros g n a b da db [] O. destruct st_ow0 as [(E & _)|(_ & Ob & -> & ->)]; [congruence|]. cbn in *. unfold src, dst in *. cbn in *.
  split; [|auto]. unfold meet. intuition.
Qed.
Lemma new_in : forall g a b da db, In (newE a b da db) (edges (merged g a b da db)).
Proof. intros. cbn. apply in_or_app. right. now left. Qed.
Lemma new_not_old : forall g n a b da db e, step g n a b da db -> In e (edges g) -> e <> newE a b da db.
Proof. intros g n a b da db e St I ->. apply (st_no1 _ _ _ _ _ _ St _ I). cbn. auto. Qed.

Lemma a_ends : forall g n a b da db, step g n a b da db -> forall m, touches a m -> m <> n -> m = src (a, da).
Proof. intros g n a b da db [] m T N. clear - st_n3 T N. unfold touches, src, dst in *. destruct da; cbn in *; intuition congruence. Qed.
Lemma b_ends : forall g n a b da db, step g n a b da db -> forall m, touches b m -> m <> n -> m = dst (b, db).
Proof. intros g n a b da db [] m T N. clear - st_n4 T N. unfold touches, src, dst in *. destruct db; cbn in *; intuition congruence. Qed.

Lemma agree_step : forall g n a b da db, simple g -> step g n a b da db -> codes_agree g -> codes_agree (merged g a b da db).
Proof.
  intros g n a b da db S St Ag m x y M Ox Oy.
  assert (Mn : m <> n). { intros ->. destruct M as (Ix & _ & Tx & _). apply (merged_untouched _ _ _ _ _ _ _ St Ix). now right. }
  assert (Ta : forall z, touches (newE a b da db) z -> z = src (a, da) \/ z = dst (b, db)) by (intros z [<- | <-]; cbn; auto).
  destruct M as (Ix & Iy & Tx & Fy & Fx & Ty & Only).
  destruct (merged_in _ _ _ _ _ _ Ix) as [(Gx & Nxa & Nxb)| Ex]; destruct (merged_in _ _ _ _ _ _ Iy) as [(Gy & Nya & Nyb)| Ey].
  - apply (Ag m x y); auto. unfold meet. repeat (split; [now auto|]). intros e Ie T.
    assert (Dec : e = a \/ e = b \/ (e <> a /\ e <> b)).
    { assert (K : forall z, In z (edges g) -> (e = z \/ e <> z)).
      { intros z Iz. destruct (Nat.eq_dec (from e) (from z)) as [F1|F1]; [|right; congruence].
        destruct (Nat.eq_dec (to e) (to z)) as [F2|F2]; [|right; congruence]. left. now apply (simple_eq g). }
      destruct (K a (st_a _ _ _ _ _ _ St)), (K b (st_b _ _ _ _ _ _ St)); auto. }
    assert (New : ~ touches (newE a b da db) m).
    { intros Tn. destruct (Only _ (new_in g a b da db) Tn) as [E|E]; symmetry in E; revert E; apply (new_not_old g n); auto. }
    destruct Dec as [->|[->|(Na & Nb)]].
    + exfalso. apply New. left. cbn. symmetry. eapply a_ends; eauto.
    + exfalso. apply New. right. cbn. symmetry. eapply b_ends; eauto.
    + apply Only; [|exact T]. eapply merged_keeps; eauto.
  - subst y. cbn in Fy, Ty. rewrite new_code in *. destruct (step_meet _ _ _ _ _ _ St Oy) as (Mt & Ob & -> & ->). cbn in *. unfold src, dst in *. cbn in *.
    apply (Ag m x a); auto. unfold meet. split; [auto|]. split; [apply Mt|]. split; [auto|]. split; [auto|]. split; [auto|].
    split; [destruct Mt as (_ & _ & E & _); congruence|]. intros e Ie T.
    destruct (Nat.eq_dec (from e) (from a)) as [F1|F1].
    + destruct (Nat.eq_dec (to e) (to a)) as [F2|F2]; [right; apply (simple_eq g); auto; apply Mt|].
      assert (Ne : e <> b). { intros ->. destruct Mt as (_ & _ & _ & E & E' & _). congruence. }
      left. destruct (Only e (merged_keeps g n a b true true e S St Ie ltac:(congruence) Ne) T) as [->|E]; [reflexivity|exfalso; revert E; now apply (new_not_old g n a b true true)].
    + assert (Ne : e <> b). { intros ->. destruct Mt as (_ & _ & _ & E & E' & _). destruct T as [T|T]; congruence. }
      left. destruct (Only e (merged_keeps g n a b true true e S St Ie ltac:(congruence) Ne) T) as [->|E]; [reflexivity|exfalso; revert E; now apply (new_not_old g n a b true true)].
  - subst x. cbn in Tx, Fx. rewrite new_code in *. destruct (step_meet _ _ _ _ _ _ St Ox) as (Mt & Ob & -> & ->). cbn in *. unfold src, dst in *. cbn in *.
    rewrite (Ag n a b Mt Ox Ob). apply (Ag m b y); auto. unfold meet. split; [apply Mt|]. split; [auto|]. split; [auto|]. split; [auto|].
    split; [destruct Mt as (_ & _ & _ & E & _); congruence|]. split; [auto|]. intros e Ie T.
    destruct (Nat.eq_dec (to e) (to b)) as [F1|F1].
    + destruct (Nat.eq_dec (from e) (from b)) as [F2|F2]; [left; apply (simple_eq g); auto; apply Mt|].
      assert (Ne : e <> a). { intros ->. destruct Mt as (_ & _ & E & _ & _ & E' & _). congruence. }
      right. destruct (Only e (merged_keeps g n a b true true e S St Ie Ne ltac:(congruence)) T) as [E| ->]; [exfalso; revert E; now apply (new_not_old g n a b true true)|reflexivity].
    + assert (Ne : e <> a). { intros ->. destruct Mt as (_ & _ & E & _ & _ & E' & _). destruct T as [T|T]; congruence. }
      right. destruct (Only e (merged_keeps g n a b true true e S St Ie Ne ltac:(congruence)) T) as [E| ->]; [exfalso; revert E; now apply (new_not_old g n a b true true)|reflexivity].
  - subst. reflexivity.
Qed.
Lemma codes_step : forall g n a b da db, step g n a b da db -> codes_ok g -> codes_ok (merged g a b da db).
Proof.
  intros g n a b da db St Ok e I. apply merged_in in I. destruct I as [(I & _)| ->]; [auto|]. rewrite new_code. apply Ok. apply (st_a _ _ _ _ _ _ St).
Qed.

Lemma reach_trans : forall (g : graph) u v w, reach g u v -> reach g v w -> reach g u w.
Proof. intros g u v w H1 H2. induction H2; [auto|]. eapply re_step; eauto. Qed.
Lemma drives_reach : forall (g : graph) u v, drives g u v -> reach g u v.
Proof. intros g u v D. eapply re_step; [apply re_here|exact D]. Qed.

Lemma reach_back : forall g n a b da db, step g n a b da db -> codes_ok g -> codes_agree g -> forall x w, reach (merged g a b da db) x w -> reach g x w.
Proof.
  intros g n a b da db St Ok Ag x w R. induction R as [|w z R IH D]; [constructor|]. apply (reach_trans g x w z IH). clear R IH.
  destruct D as (e & I & D). apply merged_in in I. destruct I as [(I & _)| ->]; [apply drives_reach; exists e; auto|].
  rewrite new_code in D. cbn in D.
  pose proof (st_a _ _ _ _ _ _ St) as Ia. pose proof (st_b _ _ _ _ _ _ St) as Ib. pose proof (st_n1 _ _ _ _ _ _ St) as N1. pose proof (st_n2 _ _ _ _ _ _ St) as N2.
  assert (Ca : oneWay (ePl a) <= 2) by auto. assert (Cb : oneWay (ePl b) <= 2) by auto.
  assert (Cc : (oneWay (ePl a) = 0 /\ oneWay (ePl b) = 0) \/ (oneWay (ePl a) = oneWay (ePl b) /\ da = true /\ db = true)).
  { destruct (Nat.eq_dec (oneWay (ePl a)) 0) as [O|O].
    - left. destruct (st_ow _ _ _ _ _ _ St) as [|(X & _)]; [auto|congruence].
    - right. destruct (step_meet _ _ _ _ _ _ St O) as (M & Ob & -> & ->). split; [|auto]. now apply (Ag n). }
  unfold src, dst in *. cbn [fst snd] in *.
  destruct D as [(F & T & C)|(F & T & C)].
  - apply (reach_trans g w n z); apply drives_reach; [exists a|exists b]; (split; [auto|]); destruct Cc as [(Oa & Ob)|(E & X1 & X2)]; destruct da, db; try discriminate; cbn in *; try lia;
    first [left; split; [congruence|split; [congruence|lia]]|right; split; [congruence|split; [congruence|lia]]|idtac].
  - apply (reach_trans g w n z); apply drives_reach; [exists b|exists a]; (split; [auto|]); destruct Cc as [(Oa & Ob)|(E & X1 & X2)]; destruct da, db; try discriminate; cbn in *; try lia;
    first [left; split; [congruence|split; [congruence|lia]]|right; split; [congruence|split; [congruence|lia]]|idtac].
Qed.

Lemma reach_fwd : forall g n a b da db, simple g -> step g n a b da db -> forall x w, x <> n -> reach g x w ->
  (w <> n -> reach (merged g a b da db) x w) /\ (w = n -> exists y, y <> n /\ reach (merged g a b da db) x y /\ drives g y n).
Proof.
  intros g n a b da db S St x w Nx R. induction R as [|w z R IH D].
  { split; [constructor|congruence]. }
  destruct IH as (IH1 & IH2).
  assert (NoLoop : forall e, In e (edges g) -> from e = n -> to e = n -> False).
  { intros e I F T. destruct (not_loop _ _ _ _ _ _ St) as (La & Lb). destruct (st_only _ _ _ _ _ _ St e I (or_introl F)); subst e; congruence. }
  assert (Old : forall e, In e (edges g) -> from e <> n -> to e <> n -> In e (edges (merged g a b da db))).
  { intros e I F T. eapply merged_keeps; eauto; intros ->.
    - pose proof (st_n1 _ _ _ _ _ _ St) as N1. unfold dst in N1. cbn in N1. destruct da; congruence.
    - pose proof (st_n2 _ _ _ _ _ _ St) as N2. unfold src in N2. cbn in N2. destruct db; congruence. }
  destruct (Nat.eq_dec w n) as [->|Nw]; destruct (Nat.eq_dec z n) as [->|Nz].
  - exfalso. destruct D as (e & I & [(F & T & _)|(F & T & _)]); eapply NoLoop; eauto.
  - split; [|congruence]. intros _. destruct (IH2 eq_refl) as (y & Ny & Ry & Dy). clear IH1 IH2 R.
    destruct Dy as (e & Ie & De). destruct D as (e' & Ie' & De').
    assert (Te : touches e n) by (destruct De as [(_ & T & _)|(T & _)]; unfold touches; auto).
    assert (Te' : touches e' n) by (destruct De' as [(T & _)|(_ & T & _)]; unfold touches; auto).
    pose proof (st_n1 _ _ _ _ _ _ St) as N1. pose proof (st_n2 _ _ _ _ _ _ St) as N2. pose proof (st_ow _ _ _ _ _ _ St) as Ow.
    destruct (st_only _ _ _ _ _ _ St e Ie Te) as [-> | ->]; destruct (st_only _ _ _ _ _ _ St e' Ie' Te') as [-> | ->].
    + assert (z = y) by (destruct De as [(A1 & A2 & _)|(A1 & A2 & _)], De' as [(B1 & B2 & _)|(B1 & B2 & _)]; congruence). now subst.
    + apply (re_step _ _ y); [exact Ry|]. exists (newE a b da db). split; [apply new_in|]. rewrite new_code. cbn. left.
      unfold src, dst in *. cbn in *. destruct da, db, Ow as [(O1 & O2)|(O1 & O2 & X1 & X2)]; try discriminate; destruct De as [(A1 & A2 & C)|(A1 & A2 & C)], De' as [(B1 & B2 & C')|(B1 & B2 & C')]; try congruence; repeat split; try congruence; lia.
    + apply (re_step _ _ y); [exact Ry|]. exists (newE a b da db). split; [apply new_in|]. rewrite new_code. cbn. right.
      unfold src, dst in *. cbn in *. destruct da, db, Ow as [(O1 & O2)|(O1 & O2 & X1 & X2)]; try discriminate; destruct De as [(A1 & A2 & C)|(A1 & A2 & C)], De' as [(B1 & B2 & C')|(B1 & B2 & C')]; try congruence; repeat split; try congruence; lia.
    + assert (z = y) by (destruct De as [(A1 & A2 & _)|(A1 & A2 & _)], De' as [(B1 & B2 & _)|(B1 & B2 & _)]; congruence). now subst.
  - split; [congruence|]. intros _. exists w. auto.
  - split; [|congruence]. intros _. apply (re_step _ _ w); [auto|]. destruct D as (e & I & D). exists e. split; [|exact D].
    apply Old; [auto|destruct D as [(F & T & _)|(F & T & _)]; congruence|destruct D as [(F & T & _)|(F & T & _)]; congruence].
Qed.

Notation collapseAt := (collapseAt P pos station turn). Notation collapse := (collapse P pos station turn).
Lemma untouched_step : forall g ns m, simple g -> (forall e, In e (edges g) -> ~ touches e m) -> forall e, In e (edges (collapseAt g ns)) -> ~ touches e m.
Proof.
  intros g [n sw] m S U e I T. destruct (collapseAt_cases g n sw S) as [E|(a & b & da & db & St & E)]; rewrite E in I; [exact (U e I T)|].
  apply merged_in in I. destruct I as [(I & _)| ->]; [exact (U e I T)|].
  destruct (end_touches g n a b da db m St) as [Ta|Tb]; [destruct T as [<- | <-]; cbn; auto|exact (U a (st_a _ _ _ _ _ _ St) Ta)|exact (U b (st_b _ _ _ _ _ _ St) Tb)].
Qed.
Lemma simple_step : forall g ns, simple g -> simple (collapseAt g ns).
Proof.
  intros g [n sw] S. destruct (collapseAt_cases g n sw S) as [E|(a & b & da & db & St & E)]; rewrite E; [exact S|]. eapply merged_simple; eauto.
Qed.
Lemma untouched_all : forall ns g m, simple g -> (forall e, In e (edges g) -> ~ touches e m) -> forall e, In e (edges (collapse g ns)) -> ~ touches e m.
Proof.
  unfold OsmGraph_model.collapse. induction ns as [|n ns IH]; cbn [fold_left]; intros g m S U; [exact U|]. apply IH; [now apply simple_step|]. now apply untouched_step.
Qed.
Lemma reach_collapse : forall ns g, simple g -> codes_ok g -> codes_agree g -> forall x w,
  (station x = true \/ turn x = true \/ exists e, In e (edges (collapse g ns)) /\ touches e x) ->
  (station w = true \/ turn w = true \/ exists e, In e (edges (collapse g ns)) /\ touches e w) ->
  (reach g x w <-> reach (collapse g ns) x w).
Proof.
  induction ns as [|[n sw] ns IH]; intros g S Ok Ag x w Kx Kw; [reflexivity|].
  change (collapse g ((n, sw) :: ns)) with (collapse (collapseAt g (n, sw)) ns) in *.
  rewrite <- (IH (collapseAt g (n, sw)) (simple_step g (n, sw) S)); auto.
  - destruct (collapseAt_cases g n sw S) as [E|(a & b & da & db & St & E)]; [rewrite E; reflexivity|].
    assert (Alive : forall y, (station y = true \/ turn y = true \/ exists e, In e (edges (collapse (collapseAt g (n, sw)) ns)) /\ touches e y) -> y <> n).
    { intros y Ky ->. destruct (st_plain _ _ _ _ _ _ St) as (P1 & P2). destruct Ky as [Ky|[Ky|(e & Ie & Te)]]; [congruence|congruence|].
      apply (untouched_all ns (collapseAt g (n, sw)) n (simple_step g (n, sw) S)) in Ie; [contradiction|]. rewrite E. intros e' I'. eapply merged_untouched; eauto. }
    pose proof (Alive x Kx) as Nx. pose proof (Alive w Kw) as Nw. rewrite E. split.
    + intros R. now apply (reach_fwd g n a b da db S St x w Nx R).
    + now apply (reach_back g n).
  - destruct (collapseAt_cases g n sw S) as [E|(a & b & da & db & St & E)]; rewrite E; [exact Ok|]. eapply codes_step; eauto.
  - destruct (collapseAt_cases g n sw S) as [E|(a & b & da & db & St & E)]; rewrite E; [exact Ag|]. eapply agree_step; eauto.
Qed.

(** ** writeODirEdgs *)
Definition odinv (g0 : graph) (s : graph * list edge) : Prop :=
  simple (fst s) /\ nodes (fst s) = nodes g0 /\
  exists news, edges (fst s) = edges g0 ++ news /\
    (forall e', In e' news -> exists e, In e (edges g0) /\ mirrored e e' /\ ~ exists x, In x (edges g0) /\ from x = from e' /\ to x = to e') /\
    (forall e, In e (snd s) <-> In e (edges g0) /\ restr (ePl e) = true /\ exists e', In e' news /\ from e' = to e /\ to e' = from e).
Definition has_rev (g : graph) (e : edge) : Prop := exists e', In e' (edges g) /\ from e' = to e /\ to e' = from e.

Lemma odedge_ok : forall g0 s e, odinv g0 s -> In e (edges (fst s)) -> odinv g0 (oDirEdge P s e) /\ has_rev (fst (oDirEdge P s e)) e /\
  exists l, edges (fst (oDirEdge P s e)) = edges (fst s) ++ l /\ forall x, In x l -> from x <> from e \/ has_rev (fst (oDirEdge P s e)) x.
Proof. clear pos station turn.
  intros g0 [g ds] e Iv Ie. unfold oDirEdge. cbn [fst snd] in *. destruct (hasEdg P g (to e) (from e)) eqn:H.
  - split; [exact Iv|]. split; [|exists []; cbn; rewrite app_nil_r; split; [reflexivity|easy]]. cbn. apply hasEdg_iff in H. destruct H as (x & Ix & F & T). exists x. auto.
  - rewrite (addEdg_new _ _ _ _ H). pose proof (proj1 (hasEdg_false _ _ _) H) as No. clear H.
    destruct Iv as (S & Nn & news & E & Hn & Hd). cbn [fst snd] in *.
    assert (S0 : simple g0). { unfold simple in *. rewrite E, map_app in S. clear - S. induction (map (fun e => (from e, to e)) (edges g0)) as [|a l IH]; [constructor|].
      cbn in S. inversion S; subst. constructor; [intros I; apply H1, in_or_app; auto|auto]. }
    assert (I0 : In e (edges g0)).
    { rewrite E in Ie. apply in_app_or in Ie. destruct Ie as [I|I]; [auto|]. exfalso. destruct (Hn e I) as (x & Ix & (F & T & _) & _).
      apply (No x); [rewrite E; apply in_or_app; auto|auto]. }
    split; [|split].
    + split; [|split; [exact Nn|]].
      * unfold simple. cbn. rewrite map_app. apply NoDup_snoc; [exact S|]. cbn. intros I. apply in_map_iff in I. destruct I as (x & X & Ix). inversion X. apply (No x); auto.
      * exists (news ++ [mkE (to e) (from e) (revCopy P (ePl e))]). cbn [fst edges snd]. rewrite E, <- app_assoc. split; [reflexivity|]. split.
        { intros e' I. apply in_app_or in I. destruct I as [I|[<-|[]]]; [auto|]. exists e. split; [auto|]. cbn. split.
          - unfold mirrored, revCopy. cbn. repeat (split; [reflexivity|]). repeat split; intros ->; reflexivity.
          - intros (x & Ix & F & T). apply (No x); [rewrite E; apply in_or_app; auto|auto]. }
        { assert (Hd' : forall e1, In e1 (edges g0) -> restr (ePl e1) = true -> ((exists e', In e' (news ++ [mkE (to e) (from e) (revCopy P (ePl e))]) /\ from e' = to e1 /\ to e' = from e1) <-> (e1 = e \/ In e1 ds))).
          { intros e1 I1 R1. split.
            - intros (e' & I' & F & T). apply in_app_or in I'. destruct I' as [I'|[<-|[]]].
              + right. apply Hd. split; [auto|]. split; [auto|]. exists e'. auto.
              + left. cbn in *. apply (simple_eq g0); auto.
            - intros [->|I]; [eexists; split; [apply in_or_app; right; left; reflexivity|cbn; auto]|]. apply Hd in I. destruct I as (_ & _ & e' & I' & F). exists e'. split; [apply in_or_app; auto|auto]. }
          intros e1. destruct (restr (ePl e)) eqn:R.
          - split.
            + intros I. apply in_app_or in I. destruct I as [I|[<-|[]]].
              * pose proof (proj1 (Hd e1) I) as (A & B & _). split; [auto|]. split; [auto|]. apply Hd'; auto.
              * split; [auto|]. split; [auto|]. apply Hd'; auto.
            + intros (A & B & C). apply Hd' in C; auto. apply in_or_app. destruct C as [->|C]; [right; now left|auto].
          - split.
            + intros I. pose proof (proj1 (Hd e1) I) as (A & B & _). split; [auto|]. split; [auto|]. apply Hd'; auto.
            + intros (A & B & C). apply Hd' in C; auto. destruct C as [->|C]; [congruence|auto]. }
    + cbn. exists (mkE (to e) (from e) (revCopy P (ePl e))). cbn. split; [apply in_or_app; right; now left|auto].
    + cbn. exists [mkE (to e) (from e) (revCopy P (ePl e))]. split; [reflexivity|]. intros x [<-|[]]. right. exists e. cbn. split; [apply in_or_app; auto|auto].
Qed.
Lemma has_rev_mono : forall (g g' : graph) e, (forall x, In x (edges g) -> In x (edges g')) -> has_rev g e -> has_rev g' e.
Proof. clear pos station turn. intros g g' e Sub (e' & I & H). exists e'. auto. Qed.
Lemma odedges_ok : forall l g0 s, odinv g0 s -> (forall e, In e l -> In e (edges (fst s))) ->
  odinv g0 (fold_left (oDirEdge P) l s) /\ (forall e, In e l -> has_rev (fst (fold_left (oDirEdge P) l s)) e) /\
  exists m, edges (fst (fold_left (oDirEdge P) l s)) = edges (fst s) ++ m /\ forall x, In x m -> has_rev (fst (fold_left (oDirEdge P) l s)) x.
Proof. clear pos station turn.
  induction l as [|e l IH]; intros g0 s Iv Sub; cbn [fold_left].
  - split; [auto|]. split; [easy|]. exists []. rewrite app_nil_r. split; [reflexivity|easy].
  - destruct (odedge_ok g0 s e Iv (Sub e (or_introl eq_refl))) as (Iv1 & R1 & l1 & E1 & H1).
    assert (Sub1 : forall e', In e' l -> In e' (edges (fst (oDirEdge P s e)))). { intros e' I. rewrite E1. apply in_or_app. left. apply Sub. now right. }
    destruct (IH g0 _ Iv1 Sub1) as (Iv2 & R2 & m & E2 & H2).
    assert (Mono : forall x, In x (edges (fst (oDirEdge P s e))) -> In x (edges (fst (fold_left (oDirEdge P) l (oDirEdge P s e))))).
    { intros x I. rewrite E2. apply in_or_app. auto. }
    split; [exact Iv2|]. split.
    + intros e' [<-|I]; [|auto]. eapply has_rev_mono; eauto.
    + exists (l1 ++ m). rewrite E2, E1, <- app_assoc. split; [reflexivity|]. intros x I. apply in_app_or in I. destruct I as [I|I]; [|auto].
      apply (has_rev_mono _ _ _ Mono). destruct (H1 x I) as [Fx|R]; [|exact R]. clear - Iv Iv1 E1 I Sub R1 Fx.
      destruct s as [g ds]. unfold oDirEdge in *. cbn [fst] in *. destruct (hasEdg P g (to e) (from e)) eqn:Hh.
      * exfalso. cbn in E1. rewrite <- (app_nil_r (edges g)) in E1 at 1. apply app_inv_head in E1. subst. contradiction.
      * rewrite (addEdg_new _ _ _ _ Hh) in *. cbn in *. apply app_inv_head in E1. subst. destruct I as [<-|[]]. exists e. cbn. split; [apply in_or_app; left; auto|auto].
Qed.
Lemma odnodes_ok : forall ns g0 s, odinv g0 s ->
  odinv g0 (fold_left (oDirNode P) ns s) /\ (exists m, edges (fst (fold_left (oDirNode P) ns s)) = edges (fst s) ++ m /\ forall x, In x m -> has_rev (fst (fold_left (oDirNode P) ns s)) x) /\
  forall e, In e (edges (fst s)) -> In (from e) ns -> has_rev (fst (fold_left (oDirNode P) ns s)) e.
Proof. clear pos station turn.
  induction ns as [|n ns IH]; intros g0 s Iv; cbn [fold_left].
  - split; [auto|]. split; [exists []; rewrite app_nil_r; split; [reflexivity|easy]|easy].
  - destruct (odedges_ok (adjOut P (fst s) n) g0 s Iv) as (Iv1 & R1 & m1 & E1 & H1). { intros e I. apply adjOut_in in I. apply I. }
    change (fold_left (oDirEdge P) (adjOut P (fst s) n) s) with (oDirNode P s n) in *.
    destruct (IH g0 _ Iv1) as (Iv2 & (m2 & E2 & H2) & R2).
    assert (Mono : forall x, In x (edges (fst (oDirNode P s n))) -> In x (edges (fst (fold_left (oDirNode P) ns (oDirNode P s n))))).
    { intros x I. rewrite E2. apply in_or_app. auto. }
    split; [exact Iv2|]. split.
    + exists (m1 ++ m2). rewrite E2, E1, <- app_assoc. split; [reflexivity|]. intros x I. apply in_app_or in I. destruct I as [I|I]; [|auto]. eapply has_rev_mono; eauto.
    + intros e I [Fe|If].
      * apply (has_rev_mono _ _ _ Mono). apply R1. apply adjOut_in. split; [auto|now symmetry].
      * apply R2; [|auto]. rewrite E1. apply in_or_app. auto.
Qed.
Lemma two_way_ok : forall g ns, simple g -> (forall e, In e (edges g) -> In (from e) ns) ->
  two_way g (fst (writeODirEdgs P g ns)) (snd (writeODirEdgs P g ns)).
Proof. clear pos station turn.
  intros g ns S Cov. unfold writeODirEdgs.
  assert (Iv : odinv g (g, [])). { split; [auto|]. split; [auto|]. exists []. cbn. rewrite app_nil_r. split; [auto|]. split; [easy|]. split; [easy|]. intros (_ & _ & e' & [] & _). }
  destruct (odnodes_ok ns g (g, []) Iv) as ((S' & Nn & news & E & Hn & Hd) & (m & Em & Hm) & Hr). cbn [fst] in Em, Hr.
  set (r := fold_left (oDirNode P) ns (g, [])) in *. constructor; auto.
  - exists news. auto.
  - intros e I. rewrite E in I. rewrite Em in E. apply app_inv_head in E. subst m. apply in_app_or in I. destruct I as [I|I]; [apply Hr; auto|now apply Hm].
  - intros e. rewrite Hd. split; intros (I & R & X); split; auto; split; auto.
    + destruct X as (e' & I' & F & T). intros (x & Ix & Fx & Tx). destruct (Hn e' I') as (_ & _ & _ & No). apply No. exists x. split; [auto|split; congruence].
    + destruct (Hr e I (Cov e I)) as (e' & I' & F & T). rewrite E in I'. apply in_app_or in I'. destruct I' as [I'|I']; [exfalso; apply X; exists e'; auto|]. exists e'. auto.
Qed.

Lemma odedge_once : forall g0 s e, odinv g0 s -> In e (edges (fst s)) -> NoDup (snd s) -> NoDup (snd (oDirEdge P s e)).
Proof. clear pos station turn.
  intros g0 [g ds] e (S & Nn & news & E & Hn & Hd) Ie N. unfold oDirEdge. cbn [fst snd] in *. destruct (hasEdg P g (to e) (from e)) eqn:H; [exact N|].
  cbn [snd]. destruct (restr (ePl e)); [|exact N]. apply NoDup_snoc; [exact N|]. intros I. apply Hd in I. destruct I as (_ & _ & e' & I' & F & T).
  apply (proj1 (hasEdg_false _ _ _) H e'); [rewrite E; apply in_or_app; auto|auto].
Qed.
Lemma odedges_once : forall l g0 s, odinv g0 s -> (forall e, In e l -> In e (edges (fst s))) -> NoDup (snd s) -> NoDup (snd (fold_left (oDirEdge P) l s)).
Proof. clear pos station turn.
  induction l as [|e l IH]; intros g0 s Iv Sub N; cbn [fold_left]; [exact N|].
  destruct (odedge_ok g0 s e Iv (Sub e (or_introl eq_refl))) as (Iv1 & _ & l1 & E1 & _). apply (IH g0); auto.
  - intros e' I. rewrite E1. apply in_or_app. left. apply Sub. now right.
  - apply (odedge_once g0); auto. apply Sub. now left.
Qed.
Lemma dup_once : forall g ns, simple g -> NoDup (snd (writeODirEdgs P g ns)).
Proof. clear pos station turn.
  intros g ns S. unfold writeODirEdgs.
  assert (Iv : odinv g (g, [])). { split; [auto|]. split; [auto|]. exists []. cbn. rewrite app_nil_r. split; [auto|]. split; [easy|]. split; [easy|]. intros (_ & _ & e' & [] & _). }
  assert (N : NoDup (snd (g, @nil edge))) by constructor. revert Iv N. generalize (g, @nil edge). clear S.
  induction ns as [|n ns IH]; intros s Iv N; cbn [fold_left]; [exact N|]. apply IH.
  - destruct (odedges_ok (adjOut P (fst s) n) g s Iv) as (Iv1 & _); [|exact Iv1]. intros e I. apply adjOut_in in I. apply I.
  - apply (odedges_once _ g); auto. intros e I. apply adjOut_in in I. apply I.
Qed.

Lemma mapO_in : forall (A B : Type) (f : A -> option B) l r y, mapO f l = Some r -> In y r -> exists x, In x l /\ f x = Some y.
Proof.
  induction l as [|x l IH]; cbn; intros r y E I; [injection E as <-; easy|]. destruct (f x) eqn:Fx; [|easy]. destruct (mapO f l) eqn:M; [|easy]. injection E as <-.
  destruct I as [<-|I]; [exists x; auto|]. destruct (IH _ _ eq_refl I) as (z & Iz & Ez). exists z. auto.
Qed.
Lemma mapO_some : forall (A B : Type) (f : A -> option B) l, (forall x, In x l -> f x <> None) -> mapO f l <> None.
Proof.
  induction l as [|x l IH]; cbn; intros H; [easy|]. destruct (f x) eqn:Fx; [|exfalso; apply (H x); auto]. destruct (mapO f l) eqn:M; [easy|]. exfalso. apply IH; auto.
Qed.
Lemma mapO_map : forall (A B C : Type) (f : A -> option B) (u : A -> C) (v : B -> C) l r, (forall x y, f x = Some y -> v y = u x) -> mapO f l = Some r -> map v r = map u l.
Proof.
  induction l as [|x l IH]; cbn; intros r H E; [now injection E as <-|]. destruct (f x) eqn:Fx; [|easy]. destruct (mapO f l) eqn:M; [|easy]. injection E as <-.
  cbn. now rewrite (H _ _ Fx), (IH l0).
Qed.
Section Geoms.
Variable costOf : list P -> nat -> N.
Variable simplify : list P -> list P.
Lemma geoms_ok : forall g ns, (forall a m b, exists m', simplify (a :: m ++ [b]) = a :: m' ++ [b]) -> simple g -> (forall e, In e (edges g) -> In (from e) ns) ->
  (forall e, In e (edges g) -> rev_ (ePl e) = false) ->
  exists g1, simplifyGeoms P simplify (writeGeoms P pos costOf g) = Some g1 /\
    map (fun e => (from e, to e, (oneWay (ePl e), restr (ePl e), lvl (ePl e), lines (ePl e)))) (edges g1) = map (fun e => (from e, to e, (oneWay (ePl e), restr (ePl e), lvl (ePl e), lines (ePl e)))) (edges g) /\
    (forall e, In e (edges g) -> exists e1, In e1 (edges g1) /\ from e1 = from e /\ to e1 = to e /\ cost (ePl e1) = costOf (shape e) (lvl (ePl e))) /\
    two_way g1 (fst (writeODirEdgs P g1 ns)) (snd (writeODirEdgs P g1 ns)) /\
    forall e1, In e1 (edges (fst (writeODirEdgs P g1 ns))) ->
      (forall e, In e (edges g) -> (from e = from e1 /\ to e = to e1) \/ (from e = to e1 /\ to e = from e1) -> ends_fit pos e) -> fits pos e1.
Proof.
  intros g ns Ends S Cov Rv. unfold simplifyGeoms.
  destruct (mapO (simplifyGeom P simplify) (edges (writeGeoms P pos costOf g))) as [es|] eqn:M.
  2: { exfalso. revert M. apply mapO_some. intros x I. cbn in I. apply in_map_iff in I. destruct I as (e & <- & _). easy. }
  eexists. split; [reflexivity|]. cbn [nodes edges].
  assert (Flags : map (fun e => (from e, to e, (oneWay (ePl e), restr (ePl e), lvl (ePl e), lines (ePl e)))) es = map (fun e => (from e, to e, (oneWay (ePl e), restr (ePl e), lvl (ePl e), lines (ePl e)))) (edges g)).
  { set (k := fun e : edge => (from e, to e, (oneWay (ePl e), restr (ePl e), lvl (ePl e), lines (ePl e)))).
    assert (Hk : forall x y, simplifyGeom P simplify x = Some y -> k y = k x).
    { intros x y H. unfold simplifyGeom in H. destruct (geom (ePl x)); [injection H as <-; reflexivity|discriminate]. }
    rewrite (mapO_map _ _ _ _ k k _ _ Hk M).
    cbn. rewrite map_map. reflexivity. }
  assert (Ft : map (fun e => (from e, to e)) es = map (fun e => (from e, to e)) (edges g)).
  { pose proof (f_equal (map (fun x => fst x)) Flags) as X. rewrite !map_map in X. exact X. }
  assert (S1 : simple (mkG (nodes (writeGeoms P pos costOf g)) es)) by (unfold simple; cbn; rewrite Ft; exact S).
  assert (Each : forall e1, In e1 es -> exists e, In e (edges g) /\ from e1 = from e /\ to e1 = to e /\ rev_ (ePl e1) = false /\ cost (ePl e1) = costOf (shape e) (lvl (ePl e)) /\ geom (ePl e1) = Some (simplify (shape e))).
  { intros e1 I1. destruct (mapO_in _ _ _ _ _ _ M I1) as (x & Ix & Ex). cbn in Ix. apply in_map_iff in Ix. destruct Ix as (e & <- & Ie). exists e. cbn in Ex. injection Ex as <-. cbn.
    rewrite !(geomOf_shape e). repeat (split; [now auto|]). reflexivity. }
  assert (TW : two_way (mkG (nodes (writeGeoms P pos costOf g)) es) (fst (writeODirEdgs P (mkG (nodes (writeGeoms P pos costOf g)) es) ns)) (snd (writeODirEdgs P (mkG (nodes (writeGeoms P pos costOf g)) es) ns))).
  { apply two_way_ok; [exact S1|]. cbn. intros e1 I1. destruct (Each e1 I1) as (e & Ie & -> & _). auto. }
  split; [exact Flags|]. split.
  { intros e Ie. pose proof (in_map (fun e => (from e, to e)) _ _ Ie) as X. rewrite <- Ft in X. apply in_map_iff in X. destruct X as (e1 & X & I1). injection X as F T.
    exists e1. split; [auto|]. split; [auto|]. split; [auto|]. destruct (Each e1 I1) as (e' & Ie' & F' & T' & _ & C & _). assert (e' = e) by (apply (simple_eq g); auto; congruence). now subst. }
  split; [exact TW|]. intros e1 I1 Fit. destruct (tw_news _ _ _ TW) as (news & E & Hn). rewrite E in I1. cbn in I1. apply in_app_or in I1. destruct I1 as [I1|I1].
  - destruct (Each e1 I1) as (e & Ie & F & T & R & _ & G). unfold fits, points. rewrite G, R.
    specialize (Fit e Ie (or_introl (conj (eq_sym F) (eq_sym T)))). unfold ends_fit in Fit. unfold shape. rewrite F, T. destruct (geom (ePl e)) as [l|].
    + destruct Fit as (m & ->). destruct (Ends (pos (from e)) m (pos (to e))) as (m' & ->). now exists m'.
    + destruct (Ends (pos (from e)) [] (pos (to e))) as (m' & Em). cbn [app] in Em. rewrite Em. now exists m'.
  - destruct (Hn e1 I1) as (e0 & I0 & (F & T & _ & _ & _ & _ & G & R & _) & _). cbn in I0. destruct (Each e0 I0) as (e & Ie & F0 & T0 & _ & _ & G0). unfold fits, points. rewrite G, R, G0.
    specialize (Fit e Ie (or_intror (conj (eq_trans (eq_sym F0) (eq_sym T)) (eq_trans (eq_sym T0) (eq_sym F))))). unfold ends_fit in Fit. unfold shape. rewrite F, T, F0, T0. destruct (geom (ePl e)) as [l|].
    + destruct Fit as (m & ->). destruct (Ends (pos (from e)) m (pos (to e))) as (m' & ->). exists (rev m'). cbn. now rewrite rev_app_distr.
    + destruct (Ends (pos (from e)) [] (pos (to e))) as (m' & Em). cbn [app] in Em. rewrite Em. exists (rev m'). cbn. now rewrite rev_app_distr.
Qed.
End Geoms.

(** ** writeSelfEdgs *)
Definition lonely (g : graph) (n : nat) : bool := station n && (length (adjOut P g n) =? 1).
Lemma lonely_iff : forall g n, simple g -> (lonely g n = true <-> station n = true /\ exists e, In e (edges g) /\ from e = n /\ forall x, In x (edges g) -> from x = n -> x = e).
Proof.
  intros g n S. unfold lonely. rewrite andb_true_iff, Nat.eqb_eq. split; intros (A & B); (split; [exact A|]).
  - destruct (adjOut P g n) as [|e [|e' l]] eqn:E; try discriminate. assert (H : forall x, In x (adjOut P g n) <-> x = e) by (intros x; rewrite E; cbn; intuition).
    exists e. pose proof (proj2 (H e) eq_refl) as I. apply adjOut_in in I. destruct I as (I & F). split; [auto|]. split; [auto|]. intros x Ix Fx. apply H. apply adjOut_in. auto.
  - destruct B as (e & I & F & U). assert (Nd : NoDup (adjOut P g n)). { apply (NoDup_of_map _ _ (fun e => (from e, to e))). apply NoDup_map_filter. exact S. }
    assert (H : forall x, In x (adjOut P g n) <-> x = e). { intros x. rewrite adjOut_in. split; [intros (X & Y); auto|intros ->; auto]. }
    destruct (adjOut P g n) as [|x [|y l]]; [exfalso; apply (proj2 (H e) eq_refl)|reflexivity|]. exfalso. inversion Nd; subst. apply H2. left. rewrite (proj1 (H x)), (proj1 (H y)); auto; [right; now left|now left].
Qed.
Lemma self_ok : forall ns g, NoDup ns -> simple g -> (forall e, In e (edges g) -> from e = to e -> lonely g (from e) = false) ->
  edges (writeSelfEdgs P pos station g ns) = edges g ++ map (fun n => mkE n n (selfPl P pos n)) (filter (lonely g) ns) /\ nodes (writeSelfEdgs P pos station g ns) = nodes g.
Proof.
  unfold writeSelfEdgs. induction ns as [|n ns IH]; intros g Nd S NL; cbn [fold_left filter map]; [split; [now rewrite app_nil_r|reflexivity]|].
  inversion Nd; subst. unfold writeSelfEdg at 2 4. change (station n && (length (adjOut P g n) =? 1)) with (lonely g n). destruct (lonely g n) eqn:L; [|now apply IH].
  assert (No : hasEdg P g n n = false). { apply hasEdg_false. intros e I (F & T). specialize (NL e I ltac:(congruence)). congruence. }
  unfold hasEdg in No. destruct (getEdg P g n n) eqn:G; [discriminate|]. unfold addEdg. rewrite G.
  set (g1 := mkG (nodes g) (edges g ++ [mkE n n (selfPl P pos n)])).
  assert (Len : forall x, length (adjOut P g1 x) = length (adjOut P g x) + if n =? x then 1 else 0).
  { intros x. unfold adjOut. cbn. rewrite filter_app, app_length. cbn. destruct (n =? x); reflexivity. }
  assert (Lo : forall x, x <> n -> lonely g1 x = lonely g x). { intros x N0. unfold lonely. rewrite Len. destruct (n =? x) eqn:E; [apply Nat.eqb_eq in E; congruence|]. now rewrite Nat.add_0_r. }
  assert (Ln : lonely g1 n = false). { unfold lonely. rewrite Len, Nat.eqb_refl. unfold lonely in L. apply andb_prop in L. destruct L as (-> & L). apply Nat.eqb_eq in L. rewrite L. reflexivity. }
  destruct (IH g1 H2) as (E1 & E2).
  - unfold simple. cbn. rewrite map_app. apply NoDup_snoc; [exact S|]. cbn. intros I. apply in_map_iff in I. destruct I as (x & X & Ix). injection X as F T.
    assert (Y : hasEdg P g n n = true) by (apply hasEdg_iff; exists x; auto). unfold hasEdg in Y. rewrite G in Y. discriminate.
  - intros e I F. cbn in I. apply in_app_or in I. destruct I as [I|[<-|[]]]; [|exact Ln]. destruct (Nat.eq_dec (from e) n) as [->|N0]; [exact Ln|]. rewrite Lo; auto.
  - rewrite E1, E2. split; [|reflexivity]. cbn [edges g1 map]. rewrite <- app_assoc. cbn. do 2 f_equal. f_equal.
    apply filter_ext'. intros x I. apply Lo. intros ->. contradiction.
Qed.
Lemma self_edges_ok : forall g ns, NoDup ns -> simple g -> (forall e, In e (edges g) -> from e = to e -> station (from e) = true -> exists x, In x (edges g) /\ from x = from e /\ x <> e) ->
  exists ns', self_edges pos station g (writeSelfEdgs P pos station g ns) ns ns'.
Proof.
  intros g ns Nd S NL. exists (filter (lonely g) ns).
  assert (NL' : forall e, In e (edges g) -> from e = to e -> lonely g (from e) = false).
  { intros e I F. destruct (lonely g (from e)) eqn:L; [|reflexivity]. exfalso. apply lonely_iff in L; [|auto]. destruct L as (St & y & Iy & Fy & U).
    destruct (NL e I F St) as (x & Ix & Fx & Nx). apply Nx. rewrite (U x Ix Fx), (U e I eq_refl). reflexivity. }
  destruct (self_ok ns g Nd S NL') as (E1 & E2). split; [exact E2|]. split.
  - eexists. split; [exact E1|]. clear. induction (filter (lonely g) ns) as [|n l IH]; cbn; constructor; cbn; auto.
  - intros n. rewrite filter_In, lonely_iff by auto. reflexivity.
Qed.

End Proofs.

(** ** writeComps *)
Section Comps.
Context {P : Type}.
Notation edge := (edge P). Notation graph := (graph P).
Variable speed : nat -> Q.
Variable fl : Q -> Q.
Notation upSpeed := (upSpeed P speed fl).
Definition nb (g : graph) (n : nat) : list nat := map (fun e => other P e n) (adjOut P g n ++ adjIn P g n).
Lemma other_cases : forall (e : edge) n, touches e n -> (from e = n /\ to e = other P e n) \/ (from e = other P e n /\ to e = n).
Proof. intros e n T. unfold other. destruct (from e =? n) eqn:E; [apply Nat.eqb_eq in E; auto|]. apply Nat.eqb_neq in E. destruct T; [contradiction|auto]. Qed.
Lemma nb_iff : forall g u w, In w (nb g u) <-> exists e, In e (edges g) /\ ((from e = u /\ to e = w) \/ (from e = w /\ to e = u)).
Proof.
  intros g u w. unfold nb. rewrite in_map_iff. split.
  - intros (e & <- & I). apply in_app_or in I. exists e. rewrite adjOut_in, adjIn_in in I. assert (T : touches e u) by (unfold touches; tauto). split; [tauto|]. destruct (other_cases e u T); tauto.
  - intros (e & I & H). exists e. rewrite in_app_iff, adjOut_in, adjIn_in. split; [|tauto]. unfold other. destruct H as [(F & T)|(F & T)].
    + rewrite F, Nat.eqb_refl. exact T.
    + destruct (from e =? u) eqn:E; [apply Nat.eqb_eq in E; congruence|exact F].
Qed.
Lemma visit_fold : forall c n l m q, fold_left (visit P speed fl c n) l (m, q) =
  (fold_left upSpeed l m, rev (filter (fun v => compOf c v =? 0) (map (fun e => other P e n) l)) ++ q).
Proof.
  induction l as [|e l IH]; intros m q; cbn [fold_left map filter]; [reflexivity|]. unfold visit at 2. cbn [fst snd]. rewrite IH. f_equal.
  destruct (compOf c (other P e n) =? 0); cbn; [|reflexivity]. now rewrite <- app_assoc.
Qed.
Lemma visit_both : forall g c n m q, fold_left (visit P speed fl c n) (adjIn P g n) (fold_left (visit P speed fl c n) (adjOut P g n) (m, q)) =
  (fold_left upSpeed (adjOut P g n ++ adjIn P g n) m, rev (filter (fun v => compOf c v =? 0) (nb g n)) ++ q).
Proof. intros. rewrite <- fold_left_app, visit_fold. reflexivity. Qed.
Lemma comp_set : forall c n k x, compOf (setComp c n k) x = if n =? x then k else compOf c x.
Proof. intros. unfold compOf, setComp. cbn. destruct (n =? x); reflexivity. Qed.

(** Number of adjacent edges of the nodes not visited. *)
Fixpoint todo (g : graph) (c : list (nat * nat)) (ns : list nat) : nat :=
  match ns with [] => 0 | n :: r => (if compOf c n =? 0 then length (nb g n) else 0) + todo g c r end.
Lemma todo_set : forall g c v k ns, k <> 0 -> todo g (setComp c v k) ns <= todo g c ns /\ (In v ns -> compOf c v = 0 -> todo g (setComp c v k) ns + length (nb g v) <= todo g c ns).
Proof.
  induction ns as [|n r IH]; intros K; cbn [todo]; [split; [lia|easy]|]. destruct (IH K) as (A & B). rewrite comp_set.
  destruct (v =? n) eqn:E.
  - apply Nat.eqb_eq in E. subst n. destruct (k =? 0) eqn:K0; [apply Nat.eqb_eq in K0; contradiction|]. destruct (compOf c v =? 0) eqn:C; split; try lia.
    intros _ C'. rewrite C' in C. discriminate.
  - split; [destruct (compOf c n =? 0); lia|]. intros [->|I] C; [rewrite Nat.eqb_refl in E; discriminate|]. specialize (B I C). destruct (compOf c n =? 0); lia.
Qed.
Fixpoint sum (f : nat -> nat) (l : list nat) : nat := match l with [] => 0 | x :: r => f x + sum f r end.
Lemma sum_le : forall (f h : nat -> nat) l, (forall x, f x <= h x) -> sum f l <= sum h l.
Proof. induction l as [|x l IH]; cbn; intros H; [lia|]. specialize (IH H). specialize (H x). lia. Qed.
Lemma sum_add : forall (f h : nat -> nat) l, sum (fun x => f x + h x) l = sum f l + sum h l.
Proof. induction l as [|x l IH]; cbn; [lia|]. rewrite IH. lia. Qed.
Lemma sum_one : forall a l, NoDup l -> sum (fun x => if a =? x then 1 else 0) l <= 1.
Proof.
  induction l as [|x l IH]; cbn; intros Nd; [lia|]. inversion Nd; subst. destruct (a =? x) eqn:E; [|apply IH; auto]. apply Nat.eqb_eq in E. subst x.
  assert (Z : sum (fun x => if a =? x then 1 else 0) l = 0); [|lia]. clear - H1. induction l as [|y l IH]; cbn; [reflexivity|].
  destruct (a =? y) eqn:E; [apply Nat.eqb_eq in E; subst; exfalso; apply H1; now left|]. apply IH. intros I. apply H1. now right.
Qed.
Lemma sum_filter : forall (A : Type) (f : A -> nat) (es : list A) ns, NoDup ns -> sum (fun n => length (filter (fun e => f e =? n) es)) ns <= length es.
Proof.
  induction es as [|e es IH]; intros ns Nd; cbn [filter length].
  - clear Nd. induction ns; cbn; [lia|]. exact IHns.
  - eapply Nat.le_trans; [apply (sum_le _ (fun n => (if f e =? n then 1 else 0) + length (filter (fun e => f e =? n) es)))|].
    + intros n. destruct (f e =? n); cbn; lia.
    + rewrite sum_add. pose proof (sum_one (f e) ns Nd). pose proof (IH ns Nd). lia.
Qed.
Lemma todo_all : forall g c ns, NoDup ns -> todo g c ns <= 2 * length (edges g).
Proof.
  intros g c ns Nd. eapply Nat.le_trans with (sum (fun n => length (adjOut P g n) + length (adjIn P g n)) ns).
  - clear Nd. induction ns as [|n r IH]; cbn [todo sum]; [lia|]. unfold nb. rewrite map_length, app_length. destruct (compOf c n =? 0); lia.
  - rewrite sum_add. pose proof (sum_filter edge from (edges g) ns Nd). pose proof (sum_filter edge to (edges g) ns Nd). unfold adjOut, adjIn. lia.
Qed.

(** Speeds. *)
Variable Rd : rounding fl.
Lemma fl_eq : forall x y, (x == y)%Q -> (fl x == fl y)%Q.
Proof. intros x y E. apply Qle_antisym; apply (rd_mono _ Rd); rewrite E; apply Qle_refl. Qed.
Lemma up_ok : forall m e, (fl m == m)%Q -> (fl (upSpeed m e) == upSpeed m e)%Q /\ (m <= upSpeed m e)%Q /\ (fl (speed (lvl (ePl e))) <= upSpeed m e)%Q /\
  (upSpeed m e = m \/ upSpeed m e = fl (speed (lvl (ePl e)))).
Proof.
  intros m e F. unfold OsmGraph_model.upSpeed. destruct (Qlt_le_dec m (speed (lvl (ePl e)))) as [L|L].
  - split; [apply (rd_idem _ Rd)|]. split; [|split; [apply Qle_refl|auto]]. rewrite <- F. apply (rd_mono _ Rd). now apply Qlt_le_weak.
  - split; [exact F|]. split; [apply Qle_refl|]. split; [|auto]. rewrite <- F. now apply (rd_mono _ Rd).
Qed.
Lemma ups_ok : forall l m, (fl m == m)%Q -> (fl (fold_left upSpeed l m) == fold_left upSpeed l m)%Q /\ (m <= fold_left upSpeed l m)%Q /\
  (forall e, In e l -> (fl (speed (lvl (ePl e))) <= fold_left upSpeed l m)%Q) /\ (fold_left upSpeed l m = m \/ exists e, In e l /\ fold_left upSpeed l m = fl (speed (lvl (ePl e)))).
Proof.
  induction l as [|e l IH]; intros m F; cbn [fold_left]; [split; [auto|split; [apply Qle_refl|split; [easy|auto]]]|].
  destruct (up_ok m e F) as (F1 & L1 & S1 & O1). destruct (IH _ F1) as (F2 & L2 & S2 & O2). split; [exact F2|]. split; [now apply Qle_trans with (upSpeed m e)|]. split.
  - intros x [<-|I]; [now apply Qle_trans with (upSpeed m e)|auto].
  - destruct O2 as [O2|(x & I & O2)]; [|right; exists x; split; [now right|auto]]. destruct O1 as [O1|O1]; [left; congruence|right; exists e; split; [now left|congruence]].
Qed.

Record dinv (g : graph) (c0 : list (nat * nat)) (k r : nat) (c : list (nat * nat)) (m : Q) (num : nat) (q : list nat) : Prop := {
  di_old : forall x, compOf c0 x <> 0 -> compOf c x = compOf c0 x;
  di_new : forall x, compOf c0 x = 0 -> compOf c x = 0 \/ (compOf c x = k /\ In x (nodes g) /\ connected g r x);
  di_stack : forall x, In x q -> compOf c0 x = 0 /\ In x (nodes g) /\ connected g r x;
  di_closed : forall v w, compOf c0 v = 0 -> compOf c v <> 0 -> In w (nb g v) -> compOf c w <> 0 \/ In w q;
  di_above : forall A v B, q = A ++ v :: B -> compOf c v <> 0 -> forall w, In w (nb g v) -> compOf c w = 0 -> In w A;
  di_fl : (fl m == m)%Q;
  di_max : forall e v, In e (edges g) -> touches e v -> compOf c0 v = 0 -> compOf c v <> 0 -> (fl (speed (lvl (ePl e))) <= m)%Q;
  di_att : (m == 0)%Q \/ exists e v, In e (edges g) /\ touches e v /\ compOf c0 v = 0 /\ compOf c v <> 0 /\ (m == fl (speed (lvl (ePl e))))%Q;
  di_zero : num = 0 -> q = [r] /\ forall x, compOf c0 x = 0 -> compOf c x = 0;
  di_one : num = 1 -> ~ In r q /\ forall x, compOf c0 x = 0 -> compOf c x <> 0 -> x = r;
  di_two : 2 <= num -> exists u, compOf c0 u = 0 /\ compOf c u <> 0 /\ u <> r;
  di_root : 1 <= num -> compOf c r <> 0
}.
Lemma connected_snoc : forall (g : graph) r v w e, connected g r v -> In e (edges g) -> (from e = v /\ to e = w) \/ (from e = w /\ to e = v) -> connected g r w.
Proof. intros. eapply cn_step; eauto. Qed.
Lemma dfs_step : forall g c0 k r c m num v q, graph_ok g -> k <> 0 -> (forall e, In e (edges g) -> compOf c0 (from e) = compOf c0 (to e)) ->
  dinv g c0 k r c m num (v :: q) ->
  dinv g c0 k r (setComp c v k) (fold_left upSpeed (adjOut P g v ++ adjIn P g v) m) (S num) (rev (filter (fun x => compOf (setComp c v k) x =? 0) (nb g v)) ++ q).
Proof.
  intros g c0 k r c m num v q Ok K Cl D. pose proof D as [Old New Stk Clo Abv Fl Mx At Z One Two Root].
  destruct (Stk v (or_introl eq_refl)) as (Cv & Iv & Nv).
  assert (Push : forall x, In x (rev (filter (fun x => compOf (setComp c v k) x =? 0) (nb g v))) <-> In x (nb g v) /\ compOf (setComp c v k) x = 0).
  { intros x. rewrite <- in_rev, filter_In, Nat.eqb_eq. reflexivity. }
  assert (Cs : forall x, compOf (setComp c v k) x = 0 -> x <> v /\ compOf c x = 0).
  { intros x E. rewrite comp_set in E. destruct (v =? x) eqn:Ex; [contradiction|]. apply Nat.eqb_neq in Ex. auto. }
  assert (Cm : forall x, compOf c x <> 0 -> compOf (setComp c v k) x <> 0). { intros x N0. rewrite comp_set. destruct (v =? x); auto. }
  assert (Cn : forall x, compOf (setComp c v k) x <> 0 -> x = v \/ compOf c x <> 0). { intros x N0. rewrite comp_set in N0. destruct (v =? x) eqn:Ex; [apply Nat.eqb_eq in Ex; auto|auto]. }
  destruct (ups_ok (adjOut P g v ++ adjIn P g v) m Fl) as (F1 & L1 & S1 & O1).
  constructor.
  - intros x N0. rewrite comp_set. destruct (v =? x) eqn:E; [apply Nat.eqb_eq in E; congruence|auto].
  - intros x C0. rewrite comp_set. destruct (v =? x) eqn:E; [apply Nat.eqb_eq in E; subst x; right; auto|auto].
  - intros x I. apply in_app_or in I. destruct I as [I|I]; [|apply Stk; now right]. apply Push in I. destruct I as (I & _). apply nb_iff in I. destruct I as (e & Ie & H).
    split; [|split].
    + specialize (Cl e Ie). destruct H as [(F & T)|(F & T)]; congruence.
    + destruct (go_ends _ Ok e Ie). destruct H as [(F & T)|(F & T)]; congruence.
    + eapply cn_step; eauto.
  - intros x w C0 N0 I. destruct (Nat.eq_dec (compOf (setComp c v k) w) 0) as [Cw|Cw]; [|auto]. right. apply in_or_app. destruct (Cn x N0) as [->|N1].
    + left. apply Push. auto.
    + right. destruct (Cs w Cw) as (Nw & Cw'). destruct (Clo x w C0 N1 I) as [X|[X|X]]; [contradiction|congruence|auto].
  - intros A u B E N0 w I Cw. destruct (Cs w Cw) as (Nw & Cw').
    assert (Split : exists A', q = A' ++ u :: B /\ A = rev (filter (fun x => compOf (setComp c v k) x =? 0) (nb g v)) ++ A').
    { assert (Nu : ~ In u (rev (filter (fun x => compOf (setComp c v k) x =? 0) (nb g v)))) by (rewrite Push; tauto).
      clear - E Nu. revert E Nu. generalize (rev (filter (fun x => compOf (setComp c v k) x =? 0) (nb g v))) as l. intros l. revert A. induction l as [|x l IH]; cbn; intros A E Nu; [exists A; auto|].
      destruct A as [|y A]; cbn in E; injection E as <- E; [exfalso; apply Nu; auto|]. destruct (IH A E) as (A' & E1 & E2); [tauto|]. exists A'. split; [auto|now rewrite E2]. }
    destruct Split as (A' & Eq & ->). apply in_or_app. destruct (Cn u N0) as [->|N1]; [left; apply Push; auto|]. right.
    assert (X : In w (v :: A')). { apply (Abv (v :: A') u B); auto. cbn. now rewrite Eq. } destruct X as [X|X]; [congruence|auto].
  - exact F1.
  - intros e x Ie T C0 N0. destruct (Cn x N0) as [->|N1]; [apply S1; apply in_or_app; rewrite adjOut_in, adjIn_in; destruct T; auto|]. apply Qle_trans with m; [eapply Mx; eauto|exact L1].
  - destruct O1 as [O1|(e & I & O1)].
    + rewrite O1. destruct At as [At|(e & x & A1 & A2 & A3 & A4 & A5)]; [auto|]. right. exists e, x. auto 8.
    + right. exists e, v. rewrite O1. apply in_app_or in I. rewrite adjOut_in, adjIn_in in I. split; [tauto|]. split; [unfold touches; tauto|]. split; [auto|]. split; [|reflexivity].
      rewrite comp_set, Nat.eqb_refl. exact K.
  - discriminate.
  - intros E. injection E as E. destruct (Z E) as (Eq & Un). injection Eq as -> ->. split.
    + rewrite app_nil_r. rewrite Push. intros (_ & X). apply Cs in X. tauto.
    + intros x C0 N0. destruct (Cn x N0) as [->|N1]; [auto|]. exfalso. apply N1. auto.
  - intros L. destruct (Nat.eq_dec num 1) as [->|Nn].
    + destruct (One eq_refl) as (Nr & _). exists v. split; [auto|]. split; [rewrite comp_set, Nat.eqb_refl; exact K|]. intros ->. apply Nr. now left.
    + destruct (Two ltac:(lia)) as (u & U1 & U2 & U3). exists u. auto.
  - intros _. destruct num as [|num]; [|apply Cm, Root; lia]. destruct (Z eq_refl) as (Eq & _). injection Eq as -> _. rewrite comp_set, Nat.eqb_refl. exact K.
Qed.
Lemma dfs_ok : forall g c0 k r, graph_ok g -> k <> 0 -> (forall e, In e (edges g) -> compOf c0 (from e) = compOf c0 (to e)) ->
  forall fuel c m num q, dinv g c0 k r c m num q -> length q + todo g c (nodes g) <= fuel ->
  exists c' m' num', dfs P speed fl g fuel k c m num q = Some (c', m', num') /\ dinv g c0 k r c' m' num' [].
Proof.
  intros g c0 k r Ok K Cl. induction fuel as [|f IH]; intros c m num q D L.
  - destruct q as [|v q]; [|cbn in L; lia]. exists c, m, num. auto.
  - destruct q as [|v q]; [exists c, m, num; auto|]. cbn [dfs]. rewrite visit_both. apply IH; [now apply dfs_step|].
    rewrite app_length, rev_length. cbn [length] in L. destruct (todo_set g c v k (nodes g) K) as (T1 & T2).
    destruct (Nat.eq_dec (compOf c v) 0) as [Cv|Cv].
    + destruct (di_stack _ _ _ _ _ _ _ _ D v (or_introl eq_refl)) as (_ & Iv & _). specialize (T2 Iv Cv).
      assert (Fl : length (filter (fun x => compOf (setComp c v k) x =? 0) (nb g v)) <= length (nb g v)) by (generalize (nb g v) as l; induction l as [|x l IHl]; cbn; [lia|]; destruct (compOf (setComp c v k) x =? 0); cbn; lia). lia.
    + assert (E : filter (fun x => compOf (setComp c v k) x =? 0) (nb g v) = []).
      { destruct (filter (fun x => compOf (setComp c v k) x =? 0) (nb g v)) as [|w l] eqn:E; [reflexivity|]. exfalso.
        assert (Iw : In w (filter (fun x => compOf (setComp c v k) x =? 0) (nb g v))) by (rewrite E; now left). apply filter_In in Iw. destruct Iw as (Iw & Cw). apply Nat.eqb_eq in Cw.
        rewrite comp_set in Cw. destruct (v =? w) eqn:Ev; [contradiction|]. exact (di_above _ _ _ _ _ _ _ _ D [] v q eq_refl Cv w Iw Cw). }
      rewrite E. cbn. lia.
Qed.

Record cinv (g : graph) (c : list (nat * nat)) (ms : list Q) (num : nat) : Prop := {
  ci_le : forall x, compOf c x <= length ms;
  ci_edge : forall e, In e (edges g) -> compOf c (from e) = compOf c (to e);
  ci_conn : forall u v, compOf c u = compOf c v -> compOf c u <> 0 -> connected g u v;
  ci_speed : forall k, 1 <= k <= length ms -> exists m, nth_error ms (k - 1) = Some m /\
    (forall e, In e (edges g) -> compOf c (from e) = k -> (fl (speed (lvl (ePl e))) <= m)%Q) /\
    ((m == 0)%Q \/ exists e, In e (edges g) /\ compOf c (from e) = k /\ (m == fl (speed (lvl (ePl e))))%Q);
  ci_count : exists ks, NoDup ks /\ length ks = num /\
    forall k, In k ks <-> exists u v, In u (nodes g) /\ In v (nodes g) /\ u <> v /\ compOf c u = k /\ compOf c v = k /\ k <> 0
}.
Lemma conn_sym : forall (g : graph) u v, connected g u v -> connected g v u.
Proof.
  intros g u v C. assert (T : forall a b w, connected g a b -> connected g b w -> connected g a w). { intros a b w C1 C2. induction C2; [auto|]. eapply cn_step; eauto. }
  induction C as [|v w e C IH I H]; [constructor|]. apply (T w v u); [|exact IH]. eapply cn_step; [apply cn_here|exact I|tauto].
Qed.
Lemma conn_trans : forall (g : graph) a b w, connected g a b -> connected g b w -> connected g a w.
Proof. intros g a b w C1 C2. induction C2; [auto|]. eapply cn_step; eauto. Qed.
Lemma comps_step : forall g c ms num n fuel, graph_ok g -> cinv g c ms num -> In n (nodes g) -> compOf c n = 0 -> S (2 * length (edges g)) <= fuel ->
  exists c' m k, dfs P speed fl g fuel (S (length ms)) c 0%Q 0 [n] = Some (c', m, k) /\ cinv g c' (ms ++ [m]) (if 1 <? k then S num else num) /\
    compOf c' n <> 0 /\ forall x, compOf c x <> 0 -> compOf c' x <> 0.
Proof.
  intros g c ms num n fuel Ok [Le Ed Co Sp Ct] In0 Cn L.
  assert (D : dinv g c (S (length ms)) n c 0%Q 0 [n]).
  { constructor; auto; try discriminate; try lia.
    - intros x [<-|[]]. repeat split; auto. constructor.
    - intros A v B E N0 w _ _. destruct A as [|a A]; cbn in E; [injection E as <- _; contradiction|]. injection E as _ E. destruct A; discriminate.
    - apply (rd_zero _ Rd).
    - left. reflexivity. }
  destruct (dfs_ok g c (S (length ms)) n Ok ltac:(easy) Ed fuel c 0%Q 0 [n] D) as (c' & m & k & E & D').
  { cbn [length]. pose proof (todo_all g c (nodes g) (go_nodes _ Ok)). lia. }
  exists c', m, k. split; [exact E|]. destruct D' as [Old New Stk Clo Abv Fl Mx At Z One Two Root].
  assert (K1 : 1 <= k). { destruct k; [|lia]. destruct (Z eq_refl) as (X & _). discriminate. }
  assert (Keq : forall x, compOf c x = 0 -> compOf c' x <> 0 -> compOf c' x = S (length ms) /\ In x (nodes g) /\ connected g n x).
  { intros x C0 N0. destruct (New x C0) as [X|X]; [contradiction|auto]. }
  assert (Is : forall x, compOf c' x = S (length ms) <-> compOf c x = 0 /\ compOf c' x <> 0).
  { intros x. split.
    - intros Ex. destruct (Nat.eq_dec (compOf c x) 0) as [C0|C0]; [split; [auto|lia]|]. rewrite (Old x C0) in Ex. specialize (Le x). lia.
    - intros (C0 & N0). now apply Keq. }
  assert (Eq : forall x, compOf c' x <> S (length ms) -> compOf c' x = compOf c x).
  { intros x Ex. destruct (Nat.eq_dec (compOf c x) 0) as [C0|C0]; [|auto]. destruct (New x C0) as [X|(X & _)]; [lia|contradiction]. }
  assert (Ed' : forall e, In e (edges g) -> compOf c' (from e) = compOf c' (to e)).
  { intros e Ie. pose proof (Ed e Ie) as Ee. destruct (Nat.eq_dec (compOf c (from e)) 0) as [C0|C0]; [|rewrite (Old _ C0), Old; congruence].
    assert (C1 : compOf c (to e) = 0) by congruence.
    destruct (Nat.eq_dec (compOf c' (from e)) 0) as [X|X], (Nat.eq_dec (compOf c' (to e)) 0) as [Y|Y]; try congruence.
    - exfalso. destruct (Clo (to e) (from e) C1 Y) as [H|[]]; [apply nb_iff; exists e; auto|congruence].
    - exfalso. destruct (Clo (from e) (to e) C0 X) as [H|[]]; [apply nb_iff; exists e; auto|congruence].
    - destruct (Keq _ C0 X) as (-> & _), (Keq _ C1 Y) as (-> & _). reflexivity. }
  split; [|split].
  - constructor.
    + intros x. rewrite app_length. cbn [length]. destruct (Nat.eq_dec (compOf c' x) (S (length ms))) as [X|X]; [lia|]. rewrite (Eq x X). specialize (Le x). lia.
    + exact Ed'.
    + intros u v Euv N0. destruct (Nat.eq_dec (compOf c' u) (S (length ms))) as [X|X].
      * assert (Y : compOf c' v = S (length ms)) by congruence. apply Is in X, Y. destruct (Keq u) as (_ & _ & Cu); try tauto. destruct (Keq v) as (_ & _ & Cv); try tauto.
        apply (conn_trans g u n v); [now apply conn_sym|exact Cv].
      * assert (Y : compOf c' v <> S (length ms)) by congruence. rewrite (Eq u X) in *. rewrite (Eq v Y) in *. auto.
    + intros k0 (K0 & K0'). rewrite app_length in K0'. cbn [length] in K0'. destruct (Nat.eq_dec k0 (S (length ms))) as [->|Nk].
      * exists m. split; [rewrite nth_error_app2 by lia; replace (S (length ms) - 1 - length ms) with 0 by lia; reflexivity|]. split.
        { intros e Ie Ce. apply Is in Ce. apply (Mx e (from e)); try tauto. now left. }
        { destruct At as [At|(e & v & A1 & A2 & A3 & A4 & A5)]; [auto|]. right. exists e. split; [auto|]. split; [|auto].
          assert (compOf c' v = S (length ms)) by (apply Is; auto). destruct A2 as [<- | <-]; [auto|]. now rewrite Ed'. }
      * destruct (Sp k0 ltac:(lia)) as (m0 & M1 & M2 & M3). exists m0. split; [rewrite nth_error_app1; [auto|lia]|].
        assert (Iff : forall x, compOf c' x = k0 <-> compOf c x = k0).
        { intros x. split; intros X; [rewrite <- X; symmetry; apply Eq; congruence|]. rewrite <- X. apply Old. lia. }
        split; [intros e Ie Ce; apply M2; [auto|now apply Iff]|]. destruct M3 as [M3|(e & A1 & A2 & A3)]; [auto|]. right. exists e. rewrite Iff. auto.
    + destruct Ct as (ks & Nd & Ln & Hk).
      assert (NotIn : ~ In (S (length ms)) ks). { intros X. apply Hk in X. destruct X as (u & v & _ & _ & _ & X & _). specialize (Le u). lia. }
      assert (Same : forall k0, k0 <> S (length ms) -> ((exists u v, In u (nodes g) /\ In v (nodes g) /\ u <> v /\ compOf c' u = k0 /\ compOf c' v = k0 /\ k0 <> 0) <-> In k0 ks)).
      { intros k0 Nk. rewrite Hk. split; intros (u & v & A1 & A2 & A3 & A4 & A5 & A6); exists u, v; repeat (split; [now auto|]).
        - rewrite <- !Eq by congruence. auto.
        - rewrite !Old by congruence. auto. }
      destruct (1 <? k) eqn:Lk.
      * apply Nat.ltb_lt in Lk. exists (S (length ms) :: ks). split; [constructor; auto|]. split; [cbn; lia|]. intros k0. cbn [In].
        destruct (Nat.eq_dec k0 (S (length ms))) as [->|Nk]; [|rewrite (Same k0 Nk); split; [intros [X|X]; [congruence|auto]|auto]].
        split; [|auto]. intros _. destruct (Two Lk) as (u & U1 & U2 & U3). exists n, u. destruct (Keq u U1 U2) as (Ku & Iu & _). destruct (Keq n Cn (Root K1)) as (Kn & _ & _). repeat (split; [now auto|]). lia.
      * apply Nat.ltb_ge in Lk. assert (k = 1) by lia. subst k. exists ks. split; [auto|]. split; [auto|]. intros k0.
        destruct (Nat.eq_dec k0 (S (length ms))) as [->|Nk]; [|rewrite (Same k0 Nk); reflexivity].
        split; [intros X; contradiction|]. intros (u & v & _ & _ & Nuv & X & Y & _). exfalso. apply Is in X, Y. destruct (One eq_refl) as (_ & U). apply Nuv. rewrite (U u), (U v); tauto.
  - apply Root. exact K1.
  - intros x N0. now rewrite (Old x N0).
Qed.
Lemma comps_loop : forall g fuel, graph_ok g -> S (2 * length (edges g)) <= fuel -> forall ns c ms num, cinv g c ms num -> (forall n, In n ns -> In n (nodes g)) ->
  exists c' ms' num', compsLoop P speed fl g fuel ns c ms num = Some (c', ms' ++ [0%Q], num') /\ cinv g c' ms' num' /\
    (forall x, compOf c x <> 0 -> compOf c' x <> 0) /\ forall n, In n ns -> compOf c' n <> 0.
Proof.
  intros g fuel Ok L. induction ns as [|n ns IH]; intros c ms num C Sub; cbn [compsLoop].
  - exists c, ms, num. split; [reflexivity|]. split; [auto|]. split; [auto|easy].
  - destruct (compOf c n =? 0) eqn:Cn.
    + apply Nat.eqb_eq in Cn. destruct (comps_step g c ms num n fuel Ok C (Sub n (or_introl eq_refl)) Cn L) as (c1 & m & k & E & C1 & N1 & M1). rewrite E.
      destruct (IH c1 (ms ++ [m]) (if 1 <? k then S num else num) C1) as (c2 & ms2 & num2 & E2 & C2 & M2 & N2); [intros; apply Sub; now right|].
      exists c2, ms2, num2. split; [exact E2|]. split; [exact C2|]. split; [auto|]. intros x [<-|I]; auto.
    + apply Nat.eqb_neq in Cn. destruct (IH c ms num C) as (c2 & ms2 & num2 & E2 & C2 & M2 & N2); [intros; apply Sub; now right|].
      exists c2, ms2, num2. split; [exact E2|]. split; [exact C2|]. split; [auto|]. intros x [<-|I]; auto.
Qed.
Lemma comps_ok : forall g, graph_ok g -> exists c ms num, writeComps P speed fl g = Some (c, ms, num) /\ components speed fl g (compOf c) ms num.
Proof.
  intros g Ok. unfold writeComps.
  assert (C0 : cinv g [] [] 0).
  { constructor; cbn; auto; try congruence; [intros; lia|]. exists []. split; [constructor|]. split; [reflexivity|]. intros k. split; [easy|]. intros (u & v & _ & _ & _ & X & _ & Y). now subst. }
  destruct (comps_loop g _ Ok (le_n _) (nodes g) [] [] 0 C0 (fun n H => H)) as (c & ms & num & E & [Le Ed Co Sp Ct] & _ & N1).
  exists c, (ms ++ [0%Q]), num. split; [exact E|]. constructor.
  - intros n I. specialize (N1 n I). lia.
  - intros u v Iu Iv. split; [intros X; apply Co; auto|]. intros X. clear Iv. induction X as [|v w e X IH I H]; [reflexivity|]. rewrite IH. specialize (Ed e I). destruct H as [(F & T)|(F & T)]; congruence.
  - intros n I. specialize (N1 n I). destruct (Sp (compOf c n)) as (m & M1 & M2 & M3); [specialize (Le n); lia|]. exists m. split; [|auto].
    rewrite nth_error_app1; [auto|]. apply nth_error_Some. congruence.
  - destruct Ct as (ks & Nd & Ln & Hk). exists ks. split; [auto|]. split; [auto|]. intros k. rewrite Hk. split; intros (u & v & A1 & A2 & A3 & A4 & A5).
    + exists u, v. tauto.
    + assert (k <> 0) by (rewrite <- A4; auto). exists u, v. tauto.
Qed.
End Comps.
