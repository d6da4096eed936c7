From Coq Require Import Ascii String List Arith NArith Bool Lia.
From Verif Require Import ListAux ShapeStore_model ShapeStore_spec Workers_model Workers_spec ShapesFile_model ShapesFile_spec ShapesFile_proofs StopTimesFile_model StopTimesFile_spec.
Import ListNotations.
Open Scope nat_scope.

Section Proofs.
Context {D X : Type}.
Notation strow := (strow D X).
Notation feed := (list (string * list (N * D))).

Lemma getTrip_in : forall (t : feed) id sts, NoDup (map fst t) -> In (id, sts) t -> getTrip D t id = Some sts.
Proof.
  induction t as [|[i s] t IH]; cbn; intros id sts Nd I; [easy|]. inversion Nd; subst.
  destruct I as [E|I].
  - injection E; intros -> ->. now rewrite String.eqb_refl.
  - destruct (String.eqb_spec i id) as [->|Ne]; [|now apply IH].
    exfalso. apply H1. change id with (fst (id, sts)). now apply in_map.
Qed.
Lemma getTrip_some : forall (t : feed) id sts, getTrip D t id = Some sts -> In (id, sts) t.
Proof.
  induction t as [|[i s] t IH]; cbn; intros id sts E; [easy|].
  destruct (String.eqb_spec i id) as [->|Ne]; [injection E; intros ->; now left|right; auto].
Qed.

Lemma fold_none : forall (n : N) (sts : list (N * D)) d0, (forall m d, In (m, d) sts -> (m < 65536)%N) -> (forall d, ~ In (n, d) sts) ->
  fold_left (fun d s => if (getSeq (fst s) =? n)%N then snd s else d) sts d0 = d0.
Proof.
  induction sts as [|[m e] sts IH]; cbn; intros d0 B No; [easy|].
  unfold getSeq at 2. rewrite N.mod_small by (apply (B m e); auto).
  destruct (N.eqb_spec m n) as [->|Ne]; [exfalso; apply (No e); auto|].
  apply IH; [eauto|]. intros d I. apply (No d). auto.
Qed.
Lemma fold_one : forall (n : N) (sts : list (N * D)) d0 d, (forall m d, In (m, d) sts -> (m < 65536)%N) -> NoDup (map fst sts) -> In (n, d) sts ->
  fold_left (fun d s => if (getSeq (fst s) =? n)%N then snd s else d) sts d0 = d.
Proof.
  induction sts as [|[m e] sts IH]; cbn; intros d0 d B Nd I; [easy|]. inversion Nd; subst.
  unfold getSeq at 2. rewrite N.mod_small by (apply (B m e); auto).
  destruct I as [E|I].
  - injection E; intros -> ->. rewrite N.eqb_refl. apply fold_none; [eauto|].
    intros d' I. apply H1. change n with (fst (n, d')). now apply in_map.
  - apply IH; eauto.
Qed.

Lemma rows_written : forall (t : feed) (rows : list strow) curId cur, trips_ok t -> rows_ok t rows ->
  (curId <> ""%string -> exists sts, cur = Some sts /\ In (curId, sts) t) ->
  exists o, writeRows D X t rows curId cur = Some o /\ Forall2 (row_written t) rows o.
Proof.
  induction rows as [|r rows IH]; cbn; intros curId cur Tk Rk C; [eauto|].
  destruct (Rk r (or_introl eq_refl)) as (Ne & sts & I).
  assert (E : (if String.eqb curId (sTrip r) then cur else getTrip D t (sTrip r)) = Some sts).
  { destruct (String.eqb_spec curId (sTrip r)) as [Eq|_].
    - rewrite Eq in C. destruct (C Ne) as (s' & -> & I').
      rewrite <- (getTrip_in t _ _ (tk_ids _ Tk) I'). now apply getTrip_in; [apply tk_ids|].
    - now apply getTrip_in; [apply tk_ids|]. }
  rewrite E.
  destruct (IH (sTrip r) (Some sts) Tk) as (o & -> & F).
  { intros r' I'. apply Rk. now right. }
  { intros _. eauto. }
  eexists; split; [reflexivity|]. constructor; [|exact F].
  split; [|split; [|split]]; try reflexivity. intros sts' I'.
  assert (sts' = sts).
  { apply getTrip_in in I'; [|apply tk_ids; auto]. apply getTrip_in in I; [|apply tk_ids; auto]. congruence. }
  subst. destruct (tk_seqs _ Tk _ _ I) as (Nd & B). cbn. split.
  - intros d Id. now apply fold_one.
  - intros No. now apply fold_none.
Qed.
Lemma stop_times_ok : forall (t : feed) (rows : list strow), trips_ok t -> rows_ok t rows ->
  exists o, writeStopTimes D X t rows = Some o /\ Forall2 (row_written t) rows o.
Proof. intros t rows Tk Rk. apply rows_written; auto. now intros []. Qed.

(** the feed after the run *)
Lemma nth_combine : forall (A B : Type) (l : list A) (l' : list B) i a b,
  nth_error (combine l l') i = Some (a, b) <-> nth_error l i = Some a /\ nth_error l' i = Some b.
Proof.
  induction l as [|x l IH]; intros l' i a b.
  - destruct i; cbn; split; intros H; intuition discriminate.
  - destruct l' as [|y l'].
    + destruct i; cbn; split; intros H; intuition discriminate.
    + destruct i; cbn; [|apply IH]. split.
      * intros E. injection E; intros -> ->. auto.
      * intros (E & E'). congruence.
Qed.
Lemma feedOf_in : forall (trips : list (trip D)) ids seqs id sts, In (id, sts) (feedOf D trips ids seqs) <->
  exists u ns x, nth_error ids u = Some id /\ nth_error seqs u = Some ns /\ nth_error trips u = Some x /\ sts = combine ns (tDists _ x).
Proof.
  intros trips ids seqs id sts. unfold feedOf. rewrite in_map_iff. split.
  - intros ([[i ns] x] & E & I). cbn in E. injection E; intros <- <-. apply In_nth_error in I. destruct I as (u & I).
    apply nth_combine in I. destruct I as (I & Ix). apply nth_combine in I. destruct I. exists u, ns, x. auto.
  - intros (u & ns & x & Ei & En & Ex & ->). exists ((id, ns), x). split; [reflexivity|]. apply (nth_error_In _ u).
    apply nth_combine. split; [apply nth_combine; auto|auto].
Qed.
Lemma fst_combine : forall (A B : Type) (l : list A) (l' : list B), length l <= length l' -> map fst (combine l l') = l.
Proof. induction l; destruct l'; cbn; intros; [easy..|lia|]. f_equal. apply IHl. lia. Qed.
Lemma feedOf_ids : forall (trips : list (trip D)) ids seqs, length ids = length trips -> length seqs = length trips ->
  map fst (feedOf D trips ids seqs) = ids.
Proof.
  intros trips ids seqs L1 L2. unfold feedOf. rewrite map_map. cbn.
  transitivity (map fst (map fst (combine (combine ids seqs) trips))).
  - now rewrite map_map.
  - rewrite fst_combine by (rewrite combine_length; lia). apply fst_combine. lia.
Qed.
Lemma NoDup_fst_combine : forall (A B : Type) (l : list A) (l' : list B), NoDup l -> NoDup (map fst (combine l l')).
Proof.
  induction l; destruct l'; cbn; intros Nd; try constructor; inversion Nd; subst; auto.
  intros I. apply H1. apply in_map_iff in I. destruct I as ([x y] & E & I). cbn in E. subst. now apply in_combine_l in I.
Qed.
Lemma combine_nth_in : forall (A B : Type) (l : list A) (l' : list B) i a b, nth_error l i = Some a -> nth_error l' i = Some b -> In (a, b) (combine l l').
Proof. intros. apply (nth_error_In _ i). now apply nth_combine. Qed.

Lemma Forall2_nth2 : forall (A B : Type) (P : A -> B -> Prop) l l', Forall2 P l l' -> forall k a b, nth_error l k = Some a -> nth_error l' k = Some b -> P a b.
Proof. induction 1; intros [|k] a b Ea Eb; cbn in *; try discriminate; [congruence|eauto]. Qed.

(** a trip that is untouched or shaped *)
Variables wa wb wd : nat.
Lemma files_ok : 0 < wa + wb + wd ->
  forall (trips : list (trip D)) sids phs old, phases_ok wa wb wd phs trips -> ids_distinct phs trips ->
  (forall x, In x old -> wId x <> ""%string /\ In (wId x) sids) ->
  forall (rows : list strow) ids seqs, read_from rows trips ids seqs ->
  forall trips' shapes, wholeRun D wa wb wd phs trips sids (Some old) = Some (trips', shapes) ->
  exists rows', wholeFiles D X wa wb wd phs trips sids (Some old) ids seqs rows = Some (trips', shapes, rows') /\
    shapes_written phs trips sids old trips' shapes /\ dists_written phs ids seqs rows rows'.
Proof.
  intros W trips sids phs old PO ID Ho rows ids seqs (Li & Ls & Ndi & Sq & Ri & Rd) trips' shapes R.
  pose proof (whole_ok wa wb wd W trips sids phs PO ID (Some old) trips' shapes Ho R) as Sw.
  pose proof (sw_count _ _ _ _ _ _ Sw) as Lt.
  assert (Tk : trips_ok (feedOf D trips' ids seqs)).
  { constructor.
    - rewrite feedOf_ids by lia. exact Ndi.
    - intros id sts I. apply feedOf_in in I. destruct I as (u & ns & x' & Ei & En & Ex & ->).
      destruct (nth_ex _ trips u) as (x & Ex0). { rewrite <- Lt. apply nth_error_Some. congruence. }
      destruct (Sq u ns x En Ex0) as (L & Nd & B). split; [now apply NoDup_fst_combine|].
      intros n d I. apply in_combine_l in I. auto. }
  assert (Rk : rows_ok (feedOf D trips' ids seqs) rows).
  { intros r I. destruct (Ri r I) as (Ne & I'). split; [exact Ne|].
    rewrite <- (feedOf_ids trips' ids seqs) in I' by lia. apply in_map_iff in I'. destruct I' as ([i s] & E & I'). cbn in E. subst. eauto. }
  destruct (stop_times_ok _ _ Tk Rk) as (rows' & E & F). exists rows'.
  unfold wholeFiles. rewrite R, E. split; [reflexivity|]. split; [exact Sw|]. constructor.
  - clear - F. induction F as [|r r' ? ? H]; constructor; auto. destruct H as (? & ? & ? & _). auto.
  - intros k r r' u l ns i d Er Er' Sh Ei En Es Ed.
    destruct (sw_new _ _ _ _ _ _ Sw u l Sh) as (id & Eu & _).
    destruct (Forall2_nth2 _ _ _ _ _ F k r r' Er Er') as (_ & _ & _ & H).
    destruct (H (combine ns (lDists _ _ l))) as (H1 & _).
    { apply feedOf_in. exists u, ns, (mkTrip D id (lDists _ _ l)). auto. }
    apply H1. now apply (combine_nth_in _ _ _ _ i).
  - intros k r r' u Er Er' Un Ei.
    assert (Lu : u < length trips). { rewrite <- Li. apply nth_error_Some. congruence. }
    destruct (nth_ex _ trips u Lu) as (x & Ex). destruct (sw_old _ _ _ _ _ _ Sw u x Un Ex) as (Ex' & _).
    destruct (nth_ex _ seqs u) as (ns & En); [lia|].
    destruct (Forall2_nth2 _ _ _ _ _ F k r r' Er Er') as (_ & _ & _ & H).
    destruct (H (combine ns (tDists _ x))) as (H1 & H2).
    { apply feedOf_in. exists u, ns, x. auto. }
    destruct (in_dec N.eq_dec (sSeq r) ns) as [I|No].
    + apply In_nth_error in I. destruct I as (i & Es).
      destruct (Sq u ns x En Ex) as (L & _ & _).
      destruct (nth_ex _ (tDists _ x) i) as (d & Ed). { rewrite <- L. apply nth_error_Some. congruence. }
      rewrite (H1 d) by (now apply (combine_nth_in _ _ _ _ i)).
      symmetry. apply (Rd u ns x i (sSeq r) d r En Ex Es Ed); auto. now apply nth_error_In in Er.
    + apply H2. intros d I. apply in_combine_l in I. auto.
Qed.
End Proofs.
