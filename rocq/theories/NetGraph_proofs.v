From Coq Require Import List Arith Bool Lia Permutation.
From Verif Require Import NetGraph_model NetGraph_spec.
Import ListNotations.
Open Scope nat_scope.

Section Proofs.
Variables Pt Ln : Type.
Variables (isRev : nat -> bool) (fromN toN : nat -> nat) (getEdg : nat -> nat -> option nat).
Variables (pos : nat -> Pt) (geo : nat -> Ln).
Variable ord : tgraph -> tgraph.
Hypothesis ordP : forall g, Permutation g (ord g).
Notation along := (along isRev fromN toN getEdg).
Notation passes := (passes isRev fromN toN getEdg).
Notation travels := (travels isRev fromN toN getEdg).
Notation all_travels := (all_travels isRev fromN toN getEdg).
Notation used := (used isRev fromN toN getEdg).
Notation depicts := (depicts Pt Ln isRev fromN toN getEdg pos geo).
Notation shows := (shows Ln isRev fromN toN getEdg geo).
Notation occ := (count_occ Nat.eq_dec).

(** ** Entries *)
Definition weight (g : tgraph) (e t : nat) : nat := list_sum (map (fun p => if fst p =? e then occ (snd p) t else 0) g).
Definition size (g : tgraph) (e : nat) : nat := list_sum (map (fun p => if fst p =? e then length (snd p) else 0) g).
Definition keys (g : tgraph) : list nat := map fst g.

Lemma weight_app : forall a b e t, weight (a ++ b) e t = weight a e t + weight b e t.
Proof. intros. unfold weight. rewrite map_app, list_sum_app. reflexivity. Qed.
Lemma size_app : forall a b e, size (a ++ b) e = size a e + size b e.
Proof. intros. unfold size. rewrite map_app, list_sum_app. reflexivity. Qed.
Lemma list_sum_perm : forall a b, Permutation a b -> list_sum a = list_sum b.
Proof. intros a b P. induction P; simpl; lia. Qed.
Lemma weight_perm : forall a b e t, Permutation a b -> weight a e t = weight b e t.
Proof. intros. unfold weight. apply list_sum_perm, Permutation_map; auto. Qed.
Lemma size_perm : forall a b e, Permutation a b -> size a e = size b e.
Proof. intros. unfold size. apply list_sum_perm, Permutation_map; auto. Qed.

Lemma insert_weight : forall g e ts x t, weight (insertTrips g e ts) x t = (if e =? x then occ ts t else 0) + weight g x t.
Proof.
  induction g as [|[k l] g IH]; intros e ts x t; simpl.
  - unfold weight. simpl. lia.
  - destruct (k =? e) eqn:E.
    + apply Nat.eqb_eq in E. subst k. unfold weight. simpl. destruct (e =? x); [rewrite count_occ_app; lia|lia].
    + unfold weight in *. simpl. rewrite IH. destruct (k =? x), (e =? x); lia.
Qed.
Lemma insert_size : forall g e ts x, size (insertTrips g e ts) x = (if e =? x then length ts else 0) + size g x.
Proof.
  induction g as [|[k l] g IH]; intros e ts x; simpl.
  - unfold size. simpl. lia.
  - destruct (k =? e) eqn:E.
    + apply Nat.eqb_eq in E. subst k. unfold size. simpl. destruct (e =? x); [rewrite app_length; lia|lia].
    + unfold size in *. simpl. rewrite IH. destruct (k =? x), (e =? x); lia.
Qed.
Lemma insert_keys : forall g e ts k, In k (keys (insertTrips g e ts)) <-> k = e \/ In k (keys g).
Proof.
  induction g as [|[x l] g IH]; intros e ts k; simpl.
  - intuition.
  - destruct (x =? e) eqn:E; simpl.
    + apply Nat.eqb_eq in E. subst x. intuition.
    + unfold keys in *. rewrite IH. intuition.
Qed.
Lemma insert_nodup : forall g e ts, NoDup (keys g) -> NoDup (keys (insertTrips g e ts)).
Proof.
  induction g as [|[x l] g IH]; intros e ts H; simpl.
  - constructor; [intros []|constructor].
  - inversion H; subst. destruct (x =? e) eqn:E; simpl; [constructor; auto|].
    constructor; [|apply IH; auto]. change (map fst (insertTrips g e ts)) with (keys (insertTrips g e ts)). rewrite insert_keys.
    intros [->|I]; [rewrite Nat.eqb_refl in E; discriminate|contradiction].
Qed.

(** What a map contains, given the list of the insertions that made it. *)
Record holds (g ops : tgraph) : Prop := {
  h_nodup : NoDup (keys g);
  h_keys : forall k, In k (keys g) <-> In k (keys ops);
  h_weight : forall e t, weight g e t = weight ops e t;
  h_size : forall e, size g e = size ops e }.
Lemma holds_nil : holds [] [].
Proof. split; auto; simpl; try tauto. constructor. Qed.
Lemma holds_insert : forall g ops e ts, holds g ops -> holds (insertTrips g e ts) ((e, ts) :: ops).
Proof.
  intros g ops e ts [A B C D]. split.
  - apply insert_nodup; auto.
  - intro k. rewrite insert_keys, B. simpl. intuition.
  - intros x t. rewrite insert_weight, C. unfold weight. simpl. reflexivity.
  - intros x. rewrite insert_size, D. unfold size. simpl. reflexivity.
Qed.
Lemma holds_perm : forall g ops ops', Permutation ops ops' -> holds g ops -> holds g ops'.
Proof.
  intros g ops ops' P [A B C D]. split; auto.
  - intro k. rewrite B. unfold keys. split; apply Permutation_in; [|apply Permutation_sym]; apply Permutation_map; auto.
  - intros. rewrite C. apply weight_perm; auto.
  - intros. rewrite D. apply size_perm; auto.
Qed.
Lemma holds_fold : forall eps g ops, holds g ops ->
  holds (fold_left (fun m ep => insertTrips m (fst ep) (snd ep)) eps g) (eps ++ ops).
Proof.
  induction eps as [|[e ts] eps IH]; intros g ops H; simpl; auto.
  apply (holds_perm _ (eps ++ (e, ts) :: ops)); [apply Permutation_sym, Permutation_middle|]. apply IH, holds_insert, H.
Qed.
(** Inserting the entries of a map is like repeating its insertions. *)
Lemma holds_trans : forall m rest g ops, holds m (ord g ++ rest) -> holds g ops -> holds m (ops ++ rest).
Proof.
  intros m rest g ops [A B C D] [A' B' C' D']. split; auto.
  - intro k. rewrite B. unfold keys. rewrite !map_app, !in_app_iff. fold (keys ops) (keys rest). rewrite <- B'.
    split; (intros [H|H]; [left|right; exact H]); [apply (Permutation_in _ (Permutation_sym (Permutation_map fst (ordP g)))) in H; exact H|].
    exact (Permutation_in _ (Permutation_map fst (ordP g)) H).
  - intros. rewrite C, !weight_app. rewrite <- (weight_perm _ _ e t (ordP g)), C'. reflexivity.
  - intros. rewrite D, !size_app. rewrite <- (size_perm _ _ e (ordP g)), D'. reflexivity.
Qed.
Lemma merge_holds : forall gs opss, Forall2 holds gs opss -> holds (merge ord gs) (concat opss).
Proof.
  intros gs opss H. unfold merge.
  assert (forall m rest, holds m rest ->
    holds (fold_left (fun m g => fold_left (fun m ep => insertTrips m (fst ep) (snd ep)) (ord g) m) gs m) (concat opss ++ rest)) as G.
  { induction H as [|g ops gs opss H1 H2 IH]; intros m rest Hm; simpl; auto.
    apply (holds_perm _ (concat opss ++ (ops ++ rest))).
    - rewrite <- app_assoc. rewrite !app_assoc. apply Permutation_app_tail, Permutation_app_comm.
    - apply IH. apply (holds_trans _ rest g ops); auto. apply holds_fold; auto. }
  rewrite <- (app_nil_r (concat opss)). apply G, holds_nil.
Qed.

(** ** What the workers record *)
Definition fwd (e : nat) : option nat := if isRev e then getEdg (toN e) (fromN e) else Some e.
Lemma fwd_along : forall x e, fwd x = Some e <-> along x e.
Proof.
  intros. unfold fwd, NetGraph_spec.along. destruct (isRev x); split.
  - auto.
  - intros [[H _]|[_ H]]; [discriminate|auto].
  - intro H. injection H as <-. auto.
  - intros [[_ ->]|[H _]]; [auto|discriminate].
Qed.
(** The insertions of a leaf *)
Inductive leafOps : list nat -> list nat -> tgraph -> Prop :=
| lo_nil : forall ts, leafOps [] ts []
| lo_cons : forall x e l ts ops, fwd x = Some e -> leafOps l ts ops -> leafOps (x :: l) ts ((e, ts) :: ops).
Inductive jobOps : list leaf -> tgraph -> Prop :=
| jo_nil : jobOps [] []
| jo_cons : forall h ts ls o os, leafOps (concat h) ts o -> jobOps ls os -> jobOps ((h, ts) :: ls) (o ++ os).

Lemma fold_none : forall (A : Type) (f : option tgraph -> A -> option tgraph), (forall a, f None a = None) -> forall l, fold_left f l None = None.
Proof. intros A f H. induction l; simpl; auto. rewrite H. auto. Qed.
Lemma edges_holds : forall ts l g ops r, holds g ops -> fold_left (writeEdge isRev fromN toN getEdg ts) l (Some g) = Some r ->
  exists o, leafOps l ts o /\ holds r (o ++ ops).
Proof.
  induction l as [|x l IH]; intros g ops r H E; cbn [fold_left] in E.
  - injection E as <-. exists []. split; [constructor|auto].
  - change (writeEdge isRev fromN toN getEdg ts (Some g) x) with (bindO (fwd x) (fun e => Some (insertTrips g e ts))) in E. destruct (fwd x) as [e|] eqn:F; simpl in E.
    + destruct (IH _ _ _ (holds_insert _ _ e ts H) E) as [o [A B]]. exists ((e, ts) :: o). split; [constructor; auto|].
      apply (holds_perm _ (o ++ (e, ts) :: ops)); auto. apply Permutation_sym, Permutation_middle.
    + rewrite fold_none in E by reflexivity. discriminate.
Qed.
Lemma write_concat : forall hops g ts, writeTransitGraph isRev fromN toN getEdg hops g ts = fold_left (writeEdge isRev fromN toN getEdg ts) (concat hops) g.
Proof.
  unfold writeTransitGraph. induction hops as [|h hops IH]; intros g ts; simpl; auto. rewrite fold_left_app. apply IH.
Qed.
Lemma work_holds : forall job g ops r, holds g ops -> work isRev fromN toN getEdg job g = Some r ->
  exists o, jobOps job o /\ holds r (o ++ ops).
Proof.
  unfold work. induction job as [|[h ts] job IH]; intros g ops r H E; simpl in E.
  - injection E as <-. exists []. split; [constructor|auto].
  - rewrite write_concat in E. destruct (fold_left (writeEdge isRev fromN toN getEdg ts) (concat h) (Some g)) as [g'|] eqn:W.
    + destruct (edges_holds _ _ _ _ _ H W) as [o [A B]]. destruct (IH _ _ _ B E) as [o' [A' B']].
      exists (o ++ o'). split; [constructor; auto|]. rewrite <- app_assoc. apply (holds_perm _ (o' ++ (o ++ ops))); auto.
      rewrite !app_assoc. apply Permutation_app_tail, Permutation_app_comm.
    + rewrite fold_none in E; [discriminate|]. intros [h' ts']. simpl. rewrite write_concat. apply fold_none. reflexivity.
Qed.
Lemma jobOps_app : forall a b o p, jobOps a o -> jobOps b p -> jobOps (a ++ b) (o ++ p).
Proof. intros a b o p H. induction H; intro G; simpl; auto. rewrite <- app_assoc. constructor; auto. Qed.

(** The numbers of the specification *)
Lemma leafOps_passes : forall e ts l o, leafOps l ts o -> exists n, passes e l n /\
  (forall t, weight o e t = n * occ ts t) /\ size o e = n * length ts.
Proof.
  intros e ts l o H. induction H as [ts|x k l ts o F H (n & P & W & Z)].
  - exists 0. repeat split; auto. constructor.
  - destruct (Nat.eq_dec k e) as [->|N].
    + exists (S n). split; [constructor; auto; apply fwd_along; auto|]. split.
      * intro t. unfold weight in *. simpl. rewrite Nat.eqb_refl, W. lia.
      * unfold size in *. simpl. rewrite Nat.eqb_refl, Z. lia.
    + exists n. apply Nat.eqb_neq in N. split; [|split].
      * apply ps_no; auto. intro X. apply fwd_along in X. rewrite F in X. injection X as ->. rewrite Nat.eqb_refl in N. discriminate.
      * intro t. unfold weight in *. simpl. rewrite N, W. lia.
      * unfold size in *. simpl. rewrite N, Z. lia.
Qed.
Lemma passes_fun : forall e l n m, passes e l n -> passes e l m -> n = m.
Proof.
  intros e l n m H. revert m. induction H; intros m G; inversion G; subst; auto; try contradiction.
Qed.
Lemma jobOps_travels : forall ls o e, jobOps ls o ->
  (forall t n, travels e t ls n -> weight o e t = n) /\ (forall n, all_travels e ls n -> size o e = n).
Proof.
  intros ls o e H. induction H as [|h ts ls o os L J [I1 I2]].
  - split; intros; match goal with H : _ |- _ => inversion H; reflexivity end.
  - destruct (leafOps_passes e _ _ _ L) as (n & P & W & Z). split.
    + intros t m T. inversion T; subst. rewrite weight_app, W. rewrite (I1 t m0); auto.
      match goal with Q : NetGraph_spec.passes _ _ _ _ e _ _ |- _ => rewrite (passes_fun _ _ _ _ P Q) end. reflexivity.
    + intros m T. inversion T; subst. rewrite size_app, Z. rewrite (I2 m0); auto.
      match goal with Q : NetGraph_spec.passes _ _ _ _ e _ _ |- _ => rewrite (passes_fun _ _ _ _ P Q) end. reflexivity.
Qed.
Lemma leafOps_keys : forall l ts o e, leafOps l ts o -> (In e (keys o) <-> exists x, In x l /\ along x e).
Proof.
  intros l ts o e H. induction H as [|x k l ts o F H IH]; simpl.
  - split; [contradiction|intros (x & [] & _)].
  - unfold keys in IH. rewrite IH. split.
    + intros [->|(y & A & B)]; [exists x; split; auto; apply fwd_along; auto|exists y; auto].
    + intros (y & [->|A] & B); [left|right; exists y; auto]. apply fwd_along in B. rewrite F in B. injection B as ->. reflexivity.
Qed.
Lemma jobOps_keys : forall ls o e, jobOps ls o -> (In e (keys o) <-> used ls e).
Proof.
  intros ls o e H. induction H as [|h ts ls o os L J IH].
  - split; [contradiction|]. intros (h & ts & x & [] & _).
  - unfold keys. rewrite map_app, in_app_iff. fold (keys o) (keys os). rewrite IH, (leafOps_keys _ _ _ e L). split.
    + intros [(x & A & B)|(h' & ts' & x & A & B & C)]; [exists h, ts, x; simpl; auto|exists h', ts', x; simpl; auto].
    + intros (h' & ts' & x & [A|A] & B & C); [injection A as <- <-; left; exists x; auto|right; exists h', ts', x; auto].
Qed.

(** ** Threads *)
Lemma nth_update : forall (A : Type) (l : list A) i x j, nth_error (update l i x) j = if i =? j then (if j <? length l then Some x else None) else nth_error l j.
Proof.
  induction l as [|a l IH]; intros [|i] x [|j]; simpl; auto.
  - destruct (i =? j); auto.
  - rewrite IH. reflexivity.
Qed.
Lemma Forall2_update : forall (A B : Type) (R : A -> B -> Prop) l l' i a x y,
  Forall2 R l l' -> nth_error l i = Some a -> R x y -> Forall2 R (update l i x) (update l' i y).
Proof.
  intros A B R l l' i a x y F. revert i. induction F as [|p q l l' H F IH]; intros [|i] E G; simpl in *; try discriminate.
  - constructor; auto.
  - constructor; auto.
Qed.
Lemma Forall2_nth : forall (A B : Type) (R : A -> B -> Prop) l l' i a, Forall2 R l l' -> nth_error l i = Some a -> exists b, nth_error l' i = Some b /\ R a b.
Proof.
  intros A B R l l' i a F. revert i. induction F as [|p q l l' H F IH]; intros [|i] E; simpl in *; try discriminate.
  - injection E as <-. exists q. auto.
  - apply IH; auto.
Qed.
Lemma concat_update : forall (A : Type) (l : list (list A)) i old new, nth_error l i = Some old ->
  Permutation (concat (update l i (new ++ old))) (new ++ concat l).
Proof.
  induction l as [|a l IH]; intros [|i] old new E; simpl in *; try discriminate.
  - injection E as ->. rewrite app_assoc. apply Permutation_refl.
  - rewrite (IH i old new E). rewrite !app_assoc. apply Permutation_app_tail, Permutation_app_comm.
Qed.
Lemma update_same : forall (A : Type) (l : list A) i x, nth_error l i = Some x -> update l i x = l.
Proof. induction l as [|a l IH]; intros [|i] x E; simpl in *; try discriminate; [injection E as ->|rewrite IH]; auto. Qed.

(** Each thread holds the insertions of the jobs it took; together these are the jobs before the counter. *)
Definition inv (jobs : list (list leaf)) (s : threads) : Prop :=
  exists opss all, Forall2 (fun t o => holds (snd t) o) (thr s) opss /\
    jobOps (concat (firstn (at_ s) jobs)) all /\ Permutation all (concat opss) /\
    (forall t, In t (thr s) -> fst t = true -> length jobs <= at_ s).
Lemma firstn_S : forall (A : Type) (l : list A) n x, nth_error l n = Some x -> firstn (S n) l = firstn n l ++ [x].
Proof. induction l as [|a l IH]; intros [|n] x E; simpl in *; try discriminate; [injection E as ->; auto|f_equal; apply IH; auto]. Qed.
Lemma in_update : forall (A : Type) (l : list A) i x y, In y (update l i x) -> y = x \/ In y l.
Proof. induction l as [|a l IH]; intros [|i] x y H; simpl in *; auto; destruct H as [H|H]; auto. apply IH in H. tauto. Qed.
Lemma step_inv : forall jobs s i s', inv jobs s -> step isRev fromN toN getEdg jobs s i = Some s' -> inv jobs s'.
Proof.
  intros jobs s i s' (opss & all & F & J & P & D) E. unfold step in E.
  destruct (nth_error (thr s) i) as [[[|] g]|] eqn:N; [injection E as <-; exists opss, all; auto| |injection E as <-; exists opss, all; auto].
  destruct (Forall2_nth _ _ _ _ _ _ _ F N) as (o & No & Ho). simpl in Ho.
  destruct (nth_error jobs (at_ s)) as [job|] eqn:Nj.
  - destruct (work isRev fromN toN getEdg job g) as [g'|] eqn:W; simpl in E; [|discriminate]. injection E as <-.
    destruct (work_holds _ _ _ _ Ho W) as (o' & Jo & Hg). exists (update opss i (o' ++ o)), (all ++ o'). simpl thr. simpl at_. split; [|split; [|split]].
    + apply (Forall2_update _ _ _ _ _ _ _ _ _ F N). exact Hg.
    + rewrite (firstn_S _ _ _ _ Nj), concat_app. simpl. rewrite app_nil_r. apply jobOps_app; auto.
    + rewrite (concat_update _ _ _ _ o' No). rewrite P. apply Permutation_app_comm.
    + intros t I T. apply in_update in I. destruct I as [->|I]; [discriminate|]. specialize (D t I T). lia.
  - injection E as <-. apply nth_error_None in Nj. exists opss, all. simpl thr. simpl at_. split; [|split; [|split]]; auto.
    + rewrite <- (update_same _ opss i o No). apply (Forall2_update _ _ _ _ _ _ _ _ _ F N). exact Ho.
    + rewrite firstn_all2 in * by lia. auto.
Qed.
Lemma start_inv : forall jobs n, inv jobs (start n).
Proof.
  intros jobs n. exists (repeat [] n), []. unfold start. simpl. split; [|split; [|split]].
  - induction n; simpl; constructor; auto. apply holds_nil.
  - constructor.
  - induction n; simpl; auto.
  - intros t I T. apply repeat_spec in I. subst t. discriminate.
Qed.
Lemma run_inv : forall jobs n sched s, run isRev fromN toN getEdg jobs n sched = Some s -> inv jobs s.
Proof.
  intros jobs n sched s. unfold run.
  assert (forall sched s0, inv jobs s0 -> forall s, fold_left (fun s i => bindO s (fun s => step isRev fromN toN getEdg jobs s i)) sched (Some s0) = Some s -> inv jobs s) as G.
  { clear sched s. induction sched as [|i sched IH]; intros s0 H s E; simpl in E; [injection E as <-; auto|].
    destruct (step isRev fromN toN getEdg jobs s0 i) as [s1|] eqn:S1.
    - apply (IH s1); auto. apply (step_inv _ _ _ _ H S1).
    - exfalso. clear -E. assert (forall l, fold_left (fun s i => bindO s (fun s => step isRev fromN toN getEdg jobs s i)) l None = None) as X by (induction l; auto).
      rewrite X in E. discriminate. }
  intro E. apply (G sched (start n)); auto. apply start_inv.
Qed.
Notation stepF jobs := (fun s i => bindO s (fun s => step isRev fromN toN getEdg jobs s i)).
Lemma run_none : forall jobs l, fold_left (stepF jobs) l None = None.
Proof. induction l; auto. Qed.
Lemma update_length : forall (A : Type) (l : list A) i x, length (update l i x) = length l.
Proof. induction l; intros [|i] x; simpl; auto. Qed.
Lemma step_length : forall jobs s i s', step isRev fromN toN getEdg jobs s i = Some s' -> length (thr s') = length (thr s).
Proof.
  intros jobs s i s' E. unfold step in E. destruct (nth_error (thr s) i) as [[[|] g]|]; try (injection E as <-; auto; fail).
  destruct (nth_error jobs (at_ s)) as [job|].
  - destruct (work isRev fromN toN getEdg job g) as [g'|]; simpl in E; [|discriminate]. injection E as <-. simpl. apply update_length.
  - injection E as <-. simpl. apply update_length.
Qed.
Lemma run_length : forall jobs n sched s, run isRev fromN toN getEdg jobs n sched = Some s -> length (thr s) = n.
Proof.
  intros jobs n sched s E. unfold run in E. replace n with (length (thr (start n))) by apply repeat_length.
  revert E. generalize (start n) as s0. induction sched as [|i l IH]; intros s0 E; simpl in E; [injection E as <-; auto|].
  destruct (step isRev fromN toN getEdg jobs s0 i) as [s1|] eqn:S1; [|rewrite run_none in E; discriminate].
  rewrite (IH s1 E). apply (step_length _ _ _ _ S1).
Qed.
Lemma merged : forall jobs n sched s, run isRev fromN toN getEdg jobs n sched = Some s -> n <> 0 -> joined s ->
  exists all, jobOps (concat jobs) all /\ holds (merge ord (map snd (thr s))) all.
Proof.
  intros jobs n sched s R N D. destruct (run_inv _ _ _ _ R) as (opss & all & F & J & P & X).
  pose proof (run_length _ _ _ _ R) as L. destruct (thr s) as [|t ts] eqn:T; [simpl in L; congruence|].
  assert (length jobs <= at_ s) as A by (apply (X t); [left|apply D; rewrite T; left]; auto).
  rewrite firstn_all2 in J by exact A. exists all. split; auto.
  apply (holds_perm _ (concat opss)); [apply Permutation_sym; auto|]. apply merge_holds.
  clear -F. induction F; simpl; constructor; auto.
Qed.
(** Nothing fails if every reversed edge has its opposite. *)
Lemma edges_some : forall ts l g, (forall x, In x l -> fwd x <> None) -> exists r, fold_left (writeEdge isRev fromN toN getEdg ts) l (Some g) = Some r.
Proof.
  induction l as [|x l IH]; intros g H; cbn [fold_left]; [eauto|].
  change (writeEdge isRev fromN toN getEdg ts (Some g) x) with (bindO (fwd x) (fun e => Some (insertTrips g e ts))).
  destruct (fwd x) as [e|] eqn:F; [|destruct (H x); simpl; auto]. simpl. apply IH. intros y Y. apply H. right; auto.
Qed.
Lemma work_some : forall job g, (forall h ts x, In (h, ts) job -> In x (concat h) -> fwd x <> None) -> exists r, work isRev fromN toN getEdg job g = Some r.
Proof.
  unfold work. induction job as [|[h ts] job IH]; intros g H; simpl; [eauto|]. rewrite write_concat.
  destruct (edges_some ts (concat h) g) as [r ->].
  - intros x I. apply (H h ts); simpl; auto.
  - apply IH. intros h' ts' x I. apply (H h' ts'); simpl; auto.
Qed.
Lemma run_some : forall jobs n sched, (forall h ts x, In (h, ts) (concat jobs) -> In x (concat h) -> fwd x <> None) ->
  exists s, run isRev fromN toN getEdg jobs n sched = Some s.
Proof.
  intros jobs n sched H. unfold run. generalize (start n) as s0. induction sched as [|i l IH]; intro s0; cbn [fold_left]; [eauto|].
  cbn [bindO]. assert (exists s1, step isRev fromN toN getEdg jobs s0 i = Some s1) as [s1 ->]; [|apply IH].
  unfold step. destruct (nth_error (thr s0) i) as [[[|] g]|]; eauto. destruct (nth_error jobs (at_ s0)) as [job|] eqn:Nj; eauto.
  destruct (work_some job g) as [r ->]; simpl; eauto. intros h ts x I. apply (H h ts x). apply in_concat. exists job. split; auto. apply (nth_error_In _ _ Nj).
Qed.

(** ** The graph *)
Notation netEdge := (netEdge Pt Ln fromN toN pos geo).
Notation nstate := (nstate Pt Ln).
Notation nsMap := (nsMap Pt Ln).
Notation nsNodes := (nsNodes Pt Ln).
Notation nsEdges := (nsEdges Pt Ln).
Definition ends (done : tgraph) (v : nat) : Prop := exists e, In e (keys done) /\ (v = fromN e \/ v = toN e).
(** The line drawn for an entry *)
Definition line (nds : list nat) (ep : nat * list nat) (d : nedge Ln) : Prop :=
  nth_error nds (neFrom _ d) = Some (fromN (fst ep)) /\ nth_error nds (neTo _ d) = Some (toN (fst ep)) /\ neGeom _ d = geo (fst ep) /\ neTrips _ d = snd ep.
Record ginv (done : tgraph) (s : nstate) (nds : list nat) (eps : tgraph) : Prop := {
  gi_nodes : map pos nds = nsNodes s;
  gi_map : forall v i, lookupN (nsMap s) v = Some i -> nth_error nds i = Some v;
  gi_none : forall v, lookupN (nsMap s) v = None -> ~ In v nds;
  gi_dup : forall i j v, nth_error nds i = Some v -> nth_error nds j = Some v -> i = j \/ exists e, In e (keys done) /\ fromN e = v /\ toN e = v;
  gi_ends : forall v, In v nds <-> ends done v;
  gi_sub : forall ep, In ep eps -> In ep done;
  gi_nodup : NoDup (keys eps);
  gi_cover : forall e, In e (keys done) -> exists e', In e' (keys eps) /\ same_ends fromN toN e e';
  gi_lines : Forall2 (line nds) eps (nsEdges s) }.

Lemma lookupN_cons : forall m v i w, lookupN ((v, i) :: m) w = if v =? w then Some i else lookupN m w.
Proof. intros. unfold lookupN. simpl. destruct (v =? w); auto. Qed.
(** Adding one node *)
Record ninv (s : nstate) (nds : list nat) : Prop := {
  ni_nodes : map pos nds = nsNodes s;
  ni_map : forall v i, lookupN (nsMap s) v = Some i -> nth_error nds i = Some v;
  ni_none : forall v, lookupN (nsMap s) v = None -> ~ In v nds }.
Lemma addN_ok : forall found s nds v i s', ninv s nds -> (forall k, found = Some k -> nth_error nds k = Some v) ->
  addN Pt Ln pos found s v = (i, s') ->
  exists nds', ninv s' nds' /\ nth_error nds' i = Some v /\ nsEdges s' = nsEdges s /\
    (nds' = nds /\ found <> None \/ nds' = nds ++ [v] /\ i = length nds /\ found = None).
Proof.
  intros found s nds v i s' [A B C] Fd E. unfold addN in E. destruct found as [k|].
  - injection E as <- <-. exists nds. split; [split; auto|]. split; auto. split; auto. left. split; [auto|discriminate].
  - injection E as <- <-. assert (length (nsNodes s) = length nds) as L by (rewrite <- A; apply map_length).
    exists (nds ++ [v]). split; [|split; [|split]]; simpl.
    + split; simpl.
      * rewrite map_app, A. reflexivity.
      * intros w i. rewrite lookupN_cons. destruct (v =? w) eqn:W.
        { apply Nat.eqb_eq in W. subst w. intro H. injection H as <-. rewrite L, nth_error_app2, Nat.sub_diag by lia. reflexivity. }
        { intro H. rewrite nth_error_app1; [auto|]. apply nth_error_Some. rewrite (B _ _ H). discriminate. }
      * intros w. rewrite lookupN_cons. destruct (v =? w) eqn:W; [discriminate|]. intros H I. apply in_app_iff in I.
        destruct I as [I|[->|[]]]; [apply (C _ H I)|rewrite Nat.eqb_refl in W; discriminate].
    + rewrite L, nth_error_app2, Nat.sub_diag by lia. reflexivity.
    + reflexivity.
    + right. auto.
Qed.
Lemma nth_more : forall (l m : list nat) i v, nth_error l i = Some v -> nth_error (l ++ m) i = Some v.
Proof. intros l m i v H. rewrite nth_error_app1; auto. apply nth_error_Some. rewrite H. discriminate. Qed.
Lemma lines_more : forall nds m eps ds, Forall2 (line nds) eps ds -> Forall2 (line (nds ++ m)) eps ds.
Proof.
  intros nds m eps ds H. induction H as [|ep d eps ds (A & B & C & D) F IH]; constructor; auto.
  split; [apply nth_more; auto|]. split; [apply nth_more; auto|]. auto.
Qed.
Lemma nth_snoc : forall (l : list nat) v i w, nth_error (l ++ [v]) i = Some w -> nth_error l i = Some w \/ i = length l /\ w = v.
Proof.
  intros l v i w H. destruct (Nat.lt_ge_cases i (length l)) as [L|L].
  - rewrite nth_error_app1 in H by auto. auto.
  - rewrite nth_error_app2 in H by auto. destruct (i - length l) as [|k] eqn:K; simpl in H.
    + injection H as <-. right. split; [lia|auto].
    + destruct k; discriminate.
Qed.
Lemma line_nodes : forall nds eps ds d, Forall2 (line nds) eps ds -> In d ds -> exists ep, In ep eps /\ line nds ep d.
Proof. intros nds eps ds d F. induction F as [|ep x eps ds H F IH]; intros []; [subst; exists ep; simpl; auto|]. destruct (IH H0) as (e & A & B). exists e. simpl; auto. Qed.

Lemma netEdge_inv : forall done s nds eps ep, ginv done s nds eps -> ~ In (fst ep) (keys done) ->
  exists nds' eps', ginv (done ++ [ep]) (netEdge s ep) nds' eps'.
Proof.
  intros done s nds eps [e ts] G New. simpl in New. unfold NetGraph_model.netEdge. simpl fst. simpl snd.
  destruct (addN Pt Ln pos (lookupN (nsMap s) (fromN e)) s (fromN e)) as [i s1] eqn:E1.
  destruct (addN Pt Ln pos (lookupN (nsMap s) (toN e)) s1 (toN e)) as [j s2] eqn:E2.
  assert (ninv s nds) as N0 by (split; apply G).
  destruct (addN_ok _ _ _ _ _ _ N0 (fun k H => gi_map _ _ _ _ G _ _ H) E1) as (n1 & N1 & I1 & X1 & D1).
  assert (exists m1, n1 = nds ++ m1) as [m1 M1] by (destruct D1 as [[-> _]|[-> _]]; [exists []; rewrite app_nil_r|exists [fromN e]]; auto).
  assert (forall k, lookupN (nsMap s) (toN e) = Some k -> nth_error n1 k = Some (toN e)) as Fd.
  { intros k H. rewrite M1. apply nth_more. apply (gi_map _ _ _ _ G _ _ H). }
  destruct (addN_ok _ _ _ _ _ _ N1 Fd E2) as (n2 & N2 & I2 & X2 & D2).
  assert (exists m2, n2 = n1 ++ m2) as [m2 M2] by (destruct D2 as [[-> _]|[-> _]]; [exists []; rewrite app_nil_r|exists [toN e]]; auto).
  assert (nth_error n2 i = Some (fromN e)) as I1' by (rewrite M2; apply nth_more; auto).
  assert (Forall2 (line n2) eps (nsEdges s2)) as Ls.
  { rewrite X2, X1, M2. apply lines_more. rewrite M1. apply lines_more. apply G. }
  assert (forall k, In k (keys (done ++ [(e, ts)])) <-> In k (keys done) \/ k = e) as Ks.
  { intro k. unfold keys. rewrite map_app, in_app_iff. simpl. intuition. }
  assert (forall v, In v n2 <-> In v nds \/ v = fromN e \/ v = toN e) as In2.
  { intro v. split.
    - intro I. destruct D2 as [[-> _]|[-> _]]; [|apply in_app_iff in I; destruct I as [I|[<-|[]]]; auto];
      (destruct D1 as [[-> _]|[-> _]]; [auto|apply in_app_iff in I; destruct I as [I|[<-|[]]]; auto]).
    - intros [I|[-> | ->]]; [|apply (nth_error_In _ _ I1')|apply (nth_error_In _ _ I2)].
      rewrite M2, M1. apply in_app_iff. left. apply in_app_iff. auto. }
  assert (forall a b v, nth_error n2 a = Some v -> nth_error n2 b = Some v -> a = b \/ exists k, In k (keys (done ++ [(e, ts)])) /\ fromN k = v /\ toN k = v) as Dp.
  { assert (forall a b v, nth_error n1 a = Some v -> nth_error n1 b = Some v -> a = b \/ exists k, In k (keys done) /\ fromN k = v /\ toN k = v) as Dp1.
    { intros a b v A B. destruct D1 as [[-> _]|(-> & _ & No)]; [apply (gi_dup _ _ _ _ G a b); auto|].
      apply (gi_none _ _ _ _ G) in No.
      apply nth_snoc in A. apply nth_snoc in B. destruct A as [A|[-> ->]], B as [B|[-> Ev]]; auto.
      - apply (gi_dup _ _ _ _ G a b); auto.
      - subst v. apply nth_error_In in A. contradiction.
      - apply nth_error_In in B. contradiction. }
    assert (forall a b v, nth_error n1 a = Some v -> nth_error n1 b = Some v -> a = b \/ exists k, In k (keys (done ++ [(e, ts)])) /\ fromN k = v /\ toN k = v) as Dp1'.
    { intros a b v A B. destruct (Dp1 a b v A B) as [H|(k & H & K)]; auto. right. exists k. split; auto. apply Ks. auto. }
    intros a b v A B. destruct D2 as [[-> _]|(-> & _ & No)]; [apply Dp1'; auto|].
    apply (gi_none _ _ _ _ G) in No.
    assert (In (toN e) n1 -> fromN e = toN e) as Sf.
    { intro I. destruct D1 as [[-> _]|[-> _]]; [contradiction|]. apply in_app_iff in I. destruct I as [I|[I|[]]]; [contradiction|auto]. }
    apply nth_snoc in A. apply nth_snoc in B. destruct A as [A|[-> ->]], B as [B|[-> Ev]]; auto.
    - subst v. right. exists e. split; [apply Ks; auto|]. split; auto. apply Sf, (nth_error_In _ _ A).
    - right. exists e. split; [apply Ks; auto|]. split; auto. apply Sf, (nth_error_In _ _ B). }
  assert (forall v, In v n2 <-> ends (done ++ [(e, ts)]) v) as En.
  { intro v. rewrite In2, (gi_ends _ _ _ _ G). split.
    - intros [(k & A & B)|H]; [exists k; split; auto; apply Ks; auto|exists e; split; auto; apply Ks; auto].
    - intros (k & A & B). apply Ks in A. destruct A as [A| ->]; auto. left. exists k. auto. }
  destruct N2 as [Na Nb Nc]. unfold addE. destruct (existsb (joins Ln i j) (nsEdges s2)) eqn:Ex.
  - exists n2, eps. split; auto.
    + intros x I. apply in_app_iff. left. apply (gi_sub _ _ _ _ G _ I).
    + apply G.
    + intros k I. apply Ks in I. destruct I as [I| ->]; [apply (gi_cover _ _ _ _ G); auto|].
      apply existsb_exists in Ex. destruct Ex as (d & Id & Jd).
      destruct (line_nodes _ _ _ _ Ls Id) as ([e' ts'] & Ie & (A & B & _)). simpl in A, B.
      exists e'. split; [apply (in_map fst) in Ie; exact Ie|]. unfold joins in Jd. apply orb_true_iff in Jd. rewrite !andb_true_iff, !Nat.eqb_eq in Jd.
      destruct Jd as [[P Q]|[P Q]]; rewrite P in A; rewrite Q in B; [left|right].
      * rewrite A in I1'. rewrite B in I2. injection I1' as ->. injection I2 as ->. auto.
      * rewrite A in I2. rewrite B in I1'. injection I1' as ->. injection I2 as ->. auto.
  - exists n2, (eps ++ [(e, ts)]). split; auto; simpl.
    + intros x I. apply in_app_iff in I. apply in_app_iff. destruct I as [I|I]; auto. left. apply (gi_sub _ _ _ _ G _ I).
    + unfold keys. rewrite map_app. simpl. apply (Permutation_NoDup (l := e :: map fst eps)); [apply Permutation_cons_append|].
      constructor; [|apply G]. intro I. apply New. apply in_map_iff in I. destruct I as (x & <- & I). apply (in_map fst), (gi_sub _ _ _ _ G _ I).
    + intros k I. apply Ks in I. unfold keys. rewrite map_app. destruct I as [I| ->].
      * destruct (gi_cover _ _ _ _ G _ I) as (e' & A & B). exists e'. split; auto. apply in_app_iff. auto.
      * exists e. split; [apply in_app_iff; simpl; auto|]. left. auto.
    + apply Forall2_app; auto. constructor; [|constructor]. split; [|split; [|split]]; auto.
Qed.
Lemma netEdges_inv : forall l done s nds eps, ginv done s nds eps -> NoDup (keys (done ++ l)) ->
  exists nds' eps', ginv (done ++ l) (fold_left netEdge l s) nds' eps'.
Proof.
  induction l as [|ep l IH]; intros done s nds eps G N; simpl.
  - rewrite app_nil_r. eauto.
  - destruct (netEdge_inv done s nds eps ep G) as (n' & e' & G').
    + unfold keys in N. rewrite map_app in N. simpl in N. apply NoDup_remove_2 in N. intro I. apply N. apply in_app_iff. auto.
    + replace (done ++ ep :: l) with ((done ++ [ep]) ++ l) in * by (rewrite <- app_assoc; reflexivity). apply (IH _ _ n' e'); auto.
Qed.
Lemma start_ginv : ginv [] (mkNS Pt Ln [] [] []) [] [].
Proof.
  split; simpl; auto; try discriminate; try contradiction.
  - intros [|i] j v; discriminate.
  - intro v. split; [contradiction|]. intros (e & [] & _).
  - constructor.
Qed.
Lemma weight_entry : forall g e ts t, NoDup (keys g) -> In (e, ts) g -> weight g e t = occ ts t /\ size g e = length ts.
Proof.
  assert (forall g e t, ~ In e (keys g) -> weight g e t = 0 /\ size g e = 0) as Z.
  { induction g as [|[k l] g IH]; intros e t H; [auto|]. unfold weight, size in *. simpl in *. destruct (k =? e) eqn:K; [apply Nat.eqb_eq in K; subst; tauto|].
    apply IH. tauto. }
  induction g as [|[k l] g IH]; intros e ts t N I; [contradiction|]. inversion N; subst. unfold weight, size in *. simpl in *. destruct I as [I|I].
  - injection I as -> ->. rewrite Nat.eqb_refl. destruct (Z g e t) as [A B]; auto. unfold weight, size in A, B. rewrite A, B. lia.
  - destruct (k =? e) eqn:K; [|apply IH; auto]. apply Nat.eqb_eq in K. subst k. exfalso. apply H1. apply (in_map fst) in I. exact I.
Qed.
Lemma graph_depicts : forall leaves all g, jobOps leaves all -> holds g all ->
  exists nds es, depicts leaves (buildNetGraph Pt Ln fromN toN pos geo ord g) nds es /\
    Forall2 (fun e d => forall n, all_travels e leaves n -> length (neTrips _ d) = n) es (ngEdges _ _ (buildNetGraph Pt Ln fromN toN pos geo ord g)).
Proof.
  intros leaves all g J H.
  assert (NoDup (keys (ord g))) as Nd.
  { apply (Permutation_NoDup (Permutation_map fst (ordP g))). apply H. }
  destruct (netEdges_inv (ord g) [] _ _ _ start_ginv) as (nds & eps & G); [exact Nd|].
  simpl app in G.
  assert (forall k, In k (keys (ord g)) <-> used leaves k) as U.
  { intro k. rewrite <- (jobOps_keys _ _ k J), <- (h_keys _ _ H). unfold keys. split; apply Permutation_in; [apply Permutation_sym|]; apply Permutation_map, ordP. }
  exists nds, (keys eps). unfold buildNetGraph. simpl. split.
  - split; [apply G|]. split; [|split; [|split; [|split; [|split]]]]; simpl.
    + intros i j v A B. destruct (gi_dup _ _ _ _ G i j v A B) as [X|(e & X & Y)]; auto. right. exists e. split; auto. apply U; auto.
    + intro v. rewrite (gi_ends _ _ _ _ G). split; intros (e & A & B); exists e; split; auto; apply U; auto.
    + apply G.
    + intros e I. apply U. unfold keys in I. apply in_map_iff in I. destruct I as (x & <- & I). apply in_map, (gi_sub _ _ _ _ G _ I).
    + intros e I. apply (gi_cover _ _ _ _ G). apply U; auto.
    + pose proof (gi_lines _ _ _ _ G) as Ls. pose proof (gi_sub _ _ _ _ G) as Sb. clear G.
      induction Ls as [|[e ts] d eps ds (A & B & C & D) Ls IH]; simpl; constructor.
      * split; auto. split; auto. split; auto. intros t n T. simpl in D. rewrite D.
        destruct (weight_entry (ord g) e ts t Nd) as [W _]; [apply Sb; left; auto|].
        rewrite <- W. rewrite <- (weight_perm _ _ e t (ordP g)), (h_weight _ _ H). apply (jobOps_travels _ _ e J); auto.
      * apply IH. intros x I. apply Sb. right; auto.
  - pose proof (gi_lines _ _ _ _ G) as Ls. pose proof (gi_sub _ _ _ _ G) as Sb. clear G.
    induction Ls as [|[e ts] d eps ds (A & B & C & D) Ls IH]; simpl; constructor.
    + intros n T. simpl in D. rewrite D. destruct (weight_entry (ord g) e ts 0 Nd) as [_ W]; [apply Sb; left; auto|].
      rewrite <- W. rewrite <- (size_perm _ _ e (ordP g)), (h_size _ _ H). apply (jobOps_travels _ _ e J); auto.
    + apply IH. intros x I. apply Sb. right; auto.
Qed.
Lemma transit_depicts : forall jobs n sched s, run isRev fromN toN getEdg jobs n sched = Some s -> n <> 0 -> joined s ->
  exists ng nds es, transitGraph Pt Ln isRev fromN toN getEdg pos geo ord jobs n sched = Some ng /\
    depicts (concat jobs) ng nds es /\
    Forall2 (fun e d => forall k, all_travels e (concat jobs) k -> length (neTrips _ d) = k) es (ngEdges _ _ ng).
Proof.
  intros jobs n sched s R N D. destruct (merged _ _ _ _ R N D) as (all & J & H).
  destruct (graph_depicts _ _ _ J H) as (nds & es & A & B).
  unfold transitGraph. rewrite R. simpl. eexists. exists nds, es. split; [reflexivity|]. auto.
Qed.
End Proofs.
