(** Proofs about the payloads of edges and nodes. *)
From Coq Require Import List Arith NArith Bool Lia.
From Verif Require Import ListAux Payload_model Payload_spec.
Import ListNotations.
Open Scope nat_scope.
Local Arguments Nat.ltb : simpl never.

(** ** Lists of payloads *)
Definition look {A : Type} (ps : list (nat * A)) (i : nat) : option A := match find (fun x => fst x =? i) ps with Some x => Some (snd x) | None => None end.
Definition b2n (b : bool) : nat := if b then 1 else 0.
Definition cnt {A : Type} (f : A -> bool) (ps : list (nat * A)) : nat := length (filter (fun x => f (snd x)) ps).
Lemma look_in : forall (A : Type) (ps : list (nat * A)) i p, NoDup (map fst ps) -> (look ps i = Some p <-> In (i, p) ps).
Proof.
  intros A ps i p Nd. unfold look. induction ps as [|[k q] ps IH]; cbn; [split; [discriminate|easy]|]. inversion Nd; subst. destruct (k =? i) eqn:E.
  - apply Nat.eqb_eq in E. subst k. cbn. split; [intros X; injection X as ->; auto|]. intros [X|X]; [congruence|]. exfalso. apply H1. change i with (fst (i, p)). now apply in_map.
  - rewrite IH by auto. apply Nat.eqb_neq in E. split; [auto|]. intros [X|X]; [congruence|auto].
Qed.
Lemma look_none : forall (A : Type) (ps : list (nat * A)) i, look ps i = None <-> ~ In i (map fst ps).
Proof.
  intros A ps i. unfold look. induction ps as [|[k q] ps IH]; cbn; [tauto|]. destruct (k =? i) eqn:E.
  - apply Nat.eqb_eq in E. split; [discriminate|]. intros X. exfalso. auto.
  - apply Nat.eqb_neq in E. rewrite IH. tauto.
Qed.
Lemma look_cons : forall (A : Type) (ps : list (nat * A)) i p k, look ((i, p) :: ps) k = if k =? i then Some p else look ps k.
Proof. intros. unfold look. cbn. rewrite (Nat.eqb_sym k i). now destruct (i =? k). Qed.
Lemma look_filter : forall (A : Type) (ps : list (nat * A)) i k, look (filter (fun x => negb (fst x =? i)) ps) k = if k =? i then None else look ps k.
Proof.
  intros A ps i k. unfold look. induction ps as [|[j q] ps IH]; cbn; [now destruct (k =? i)|]. destruct (j =? i) eqn:E; cbn.
  - rewrite IH. apply Nat.eqb_eq in E. subst j. rewrite (Nat.eqb_sym i k). destruct (k =? i) eqn:K; reflexivity.
  - destruct (j =? k) eqn:J; [|exact IH]. apply Nat.eqb_eq in J. subst k. now rewrite E.
Qed.
Lemma look_set : forall (ps : list (nat * pld)) i p k, look ps i <> None -> look (setPl ps i p) k = if k =? i then Some p else look ps k.
Proof.
  intros ps i p k. unfold look, setPl. induction ps as [|[j q] ps IH]; cbn; [easy|]. destruct (j =? i) eqn:E; cbn.
  - apply Nat.eqb_eq in E. subst j. intros _. rewrite (Nat.eqb_sym i k). destruct (k =? i) eqn:K; [reflexivity|].
    clear - K. induction ps as [|[j q'] ps IH]; cbn; [reflexivity|]. destruct (j =? i) eqn:E; cbn.
    + apply Nat.eqb_eq in E. subst j. rewrite (Nat.eqb_sym i k), K. exact IH.
    + destruct (j =? k); [reflexivity|exact IH].
  - intros H. destruct (j =? k) eqn:J; [|auto]. apply Nat.eqb_eq in J. subst k. now rewrite E.
Qed.
Lemma fst_set : forall (ps : list (nat * pld)) i p, map fst (setPl ps i p) = map fst ps.
Proof. intros. unfold setPl. rewrite map_map. apply map_ext. intros [j q]. cbn. destruct (j =? i) eqn:E; [apply Nat.eqb_eq in E; now subst|reflexivity]. Qed.
Lemma cnt_cons : forall (A : Type) (f : A -> bool) i p ps, cnt f ((i, p) :: ps) = b2n (f p) + cnt f ps.
Proof. intros. unfold cnt. cbn. now destruct (f p). Qed.
Lemma cnt_filter : forall (A : Type) (f : A -> bool) i p ps, NoDup (map fst ps) -> In (i, p) ps -> b2n (f p) + cnt f (filter (fun x => negb (fst x =? i)) ps) = cnt f ps.
Proof.
  intros A f i p ps Nd I. induction ps as [|[j q] ps IH]; [easy|]. inversion Nd; subst. cbn [filter fst]. destruct (j =? i) eqn:E.
  - apply Nat.eqb_eq in E. subst j. cbn [negb]. destruct I as [I|I]; [|exfalso; apply H1; change i with (fst (i, p)); now apply in_map]. injection I as ->. rewrite cnt_cons. f_equal.
    assert (X : filter (fun x : nat * A => negb (fst x =? i)) ps = ps); [|now rewrite X]. clear - H1. induction ps as [|[j q] ps IH]; cbn; [reflexivity|]. destruct (j =? i) eqn:E.
    + apply Nat.eqb_eq in E. subst. exfalso. apply H1. now left.
    + cbn. rewrite IH; [reflexivity|]. intros X. apply H1. now right.
  - cbn [negb]. rewrite !cnt_cons. apply Nat.eqb_neq in E. destruct I as [I|I]; [congruence|]. rewrite <- (IH H2 I). lia.
Qed.
Lemma cnt_set : forall (f : pld -> bool) i p p' ps, NoDup (map fst ps) -> In (i, p) ps -> cnt f (setPl ps i p') + b2n (f p) = cnt f ps + b2n (f p').
Proof.
  intros f i p p' ps Nd I. induction ps as [|[j q] ps IH]; [easy|]. inversion Nd; subst. unfold setPl. cbn [map fst]. destruct (j =? i) eqn:E.
  - apply Nat.eqb_eq in E. subst j. destruct I as [I|I]; [|exfalso; apply H1; change i with (fst (i, p)); now apply in_map]. injection I as ->. rewrite !cnt_cons.
    assert (X : map (fun x : nat * pld => if fst x =? i then (i, p') else x) ps = ps); [|rewrite X; lia]. clear - H1. induction ps as [|[j q] ps IH]; cbn; [reflexivity|]. destruct (j =? i) eqn:E.
    + apply Nat.eqb_eq in E. subst. exfalso. apply H1. now left.
    + cbn. rewrite IH; [reflexivity|]. intros X. apply H1. now right.
  - rewrite !cnt_cons. apply Nat.eqb_neq in E. destruct I as [I|I]; [congruence|]. specialize (IH H2 I). unfold setPl in IH. lia.
Qed.
Lemma cnt_pos : forall (A : Type) (f : A -> bool) ps, 0 < cnt f ps <-> exists i p, In (i, p) ps /\ f p = true.
Proof.
  intros A f ps. unfold cnt. split.
  - intros H. destruct (filter (fun x => f (snd x)) ps) as [|[i p] l] eqn:E; [cbn in H; lia|]. assert (I : In (i, p) (filter (fun x => f (snd x)) ps)) by (rewrite E; now left).
    apply filter_In in I. exists i, p. auto.
  - intros (i & p & I & F). assert (X : In (i, p) (filter (fun x => f (snd x)) ps)) by (apply filter_In; auto). destruct (filter (fun x => f (snd x)) ps); [destruct X|cbn; lia].
Qed.
Lemma set_eq : forall (A : Type) (f : nat -> A) k v x, set f k v x = if x =? k then v else f x.
Proof. reflexivity. Qed.

(** ** Sorted lists of lines *)
Fixpoint sorted (l : list nat) : Prop := match l with [] => True | x :: r => (forall y, In y r -> x < y) /\ sorted r end.
Lemma sorted_nodup : forall l, sorted l -> NoDup l.
Proof. induction l as [|x l IH]; cbn; intros H; [constructor|]. destruct H as (A & B). constructor; [|auto]. intros I. specialize (A x I). lia. Qed.
Lemma sorted_app : forall l r, sorted (l ++ r) <-> sorted l /\ sorted r /\ forall x y, In x l -> In y r -> x < y.
Proof.
  induction l as [|a l IH]; cbn; intros r; [intuition|]. rewrite IH. split.
  - intros (A & B & C & D). split; [split; [|auto]|split; [auto|]]. { intros y I. apply A. apply in_or_app. auto. } intros x y [<-|I] Iy; [apply A, in_or_app; auto|auto].
  - intros ((A & B) & C & D). split; [|split; [auto|split; [auto|]]]; [|intros; apply D; auto]. intros y I. apply in_app_or in I. destruct I; auto.
Qed.
Lemma found_in : forall x l, sorted l -> (found x l = true <-> In x l).
Proof.
  intros x l S. unfold found. induction l as [|y l IH]; [cbn; split; [discriminate|easy]|]. destruct S as (A & B). cbn [find In]. destruct (y <? x) eqn:E; cbn [negb].
  - rewrite IH by auto. apply Nat.ltb_lt in E. split; [auto|]. intros [->|I]; [lia|auto].
  - apply Nat.ltb_ge in E. rewrite Nat.eqb_eq. split; [auto|]. intros [I|I]; [auto|]. specialize (A x I). lia.
Qed.
Lemma ins_in : forall x l y, In y (ins x l) <-> y = x \/ In y l.
Proof. induction l as [|a l IH]; intros y; cbn; [intuition|]. destruct (a <? x); cbn; [rewrite IH; intuition|intuition]. Qed.
Lemma ins_sorted : forall x l, sorted l -> ~ In x l -> sorted (ins x l).
Proof.
  induction l as [|a l IH]; cbn; intros S N0; [easy|]. destruct S as (A & B). destruct (a <? x) eqn:E; cbn.
  - apply Nat.ltb_lt in E. split; [|apply IH; auto]. intros y I. apply ins_in in I. destruct I as [->|I]; auto.
  - apply Nat.ltb_ge in E. split; [|auto]. intros y [<-|I]; [|specialize (A y I)]; lia.
Qed.
Lemma ins_last : forall x l, (forall y, In y l -> y < x) -> ins x l = l ++ [x].
Proof. induction l as [|a l IH]; cbn; intros H; [reflexivity|]. destruct (a <? x) eqn:E; [now rewrite IH; auto|]. apply Nat.ltb_ge in E. specialize (H a (or_introl eq_refl)). lia. Qed.
Definition up (o : option nat) : option nat := Some (match o with Some n => S n | None => 1 end).
Lemma addLines_ok : forall ls acc tc, sorted (acc ++ ls) -> exists tc', fold_left addLine ls (acc, tc) = (acc ++ ls, tc') /\ forall x, tc' x = if existsb (Nat.eqb x) ls then up (tc x) else tc x.
Proof.
  induction ls as [|a ls IH]; intros acc tc Srt; cbn [fold_left].
  - exists tc. rewrite app_nil_r. split; reflexivity.
  - pose proof (proj1 (sorted_app acc (a :: ls)) Srt) as (Sa & (Sl1 & Sl2) & Sx).
    assert (Lt : forall y, In y acc -> y < a) by (intros; apply Sx; [auto|now left]).
    unfold addLine at 2. destruct (found a acc) eqn:F; [apply found_in in F; [|auto]; specialize (Lt a F); lia|]. rewrite (ins_last a acc Lt).
    destruct (IH (acc ++ [a]) (set tc a (Some (match tc a with Some n => S n | None => 1 end)))) as (tc' & E & H); [rewrite <- app_assoc; exact Srt|].
    exists tc'. rewrite E, <- app_assoc. split; [reflexivity|]. intros x. rewrite H, !set_eq. cbn [existsb]. destruct (x =? a) eqn:X; cbn [orb]; [|reflexivity].
    apply Nat.eqb_eq in X. subst x. destruct (existsb (Nat.eqb a) ls) eqn:X; [|reflexivity]. apply existsb_exists in X. destruct X as (y & Iy & Ey). apply Nat.eqb_eq in Ey. subst y. specialize (Sl1 a Iy). lia.
Qed.
Definition down (o : option nat) : option nat := match o with Some (S (S n)) => Some (S n) | _ => None end.
Lemma unRefs_ok : forall ls tc al, NoDup ls -> (forall x, In x ls -> exists n, tc x = Some (S n) /\ al x = true) ->
  exists tc' al', fold_left unRef ls (Some (tc, al)) = Some (tc', al') /\
    (forall x, tc' x = if existsb (Nat.eqb x) ls then down (tc x) else tc x) /\
    (forall x, al' x = if existsb (Nat.eqb x) ls then match tc x with Some 1 => false | _ => al x end else al x).
Proof.
  induction ls as [|a ls IH]; intros tc al Nd H; [exists tc, al; auto|]. inversion Nd; subst. destruct (H a (or_introl eq_refl)) as (n & Ta & Aa).
  assert (Na : forall x, In x ls -> (x =? a) = false). { intros x I. apply Nat.eqb_neq. intros ->. contradiction. }
  assert (Ex : existsb (Nat.eqb a) ls = false). { destruct (existsb (Nat.eqb a) ls) eqn:X; [|reflexivity]. apply existsb_exists in X. destruct X as (y & Iy & Ey). apply Nat.eqb_eq in Ey. subst y. contradiction. }
  cbn [fold_left]. unfold unRef at 2. rewrite Ta. destruct n as [|n].
  - rewrite Aa. destruct (IH (set tc a None) (set al a false)) as (tc' & al' & E & H1' & H2'); [auto|intros x I; rewrite !set_eq, (Na x I); apply H; now right|].
    exists tc', al'. split; [exact E|]. split; intros x; [rewrite H1'|rewrite H2']; cbn [existsb]; rewrite !set_eq; (destruct (x =? a) eqn:X; cbn [orb]; [|reflexivity]); apply Nat.eqb_eq in X; subst x; now rewrite Ex, Ta.
  - destruct (IH (set tc a (Some (S n))) al) as (tc' & al' & E & H1' & H2'); [auto|intros x I; rewrite !set_eq, (Na x I); apply H; now right|].
    exists tc', al'. split; [exact E|]. split; intros x; [rewrite H1'|rewrite H2']; cbn [existsb]; rewrite !set_eq; (destruct (x =? a) eqn:X; cbn [orb]; [|reflexivity]); apply Nat.eqb_eq in X; subst x; now rewrite Ex, Ta.
Qed.

Section Edges.
Context {P : Type}.
Notation mem := (mem P). Notation op := (op P). Notation world := (@world P).
Definition usesG (a : nat) (p : pld) : bool := match fst p with Some b => b =? a | None => false end.
Definition usesL (l : nat) (p : pld) : bool := existsb (Nat.eqb l) (snd p).
Definition counted (n : nat) : option nat := match n with 0 => None | S _ => Some n end.
Record inv (os : list op) (m : mem) (w : world) : Prop := {
  i_nd : NoDup (map fst (pls m));
  i_rel : forall i, match look (pls m) i with
    | None => w_geom w i = None
    | Some (g, ls) => sorted ls /\ (forall l, In l ls <-> w_lines w i l) /\
        match g with None => w_geom w i = Some None | Some a => exists c, w_geom w i = Some (Some c) /\ c < length (w_cells w) /\ heap m a = Some (nth c (w_cells w) []) end end;
  i_share : forall i j a b ls ls' c d, look (pls m) i = Some (Some a, ls) -> look (pls m) j = Some (Some b, ls') -> w_geom w i = Some (Some c) -> w_geom w j = Some (Some d) -> (a = b <-> c = d);
  i_fl : forall a, flines m a = cnt (usesG a) (pls m);
  i_heap : forall a, heap m a <> None <-> 0 < cnt (usesG a) (pls m);
  i_tc : forall l, tlines m l = counted (cnt (usesL l) (pls m));
  i_tl : forall l, tl m l = true <-> 0 < cnt (usesL l) (pls m) \/ unused os l;
  i_un : forall l, unused os l -> cnt (usesL l) (pls m) = 0
}.
Lemma put_eq : forall (A : Type) (f : nat -> A) k v x, put f k v x = if x =? k then v else f x.
Proof. intros. unfold put. destruct (Nat.eq_dec x k) as [->|N0]; [now rewrite Nat.eqb_refl|]. apply Nat.eqb_neq in N0. now rewrite N0. Qed.
Lemma usesL_in : forall l p, usesL l p = true <-> In l (snd p).
Proof. intros l p. unfold usesL. rewrite existsb_exists. split; [intros (y & I & E); apply Nat.eqb_eq in E; now subst|]. intros I. exists l. split; [auto|apply Nat.eqb_refl]. Qed.
Lemma usesG_iff : forall a p, usesG a p = true <-> fst p = Some a.
Proof. intros a [g ls]. unfold usesG. cbn. destruct g; [rewrite Nat.eqb_eq|]; split; congruence. Qed.
Lemma unused_other : forall (os : list op) o l, (forall i, o <> AddLine i l) -> (o <> NewLine l) -> (unused (os ++ [o]) l <-> unused os l).
Proof.
  intros os o l NA NN. split.
  - intros (o1 & o2 & E & H). destruct o2 as [|x o2] using rev_ind; [apply app_inj_tail in E; destruct E; congruence|].
    clear IHo2. change (o1 ++ NewLine l :: o2 ++ [x]) with (o1 ++ (NewLine l :: o2) ++ [x]) in E. rewrite app_assoc in E. apply app_inj_tail in E. destruct E as (E & <-).
    exists o1, o2. split; [auto|]. intros i I. apply (H i). apply in_or_app. auto.
  - intros (o1 & o2 & E & H). exists o1, (o2 ++ [o]). rewrite E, <- app_assoc. split; [reflexivity|]. intros i I. apply in_app_or in I. destruct I as [I|[I|[]]]; [now apply (H i)|now apply (NA i)].
Qed.
Lemma unused_new : forall (os : list op) l, unused (os ++ [NewLine l]) l.
Proof. intros os l. exists os, []. split; [reflexivity|]. intros i []. Qed.
Lemma unused_add : forall (os : list op) i l, ~ unused (os ++ [AddLine i l]) l.
Proof.
  intros os i l (o1 & o2 & E & H). destruct o2 as [|x o2] using rev_ind; [apply app_inj_tail in E; destruct E; discriminate|].
  clear IHo2. change (o1 ++ NewLine l :: o2 ++ [x]) with (o1 ++ (NewLine l :: o2) ++ [x]) in E. rewrite app_assoc in E. apply app_inj_tail in E. destruct E as (_ & <-).
  apply (H i). apply in_or_app. right. now left.
Qed.
Lemma change_length : forall (l : list (list P)) k f, length (change l k f) = length l.
Proof. induction l as [|x l IH]; intros [|k] f; cbn; auto. Qed.
Lemma change_nth : forall (l : list (list P)) k f c, k < length l -> nth c (change l k f) [] = if c =? k then f (nth k l []) else nth c l [].
Proof.
  induction l as [|x l IH]; intros k f c L; cbn in L; [lia|]. destruct k as [|k], c as [|c]; cbn; try reflexivity. apply IH. lia.
Qed.
Lemma counted_up : forall n, up (counted n) = counted (S n).
Proof. intros [|n]; reflexivity. Qed.
Lemma counted_down : forall n, down (counted (S n)) = counted n.
Proof. intros [|n]; reflexivity. Qed.
Lemma live_look : forall (m : mem) i, NoDup (map fst (pls m)) -> (live m i <-> exists p, look (pls m) i = Some p).
Proof. intros m i Nd. unfold live. split; intros (p & H); exists p; now apply look_in. Qed.
Lemma notlive_look : forall (m : mem) i, NoDup (map fst (pls m)) -> ~ live m i -> look (pls m) i = None.
Proof. intros m i Nd H. destruct (look (pls m) i) as [p|] eqn:E; [|reflexivity]. exfalso. apply H. exists p. now apply look_in. Qed.
Lemma getPl_look : forall (m : mem) i, getPl m i = look (pls m) i.
Proof. reflexivity. Qed.
Lemma nd_cons : forall (ps : list (nat * pld)) i p, NoDup (map fst ps) -> look ps i = None -> NoDup (map fst ((i, p) :: ps)).
Proof. intros ps i p Nd H. cbn. constructor; [now apply look_none|auto]. Qed.

(** Adding a payload. *)
Ltac eqb_cases := repeat match goal with
  | |- context [?x =? ?y] => let E := fresh "E" in destruct (x =? y) eqn:E; [apply Nat.eqb_eq in E; subst|apply Nat.eqb_neq in E]
  | H : context [?x =? ?y] |- _ => let E := fresh "E" in destruct (x =? y) eqn:E; [apply Nat.eqb_eq in E; subst|apply Nat.eqb_neq in E]
  end.

Lemma step_new : forall os m w i, inv os m w -> can m (New i) -> exists m', step m (New i) = Some m' /\ inv (os ++ [New i]) m' (w_step w (New i)).
Proof.
  intros os m w i [Nd Rel Sh Fl Hp Tc Tl Un] C. cbn in C. pose proof (notlive_look m i Nd C) as L. eexists. split; [reflexivity|].
  assert (U : forall l, unused (os ++ [New i]) l <-> unused os l) by (intros; apply unused_other; discriminate).
  constructor; cbn [pls heap flines tl tlines w_step w_geom w_lines w_cells].
  - now apply nd_cons.
  - intros k. rewrite look_cons, !put_eq. destruct (k =? i); [|exact (Rel k)]. cbn. repeat split; intros; contradiction.
  - intros k j a b ls ls' c d. rewrite !look_cons, !put_eq. destruct (k =? i); [discriminate|]. destruct (j =? i); [discriminate|]. apply Sh.
  - intros a. rewrite cnt_cons. cbn. apply Fl.
  - intros a. rewrite cnt_cons. cbn. apply Hp.
  - intros l. rewrite cnt_cons. cbn. apply Tc.
  - intros l. rewrite cnt_cons, U. cbn. apply Tl.
  - intros l. rewrite cnt_cons, U. cbn. apply Un.
Qed.
Lemma step_copy : forall os m w i j flat a, inv os m w -> can m (Copy i j flat a) -> exists m', step m (Copy i j flat a) = Some m' /\ inv (os ++ [Copy i j flat a]) m' (w_step w (Copy i j flat a)).
Proof.
  intros os m w i j flat a [Nd Rel Sh Fl Hp Tc Tl Un] (Ci & Cj & Ca). pose proof (notlive_look m i Nd Ci) as L. apply live_look in Cj; [|auto]. destruct Cj as ((g & ls) & Lj).
  assert (U : forall l, unused (os ++ [Copy i j flat a]) l <-> unused os l) by (intros; apply unused_other; discriminate).
  pose proof (Rel j) as Rj. rewrite Lj in Rj. destruct Rj as (So & Ls & Gm).
  unfold step. rewrite getPl_look, Lj. destruct (addLines_ok ls [] (tlines m) So) as (tc & Ef & Ht). rewrite Ef. cbn [app].
  assert (Nij : j <> i) by (intros ->; congruence).
  assert (HT : forall l, tc l = counted (cnt (usesL l) ((i, (g, ls)) :: pls m))).
  { intros l. rewrite Ht, Tc, cnt_cons. change (usesL l (g, ls)) with (existsb (Nat.eqb l) ls). destruct (existsb (Nat.eqb l) ls); [apply counted_up|reflexivity]. }
  assert (HTl : forall l g', tl m l = true <-> 0 < cnt (usesL l) ((i, (g', ls)) :: pls m) \/ unused (os ++ [Copy i j flat a]) l).
  { intros l g'. rewrite U, Tl, cnt_cons. change (usesL l (g', ls)) with (existsb (Nat.eqb l) ls). destruct (existsb (Nat.eqb l) ls) eqn:X; cbn [b2n plus]; [|tauto].
    split; [intros _; left; lia|]. intros _. left. apply cnt_pos. exists j, (g, ls). split; [now apply look_in|exact X]. }
  assert (HUn : forall l g', unused (os ++ [Copy i j flat a]) l -> cnt (usesL l) ((i, (g', ls)) :: pls m) = 0).
  { intros l g' Hu. apply U in Hu. pose proof (Un l Hu) as Z. rewrite (cnt_cons pld (usesL l) i (g', ls) (pls m) : cnt (usesL l) ((i, (g', ls)) :: pls m) = b2n (usesL l (g', ls)) + cnt (usesL l) (pls m)), Z. change (usesL l (g', ls)) with (existsb (Nat.eqb l) ls). destruct (existsb (Nat.eqb l) ls) eqn:X; [|reflexivity]. exfalso.
    assert (0 < cnt (usesL l) (pls m)) by (apply cnt_pos; exists j, (g, ls); split; [now apply look_in|exact X]). lia. }
  destruct g as [b|].
  - destruct Gm as (c & Wj & Lc & Hb). destruct flat.
    + eexists. split; [reflexivity|]. cbn [w_step]. rewrite Wj. constructor; cbn [pls heap flines tl tlines w_geom w_lines w_cells]; auto.
      * now apply nd_cons.
      * intros k. rewrite look_cons, !put_eq. destruct (k =? i); [|exact (Rel k)]. split; [auto|]. split; [auto|]. exists c. auto.
      * intros k k' a1 b1 l1 l2 c1 d1. rewrite !look_cons, !put_eq. destruct (k =? i) eqn:K; destruct (k' =? i) eqn:K'; intros E1 E2 E3 E4.
        -- injection E1 as <- _. injection E2 as <- _. injection E3 as <-. injection E4 as <-. tauto.
        -- injection E1 as <- _. injection E3 as <-. exact (Sh j k' b b1 ls l2 c d1 Lj E2 Wj E4).
        -- injection E2 as <- _. injection E4 as <-. exact (Sh k j a1 b l1 ls c1 c E1 Lj E3 Wj).
        -- exact (Sh k k' a1 b1 l1 l2 c1 d1 E1 E2 E3 E4).
      * intros x. rewrite cnt_cons, set_eq. change (usesG x (Some b, ls)) with (b =? x). rewrite (Nat.eqb_sym b x). destruct (x =? b) eqn:E; [apply Nat.eqb_eq in E; subst; cbn; now rewrite Fl|apply Fl].
      * intros x. rewrite cnt_cons, Hp. change (usesG x (Some b, ls)) with (b =? x). destruct (b =? x) eqn:E; cbn [b2n plus]; [|tauto]. apply Nat.eqb_eq in E. subst x. split; [lia|]. intros _. apply Hp. congruence.
    + rewrite Hb. eexists. split; [reflexivity|]. cbn [w_step]. rewrite Wj.
      assert (Za : cnt (usesG a) (pls m) = 0). { destruct (cnt (usesG a) (pls m)) eqn:E; [reflexivity|]. exfalso. apply (proj2 (Hp a)); [lia|exact Ca]. }
      assert (Na : forall k x ls', look (pls m) k = Some (Some x, ls') -> x <> a).
      { intros k x ls' E ->. assert (0 < cnt (usesG a) (pls m)); [|lia]. apply cnt_pos. exists k, (Some a, ls'). split; [now apply look_in|]. apply usesG_iff. reflexivity. }
      constructor; cbn [pls heap flines tl tlines w_geom w_lines w_cells]; auto.
      * now apply nd_cons.
      * intros k. rewrite look_cons, !put_eq. destruct (k =? i).
        -- split; [auto|]. split; [auto|]. exists (length (w_cells w)). split; [auto|]. split; [rewrite app_length; cbn; lia|]. rewrite set_eq, Nat.eqb_refl. rewrite app_nth2, Nat.sub_diag by lia. reflexivity.
        -- pose proof (Rel k) as Rk. destruct (look (pls m) k) as [(g' & ls')|] eqn:Ek; [|exact Rk]. destruct Rk as (A & B & C). split; [auto|]. split; [auto|]. destruct g' as [x|]; [|auto].
           destruct C as (c' & C1 & C2 & C3). exists c'. split; [auto|]. split; [rewrite app_length; lia|]. rewrite set_eq. destruct (x =? a) eqn:X; [apply Nat.eqb_eq in X; exfalso; eapply Na; eauto|]. rewrite app_nth1 by auto. exact C3.
      * assert (Lt : forall k x ls' c', look (pls m) k = Some (Some x, ls') -> w_geom w k = Some (Some c') -> c' < length (w_cells w)).
        { intros k x ls' c' E1 E2. pose proof (Rel k) as Rk. rewrite E1 in Rk. destruct Rk as (_ & _ & c'' & X & Y & _). congruence. }
        intros k k' a1 b1 l1 l2 c1 d1. rewrite !look_cons, !put_eq. destruct (k =? i) eqn:K; destruct (k' =? i) eqn:K'; intros E1 E2 E3 E4.
        -- injection E1 as <- _. injection E2 as <- _. injection E3 as <-. injection E4 as <-. tauto.
        -- injection E1 as <- _. injection E3 as <-. pose proof (Na _ _ _ E2). pose proof (Lt _ _ _ _ E2 E4). split; intros; [congruence|lia].
        -- injection E2 as <- _. injection E4 as <-. pose proof (Na _ _ _ E1). pose proof (Lt _ _ _ _ E1 E3). split; intros; [congruence|lia].
        -- exact (Sh k k' a1 b1 l1 l2 c1 d1 E1 E2 E3 E4).
      * intros x. rewrite cnt_cons, set_eq. change (usesG x (Some a, ls)) with (a =? x). rewrite (Nat.eqb_sym a x). destruct (x =? a) eqn:E; [apply Nat.eqb_eq in E; subst; cbn; now rewrite Fl|apply Fl].
      * intros x. rewrite cnt_cons, set_eq. change (usesG x (Some a, ls)) with (a =? x). rewrite (Nat.eqb_sym a x). destruct (x =? a) eqn:E; cbn [b2n plus]; [|apply Hp]. split; [lia|discriminate].
      * intros l. rewrite HT, !cnt_cons. reflexivity.
  - eexists. split; [reflexivity|]. cbn [w_step]. rewrite Gm. constructor; cbn [pls heap flines tl tlines w_geom w_lines w_cells]; auto.
    * now apply nd_cons.
    * intros k. rewrite look_cons, !put_eq. destruct (k =? i); [|exact (Rel k)]. auto.
    * intros k k' a1 b1 l1 l2 c1 d1. rewrite !look_cons, !put_eq. destruct (k =? i); [discriminate|]. destruct (k' =? i); [discriminate|]. apply Sh.
Qed.
Lemma step_edit : forall os m w o i f ls a, inv os m w -> look (pls m) i = Some (Some a, ls) -> (forall l, unused (os ++ [o]) l <-> unused os l) ->
  exists c d, heap m a = Some c /\ w_geom w i = Some (Some d) /\ inv (os ++ [o]) (mkMem (pls m) (set (heap m) a (Some (f c))) (flines m) (tl m) (tlines m)) (mkW (w_geom w) (w_lines w) (change (w_cells w) d f)).
Proof.
  intros os m w o i f ls a [Nd Rel Sh Fl Hp Tc Tl Un] L U. pose proof (Rel i) as Ri. rewrite L in Ri. destruct Ri as (So & Ls & d & Wi & Ld & Ha). exists (nth d (w_cells w) []), d. split; [auto|]. split; [auto|].
  constructor; cbn [pls heap flines tl tlines w_geom w_lines w_cells]; auto.
  - intros k. pose proof (Rel k) as Rk. destruct (look (pls m) k) as [(g' & ls')|] eqn:Ek; [|exact Rk]. destruct Rk as (A & B & C). split; [auto|]. split; [auto|]. destruct g' as [x|]; [|auto].
    destruct C as (c' & C1 & C2 & C3). exists c'. split; [auto|]. rewrite change_length. split; [auto|]. rewrite set_eq, change_nth by auto. pose proof (Sh k i x a ls' ls c' d Ek L C1 Wi) as S.
    destruct (x =? a) eqn:X; destruct (c' =? d) eqn:Y; try reflexivity; [apply Nat.eqb_eq in X; apply Nat.eqb_neq in Y; tauto|apply Nat.eqb_neq in X; apply Nat.eqb_eq in Y; tauto|exact C3].
  - intros x. rewrite set_eq. destruct (x =? a) eqn:X; [|apply Hp]. apply Nat.eqb_eq in X. subst x. rewrite <- Hp. split; intros; congruence.
  - intros l. rewrite U. apply Tl.
  - intros l. rewrite U. apply Un.
Qed.
Lemma step_point : forall os m w i p a, inv os m w -> can m (AddPoint i p a) -> exists m', step m (AddPoint i p a) = Some m' /\ inv (os ++ [AddPoint i p a]) m' (w_step w (AddPoint i p a)).
Proof.
  intros os m w i p a Iv (Cl & Ca). assert (U : forall l, unused (os ++ [AddPoint i p a]) l <-> unused os l) by (intros; apply unused_other; discriminate).
  pose proof Iv as [Nd Rel Sh Fl Hp Tc Tl Un]. apply live_look in Cl; [|auto]. destruct Cl as ((g & ls) & L). unfold step. rewrite getPl_look, L. destruct g as [b|].
  - destruct (step_edit os m w (AddPoint i p a) i (fun l => l ++ [p]) ls b Iv L U) as (c & d & Hc & Wi & Iv'). rewrite Hc. eexists. split; [reflexivity|]. cbn [w_step]. rewrite Wi. exact Iv'.
  - eexists. split; [reflexivity|]. pose proof (Rel i) as Ri. rewrite L in Ri. destruct Ri as (So & Ls & Wi). cbn [w_step]. rewrite Wi.
    assert (Za : cnt (usesG a) (pls m) = 0). { destruct (cnt (usesG a) (pls m)) eqn:E; [reflexivity|]. exfalso. apply (proj2 (Hp a)); [lia|exact Ca]. }
    assert (Na : forall k x ls', look (pls m) k = Some (Some x, ls') -> x <> a).
    { intros k x ls' E ->. assert (0 < cnt (usesG a) (pls m)); [|lia]. apply cnt_pos. exists k, (Some a, ls'). split; [now apply look_in|]. apply usesG_iff. reflexivity. }
    assert (Ls' : look (pls m) i <> None) by congruence. pose proof (proj1 (look_in _ _ _ _ Nd) L) as Iin.
    assert (CG : forall x, cnt (usesG x) (setPl (pls m) i (Some a, ls)) = cnt (usesG x) (pls m) + b2n (a =? x)).
    { intros x. pose proof (cnt_set (usesG x) i (None, ls) (Some a, ls) (pls m) Nd Iin) as E. change (usesG x (None, ls)) with false in E. change (usesG x (Some a, ls)) with (a =? x) in E. cbn [b2n] in E. lia. }
    assert (CL : forall x, cnt (usesL x) (setPl (pls m) i (Some a, ls)) = cnt (usesL x) (pls m)).
    { intros x. pose proof (cnt_set (usesL x) i (None, ls) (Some a, ls) (pls m) Nd Iin) as E. change (usesL x (None, ls)) with (usesL x (Some a, ls)) in E. lia. }
    constructor; cbn [pls heap flines tl tlines w_geom w_lines w_cells].
    + now rewrite fst_set.
    + intros k. rewrite look_set, put_eq by auto. destruct (k =? i) eqn:K.
      * apply Nat.eqb_eq in K. subst k. split; [auto|]. split; [auto|]. exists (length (w_cells w)). split; [auto|]. split; [rewrite app_length; cbn; lia|]. rewrite set_eq, Nat.eqb_refl. rewrite app_nth2, Nat.sub_diag by lia. reflexivity.
      * pose proof (Rel k) as Rk. destruct (look (pls m) k) as [(g' & ls')|] eqn:Ek; [|exact Rk]. destruct Rk as (A & B & C). split; [auto|]. split; [auto|]. destruct g' as [x|]; [|auto].
        destruct C as (c' & C1 & C2 & C3). exists c'. split; [auto|]. split; [rewrite app_length; lia|]. rewrite set_eq. destruct (x =? a) eqn:X; [apply Nat.eqb_eq in X; exfalso; eapply Na; eauto|]. rewrite app_nth1 by auto. exact C3.
    + assert (Lt : forall k x ls' c', look (pls m) k = Some (Some x, ls') -> w_geom w k = Some (Some c') -> c' < length (w_cells w)).
      { intros k x ls' c' E1 E2. pose proof (Rel k) as Rk. rewrite E1 in Rk. destruct Rk as (_ & _ & c'' & X & Y & _). congruence. }
      intros k k' a1 b1 l1 l2 c1 d1. rewrite !look_set, !put_eq by auto. destruct (k =? i) eqn:K; destruct (k' =? i) eqn:K'; intros E1 E2 E3 E4.
      -- injection E1 as <- _. injection E2 as <- _. injection E3 as <-. injection E4 as <-. tauto.
      -- injection E1 as <- _. injection E3 as <-. pose proof (Na _ _ _ E2). pose proof (Lt _ _ _ _ E2 E4). split; intros; [congruence|lia].
      -- injection E2 as <- _. injection E4 as <-. pose proof (Na _ _ _ E1). pose proof (Lt _ _ _ _ E1 E3). split; intros; [congruence|lia].
      -- exact (Sh k k' a1 b1 l1 l2 c1 d1 E1 E2 E3 E4).
    + intros x. rewrite CG, set_eq. rewrite (Nat.eqb_sym a x). destruct (x =? a) eqn:E; [apply Nat.eqb_eq in E; subst; cbn; lia|]. rewrite Fl. cbn. lia.
    + intros x. rewrite CG, set_eq. rewrite (Nat.eqb_sym a x). destruct (x =? a) eqn:E; cbn [b2n]; [split; [lia|discriminate]|]. rewrite Nat.add_0_r. apply Hp.
    + intros l. rewrite CL. apply Tc.
    + intros l. rewrite CL, U. apply Tl.
    + intros l. rewrite CL, U. apply Un.
Qed.
Lemma step_line : forall os m w i l, inv os m w -> can m (AddLine i l) -> exists m', step m (AddLine i l) = Some m' /\ inv (os ++ [AddLine i l]) m' (w_step w (AddLine i l)).
Proof.
  intros os m w i l [Nd Rel Sh Fl Hp Tc Tl Un] (Cl & Ca). apply live_look in Cl; [|auto]. destruct Cl as ((g & ls) & L). pose proof (Rel i) as Ri. rewrite L in Ri. destruct Ri as (So & Ls & Gm).
  assert (Ln : look (pls m) i <> None) by congruence. pose proof (proj1 (look_in _ _ _ _ Nd) L) as Iin.
  assert (U : forall x, x <> l -> (unused (os ++ [AddLine i l]) x <-> unused os x)) by (intros x N0; apply unused_other; congruence).
  unfold step. rewrite getPl_look, L. set (ls' := if found l ls then ls else ins l ls).
  assert (E : addLine (ls, tlines m) l = (ls', if found l ls then tlines m else set (tlines m) l (up (tlines m l)))). { unfold addLine, ls', up. destruct (found l ls); reflexivity. }
  rewrite E. eexists. split; [reflexivity|].
  assert (So' : sorted ls'). { unfold ls'. destruct (found l ls) eqn:F; [auto|]. apply ins_sorted; [auto|]. intros I. apply found_in in I; [congruence|auto]. }
  assert (In' : forall x, In x ls' <-> x = l \/ In x ls). { intros x. unfold ls'. destruct (found l ls) eqn:F; [|apply ins_in]. apply found_in in F; [|auto]. split; [auto|]. intros [->|I]; auto. }
  assert (CG : forall x, cnt (usesG x) (setPl (pls m) i (g, ls')) = cnt (usesG x) (pls m)).
  { intros x. pose proof (cnt_set (usesG x) i (g, ls) (g, ls') (pls m) Nd Iin) as Q. change (usesG x (g, ls)) with (usesG x (g, ls')) in Q. lia. }
  assert (CL : forall x, cnt (usesL x) (setPl (pls m) i (g, ls')) = cnt (usesL x) (pls m) + if (x =? l) && negb (found l ls) then 1 else 0).
  { intros x. pose proof (cnt_set (usesL x) i (g, ls) (g, ls') (pls m) Nd Iin) as Q.
    assert (X : b2n (usesL x (g, ls')) = b2n (usesL x (g, ls)) + if (x =? l) && negb (found l ls) then 1 else 0); [|lia].
    destruct (x =? l) eqn:Ex; cbn [andb].
    - apply Nat.eqb_eq in Ex. subst x. assert (A : usesL l (g, ls') = true) by (apply usesL_in; cbn; apply In'; auto). rewrite A. destruct (found l ls) eqn:F; cbn [negb].
      + assert (B : usesL l (g, ls) = true) by (apply usesL_in; cbn; now apply found_in). rewrite B. reflexivity.
      + assert (B : usesL l (g, ls) = false). { destruct (usesL l (g, ls)) eqn:B; [|reflexivity]. apply usesL_in in B. cbn in B. apply found_in in B; [congruence|auto]. } rewrite B. reflexivity.
    - apply Nat.eqb_neq in Ex. rewrite Nat.add_0_r. f_equal. destruct (usesL x (g, ls)) eqn:B.
      + apply usesL_in. apply usesL_in in B. cbn in *. apply In'. auto.
      + destruct (usesL x (g, ls')) eqn:B'; [|reflexivity]. apply usesL_in in B'. cbn in B'. apply In' in B'. destruct B' as [B'|B']; [congruence|]. assert (usesL x (g, ls) = true) by (apply usesL_in; auto). congruence. }
  constructor; cbn [pls heap flines tl tlines w_step w_geom w_lines w_cells].
  - now rewrite fst_set.
  - intros k. rewrite look_set by auto. rewrite put_eq. destruct (k =? i) eqn:K; [|exact (Rel k)]. apply Nat.eqb_eq in K. subst k. split; [auto|]. split; [|exact Gm]. intros x. rewrite In', Ls. tauto.
  - intros k k' a1 b1 l1 l2 c1 d1. rewrite !look_set by auto. destruct (k =? i) eqn:K; destruct (k' =? i) eqn:K'; intros E1 E2 E3 E4; try (apply Nat.eqb_eq in K; subst k); try (apply Nat.eqb_eq in K'; subst k').
    + injection E1 as -> _. injection E2 as -> _. rewrite E3 in E4. injection E4 as ->. tauto.
    + injection E1 as -> _. eapply Sh; eauto.
    + injection E2 as -> _. eapply Sh; eauto.
    + eapply Sh; eauto.
  - intros a. rewrite CG. apply Fl.
  - intros a. rewrite CG. apply Hp.
  - intros x. rewrite CL. destruct (found l ls) eqn:F; cbn [negb].
    + rewrite andb_false_r, Nat.add_0_r. apply Tc.
    + rewrite andb_true_r, set_eq. destruct (x =? l) eqn:X; [apply Nat.eqb_eq in X; subst; rewrite Tc, counted_up; f_equal; lia|]. rewrite Nat.add_0_r. apply Tc.
  - intros x. rewrite CL. destruct (Nat.eq_dec x l) as [->|N0].
    + rewrite Nat.eqb_refl. cbn [andb]. split; [|intros _; exact Ca]. intros _. left. destruct (found l ls) eqn:F; cbn [negb]; [|lia]. rewrite Nat.add_0_r. apply cnt_pos. exists i, (g, ls). split; [auto|]. apply usesL_in. cbn. now apply found_in.
    + rewrite (U x N0). apply Nat.eqb_neq in N0. rewrite N0. cbn [andb]. rewrite Nat.add_0_r. apply Tl.
  - intros x Hu. destruct (Nat.eq_dec x l) as [->|N0]; [exfalso; exact (unused_add os i l Hu)|]. rewrite CL. pose proof (proj1 (U x N0) Hu) as Hu'. apply Nat.eqb_neq in N0. rewrite N0. cbn [andb]. rewrite (Un x Hu'). reflexivity.
Qed.
Lemma step_newline : forall os m w l, inv os m w -> can m (NewLine l) -> exists m', step m (NewLine l) = Some m' /\ inv (os ++ [NewLine l]) m' (w_step w (NewLine l)).
Proof.
  intros os m w l [Nd Rel Sh Fl Hp Tc Tl Un] C. cbn in C. eexists. split; [reflexivity|].
  assert (U : forall x, x <> l -> (unused (os ++ [NewLine l]) x <-> unused os x)) by (intros x N0; apply unused_other; congruence).
  assert (Z : cnt (usesL l) (pls m) = 0). { destruct (cnt (usesL l) (pls m)) eqn:E; [reflexivity|]. assert (tl m l = true) by (apply Tl; left; lia). congruence. }
  constructor; cbn [pls heap flines tl tlines w_step w_geom w_lines w_cells]; auto.
  - intros x. rewrite set_eq. destruct (x =? l) eqn:X; [apply Nat.eqb_eq in X; subst; split; [intros _; right; apply unused_new|auto]|]. apply Nat.eqb_neq in X. rewrite (U x X). apply Tl.
  - intros x Hu. destruct (Nat.eq_dec x l) as [->|N0]; [exact Z|]. apply Un. now apply U.
Qed.
Lemma step_destroy : forall os m w i, inv os m w -> can m (Destroy i) -> exists m', step m (Destroy i) = Some m' /\ inv (os ++ [Destroy i]) m' (w_step w (Destroy i)).
Proof.
  intros os m w i [Nd Rel Sh Fl Hp Tc Tl Un] C. cbn in C. apply live_look in C; [|auto]. destruct C as ((g & ls) & L). pose proof (Rel i) as Ri. rewrite L in Ri. destruct Ri as (So & Ls & Gm).
  assert (U : forall l, unused (os ++ [Destroy i]) l <-> unused os l) by (intros; apply unused_other; discriminate).
  pose proof (proj1 (look_in _ _ _ _ Nd) L) as Iin. set (ps := filter (fun x : nat * pld => negb (fst x =? i)) (pls m)).
  assert (CG : forall x, b2n (usesG x (g, ls)) + cnt (usesG x) ps = cnt (usesG x) (pls m)) by (intros; now apply cnt_filter).
  assert (CL : forall x, b2n (usesL x (g, ls)) + cnt (usesL x) ps = cnt (usesL x) (pls m)) by (intros; now apply cnt_filter).
  destruct (unRefs_ok ls (tlines m) (tl m) (sorted_nodup _ So)) as (tc & al & Ef & Ht & Ha).
  { intros x I. assert (X : usesL x (g, ls) = true) by (apply usesL_in; exact I). specialize (CL x). rewrite X in CL. cbn in CL. exists (cnt (usesL x) ps). rewrite Tc, <- CL. split; [reflexivity|]. apply Tl. left. lia. }
  assert (HT : forall x, tc x = counted (cnt (usesL x) ps)).
  { intros x. rewrite Ht, Tc, <- (CL x). change (existsb (Nat.eqb x) ls) with (usesL x (g, ls)). destruct (usesL x (g, ls)); cbn [b2n plus]; [apply counted_down|reflexivity]. }
  assert (HA : forall x, al x = true <-> 0 < cnt (usesL x) ps \/ unused (os ++ [Destroy i]) x).
  { intros x. rewrite U, Ha, Tc, <- (CL x). change (existsb (Nat.eqb x) ls) with (usesL x (g, ls)). pose proof (CL x) as Q. pose proof (Tl x) as T. destruct (usesL x (g, ls)) eqn:X; cbn [b2n plus] in *.
    - destruct (cnt (usesL x) ps) as [|n] eqn:N0; cbn [counted].
      + split; [discriminate|]. intros [H|H]; [lia|]. apply Un in H. lia.
      + split; [intros _; left; lia|]. intros _. apply T. left. lia.
    - rewrite T, <- Q. reflexivity. }
  assert (HU : forall x, unused (os ++ [Destroy i]) x -> cnt (usesL x) ps = 0). { intros x H. apply U in H. apply Un in H. specialize (CL x). lia. }
  assert (Nd' : NoDup (map fst ps)). { clear - Nd. unfold ps. induction (pls m) as [|[j q] l IH]; cbn; [constructor|]. inversion Nd; subst. destruct (j =? i); cbn; [auto|]. constructor; [|auto].
    intros X. apply H1. apply in_map_iff in X. destruct X as (y & <- & Iy). apply filter_In in Iy. apply in_map. tauto. }
  assert (LK : forall k, look ps k = if k =? i then None else look (pls m) k) by (intros; apply look_filter).
  assert (Share : forall i0 j a b ls0 ls' c d, look ps i0 = Some (Some a, ls0) -> look ps j = Some (Some b, ls') -> put (w_geom w) i None i0 = Some (Some c) -> put (w_geom w) i None j = Some (Some d) -> (a = b <-> c = d)).
  { intros k k' a1 b1 l1 l2 c1 d1. rewrite !LK, !put_eq. destruct (k =? i); [discriminate|]. destruct (k' =? i); [discriminate|]. apply Sh. }
  unfold step. rewrite getPl_look, L, Ef. fold ps. destruct g as [a|].
  - assert (Ua : usesG a (Some a, ls) = true) by (now apply usesG_iff). pose proof (CG a) as Qa. rewrite Ua in Qa. cbn in Qa. rewrite Fl, <- Qa. cbn [Nat.eqb].
    assert (Oth : forall x, x <> a -> cnt (usesG x) ps = cnt (usesG x) (pls m)). { intros x N0. rewrite <- (CG x). change (usesG x (Some a, ls)) with (a =? x). destruct (a =? x) eqn:E; [apply Nat.eqb_eq in E; congruence|reflexivity]. }
    destruct Gm as (c & Wi & Lc & Hc). destruct (cnt (usesG a) ps =? 0) eqn:Z.
    + apply Nat.eqb_eq in Z. rewrite Hc. eexists. split; [reflexivity|]. constructor; cbn [pls heap flines tl tlines w_step w_geom w_lines w_cells]; auto.
      * intros k. rewrite LK, put_eq. destruct (k =? i) eqn:K; [reflexivity|]. pose proof (Rel k) as Rk. destruct (look (pls m) k) as [(g' & ls')|] eqn:Ek; [|exact Rk]. destruct Rk as (A & B & D). split; [auto|]. split; [auto|]. destruct g' as [x|]; [|auto].
        destruct D as (c' & C1 & C2 & C3). exists c'. split; [auto|]. split; [auto|]. rewrite set_eq. destruct (x =? a) eqn:X; [|exact C3]. apply Nat.eqb_eq in X. subst x. exfalso.
        assert (0 < cnt (usesG a) ps); [|lia]. apply cnt_pos. exists k, (Some a, ls'). split; [apply look_in; [exact Nd'|]; rewrite LK, K; exact Ek|now apply usesG_iff].
      * intros x. rewrite set_eq. destruct (x =? a) eqn:X; [apply Nat.eqb_eq in X; subst; lia|]. apply Nat.eqb_neq in X. rewrite Fl. symmetry. now apply Oth.
      * intros x. rewrite set_eq. destruct (x =? a) eqn:X; [apply Nat.eqb_eq in X; subst; split; [congruence|lia]|]. apply Nat.eqb_neq in X. rewrite (Oth x X). apply Hp.
    + apply Nat.eqb_neq in Z. eexists. split; [reflexivity|]. constructor; cbn [pls heap flines tl tlines w_step w_geom w_lines w_cells]; auto.
      * intros k. rewrite LK, put_eq. destruct (k =? i) eqn:K; [reflexivity|]. exact (Rel k).
      * intros x. rewrite set_eq. destruct (x =? a) eqn:X; [apply Nat.eqb_eq in X; now subst|]. apply Nat.eqb_neq in X. rewrite Fl. symmetry. now apply Oth.
      * intros x. rewrite Hp. destruct (Nat.eq_dec x a) as [->|N0]; [lia|]. now rewrite (Oth x N0).
  - eexists. split; [reflexivity|]. constructor; cbn [pls heap flines tl tlines w_step w_geom w_lines w_cells]; auto.
    + intros k. rewrite LK, put_eq. destruct (k =? i) eqn:K; [reflexivity|]. exact (Rel k).
    + intros x. rewrite Fl, <- (CG x). reflexivity.
    + intros x. rewrite Hp, <- (CG x). reflexivity.
Qed.
Lemma inv_empty : inv [] empty (@w_empty P).
Proof.
  constructor; cbn; intros; auto; try (split; [congruence|unfold cnt; cbn; lia]); try discriminate.
  - constructor.
  - split; [discriminate|]. intros [H|(o1 & o2 & E & _)]; [unfold cnt in H; cbn in H; lia|destruct o1; discriminate].
Qed.
Lemma step_ok : forall os m w o, inv os m w -> can m o -> exists m', step m o = Some m' /\ inv (os ++ [o]) m' (w_step w o).
Proof.
  intros os m w o Iv C. destruct o as [i|i j flat a|i p a|i f|i l|l|i].
  - now apply step_new.
  - now apply step_copy.
  - now apply step_point.
  - destruct C as (a & ls & I). assert (L : look (pls m) i = Some (Some a, ls)) by (apply look_in; [apply Iv|auto]).
    destruct (step_edit os m w (Edit i f) i f ls a Iv L) as (c & d & Hc & Wi & Iv'); [intros; apply unused_other; discriminate|].
    unfold step. rewrite getPl_look, L, Hc. eexists. split; [reflexivity|]. cbn [w_step]. rewrite Wi. exact Iv'.
  - now apply step_line.
  - now apply step_newline.
  - now apply step_destroy.
Qed.
Lemma run_ok : forall os, possible os -> exists m, run (Some empty) os = Some m /\ inv os m (w_run os).
Proof.
  induction os as [|o os IH] using rev_ind; intros Po; [exists empty; split; [reflexivity|apply inv_empty]|].
  destruct IH as (m & R & Iv). { intros o1 o' o2 m E Rm. apply (Po o1 o' (o2 ++ [o]) m); [|auto]. rewrite E, <- app_assoc. reflexivity. }
  destruct (step_ok os m (w_run os) o Iv) as (m' & S & Iv'); [apply (Po os o [] m); auto|].
  exists m'. split; [|unfold w_run in *; rewrite fold_left_app; exact Iv']. unfold run in *. rewrite fold_left_app, R. exact S.
Qed.
Lemma memory : forall os : list op, possible os -> exists m, run (Some empty) os = Some m /\ memory_ok os m.
Proof.
  intros os Po. destruct (run_ok os Po) as (m & R & [Nd Rel Sh Fl Hp Tc Tl Un]). exists m. split; [exact R|]. constructor.
  - intros i. unfold geomOf, w_points. rewrite getPl_look. specialize (Rel i). destruct (look (pls m) i) as [(g & ls)|]; [|now rewrite Rel]. destruct Rel as (_ & _ & G). destruct g as [a|]; [|now rewrite G]. destruct G as (c & -> & _ & ->). reflexivity.
  - intros i. unfold linesOf. rewrite getPl_look. specialize (Rel i). destruct (look (pls m) i) as [(g & ls)|]; [|auto]. destruct Rel as (So & Ls & G). split; [destruct g; [destruct G as (c & -> & _)|rewrite G]; discriminate|]. split; [now apply sorted_nodup|auto].
  - intros a. rewrite Hp, cnt_pos. split; [intros (i & (g & ls) & I & X); apply usesG_iff in X; cbn in X; subst; exists i, ls; auto|]. intros (i & ls & I). exists i, (Some a, ls). split; [auto|now apply usesG_iff].
  - intros l. rewrite Tl, cnt_pos. split; (intros [H|H]; [left|right; auto]).
    + destruct H as (i & (g & ls) & I & X). apply usesL_in in X. exists i, g, ls. auto.
    + destruct H as (i & g & ls & I & X). exists i, (g, ls). split; [auto|]. now apply usesL_in.
Qed.
End Edges.

Section Nodes.
Context {I : Type}.
Lemma created_app : forall (os : list (nop I)) o, created (os ++ [o]) = (match o with SetSI _ _ => N.succ (created os) | _ => created os end).
Proof. induction os as [|x os IH]; intros o; cbn; [now destruct o|]. rewrite IH. destruct x, o; reflexivity. Qed.
Definition code (s : state) : N := match s with Plain => 0 | Blocker => MAX | Turn => MAX - 1 | Station k => N.succ (N.of_nat k) end.
Record ninv (os : list (nop I)) (m : nmem I) (w : @nworld I) : Prop := {
  ni_infos : infos m = n_infos w;
  ni_len : N.of_nat (length (n_infos w)) = created os;
  ni_si : forall n, si m n = code (n_state w n);
  ni_ok : forall n k, n_state w n = Station k -> k < length (n_infos w)
}.
Lemma changeI_length : forall (l : list I) k f, length (changeI l k f) = length l.
Proof. induction l as [|x l IH]; intros [|k] f; cbn; auto. Qed.
Lemma updNth_change : forall (l : list I) k f, updNth l k f = changeI l k f.
Proof. induction l as [|x l IH]; intros [|k] f; cbn; [reflexivity|reflexivity|reflexivity|]. now rewrite IH. Qed.
Lemma seen : forall os m w, ninv os m w -> (created os < MAX - 1)%N -> forall n, seen_as m n w.
Proof.
  intros os m w [E L Si Ok] Cr n. unfold seen_as, getSI, isBlocker, isTurnCycle. rewrite Si. specialize (Ok n). destruct (n_state w n) as [| | |k]; cbn [code]; try (repeat split; reflexivity).
  specialize (Ok k eq_refl). unfold MAX in *. assert (A : (N.succ (N.of_nat k) =? 4294967295)%N = false) by (apply N.eqb_neq; lia). assert (B : (N.succ (N.of_nat k) =? 4294967295 - 1)%N = false) by (apply N.eqb_neq; lia).
  assert (C : (N.succ (N.of_nat k) =? 0)%N = false) by (apply N.eqb_neq; lia). rewrite A, B, C. split; [reflexivity|]. split; [reflexivity|].
  assert (D : N.to_nat (N.succ (N.of_nat k) - 1) = k) by lia. rewrite D, E. destruct (nth_error (n_infos w) k) as [i|] eqn:X; [exists i; auto|]. apply nth_error_None in X. lia.
Qed.
Lemma nstep_ok : forall os m w o, ninv os m w -> (created (os ++ [o]) < MAX - 1)%N -> ninv (os ++ [o]) (nstep m o) (n_step w o).
Proof.
  intros os m w o Iv Cr. rewrite created_app in Cr. pose proof Iv as [E L Si Ok]. assert (Cr' : (created os < MAX - 1)%N) by (destruct o; lia).
  assert (Put : forall n s, (forall k, s = Station k -> k < length (n_infos w)) -> forall o', (forall a b, o' <> SetSI a b) -> ninv (os ++ [o']) (mkN (set (si m) n (code s)) (infos m)) (mkNW (put (n_state w) n s) (n_infos w))).
  { intros n s Hs o' No. constructor; cbn [si infos n_state n_infos].
    - exact E.
    - rewrite created_app. destruct o'; try exact L. exfalso. eapply No. reflexivity.
    - intros x. rewrite set_eq, put_eq. destruct (x =? n); auto.
    - intros x k. rewrite put_eq. destruct (x =? n); [apply Hs|apply Ok]. }
  destruct o as [n i|n|n|n|n k|n f].
  - unfold nstep, n_step. constructor; cbn [si infos n_state n_infos].
    + now rewrite E.
    + rewrite created_app, app_length. cbn. lia.
    + intros x. rewrite set_eq, put_eq. destruct (x =? n); [|apply Si]. cbn [code]. rewrite E, app_length. cbn [length]. unfold MAX in Cr. rewrite N.mod_small by lia. lia.
    + intros x k. rewrite put_eq, app_length. cbn [length]. destruct (x =? n); [intros X; injection X as <-; lia|]. intros X. specialize (Ok x k X). lia.
  - apply (Put n Plain); discriminate.
  - apply (Put n Turn); discriminate.
  - apply (Put n Blocker); discriminate.
  - unfold nstep. rewrite Si. apply (Put n (n_state w k)); [intros k' X; eapply Ok; eauto|discriminate].
  - cbn [nstep n_step]. pose proof (seen os m w Iv Cr' n) as Sn. unfold seen_as in Sn. pose proof (Si n) as Sin. destruct (n_state w n) as [| | |k] eqn:Es.
    + destruct Sn as (_ & _ & ->). constructor; auto. rewrite created_app. exact L.
    + destruct Sn as (_ & _ & ->). constructor; auto. rewrite created_app. exact L.
    + destruct Sn as (_ & _ & ->). constructor; auto. rewrite created_app. exact L.
    + destruct Sn as (_ & _ & i & _ & ->). constructor; cbn [si infos n_state n_infos]; auto.
      * rewrite Sin. cbn [code]. assert (D : N.to_nat (N.succ (N.of_nat k) - 1) = k) by lia. rewrite D, E. apply updNth_change.
      * rewrite created_app, changeI_length. exact L.
      * intros x k' X. rewrite changeI_length. eapply Ok; eauto.
Qed.
Lemma created_mono : forall (os : list (nop I)) o, (created os <= created (os ++ [o]))%N.
Proof. intros. rewrite created_app. destruct o; lia. Qed.
Lemma nodes_ok : forall os : list (nop I), (created os < MAX - 1)%N -> forall n, seen_as (nrun os) n (n_run os).
Proof.
  intros os Cr. apply (seen os); [|exact Cr]. induction os as [|o os IH] using rev_ind.
  - constructor; cbn; auto. discriminate.
  - unfold nrun, n_run. rewrite !fold_left_app. apply nstep_ok; [|exact Cr]. apply IH. pose proof (created_mono os o). lia.
Qed.
(** The bound is needed. *)
Lemma repeat_si : forall (i : I) k, infos (nrun (repeat (SetSI 0 i) k)) = repeat i k /\ (k <> 0 -> si (nrun (repeat (SetSI 0 i) k)) 0 = (N.of_nat k mod 4294967296)%N).
Proof.
  intros i. induction k as [|k (IH1 & IH2)]; [split; [reflexivity|easy]|].
  assert (R : repeat (SetSI 0 i) (S k) = repeat (SetSI 0 i) k ++ [SetSI 0 i]) by (apply (repeat_cons k)).
  unfold nrun in *. rewrite R, fold_left_app. cbn [fold_left nstep infos si]. rewrite IH1. split; [symmetry; apply repeat_cons|].
  intros _. rewrite set_eq. cbn [Nat.eqb]. rewrite app_length, repeat_length. cbn [length]. f_equal. lia.
Qed.
Lemma created_repeat : forall (i : I) k, created (repeat (SetSI 0 i) k) = N.of_nat k.
Proof. intros i. induction k as [|k IH]; [reflexivity|]. cbn [repeat created]. rewrite IH. lia. Qed.
End Nodes.

Section Uses.
Context {P : Type}.
Lemma no_leak : forall (os : list (op P)) m, possible os -> run (Some empty) os = Some m -> (forall i, ~ live m i) -> (forall a, heap m a = None) /\ forall l, tl m l = true -> unused os l.
Proof.
  intros os m Po R No. destruct (memory os Po) as (m' & R' & [_ _ Hh Ht]). assert (m' = m) by congruence. subst m'. split.
  - intros a. destruct (heap m a) eqn:E; [|reflexivity]. exfalso. destruct (proj1 (Hh a)) as (i & ls & I); [congruence|]. apply (No i). now exists (Some a, ls).
  - intros l T. apply Ht in T. destruct T as [(i & g & ls & I & _)|T]; [|exact T]. exfalso. apply (No i). now exists (g, ls).
Qed.
Lemma inv_points : forall (os : list (op P)) m w i, inv os m w -> geomOf m i = w_points w i.
Proof.
  intros os m w i Iv. unfold geomOf, w_points. rewrite getPl_look. pose proof (i_rel _ _ _ Iv i) as Rel. destruct (look (pls m) i) as [(g & ls)|]; [|now rewrite Rel].
  destruct Rel as (_ & _ & G). destruct g as [a|]; [|now rewrite G]. destruct G as (c & -> & _ & ->). reflexivity.
Qed.
Lemma deep_copy : forall (os : list (op P)) i j a f m0 m1 m2, possible (os ++ [Copy i j false a; Edit i f]) -> run (Some empty) os = Some m0 -> run (Some m0) [Copy i j false a] = Some m1 -> run (Some m1) [Edit i f] = Some m2 ->
  geomOf m1 i = geomOf m0 j /\ geomOf m2 j = geomOf m0 j.
Proof.
  intros os i j a f m0 m1 m2 Po R0 R1 R2.
  destruct (run_ok os) as (m0' & R0' & I0). { intros o1 o' o2 m E Rm. apply (Po o1 o' (o2 ++ [Copy i j false a; Edit i f]) m); [rewrite E, <- app_assoc; reflexivity|auto]. }
  assert (m0' = m0) by congruence. subst m0'.
  assert (C1 : can m0 (Copy i j false a)) by (apply (Po os _ [Edit i f] m0); auto).
  destruct (step_ok os m0 _ _ I0 C1) as (m1' & S1 & I1). assert (m1' = m1) by (change (step m0 (Copy i j false a) = Some m1) in R1; congruence). subst m1'.
  assert (C2 : can m1 (Edit i f)). { apply (Po (os ++ [Copy i j false a]) _ [] m1); [rewrite <- app_assoc; reflexivity|]. unfold run in *. rewrite fold_left_app, R0. exact R1. }
  destruct (step_ok _ m1 _ _ I1 C2) as (m2' & S2 & I2). assert (m2' = m2) by (change (step m1 (Edit i f) = Some m2) in R2; congruence). subst m2'.
  destruct C1 as (Ci & Cj & _). assert (Nij : (j =? i) = false). { apply Nat.eqb_neq. intros ->. contradiction. }
  rewrite (inv_points _ _ _ i I1), (inv_points _ _ _ j I2), (inv_points _ _ _ j I0). set (w := w_run os) in *. pose proof (i_rel _ _ _ I0 j) as Rj. apply live_look in Cj; [|apply I0]. destruct Cj as ((g & ls) & Lj). rewrite Lj in Rj. destruct Rj as (_ & _ & G).
  destruct g as [x|].
  - destruct G as (c & Wj & Lc & _). cbn [w_step]. rewrite Wj. cbn [w_geom]. rewrite put_eq, Nat.eqb_refl. unfold w_points. cbn [w_geom w_cells]. rewrite !put_eq, Nat.eqb_refl, Nij, Wj. split.
    + rewrite app_nth2, Nat.sub_diag by lia. reflexivity.
    + rewrite change_nth by (rewrite app_length; cbn; lia). destruct (c =? length (w_cells w)) eqn:E; [apply Nat.eqb_eq in E; lia|]. rewrite app_nth1 by auto. reflexivity.
  - cbn [w_step]. rewrite G. cbn [w_geom]. rewrite put_eq, Nat.eqb_refl. unfold w_points. cbn [w_geom w_cells]. rewrite !put_eq, Nat.eqb_refl, Nij, G. auto.
Qed.
End Uses.

Section NodeUses.
Context {I : Type}.
Lemma others : forall (os : list (nop I)) n k, n <> k -> (forall o, In o [SetNoStat n; SetTurn n; SetBlocker n] ->
    isBlocker (nrun (os ++ [o])) k = isBlocker (nrun os) k /\ isTurnCycle (nrun (os ++ [o])) k = isTurnCycle (nrun os) k /\ getSI (nrun (os ++ [o])) k = getSI (nrun os) k).
Proof.
  intros os n k N0 o H. unfold nrun. rewrite fold_left_app. cbn [fold_left]. set (m := fold_left nstep os nempty).
  assert (K : (k =? n) = false) by (apply Nat.eqb_neq; auto).
  destruct H as [<-|[<-|[<-|[]]]]; unfold getSI, isBlocker, isTurnCycle; cbn [nstep si infos]; rewrite !set_eq, K; auto.
Qed.
Lemma at_bound : forall i : I, let os := repeat (SetSI 0 i) (N.to_nat 4294967294) in created os = 4294967294%N /\ ~ seen_as (nrun os) 0 (n_run os) /\ isTurnCycle (nrun os) 0 = true.
Proof.
  intros i os. assert (T : isTurnCycle (nrun os) 0 = true).
  { unfold isTurnCycle, os. rewrite (proj2 (repeat_si i (N.to_nat 4294967294))) by lia. rewrite N2Nat.id. reflexivity. }
  split; [unfold os; rewrite created_repeat; apply N2Nat.id|]. split; [|exact T].
  assert (S : n_state (n_run os) 0 <> Turn).
  { unfold os. destruct (N.to_nat 4294967294) as [|k] eqn:E; [lia|]. clear. assert (R : repeat (SetSI 0 i) (S k) = repeat (SetSI 0 i) k ++ [SetSI 0 i]) by (apply (repeat_cons k)).
    unfold n_run. rewrite R, fold_left_app. cbn. discriminate. }
  unfold seen_as. destruct (n_state (n_run os) 0); intros H; try congruence; destruct H as (_ & H & _); congruence.
Qed.
End NodeUses.
