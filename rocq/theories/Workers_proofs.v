(** Proofs about the workers that assign shapes to trips (C36-C38, C55). *)
From Coq Require Import Ascii String List Arith NArith Bool Permutation Lia DecimalString DecimalNat.
From Verif Require Import ListAux StrAux Workers_model Workers_spec.
Import ListNotations.
Open Scope nat_scope.

(** * Ids *)
Fixpoint no_us (s : string) : Prop := match s with EmptyString => True | String c r => c <> "_"%char /\ no_us r end.
Lemma uint_no_us : forall d, no_us (NilEmpty.string_of_uint d).
Proof. induction d; cbn; auto; split; auto; discriminate. Qed.
Lemma toString_inj : forall a b, toString a = toString b -> a = b.
Proof.
  intros a b H. unfold toString in H. apply (f_equal NilEmpty.uint_of_string) in H. rewrite !NilEmpty.usu in H.
  injection H as H. apply (f_equal Nat.of_uint) in H. rewrite !Unsigned.of_to in H. exact H.
Qed.
Lemma split_us : forall a b c d, no_us a -> no_us b -> (a ++ String "_" c)%string = (b ++ String "_" d)%string -> a = b /\ c = d.
Proof.
  induction a as [|x a IH]; intros [|y b] c d A B H; cbn in *.
  - injection H; auto.
  - injection H as H1 H2. subst y. tauto.
  - injection H as H1 H2. subst x. tauto.
  - injection H as H1 H2. destruct (IH b c d (proj2 A) (proj2 B) H2) as [-> ->]. subst. auto.
Qed.
Lemma idOf_inj : forall t n t' n', idOf t n = idOf t' n' -> t = t' /\ n = n'.
Proof.
  intros t n t' n' H. unfold idOf in H. cbn in H. injection H as H. apply split_us in H; try apply uint_no_us.
  destruct H as [A B]. split; apply toString_inj; assumption.
Qed.
Lemma idOf_ne : forall t n, idOf t n <> ""%string.
Proof. intros t n. discriminate. Qed.

Lemma has_In : forall ids x, has ids x = true <-> In x ids.
Proof.
  intros ids x. unfold has. rewrite existsb_exists. split; [intros (y & I & E); apply String.eqb_eq in E; subst; exact I|].
  intros I. exists x. split; [exact I|apply String.eqb_refl].
Qed.
Lemma has_false : forall ids x, has ids x = false -> ~ In x ids.
Proof. intros ids x H I. apply has_In in I. congruence. Qed.

(** The search for an id: it yields the first free number after the counter. *)
Lemma freeId_ok : forall fuel ids ty cnt n, freeId fuel ids ty cnt = Some n ->
  cnt < n /\ ~ In (idOf ty n) ids /\ forall k, cnt < k < n -> In (idOf ty k) ids.
Proof.
  induction fuel as [|f IH]; intros ids ty cnt n H; [discriminate|]. cbn [freeId] in H.
  destruct (has ids (idOf ty (S cnt))) eqn:E.
  - destruct (IH _ _ _ _ H) as (A & B & C). split; [lia|]. split; [exact B|]. intros k K.
    destruct (Nat.eq_dec k (S cnt)) as [->|N]; [apply has_In; exact E|apply C; lia].
  - injection H as <-. split; [lia|]. split; [apply has_false; exact E|]. intros k K. lia.
Qed.
Lemma freeId_none : forall fuel ids ty cnt, freeId fuel ids ty cnt = None -> forall k, cnt < k <= cnt + fuel -> In (idOf ty k) ids.
Proof.
  induction fuel as [|f IH]; intros ids ty cnt H k K; [lia|]. cbn [freeId] in H.
  destruct (has ids (idOf ty (S cnt))) eqn:E; [|discriminate].
  destruct (Nat.eq_dec k (S cnt)) as [->|N]; [apply has_In; exact E|apply (IH _ _ _ H); lia].
Qed.
Lemma freeId_some : forall ids ty cnt, exists n, freeId (S (length ids)) ids ty cnt = Some n.
Proof.
  intros ids ty cnt. destruct (freeId (S (length ids)) ids ty cnt) as [n|] eqn:E; [eauto|]. exfalso.
  pose proof (freeId_none _ _ _ _ E) as H.
  assert (L : length (map (idOf ty) (seq (S cnt) (S (length ids)))) <= length ids).
  { apply NoDup_incl_length.
    - apply FinFun.Injective_map_NoDup; [|apply seq_NoDup]. intros a b X. apply idOf_inj in X. tauto.
    - intros x X. apply in_map_iff in X. destruct X as (k & <- & K). apply in_seq in K. apply H. lia. }
  rewrite map_length, seq_length in L. lia.
Qed.

(** * Lists *)
Lemma split_at : forall A (l : list A) i x, nth_error l i = Some x ->
  exists a b, l = a ++ x :: b /\ forall y, upd i (fun _ => y) l = a ++ y :: b.
Proof.
  intros A l. induction l as [|z l IH]; intros [|i] x H; try discriminate.
  - cbn in H. injection H as ->. exists [], l. split; reflexivity.
  - cbn in H. destruct (IH _ _ H) as (a & b & E & U). exists (z :: a), b. split; [cbn; congruence|]. intros y. cbn. rewrite U. reflexivity.
Qed.
Lemma flat_map_mid : forall A B (f : A -> list B) a x b, Permutation (flat_map f (a ++ x :: b)) (f x ++ flat_map f (a ++ b)).
Proof.
  intros A B f a x b. rewrite !flat_map_app. cbn [flat_map]. rewrite !app_assoc. apply Permutation_app_tail. apply Permutation_app_comm.
Qed.
Lemma NoDup_app : forall A (l k : list A), NoDup (l ++ k) -> NoDup l /\ NoDup k /\ forall x, In x l -> ~ In x k.
Proof.
  induction l as [|x l IH]; intros k H; cbn in H.
  - split; [constructor|]. split; [exact H|]. intros y [].
  - inversion H as [|? ? N H']; subst. destruct (IH _ H') as (A1 & B & C). split; [|split; [exact B|]].
    + constructor; [|exact A1]. intros I. apply N, in_or_app. auto.
    + intros y [->|I]; [intros K; apply N, in_or_app; auto|auto].
Qed.
Lemma in_flat_mid : forall A B (f : A -> list B) a x b u, In u (flat_map f (a ++ x :: b)) <-> In u (f x) \/ In u (flat_map f (a ++ b)).
Proof.
  intros A B f a x b u. split; intros H.
  - apply (Permutation_in _ (flat_map_mid _ _ f a x b)) in H. apply in_app_or in H. tauto.
  - apply (Permutation_in _ (Permutation_sym (flat_map_mid _ _ f a x b))), in_or_app. tauto.
Qed.

Section P.
Context {Pts D : Type}.
Notation leaf := (leaf Pts D).
Notation trip := (trip D).
Notation shared := (shared Pts D).
Notation pc := (pc Pts D).
Variable jobs : list (list leaf).
Variable cnt0 : nat.
Variable ids0 : list string.
Variable store0 : list (string * Pts).
Variable trips0 : list trip.
Hypothesis WO : work_ok jobs trips0.

Definition waiting (p : pc) : list leaf :=
  match p with
  | PLeaves _ _ ls | PTrips _ _ _ _ _ ls | PLoad _ _ _ _ _ _ ls | PStore _ _ _ _ _ _ ls _ | PTest _ _ _ _ _ _ ls
  | PRem _ _ _ _ _ _ ls | PDist _ _ _ _ _ _ ls | PAdd _ _ _ _ _ _ ls => ls
  | _ => []
  end.
Definition pend (p : pc) : list nat :=
  match p with
  | PTrips _ _ _ _ ts _ => ts
  | PLoad _ _ _ _ t ts _ | PStore _ _ _ _ t ts _ _ | PTest _ _ _ _ t ts _
  | PRem _ _ _ _ t ts _ | PDist _ _ _ _ t ts _ | PAdd _ _ _ _ t ts _ => t :: ts
  | _ => []
  end.
Definition decd (p : pc) : list nat :=
  match p with
  | PTest _ _ _ _ t _ _ | PRem _ _ _ _ t _ _ | PDist _ _ _ _ t _ _ | PAdd _ _ _ _ t _ _ => [t]
  | _ => []
  end.
Definition touch (p : pc) : list nat := match p with PAdd _ _ _ _ t _ _ => [t] | _ => [] end.

Definition osh (u : nat) : string := match nth_error trips0 u with Some x => tShape _ x | None => ""%string end.
Definition und (dec : list nat) (y : string) (u : nat) : bool := String.eqb (osh u) y && negb (existsb (Nat.eqb u) dec).
Definition undec (dec : list nat) (y : string) : nat := length (filter (und dec y) (seq 0 (length trips0))).

Lemma existsb_In : forall u l, existsb (Nat.eqb u) l = true <-> In u l.
Proof.
  intros u l. rewrite existsb_exists. split; [intros (x & I & E); apply Nat.eqb_eq in E; subst; exact I|]. intros I. exists u. split; [exact I|apply Nat.eqb_refl].
Qed.
Lemma und_true : forall dec y u, und dec y u = true <-> osh u = y /\ ~ In u dec.
Proof.
  intros dec y u. unfold und. rewrite andb_true_iff, String.eqb_eq, negb_true_iff. split; intros [A B]; split; auto.
  - intros I. apply existsb_In in I. congruence.
  - destruct (existsb (Nat.eqb u) dec) eqn:E; [|reflexivity]. apply existsb_In in E. contradiction.
Qed.
Lemma filter_le : forall (f g : nat -> bool) l, (forall u, f u = true -> g u = true) -> length (filter f l) <= length (filter g l).
Proof.
  intros f g l H. induction l as [|x l IH]; [cbn; lia|]. cbn. destruct (f x) eqn:F.
  - rewrite (H _ F). cbn. lia.
  - destruct (g x); cbn; lia.
Qed.
Lemma undec_mono : forall dec dec' y, (forall u, In u dec -> In u dec') -> undec dec' y <= undec dec y.
Proof.
  intros dec dec' y H. apply filter_le. intros u U. apply und_true in U. apply und_true. destruct U as [A B]. split; [exact A|]. auto.
Qed.
Lemma undec_ext : forall dec dec' y, (forall u, In u dec <-> In u dec') -> undec dec' y = undec dec y.
Proof. intros dec dec' y H. apply Nat.le_antisymm; apply undec_mono; intros u; apply H. Qed.
Lemma undec_other : forall dec dec' y t, osh t <> y -> (forall u, In u dec' <-> u = t \/ In u dec) -> undec dec' y = undec dec y.
Proof.
  intros dec dec' y t N H. apply Nat.le_antisymm; apply filter_le; intros u U; apply und_true in U; apply und_true; destruct U as [A B]; split; auto.
  - intros I. apply B, H. auto.
  - intros I. apply H in I. destruct I as [->|I]; auto.
Qed.
Lemma filter_lose : forall (f g : nat -> bool) t l, NoDup l -> In t l -> f t = true -> g t = false ->
  (forall u, u <> t -> f u = g u) -> length (filter f l) = S (length (filter g l)).
Proof.
  intros f g t l ND I F G H. induction l as [|x l IH]; [destruct I|]. inversion ND as [|? ? N ND']; subst.
  destruct (Nat.eq_dec x t) as [->|X].
  - cbn. rewrite F, G. cbn. f_equal. f_equal. apply filter_ext_in. intros u U. apply H. intros ->. contradiction.
  - destruct I as [->|I]; [congruence|]. cbn. rewrite (H _ X). destruct (g x); cbn; rewrite (IH ND' I); reflexivity.
Qed.
Lemma undec_lose : forall dec dec' t, t < length trips0 -> ~ In t dec -> (forall u, In u dec' <-> u = t \/ In u dec) ->
  undec dec (osh t) = S (undec dec' (osh t)).
Proof.
  intros dec dec' t L N H. unfold undec. apply (filter_lose _ _ t).
  - apply seq_NoDup.
  - apply in_seq. lia.
  - apply und_true. auto.
  - destruct (und dec' (osh t) t) eqn:U; [|reflexivity]. apply und_true in U. exfalso. apply (proj2 U), H. auto.
  - intros u X. destruct (und dec (osh t) u) eqn:U; destruct (und dec' (osh t) u) eqn:U'; auto.
    + apply und_true in U. exfalso. assert (~ und dec' (osh t) u = true) by congruence. apply H0, und_true. split; [tauto|]. intros I. apply H in I. tauto.
    + apply und_true in U'. exfalso. assert (~ und dec (osh t) u = true) by congruence. apply H0, und_true. split; [tauto|]. intros I. apply (proj2 U'), H. auto.
Qed.
Lemma undec_pos : forall dec t, t < length trips0 -> ~ In t dec -> 1 <= undec dec (osh t).
Proof. intros dec t L N. rewrite (undec_lose dec (t :: dec) t L N). lia. intros u. cbn. intuition congruence. Qed.
Lemma undec_zero : forall dec t, t < length trips0 -> undec dec (osh t) = 0 -> In t dec.
Proof.
  intros dec t L Z. destruct (in_dec Nat.eq_dec t dec) as [I|N]; [exact I|]. pose proof (undec_pos _ _ L N). lia.
Qed.

(** * The invariant *)
Definition loc (s : shared) (iss : list (string * leaf)) (dec : list nat) (p : pc) : Prop :=
  match p with
  | PFetch _ _ | PLeaves _ _ _ => True
  | PTrips _ _ id l ts _ => In (id, l) iss /\ incl ts (lTrips _ _ l)
  | PLoad _ _ id l t ts _ => In (id, l) iss /\ incl (t :: ts) (lTrips _ _ l) /\ osh t <> ""%string
  | PStore _ _ id l t ts _ r => In (id, l) iss /\ incl (t :: ts) (lTrips _ _ l) /\ osh t <> ""%string /\ (N.of_nat (undec dec (osh t)) <= r)%N
  | PTest _ _ id l t ts _ => In (id, l) iss /\ incl (t :: ts) (lTrips _ _ l) /\ osh t <> ""%string
  | PRem _ _ id l t ts _ => In (id, l) iss /\ incl (t :: ts) (lTrips _ _ l) /\ osh t <> ""%string /\ undec dec (osh t) = 0
  | PDist _ _ id l t ts _ => In (id, l) iss /\ incl (t :: ts) (lTrips _ _ l)
  | PAdd _ _ id l t ts _ => In (id, l) iss /\ incl (t :: ts) (lTrips _ _ l) /\ nth_error (sTrips _ _ s) t = Some (mkTrip D (osh t) (lDists _ _ l))
  | PDone _ _ => length jobs <= sAt _ _ s
  end.
Definition decs (fin : list nat) (ths : list pc) : list nat := fin ++ flat_map decd ths.

Record inv (iss : list (string * leaf)) (fin : list nat) (ths : list pc) (s : shared) : Prop := {
  i_leaves : Permutation (concat jobs) (map snd iss ++ flat_map waiting ths ++ concat (skipn (sAt _ _ s) jobs));
  i_trips : Permutation (flat_map (fun l => lTrips _ _ l) (map snd iss)) (fin ++ flat_map pend ths);
  i_form : forall id l, In (id, l) iss -> exists n, cnt0 < n <= sCnt _ _ s /\ id = idOf (lType _ _ l) n;
  i_nodup : NoDup (map fst iss);
  i_cnt : cnt0 <= sCnt _ _ s;
  i_fin : forall u, In u fin -> exists id l, In (id, l) iss /\ In u (lTrips _ _ l) /\ nth_error (sTrips _ _ s) u = Some (mkTrip D id (lDists _ _ l));
  i_shape : forall u, ~ In u fin -> option_map (tShape D) (nth_error (sTrips _ _ s) u) = option_map (tShape D) (nth_error trips0 u);
  i_dists : forall u, ~ In u fin -> ~ In u (flat_map touch ths) -> nth_error (sTrips _ _ s) u = nth_error trips0 u;
  i_len : length (sTrips _ _ s) = length trips0;
  i_use : forall y, y <> ""%string -> (N.of_nat (undec (decs fin ths) y) <= sUse _ _ s y)%N;
  i_kept : forall y, In y ids0 -> ~ In y (sIds _ _ s) -> exists u, u < length trips0 /\ osh u = y /\ y <> ""%string /\ undec (decs fin ths) y = 0;
  i_others : forall y, In y (sIds _ _ s) -> In y ids0 \/ exists l u, In (y, l) iss /\ In u fin /\ In u (lTrips _ _ l);
  i_new : no_clash jobs trips0 cnt0 -> (forall id l u, In (id, l) iss -> In u fin -> In u (lTrips _ _ l) -> In id (sIds _ _ s)) /\
    (forall id, In id (map fst iss) -> ~ In id ids0);
  i_store : no_clash jobs trips0 cnt0 -> exists new, sStore _ _ s = store0 ++ new /\ NoDup (map fst new) /\
    forall id p, In (id, p) new <-> exists l u, In (id, l) iss /\ p = lPts _ _ l /\ In u fin /\ In u (lTrips _ _ l);
  i_loc : forall p, In p ths -> loc s iss (decs fin ths) p
}.

Lemma pend_nodup : forall iss fin ths s, inv iss fin ths s -> NoDup (fin ++ flat_map pend ths).
Proof.
  intros iss fin ths s I. apply (Permutation_NoDup (i_trips _ _ _ _ I)).
  pose proof (wo_once _ _ WO) as W.
  apply (Permutation_NoDup (Permutation_flat_map _ (i_leaves _ _ _ _ I))) in W. rewrite flat_map_app in W.
  exact (proj1 (NoDup_app _ _ _ W)).
Qed.
Lemma iss_job : forall iss fin ths s, inv iss fin ths s -> forall id l, In (id, l) iss -> In l (concat jobs).
Proof.
  intros iss fin ths s I id l H. apply (Permutation_in _ (Permutation_sym (i_leaves _ _ _ _ I))). apply in_or_app. left.
  change l with (snd (id, l)). apply in_map. exact H.
Qed.
Lemma decd_pend : forall p u, In u (decd p) -> In u (pend p).
Proof. intros p u. destruct p; cbn; tauto. Qed.
Lemma touch_pend : forall p u, In u (touch p) -> In u (pend p).
Proof. intros p u. destruct p; cbn; tauto. Qed.
Lemma flat_sub : forall (f g : pc -> list nat) l u, (forall p v, In v (f p) -> In v (g p)) -> In u (flat_map f l) -> In u (flat_map g l).
Proof. intros f g l u H I. apply in_flat_map in I. destruct I as (p & P & Q). apply in_flat_map. exists p. auto. Qed.

(** Trips of the thread at hand are neither finished nor in another thread's hands. *)
Lemma own : forall iss fin a p b s, inv iss fin (a ++ p :: b) s -> forall t, In t (pend p) -> ~ In t fin /\ ~ In t (flat_map pend (a ++ b)).
Proof.
  intros iss fin a p b s I t T. pose proof (pend_nodup _ _ _ _ I) as N. apply NoDup_app in N. destruct N as (_ & N & F). split.
  - intros X. apply (F _ X). apply in_flat_mid. auto.
  - intros X. apply (Permutation_NoDup (flat_map_mid _ _ pend a p b)) in N. apply NoDup_app in N. destruct N as (_ & _ & F2). exact (F2 _ T X).
Qed.
Lemma own_undec : forall iss fin a p b s, inv iss fin (a ++ p :: b) s -> forall t, In t (pend p) -> ~ In t (decd p) -> ~ In t (decs fin (a ++ p :: b)).
Proof.
  intros iss fin a p b s I t T N X. destruct (own _ _ _ _ _ _ I t T) as [A B]. unfold decs in X. apply in_app_or in X.
  destruct X as [X|X]; [auto|]. apply in_flat_mid in X. destruct X as [X|X]; [auto|]. apply B. revert X. apply flat_sub. apply decd_pend.
Qed.
Lemma trip_old : forall iss fin ths s, inv iss fin ths s -> forall id l t, In (id, l) iss -> In t (lTrips _ _ l) ->
  t < length trips0 /\ exists x, nth_error trips0 t = Some x /\ osh t = tShape _ x /\ length (tDists _ x) = length (lDists _ _ l).
Proof.
  intros iss fin ths s I id l t X T. destruct (wo_trips _ _ WO l t (iss_job _ _ _ _ I _ _ X) T) as (x & E & L).
  split; [apply (nth_lt _ _ _ _ E)|]. exists x. split; [exact E|]. split; [unfold osh; rewrite E; reflexivity|exact L].
Qed.
Lemma trip_cur : forall iss fin ths s, inv iss fin ths s -> forall id l t, In (id, l) iss -> In t (lTrips _ _ l) -> ~ In t fin ->
  exists x, nth_error (sTrips _ _ s) t = Some x /\ tShape _ x = osh t.
Proof.
  intros iss fin ths s I id l t X T N. destruct (trip_old _ _ _ _ I _ _ _ X T) as (L & x & E & O & _).
  pose proof (i_shape _ _ _ _ I t N) as H. rewrite E in H. destruct (nth_error (sTrips _ _ s) t) as [y|]; [|discriminate].
  exists y. split; [reflexivity|]. cbn in H. congruence.
Qed.

Lemma loc_stable : forall s s' iss iss' dec dec' p, loc s iss dec p ->
  (forall e, In e iss -> In e iss') -> (forall y, y <> ""%string -> undec dec' y <= undec dec y) -> sAt _ _ s <= sAt _ _ s' ->
  (forall t, In t (touch p) -> nth_error (sTrips _ _ s') t = nth_error (sTrips _ _ s) t) -> loc s' iss' dec' p.
Proof.
  intros s s' iss iss' dec dec' p H HI HU HA HT. destruct p; cbn in *; auto.
  - destruct H as (A & B). auto.
  - destruct H as (A & B & C). auto.
  - destruct H as (A & B & C & E). repeat split; auto. specialize (HU _ C). lia.
  - destruct H as (A & B & C). auto.
  - destruct H as (A & B & C & E). repeat split; auto. specialize (HU _ C). lia.
  - destruct H as (A & B). auto.
  - destruct H as (A & B & C). repeat split; auto. rewrite HT; auto.
  - lia.
Qed.

(** Steps that neither issue an id nor finish a trip. *)
Lemma inv_frame : forall iss fin a p p' b s s', inv iss fin (a ++ p :: b) s ->
  waiting p' = waiting p -> pend p' = pend p -> sAt _ _ s' = sAt _ _ s -> sCnt _ _ s' = sCnt _ _ s -> sStore _ _ s' = sStore _ _ s ->
  length (sTrips _ _ s') = length (sTrips _ _ s) -> touch p = [] ->
  (forall u, ~ In u (touch p') -> nth_error (sTrips _ _ s') u = nth_error (sTrips _ _ s) u) ->
  (forall u, option_map (tShape D) (nth_error (sTrips _ _ s') u) = option_map (tShape D) (nth_error (sTrips _ _ s) u)) ->
  (forall y, In y (sIds _ _ s') -> In y (sIds _ _ s)) ->
  (forall y, In y (sIds _ _ s) -> ~ In y (sIds _ _ s') -> exists u, u < length trips0 /\ osh u = y /\ y <> ""%string /\ undec (decs fin (a ++ p' :: b)) y = 0) ->
  (forall y, y <> ""%string -> undec (decs fin (a ++ p' :: b)) y <= undec (decs fin (a ++ p :: b)) y) ->
  (forall y, y <> ""%string -> (N.of_nat (undec (decs fin (a ++ p' :: b)) y) <= sUse _ _ s' y)%N) ->
  loc s' iss (decs fin (a ++ p' :: b)) p' ->
  inv iss fin (a ++ p' :: b) s'.
Proof.
  intros iss fin a p p' b s s' I HW HP HA HC HS HL HT0 HT HSh HI1 HI2 HU HUs HLoc.
  assert (TouchP : forall u, In u (touch p') -> In u (pend p)) by (intros u X; rewrite <- HP; apply touch_pend; exact X).
  assert (FinT : forall u, In u fin -> nth_error (sTrips _ _ s') u = nth_error (sTrips _ _ s) u).
  { intros u U. apply HT. intros X. exact (proj1 (own _ _ _ _ _ _ I u (TouchP _ X)) U). }
  constructor.
  - rewrite HA. rewrite (i_leaves _ _ _ _ I). apply Permutation_app_head, Permutation_app_tail.
    rewrite !(flat_map_mid _ _ waiting). rewrite HW. reflexivity.
  - rewrite (i_trips _ _ _ _ I). apply Permutation_app_head. rewrite !(flat_map_mid _ _ pend). rewrite HP. reflexivity.
  - rewrite HC. exact (i_form _ _ _ _ I).
  - exact (i_nodup _ _ _ _ I).
  - rewrite HC. exact (i_cnt _ _ _ _ I).
  - intros u U. rewrite (FinT u U). exact (i_fin _ _ _ _ I u U).
  - intros u U. rewrite HSh. exact (i_shape _ _ _ _ I u U).
  - intros u U X. rewrite HT.
    + apply (i_dists _ _ _ _ I u U). intros Y. apply X. apply in_flat_mid. apply in_flat_mid in Y. rewrite HT0 in Y. destruct Y as [[]|Y]. auto.
    + intros Y. apply X. apply in_flat_mid. auto.
  - rewrite HL. exact (i_len _ _ _ _ I).
  - exact HUs.
  - intros y Y N. destruct (in_dec String.string_dec y (sIds _ _ s)) as [X|X]; [exact (HI2 _ X N)|].
    destruct (i_kept _ _ _ _ I y Y X) as (u & A & B & C & E). exists u. repeat split; auto. specialize (HU _ C). lia.
  - intros y Y. exact (i_others _ _ _ _ I y (HI1 _ Y)).
  - intros NC. destruct (i_new _ _ _ _ I NC) as [A B]. split; [|exact B]. intros id l u X F T.
    specialize (A _ _ _ X F T). destruct (in_dec String.string_dec id (sIds _ _ s')) as [Y|Y]; [exact Y|]. exfalso.
    destruct (HI2 _ A Y) as (v & V & O & _). destruct (i_form _ _ _ _ I _ _ X) as (n & N & E).
    unfold osh in O. destruct (nth_error trips0 v) as [x|] eqn:Ev; [|apply nth_error_None in Ev; lia].
    apply (NC v x l n Ev (iss_job _ _ _ _ I _ _ X)); [lia|congruence].
  - intros NC. rewrite HS. exact (i_store _ _ _ _ I NC).
  - intros q Q. apply in_elt_inv in Q. destruct Q as [->|Q]; [exact HLoc|].
    assert (Q' : In q (a ++ p :: b)) by (apply in_app_or in Q; apply in_or_app; cbn; tauto).
    apply (loc_stable s s' iss iss _ _ q (i_loc _ _ _ _ I q Q')); auto; [lia|].
    intros t T. apply HT. intros X. apply (proj2 (own _ _ _ _ _ _ I t (TouchP _ X))).
    apply in_flat_map. exists q. split; [exact Q|]. apply touch_pend. exact T.
Qed.

(** Membership in [decs]. *)
Lemma decs_mid : forall fin a p b u, In u (decs fin (a ++ p :: b)) <-> In u fin \/ In u (decd p) \/ In u (flat_map decd (a ++ b)).
Proof. intros. unfold decs. rewrite in_app_iff, in_flat_mid. tauto. Qed.
Lemma decs_same : forall fin a p p' b, decd p' = decd p -> forall y, undec (decs fin (a ++ p' :: b)) y = undec (decs fin (a ++ p :: b)) y.
Proof. intros fin a p p' b H y. apply undec_ext. intros u. rewrite !decs_mid, H. tauto. Qed.
Lemma decs_gain : forall fin a p p' b t, decd p = [] -> decd p' = [t] -> forall u, In u (decs fin (a ++ p' :: b)) <-> u = t \/ In u (decs fin (a ++ p :: b)).
Proof. intros fin a p p' b t A B u. rewrite !decs_mid, A, B. cbn. intuition congruence. Qed.

Theorem step_inv : forall iss fin a p b s, inv iss fin (a ++ p :: b) s ->
  exists p' s', step Pts D jobs p s = Some (p', s') /\ exists iss' fin', fin' = fin ++ touch p /\ inv iss' fin' (a ++ p' :: b) s'.
Proof.
  intros iss fin a p b s I. pose proof (i_loc _ _ _ _ I p (in_elt _ _ _)) as L. destruct p; cbn [loc] in L; cbn [step].
  - (* PFetch *)
    destruct (nth_error jobs (sAt _ _ s)) as [f|] eqn:Ef.
    + assert (LJ : sAt _ _ s < length jobs) by (apply (nth_lt _ _ _ _ Ef)).
      destruct ((if length jobs <? 10 then length jobs else 10) =? 0) eqn:E0.
      { exfalso. apply Nat.eqb_eq in E0. destruct (length jobs <? 10); lia. }
      destruct (length jobs / (if length jobs <? 10 then length jobs else 10) =? 0) eqn:E1.
      { exfalso. apply Nat.eqb_eq, Nat.div_small_iff in E1.
        - destruct (length jobs <? 10) eqn:E2; [lia|]. apply Nat.ltb_ge in E2. lia.
        - apply Nat.eqb_neq in E0. exact E0. }
      cbn [orb]. do 2 eexists. split; [reflexivity|]. exists iss, fin. split; [symmetry; apply List.app_nil_r|]. destruct I.
      constructor; cbn [sAt sCnt sIds sStore sUse sTrips]; auto.
      * rewrite i_leaves0. apply Permutation_app_head. rewrite !(flat_map_mid _ _ waiting). cbn [waiting app].
        assert (SK : skipn (sAt _ _ s) jobs = f :: skipn (S (sAt _ _ s)) jobs).
        { clear - Ef. revert Ef. generalize (sAt _ _ s) as n. clear. intros n. revert n. induction jobs as [|x l IH]; intros [|n] E; try discriminate; cbn in *; [congruence|apply IH; exact E]. }
        rewrite SK. cbn [concat]. rewrite <- (Permutation_app_comm (flat_map waiting (a ++ b))). rewrite <- List.app_assoc. reflexivity.
      * rewrite i_trips0. apply Permutation_app_head. rewrite !(flat_map_mid _ _ pend). reflexivity.
      * intros u U X. apply i_dists0; auto. rewrite in_flat_mid in *. cbn in *. exact X.
      * intros y Y. rewrite (decs_same fin a (PFetch _ _) (PLeaves _ _ f) b eq_refl). auto.
      * intros y Y N. destruct (i_kept0 y Y N) as (u & A & B & C & E). exists u. repeat split; auto.
        rewrite (decs_same fin a (PFetch _ _) (PLeaves _ _ f) b eq_refl). exact E.
      * intros q Q. apply in_elt_inv in Q. destruct Q as [->|Q]; [exact Logic.I|].
        apply (loc_stable s _ iss iss (decs fin (a ++ PFetch _ _ :: b))); auto.
        -- apply i_loc0. apply in_app_or in Q. apply in_or_app. cbn. tauto.
        -- intros y _. rewrite (decs_same fin a (PFetch _ _) (PLeaves _ _ f) b eq_refl). lia.
        -- cbn. lia.
    + do 2 eexists. split; [reflexivity|]. exists iss, fin. split; [symmetry; apply List.app_nil_r|]. apply nth_error_None in Ef. destruct I.
      constructor; cbn [sAt sCnt sIds sStore sUse sTrips]; auto.
      * rewrite i_leaves0. apply Permutation_app_head. rewrite !(flat_map_mid _ _ waiting). cbn [waiting app].
        rewrite !skipn_all2 by lia. reflexivity.
      * rewrite i_trips0. apply Permutation_app_head. rewrite !(flat_map_mid _ _ pend). reflexivity.
      * intros u U X. apply i_dists0; auto. rewrite in_flat_mid in *. cbn in *. exact X.
      * intros y Y. rewrite (decs_same fin a (PFetch _ _) (PDone _ _) b eq_refl). auto.
      * intros y Y N. destruct (i_kept0 y Y N) as (u & A & B & C & E). exists u. repeat split; auto.
        rewrite (decs_same fin a (PFetch _ _) (PDone _ _) b eq_refl). exact E.
      * intros q Q. apply in_elt_inv in Q. destruct Q as [->|Q]; [cbn; lia|].
        apply (loc_stable s _ iss iss (decs fin (a ++ PFetch _ _ :: b))); auto.
        -- apply i_loc0. apply in_app_or in Q. apply in_or_app. cbn. tauto.
        -- intros y _. rewrite (decs_same fin a (PFetch _ _) (PDone _ _) b eq_refl). lia.
        -- cbn. lia.
  - (* PLeaves *)
    destruct ls as [|l ls].
    + do 2 eexists. split; [reflexivity|]. exists iss, fin. split; [symmetry; apply List.app_nil_r|].
      apply (inv_frame iss fin a (PLeaves _ _ []) (PFetch _ _) b s s I); auto.
      * intros y X Y. contradiction.
      * intros y _. rewrite (decs_same fin a (PLeaves _ _ []) (PFetch _ _) b eq_refl). lia.
      * intros y Y. rewrite (decs_same fin a (PLeaves _ _ []) (PFetch _ _) b eq_refl). exact (i_use _ _ _ _ I y Y).
    + assert (InJ : In l (concat jobs)).
      { apply (Permutation_in _ (Permutation_sym (i_leaves _ _ _ _ I))). apply in_or_app. right. apply in_or_app. left.
        apply in_flat_mid. left. cbn. auto. }
      destruct (lTrips _ _ l) as [|t0 ts0] eqn:El; [destruct (wo_leaf _ _ WO l InJ El)|].
      destruct (freeId_some (sIds _ _ s) (lType _ _ l) (sCnt _ _ s)) as (n & En). rewrite En.
      destruct (freeId_ok _ _ _ _ _ En) as (Gt & Fr & _).
      do 2 eexists. split; [reflexivity|]. rewrite <- El.
      set (id := idOf (lType _ _ l) n). exists (iss ++ [(id, l)]), fin. split; [symmetry; apply List.app_nil_r|]. pose proof (pend_nodup _ _ _ _ I) as PN. 
      pose proof (iss_job _ _ _ _ I) as IJ. destruct I.
      assert (NewId : ~ In id (map fst iss)).
      { intros X. apply in_map_iff in X. destruct X as ([id' l'] & E & X). cbn in E. subst id'.
        destruct (i_form0 _ _ X) as (k & K & E). apply idOf_inj in E. lia. }
      assert (Same : forall y, undec (decs fin (a ++ PTrips Pts D id l (lTrips _ _ l) ls :: b)) y = undec (decs fin (a ++ PLeaves _ _ (l :: ls) :: b)) y).
      { apply decs_same. reflexivity. }
      assert (NewL : forall u, In u fin -> ~ In u (lTrips _ _ l)).
      { intros u U T. pose proof (wo_once _ _ WO) as W.
        apply (Permutation_NoDup (Permutation_flat_map _ i_leaves0)) in W. rewrite flat_map_app in W.
        apply NoDup_app in W. destruct W as (_ & _ & W). apply (W u).
        - apply (Permutation_in _ (Permutation_sym i_trips0)). apply in_or_app. auto.
        - apply in_flat_map. exists l. split; [apply in_or_app; left; apply in_flat_mid; left; cbn; auto|exact T]. }
      assert (InIss : forall e, In e iss -> In e (iss ++ [(id, l)])) by (intros e X; apply in_or_app; auto).
      constructor; cbn [sAt sCnt sIds sStore sUse sTrips]; auto.
      * rewrite i_leaves0. rewrite map_app. cbn [map snd]. rewrite <- List.app_assoc. apply Permutation_app_head.
        rewrite !(flat_map_mid _ _ waiting). cbn [waiting app]. reflexivity.
      * rewrite map_app, flat_map_app, i_trips0. cbn [map snd flat_map]. rewrite List.app_nil_r.
        rewrite <- List.app_assoc. apply Permutation_app_head. rewrite !(flat_map_mid _ _ pend). cbn [pend app].
        apply Permutation_app_comm.
      * intros id' l' X. apply in_app_or in X. destruct X as [X|[X|[]]].
        -- destruct (i_form0 _ _ X) as (k & K & E). exists k. split; [lia|exact E].
        -- injection X as <- <-. exists n. split; [lia|reflexivity].
      * rewrite map_app. cbn [map fst]. apply (Permutation_NoDup (Permutation_app_comm [id] _)). constructor; assumption.
      * lia.
      * intros u U. destruct (i_fin0 u U) as (id' & l' & A & B & C). exists id', l'. auto.
      * intros u U X. apply i_dists0; auto. rewrite in_flat_mid in *. cbn in *. exact X.
      * intros y Y. rewrite Same. auto.
      * intros y Y N. destruct (i_kept0 y Y N) as (u & A & B & C & E). exists u. repeat split; auto. rewrite Same. exact E.
      * intros y Y. destruct (i_others0 y Y) as [A|(l' & u & A & B & C)]; [auto|]. right. exists l', u. auto.
      * intros NC. destruct (i_new0 NC) as [A B]. split.
        -- intros id' l' u X U T. apply in_app_or in X. destruct X as [X|[X|[]]]; [exact (A _ _ _ X U T)|].
           injection X as <- <-. destruct (NewL _ U T).
        -- intros id' X. rewrite map_app in X. apply in_app_or in X. destruct X as [X|[X|[]]]; [auto|]. cbn in X. subst id'.
           intros Y. destruct (i_kept0 id Y Fr) as (u & U & O & _). unfold osh in O.
           destruct (nth_error trips0 u) as [x|] eqn:Eu; [|apply nth_error_None in Eu; lia].
           apply (NC u x l n Eu); [|lia|exact O].
           apply (Permutation_in _ (Permutation_sym i_leaves0)). apply in_or_app. right. apply in_or_app. left. apply in_flat_mid. left. cbn. auto.
      * intros NC. destruct (i_store0 NC) as (new & A & B & C). exists new. split; [exact A|]. split; [exact B|].
        intros id' p. rewrite C. split; intros (l' & u & X & E & U & T).
        -- exists l', u. auto.
        -- apply in_app_or in X. destruct X as [X|[X|[]]]; [exists l', u; auto|]. injection X as <- <-. destruct (NewL _ U T).
      * intros q Q. apply in_elt_inv in Q. destruct Q as [->|Q].
        -- cbn. split; [apply in_or_app; cbn; auto|apply incl_refl].
        -- apply (loc_stable s _ iss _ (decs fin (a ++ PLeaves _ _ (l :: ls) :: b))); auto.
           ++ apply i_loc0. apply in_app_or in Q. apply in_or_app. cbn. tauto.
           ++ intros y _. rewrite Same. lia.
  - (* PTrips *)
    destruct L as [L1 L2]. destruct ts as [|t ts].
    + do 2 eexists. split; [reflexivity|]. exists iss, fin. split; [symmetry; apply List.app_nil_r|].
      assert (Same := decs_same fin a (PTrips _ _ id l [] ls) (PLeaves _ _ ls) b eq_refl).
      apply (inv_frame iss fin a (PTrips _ _ id l [] ls) (PLeaves _ _ ls) b s s I); auto.
      * intros y X Y. contradiction.
      * intros y _. rewrite Same. lia.
      * intros y Y. rewrite Same. exact (i_use _ _ _ _ I y Y).
      * exact Logic.I.
    + assert (Tl : In t (lTrips _ _ l)) by (apply L2; cbn; auto).
      destruct (own _ _ _ _ _ _ I t (or_introl eq_refl)) as [NF NP].
      destruct (trip_cur _ _ _ _ I _ _ _ L1 Tl NF) as (x & Ex & Sx). rewrite Ex, Sx.
      destruct (trip_old _ _ _ _ I _ _ _ L1 Tl) as (Lt & _).
      destruct (String.eqb (osh t) "") eqn:Em; cbn [negb andb].
      * apply String.eqb_eq in Em. do 2 eexists. split; [reflexivity|]. exists iss, fin. split; [symmetry; apply List.app_nil_r|].
        pose proof (decs_gain fin a (PTrips _ _ id l (t :: ts) ls) (PDist _ _ id l t ts ls) b t eq_refl eq_refl) as Ga.
        assert (Same : forall y, y <> ""%string -> undec (decs fin (a ++ PDist _ _ id l t ts ls :: b)) y = undec (decs fin (a ++ PTrips _ _ id l (t :: ts) ls :: b)) y).
        { intros y Y. apply (undec_other _ _ y t); [congruence|exact Ga]. }
        apply (inv_frame iss fin a (PTrips _ _ id l (t :: ts) ls) (PDist _ _ id l t ts ls) b s s I); auto.
        -- intros y X Y. contradiction.
        -- intros y Y. rewrite (Same y Y). lia.
        -- intros y Y. rewrite (Same y Y). exact (i_use _ _ _ _ I y Y).
        -- cbn. auto.
      * apply String.eqb_neq in Em.
        assert (Up : (0 <? sUse _ _ s (osh t))%N = true).
        { apply N.ltb_lt. pose proof (i_use _ _ _ _ I _ Em) as U.
          pose proof (undec_pos _ t Lt (own_undec _ _ _ _ _ _ I t (or_introl eq_refl) (fun x => x))). lia. }
        rewrite Up. do 2 eexists. split; [reflexivity|]. exists iss, fin. split; [symmetry; apply List.app_nil_r|].
        assert (Same := decs_same fin a (PTrips _ _ id l (t :: ts) ls) (PLoad _ _ id l t ts ls) b eq_refl).
        apply (inv_frame iss fin a (PTrips _ _ id l (t :: ts) ls) (PLoad _ _ id l t ts ls) b s s I); auto.
        -- intros y X Y. contradiction.
        -- intros y _. rewrite Same. lia.
        -- intros y Y. rewrite Same. exact (i_use _ _ _ _ I y Y).
        -- cbn. auto.
  - (* PLoad *)
    destruct L as (L1 & L2 & L3). assert (Tl : In t (lTrips _ _ l)) by (apply L2; cbn; auto).
    destruct (own _ _ _ _ _ _ I t (or_introl eq_refl)) as [NF NP].
    destruct (trip_cur _ _ _ _ I _ _ _ L1 Tl NF) as (x & Ex & Sx). rewrite Ex, Sx.
    do 2 eexists. split; [reflexivity|]. exists iss, fin. split; [symmetry; apply List.app_nil_r|].
    assert (Same := decs_same fin a (PLoad _ _ id l t ts ls) (PStore _ _ id l t ts ls (sUse _ _ s (osh t))) b eq_refl).
    apply (inv_frame iss fin a (PLoad _ _ id l t ts ls) (PStore _ _ id l t ts ls (sUse _ _ s (osh t))) b s s I); auto.
    + intros y X Y. contradiction.
    + intros y _. rewrite Same. lia.
    + intros y Y. rewrite Same. exact (i_use _ _ _ _ I y Y).
    + cbn. repeat split; auto. rewrite Same. exact (i_use _ _ _ _ I _ L3).
  - (* PStore *)
    destruct L as (L1 & L2 & L3 & L4). assert (Tl : In t (lTrips _ _ l)) by (apply L2; cbn; auto).
    destruct (own _ _ _ _ _ _ I t (or_introl eq_refl)) as [NF NP].
    destruct (trip_cur _ _ _ _ I _ _ _ L1 Tl NF) as (x & Ex & Sx). rewrite Ex, Sx.
    destruct (trip_old _ _ _ _ I _ _ _ L1 Tl) as (Lt & _).
    do 2 eexists. split; [reflexivity|]. exists iss, fin. split; [symmetry; apply List.app_nil_r|].
    pose proof (decs_gain fin a (PStore _ _ id l t ts ls r) (PTest _ _ id l t ts ls) b t eq_refl eq_refl) as Ga.
    pose proof (own_undec _ _ _ _ _ _ I t (or_introl eq_refl) (fun x => x)) as NU.
    pose proof (undec_lose _ _ t Lt NU Ga) as Lo.
    assert (Mo : forall y, undec (decs fin (a ++ PTest _ _ id l t ts ls :: b)) y <= undec (decs fin (a ++ PStore _ _ id l t ts ls r :: b)) y).
    { intros y. apply undec_mono. intros u U. apply Ga. auto. }
    apply (inv_frame iss fin a (PStore _ _ id l t ts ls r) (PTest _ _ id l t ts ls) b s _ I); auto.
    + intros y X Y. contradiction.
    + intros y Y. cbn [setUse sUse]. destruct (String.eqb (osh t) y) eqn:Ey.
      * apply String.eqb_eq in Ey. subst y. unfold decr. destruct (r =? 0)%N eqn:Er; [apply N.eqb_eq in Er; lia|]. lia.
      * apply String.eqb_neq in Ey. rewrite (undec_other _ _ y t Ey Ga). exact (i_use _ _ _ _ I y Y).
    + cbn. auto.
  - (* PTest *)
    destruct L as (L1 & L2 & L3). assert (Tl : In t (lTrips _ _ l)) by (apply L2; cbn; auto).
    destruct (own _ _ _ _ _ _ I t (or_introl eq_refl)) as [NF NP].
    destruct (trip_cur _ _ _ _ I _ _ _ L1 Tl NF) as (x & Ex & Sx). rewrite Ex, Sx.
    do 2 eexists. split; [reflexivity|]. exists iss, fin. split; [symmetry; apply List.app_nil_r|].
    destruct (sUse _ _ s (osh t) =? 0)%N eqn:E0.
    + assert (Same := decs_same fin a (PTest _ _ id l t ts ls) (PRem _ _ id l t ts ls) b eq_refl).
      apply (inv_frame iss fin a (PTest _ _ id l t ts ls) (PRem _ _ id l t ts ls) b s s I); auto.
      * intros y X Y. contradiction.
      * intros y _. rewrite Same. lia.
      * intros y Y. rewrite Same. exact (i_use _ _ _ _ I y Y).
      * cbn. repeat split; auto. rewrite Same. apply N.eqb_eq in E0. pose proof (i_use _ _ _ _ I _ L3). lia.
    + assert (Same := decs_same fin a (PTest _ _ id l t ts ls) (PDist _ _ id l t ts ls) b eq_refl).
      apply (inv_frame iss fin a (PTest _ _ id l t ts ls) (PDist _ _ id l t ts ls) b s s I); auto.
      * intros y X Y. contradiction.
      * intros y _. rewrite Same. lia.
      * intros y Y. rewrite Same. exact (i_use _ _ _ _ I y Y).
      * cbn. auto.
  - (* PRem *)
    destruct L as (L1 & L2 & L3 & L4). assert (Tl : In t (lTrips _ _ l)) by (apply L2; cbn; auto).
    destruct (own _ _ _ _ _ _ I t (or_introl eq_refl)) as [NF NP].
    destruct (trip_cur _ _ _ _ I _ _ _ L1 Tl NF) as (x & Ex & Sx). rewrite Ex, Sx.
    destruct (trip_old _ _ _ _ I _ _ _ L1 Tl) as (Lt & _).
    do 2 eexists. split; [reflexivity|]. exists iss, fin. split; [symmetry; apply List.app_nil_r|].
    assert (Same := decs_same fin a (PRem _ _ id l t ts ls) (PDist _ _ id l t ts ls) b eq_refl).
    apply (inv_frame iss fin a (PRem _ _ id l t ts ls) (PDist _ _ id l t ts ls) b s _ I); auto.
    + intros y Y. cbn [removeId sIds] in Y. apply filter_In in Y. tauto.
    + intros y Y N. cbn [removeId sIds] in N. destruct (String.eqb (osh t) y) eqn:Ey.
      * apply String.eqb_eq in Ey. subst y. exists t. repeat split; auto. rewrite Same. exact L4.
      * exfalso. apply N. apply filter_In. split; [exact Y|]. rewrite Ey. reflexivity.
    + intros y _. rewrite Same. lia.
    + intros y Y. rewrite Same. exact (i_use _ _ _ _ I y Y).
    + cbn. auto.
  - (* PDist *)
    destruct L as (L1 & L2). assert (Tl : In t (lTrips _ _ l)) by (apply L2; cbn; auto).
    destruct (own _ _ _ _ _ _ I t (or_introl eq_refl)) as [NF NP].
    destruct (trip_old _ _ _ _ I _ _ _ L1 Tl) as (Lt & x & Ex & Sx & Ln).
    assert (Ec : nth_error (sTrips _ _ s) t = Some x).
    { rewrite <- Ex. apply (i_dists _ _ _ _ I t NF). intros X. apply in_flat_mid in X. destruct X as [[]|X]. apply NP.
      revert X. apply flat_sub. apply touch_pend. }
    rewrite Ec. unfold setDists. rewrite Ln, Nat.ltb_irrefl, firstn_all.
    do 2 eexists. split; [reflexivity|]. exists iss, fin. split; [symmetry; apply List.app_nil_r|].
    assert (Same := decs_same fin a (PDist _ _ id l t ts ls) (PAdd _ _ id l t ts ls) b eq_refl).
    apply (inv_frame iss fin a (PDist _ _ id l t ts ls) (PAdd _ _ id l t ts ls) b s _ I); auto.
    + cbn. apply upd_length.
    + intros u U. cbn. apply upd_nth_ne. intros ->. apply U. cbn. auto.
    + intros u. cbn [setTrip sTrips]. rewrite upd_nth. destruct (u =? t) eqn:Eu; [|reflexivity]. apply Nat.eqb_eq in Eu. subst u.
      rewrite Ec. reflexivity.
    + intros y X Y. contradiction.
    + intros y _. rewrite Same. lia.
    + intros y Y. rewrite Same. exact (i_use _ _ _ _ I y Y).
    + cbn. repeat split; auto. rewrite (upd_nth_eq _ _ _ _ _ Ec), Sx. reflexivity.
  - (* PAdd *)
    destruct L as (L1 & L2 & L3). assert (Tl : In t (lTrips _ _ l)) by (apply L2; cbn; auto).
    destruct (own _ _ _ _ _ _ I t (or_introl eq_refl)) as [NF NP]. rewrite L3. cbn [tDists].
    destruct (trip_old _ _ _ _ I _ _ _ L1 Tl) as (Lt & _).
    do 2 eexists. split; [reflexivity|]. exists iss, (fin ++ [t]). split; [reflexivity|].
    pose proof (pend_nodup _ _ _ _ I) as PN.
    assert (Lf : forall l' u, In l' (map snd iss) -> In u (lTrips _ _ l') -> In u (lTrips _ _ l) -> l' = l).
    { intros l' u A B C.
      assert (ND : NoDup (flat_map (fun l => lTrips _ _ l) (map snd iss))).
      { apply (Permutation_NoDup (Permutation_sym (i_trips _ _ _ _ I))). exact PN. }
      assert (A2 : In l (map snd iss)) by (change l with (snd (id, l)); apply in_map; exact L1).
      clear - ND A A2 B C. induction (map snd iss) as [|z k IH]; [destruct A|]. cbn in ND. apply NoDup_app in ND.
      destruct ND as (_ & ND & X). destruct A as [->|A], A2 as [->|A2]; auto.
      - exfalso. apply (X u B). apply in_flat_map. exists l. auto.
      - exfalso. apply (X u C). apply in_flat_map. exists l'. auto. }
    assert (Li : forall id', In (id', l) iss -> id' = id).
    { (* both hold a trip of l; the leaf occurs once *)
      intros id' A.
      assert (ND : NoDup (flat_map (fun l => lTrips _ _ l) (map snd iss))).
      { apply (Permutation_NoDup (Permutation_sym (i_trips _ _ _ _ I))). exact PN. }
      clear - ND A L1 Tl. induction iss as [|[i0 l0] k IH]; [destruct A|]. cbn in ND. apply NoDup_app in ND.
      destruct ND as (_ & ND & X). destruct A as [A|A], L1 as [B|B]; try congruence; auto.
      - exfalso. injection A as -> ->. apply (X t Tl). apply in_flat_map. exists l. split; [|exact Tl]. change l with (snd (id, l)). apply in_map. exact B.
      - exfalso. injection B as -> ->. apply (X t Tl). apply in_flat_map. exists l. split; [|exact Tl]. change l with (snd (id', l)). apply in_map. exact A. }
    assert (Same : forall y, undec (decs (fin ++ [t]) (a ++ PTrips _ _ id l ts ls :: b)) y = undec (decs fin (a ++ PAdd _ _ id l t ts ls :: b)) y).
    { intros y. apply undec_ext. intros u. rewrite !decs_mid, in_app_iff. cbn. tauto. }
    set (s1 := addShape _ _ s id (lPts _ _ l)).
    assert (S1 : sAt _ _ s1 = sAt _ _ s /\ sCnt _ _ s1 = sCnt _ _ s /\ sUse _ _ s1 = sUse _ _ s /\ sTrips _ _ s1 = sTrips _ _ s).
    { unfold s1, addShape. destruct (has (sIds _ _ s) id); cbn; auto. }
    assert (S2 : forall y, In y (sIds _ _ s1) <-> y = id \/ In y (sIds _ _ s)).
    { intros y. unfold s1, addShape. destruct (has (sIds _ _ s) id) eqn:Eh; cbn; [|intuition congruence].
      apply has_In in Eh. split; [auto|]. intros [->|X]; auto. }
    destruct S1 as (SA & SC & SU & ST). destruct I.
    constructor; cbn [setTrip sAt sCnt sIds sStore sUse sTrips].
    + rewrite SA, i_leaves0. apply Permutation_app_head, Permutation_app_tail. rewrite !(flat_map_mid _ _ waiting). reflexivity.
    + rewrite i_trips0, <- List.app_assoc. apply Permutation_app_head. rewrite !(flat_map_mid _ _ pend). reflexivity.
    + rewrite SC. exact i_form0.
    + exact i_nodup0.
    + rewrite SC. exact i_cnt0.
    + intros u U. rewrite ST. apply in_app_or in U. destruct U as [U|[<-|[]]].
      * destruct (i_fin0 u U) as (id' & l' & A & B & C). exists id', l'. repeat split; auto. rewrite upd_nth_ne; auto. intros ->. contradiction.
      * exists id, l. repeat split; auto. rewrite (upd_nth_eq _ _ _ _ _ L3). reflexivity.
    + intros u U. rewrite ST. rewrite in_app_iff in U. rewrite upd_nth_ne; [apply i_shape0; tauto|]. intros ->. apply U. cbn. auto.
    + intros u U X. rewrite ST. rewrite in_app_iff in U. rewrite upd_nth_ne; [|intros ->; apply U; cbn; auto].
      apply i_dists0; [tauto|]. rewrite in_flat_mid in *. cbn in *. intuition.
    + rewrite upd_length, ST. exact i_len0.
    + intros y Y. rewrite SU, Same. auto.
    + intros y Y N. rewrite S2 in N. destruct (i_kept0 y Y ltac:(tauto)) as (u & A & B & C & E). exists u. repeat split; auto. rewrite Same. exact E.
    + intros y Y. apply S2 in Y. destruct Y as [->|Y].
      * right. exists l, t. repeat split; auto. apply in_or_app. cbn. auto.
      * destruct (i_others0 y Y) as [A|(l' & u & A & B & C)]; [auto|]. right. exists l', u. repeat split; auto. apply in_or_app. auto.
    + intros NC. destruct (i_new0 NC) as [A B]. split; [|exact B]. intros id' l' u X U T. apply S2.
      apply in_app_or in U. destruct U as [U|[<-|[]]]; [right; exact (A _ _ _ X U T)|]. left.
      assert (l' = l) by (apply (Lf l' t); [change l' with (snd (id', l')); apply in_map; exact X|exact T|exact Tl]). subst l'. auto.
    + intros NC. destruct (i_store0 NC) as (new & A & B & C). destruct (i_new0 NC) as [N1 N2].
      assert (FT : forall l' u, In (id, l') iss -> In u (lTrips _ _ l') -> l' = l).
      { intros l' u X _. clear - i_nodup0 X L1. induction iss as [|[i0 l0] k IH]; [destruct X|]. cbn in i_nodup0. inversion i_nodup0 as [|? ? Nk Nd]; subst.
        destruct X as [X|X], L1 as [Y|Y]; try congruence; auto.
        - injection X as -> ->. exfalso. apply Nk. change id with (fst (id, l)). apply in_map. exact Y.
        - injection Y as -> ->. exfalso. apply Nk. change id with (fst (id, l')). apply in_map. exact X. }
      unfold s1, addShape. destruct (has (sIds _ _ s) id) eqn:Eh.
      * exists new. split; [exact A|]. split; [exact B|]. intros id' p. rewrite C. split; intros (l' & u & X & E & U & T).
        -- exists l', u. repeat split; auto. apply in_or_app. auto.
        -- apply in_app_or in U. destruct U as [U|[<-|[]]]; [exists l', u; auto|].
           assert (l' = l) by (apply (Lf l' t); [change l' with (snd (id', l')); apply in_map; exact X|exact T|exact Tl]). subst l'.
           assert (id' = id) by auto. subst id'.
           apply has_In in Eh. destruct (i_others0 _ Eh) as [Y|(l' & u & Y & F & T')].
           ++ exfalso. apply (N2 id); [change id with (fst (id, l)); apply in_map; exact L1|exact Y].
           ++ assert (l' = l) by (apply (FT l' u); auto). subst l'. exists l, u. auto.
      * cbn [sStore]. exists (new ++ [(id, lPts _ _ l)]). split; [rewrite A, List.app_assoc; reflexivity|].
        apply has_false in Eh. split.
        -- rewrite map_app. cbn. apply (Permutation_NoDup (Permutation_app_comm [id] _)). constructor; [|exact B].
           intros X. apply in_map_iff in X. destruct X as ([i0 p0] & E0 & X). cbn in E0. subst i0. apply C in X. destruct X as (l' & u & X & _ & U & T).
           apply Eh. exact (N1 _ _ _ X U T).
        -- intros id' p. rewrite in_app_iff, C. split.
           ++ intros [(l' & u & X & E & U & T)|[X|[]]]; [exists l', u; repeat split; auto; apply in_or_app; auto|].
              injection X as <- <-. exists l, t. repeat split; auto. apply in_or_app. cbn. auto.
           ++ intros (l' & u & X & E & U & T). apply in_app_or in U. destruct U as [U|[<-|[]]]; [left; exists l', u; auto|].
              assert (l' = l) by (apply (Lf l' t); [change l' with (snd (id', l')); apply in_map; exact X|exact T|exact Tl]). subst l'.
              assert (id' = id) by auto. subst id'. right. cbn. left. congruence.
    + intros q Q. apply in_elt_inv in Q. destruct Q as [->|Q].
      * cbn. split; [exact L1|]. intros u U. apply L2. cbn. auto.
      * apply (loc_stable s _ iss iss (decs fin (a ++ PAdd _ _ id l t ts ls :: b))); auto.
        -- apply i_loc0. apply in_app_or in Q. apply in_or_app. cbn. tauto.
        -- intros y _. rewrite Same. lia.
        -- cbn. lia.
        -- intros u U. cbn [setTrip sTrips]. rewrite ST. apply upd_nth_ne. intros ->. apply NP. apply in_flat_map. exists q. split; [exact Q|]. apply touch_pend. exact U.
  - (* PDone *) do 2 eexists. split; [reflexivity|]. exists iss, fin. split; [symmetry; apply List.app_nil_r|]. exact I.
Qed.

Lemma run_inv : forall sched iss fin ths s, inv iss fin ths s ->
  exists ths' s', run Pts D jobs sched ths s = Some (ths', s') /\ exists iss' fin', inv iss' fin' ths' s'.
Proof.
  induction sched as [|i sched IH]; intros iss fin ths s I; cbn [run]; [eauto 8|].
  destruct (nth_error ths i) as [p|] eqn:E; [|apply (IH _ _ _ _ I)].
  destruct (split_at _ _ _ _ E) as (a & b & -> & U). destruct (step_inv _ _ _ _ _ _ I) as (p' & s' & St & iss' & fin' & _ & I').
  rewrite St, U. apply (IH _ _ _ _ I').
Qed.

(** * Start *)
Lemma countUse_gen : forall (l : list trip) u y, y <> ""%string ->
  fold_left (fun u t => if String.eqb (tShape _ t) "" then u
                        else (fun y => if String.eqb (tShape _ t) y then (u y + 1)%N else u y)) l u y =
  (u y + N.of_nat (length (filter (fun t => String.eqb (tShape _ t) y) l)))%N.
Proof.
  induction l as [|x l IH]; intros u y Y; cbn [fold_left filter]; [cbn; lia|]. rewrite (IH _ y Y).
  destruct (String.eqb (tShape _ x) "") eqn:E.
  - apply String.eqb_eq in E. destruct (String.eqb (tShape _ x) y) eqn:F; [apply String.eqb_eq in F; congruence|]. reflexivity.
  - destruct (String.eqb (tShape _ x) y) eqn:F; cbn [length]; lia.
Qed.
Lemma filter_seq : forall (f : trip -> bool) (l : list trip) k,
  length (filter (fun u => match nth_error l (u - k) with Some x => f x | None => false end) (seq k (length l))) = length (filter f l).
Proof.
  intros f l. induction l as [|x l IH]; intros k; [reflexivity|]. cbn [length seq filter]. rewrite Nat.sub_diag. cbn [nth_error].
  assert (E : filter (fun u => match nth_error (x :: l) (u - k) with Some z => f z | None => false end) (seq (S k) (length l)) =
              filter (fun u => match nth_error l (u - S k) with Some z => f z | None => false end) (seq (S k) (length l))).
  { apply filter_ext_in. intros u U. apply in_seq in U. replace (u - k) with (S (u - S k)) by lia. reflexivity. }
  rewrite E. destruct (f x); cbn [length]; rewrite (IH (S k)); reflexivity.
Qed.
Lemma countUse_undec : forall y, y <> ""%string -> countUse D trips0 y = N.of_nat (undec [] y).
Proof.
  intros y Y. unfold countUse. rewrite (countUse_gen _ _ _ Y). rewrite N.add_0_l. f_equal. unfold undec.
  rewrite <- (filter_seq _ trips0 0). f_equal. apply filter_ext. intros u. rewrite Nat.sub_0_r. unfold und, osh. cbn.
  destruct (nth_error trips0 u); [rewrite andb_true_r; reflexivity|]. destruct (String.eqb "" y) eqn:E; [|reflexivity].
  apply String.eqb_eq in E. congruence.
Qed.
Lemma flat_repeat : forall B (f : pc -> list B) p n, f p = [] -> flat_map f (repeat p n) = [].
Proof. intros B f p n H. induction n as [|n IH]; [reflexivity|]. cbn. rewrite H, IH. reflexivity. Qed.

Lemma start_inv : forall n, inv [] [] (fst (start Pts D n cnt0 ids0 store0 trips0)) (snd (start Pts D n cnt0 ids0 store0 trips0)).
Proof.
  intros n. unfold start. cbn [fst snd].
  assert (F : forall B (f : pc -> list B), f (PFetch _ _) = [] -> flat_map f (repeat (PFetch _ _) n) = []) by (intros; apply flat_repeat; assumption).
  constructor; cbn [sAt sCnt sIds sStore sUse sTrips map]; auto.
  - rewrite F by reflexivity. reflexivity.
  - rewrite F by reflexivity. reflexivity.
  - intros id l [].
  - constructor.
  - intros u [].
  - intros y Y. unfold decs. rewrite F by reflexivity. rewrite (countUse_undec y Y). apply N.le_refl.
  - intros y A B. contradiction.
  - intros _. split; [intros id l u []|intros id []].
  - intros _. exists []. split; [symmetry; apply List.app_nil_r|]. split; [constructor|]. intros id p. split; [intros []|intros (l & u & [] & _)].
  - intros p X. apply repeat_spec in X. subst p. exact I.
Qed.

(** * End *)
Lemma all_done : forall iss fin ths s, inv iss fin ths s -> ths <> [] -> (forall p, In p ths -> p = PDone _ _) ->
  assigned jobs cnt0 ids0 store0 trips0 iss s.
Proof.
  intros iss fin ths s I NE AD.
  assert (F : forall B (f : pc -> list B), f (PDone _ _) = [] -> flat_map f ths = []).
  { intros B f H. clear - AD H. induction ths as [|p k IH]; [reflexivity|]. cbn. rewrite (AD p) by (cbn; auto). rewrite H, IH; [reflexivity|].
    intros q Q. apply AD. cbn. auto. }
  assert (At : length jobs <= sAt _ _ s).
  { destruct ths as [|p k]; [congruence|]. pose proof (i_loc _ _ _ _ I p (or_introl eq_refl)) as L. rewrite (AD p (or_introl eq_refl)) in L. exact L. }
  destruct I. rewrite F in i_leaves0 by reflexivity. rewrite F in i_trips0 by reflexivity.
  rewrite skipn_all2 in i_leaves0 by exact At. cbn in i_leaves0. rewrite List.app_nil_r in i_leaves0, i_trips0.
  assert (Dec : decs fin ths = fin) by (unfold decs; rewrite F by reflexivity; apply List.app_nil_r). rewrite Dec in *.
  assert (ND : NoDup (flat_map (fun l => lTrips _ _ l) (map snd iss))).
  { apply (Permutation_NoDup (Permutation_flat_map _ i_leaves0)). exact (wo_once _ _ WO). }
  assert (Own : forall u id l id' l', In (id, l) iss -> In (id', l') iss -> In u (lTrips _ _ l) -> In u (lTrips _ _ l') -> id = id' /\ l = l').
  { clear - ND. induction iss as [|[i0 l0] k IH]; intros u id l id' l' A B C E; [destruct A|]. cbn in ND. apply NoDup_app in ND.
    destruct ND as (_ & ND & X). destruct A as [A|A], B as [B|B].
    - split; congruence.
    - exfalso. injection A as -> ->. apply (X u C). apply in_flat_map. exists l'. split; [change l' with (snd (id', l')); apply in_map; exact B|exact E].
    - exfalso. injection B as -> ->. apply (X u E). apply in_flat_map. exists l. split; [change l with (snd (id, l)); apply in_map; exact A|exact C].
    - apply (IH ND u id l id' l'); assumption. }
  assert (Fin : forall u id l, In (id, l) iss -> In u (lTrips _ _ l) -> In u fin).
  { intros u id l A B. apply (Permutation_in _ i_trips0). apply in_flat_map. exists l. split; [change l with (snd (id, l)); apply in_map; exact A|exact B]. }
  assert (Sel : forall u, In u fin -> selected jobs u).
  { intros u U. apply (Permutation_in _ (Permutation_sym i_trips0)) in U. apply in_flat_map in U. destruct U as (l & A & B).
    exists l. split; [apply (Permutation_in _ (Permutation_sym i_leaves0)); exact A|exact B]. }
  assert (Non : forall id l, In (id, l) iss -> exists u, In u fin /\ In u (lTrips _ _ l)).
  { intros id l A. assert (J : In l (concat jobs)).
    { apply (Permutation_in _ (Permutation_sym i_leaves0)). change l with (snd (id, l)). apply in_map. exact A. }
    destruct (lTrips _ _ l) as [|u us] eqn:E; [destruct (wo_leaf _ _ WO l J E)|].
    exists u. split; [|cbn; auto]. apply (Fin u id l A). rewrite E. cbn. auto. }
  constructor.
  - exact i_leaves0.
  - exact i_nodup0.
  - intros id l A. destruct (i_form0 _ _ A) as (n & N & E). exists n. split; [lia|exact E].
  - intros id l u A B. destruct (i_fin0 u (Fin _ _ _ A B)) as (id' & l' & A' & B' & E). destruct (Own u _ _ _ _ A A' B B') as [-> ->]. exact E.
  - intros u U. apply i_dists0; [intros X; apply U, Sel, X|]. rewrite F by reflexivity. intros [].
  - exact i_len0.
  - intros u x U E X. destruct (in_dec String.string_dec (tShape _ x) (sIds _ _ s)) as [Y|Y]; [exact Y|]. exfalso.
    destruct (i_kept0 _ X Y) as (v & V & O & _ & Z). apply U, Sel.
    assert (Ou : osh u = tShape _ x) by (unfold osh; rewrite E; reflexivity). rewrite <- Ou in Z.
    apply (undec_zero fin u); [apply (nth_lt _ _ _ _ E)|exact Z].
  - intros y Y NU. destruct (in_dec String.string_dec y (sIds _ _ s)) as [X|X]; [exact X|]. exfalso.
    destruct (i_kept0 _ Y X) as (v & V & O & _). unfold osh in O. destruct (nth_error trips0 v) as [x|] eqn:E; [|apply nth_error_None in E; lia].
    apply (NU v x E O).
  - intros y Y. destruct (i_others0 y Y) as [A|(l & u & A & _)]; [auto|]. right. change y with (fst (y, l)). apply in_map. exact A.
  - intros NC id l A. destruct (i_new0 NC) as [N1 N2]. destruct (Non _ _ A) as (u & U & T). split; [exact (N1 _ _ _ A U T)|].
    apply N2. change id with (fst (id, l)). apply in_map. exact A.
  - intros NC. destruct (i_store0 NC) as (new & A & B & C). exists new. split; [exact A|]. apply NoDup_Permutation.
    + apply NoDup_map_inv in B. exact B.
    + apply (NoDup_map_inv fst). rewrite map_map. cbn. exact i_nodup0.
    + intros [id p]. rewrite C. rewrite in_map_iff. split.
      * intros (l & u & X & E & _). exists (id, l). cbn. split; [congruence|exact X].
      * intros ([id' l] & E & X). cbn in E. injection E as <- <-. destruct (Non _ _ X) as (u & U & T). exists l, u. auto.
Qed.

(** * Termination *)
Definition sum (l : list nat) : nat := fold_right plus 0 l.
Definition wL (l : leaf) : nat := 2 + 7 * length (lTrips _ _ l).
Definition wLs (ls : list leaf) : nat := 2 + sum (map wL ls).
Definition rest (s : shared) : nat := sum (map wLs (skipn (sAt _ _ s) jobs)).
Definition w (p : pc) : nat :=
  match p with
  | PFetch _ _ => 1
  | PLeaves _ _ ls => wLs ls
  | PTrips _ _ _ _ ts ls => 1 + 7 * length ts + wLs ls
  | PLoad _ _ _ _ _ ts ls => 7 + 7 * length ts + wLs ls
  | PStore _ _ _ _ _ ts ls _ => 6 + 7 * length ts + wLs ls
  | PTest _ _ _ _ _ ts ls => 5 + 7 * length ts + wLs ls
  | PRem _ _ _ _ _ ts ls => 4 + 7 * length ts + wLs ls
  | PDist _ _ _ _ _ ts ls => 3 + 7 * length ts + wLs ls
  | PAdd _ _ _ _ _ ts ls => 2 + 7 * length ts + wLs ls
  | PDone _ _ => 0
  end.
Definition total (ths : list pc) (s : shared) : nat := sum (map w ths) + rest s.

Lemma skipn_nth : forall A (l : list A) n x, nth_error l n = Some x -> skipn n l = x :: skipn (S n) l.
Proof. intros A l. induction l as [|y l IH]; intros [|n] x H; try discriminate; cbn in *; [congruence|apply IH; exact H]. Qed.
Lemma sum_app : forall a b, sum (a ++ b) = sum a + sum b.
Proof. induction a as [|x a IH]; intros b; cbn; [reflexivity|]. unfold sum in *. rewrite IH. lia. Qed.

Lemma step_less : forall p s p' s', step Pts D jobs p s = Some (p', s') -> p <> PDone _ _ -> w p' + rest s' < w p + rest s.
Proof.
  intros p s p' s' H ND. destruct p; cbn [step] in H.
  - destruct (nth_error jobs (sAt _ _ s)) as [f|] eqn:E.
    + match type of H with (if ?c then _ else _) = _ => destruct c; [discriminate|] end. injection H as <- <-.
      unfold rest. cbn [sAt w]. rewrite (skipn_nth _ _ _ _ E). cbn. unfold sum. lia.
    + injection H as <- <-. apply nth_error_None in E. unfold rest. cbn [sAt w]. rewrite !skipn_all2 by lia. cbn. lia.
  - destruct ls as [|l ls].
    + injection H as <- <-. cbn. lia.
    + destruct (lTrips _ _ l) eqn:El; [discriminate|]. destruct (freeId _ _ _ _); [|discriminate]. injection H as <- <-.
      rewrite <- El. unfold rest. cbn [sAt w]. change (wLs (l :: ls)) with (2 + (wL l + sum (map wL ls))).
      change (wLs ls) with (2 + sum (map wL ls)). unfold wL at 2. lia.
  - destruct ts as [|t ts]; [injection H as <- <-; cbn; lia|]. destruct (nth_error (sTrips _ _ s) t) as [x|]; [|discriminate].
    match type of H with (if ?c then _ else _) = _ => destruct c end; injection H as <- <-; cbn [w length]; lia.
  - destruct (nth_error (sTrips _ _ s) t) as [x|]; [|discriminate]. injection H as <- <-. cbn [w]. lia.
  - destruct (nth_error (sTrips _ _ s) t) as [x|]; [|discriminate]. injection H as <- <-. cbn [w]. unfold rest. cbn [setUse sAt]. lia.
  - destruct (nth_error (sTrips _ _ s) t) as [x|]; [|discriminate]. injection H as <- <-. destruct (_ =? _)%N; cbn [w]; lia.
  - destruct (nth_error (sTrips _ _ s) t) as [x|]; [|discriminate]. injection H as <- <-. cbn [w]. unfold rest. cbn [removeId sAt]. lia.
  - destruct (nth_error (sTrips _ _ s) t) as [x|]; [|discriminate]. destruct (setDists _ _ _); [|discriminate]. injection H as <- <-. cbn [w]. unfold rest. cbn [setTrip sAt]. lia.
  - destruct (nth_error (sTrips _ _ s) t) as [x|]; [|discriminate]. injection H as <- <-. cbn [w]. unfold rest. cbn [setTrip sAt]. unfold addShape. destruct (has _ _); cbn [sAt]; lia.
  - congruence.
Qed.
Lemma run_less : forall sched ths s ths' s', run Pts D jobs sched ths s = Some (ths', s') ->
  total ths' s' <= total ths s /\ forall i p, nth_error ths' i = Some p -> p = PDone _ _ \/ total ths' s' + count_occ Nat.eq_dec sched i <= total ths s.
Proof.
  induction sched as [|j sched IH]; intros ths s ths' s' H; cbn [run] in H.
  - injection H as <- <-. split; [lia|]. intros i p _. right. cbn. lia.
  - destruct (nth_error ths j) as [p|] eqn:E.
    + destruct (step Pts D jobs p s) as [[p' s1]|] eqn:St; [|discriminate]. destruct (split_at _ _ _ _ E) as (a & b & Et & U). rewrite U in H.
      destruct (IH _ _ _ _ H) as [A B].
      assert (PD : p = PDone _ _ \/ total (a ++ p' :: b) s1 < total ths s).
      { destruct p; try (right; subst ths; unfold total; rewrite !map_app, !sum_app; cbn [map]; pose proof (step_less _ _ _ _ St ltac:(discriminate)) as LL; cbn [sum fold_right] in *; unfold sum in *; cbn [fold_right]; lia). auto. }
      destruct PD as [->|PD].
      * cbn [step] in St. injection St as <- <-. rewrite <- Et in H, A, B. split; [exact A|]. intros i q Q.
        destruct (Nat.eq_dec j i) as [->|N].
        -- left. assert (K : forall sc th t th' t', run Pts D jobs sc th t = Some (th', t') -> nth_error th i = Some (PDone _ _) -> nth_error th' i = Some (PDone _ _)).
           { clear. induction sc as [|k sc IH]; intros th t th' t' R X; cbn [run] in R; [injection R as <- <-; exact X|].
             destruct (nth_error th k) as [z|] eqn:Z; [|apply (IH _ _ _ _ R X)].
             destruct (step Pts D jobs z t) as [[z' t1]|] eqn:S1; [|discriminate]. apply (IH _ _ _ _ R).
             destruct (Nat.eq_dec i k) as [->|NE]; [|rewrite upd_nth_ne; auto]. rewrite X in Z. injection Z as <-. cbn in S1. injection S1 as <- <-.
             rewrite (upd_nth_eq _ _ _ _ _ X). reflexivity. }
           specialize (K _ _ _ _ _ H E). congruence.
        -- rewrite count_occ_cons_neq by exact N. apply (B i q Q).
      * split; [lia|]. intros i q Q. destruct (B i q Q) as [->|B']; [auto|]. right. cbn. destruct (Nat.eq_dec j i); lia.
    + destruct (IH _ _ _ _ H) as [A B]. split; [exact A|]. intros i q Q. destruct (Nat.eq_dec j i) as [->|N].
      * exfalso.
        assert (K : forall sc th t th' t', run Pts D jobs sc th t = Some (th', t') -> length th' = length th).
        { clear. induction sc as [|k sc IH]; intros th t th' t' R; cbn [run] in R; [injection R as <- <-; reflexivity|].
          destruct (nth_error th k) as [z|] eqn:Z; [|apply (IH _ _ _ _ R)].
          destruct (step Pts D jobs z t) as [[z' t1]|] eqn:S1; [|discriminate]. rewrite (IH _ _ _ _ R). apply upd_length. }
        apply nth_error_None in E. apply nth_lt in Q. rewrite (K _ _ _ _ _ H) in Q. lia.
      * rewrite count_occ_cons_neq by exact N. apply (B i q Q).
Qed.
Lemma run_length : forall sc th t th' t', run Pts D jobs sc th t = Some (th', t') -> length th' = length th.
Proof.
  induction sc as [|k sc IH]; intros th t th' t' R; cbn [run] in R; [injection R as <- <-; reflexivity|].
  destruct (nth_error th k) as [z|] eqn:Z; [|apply (IH _ _ _ _ R)].
  destruct (step Pts D jobs z t) as [[z' t1]|] eqn:S1; [|discriminate]. rewrite (IH _ _ _ _ R). apply upd_length.
Qed.

Theorem workers_safe : forall n sched, exists ths s,
  run Pts D jobs sched (fst (start Pts D n cnt0 ids0 store0 trips0)) (snd (start Pts D n cnt0 ids0 store0 trips0)) = Some (ths, s) /\
  (n <> 0 -> (forall p, In p ths -> p = PDone _ _) -> exists iss, assigned jobs cnt0 ids0 store0 trips0 iss s).
Proof.
  intros n sched. destruct (run_inv sched _ _ _ _ (start_inv n)) as (ths & s & R & iss & fin & I). exists ths, s. split; [exact R|].
  intros N AD. exists iss. apply (all_done iss fin ths s I); [|exact AD]. intros ->. apply run_length in R. cbn in R. rewrite repeat_length in R. congruence.
Qed.
Theorem workers_end : forall n, exists turns, forall sched, (forall i, i < n -> turns <= count_occ Nat.eq_dec sched i) ->
  forall ths s, run Pts D jobs sched (fst (start Pts D n cnt0 ids0 store0 trips0)) (snd (start Pts D n cnt0 ids0 store0 trips0)) = Some (ths, s) ->
  forall p, In p ths -> p = PDone _ _.
Proof.
  intros n. set (st := start Pts D n cnt0 ids0 store0 trips0). exists (S (total (fst st) (snd st))). intros sched F ths s R p P.
  destruct (run_less _ _ _ _ _ R) as [_ B]. apply In_nth_error in P. destruct P as (i & P). destruct (B i p P) as [->|L]; [reflexivity|].
  assert (Li : i < n). { apply nth_lt in P. rewrite (run_length _ _ _ _ _ R) in P. cbn in P. rewrite repeat_length in P. exact P. }
  specialize (F i Li). lia.
Qed.

(** * One worker *)
Definition tests (p : pc) (y : string) : Prop :=
  match p with PTest _ _ _ _ t _ _ | PRem _ _ _ _ t _ _ => osh t = y | _ => False end.
Record exact1 (fin : list nat) (p : pc) (s : shared) : Prop := {
  e_use : forall y, y <> ""%string -> sUse _ _ s y = N.of_nat (undec (decs fin [p]) y);
  e_r : match p with PStore _ _ _ _ t _ _ r => r = N.of_nat (undec (decs fin [p]) (osh t)) | _ => True end;
  e_gone : forall y u, u < length trips0 -> osh u = y -> y <> ""%string -> undec (decs fin [p]) y = 0 -> ~ In y (sIds _ _ s) \/ tests p y
}.
Hypothesis NC : no_clash jobs trips0 cnt0.

Lemma exact1_quiet : forall fin p p' s, exact1 fin p s -> touch p = [] -> decd p' = decd p -> (forall y, tests p y -> tests p' y) ->
  match p' with PStore _ _ _ _ t _ _ r => r = N.of_nat (undec (decs fin [p]) (osh t)) | _ => True end ->
  forall s', sUse _ _ s' = sUse _ _ s -> sIds _ _ s' = sIds _ _ s ->
  exact1 (fin ++ touch p) p' s'.
Proof.
  intros fin p p' s [A B C] T Dc Ts R s' U Ids. rewrite T, List.app_nil_r.
  assert (Same : forall y, undec (decs fin [p']) y = undec (decs fin [p]) y) by (apply (decs_same fin [] p p' []); exact Dc).
  constructor.
  - intros y Y. rewrite U, Same. auto.
  - destruct p'; auto. rewrite Same. exact R.
  - intros y u Lu O Y Z. rewrite Same in Z. rewrite Ids. destruct (C y u Lu O Y Z); auto.
Qed.
Lemma exact1_step : forall iss fin p s p' s', inv iss fin [p] s -> exact1 fin p s -> step Pts D jobs p s = Some (p', s') -> exact1 (fin ++ touch p) p' s'.
Proof.
  intros iss fin p s p' s' I E St. pose proof (i_loc _ _ _ _ I p (or_introl eq_refl)) as L.
  destruct p; cbn [loc] in L; cbn [step] in St.
  - destruct (nth_error jobs (sAt _ _ s)) as [f|].
    + match type of St with (if ?c then _ else _) = _ => destruct c; [discriminate|] end. injection St as <- <-.
      apply (exact1_quiet _ _ _ s E); auto; cbn; auto.
    + injection St as <- <-. apply (exact1_quiet _ _ _ s E); auto; cbn; auto.
  - destruct ls as [|l ls]; [injection St as <- <-; apply (exact1_quiet _ _ _ s E); auto; cbn; auto|].
    destruct (lTrips _ _ l) eqn:El; [discriminate|]. destruct (freeId _ _ _ _); [|discriminate]. injection St as <- <-.
    apply (exact1_quiet _ _ _ s E); auto; cbn; auto.
  - destruct ts as [|t ts]; [injection St as <- <-; apply (exact1_quiet _ _ _ s E); auto; cbn; auto|].
    destruct L as [L1 L2]. assert (Tl : In t (lTrips _ _ l)) by (apply L2; cbn; auto).
    destruct (own _ _ [] _ [] _ I t (or_introl eq_refl)) as [NF _].
    destruct (trip_cur _ _ _ _ I _ _ _ L1 Tl NF) as (x & Ex & Sx). rewrite Ex, Sx in St.
    destruct (trip_old _ _ _ _ I _ _ _ L1 Tl) as (Lt & _).
    destruct (String.eqb (osh t) "") eqn:Em; cbn [negb andb] in St.
    + apply String.eqb_eq in Em. injection St as <- <-. cbn [touch]. rewrite List.app_nil_r.
      pose proof (decs_gain fin [] (PTrips _ _ id l (t :: ts) ls) (PDist _ _ id l t ts ls) [] t eq_refl eq_refl) as Ga. cbn [app] in Ga.
      assert (Same : forall y, y <> ""%string -> undec (decs fin [PDist _ _ id l t ts ls]) y = undec (decs fin [PTrips _ _ id l (t :: ts) ls]) y).
      { intros y Y. apply (undec_other _ _ y t); [congruence|exact Ga]. }
      destruct E as [A B C]. constructor.
      * intros y Y. rewrite (Same y Y). auto.
      * exact Logic.I.
      * intros y u Lu O Y Z. rewrite (Same y Y) in Z. destruct (C y u Lu O Y Z) as [X|X]; [auto|destruct X].
    + apply String.eqb_neq in Em.
      assert (Up : (0 <? sUse _ _ s (osh t))%N = true).
      { apply N.ltb_lt. pose proof (i_use _ _ _ _ I _ Em) as U.
        pose proof (undec_pos _ t Lt (own_undec _ _ [] _ [] _ I t (or_introl eq_refl) (fun x => x))). cbn [app] in *. lia. }
      rewrite Up in St. injection St as <- <-. apply (exact1_quiet _ _ _ s E); auto; cbn; auto.
  - destruct L as (L1 & L2 & L3). assert (Tl : In t (lTrips _ _ l)) by (apply L2; cbn; auto).
    destruct (own _ _ [] _ [] _ I t (or_introl eq_refl)) as [NF _].
    destruct (trip_cur _ _ _ _ I _ _ _ L1 Tl NF) as (x & Ex & Sx). rewrite Ex, Sx in St. injection St as <- <-.
    pose proof (e_use _ _ _ E _ L3) as Us. apply (exact1_quiet _ _ _ s E); auto; cbn; auto.
  - destruct L as (L1 & L2 & L3 & L4). assert (Tl : In t (lTrips _ _ l)) by (apply L2; cbn; auto).
    destruct (own _ _ [] _ [] _ I t (or_introl eq_refl)) as [NF _].
    destruct (trip_cur _ _ _ _ I _ _ _ L1 Tl NF) as (x & Ex & Sx). rewrite Ex, Sx in St. injection St as <- <-.
    destruct (trip_old _ _ _ _ I _ _ _ L1 Tl) as (Lt & _). cbn [touch]. rewrite List.app_nil_r.
    pose proof (decs_gain fin [] (PStore _ _ id l t ts ls r) (PTest _ _ id l t ts ls) [] t eq_refl eq_refl) as Ga. cbn [app] in Ga.
    pose proof (own_undec _ _ [] _ [] _ I t (or_introl eq_refl) (fun x => x)) as NU. cbn [app] in NU.
    pose proof (undec_lose _ _ t Lt NU Ga) as Lo. destruct E as [A B C]. constructor.
    + intros y Y. cbn [setUse sUse]. destruct (String.eqb (osh t) y) eqn:Ey.
      * apply String.eqb_eq in Ey. subst y. rewrite B. unfold decr. destruct (_ =? 0)%N eqn:Er; [apply N.eqb_eq in Er; lia|]. lia.
      * apply String.eqb_neq in Ey. rewrite (undec_other _ _ y t Ey Ga). auto.
    + exact Logic.I.
    + intros y u Lu O Y Z. destruct (String.eqb (osh t) y) eqn:Ey.
      * apply String.eqb_eq in Ey. right. exact Ey.
      * apply String.eqb_neq in Ey. rewrite (undec_other _ _ y t Ey Ga) in Z. destruct (C y u Lu O Y Z) as [X|X]; [auto|destruct X].
  - destruct L as (L1 & L2 & L3). assert (Tl : In t (lTrips _ _ l)) by (apply L2; cbn; auto).
    destruct (own _ _ [] _ [] _ I t (or_introl eq_refl)) as [NF _].
    destruct (trip_cur _ _ _ _ I _ _ _ L1 Tl NF) as (x & Ex & Sx). rewrite Ex, Sx in St. injection St as <- <-. cbn [touch].
    destruct (sUse _ _ s (osh t) =? 0)%N eqn:E0.
    + apply (exact1_quiet _ _ _ s E); auto; cbn; auto.
    + apply N.eqb_neq in E0. rewrite List.app_nil_r.
      assert (Same := decs_same fin [] (PTest _ _ id l t ts ls) (PDist _ _ id l t ts ls) [] eq_refl). cbn [app] in Same.
      destruct E as [A B C]. constructor.
      * intros y Y. rewrite Same. auto.
      * exact Logic.I.
      * intros y u Lu O Y Z. rewrite Same in Z. destruct (C y u Lu O Y Z) as [X|X]; [auto|]. cbn in X. exfalso. apply E0. rewrite (A _ L3), X, Z. reflexivity.
  - destruct L as (L1 & L2 & L3 & L4). assert (Tl : In t (lTrips _ _ l)) by (apply L2; cbn; auto).
    destruct (own _ _ [] _ [] _ I t (or_introl eq_refl)) as [NF _].
    destruct (trip_cur _ _ _ _ I _ _ _ L1 Tl NF) as (x & Ex & Sx). rewrite Ex, Sx in St. injection St as <- <-. cbn [touch]. rewrite List.app_nil_r.
    assert (Same := decs_same fin [] (PRem _ _ id l t ts ls) (PDist _ _ id l t ts ls) [] eq_refl). cbn [app] in Same.
    destruct E as [A B C]. constructor.
    + intros y Y. rewrite Same. exact (A y Y).
    + exact Logic.I.
    + intros y u Lu O Y Z. rewrite Same in Z. left. cbn [removeId sIds]. intros X. apply filter_In in X. destruct X as [X X2].
      destruct (C y u Lu O Y Z) as [W|W]; [contradiction|]. cbn in W. subst y. rewrite W, String.eqb_refl in X2. discriminate.
  - destruct (nth_error (sTrips _ _ s) t) as [x|]; [|discriminate]. destruct (setDists _ _ _); [|discriminate]. injection St as <- <-.
    apply (exact1_quiet _ _ _ s E); auto; cbn; auto.
  - destruct L as (L1 & L2 & L3). rewrite L3 in St. injection St as <- <-. cbn [touch].
    assert (Same : forall y, undec (decs (fin ++ [t]) [PTrips _ _ id l ts ls]) y = undec (decs fin [PAdd _ _ id l t ts ls]) y).
    { intros y. apply undec_ext. intros u. unfold decs. rewrite !in_app_iff. cbn. tauto. }
    destruct E as [A B C]. constructor.
    + intros y Y. rewrite Same. cbn [setTrip sUse]. unfold addShape. destruct (has _ _); cbn [sUse]; auto.
    + exact Logic.I.
    + intros y u Lu O Y Z. rewrite Same in Z. destruct (C y u Lu O Y Z) as [X|X]; [|destruct X]. left. cbn [setTrip sIds]. unfold addShape.
      destruct (has _ _); cbn [sIds]; [exact X|]. intros [W|W]; [|contradiction].
      destruct (i_form _ _ _ _ I _ _ L1) as (n & N & F). unfold osh in O. destruct (nth_error trips0 u) as [z|] eqn:Eu; [|apply nth_error_None in Eu; lia].
      apply (NC u z l n Eu (iss_job _ _ _ _ I _ _ L1)); [lia|congruence].
  - injection St as <- <-. cbn [touch]. rewrite List.app_nil_r. exact E.
Qed.
Lemma run_exact1 : forall sched iss fin p s, inv iss fin [p] s -> exact1 fin p s ->
  exists p' s', run Pts D jobs sched [p] s = Some ([p'], s') /\ exists iss' fin', inv iss' fin' [p'] s' /\ exact1 fin' p' s'.
Proof.
  induction sched as [|i sched IH]; intros iss fin p s I E; cbn [run]; [eauto 8|].
  destruct i as [|i]; cbn [nth_error]; [|destruct i; cbn [nth_error]; apply (IH _ _ _ _ I E)].
  destruct (step_inv _ _ [] p [] _ I) as (p' & s' & St & iss' & fin' & -> & I'). cbn [app] in I'. rewrite St. cbn [upd].
  apply (IH _ _ _ _ I'). apply (exact1_step _ _ _ _ _ _ I E St).
Qed.
Theorem one_worker : forall sched ths s,
  run Pts D jobs sched (fst (start Pts D 1 cnt0 ids0 store0 trips0)) (snd (start Pts D 1 cnt0 ids0 store0 trips0)) = Some (ths, s) ->
  (forall p, In p ths -> p = PDone _ _) ->
  forall y, y <> ""%string -> (exists u x, nth_error trips0 u = Some x /\ tShape _ x = y) ->
  (forall u x, nth_error trips0 u = Some x -> tShape _ x = y -> selected jobs u) -> ~ In y (sIds _ _ s).
Proof.
  intros sched ths s R AD y Y (u & x & Eu & Sx) Al.
  assert (E0 : exact1 [] (PFetch _ _) (snd (start Pts D 1 cnt0 ids0 store0 trips0))).
  { constructor; cbn.
    - intros z Z. apply (countUse_undec z Z).
    - exact Logic.I.
    - intros z v Lv O Z U. exfalso. pose proof (undec_pos [] v Lv (fun x => x)). subst z. unfold decs in U. cbn in U. lia. }
  destruct (run_exact1 sched _ _ _ _ (start_inv 1) E0) as (p & s' & R' & iss & fin & I & E).
  cbn [fst start] in R. cbn [repeat] in R. change (repeat (PFetch Pts D) 1) with [PFetch Pts D] in R.
  rewrite R' in R. injection R as <- <-. pose proof (AD p (or_introl eq_refl)) as ->.
  assert (Z : undec (decs fin [PDone _ _]) y = 0).
  { unfold undec. destruct (filter _ _) as [|v vs] eqn:F; [reflexivity|]. exfalso.
    assert (V : In v (filter (und (decs fin [PDone _ _]) y) (seq 0 (length trips0)))) by (rewrite F; cbn; auto).
    apply filter_In in V. destruct V as [V1 V2]. apply und_true in V2. destruct V2 as [O N]. apply N. unfold decs. cbn. rewrite List.app_nil_r.
    unfold osh in O. destruct (nth_error trips0 v) as [z|] eqn:Ev; [|congruence].
    destruct (Al v z Ev O) as (l & J & T).
    pose proof (i_leaves _ _ _ _ I) as IL. cbn in IL. pose proof (i_loc _ _ _ _ I (PDone _ _) (or_introl eq_refl)) as Ld. cbn in Ld.
    rewrite skipn_all2 in IL by exact Ld. cbn in IL. rewrite List.app_nil_r in IL.
    pose proof (i_trips _ _ _ _ I) as IT. cbn in IT. rewrite List.app_nil_r in IT. apply (Permutation_in _ IT). apply in_flat_map. exists l.
    split; [apply (Permutation_in _ IL); exact J|exact T]. }
  destruct (e_gone _ _ _ E y u) as [X|X]; [apply (nth_lt _ _ _ _ Eu)|unfold osh; rewrite Eu; exact Sx|exact Y|exact Z|exact X|destruct X].
Qed.
End P.
