(** Proofs for C88. *)
From Coq Require Import Ascii String List Arith QArith Bool Lia.
From Verif Require Import ListAux TripTrie_model Simi_model Cluster_model Cluster_spec Stats_model Labels_spec Stats_spec.
From Verif Require Main_model Labels_model Labels_proofs Cluster_proofs.
Import ListNotations.
Open Scope nat_scope.
Open Scope list_scope.

Lemma sum_app : forall a b, sum (a ++ b) = sum a + sum b.
Proof. unfold sum. induction a as [|x a IH]; intros b; cbn [app fold_right]; [reflexivity|rewrite IH; lia]. Qed.
Lemma sumQ_app : forall a b, (sumQ (a ++ b) == sumQ a + sumQ b)%Q.
Proof. unfold sumQ. induction a as [|x a IH]; intros b; cbn [app fold_right]; [ring|rewrite IH; ring]. Qed.
Lemma sum_concat : forall l, sum (concat l) = sum (map sum l).
Proof. induction l; cbn; [reflexivity|]. rewrite sum_app, IHl. reflexivity. Qed.

(** ** One configuration *)
Section Shapeify.
Context {pos : Type}.
Notation forest := (list (attrs * list (trie pos attrs))).
Lemma shapeify_sums : forall (fo : forest) time it,
  totNumTrips (shapeifyStats fo time it) = length (listed fo) /\
  numTries (shapeifyStats fo time it) = sum (map (fun g => length (snd g)) fo) /\
  numTrieLeafs (shapeifyStats fo time it) = sum (map (fun g => sum (map (fun tr => length (ndTrips _ _ tr)) (snd g))) fo) /\
  solveTime (shapeifyStats fo time it) = time /\ dijkstraIters (shapeifyStats fo time it) = it.
Proof.
  intros fo time it.
  assert (A1 : forall (l : list (trie pos attrs)) s, let s' := fold_left (fun s tr => mkStats (totNumTrips s) (S (numTries s)) (numTrieLeafs s + length (ndTrips _ _ tr)) (solveTime s) (dijkstraIters s)) l s in
    totNumTrips s' = totNumTrips s /\ numTries s' = numTries s + length l /\ numTrieLeafs s' = numTrieLeafs s + sum (map (fun tr => length (ndTrips _ _ tr)) l)).
  { induction l as [|tr l IH]; intros s; cbn; [lia|]. specialize (IH (mkStats (totNumTrips s) (S (numTries s)) (numTrieLeafs s + length (ndTrips _ _ tr)) (solveTime s) (dijkstraIters s))). cbn in IH.
    destruct IH as (I1 & I2 & I3). rewrite I1, I2, I3. unfold sum. cbn. lia. }
  assert (A2 : forall (fo : forest) s, let s' := fold_left (fun s g => fold_left (fun s tr => mkStats (totNumTrips s) (S (numTries s)) (numTrieLeafs s + length (ndTrips _ _ tr)) (solveTime s) (dijkstraIters s)) (snd g) s) fo s in
    totNumTrips s' = totNumTrips s /\ numTries s' = numTries s + sum (map (fun g => length (snd g)) fo) /\ numTrieLeafs s' = numTrieLeafs s + sum (map (fun g => sum (map (fun tr => length (ndTrips _ _ tr)) (snd g))) fo)).
  { induction fo0 as [|g l IH]; intros s; cbn [fold_left map]; [cbn; lia|]. destruct (A1 (snd g) s) as (X1 & X2 & X3). destruct (IH (fold_left (fun s tr => mkStats (totNumTrips s) (S (numTries s)) (numTrieLeafs s + length (ndTrips _ _ tr)) (solveTime s) (dijkstraIters s)) (snd g) s)) as (I1 & I2 & I3).
    cbn zeta. rewrite I1, I2, I3, X1, X2, X3. unfold sum. cbn. lia. }
  assert (B1 : forall (l : list (nat * list nat)) s, let s' := fold_left (fun s trips => mkStats (totNumTrips s + length (snd trips)) (numTries s) (numTrieLeafs s) (solveTime s) (dijkstraIters s)) l s in
    totNumTrips s' = totNumTrips s + length (flat_map snd l) /\ numTries s' = numTries s /\ numTrieLeafs s' = numTrieLeafs s).
  { induction l as [|x l IH]; intros s; cbn; [lia|]. specialize (IH (mkStats (totNumTrips s + length (snd x)) (numTries s) (numTrieLeafs s) (solveTime s) (dijkstraIters s))). cbn in IH. rewrite app_length. lia. }
  assert (B2 : forall (l : list (trie pos attrs)) s, let s' := fold_left (fun s tr => fold_left (fun s trips => mkStats (totNumTrips s + length (snd trips)) (numTries s) (numTrieLeafs s) (solveTime s) (dijkstraIters s)) (ndTrips _ _ tr) s) l s in
    totNumTrips s' = totNumTrips s + length (flat_map (fun tr => flat_map snd (ndTrips _ _ tr)) l) /\ numTries s' = numTries s /\ numTrieLeafs s' = numTrieLeafs s).
  { induction l as [|x l IH]; intros s; cbn [fold_left flat_map]; [cbn; lia|]. cbn zeta. rewrite app_length.
    destruct (B1 (ndTrips _ _ x) s) as (X1 & X2 & X3). destruct (IH (fold_left (fun s trips => mkStats (totNumTrips s + length (snd trips)) (numTries s) (numTrieLeafs s) (solveTime s) (dijkstraIters s)) (ndTrips _ _ x) s)) as (I1 & I2 & I3). rewrite I1, I2, I3, X1, X2, X3. lia. }
  assert (B3 : forall (fo : forest) s, let s' := fold_left (fun s g => fold_left (fun s tr => fold_left (fun s trips => mkStats (totNumTrips s + length (snd trips)) (numTries s) (numTrieLeafs s) (solveTime s) (dijkstraIters s)) (ndTrips _ _ tr) s) (snd g) s) fo s in
    totNumTrips s' = totNumTrips s + length (listed fo) /\ numTries s' = numTries s /\ numTrieLeafs s' = numTrieLeafs s).
  { unfold listed. induction fo0 as [|g l IH]; intros s; cbn [fold_left flat_map]; [cbn; lia|]. cbn zeta. rewrite app_length.
    destruct (B2 (snd g) s) as (X1 & X2 & X3).
    destruct (IH (fold_left (fun s tr => fold_left (fun s trips => mkStats (totNumTrips s + length (snd trips)) (numTries s) (numTrieLeafs s) (solveTime s) (dijkstraIters s)) (ndTrips _ _ tr) s) (snd g) s)) as (I1 & I2 & I3). rewrite I1, I2, I3, X1, X2, X3. lia. }
  unfold shapeifyStats. cbn [totNumTrips numTries numTrieLeafs solveTime dijkstraIters].
  match goal with |- context [fold_left _ fo (fold_left _ fo stats0)] => idtac end.
  destruct (A2 fo stats0) as (X1 & X2 & X3). cbn zeta in X1, X2, X3.
  destruct (B3 fo (fold_left (fun s g => fold_left (fun s tr => mkStats (totNumTrips s) (S (numTries s)) (numTrieLeafs s + length (ndTrips _ _ tr)) (solveTime s) (dijkstraIters s)) (snd g) s) fo stats0)) as (Y1 & Y2 & Y3). cbn zeta in Y1, Y2, Y3.
  rewrite Y1, Y2, Y3, X1, X2, X3. cbn. auto.
Qed.
Variable near : pos -> pos -> bool.
Variable emptySecs : Z.
Definition filled (tr : trie pos attrs) : Prop := Forall (fun x => snd x <> []) (ndTrips _ _ tr).
Lemma push_filled : forall m k v, Forall (fun x : nat * list nat => snd x <> []) m -> Forall (fun x => snd x <> []) (pushAt m k v).
Proof.
  induction m as [|(k', vs) m IH]; intros k v F; cbn; [constructor; [discriminate|constructor]|]. inversion F; subst. destruct (k' =? k); constructor; auto. cbn. intros E. apply app_eq_nil in E. destruct E; discriminate.
Qed.
Lemma add_filled : forall tr t a tex dg tr' ok, filled tr -> addTrip pos near attrs mergeAttrs emptySecs tr t a tex dg = (tr', ok) -> filled tr'.
Proof.
  intros tr t a tex dg tr' ok F H. unfold filled in *. unfold addTrip, add in H. destruct dg; cbn [negb] in H.
  - destruct (nth_error (nds _ _ tr) _) as [nd|]; [destruct (negb _ && _)|]; injection H as <- <-; [now apply push_filled|exact F|exact F].
  - destruct (tSts _ t) as [|s sts]; [injection H as <- <-; exact F|].
    destruct (addLoop _ _ _ _ _ _ _ _ _ _ _ _) as (l & [n|]); injection H as <- <-; [now apply push_filled|exact F].
Qed.
Lemma run_filled : forall cs tr tr' rs, filled tr -> runCalls pos near attrs mergeAttrs emptySecs tr cs = (tr', rs) -> filled tr'.
Proof.
  induction cs as [|c cs IH]; intros tr tr' rs F H; cbn in H; [injection H as <- _; exact F|].
  destruct (addTrip _ _ _ _ _ tr _ _ _ _) as [t1 r] eqn:E. destruct (runCalls _ _ _ _ _ t1 cs) as [t2 rs2] eqn:E2. injection H as <- _. exact (IH _ _ _ (add_filled _ _ _ _ _ _ _ F E) E2).
Qed.
Lemma filled_leaves : forall tr, filled tr -> length (ndTrips _ _ tr) <= length (flat_map snd (ndTrips _ _ tr)).
Proof.
  intros tr F. unfold filled in F. induction F as [|x l N F IH]; cbn; [lia|]. rewrite app_length. destruct (snd x); [congruence|cbn in *; lia].
Qed.
Lemma one_list : forall A (p : A -> bool) l (f : A -> nat) m, NoDup m -> NoDup (map f l) -> (forall i, In i m <-> exists t, In t l /\ p t = true /\ f t = i) -> length m = length (filter p l).
Proof.
  intros A p l f m Nm Nl H. rewrite <- (map_length f (filter p l)). apply Nat.le_antisymm.
  - apply NoDup_incl_length; [exact Nm|]. intros i I. apply H in I. destruct I as (t & I & P & <-). apply in_map. apply filter_In. auto.
  - apply NoDup_incl_length.
    + clear - Nl. induction l as [|x l IH]; cbn in *; [constructor|]. inversion Nl; subst. destruct (p x); cbn; [constructor|]; auto. intros I. apply H1. apply in_map_iff in I. destruct I as (y & E & I). apply filter_In in I. rewrite <- E. now apply in_map.
    + intros i I. apply in_map_iff in I. destruct I as (t & <- & I). apply filter_In in I. apply H. exists t. tauto.
Qed.
End Shapeify.

(** ** The run *)
Lemma upd_keys : forall m k f, In k (map fst m) -> map fst (upd m k f) = map fst m.
Proof. induction m as [|(k', v) m IH]; intros k f I; cbn in *; [destruct I|]. destruct (String.eqb_spec k' k); cbn; [reflexivity|]. f_equal. apply IH. destruct I; [contradiction|assumption]. Qed.
Lemma upd_new : forall m k f, ~ In k (map fst m) -> upd m k f = m ++ [(k, f (0, 0))].
Proof. induction m as [|(k', v) m IH]; intros k f N; cbn in *; [reflexivity|]. destruct (String.eqb_spec k' k); [exfalso; apply N; auto|]. f_equal. apply IH. auto. Qed.
Lemma upd_end : forall m k f v, ~ In k (map fst m) -> upd (m ++ [(k, v)]) k f = m ++ [(k, f v)].
Proof. induction m as [|(k', v') m IH]; intros k f v N; cbn in *; [now rewrite String.eqb_refl|]. destruct (String.eqb_spec k' k); [exfalso; apply N; auto|]. f_equal. apply IH. auto. Qed.
Definition snds (m : list (string * (nat * nat))) : nat := sum (map (fun x => snd (snd x)) m).
Definition fsts (m : list (string * (nat * nat))) : nat := sum (map (fun x => fst (snd x)) m).
Lemma upd_snds : forall m k f d, (forall v, snd (f v) = snd v + d) -> snds (upd m k f) = snds m + d.
Proof.
  unfold snds, sum. induction m as [|(k', v) m IH]; intros k f d H; cbn; [rewrite H; cbn; lia|]. destruct (String.eqb k' k); cbn; [rewrite H; lia|]. rewrite (IH k f d H). lia.
Qed.
Lemma degs_snds : forall ds m k, snds (fold_left (fun m d => upd m k (fun v => (fst v, snd v + d))) ds m) = snds m + sum ds.
Proof.
  induction ds as [|d ds IH]; intros m k; cbn [fold_left]; [cbn; lia|]. rewrite IH. rewrite (upd_snds m k _ d) by reflexivity. unfold sum. cbn [fold_right]. lia.
Qed.
Lemma account_snds : forall k r a, snds (aDims (account k r a)) = snds (aDims a) + edges r.
Proof. intros k r a. unfold account. cbn [aDims]. rewrite degs_snds. rewrite (upd_snds _ k _ 0) by (intros v; cbn; lia). unfold edges. lia. Qed.
Lemma degs_end : forall ds m k x y, ~ In k (map fst m) -> fold_left (fun m d => upd m k (fun v => (fst v, snd v + d))) ds (m ++ [(k, (x, y))]) = m ++ [(k, (x, y + sum ds))].
Proof.
  induction ds as [|d ds IH]; intros m k x y N; cbn; [now rewrite Nat.add_0_r|]. rewrite upd_end by exact N. cbn. rewrite IH by exact N. unfold sum. cbn. now rewrite Nat.add_assoc.
Qed.
Lemma account_new : forall k r a, ~ In k (map fst (aDims a)) -> aDims (account k r a) = aDims a ++ [(k, (nodes r, edges r))].
Proof. intros k r a N. unfold account. cbn [aDims]. rewrite upd_new by exact N. cbn [snd]. rewrite degs_end by exact N. reflexivity. Qed.

Section Run.
Variable typesOf : string -> list nat.
Variable typeStr : nat -> string.
Variable work : nat -> crun.
Variable cmd : list nat.
Notation label n used := (if 1 <? n then Labels_model.fileNameMotStr typesOf typeStr used else ""%string).
(** The configurations that are used, with their labels. *)
Fixpoint steps (n k : nat) (cfgs : list (list nat)) : list (string * crun) :=
  match cfgs with
  | [] => []
  | mots :: r => let used := Main_model.motISect mots cmd in
      (if length used =? 0 then [] else [(label n used, work k)]) ++ steps n (S k) r
  end.
Lemma run_steps : forall cfgs n k a, runFrom typesOf typeStr work cmd n k cfgs a = fold_left (fun a s => account (fst s) (snd s) a) (steps n k cfgs) a.
Proof. induction cfgs as [|mots r IH]; intros n k a; cbn; [reflexivity|]. destruct (length (Main_model.motISect mots cmd) =? 0); cbn; apply IH. Qed.
Lemma fold_stats : forall l a, let a' := fold_left (fun a (s : string * crun) => account (fst s) (snd s) a) l a in
  numTries (aStats a') = numTries (aStats a) + sum (map (fun s => numTries (rStats (snd s))) l) /\
  numTrieLeafs (aStats a') = numTrieLeafs (aStats a) + sum (map (fun s => numTrieLeafs (rStats (snd s))) l) /\
  dijkstraIters (aStats a') = dijkstraIters (aStats a) + sum (map (fun s => dijkstraIters (rStats (snd s))) l) /\
  (solveTime (aStats a') == solveTime (aStats a) + sumQ (map (fun s => solveTime (rStats (snd s))) l))%Q /\
  aHops a' = aHops a ++ concat (map (fun s => rHops (snd s)) l) /\
  snds (aDims a') = snds (aDims a) + sum (map (fun s => edges (snd s)) l).
Proof.
  induction l as [|s l IH]; intros a; cbn [fold_left map].
  - cbn. rewrite app_nil_r. repeat split; try lia. ring.
  - destruct (IH (account (fst s) (snd s) a)) as (I1 & I2 & I3 & I4 & I5 & I6). cbn zeta. rewrite I1, I2, I3, I4, I5, I6, account_snds. cbn [account aStats aHops plus numTries numTrieLeafs dijkstraIters solveTime concat].
    unfold sum, sumQ. cbn [fold_right]. repeat split; try lia; [ring|now rewrite <- app_assoc].
Qed.
Lemma fold_dims : forall l a, NoDup (map fst (aDims a) ++ map fst l) -> aDims (fold_left (fun a (s : string * crun) => account (fst s) (snd s) a) l a) = aDims a ++ map (fun s => (fst s, (nodes (snd s), edges (snd s)))) l.
Proof.
  induction l as [|s l IH]; intros a N; cbn [fold_left map]; [now rewrite app_nil_r|].
  assert (Ns : ~ In (fst s) (map fst (aDims a))) by (cbn in N; apply NoDup_remove_2 in N; rewrite in_app_iff in N; tauto).
  rewrite IH.
  - rewrite (account_new _ _ _ Ns), <- app_assoc. reflexivity.
  - rewrite (account_new _ _ _ Ns), map_app, <- app_assoc. exact N.
Qed.

(** What is counted for each configuration. *)
Variable all : list (list nat).
Lemma uses_dec : forall k mots, nth_error all k = Some mots -> (length (Main_model.motISect mots cmd) =? 0) = false <-> is_used cmd all k.
Proof.
  intros k mots E. unfold is_used. rewrite <- (Labels_proofs.used_some typeStr cmd all k mots E). rewrite Nat.eqb_neq. destruct (Main_model.motISect mots cmd); cbn; split; intros H; try congruence; try discriminate.
Qed.
Definition opt (k : nat) (mots : list nat) : option crun := if length (Main_model.motISect mots cmd) =? 0 then None else Some (work k).
Lemma each_list : forall A (z : A) p l, each work cmd all z p l -> forall r k, all = firstn k all ++ r -> k + length r = length all ->
  skipn k l = map (fun o => match o with Some x => p x | None => z end) (map (fun ik => opt (fst ik) (snd ik)) (combine (seq k (length r)) r)).
Proof.
  intros A z p l (L & H). induction r as [|mots r IH]; intros k E Lk; cbn in *.
  - apply skipn_all2. lia.
  - assert (Nk : nth_error all k = Some mots).
    { rewrite E. rewrite nth_error_app2 by (rewrite firstn_length; lia). rewrite firstn_length, Nat.min_l by lia. now rewrite Nat.sub_diag. }
    destruct (nth_error l k) as [x|] eqn:Nx; [|apply nth_error_None in Nx; lia].
    assert (Sk : skipn k l = x :: skipn (S k) l).
    { clear - Nx. revert k Nx. induction l as [|y l IHl]; intros [|k] Nx; cbn in *; try discriminate; [congruence|]. now apply IHl. }
    rewrite Sk. f_equal.
    + destruct (H k x Nx) as (U & V). unfold opt. destruct (length (Main_model.motISect mots cmd) =? 0) eqn:D; [apply V; rewrite <- (uses_dec k mots Nk); congruence|apply U; now apply (uses_dec k mots Nk)].
    + apply IH; [|lia]. assert (Fk : firstn (S k) all = firstn k all ++ [mots]).
      { clear - Nk. revert k Nk. induction all as [|y l IHl]; intros [|k] Nk; cbn in *; try discriminate; [congruence|]. f_equal. now apply IHl. }
      rewrite Fk, <- app_assoc. exact E.
Qed.
Lemma steps_opts : forall n r k, map snd (steps n k r) = flat_map (fun o => match o with Some x => [x] | None => [] end) (map (fun ik => opt (fst ik) (snd ik)) (combine (seq k (length r)) r)).
Proof.
  intros n. induction r as [|mots r IH]; intros k; cbn; [reflexivity|]. unfold opt at 1. destruct (length (Main_model.motISect mots cmd) =? 0); cbn; rewrite IH; reflexivity.
Qed.
Lemma opts_sum : forall p (l : list (option crun)), sum (map (fun o => match o with Some x => p x | None => 0 end) l) = sum (map p (flat_map (fun o => match o with Some x => [x] | None => [] end) l)).
Proof. intros p. unfold sum. induction l as [|[x|] l IH]; cbn; auto. Qed.
Lemma opts_sumQ : forall p (l : list (option crun)), (sumQ (map (fun o => match o with Some x => p x | None => 0 end) l) == sumQ (map p (flat_map (fun o => match o with Some x => [x] | None => [] end) l)))%Q.
Proof. intros p. unfold sumQ. induction l as [|[x|] l IH]; cbn [map flat_map app fold_right]; [reflexivity|now rewrite IH|rewrite IH; ring]. Qed.
Lemma opts_concat : forall A (p : crun -> list A) (l : list (option crun)), concat (map (fun o => match o with Some x => p x | None => [] end) l) = concat (map p (flat_map (fun o => match o with Some x => [x] | None => [] end) l)).
Proof. intros A p. induction l as [|[x|] l IH]; cbn; [reflexivity|now rewrite IH|exact IH]. Qed.
Lemma each_sum : forall p l n, each work cmd all 0 p l -> sum (map (fun s => p (snd s)) (steps n 0 all)) = sum l.
Proof.
  intros p l n E. pose proof (each_list _ _ _ _ E all 0 eq_refl eq_refl) as X. cbn [skipn] in X. rewrite X, opts_sum, <- (steps_opts n), map_map. reflexivity.
Qed.
Lemma each_sumQ : forall p l n, each work cmd all 0%Q p l -> (sumQ (map (fun s => p (snd s)) (steps n 0 all)) == sumQ l)%Q.
Proof.
  intros p l n E. pose proof (each_list _ _ _ _ E all 0 eq_refl eq_refl) as X. cbn [skipn] in X. rewrite X, opts_sumQ, <- (steps_opts n), map_map. reflexivity.
Qed.
Lemma each_concat : forall A (p : crun -> list A) l n, each work cmd all [] p l -> concat (map (fun s => p (snd s)) (steps n 0 all)) = concat l.
Proof.
  intros A p l n E. pose proof (each_list _ _ _ _ E all 0 eq_refl eq_refl) as X. cbn [skipn] in X. rewrite X, opts_concat, <- (steps_opts n), map_map. reflexivity.
Qed.

(** The labels *)
Lemma steps_in : forall n r k s, In s (steps n k r) -> exists i mots, nth_error r i = Some mots /\ Main_model.motISect mots cmd <> [] /\ s = (label n (Main_model.motISect mots cmd), work (k + i)).
Proof.
  intros n. induction r as [|mots r IH]; intros k s I; cbn in I; [destruct I|]. apply in_app_iff in I. destruct I as [I|I].
  - destruct (length (Main_model.motISect mots cmd) =? 0) eqn:D; [destruct I|]. destruct I as [<-|[]]. exists 0, mots. rewrite Nat.add_0_r. split; [reflexivity|]. split; [|reflexivity]. intros X. rewrite X in D. discriminate.
  - destruct (IH (S k) s I) as (i & m & E & N & ->). exists (S i), m. split; [exact E|]. split; [exact N|]. now rewrite <- plus_n_Sm.
Qed.
Lemma steps_at : forall n r k i mots, nth_error r i = Some mots -> Main_model.motISect mots cmd <> [] -> In (label n (Main_model.motISect mots cmd), work (k + i)) (steps n k r).
Proof.
  intros n. induction r as [|m r IH]; intros k [|i] mots E N; cbn in E; try discriminate; cbn; apply in_app_iff.
  - injection E as ->. left. destruct (Main_model.motISect mots cmd); [congruence|]. cbn. rewrite Nat.add_0_r. now left.
  - right. rewrite <- plus_n_Sm. apply (IH (S k)); assumption.
Qed.
Hypothesis Nd : forall n, NoDup (typesOf n).
Hypothesis G : good_names Labels_model.names typeStr.
Hypothesis Nall : forall mots, In mots all -> NoDup mots.
Lemma labels_nodup : told_apart cmd all -> NoDup (map fst (steps (length all) 0 all)).
Proof.
  intros T.
  assert (K : forall r k, all = firstn k all ++ r -> k + length r = length all -> NoDup (map fst (steps (length all) k r))).
  { induction r as [|mots r IH]; intros k E Lk; cbn [steps]; [constructor|]. cbn in Lk.
    assert (Nk : nth_error all k = Some mots).
    { rewrite E. rewrite nth_error_app2 by (rewrite firstn_length; lia). rewrite firstn_length, Nat.min_l by lia. now rewrite Nat.sub_diag. }
    assert (Fk : firstn (S k) all = firstn k all ++ [mots]).
    { clear - Nk. revert k Nk. induction all as [|y l IHl]; intros [|k] Nk; cbn in *; try discriminate; [congruence|]. f_equal. now apply IHl. }
    assert (N2 : NoDup (map fst (steps (length all) (S k) r))) by (apply IH; [rewrite Fk, <- app_assoc; exact E|lia]).
    destruct (length (Main_model.motISect mots cmd) =? 0) eqn:D; [exact N2|]. cbn [app map fst]. constructor; [|exact N2].
    intros I. apply in_map_iff in I. destruct I as (s & Es & I). apply steps_in in I. destruct I as (i & m & Ei & Nm & ->). cbn [fst] in Es.
    assert (Ni : nth_error all (S k + i) = Some m).
    { rewrite E. rewrite nth_error_app2 by (rewrite firstn_length; lia). rewrite firstn_length, Nat.min_l by lia. replace (S k + i - k) with (S i) by lia. exact Ei. }
    assert (Li : S k + i < length all) by (apply nth_error_Some; congruence).
    destruct (1 <? length all) eqn:Ln; [|apply Nat.ltb_ge in Ln; lia].
    assert (U1 : is_used cmd all k) by now apply (uses_dec k mots Nk).
    assert (U2 : is_used cmd all (S k + i)) by (apply (uses_dec _ m Ni); destruct (Main_model.motISect m cmd); [congruence|reflexivity]).
    assert (St : same_types cmd all (S k + i) k).
    { intros t. pose proof (Labels_proofs.label_inj typesOf typeStr Nd G _ _ (Labels_proofs.isect_nodup m cmd (Nall _ (nth_error_In _ _ Ni))) (Labels_proofs.isect_nodup mots cmd (Nall _ (nth_error_In _ _ Nk))) Es t) as X.
      rewrite !Labels_proofs.isect_in in X. unfold uses. split.
      - intros (m' & E' & A & B). rewrite Ni in E'. injection E' as <-. exists mots. split; [exact Nk|]. apply X. auto.
      - intros (m' & E' & A & B). rewrite Nk in E'. injection E' as <-. exists m. split; [exact Ni|]. apply X. auto. }
    pose proof (T _ _ U2 U1 St). lia. }
  exact (K all 0 eq_refl eq_refl).
Qed.
End Run.
