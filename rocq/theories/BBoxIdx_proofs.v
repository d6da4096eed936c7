(** Proofs about the index of bounding boxes. *)
From Coq Require Import List ZArith Bool Lia Permutation.
From Verif Require Import ListAux BBoxIdx_model BBoxIdx_spec.
Import ListNotations.
Open Scope Z_scope.

Lemma contains_iff : forall p b, contains p b = true <-> inside p b.
Proof. intros p b. unfold contains, inside. rewrite !andb_true_iff, !Z.leb_le. lia. Qed.

(** A tree that is a chain of nodes with the same box. *)
Fixpoint chain (k : nat) (b : box) : nd := match k with O => Nd b [] | S k => Nd b [chain k b] end.
Lemma boxOf_chain : forall k b, boxOf (chain k b) = b.
Proof. intros [|k] b; reflexivity. Qed.
Lemma chain_has : forall p k b, treeHas p (chain k b) = contains p b.
Proof. intros p. induction k as [|k IH]; intros b; [reflexivity|]. cbn. rewrite boxOf_chain, IH. now destruct (contains p b). Qed.
Lemma chain_leafs : forall k b, getLeafsRec (chain k b) = [b].
Proof. induction k as [|k IH]; intros b; [reflexivity|]. cbn. now rewrite IH. Qed.
Lemma extend_same : forall b, extendBox b b = b.
Proof. intros [a b c d]. unfold extendBox. cbn. f_equal; lia. Qed.
Section Proofs.
Variable M : Z.
Variable pad : box -> box.
Variable area : box -> box -> Z.
Lemma add_new : forall k b, addToTree area b k (Nd b []) = chain k b.
Proof. induction k as [|k IH]; intros b; cbn; rewrite extend_same; [reflexivity|]. now rewrite IH. Qed.
Lemma add_chain : forall k b c, 0 < area b c -> addToTree area b k (chain k c) = chain k (extendBox b c).
Proof.
  induction k as [|k IH]; intros b c H; [reflexivity|]. cbn [addToTree chain best]. rewrite boxOf_chain. unfold MIN_COM_AREA. cbn [fst].
  assert (E : (0 <? area b c) = true) by (now apply Z.ltb_lt). rewrite E. cbn [andb snd updAt]. now rewrite IH.
Qed.
(** What the best child is. *)
Lemma best_some : forall b cs i a i0, best area b cs i (a, i0) = i0 \/ exists k c, nth_error cs k = Some c /\ best area b cs i (a, i0) = Some (i + k)%nat /\ 0 < area b (boxOf c).
Proof.
  intros b. induction cs as [|c cs IH]; intros i a i0; cbn [best fst snd]; [auto|]. unfold MIN_COM_AREA. destruct ((0 <? area b (boxOf c)) && (a <? area b (boxOf c))) eqn:E.
  - apply andb_true_iff in E. destruct E as (E & _). apply Z.ltb_lt in E. right. destruct (IH (S i) (area b (boxOf c)) (Some i)) as [H|(k & c' & A & B & C)].
    + exists O, c. rewrite H. split; [reflexivity|]. split; [f_equal; lia|auto].
    + exists (S k), c'. rewrite B. split; [auto|]. split; [f_equal; lia|auto].
  - destruct (IH (S i) a i0) as [H|(k & c' & A & B & C)]; [auto|]. right. exists (S k), c'. rewrite B. split; [auto|]. split; [f_equal; lia|auto].
Qed.
Lemma best_none : forall b cs i a i0, 0 <= a -> (forall c, In c cs -> area b (boxOf c) <= 0) -> best area b cs i (a, i0) = i0.
Proof.
  intros b. induction cs as [|c cs IH]; intros i a i0 Ha H; cbn [best fst snd]; [reflexivity|]. unfold MIN_COM_AREA. assert (E : (0 <? area b (boxOf c)) = false) by (apply Z.ltb_ge, H; now left). rewrite E. cbn [andb].
  apply IH; [auto|]. intros c' I. apply H. now right.
Qed.
Lemma updAt_map : forall (bs : list box) k f g, (forall b, nth_error bs k = Some b -> f (chain 4 b) = chain 4 (g b)) ->
  updAt (map (chain 4) bs) k f = map (chain 4) (firstn k bs ++ match nth_error bs k with Some b => [g b] | None => [] end ++ skipn (S k) bs).
Proof.
  induction bs as [|b bs IH]; intros [|k] f g H; cbn [map updAt nth_error firstn skipn app]; try reflexivity.
  - cbn [map]. rewrite (H b eq_refl). reflexivity.
  - f_equal. apply IH. intros b' E. apply H. exact E.
Qed.
(** The state: a hull, and groups with their boxes. *)
Definition hull (l : list box) (b : box) : box := fold_left (fun h a => extendBox a h) l b.
Lemma add_root : forall b rb bs, exists bs', addToTree area b 5 (Nd rb (map (chain 4) bs)) = Nd (extendBox b rb) (map (chain 4) bs') /\
  (bs' = bs ++ [b] \/ exists k c, nth_error bs k = Some c /\ 0 < area b c /\ bs' = firstn k bs ++ [extendBox b c] ++ skipn (S k) bs).
Proof.
  intros b rb bs. cbn [addToTree]. destruct (best_some b (map (chain 4) bs) 0 0 None) as [H|(k & c & A & B & C)].
  - rewrite H. exists (bs ++ [b]). split; [|auto]. rewrite map_app. cbn [map]. rewrite <- (add_new 4 b). reflexivity.
  - rewrite B. cbn [plus]. rewrite nth_error_map in A. destruct (nth_error bs k) as [c0|] eqn:E; [|discriminate]. assert (Ec : c = chain 4 c0) by (cbn [option_map] in A; congruence). rewrite Ec, boxOf_chain in C. clear A Ec.
    exists (firstn k bs ++ [extendBox b c0] ++ skipn (S k) bs). split; [|right; exists k, c0; auto]. f_equal.
    pose proof (updAt_map bs k (addToTree area b 4) (extendBox b)) as U. rewrite E in U. apply U. intros b' X. injection X as <-. now apply add_chain.
Qed.
Lemma around_one : forall b, around [b] b.
Proof. intros b. split; [intros a [<-|[]]; lia|]. repeat split; exists b; (split; [now left|reflexivity]). Qed.
Lemma around_more : forall l h b, around l h -> around (b :: l) (extendBox b h).
Proof.
  intros l h b (A & (a1 & I1 & E1) & (a2 & I2 & E2) & (a3 & I3 & E3) & (a4 & I4 & E4)). unfold extendBox. split; cbn.
  - intros a [<-|I]; [lia|]. specialize (A a I). lia.
  - repeat split.
    + destruct (Z.le_gt_cases (x0 b) (x0 h)); [exists b; split; [now left|lia]|exists a1; split; [now right|lia]].
    + destruct (Z.le_gt_cases (y0 b) (y0 h)); [exists b; split; [now left|lia]|exists a2; split; [now right|lia]].
    + destruct (Z.le_gt_cases (x1 h) (x1 b)); [exists b; split; [now left|lia]|exists a3; split; [now right|lia]].
    + destruct (Z.le_gt_cases (y1 h) (y1 b)); [exists b; split; [now left|lia]|exists a4; split; [now right|lia]].
Qed.
Lemma Forall2_snoc' : forall (A B : Type) (R : A -> B -> Prop) l l' x y, Forall2 R l l' -> R x y -> Forall2 R (l ++ [x]) (l' ++ [y]).
Proof. intros. apply Forall2_app; auto. Qed.
Lemma grouped_snoc : forall bs ls b, grouped bs ls -> grouped (bs ++ [b]) (ls ++ [b]).
Proof.
  intros bs ls b (gs & P & F). exists (gs ++ [[b]]). split; [|apply Forall2_snoc'; [exact F|apply around_one]]. rewrite concat_app. cbn. apply Permutation_app_tail. exact P.
Qed.
Lemma grouped_join : forall bs ls b k c, grouped bs ls -> nth_error ls k = Some c -> grouped (bs ++ [b]) (firstn k ls ++ [extendBox b c] ++ skipn (S k) ls).
Proof.
  intros bs ls b k c (gs & P & F) E. assert (X : exists g1 g g2, gs = g1 ++ g :: g2 /\ Forall2 around g1 (firstn k ls) /\ around g c /\ Forall2 around g2 (skipn (S k) ls)).
  { clear P. revert k E. induction F as [|g l gs' ls' R F IH]; intros k E; [destruct k; discriminate|]. destruct k as [|k].
    - injection E as <-. exists [], g, gs'. split; [reflexivity|]. split; [constructor|]. auto.
    - destruct (IH k E) as (g1 & g0 & g2 & -> & A & B & C). exists (g :: g1), g0, g2. split; [reflexivity|]. split; [constructor; auto|]. auto. }
  destruct X as (g1 & g & g2 & -> & A & B & C). exists (g1 ++ (b :: g) :: g2). split.
  - rewrite concat_app in P |- *. cbn [concat] in P |- *. rewrite <- app_comm_cons. rewrite <- (Permutation_cons_append bs b), <- P. symmetry. apply Permutation_middle.
  - apply Forall2_app; [exact A|]. constructor; [now apply around_more|exact C].
Qed.
(** The tree after any additions. *)
Lemma adds_shape : forall bs, exists ls, root (adds M pad area bs) = Nd (hull (map pad bs) (minbox M)) (map (chain 4) ls) /\ grouped (map pad bs) ls /\ size (adds M pad area bs) = length bs.
Proof.
  induction bs as [|b bs IH] using rev_ind.
  - exists []. split; [reflexivity|]. split; [|reflexivity]. exists []. split; [constructor|constructor].
  - destruct IH as (ls & R & G & S). unfold adds. rewrite fold_left_app. cbn [fold_left]. unfold add at 1 3. cbn [root size]. fold (adds M pad area bs). rewrite R.
    destruct (add_root (pad b) (hull (map pad bs) (minbox M)) ls) as (ls' & E & H). unfold MAX_LVL. rewrite E. exists ls'. split; [|split].
    + f_equal. unfold hull. rewrite map_app, fold_left_app. reflexivity.
    + rewrite map_app. cbn [map]. destruct H as [->|(k & c & A & _ & ->)]; [now apply grouped_snoc|now apply grouped_join].
    + rewrite S, app_length. cbn. lia.
Qed.
Lemma hull_around : forall l h ls, around ls h -> around (rev l ++ ls) (hull l h).
Proof. induction l as [|a l IH]; intros h ls H; cbn; [exact H|]. rewrite <- app_assoc. cbn. apply IH. now apply around_more. Qed.
Lemma around_perm : forall l l' b, (forall x, In x l <-> In x l') -> around l b -> around l' b.
Proof.
  intros l l' b H (A & (a1 & I1 & E1) & (a2 & I2 & E2) & (a3 & I3 & E3) & (a4 & I4 & E4)). split; [intros a I; apply A; now apply H|].
  repeat split; [exists a1|exists a2|exists a3|exists a4]; (split; [now apply H|auto]).
Qed.
Lemma full : forall bs, bs <> [] -> Forall (fun b => in_range M (pad b)) bs -> around (map pad bs) (getFullBox (adds M pad area bs)).
Proof.
  intros bs N R. destruct (adds_shape bs) as (ls & E & _). unfold getFullBox. rewrite E. cbn [boxOf]. destruct bs as [|b bs]; [congruence|]. inversion R; subst. cbn [map hull fold_left].
  assert (X : extendBox (pad b) (minbox M) = pad b). { unfold in_range in H1. destruct (pad b). unfold extendBox, minbox. cbn in *. f_equal; lia. }
  unfold hull. cbn [fold_left]. rewrite X. apply (around_perm (rev (map pad bs) ++ [pad b])); [|apply (hull_around (map pad bs)), around_one].
  intros x. rewrite in_app_iff, <- in_rev. cbn. tauto.
Qed.
Lemma root_has : forall p b ls, treeHas p (Nd b (map (chain 4) ls)) = true <-> match ls with [] => inside p b | _ => exists l, In l ls /\ inside p l end.
Proof.
  intros p b [|l ls]; [apply contains_iff|]. change (treeHas p (Nd b (map (chain 4) (l :: ls)))) with ((fix go (cs : list nd) : bool := match cs with [] => false | c :: r => if contains p (boxOf c) then treeHas p c else go r end) (map (chain 4) (l :: ls))).
  generalize (l :: ls). clear. induction l as [|l ls IH]; [split; [discriminate|intros (l & [] & _)]|]. cbn [map]. rewrite boxOf_chain, chain_has. destruct (contains p l) eqn:E.
  - split; [|auto]. intros _. exists l. split; [now left|now apply contains_iff].
  - rewrite IH. split; [intros (l' & I & H); exists l'; split; [now right|auto]|]. intros (l' & [<-|I] & H); [apply contains_iff in H; congruence|eauto].
Qed.
Lemma leafs_of : forall b ls, getLeafsRec (Nd b (map (chain 4) ls)) = match ls with [] => [b] | _ => ls end.
Proof.
  intros b [|l ls]; [reflexivity|]. change (getLeafsRec (Nd b (map (chain 4) (l :: ls)))) with ((fix go (cs : list nd) : list box := match cs with [] => [] | c :: r => getLeafsRec c ++ go r end) (map (chain 4) (l :: ls))).
  generalize (l :: ls). clear. induction l as [|l ls IH]; [reflexivity|]. cbn [map]. rewrite IH, chain_leafs. reflexivity.
Qed.
Lemma grouped_nil : forall bs ls, grouped bs ls -> bs <> [] -> ls <> [].
Proof. intros bs ls (gs & P & F) N ->. inversion F; subst. cbn in P. apply Permutation_nil in P. congruence. Qed.
Lemma leafs_grouped : forall bs, bs <> [] -> grouped (map pad bs) (getLeafs (adds M pad area bs)).
Proof.
  intros bs N. destruct (adds_shape bs) as (ls & E & G & _). unfold getLeafs. rewrite E, leafs_of. destruct ls; [|exact G]. exfalso. eapply grouped_nil; eauto. destruct bs; [congruence|discriminate].
Qed.
Lemma has_leaf : forall bs p, hasPoint (adds M pad area bs) p = true <-> exists l, In l (getLeafs (adds M pad area bs)) /\ inside p l.
Proof.
  intros bs p. destruct (adds_shape bs) as (ls & E & _). unfold hasPoint, getLeafs. rewrite E, root_has, leafs_of. destruct ls as [|l ls]; [|reflexivity]. split; [intros H; eexists; split; [now left|exact H]|]. intros (l & [<-|[]] & H). exact H.
Qed.
Lemma around_inside : forall g l p b, around g l -> In b g -> inside p b -> inside p l.
Proof. intros g l p b (A & _) I H. specialize (A b I). unfold inside in *. lia. Qed.
Lemma grouped_covers : forall bs ls b, grouped bs ls -> In b bs -> exists l, In l ls /\ (forall p, inside p b -> inside p l).
Proof.
  intros bs ls b (gs & P & F) I. apply Permutation_sym in P. apply (Permutation_in b P) in I. apply in_concat in I. destruct I as (g & Ig & Ib).
  clear P. induction F as [|g' l gs' ls' R F IH]; [easy|]. destruct Ig as [->|Ig].
  - exists l. split; [now left|]. intros p. now apply (around_inside g).
  - destruct (IH Ig) as (l' & A & B). exists l'. split; [now right|auto].
Qed.
Lemma has_added : forall bs b p, In b bs -> inside p (pad b) -> hasPoint (adds M pad area bs) p = true.
Proof.
  intros bs b p I H. apply has_leaf. assert (N : bs <> []) by (destruct bs; [destruct I|discriminate]). destruct (grouped_covers _ _ (pad b) (leafs_grouped bs N) (in_map pad _ _ I)) as (l & A & B). eauto.
Qed.
Lemma size_ok : forall bs, size (adds M pad area bs) = length bs.
Proof. intros bs. destruct (adds_shape bs) as (ls & _ & _ & S). exact S. Qed.
(** Inside a leaf is inside the full box. *)
Lemma has_full : forall bs p, Forall (fun b => in_range M (pad b)) bs -> hasPoint (adds M pad area bs) p = true -> inside p (getFullBox (adds M pad area bs)).
Proof.
  intros bs p R H. destruct bs as [|b0 bs0]; [apply contains_iff; exact H|]. set (bs := b0 :: bs0) in *. assert (N : bs <> []) by discriminate. apply has_leaf in H. destruct H as (l & I & Hp).
  destruct (full bs N R) as (A & _). destruct (leafs_grouped bs N) as (gs & P & F).
  assert (X : exists g, In g gs /\ around g l). { clear P. induction F as [|g' l' gs' ls' R' F IH]; [easy|]. destruct I as [->|I]; [exists g'; split; [now left|auto]|]. destruct (IH I) as (g & B & C). exists g. split; [now right|auto]. }
  destruct X as (g & Ig & (_ & (a1 & I1 & E1) & (a2 & I2 & E2) & (a3 & I3 & E3) & (a4 & I4 & E4))).
  assert (Y : forall a, In a g -> In a (map pad bs)). { intros a Ia. apply (Permutation_in a P). apply in_concat. eauto. }
  pose proof (A _ (Y _ I1)). pose proof (A _ (Y _ I2)). pose proof (A _ (Y _ I3)). pose proof (A _ (Y _ I4)). unfold inside in *. lia.
Qed.
Lemma empty_idx : forall p, 0 < M -> hasPoint (adds M pad area []) p = false.
Proof. intros p H. unfold hasPoint, adds. cbn. unfold contains. cbn. destruct (M <=? fst p) eqn:E; [|reflexivity]. apply Z.leb_le in E. assert (X : (fst p <=? - M) = false) by (apply Z.leb_gt; lia). now rewrite X. Qed.
(** Boxes that have no area in common stay apart. *)
Lemma apart_leafs : forall bs, bs <> [] -> apart area (map pad bs) -> getLeafs (adds M pad area bs) = map pad bs.
Proof.
  intros bs N Ap. assert (X : exists h, root (adds M pad area bs) = Nd h (map (chain 4) (map pad bs))).
  { clear N. induction bs as [|b bs IH] using rev_ind; [eexists; reflexivity|].
    destruct IH as (h & R). { intros i j a c L A B. apply (Ap i j); auto; rewrite map_app; now apply nth_snoc_some. }
    unfold adds. rewrite fold_left_app. cbn [fold_left]. unfold add at 1. cbn [root]. fold (adds M pad area bs). rewrite R. unfold MAX_LVL. cbn [addToTree].
    rewrite best_none; [|lia|].
    - rewrite map_app, map_app. cbn [map]. rewrite <- (add_new 4 (pad b)). eexists. reflexivity.
    - intros c I. apply in_map_iff in I. destruct I as (a & <- & I). rewrite boxOf_chain. apply In_nth_error in I. destruct I as (i & Ei). apply (Ap i (length bs)).
      + rewrite <- (map_length pad bs). apply nth_error_Some. congruence.
      + rewrite map_app. now apply nth_snoc_some.
      + rewrite map_app. cbn [map]. rewrite <- (map_length pad bs). apply nth_snoc_eq. }
  destruct X as (h & E). unfold getLeafs. rewrite E, leafs_of. destruct bs; [congruence|reflexivity].
Qed.
End Proofs.
