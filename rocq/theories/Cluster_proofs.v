(** Proofs for the clustering of trips. *)
From Coq Require Import String List Arith ZArith Bool Lia Permutation Sorted.
From Verif Require Import ListAux StrAux TripTrie_model TripTrie_spec TripTrie_proofs Simi_model Simi_spec Simi_proofs Cluster_model Cluster_spec.
Import ListNotations.
Open Scope nat_scope.

(** ** Dealing *)
Lemma upd_split : forall A (l : list A) i x, nth_error l i = Some x -> forall g,
  exists a b, l = a ++ x :: b /\ upd i g l = a ++ g x :: b /\ length a = i.
Proof.
  induction l as [|y l IH]; intros [|i] x H g; cbn in H; try discriminate.
  - injection H as ->. exists [], l. auto.
  - destruct (IH i x H g) as (a & b & -> & U & L). exists (y :: a), b. cbn. rewrite U. cbn. auto.
Qed.
Lemma upd_concat : forall A (l : list (list A)) i p x, nth_error l i = Some p ->
  Permutation (concat (upd i (fun q => q ++ [x]) l)) (x :: concat l).
Proof.
  intros A l i p x H. destruct (upd_split _ _ _ _ H (fun q => q ++ [x])) as (a & b & -> & -> & _).
  rewrite !concat_app. cbn. rewrite <- app_assoc. cbn.
  transitivity (concat a ++ x :: p ++ concat b).
  - apply Permutation_app_head. symmetry. apply Permutation_middle.
  - symmetry. apply Permutation_middle.
Qed.
Lemma deal_inv : forall A n (l pre : list A) i acc, 0 < n -> length acc = n -> i = length pre mod n ->
  (forall w p, nth_error acc w = Some p -> forall q, nth_error p q = nth_error pre (w + q * n)) ->
  exists parts, deal n i l acc = Some parts /\ length parts = n /\ Permutation (concat parts) (concat acc ++ l) /\
    forall w p, nth_error parts w = Some p -> forall q, nth_error p q = nth_error (pre ++ l) (w + q * n).
Proof.
  intros A n. induction l as [|x l IH]; intros pre i acc Hn La Hi H; cbn [deal].
  - exists acc. split; [reflexivity|]. split; [exact La|]. rewrite !app_nil_r. split; [reflexivity|exact H].
  - assert (Li : i < n) by (subst i; apply Nat.mod_upper_bound; lia).
    destruct (nth_error acc i) as [p0|] eqn:E; [|apply nth_error_None in E; lia].
    destruct (IH (pre ++ [x]) (if S i =? n then 0 else S i) (upd i (fun q => q ++ [x]) acc)) as (parts & D & L & P & N); auto.
    + rewrite upd_length. exact La.
    + rewrite app_length. cbn [length]. rewrite Nat.add_1_r.
      pose proof (Nat.div_mod (length pre) n ltac:(lia)) as DM. rewrite <- Hi in DM.
      destruct (S i =? n) eqn:Es; [apply Nat.eqb_eq in Es|apply Nat.eqb_neq in Es].
      * assert (X : S (length pre) = (length pre / n + 1) * n) by nia. rewrite X. rewrite Nat.mod_mul; lia.
      * assert (X : S (length pre) = S i + (length pre / n) * n) by nia. rewrite X.
        rewrite Nat.mod_add by lia. rewrite Nat.mod_small; lia.
    + assert (Lp : length p0 = length pre / n).
      { pose proof (Nat.div_mod (length pre) n ltac:(lia)) as DM. rewrite <- Hi in DM.
        pose proof (H i p0 E) as Hq. apply Nat.le_antisymm.
        - assert (X : nth_error p0 (length pre / n) = None) by (rewrite Hq; apply nth_error_None; nia).
          apply nth_error_None in X. exact X.
        - destruct (length pre / n) as [|k] eqn:Ek; [lia|].
          assert (X : nth_error p0 k <> None) by (rewrite Hq; apply nth_error_Some; nia).
          apply nth_error_Some in X. lia. }
      intros w p Hw q. rewrite upd_nth in Hw. destruct (w =? i) eqn:Ew.
      * apply Nat.eqb_eq in Ew. subst w. rewrite E in Hw. cbn in Hw. injection Hw as <-.
        pose proof (Nat.div_mod (length pre) n ltac:(lia)) as DM. rewrite <- Hi in DM.
        destruct (lt_eq_lt_dec q (length p0)) as [[Lq|Eq]|Gq].
        -- rewrite nth_error_app1 by lia. rewrite (H i p0 E q).
           rewrite nth_error_app1; [reflexivity|]. rewrite Lp in Lq. nia.
        -- subst q. rewrite nth_snoc_eq. rewrite Lp. replace (i + length pre / n * n) with (length pre) by nia.
           rewrite nth_snoc_eq. reflexivity.
        -- transitivity (@None A); [apply nth_error_None; rewrite app_length; cbn; lia|].
           symmetry. apply nth_error_None. rewrite app_length. cbn. rewrite Lp in Gq. nia.
      * apply Nat.eqb_neq in Ew. rewrite (H w p Hw q). destruct (lt_dec (w + q * n) (length pre)) as [Lq|Gq].
        -- rewrite nth_error_app1; auto.
        -- assert (Lw : w < n) by (rewrite <- La; eapply nth_lt; exact Hw).
           transitivity (@None A); [apply nth_error_None; lia|]. symmetry. apply nth_error_None. rewrite app_length. cbn.
           pose proof (Nat.div_mod (length pre) n ltac:(lia)) as DM. rewrite <- Hi in DM.
           assert (w + q * n <> length pre); [|lia]. intros X. apply Ew. rewrite Hi, <- X.
           rewrite Nat.mod_add by lia. rewrite Nat.mod_small; auto.
    + exists parts. split; [exact D|]. split; [exact L|]. split.
      * rewrite P. rewrite (upd_concat _ _ _ _ x E). cbn. apply Permutation_middle.
      * intros w p Hw q. rewrite (N w p Hw q). rewrite <- app_assoc. reflexivity.
Qed.
Lemma concat_repeat_nil : forall A n, concat (repeat (@nil A) n) = [].
Proof. induction n; cbn; auto. Qed.
Lemma nth_repeat_inv : forall A (x : A) n w p, nth_error (repeat x n) w = Some p -> p = x.
Proof. intros A x n w p H. apply nth_error_In in H. apply repeat_spec in H. exact H. Qed.
Lemma deal_dealt : forall A n (l : list A), 0 < n -> exists parts, deal n 0 l (repeat [] n) = Some parts /\ dealt n l parts.
Proof.
  intros A n l Hn. destruct (deal_inv A n l [] 0 (repeat [] n) Hn) as (parts & D & L & P & N).
  - apply repeat_length.
  - cbn. rewrite Nat.mod_0_l; lia.
  - intros w p H q. apply nth_repeat_inv in H. subst p. destruct q, w; cbn; auto; destruct (q * n + n); auto.
    all: destruct (n + q * n); auto.
  - exists parts. split; [exact D|]. split; [exact L|]. rewrite concat_repeat_nil in P. split; [exact P|exact N].
Qed.

(** ** The candidate cache *)
Section CandCache.
Variable S V : Type.
Variable eqS : S -> S -> bool.
Hypothesis eqS_ok : forall a b, eqS a b = true <-> a = b.
Variable cands : S -> V.
Lemma getC_putC : forall m s v x, getC S V eqS (putC S V eqS m s v) x = if eqS s x then Some v else getC S V eqS m x.
Proof.
  induction m as [|(s', v') m IH]; intros s v x; cbn; [reflexivity|].
  destruct (eqS s' s) eqn:E; cbn.
  - apply eqS_ok in E. subst s'. destruct (eqS s x); reflexivity.
  - destruct (eqS s' x) eqn:Ex; [|apply IH]. destruct (eqS s x) eqn:Es; [|reflexivity].
    apply eqS_ok in Ex. apply eqS_ok in Es. subst. rewrite (proj2 (eqS_ok x x) eq_refl) in E. discriminate.
Qed.
Definition right (m : list (S * V)) : Prop := forall s v, getC S V eqS m s = Some v -> v = cands s.
Definition rightL (m : list (S * V)) : Prop := forall s v, In (s, v) m -> v = cands s.
Lemma putC_in : forall m s v s' v', In (s', v') (putC S V eqS m s v) -> (s' = s /\ v' = v) \/ In (s', v') m.
Proof.
  induction m as [|(a, b) m IH]; intros s v s' v' H; cbn in H.
  - destruct H as [E|[]]. injection E as -> ->. auto.
  - destruct (eqS a s) eqn:E; cbn in H; destruct H as [X|H].
    + injection X as -> ->. apply eqS_ok in E. subst. auto.
    + right. right. exact H.
    + injection X as -> ->. right. left. reflexivity.
    + destruct (IH _ _ _ _ H) as [?|?]; [auto|]. right. right. assumption.
Qed.
Lemma candWorker_right : forall stops, rightL (candWorker S V eqS cands stops) /\
  forall s, In s stops -> exists v, In (s, v) (candWorker S V eqS cands stops).
Proof.
  intros stops. unfold candWorker.
  enough (X : forall m, rightL m -> rightL (fold_left (fun m s => putC S V eqS m s (cands s)) stops m) /\
    (forall s v, In (s, v) m -> exists v, In (s, v) (fold_left (fun m s => putC S V eqS m s (cands s)) stops m)) /\
    (forall s, In s stops -> exists v, In (s, v) (fold_left (fun m s => putC S V eqS m s (cands s)) stops m))).
  { destruct (X []) as (A & _ & B); [intros ? ? []|]. auto. }
  assert (K : forall m s v x y, In (x, y) m -> exists y', In (x, y') (putC S V eqS m s v)).
  { induction m as [|(a, b) m IH]; intros s v x y H; [destruct H|]. cbn. destruct (eqS a s) eqn:E; destruct H as [X|H].
    - injection X as -> ->. exists v. left. reflexivity.
    - exists y. right. exact H.
    - injection X as -> ->. exists y. left. reflexivity.
    - destruct (IH s v x y H) as (y' & I). exists y'. right. exact I. }
  induction stops as [|s0 stops IH]; intros m R; cbn.
  - split; [exact R|]. split; [eauto|]. intros s [].
  - assert (R' : rightL (putC S V eqS m s0 (cands s0))).
    { intros s v I. apply putC_in in I. destruct I as [[-> ->]|I]; auto. }
    destruct (IH _ R') as (A & B & C). split; [exact A|]. split.
    + intros s v I. destruct (K m s0 (cands s0) s v I) as (y & I'). eauto.
    + intros s [->|I]; [|auto].
      assert (exists y, In (s, y) (putC S V eqS m s (cands s))) as (y & I); [|eauto].
      clear - eqS_ok. induction m as [|(a, b) m IH]; cbn; [eexists; left; reflexivity|]. destruct (eqS a s) eqn:E.
      * apply eqS_ok in E. subst. eexists. left. reflexivity.
      * destruct IH as (y & I). exists y. right. exact I.
Qed.
Lemma merge_right : forall c m, rightL c -> right m -> right (fold_left (fun m e => putC S V eqS m (fst e) (snd e)) c m) /\
  (forall s v, getC S V eqS m s = Some v -> exists v', getC S V eqS (fold_left (fun m e => putC S V eqS m (fst e) (snd e)) c m) s = Some v') /\
  (forall s v, In (s, v) c -> exists v', getC S V eqS (fold_left (fun m e => putC S V eqS m (fst e) (snd e)) c m) s = Some v').
Proof.
  induction c as [|(a, b) c IH]; intros m Rc R; cbn.
  - split; [exact R|]. split; [eauto|]. intros s v [].
  - destruct (IH (putC S V eqS m a b)) as (A & B & C).
    + intros s v I. apply Rc. right. exact I.
    + intros s v G. rewrite getC_putC in G. destruct (eqS a s) eqn:E; [|auto]. apply eqS_ok in E. subst.
      injection G as <-. apply Rc. left. reflexivity.
    + split; [exact A|]. split.
      * intros s v G. destruct (eqS a s) eqn:E; apply (B s (if eqS a s then b else v)); rewrite getC_putC, E; auto.
      * intros s v [E|I]; [injection E as -> ->|eauto]. apply (B s v). rewrite getC_putC.
        rewrite (proj2 (eqS_ok s s) eq_refl). reflexivity.
Qed.
Lemma buildCandCache_ok : forall n stops, 0 < n -> exists cache,
  buildCandCache S V eqS cands n stops [] = Some cache /\
  (forall s v, getC S V eqS cache s = Some v -> v = cands s) /\
  (forall s, In s stops -> getC S V eqS cache s = Some (cands s)).
Proof.
  intros n stops Hn. unfold buildCandCache. destruct (deal_dealt S n stops Hn) as (parts & -> & _ & P & _).
  eexists. split; [reflexivity|].
  enough (X : forall ps m, right m -> right (fold_left (fun m c => fold_left (fun m e => putC S V eqS m (fst e) (snd e)) c m) (map (candWorker S V eqS cands) ps) m) /\
    (forall s v, getC S V eqS m s = Some v -> exists v', getC S V eqS (fold_left (fun m c => fold_left (fun m e => putC S V eqS m (fst e) (snd e)) c m) (map (candWorker S V eqS cands) ps) m) s = Some v') /\
    (forall s, In s (concat ps) -> exists v', getC S V eqS (fold_left (fun m c => fold_left (fun m e => putC S V eqS m (fst e) (snd e)) c m) (map (candWorker S V eqS cands) ps) m) s = Some v')).
  { destruct (X parts []) as (A & _ & C); [intros ? ? Y; discriminate Y|]. split; [exact A|].
    intros s I. destruct (C s) as (v & G); [eapply Permutation_in; [symmetry; exact P|exact I]|]. rewrite G. f_equal. exact (A _ _ G). }
  induction ps as [|p ps IH]; intros m R; cbn.
  - split; [exact R|]. split; [eauto|]. intros s [].
  - destruct (candWorker_right p) as (Rp & Ip). destruct (merge_right _ m Rp R) as (A & B & C). destruct (IH _ A) as (A' & B' & C').
    split; [exact A'|]. split.
    + intros s v G. destruct (B s v G) as (v' & G'). eauto.
    + intros s I. apply in_app_or in I. destruct I as [I|I]; [|auto]. destruct (Ip s I) as (v & I'). destruct (C s v I') as (v' & G). eauto.
Qed.
End CandCache.

(** ** Equivalent keys *)
Definition eqv (a b : attrs) : bool := negb (attrsLt a b || attrsLt b a).
Lemma eqv_iff : forall a b, eqv a b = true <-> same_group a b.
Proof.
  intros a b. unfold eqv, same_group. rewrite negb_true_iff, orb_false_iff. apply attrsLt_incomparable.
Qed.
Lemma eqv_refl : forall a, eqv a a = true.
Proof. intros a. apply eqv_iff. split; reflexivity. Qed.
Lemma same_group_sym : forall a b, same_group a b -> same_group b a.
Proof. intros a b [X Y]. split; congruence. Qed.
Lemma same_group_trans : forall a b c, same_group a b -> same_group b c -> same_group a c.
Proof. intros a b c [X Y] [Z W]. split; congruence. Qed.
Lemma eqv_sym : forall a b, eqv a b = eqv b a.
Proof. intros a b. unfold eqv. rewrite orb_comm. reflexivity. Qed.
Lemma lt_same : forall a b c, same_group b c -> attrsLt a b = attrsLt a c.
Proof. intros a b c [X Y]. unfold attrsLt. rewrite X, Y. reflexivity. Qed.

Lemma same_lt : forall a b c, same_group a b -> attrsLt a c = attrsLt b c.
Proof. intros a b c [X Y]. unfold attrsLt. rewrite X, Y. reflexivity. Qed.

(** Maps sorted by key. *)
Definition sorted {A} (m : list (attrs * A)) : Prop := StronglySorted (fun x y => attrsLt (fst x) (fst y) = true) m.
Lemma sorted_inv : forall A (m : list (attrs * A)) i j k v k' v', sorted m -> nth_error m i = Some (k, v) -> nth_error m j = Some (k', v') ->
  same_group k k' -> i = j.
Proof.
  intros A m i j k v k' v' H. revert i j. induction H as [|x m S IH F]; intros i j Hi Hj G; [destruct i; discriminate|].
  rewrite Forall_forall in F.
  assert (X : forall y, In y m -> ~ same_group (fst x) (fst y)).
  { intros y I Y. specialize (F y I). rewrite (lt_same _ _ _ (same_group_sym _ _ Y)) in F. rewrite attrsLt_irrefl in F. discriminate. }
  destruct i as [|i], j as [|j]; cbn in Hi, Hj; auto.
  - exfalso. injection Hi as ->. exact (X _ (nth_error_In _ _ Hj) G).
  - exfalso. injection Hj as ->. exact (X _ (nth_error_In _ _ Hi) (same_group_sym _ _ G)).
Qed.
Lemma sorted_in_eq : forall A (m : list (attrs * A)) k v k' v', sorted m -> In (k, v) m -> In (k', v') m -> same_group k k' -> k = k' /\ v = v'.
Proof.
  intros A m k v k' v' S I I' G. apply In_nth_error in I. apply In_nth_error in I'. destruct I as (i & I), I' as (j & J).
  pose proof (sorted_inv _ _ _ _ _ _ _ _ S I J G) as ->. rewrite I in J. injection J as -> ->. auto.
Qed.
Lemma mapAt_in : forall A (m : list (attrs * A)) k v, sorted m -> In (k, v) m -> mapAt m k = Some v.
Proof.
  intros A m k v S. induction S as [|(k', v') m S IH F]; intros I; [destruct I|]. cbn.
  destruct (eqv k k') eqn:E.
  - unfold eqv in E. apply negb_true_iff in E. rewrite E.
    destruct I as [X|I]; [injection X as -> ->; reflexivity|].
    exfalso. rewrite Forall_forall in F. specialize (F _ I). cbn in F.
    assert (G : same_group k k') by (apply eqv_iff; unfold eqv; rewrite E; reflexivity).
    rewrite (lt_same _ _ _ G), attrsLt_irrefl in F. discriminate.
  - unfold eqv in E. apply negb_false_iff in E. rewrite E. destruct I as [X|I]; [|auto].
    injection X as -> ->. rewrite attrsLt_irrefl in E. discriminate.
Qed.
Lemma mapUpd_map : forall A (m : list (attrs * A)) k v g, sorted m -> In (k, v) m ->
  mapUpd m k g = map (fun e => (fst e, if eqv k (fst e) then g (snd e) else snd e)) m.
Proof.
  intros A m k v g S. induction S as [|(k', v') m S IH F]; intros I; [destruct I|]. cbn.
  unfold eqv at 1. destruct (attrsLt k k' || attrsLt k' k) eqn:E; cbn.
  - destruct I as [X|I]; [injection X as -> ->; rewrite attrsLt_irrefl in E; discriminate|]. f_equal. auto.
  - f_equal. rewrite Forall_forall in F.
    assert (G : same_group k k') by (apply eqv_iff; unfold eqv; rewrite E; reflexivity).
    rewrite <- (map_id m) at 1. apply map_ext_in. intros (k'', v'') I'. specialize (F _ I'). cbn in F. cbn.
    destruct (eqv k k'') eqn:E'; [|reflexivity]. apply eqv_iff in E'.
    rewrite (lt_same _ _ _ (same_group_trans _ _ _ (same_group_sym _ _ E') G)), attrsLt_irrefl in F. discriminate.
Qed.

(** ** Groups *)
Section Groups.
Variable pos : Type.
Notation trip := (trip pos).
Notation mapPush := (mapPush pos).
Definition pushAll (xs : list (attrs * trip)) (m : list (attrs * list trip)) := fold_left (fun m x => mapPush m (fst x) (snd x)) xs m.
Lemma mapPush_cases : forall m k t, sorted m ->
  sorted (mapPush m k t) /\
  ((exists l1 k' ts l2, m = l1 ++ (k', ts) :: l2 /\ same_group k k' /\ mapPush m k t = l1 ++ (k', ts ++ [t]) :: l2) \/
   ((forall k' ts, In (k', ts) m -> ~ same_group k k') /\ exists l1 l2, m = l1 ++ l2 /\ mapPush m k t = l1 ++ (k, [t]) :: l2)).
Proof.
  intros m k t S. induction S as [|(k', ts) m S IH F]; cbn.
  - split; [repeat constructor|]. right. split; [intros ? ? []|]. exists [], []. auto.
  - destruct (attrsLt k k') eqn:L.
    + assert (X : forall x, In x ((k', ts) :: m) -> attrsLt k (fst x) = true).
      { intros x [<-|I]; [exact L|]. rewrite Forall_forall in F. exact (attrsLt_trans _ _ _ L (F _ I)). }
      split; [constructor; [constructor; auto|rewrite Forall_forall; exact X]|]. right. split.
      * intros k'' ts'' I G. specialize (X _ I). cbn in X. rewrite (lt_same _ _ _ (same_group_sym _ _ G)), attrsLt_irrefl in X. discriminate.
      * exists [], ((k', ts) :: m). auto.
    + destruct (attrsLt k' k) eqn:L'.
      * destruct IH as (S' & IH). split.
        { constructor; [exact S'|]. rewrite Forall_forall in *. intros x I.
          destruct IH as [(l1 & k2 & ts2 & l2 & -> & G & E)|(_ & l1 & l2 & -> & E)]; rewrite E in I; apply in_app_or in I; destruct I as [I|[<-|I]].
          - apply F. apply in_or_app. auto.
          - cbn. exact (F (k2, ts2) (in_elt _ _ _)).
          - apply F. apply in_or_app. right. right. exact I.
          - apply F. apply in_or_app. auto.
          - exact L'.
          - apply F. apply in_or_app. right. exact I. }
        destruct IH as [(l1 & k2 & ts2 & l2 & -> & G & E)|(N & l1 & l2 & -> & E)].
        -- left. exists ((k', ts) :: l1), k2, ts2, l2. rewrite E. auto.
        -- right. split.
           ++ intros k'' ts'' [X|I] G; [injection X as <- <-|exact (N _ _ I G)].
              rewrite (lt_same _ _ _ G), attrsLt_irrefl in L'. discriminate.
           ++ exists ((k', ts) :: l1), l2. rewrite E. auto.
      * split; [constructor; auto|]. left. exists [], k', ts, m. split; [reflexivity|].
        split; [apply eqv_iff; unfold eqv; rewrite L, L'; reflexivity|reflexivity].
Qed.
Definition ofKey (k : attrs) (xs : list (attrs * trip)) : list trip := map snd (filter (fun x => eqv k (fst x)) xs).
Lemma ofKey_app : forall k xs ys, ofKey k (xs ++ ys) = ofKey k xs ++ ofKey k ys.
Proof. intros. unfold ofKey. rewrite filter_app, map_app. reflexivity. Qed.
Lemma pushAll_groups : forall xs, let m := pushAll xs [] in
  sorted m /\
  (forall k ts, In (k, ts) m -> ts = ofKey k xs /\ exists pre t post, xs = pre ++ (k, t) :: post /\ forall x, In x pre -> ~ same_group (fst x) k) /\
  (forall x, In x xs -> exists k ts, In (k, ts) m /\ same_group (fst x) k).
Proof.
  intros xs. induction xs as [|(k, t) xs IH] using rev_ind; cbn.
  - split; [constructor|]. split; [intros ? ? []|intros ? []].
  - unfold pushAll in *. rewrite fold_left_app. cbn [fold_left fst snd]. set (m := fold_left _ xs []) in *.
    cbn in IH. destruct IH as (S & G & C). destruct (mapPush_cases m k t S) as (S' & Cs). split; [exact S'|].
    destruct Cs as [(l1 & k' & ts & l2 & Em & Gk & ->)|(N & l1 & l2 & Em & ->)].
    + assert (X : forall k2 ts2, In (k2, ts2) m -> k2 <> k' -> eqv k2 k = false).
      { intros k2 ts2 I2 Ne. destruct (eqv k2 k) eqn:E; [|reflexivity]. exfalso. apply Ne. apply eqv_iff in E.
        apply (sorted_in_eq _ m k2 ts2 k' ts S I2); [rewrite Em; apply in_elt|exact (same_group_trans _ _ _ E Gk)]. }
      split.
      * intros k2 ts2 I. apply in_app_or in I.
        assert (Old : In (k2, ts2) (l1 ++ l2) -> ts2 = ofKey k2 (xs ++ [(k, t)]) /\ exists pre t0 post, xs ++ [(k, t)] = pre ++ (k2, t0) :: post /\ forall x, In x pre -> ~ same_group (fst x) k2).
        { intros I2. assert (I3 : In (k2, ts2) m) by (rewrite Em; apply in_app_or in I2; apply in_or_app; destruct I2; [auto|right; right; auto]).
          destruct (G _ _ I3) as (E2 & pre & t0 & post & Ex & P). split.
          - rewrite ofKey_app, <- E2. unfold ofKey. cbn. rewrite (X k2 ts2 I3).
            + cbn. rewrite app_nil_r. reflexivity.
            + intros ->. apply In_nth_error in I2. destruct I2 as (i & I2).
              assert (exists j, nth_error m j = Some (k', ts2) /\ j <> length l1) as (j & J & Nj).
              { rewrite Em. destruct (lt_dec i (length l1)) as [L|L].
                - exists i. rewrite nth_error_app1 in I2 by lia. rewrite nth_error_app1 by lia. split; [exact I2|lia].
                - exists (Datatypes.S i). rewrite nth_error_app2 in I2 by lia. rewrite nth_error_app2 by lia.
                  replace (Datatypes.S i - length l1) with (Datatypes.S (i - length l1)) by lia. split; [exact I2|lia]. }
              apply Nj. eapply (sorted_inv _ m); [exact S|exact J| |split; reflexivity].
              rewrite Em, nth_error_app2, Nat.sub_diag by lia. reflexivity.
          - exists pre, t0, (post ++ [(k, t)]). rewrite Ex, <- app_assoc. auto. }
        destruct I as [I|[E|I]]; [apply Old; apply in_or_app; auto| |apply Old; apply in_or_app; auto].
        injection E as <- <-. destruct (G k' ts) as (E2 & pre & t0 & post & Ex & P); [rewrite Em; apply in_elt|]. split.
        -- rewrite ofKey_app, <- E2. unfold ofKey. cbn. rewrite (proj2 (eqv_iff k' k) (same_group_sym _ _ Gk)). reflexivity.
        -- exists pre, t0, (post ++ [(k, t)]). rewrite Ex, <- app_assoc. auto.
      * intros x I. apply in_app_or in I. destruct I as [I|[<-|[]]].
        -- destruct (C x I) as (k2 & ts2 & I2 & G2). rewrite Em in I2. apply in_app_or in I2. destruct I2 as [I2|[E|I2]].
           ++ exists k2, ts2. split; [apply in_or_app; auto|exact G2].
           ++ injection E as <- <-. exists k', (ts ++ [t]). split; [apply in_elt|exact G2].
           ++ exists k2, ts2. split; [apply in_or_app; right; right; exact I2|exact G2].
        -- exists k', (ts ++ [t]). split; [apply in_elt|exact Gk].
    + split.
      * intros k2 ts2 I. apply in_app_or in I.
        assert (Old : In (k2, ts2) m -> ts2 = ofKey k2 (xs ++ [(k, t)]) /\ exists pre t0 post, xs ++ [(k, t)] = pre ++ (k2, t0) :: post /\ forall x, In x pre -> ~ same_group (fst x) k2).
        { intros I2. destruct (G _ _ I2) as (E2 & pre & t0 & post & Ex & P). split.
          - rewrite ofKey_app, <- E2. unfold ofKey. cbn. destruct (eqv k2 k) eqn:E; [|cbn; rewrite app_nil_r; reflexivity].
            apply eqv_iff in E. exfalso. exact (N _ _ I2 (same_group_sym _ _ E)).
          - exists pre, t0, (post ++ [(k, t)]). rewrite Ex, <- app_assoc. auto. }
        destruct I as [I|[E|I]]; [apply Old; rewrite Em; apply in_or_app; auto| |apply Old; rewrite Em; apply in_or_app; auto].
        injection E as <- <-. assert (Nx : forall x, In x xs -> ~ same_group (fst x) k).
        { intros x I G2. destruct (C x I) as (k3 & ts3 & I3 & G3). apply (N k3 ts3 I3). exact (same_group_trans _ _ _ (same_group_sym _ _ G2) G3). }
        split.
        -- rewrite ofKey_app. unfold ofKey at 2. cbn. rewrite eqv_refl. cbn.
           assert (Z : ofKey k xs = []); [|rewrite Z; reflexivity]. unfold ofKey.
           assert (Z : filter (fun x => eqv k (fst x)) xs = []); [|rewrite Z; reflexivity].
           clear - Nx. induction xs as [|x xs IH]; [reflexivity|]. cbn. destruct (eqv k (fst x)) eqn:E.
           ++ apply eqv_iff in E. exfalso. exact (Nx x (or_introl eq_refl) (same_group_sym _ _ E)).
           ++ apply IH. intros y I. apply Nx. right. exact I.
        -- exists xs, t, []. split; [reflexivity|exact Nx].
      * intros x I. apply in_app_or in I. destruct I as [I|[<-|[]]].
        -- destruct (C x I) as (k2 & ts2 & I2 & G2). exists k2, ts2. split; [|exact G2]. rewrite Em in I2.
           apply in_app_or in I2. apply in_or_app. destruct I2 as [I2|I2]; [auto|right; right; exact I2].
        -- exists k, [t]. split; [apply in_elt|split; reflexivity].
Qed.
Lemma pushAll_keys_nonempty : forall xs k ts, In (k, ts) (pushAll xs []) -> ts <> [].
Proof.
  intros xs k ts I. destruct (pushAll_groups xs) as (_ & G & _). destruct (G _ _ I) as (-> & pre & t & post & -> & _).
  rewrite ofKey_app. unfold ofKey at 2. cbn. rewrite eqv_refl. cbn. intros X. apply app_eq_nil in X. destruct X. discriminate.
Qed.
Definition strip (m : list (attrs * list trip)) : list (attrs * list (trie pos attrs)) := map (fun g => (fst g, [])) m.
Lemma mapClear_strip : forall m k t, mapClear pos (strip m) k = strip (mapPush m k t).
Proof.
  induction m as [|(k', ts) m IH]; intros k t; cbn [strip map mapClear mapPush fst]; [reflexivity|].
  destruct (attrsLt k k'); [reflexivity|]. destruct (attrsLt k' k); cbn [map fst]; [fold (strip m); rewrite (IH k t)|]; reflexivity.
Qed.
End Groups.

(** ** Attributes of trips *)
Section Attrs.
Variable pos : Type.
Variable regex : Type.
Variable compile : string -> option regex.
Variable replace : regex -> string -> string -> string.
Notation norm := (norm regex replace).
Notation norm_ok := (norm_ok regex compile replace).
Notation ftrip := (ftrip pos).
Notation cst := (cst regex).
Definition pureN (rs : list (regex * string)) (s : string) : string :=
  lower (fold_left (fun x rule => replace (fst rule) (snd rule) x) rs s).
Lemma pureN_normalised : forall n s, norm_ok n -> normalised regex compile replace (nOrig _ n) s (pureN (nRules _ n) s).
Proof.
  intros n s [B _]. eexists. split; [eapply build_rewritten; exact B|apply lower_lower_case].
Qed.
Definition sameN (n n' : normalizer regex) : Prop := norm_ok n' /\ nOrig _ n' = nOrig _ n /\ nRules _ n' = nRules _ n.
Lemma norm_val : forall n s, norm_ok n -> fst (norm n s) = pureN (nRules _ n) s /\ sameN n (snd (norm n s)).
Proof.
  intros n s O. destruct (norm n s) as (r, n') eqn:E. destruct (norm_step regex compile replace n s r n' O E) as (N & O' & R').
  cbn. split; [exact (normalised_fun _ _ _ _ _ _ _ N (pureN_normalised n s O))|].
  split; [exact O'|]. split; [exact R'|]. unfold Simi_model.norm in E. destruct (cacheGet _ s); injection E as <- <-; reflexivity.
Qed.
Lemma sameN_trans : forall a b c, sameN a b -> sameN b c -> sameN a c.
Proof. intros a b c (A & B & C) (D & E & F). split; [exact D|]. split; congruence. Qed.
Lemma sameN_refl : forall a, norm_ok a -> sameN a a.
Proof. intros a O. split; auto. Qed.
Definition pureName (rs : list (regex * string)) (t : ftrip) : string :=
  let x := pureN rs (fRShort _ t) in let y := pureN rs (fShort _ t) in
  if String.eqb x "" then if String.eqb y "" then pureN rs (fRLong _ t) else y else x.
Lemma lineName_val : forall n t, norm_ok n ->
  fst (lineName pos regex replace n t) = pureName (nRules _ n) t /\ sameN n (snd (lineName pos regex replace n t)).
Proof.
  intros n t O. unfold lineName, pureName. destruct (norm_val n (fRShort _ t) O) as (V1 & S1).
  destruct (norm n (fRShort _ t)) as (a, n1). cbn in V1, S1. subst a. destruct (String.eqb (pureN (nRules _ n) (fRShort _ t)) "") eqn:E1.
  - destruct S1 as (O1 & Or1 & R1). destruct (norm_val n1 (fShort _ t) O1) as (V2 & S2). rewrite R1 in V2.
    destruct (norm n1 (fShort _ t)) as (b, n2). cbn in V2, S2. subst b.
    assert (S12 : sameN n n2) by (eapply sameN_trans; [|exact S2]; split; auto).
    destruct (String.eqb (pureN (nRules _ n) (fShort _ t)) "") eqn:E2; [|auto].
    destruct S12 as (O2 & Or2 & R2). destruct (norm_val n2 (fRLong _ t) O2) as (V3 & S3). rewrite R2 in V3. split; [exact V3|].
    eapply sameN_trans; [|exact S3]. split; auto.
  - rewrite E1. auto.
Qed.
Definition pureAttrs (rL rS : list (regex * string)) (t : ftrip) : attrs :=
  match tSts _ (fTrip _ t) with
  | [] => mkAttrs "" "" []
  | s0 :: rest => mkAttrs (pureName rL t) (pureN rS (sName _ (stStop _ s0))) [pureN rS (sName _ (stStop _ (last rest s0)))]
  end.
Definition tOf (t : ftrip) : nat := tId _ (fTrip _ t).

(** The state keeps its rules, and its table is right. *)
Definition okSt (all : list ftrip) (L S : normalizer regex) (st : cst) : Prop :=
  sameN L (cLine _ st) /\ sameN S (cStat _ st) /\
  forall t a, In t all -> tabGet (cTab _ st) (tOf t) = Some a -> a = pureAttrs (nRules _ L) (nRules _ S) t.
Lemma getRAttrs_val : forall all L S st t, okSt all L S st -> NoDup (map tOf all) -> In t all -> tSts _ (fTrip _ t) <> [] ->
  exists st', getRAttrs pos regex replace st t = Some (pureAttrs (nRules _ L) (nRules _ S) t, st') /\ okSt all L S st' /\
    tabGet (cTab _ st') (tOf t) = Some (pureAttrs (nRules _ L) (nRules _ S) t) /\
    (forall i a, tabGet (cTab _ st) i = Some a -> tabGet (cTab _ st') i = Some a) /\
    (forall s v, cacheGet (nCache _ (cStat _ st)) s = Some v -> cacheGet (nCache _ (cStat _ st')) s = Some v).
Proof.
  intros all L S st t (HL & HS & HT) ND I NE. unfold getRAttrs. fold (tOf t).
  destruct (tabGet (cTab _ st) (tOf t)) as [a|] eqn:E.
  - exists st. rewrite (HT t a I E). rewrite (HT t a I E) in E. split; [reflexivity|]. split; [split; auto|]. auto.
  - unfold pureAttrs. destruct (tSts _ (fTrip _ t)) as [|s0 rest] eqn:Es; [contradiction|].
    destruct HL as (OL & RL1 & RL2). destruct HS as (OS & RS1 & RS2).
    destruct (lineName_val (cLine _ st) t OL) as (V & SV). rewrite RL2 in V. destruct (lineName pos regex replace (cLine _ st) t) as (nm, ln).
    cbn in V, SV. subst nm.
    destruct (norm_val (cStat _ st) (sName _ (stStop _ s0)) OS) as (V1 & S1). rewrite RS2 in V1.
    pose proof (norm_cached_mono regex replace (cStat _ st) (sName _ (stStop _ s0))) as M1.
    destruct (norm (cStat _ st) (sName _ (stStop _ s0))) as (fr, sn) eqn:E1. cbn in V1, S1. subst fr.
    destruct S1 as (O1 & R1 & R1'). rewrite RS2 in R1'.
    destruct (norm_val sn (sName _ (stStop _ (last rest s0))) O1) as (V2 & S2). rewrite R1' in V2.
    pose proof (norm_cached_mono regex replace sn (sName _ (stStop _ (last rest s0)))) as M2.
    destruct (norm sn (sName _ (stStop _ (last rest s0)))) as (to, sn2) eqn:E2. cbn in V2, S2. subst to.
    eexists. split; [reflexivity|]. cbn [cLine cStat cTab tabGet]. split.
    { split; [eapply sameN_trans; [|exact SV]; split; auto|]. split.
      - destruct S2 as (O2 & R2 & R2'). split; [exact O2|]. cbn [cStat]. split; congruence.
      - cbn. intros t' a I'. fold (tOf t). destruct (tOf t =? tOf t') eqn:Et; [|apply HT; exact I'].
        intros X. injection X as <-. apply Nat.eqb_eq in Et.
        assert (t = t') as <-.
        { clear - ND I I' Et. induction all as [|x all IH]; [destruct I|]. cbn in ND. inversion ND as [|? ? N1 N2]; subst.
          destruct I as [->|I], I' as [->|I']; auto.
          - exfalso. apply N1. rewrite Et. apply in_map. exact I'.
          - exfalso. apply N1. rewrite <- Et. apply in_map. exact I. }
        unfold pureAttrs. rewrite Es. reflexivity. }
    fold (tOf t). split; [rewrite Nat.eqb_refl; reflexivity|]. split.
    + intros i a H. destruct (tOf t =? i) eqn:Ei; [|exact H]. apply Nat.eqb_eq in Ei. subst i. congruence.
    + intros s v H. specialize (M1 s v H). unfold normed in M1, M2. rewrite E1 in M1. specialize (M2 s v M1). rewrite E2 in M2. exact M2.
Qed.

Lemma last_cons : forall A (l : list A) x y, last (y :: l) x = last l y.
Proof. induction l as [|z l IH]; intros x y; [reflexivity|]. change (last (z :: l) x = last (z :: l) y). rewrite !IH. reflexivity. Qed.
Lemma last_exists : forall A (x : A) l, exists r, x :: l = r ++ [last l x].
Proof.
  intros A x l. revert x. induction l as [|y l IH]; intros x; [exists []; reflexivity|].
  destruct (IH y) as (r & E). exists (x :: r). rewrite last_cons. cbn [app]. rewrite <- E. reflexivity.
Qed.
Lemma pureAttrs_spec : forall L S t, norm_ok L -> norm_ok S -> tSts _ (fTrip _ t) <> [] ->
  trip_attrs (normalised regex compile replace (nOrig _ L)) (normalised regex compile replace (nOrig _ S)) t (pureAttrs (nRules _ L) (nRules _ S) t).
Proof.
  intros L S t OL OS NE. unfold pureAttrs. destruct (tSts _ (fTrip _ t)) as [|s0 rest] eqn:E; [contradiction|]. constructor; cbn [lineFrom lineTo shortName].
  - exists s0, rest. split; [exact E|]. apply pureN_normalised. exact OS.
  - destruct (last_exists _ s0 rest) as (r & Er). exists (last rest s0), r. eexists. rewrite E, Er. split; [reflexivity|].
    split; [apply pureN_normalised; exact OS|reflexivity].
  - exists (pureN (nRules _ L) (fRShort _ t)), (pureN (nRules _ L) (fShort _ t)), (pureN (nRules _ L) (fRLong _ t)).
    do 3 (split; [apply pureN_normalised; exact OL|]). unfold pureName.
    split; [|split].
    + intros X. destruct (String.eqb_spec (pureN (nRules _ L) (fRShort _ t)) ""); [contradiction|reflexivity].
    + intros -> Y. cbn. destruct (String.eqb_spec (pureN (nRules _ L) (fShort _ t)) ""); [contradiction|reflexivity].
    + intros -> ->. reflexivity.
Qed.
Lemma trip_attrs_fun : forall L S (t : ftrip) a b, norm_ok L -> norm_ok S ->
  trip_attrs (normalised regex compile replace (nOrig _ L)) (normalised regex compile replace (nOrig _ S)) t a ->
  trip_attrs (normalised regex compile replace (nOrig _ L)) (normalised regex compile replace (nOrig _ S)) t b -> a = b.
Proof.
  intros L S t [na fa la] [nb fb lb] OL OS [F T N] [F' T' N']. cbn in *.
  destruct F as (s & r & E & Nf), F' as (s' & r' & E' & Nf'). rewrite E in E'. injection E' as <- <-.
  destruct T as (u & v & x & E2 & Nt & ->), T' as (u' & v' & x' & E2' & Nt' & ->). rewrite E2 in E2'. apply app_inj_tail in E2'. destruct E2' as [_ <-].
  destruct N as (a1 & b1 & c1 & A1 & B1 & C1 & D1 & D2 & D3), N' as (a2 & b2 & c2 & A2 & B2 & C2 & D1' & D2' & D3').
  pose proof (normalised_fun _ _ _ _ _ _ _ Nf Nf') as ->. pose proof (normalised_fun _ _ _ _ _ _ _ Nt Nt') as ->.
  pose proof (normalised_fun _ _ _ _ _ _ _ A1 A2) as ->. pose proof (normalised_fun _ _ _ _ _ _ _ B1 B2) as ->.
  pose proof (normalised_fun _ _ _ _ _ _ _ C1 C2) as ->. f_equal.
  destruct (string_dec a2 ""); [|rewrite D1, D1'; auto]. destruct (string_dec b2 ""); [rewrite D3, D3'|rewrite D2, D2']; auto.
Qed.

(** ** Selection *)
Lemma existsb_eqb : forall x l, existsb (Nat.eqb x) l = true <-> In x l.
Proof.
  intros x l. rewrite existsb_exists. split; [intros (y & I & E); apply Nat.eqb_eq in E; subst; exact I|].
  intros I. exists x. split; [exact I|apply Nat.eqb_refl].
Qed.
Lemma skipped_selected : forall o (t : ftrip), skipped pos o t = false <-> selected o t.
Proof.
  intros o t. unfold skipped, selected. rewrite !orb_false_iff, andb_false_iff, !negb_false_iff, Nat.ltb_ge, !existsb_eqb, String.eqb_eq. tauto.
Qed.
Definition chosen (o : copts) (ts : list ftrip) : list ftrip := filter (fun t => negb (skipped pos o t)) ts.
Lemma chosen_in : forall o ts t, In t (chosen o ts) <-> In t ts /\ selected o t.
Proof. intros o ts t. unfold chosen. rewrite filter_In, negb_true_iff, skipped_selected. tauto. Qed.
Lemma collect_val : forall o all L S, NoDup (map tOf all) -> forall ts st m, okSt all L S st -> (forall t, In t ts -> In t all) ->
  exists st', collect pos regex replace o st m (strip pos m) ts =
    Some (st', pushAll pos (map (fun t => (pureAttrs (nRules _ L) (nRules _ S) t, fTrip _ t)) (chosen o ts)) m,
          strip pos (pushAll pos (map (fun t => (pureAttrs (nRules _ L) (nRules _ S) t, fTrip _ t)) (chosen o ts)) m)) /\
    okSt all L S st' /\
    (forall t, In t (chosen o ts) -> exists a, tabGet (cTab _ st') (tOf t) = Some a) /\
    (forall i a, tabGet (cTab _ st) i = Some a -> tabGet (cTab _ st') i = Some a) /\
    (forall s v, cacheGet (nCache _ (cStat _ st)) s = Some v -> cacheGet (nCache _ (cStat _ st')) s = Some v).
Proof.
  intros o all L S ND. induction ts as [|t ts IH]; intros st m O Ia; cbn [collect].
  - exists st. split; [reflexivity|]. split; [exact O|]. split; [intros ? []|]. auto.
  - unfold chosen. cbn [filter]. fold (chosen o ts). destruct (skipped pos o t) eqn:Sk; cbn [negb].
    + apply IH; [exact O|]. intros t' I. apply Ia. right. exact I.
    + pose proof (proj1 (skipped_selected o t) Sk) as (_ & Len & _).
      assert (NE : tSts _ (fTrip _ t) <> []) by (intros X; rewrite X in Len; cbn in Len; lia).
      destruct (getRAttrs_val all L S st t O ND (Ia t (or_introl eq_refl)) NE) as (st1 & -> & O1 & T1 & M1 & C1).
      rewrite (mapClear_strip pos m _ (fTrip _ t)).
      destruct (IH st1 (mapPush pos m (pureAttrs (nRules _ L) (nRules _ S) t) (fTrip _ t)) O1) as (st' & -> & O' & T' & M' & C').
      { intros t' I. apply Ia. right. exact I. }
      exists st'. split; [reflexivity|]. split; [exact O'|]. split; [|split; auto].
      intros t' [<-|I]; [eauto|auto].
Qed.
End Attrs.

(** ** Schedules *)
Section Sched.
Variable pos : Type.
Variable near : pos -> pos -> bool.
Variable emptySecs : Z.
Notation trip := (trip pos).
Notation addSub := (addSub pos near emptySecs).
Notation runSched := (runSched pos near emptySecs).
Variable m : list (attrs * list trip).
Hypothesis Sm : sorted m.
Variable o : copts.
(** What the groups look like when the trips [D k] of group [k] have been added. *)
Definition stage (D : attrs -> list trip) : list (attrs * list (trie pos attrs)) :=
  map (fun g => (fst g, fold_left (addSub o (fst g)) (D (fst g)) [])) m.
Record inv (f : list (attrs * list (trie pos attrs))) (progs : list (list (cstep pos))) : Prop := {
  i_keys : forall w p k t, nth_error progs w = Some p -> In (k, t) p -> exists ts, In (k, ts) m;
  i_own : exists D, f = stage D /\ forall k ts, In (k, ts) m ->
    exists w p, nth_error progs w = Some p /\ ts = D k ++ ofKey pos k p /\
      forall w' p', w' <> w -> nth_error progs w' = Some p' -> ofKey pos k p' = []
}.
Lemma stage_sorted : forall D, sorted (stage D).
Proof.
  intros D. unfold stage. induction Sm as [|x l S IH F]; cbn; [constructor|]. constructor; [exact (IH S)|].
  rewrite Forall_forall in *. intros y I. apply in_map_iff in I. destruct I as (g & <- & I). cbn. apply F. exact I.
Qed.
Lemma ofKey_cons : forall k x l, ofKey pos k (x :: l) = (if eqv k (fst x) then [snd x] else []) ++ ofKey pos k l.
Proof. intros k x l. unfold ofKey. cbn. destruct (eqv k (fst x)); reflexivity. Qed.
Lemma upd_eq : forall A i (g : A -> A) (l : list A) x, nth_error l i = Some x -> nth_error (upd i g l) i = Some (g x).
Proof. intros A i g. induction i as [|i IH]; intros [|y l] x H; try discriminate; cbn in *; [congruence|auto]. Qed.
Lemma upd_ne : forall A i j (g : A -> A) (l : list A), j <> i -> nth_error (upd i g l) j = nth_error l j.
Proof. intros A i. induction i as [|i IH]; intros [|j] g [|y l] N; cbn; try reflexivity; try (exfalso; apply N; reflexivity). apply IH. congruence. Qed.
Lemma sched_step : forall f progs w k t rest, inv f progs -> nth_error progs w = Some ((k, t) :: rest) ->
  mapAt f k <> None /\ inv (mapUpd f k (fun sub => addSub o k sub t)) (upd w (fun _ => rest) progs).
Proof.
  intros f progs w k t rest [K (D & -> & Own)] W.
  destruct (K w _ k t W (or_introl eq_refl)) as (ts & Ik).
  assert (If : In (k, fold_left (addSub o k) (D k) []) (stage D)).
  { unfold stage. apply in_map_iff. exists (k, ts). split; [reflexivity|exact Ik]. }
  split; [rewrite (mapAt_in _ _ _ _ (stage_sorted D) If); discriminate|].
  rewrite (mapUpd_map _ _ _ _ _ (stage_sorted D) If). constructor.
  - intros w' p k' t' Hp I. destruct (Nat.eq_dec w' w) as [->|N].
    + rewrite (upd_eq _ _ _ _ _ W) in Hp. injection Hp as <-. apply (K w _ k' t' W). right. exact I.
    + rewrite upd_ne in Hp by exact N. exact (K w' p k' t' Hp I).
  - exists (fun k' => if eqv k k' then D k' ++ [t] else D k'). split.
    + unfold stage. rewrite map_map. apply map_ext_in. intros (k', ts') I'. cbn [fst snd]. f_equal.
      destruct (eqv k k') eqn:E; [|reflexivity]. apply eqv_iff in E. destruct (sorted_in_eq _ _ _ _ _ _ Sm Ik I' E) as (<- & _).
      rewrite fold_left_app. reflexivity.
    + intros k2 ts2 I2. destruct (Own k2 ts2 I2) as (w2 & p2 & W2 & E2 & O2). destruct (eqv k k2) eqn:E.
      * assert (w2 = w) as ->.
        { destruct (Nat.eq_dec w w2) as [->|N]; [reflexivity|]. specialize (O2 w _ N W). rewrite ofKey_cons in O2. cbn in O2.
          rewrite eqv_sym, E in O2. discriminate. }
        rewrite W in W2. injection W2 as <-. exists w, rest. split; [exact (upd_eq _ _ _ _ _ W)|]. split.
        -- rewrite E2, ofKey_cons. cbn [fst snd]. rewrite eqv_sym, E, <- app_assoc. reflexivity.
        -- intros w' p' N Hp. rewrite upd_ne in Hp by exact N. exact (O2 w' p' N Hp).
      * destruct (Nat.eq_dec w2 w) as [->|N].
        -- rewrite W in W2. injection W2 as <-. exists w, rest. split; [exact (upd_eq _ _ _ _ _ W)|]. split.
           ++ rewrite E2, ofKey_cons. cbn [fst snd]. rewrite eqv_sym, E. reflexivity.
           ++ intros w' p' N Hp. rewrite upd_ne in Hp by exact N. exact (O2 w' p' N Hp).
        -- exists w2, p2. split; [rewrite upd_ne by exact N; exact W2|]. split; [exact E2|].
           intros w' p' N' Hp. destruct (Nat.eq_dec w' w) as [->|N''].
           ++ rewrite (upd_eq _ _ _ _ _ W) in Hp. injection Hp as <-. specialize (O2 w _ N' W). rewrite ofKey_cons in O2.
              apply app_eq_nil in O2. apply O2.
           ++ rewrite upd_ne in Hp by exact N''. exact (O2 w' p' N' Hp).
Qed.
Lemma runSched_inv : forall sched f progs, inv f progs -> exists f' progs', runSched o f progs sched = Some (f', progs') /\ inv f' progs'.
Proof.
  induction sched as [|w sched IH]; intros f progs H; cbn [Cluster_model.runSched]; [eauto|].
  destruct (nth_error progs w) as [[|(k, t) rest]|] eqn:W; auto.
  destruct (sched_step f progs w k t rest H W) as (N & H'). destruct (mapAt f k); [|contradiction]. auto.
Qed.
(** The final forest does not mention the schedule. *)
Definition final : list (attrs * list (trie pos attrs)) := stage (fun k => match mapAt m k with Some ts => ts | None => [] end).
Lemma inv_done : forall f progs, inv f progs -> (forall p, In p progs -> p = []) -> f = final.
Proof.
  intros f progs [_ (D & -> & Own)] E. apply map_ext_in. intros (k, ts) I. cbn [fst]. f_equal. f_equal.
  rewrite (mapAt_in _ _ _ _ Sm I). destruct (Own k ts I) as (w & p & W & -> & _). rewrite (E p (nth_error_In _ _ W)). cbn. rewrite app_nil_r. reflexivity.
Qed.

Definition stepsFor (p : list attrs) : list (cstep pos) :=
  flat_map (fun k => match mapAt m k with Some ts => map (fun t => (k, t)) ts | None => [] end) p.
Lemma workerSteps_val : forall p, (forall k, In k p -> In k (map fst m)) -> workerSteps pos m p = Some (stepsFor p).
Proof.
  induction p as [|k p IH]; intros H; cbn; [reflexivity|]. rewrite IH by (intros; apply H; right; assumption).
  assert (I : In k (map fst m)) by (apply H; left; reflexivity). apply in_map_iff in I. destruct I as ((k', ts) & Ek & I). cbn in Ek. subst k'.
  rewrite (mapAt_in _ _ _ _ Sm I). reflexivity.
Qed.
Lemma allSteps_val : forall ps, (forall k, In k (concat ps) -> In k (map fst m)) -> allSteps pos m ps = Some (map stepsFor ps).
Proof.
  induction ps as [|p ps IH]; intros H; cbn; [reflexivity|]. rewrite workerSteps_val, IH; [reflexivity| |].
  - intros k I. apply H. cbn. apply in_or_app. auto.
  - intros k I. apply H. cbn. apply in_or_app. auto.
Qed.
Lemma keys_nodup : NoDup (map fst m).
Proof.
  pose proof Sm as X. clear Sm. induction X as [|x l S IH F]; cbn; [constructor|]. constructor; [|auto].
  rewrite Forall_forall in F. intros I. apply in_map_iff in I. destruct I as (y & E & I). specialize (F y I). rewrite E, attrsLt_irrefl in F. discriminate.
Qed.
Lemma ofKey_map : forall k k' (ts : list trip), ofKey pos k (map (fun t => (k', t)) ts) = if eqv k k' then ts else [].
Proof.
  intros k k' ts. induction ts as [|t ts IH]; cbn [map]; [destruct (eqv k k'); reflexivity|]. rewrite ofKey_cons, IH. cbn.
  destruct (eqv k k'); reflexivity.
Qed.
Lemma steps_own : forall p k ts, In (k, ts) m -> (forall k', In k' p -> In k' (map fst m)) -> NoDup p ->
  (In k p -> ofKey pos k (stepsFor p) = ts) /\ (~ In k p -> ofKey pos k (stepsFor p) = []).
Proof.
  intros p k ts I. induction p as [|k' p IH]; intros H ND; cbn [stepsFor flat_map]; [split; [intros []|reflexivity]|].
  rewrite ofKey_app. fold (stepsFor p). inversion ND as [|? ? N1 N2]; subst.
  destruct IH as (IH1 & IH2); [intros; apply H; right; assumption|exact N2|].
  assert (I' : In k' (map fst m)) by (apply H; left; reflexivity). apply in_map_iff in I'. destruct I' as ((k2, ts') & Ek & I'). cbn in Ek. subst k2.
  rewrite (mapAt_in _ _ _ _ Sm I'), ofKey_map. destruct (eqv k k') eqn:E.
  - apply eqv_iff in E. destruct (sorted_in_eq _ _ _ _ _ _ Sm I I' E) as (<- & <-). split; [intros _|intros X; exfalso; apply X; left; reflexivity].
    rewrite IH2 by exact N1. apply app_nil_r.
  - split.
    + intros [->|Ip]; [rewrite eqv_refl in E; discriminate|]. cbn. auto.
    + intros X. cbn. apply IH2. intros Y. apply X. right. exact Y.
Qed.
Lemma nodup_app : forall A (a b : list A), NoDup (a ++ b) -> NoDup a /\ NoDup b /\ forall x, In x a -> ~ In x b.
Proof.
  intros A a b. induction a as [|x a IH]; cbn; intros H; [split; [constructor|split; [exact H|intros ? []]]|].
  inversion H as [|? ? N1 N2]; subst. destruct (IH N2) as (Ha & Hb & Hd). split; [constructor; [intros X; apply N1; apply in_or_app; auto|exact Ha]|].
  split; [exact Hb|]. intros y [<-|I] Ib; [apply N1; apply in_or_app; auto|exact (Hd y I Ib)].
Qed.
Lemma nodup_parts : forall A (ps : list (list A)), NoDup (concat ps) ->
  (forall p, In p ps -> NoDup p) /\ forall i j p q x, nth_error ps i = Some p -> nth_error ps j = Some q -> In x p -> In x q -> i = j.
Proof.
  intros A ps. induction ps as [|p ps IH]; cbn; intros H; [split; [intros ? []|intros [|i]; discriminate]|].
  apply nodup_app in H. destruct H as (Hp & Hs & Hd). destruct (IH Hs) as (A1 & A2). split; [intros q [<-|I]; auto|].
  assert (X : forall j q x, nth_error ps j = Some q -> In x q -> In x (concat ps)) by (intros j q x J I; apply in_concat; exists q; split; [exact (nth_error_In _ _ J)|exact I]).
  intros [|i] [|j] a b x Hi Hj Ia Ib; cbn in Hi, Hj; [reflexivity| | |f_equal; eauto].
  - injection Hi as <-. exfalso. exact (Hd x Ia (X _ _ _ Hj Ib)).
  - injection Hj as <-. exfalso. exact (Hd x Ib (X _ _ _ Hi Ia)).
Qed.
Lemma inv_init : forall ps, Permutation (concat ps) (map fst m) -> inv (strip pos m) (map stepsFor ps).
Proof.
  intros ps P.
  assert (ND : NoDup (concat ps)) by (eapply Permutation_NoDup; [symmetry; exact P|exact keys_nodup]).
  destruct (nodup_parts _ ps ND) as (Np & Nu).
  assert (Hk : forall w p, nth_error ps w = Some p -> forall k, In k p -> In k (map fst m)).
  { intros w p W k I. eapply Permutation_in; [exact P|]. apply in_concat. exists p. split; [exact (nth_error_In _ _ W)|exact I]. }
  constructor.
  - intros w p k t W I. rewrite nth_error_map in W. destruct (nth_error ps w) as [q|] eqn:Wq; [|discriminate]. injection W as <-.
    unfold stepsFor in I. apply in_flat_map in I. destruct I as (k' & Ik & I). pose proof (Hk w q Wq k' Ik) as Im.
    apply in_map_iff in Im. destruct Im as ((k2, ts) & Ek & Im). cbn in Ek. subst k2. rewrite (mapAt_in _ _ _ _ Sm Im) in I.
    apply in_map_iff in I. destruct I as (t' & E & _). injection E as <- <-. eauto.
  - exists (fun _ => []). split; [unfold stage, strip; apply map_ext; reflexivity|]. intros k ts I.
    assert (Ic : In k (concat ps)).
    { eapply Permutation_in; [symmetry; exact P|]. apply in_map_iff. exists (k, ts). auto. }
    apply in_concat in Ic. destruct Ic as (p & Ip & Ikp). apply In_nth_error in Ip. destruct Ip as (w & W).
    exists w, (stepsFor p). split; [rewrite nth_error_map, W; reflexivity|]. split.
    + cbn. symmetry. apply (steps_own p k ts I (Hk w p W)); [apply Np; exact (nth_error_In _ _ W)|exact Ikp].
    + intros w' p' N W'. rewrite nth_error_map in W'. destruct (nth_error ps w') as [q|] eqn:Wq; [|discriminate]. injection W' as <-.
      apply (steps_own q k ts I (Hk w' q Wq)); [apply Np; exact (nth_error_In _ _ Wq)|]. intros Ikq. apply N. exact (Nu _ _ _ _ _ Wq W Ikq Ikp).
Qed.
End Sched.

(** ** Adding trips to the tries of a group *)
Section Sub.
Variable pos : Type.
Variable near : pos -> pos -> bool.
Variable emptySecs : Z.
Notation trip := (trip pos).
Notation trie := (trie pos attrs).
Notation addTrip := (addTrip pos near attrs mergeAttrs emptySecs).
Notation addSub := (addSub pos near emptySecs).
Notation runCalls := (runCalls pos near attrs mergeAttrs emptySecs).
Definition ids (tr : trie) : list nat := flat_map snd (ndTrips _ _ tr).
Lemma pushAt_perm : forall m k v, Permutation (flat_map snd (pushAt m k v)) (flat_map snd m ++ [v]).
Proof.
  induction m as [|(k', vs) m IH]; intros k v; cbn; [apply Permutation_refl|]. destruct (k' =? k); cbn.
  - rewrite <- !app_assoc. apply Permutation_app_head. apply Permutation_app_comm.
  - rewrite <- app_assoc. apply Permutation_app_head. apply IH.
Qed.
Lemma addTrip_ids : forall tr t a tex dg tr' ok, addTrip tr t a tex dg = (tr', ok) ->
  Permutation (ids tr') (ids tr ++ if ok then [tId _ t] else []).
Proof.
  intros tr t a tex dg tr' ok H. unfold ids. unfold TripTrie_model.addTrip, add in H.
  assert (R : forall x : list nat, Permutation x (x ++ [])) by (intros; rewrite app_nil_r; apply Permutation_refl).
  destruct dg; cbn [negb] in H.
  - destruct (nth_error (nds _ _ tr) _) as [nd|]; [|injection H as <- <-; apply R].
    destruct (negb _ && _); injection H as <- <-; [apply pushAt_perm|apply R].
  - destruct (tSts _ t) as [|s sts]; [injection H as <- <-; apply R|].
    destruct (addLoop _ _ _ _ _ _ _ _ _ _ _ _) as (l & [n|]); injection H as <- <-; [apply pushAt_perm|apply R].
Qed.
Lemma addLoop_free : forall sts l cur start a tex first,
  exists l' n, addLoop pos near attrs mergeAttrs l cur start a tex false first sts = (l', Some n).
Proof.
  induction sts as [|s sts IH]; intros l cur start a tex first; cbn [addLoop]; [eauto|].
  destruct (if first then _ else _) as (l1, cur1). destruct sts as [|s2 sts]; [eauto|].
  rewrite andb_false_r. destruct (visit _ _ _ _ _ _ _ _ _ _ _) as (l2, cur2). apply IH.
Qed.
Lemma addTrip_empty : forall t a tex, tSts _ t <> [] -> snd (addTrip (emptyTrie pos attrs) t a tex false) = true.
Proof.
  intros t a tex N. unfold TripTrie_model.addTrip, add. cbn [negb]. destruct (tSts _ t) as [|s sts] eqn:E; [contradiction|].
  cbn [emptyTrie tripNds length Nat.eqb negb]. destruct (addLoop_free (s :: sts) (nds _ _ (emptyTrie pos attrs)) 0 (startSecs pos t) a tex true) as (l' & n & E').
  rewrite E'. reflexivity.
Qed.

(** Histories of a trie of group [k] over the trips [T]. *)
Definition callOk (o : copts) (k : attrs) (T : list trip) (c : call pos attrs) : Prop :=
  cAttrs _ _ c = k /\ cTimeEx _ _ c = oTimeEx o /\ In (cTrip _ _ c) T.
Definition built (o : copts) (k : attrs) (T : list trip) (tr : trie) : Prop :=
  exists cs rs, runCalls (emptyTrie pos attrs) cs = (tr, rs) /\ (forall c, In c cs -> callOk o k T c) /\
    ndTrips _ _ tr <> [] /\ length cs <= length T.
Lemma runCalls_snoc : forall cs tr c tr1 rs, runCalls tr cs = (tr1, rs) ->
  runCalls tr (cs ++ [c]) = (fst (addTrip tr1 (cTrip _ _ c) (cAttrs _ _ c) (cTimeEx _ _ c) (cDegen _ _ c)),
    rs ++ [snd (addTrip tr1 (cTrip _ _ c) (cAttrs _ _ c) (cTimeEx _ _ c) (cDegen _ _ c))]).
Proof.
  induction cs as [|d cs IH]; intros tr c tr1 rs H; cbn [TripTrie_model.runCalls app] in *.
  - injection H as <- <-. destruct (addTrip tr _ _ _ _) as (tr2, r). reflexivity.
  - destruct (addTrip tr (cTrip _ _ d) _ _ _) as (tr2, r). destruct (runCalls tr2 cs) as (tr3, rs3) eqn:E. injection H as <- <-.
    rewrite (IH _ c _ _ E). reflexivity.
Qed.
Lemma built_mono : forall o k T t tr, built o k T tr -> built o k (T ++ [t]) tr.
Proof.
  intros o k T t tr (cs & rs & H & C & N & Ln). exists cs, rs. split; [exact H|]. split; [|split; [exact N|rewrite app_length; lia]].
  intros c I. destruct (C c I) as (A & B & D). split; [exact A|]. split; [exact B|]. apply in_or_app. auto.
Qed.
Lemma pushAt_nonempty : forall m k v, pushAt m k v <> [].
Proof. intros [|(k', vs) m] k v; cbn; [discriminate|]. destruct (k' =? k); discriminate. Qed.
Lemma addTrip_nd : forall tr t a tex dg tr' ok, addTrip tr t a tex dg = (tr', ok) -> (ndTrips _ _ tr <> [] \/ ok = true) -> ndTrips _ _ tr' <> [].
Proof.
  intros tr t a tex dg tr' ok H N. unfold TripTrie_model.addTrip, add in H. destruct dg; cbn [negb] in H.
  - destruct (nth_error (nds _ _ tr) _) as [nd|]; [destruct (negb _ && _)|]; injection H as <- <-; [apply pushAt_nonempty| |];
      destruct N as [N|N]; auto; discriminate N.
  - destruct (tSts _ t) as [|s sts]; [injection H as <- <-; destruct N as [N|N]; [exact N|discriminate N]|].
    destruct (addLoop _ _ _ _ _ _ _ _ _ _ _ _) as (l & [n|]); injection H as <- <-; [apply pushAt_nonempty|].
    destruct N as [N|N]; [exact N|discriminate N].
Qed.
Lemma built_step : forall o k T t dg tr, built o k T tr -> built o k (T ++ [t]) (fst (addTrip tr t k (oTimeEx o) dg)).
Proof.
  intros o k T t dg tr (cs & rs & H & C & N & Ln). destruct (addTrip tr t k (oTimeEx o) dg) as (tr', ok) eqn:E.
  exists (cs ++ [mkCall pos attrs t k (oTimeEx o) dg]). eexists. split; [rewrite (runCalls_snoc _ _ _ _ _ H); cbn [cTrip cAttrs cTimeEx cDegen]; rewrite E; reflexivity|].
  split; [|split; [exact (addTrip_nd _ _ _ _ _ _ _ E (or_introl N))|rewrite !app_length; cbn; lia]].
  intros c I. apply in_app_or in I. destruct I as [I|[<-|[]]].
  - destruct (C c I) as (A & B & D). split; [exact A|]. split; [exact B|]. apply in_or_app. auto.
  - split; [reflexivity|]. split; [reflexivity|]. apply in_elt.
Qed.
Lemma built_new : forall o k T t, tSts _ t <> [] -> built o k (T ++ [t]) (fst (addTrip (emptyTrie pos attrs) t k (oTimeEx o) false)).
Proof.
  intros o k T t NE. pose proof (addTrip_empty t k (oTimeEx o) NE) as A. destruct (addTrip (emptyTrie pos attrs) t k (oTimeEx o) false) as (tr', ok) eqn:E.
  cbn in A. subst ok. exists [mkCall pos attrs t k (oTimeEx o) false]. eexists. split; [cbn [TripTrie_model.runCalls cTrip cAttrs cTimeEx cDegen]; rewrite E; reflexivity|].
  split; [|split; [exact (addTrip_nd _ _ _ _ _ _ _ E (or_intror eq_refl))|rewrite app_length; cbn; lia]].
  intros c [<-|[]]. split; [reflexivity|]. split; [reflexivity|]. apply in_elt.
Qed.
Lemma tryTries_ok : forall o k T t sub s1 b, (forall tr, In tr sub -> built o k T tr) ->
  tryTries pos near emptySecs sub t k (oTimeEx o) (oNoTrie o) = (s1, b) ->
  (forall tr, In tr s1 -> built o k (T ++ [t]) tr) /\ Permutation (flat_map ids s1) (flat_map ids sub ++ if b then [tId _ t] else []).
Proof.
  intros o k T t. induction sub as [|tr sub IH]; intros s1 b B H; cbn [tryTries] in H.
  - injection H as <- <-. split; [intros ? []|apply Permutation_refl].
  - pose proof (built_step o k T t (oNoTrie o) tr (B tr (or_introl eq_refl))) as Bs.
    destruct (addTrip tr t k (oTimeEx o) (oNoTrie o)) as (tr1, ok) eqn:E. pose proof (addTrip_ids _ _ _ _ _ _ _ E) as P. cbn in Bs. destruct ok.
    + injection H as <- <-. split.
      * intros x [<-|I]; [exact Bs|]. apply built_mono. apply B. right. exact I.
      * cbn. rewrite P, <- !app_assoc. apply Permutation_app_head. apply Permutation_app_comm.
    + destruct (tryTries _ _ _ sub t k _ _) as (r1, b1) eqn:Er. injection H as <- <-.
      destruct (IH r1 b1 (fun x I => B x (or_intror I)) eq_refl) as (B1 & P1). split.
      * intros x [<-|I]; [exact Bs|exact (B1 x I)].
      * cbn. rewrite P, P1, app_nil_r, <- app_assoc. apply Permutation_refl.
Qed.
Lemma addSub_ok : forall o k T t sub, tSts _ t <> [] -> (forall tr, In tr sub -> built o k T tr) ->
  (forall tr, In tr (addSub o k sub t) -> built o k (T ++ [t]) tr) /\ Permutation (flat_map ids (addSub o k sub t)) (flat_map ids sub ++ [tId _ t]).
Proof.
  intros o k T t sub NE B. unfold Cluster_model.addSub. destruct (tryTries _ _ _ sub t k _ _) as (s1, b) eqn:E.
  destruct (tryTries_ok o k T t sub s1 b B E) as (B1 & P1). destruct b; [auto|]. split.
  - intros tr I. apply in_app_or in I. destruct I as [I|[<-|[]]]; [exact (B1 tr I)|]. apply built_new. exact NE.
  - rewrite flat_map_app. cbn [flat_map]. rewrite app_nil_r. rewrite P1, app_nil_r. apply Permutation_app_head.
    pose proof (addTrip_empty t k (oTimeEx o) NE) as A. destruct (addTrip (emptyTrie pos attrs) t k (oTimeEx o) false) as (tr', ok) eqn:E'.
    cbn in A. subst ok. exact (addTrip_ids _ _ _ _ _ _ _ E').
Qed.
Lemma addSubs_ok : forall o k ts, (forall t, In t ts -> tSts _ t <> []) ->
  (forall tr, In tr (fold_left (addSub o k) ts []) -> built o k ts tr) /\
  Permutation (flat_map ids (fold_left (addSub o k) ts [])) (map (tId _) ts).
Proof.
  intros o k ts. induction ts as [|t ts IH] using rev_ind; intros NE; [split; [intros ? []|apply Permutation_refl]|].
  rewrite fold_left_app, map_app. cbn [fold_left map]. destruct IH as (B & P); [intros x I; apply NE; apply in_or_app; auto|].
  destruct (addSub_ok o k ts t _ (NE t (in_elt _ _ _)) B) as (B' & P'). split; [exact B'|]. rewrite P'. apply Permutation_app_tail. exact P.
Qed.

(** ** The attributes at the nodes *)
Lemma merge_same : forall k x, lineTo k = [x] -> mergeAttrs k k = k.
Proof.
  intros [n f l] x E. cbn in E. subst l. unfold mergeAttrs. cbn [shortName lineFrom lineTo fold_left]. f_equal.
  unfold mergeOne. change (lowerBound (length [x]) [x] 0 (length [x]) x) with (if String.ltb x x then 1 else 0).
  rewrite ltb_irrefl. cbn [nth_error]. rewrite String.eqb_refl. reflexivity.
Qed.
Definition attrsAt (k : attrs) (l : list (node pos attrs)) : Prop := forall nd s, In nd l -> nRepr _ _ nd = Some s -> nAttrs _ _ nd = Some k.
Lemma upd_in : forall A i (g : A -> A) (l : list A) x, In x (upd i g l) -> In x l \/ exists y, In y l /\ x = g y.
Proof.
  intros A i g. induction i as [|i IH]; intros [|y l] x I; cbn in I; auto.
  - destruct I as [<-|I]; [right; exists y; split; [left; reflexivity|reflexivity]|left; right; exact I].
  - destruct I as [<-|I]; [left; left; reflexivity|]. destruct (IH l x I) as [H|(z & H & E)]; [left; right; exact H|right; exists z; split; [right; exact H|exact E]].
Qed.
Lemma visit_attrs : forall k x l cur s t arr tex, lineTo k = [x] -> attrsAt k l ->
  attrsAt k (fst (visit pos near attrs mergeAttrs l cur s k t arr tex)).
Proof.
  intros k x l cur s t arr tex Ex H. unfold visit. destruct (_ =? 0); cbn [fst insertNd]; intros nd r I R; apply upd_in in I.
  - destruct I as [I|(y & I & ->)]; apply in_app_or in I; destruct I as [I|[<-|[]]]; try reflexivity; exact (H _ r I R).
  - destruct I as [I|(y & I & ->)]; [exact (H _ r I R)|]. cbn in R |- *. rewrite (H _ r I R), (merge_same k x Ex). reflexivity.
Qed.
Lemma addLoop_attrs : forall k x start tex locked, lineTo k = [x] -> forall sts l cur first, attrsAt k l ->
  attrsAt k (fst (addLoop pos near attrs mergeAttrs l cur start k tex locked first sts)).
Proof.
  intros k x start tex locked Ex. induction sts as [|s sts IH]; intros l cur first H; cbn [addLoop]; [exact H|].
  assert (H1 : attrsAt k (fst (if first then (l, cur) else visit pos near attrs mergeAttrs l cur (stStop _ s) k (relTime start (stArr _ s)) true tex))).
  { destruct first; [exact H|]. apply (visit_attrs k x); assumption. }
  destruct (if first then _ else _) as (l1, cur1). cbn [fst] in H1. destruct sts as [|s2 sts]; [exact H1|].
  destruct (_ && first && locked); [exact H1|].
  pose proof (visit_attrs k x l1 cur1 (stStop _ s) (relTime start (stDep _ s)) false tex Ex H1) as H2.
  destruct (visit _ _ _ _ _ _ _ _ _ _ _) as (l2, cur2). apply IH. exact H2.
Qed.
Lemma addTrip_attrs : forall k x tr t tex dg, lineTo k = [x] -> attrsAt k (nds _ _ tr) -> attrsAt k (nds _ _ (fst (addTrip tr t k tex dg))).
Proof.
  intros k x tr t tex dg Ex H. unfold TripTrie_model.addTrip, add. destruct dg; cbn [negb].
  - destruct (nth_error (nds _ _ tr) _) as [nd|]; [|exact H]. destruct (negb _ && _); exact H.
  - destruct (tSts _ t) as [|s sts]; [exact H|].
    pose proof (addLoop_attrs k x (startSecs pos t) tex (negb (length (tripNds _ _ tr) =? 0)) Ex (s :: sts) (nds _ _ tr) 0 true H) as H1.
    destruct (addLoop _ _ _ _ _ _ _ _ _ _ _ _) as (l & [n|]); exact H1.
Qed.
Lemma built_attrs : forall o k x T tr, lineTo k = [x] -> built o k T tr -> attrsAt k (nds _ _ tr).
Proof.
  intros o k x T tr Ex (cs & rs & H & C & _).
  assert (G : forall cs tr0 tr rs, (forall c, In c cs -> callOk o k T c) -> attrsAt k (nds _ _ tr0) -> runCalls tr0 cs = (tr, rs) -> attrsAt k (nds _ _ tr)).
  { clear - Ex. induction cs as [|c cs IH]; intros tr0 tr rs C A H; cbn [TripTrie_model.runCalls] in H.
    - injection H as <- <-. exact A.
    - destruct (C c (or_introl eq_refl)) as (Ck & _). rewrite Ck in H.
      pose proof (addTrip_attrs k x tr0 (cTrip _ _ c) (cTimeEx _ _ c) (cDegen _ _ c) Ex A) as A1.
      destruct (addTrip tr0 (cTrip _ _ c) k _ _) as (tr1, r). destruct (runCalls tr1 cs) as (tr2, rs2) eqn:E. injection H as <- <-.
      exact (IH tr1 tr2 rs2 (fun d I => C d (or_intror I)) A1 E). }
  apply (G cs (emptyTrie pos attrs) tr rs C); [|exact H]. intros nd s [<-|[]] R. discriminate R.
Qed.

(** ** Tries without sharing *)
Definition pathTrie (l : list (node pos attrs)) : Prop :=
  forall i nd, nth_error l i = Some nd -> nChilds _ _ nd = if S i =? length l then [] else [S i].
Lemma visit_path : forall l s k t arr tex, pathTrie l -> l <> [] ->
  exists l', visit pos near attrs mergeAttrs l (length l - 1) s k t arr tex = (l', length l) /\ pathTrie l' /\ length l' = S (length l).
Proof.
  intros l s k t arr tex P N. assert (L : length l <> 0) by (intros X; apply length_zero_iff_nil in X; contradiction).
  unfold visit. assert (E : getMatchChild pos near attrs l (length l - 1) s t tex = 0).
  { unfold getMatchChild. destruct (nth_error l (length l - 1)) as [nd|] eqn:E; [|reflexivity]. rewrite (P _ nd E).
    replace (S (length l - 1)) with (length l) by lia. rewrite Nat.eqb_refl. reflexivity. }
  rewrite E. cbn [Nat.eqb]. eexists. split; [reflexivity|]. split.
  - intros i nd H. rewrite upd_length, app_length in *. cbn [length] in *. destruct (Nat.eq_dec i (length l - 1)) as [->|Ni].
    + destruct (nth_error l (length l - 1)) as [y|] eqn:Ey; [|apply nth_error_None in Ey; lia].
      rewrite (upd_eq _ _ _ _ y) in H by (rewrite nth_error_app1 by lia; exact Ey). injection H as <-. cbn [addChild nChilds].
      rewrite (P _ y Ey). replace (S (length l - 1)) with (length l) by lia. rewrite Nat.eqb_refl.
      destruct (Nat.eqb_spec (length l) (length l + 1)); [lia|reflexivity].
    + rewrite upd_ne in H by exact Ni. destruct (lt_dec i (length l)) as [Li|Li].
      * rewrite nth_error_app1 in H by lia. rewrite (P i nd H). destruct (Nat.eqb_spec (S i) (length l)); [lia|].
        destruct (Nat.eqb_spec (S i) (length l + 1)); [lia|reflexivity].
      * assert (i = length l) as -> by (assert (i < length l + 1); [|lia]; rewrite <- (app_length l [mkNode pos attrs (Some s) t arr t 1 (length l - 1) [] (Some k)]) at 1; apply nth_error_Some; rewrite H; discriminate).
        rewrite nth_error_app2, Nat.sub_diag in H by lia. injection H as <-. cbn [nChilds].
        destruct (Nat.eqb_spec (S (length l)) (length l + 1)); [reflexivity|lia].
  - rewrite upd_length, app_length. cbn [length]. lia.
Qed.
Lemma addLoop_path : forall k start tex sts l first, pathTrie l -> l <> [] -> exists l',
  addLoop pos near attrs mergeAttrs l (length l - 1) start k tex false first sts = (l', Some (length l' - 1)) /\ pathTrie l' /\ l' <> [].
Proof.
  intros k start tex. induction sts as [|s sts IH]; intros l first P N; cbn [addLoop]; [eauto|].
  assert (X : exists l1, (if first then (l, length l - 1) else visit pos near attrs mergeAttrs l (length l - 1) (stStop _ s) k (relTime start (stArr _ s)) true tex) = (l1, length l1 - 1) /\ pathTrie l1 /\ l1 <> []).
  { destruct first; [eauto|]. destruct (visit_path l (stStop _ s) k (relTime start (stArr _ s)) true tex P N) as (l1 & E & P1 & L1).
    exists l1. rewrite E. split; [f_equal; lia|]. split; [exact P1|]. intros ->. discriminate L1. }
  destruct X as (l1 & -> & P1 & N1). destruct sts as [|s2 sts]; [eauto|]. rewrite andb_false_r.
  destruct (visit_path l1 (stStop _ s) k (relTime start (stDep _ s)) false tex P1 N1) as (l2 & -> & P2 & L2).
  replace (length l1) with (length l2 - 1) by lia. apply IH; [exact P2|]. intros ->. discriminate L2.
Qed.
(** All trips of the trie are listed at the last node of the path. *)
Definition single (tr : trie) : Prop := pathTrie (nds _ _ tr) /\ exists vs, ndTrips _ _ tr = [(length (nds _ _ tr) - 1, vs)].
Lemma single_new : forall t k tex, tSts _ t <> [] -> single (fst (addTrip (emptyTrie pos attrs) t k tex false)).
Proof.
  intros t k tex NE. unfold TripTrie_model.addTrip, add. cbn [negb]. destruct (tSts _ t) as [|s sts] eqn:E; [contradiction|].
  cbn [emptyTrie nds tripNds ndTrips length Nat.eqb negb]. destruct (addLoop_path k (startSecs pos t) tex (s :: sts) [root pos attrs] true) as (l' & E' & P & N).
  - intros [|[|i]] nd H; cbn in H; try discriminate. injection H as <-. reflexivity.
  - discriminate.
  - cbn [length] in E'. change (1 - 1) with 0 in E'. rewrite E'. cbn [fst nds ndTrips]. split; [exact P|]. eexists. reflexivity.
Qed.
Lemma single_add : forall t k tex tr, single tr -> single (fst (addTrip tr t k tex true)).
Proof.
  intros t k tex tr (P & vs & E). unfold TripTrie_model.addTrip. cbn [negb].
  destruct (nth_error (nds _ _ tr) (getTrip _ _ _ _ _ _ _)) as [nd|] eqn:En; [|split; [exact P|exists vs; exact E]].
  destruct (negb (_ =? 0) && _) eqn:B; [|split; [exact P|exists vs; exact E]]. apply andb_prop in B. destruct B as [_ B].
  unfold single. cbn [fst nds ndTrips]. split; [exact P|]. rewrite E. pose proof (P _ nd En) as Pc.
  assert (X : S (getTrip pos near attrs emptySecs tr t tex) = length (nds _ _ tr)).
  { destruct (Nat.eqb_spec (S (getTrip pos near attrs emptySecs tr t tex)) (length (nds _ _ tr))) as [e|e]; [exact e|].
    rewrite Pc in B. discriminate B. }
  cbn [pushAt]. replace (length (nds _ _ tr) - 1) with (getTrip pos near attrs emptySecs tr t tex) by lia. rewrite Nat.eqb_refl. eexists. reflexivity.
Qed.
Lemma addSub_single : forall o k sub t, oNoTrie o = true -> tSts _ t <> [] -> (forall tr, In tr sub -> single tr) ->
  forall tr, In tr (addSub o k sub t) -> single tr.
Proof.
  intros o k sub t No NE H. unfold Cluster_model.addSub. rewrite No.
  assert (X : forall sub s1 b, (forall tr, In tr sub -> single tr) -> tryTries pos near emptySecs sub t k (oTimeEx o) true = (s1, b) -> forall tr, In tr s1 -> single tr).
  { clear. induction sub as [|tr sub IH]; intros s1 b H E; cbn [tryTries] in E; [injection E as <- <-; intros ? []|].
    pose proof (single_add t k (oTimeEx o) tr (H tr (or_introl eq_refl))) as Sg. destruct (addTrip tr t k (oTimeEx o) true) as (tr1, ok).
    cbn in Sg. destruct ok.
    - injection E as <- <-. intros x [<-|I]; [exact Sg|apply H; right; exact I].
    - destruct (tryTries _ _ _ sub t k _ _) as (r1, b1) eqn:Er. injection E as <- <-. intros x [<-|I]; [exact Sg|].
      exact (IH r1 b1 (fun y J => H y (or_intror J)) eq_refl x I). }
  destruct (tryTries _ _ _ sub t k _ _) as (s1, b) eqn:E. pose proof (X _ _ _ H E) as Y. destruct b; [exact Y|].
  intros tr I. apply in_app_or in I. destruct I as [I|[<-|[]]]; [exact (Y tr I)|]. apply single_new. exact NE.
Qed.
Lemma addSubs_single : forall o k ts, oNoTrie o = true -> (forall t, In t ts -> tSts _ t <> []) ->
  forall tr, In tr (fold_left (addSub o k) ts []) -> single tr.
Proof.
  intros o k ts No. induction ts as [|t ts IH] using rev_ind; intros NE; [intros ? []|].
  rewrite fold_left_app. cbn [fold_left]. apply addSub_single; [exact No|apply NE; apply in_elt|]. apply IH. intros x I. apply NE. apply in_or_app. auto.
Qed.
End Sub.

(** ** Clustering *)
Section Main.
Variable pos : Type.
Variable near : pos -> pos -> bool.
Variable emptySecs : Z.
Variable regex : Type.
Variable compile : string -> option regex.
Variable replace : regex -> string -> string -> string.
Notation norm_ok := (norm_ok regex compile replace).
Notation clusterTrips := (clusterTrips pos near emptySecs regex replace).
Notation normalised := (normalised regex compile replace).
Notation ftrip := (ftrip pos).

Lemma listed_perm : forall o (m : list (attrs * list (trip pos))), (forall k ts t, In (k, ts) m -> In t ts -> tSts _ t <> []) -> sorted m ->
  Permutation (listed (final pos near emptySecs m o)) (map (tId _) (flat_map snd m)).
Proof.
  intros o m NE Sm. unfold final, stage, listed.
  assert (G : forall l, (forall g, In g l -> In g m) ->
    Permutation (flat_map (fun g => flat_map (fun tr => flat_map snd (ndTrips _ _ tr)) (snd g))
      (map (fun g => (fst g, fold_left (addSub pos near emptySecs o (fst g)) (match mapAt m (fst g) with Some ts => ts | None => [] end) [])) l)) (map (tId _) (flat_map snd l))).
  { induction l as [|(k, ts) l IH]; intros H; cbn [map flat_map fst snd]; [apply Permutation_refl|].
    rewrite map_app. apply Permutation_app; [|apply IH; intros g I; apply H; right; exact I].
    assert (I : In (k, ts) m) by (apply H; left; reflexivity). rewrite (mapAt_in _ _ _ _ Sm I).
    apply (addSubs_ok pos near emptySecs o k ts). intros t It. exact (NE k ts t I It). }
  apply G. auto.
Qed.
Lemma ofKey_in : forall k (xs : list (attrs * trip pos)) t, In t (ofKey pos k xs) <-> exists a, In (a, t) xs /\ same_group k a.
Proof.
  intros k xs t. unfold ofKey. rewrite in_map_iff. split.
  - intros ((a, t') & E & I). cbn in E. subst t'. apply filter_In in I. destruct I as (I & E). exists a. split; [exact I|]. apply eqv_iff. exact E.
  - intros (a & I & G). exists (a, t). split; [reflexivity|]. apply filter_In. split; [exact I|]. apply eqv_iff. exact G.
Qed.
Lemma perm_split : forall A (f : A -> bool) l, Permutation l (filter f l ++ filter (fun x => negb (f x)) l).
Proof.
  intros A f l. induction l as [|x l IH]; cbn; [constructor|]. destruct (f x); cbn; [constructor; exact IH|].
  apply Permutation_cons_app. exact IH.
Qed.
(** The trips of all groups are the trips, each once. *)
Lemma groups_perm : forall (m : list (attrs * list (trip pos))) xs, sorted m -> (forall k ts, In (k, ts) m -> ts = ofKey pos k xs) ->
  (forall x, In x xs -> exists k ts, In (k, ts) m /\ same_group (fst x) k) -> Permutation (flat_map snd m) (map snd xs).
Proof.
  intros m. induction m as [|(k, ts) m IH]; intros xs Sm G C; cbn [flat_map snd].
  - destruct xs as [|x xs]; [constructor|]. destruct (C x (or_introl eq_refl)) as (k & ts & [] & _).
  - inversion Sm as [|? ? Sm' F]; subst. rewrite Forall_forall in F.
    assert (Nk : forall k' ts', In (k', ts') m -> ~ same_group k k').
    { intros k' ts' I X. specialize (F _ I). cbn in F. rewrite (same_lt _ _ _ X), attrsLt_irrefl in F. discriminate. }
    rewrite (G k ts (or_introl eq_refl)).
    etransitivity; [|apply Permutation_map; symmetry; apply (perm_split _ (fun x => eqv k (fst x)))]. rewrite map_app.
    apply Permutation_app; [apply Permutation_refl|]. apply IH; [exact Sm'| |].
    + intros k' ts' I. rewrite (G k' ts' (or_intror I)). unfold ofKey. f_equal.
      assert (Nk' := Nk k' ts' I). clear - Nk'. induction xs as [|x xs IH]; cbn; [reflexivity|].
      destruct (eqv k' (fst x)) eqn:E, (eqv k (fst x)) eqn:E2; cbn; try rewrite E; try (f_equal; exact IH); try exact IH.
      exfalso. apply Nk'. apply eqv_iff in E. apply eqv_iff in E2. exact (same_group_trans _ _ _ E2 (same_group_sym _ _ E)).
    + intros x I. apply filter_In in I. destruct I as (I & E). apply negb_true_iff in E. destruct (C x I) as (k' & ts' & [X|I'] & G').
      * injection X as <- <-. exfalso. apply same_group_sym in G'. apply eqv_iff in G'. congruence.
      * eauto.
Qed.

Lemma fold_norm_ok : forall names n, norm_ok n ->
  sameN regex compile replace n (fold_left (fun m (s : stop pos) => snd (norm regex replace m (sName _ s))) names n).
Proof.
  induction names as [|s names IH]; intros n O; cbn; [apply sameN_refl; exact O|].
  destruct (norm_val regex compile replace n (sName _ s) O) as (_ & S1). eapply sameN_trans; [exact S1|]. apply IH. apply S1.
Qed.
Definition chosenPairs o (L S : normalizer regex) (ts : list ftrip) :=
  map (fun t => (pureAttrs pos regex replace (nRules _ L) (nRules _ S) t, fTrip _ t)) (chosen pos o ts).
Definition result o L S (ts : list ftrip) := final pos near emptySecs (pushAll pos (chosenPairs o L S ts) []) o.

Lemma chosen_split : forall o ts l x r, chosen pos o ts = l ++ x :: r -> exists pre post, ts = pre ++ x :: post /\
  (forall t, In t pre -> selected o t -> In t l) /\ selected o x.
Proof.
  intros o ts. induction ts as [|t ts IH]; intros l x r H; [destruct l; discriminate H|]. unfold chosen in H. cbn [filter] in H. fold (chosen pos o ts) in H.
  destruct (skipped pos o t) eqn:E; cbn [negb] in H.
  - destruct (IH l x r H) as (pre & post & -> & A & B). exists (t :: pre), post. split; [reflexivity|]. split; [|exact B].
    intros t' [<-|I] Se; [apply skipped_selected in Se; congruence|exact (A t' I Se)].
  - destruct l as [|y l]; cbn in H; injection H as <- H.
    + exists [], ts. split; [reflexivity|]. split; [intros ? []|]. apply skipped_selected. exact E.
    + destruct (IH l x r H) as (pre & post & -> & A & B). exists (t :: pre), post. split; [reflexivity|]. split; [|exact B].
      intros t' [<-|I] Se; [left; reflexivity|right; exact (A t' I Se)].
Qed.
Lemma nodup_filter : forall A B (g : A -> B) f l, NoDup (map g l) -> NoDup (map g (filter f l)).
Proof.
  intros A B g f l. induction l as [|x l IH]; cbn; intros H; [constructor|]. inversion H as [|? ? N1 N2]; subst.
  destruct (f x); cbn; [constructor; [|auto]|auto]. intros I. apply N1. apply in_map_iff in I. destruct I as (y & E & I).
  apply filter_In in I. apply in_map_iff. exists y. split; [exact E|apply I].
Qed.
Lemma selected_long : forall o (t : ftrip), selected o t -> tSts _ (fTrip _ t) <> [].
Proof. intros o t (_ & L & _) X. rewrite X in L. cbn in L. lia. Qed.
Lemma result_clustered : forall o L S ts, norm_ok L -> norm_ok S -> NoDup (map (tOf pos) ts) ->
  clustered near emptySecs (normalised (nOrig _ L)) (normalised (nOrig _ S)) o ts (result o L S ts).
Proof.
  intros o L S ts OL OS ND. unfold result. set (xs := chosenPairs o L S ts). set (m := pushAll pos xs []).
  destruct (pushAll_groups pos xs) as (Sm & G & C). fold m in Sm, G, C.
  assert (Xs : forall a t, In (a, t) xs -> exists ft, In ft ts /\ selected o ft /\ fTrip _ ft = t /\ a = pureAttrs pos regex replace (nRules _ L) (nRules _ S) ft).
  { intros a t I. apply in_map_iff in I. destruct I as (ft & E & I). injection E as <- <-. apply chosen_in in I. exists ft. tauto. }
  assert (Gt : forall k us t, In (k, us) m -> In t us -> exists ft, In ft ts /\ selected o ft /\ fTrip _ ft = t /\
     same_group (pureAttrs pos regex replace (nRules _ L) (nRules _ S) ft) k).
  { intros k us t I It. destruct (G k us I) as (-> & _). apply ofKey_in in It. destruct It as (a & Ia & Ga).
    destruct (Xs a t Ia) as (ft & A & B & D & ->). exists ft. split; [exact A|]. split; [exact B|]. split; [exact D|]. apply same_group_sym. exact Ga. }
  assert (NE : forall k us t, In (k, us) m -> In t us -> tSts _ t <> []).
  { intros k us t I It. destruct (Gt k us t I It) as (ft & _ & Se & <- & _). exact (selected_long o ft Se). }
  assert (Fi : forall k tries, In (k, tries) (final pos near emptySecs m o) -> exists us, In (k, us) m /\ tries = fold_left (addSub pos near emptySecs o k) us []).
  { intros k tries I. unfold final, stage in I. apply in_map_iff in I. destruct I as ((k', us) & E & I). cbn [fst] in E.
    rewrite (mapAt_in _ _ _ _ Sm I) in E. injection E as <- <-. eauto. }
  assert (P : Permutation (listed (final pos near emptySecs m o)) (map (tOf pos) (chosen pos o ts))).
  { rewrite (listed_perm o m NE Sm). rewrite (groups_perm m xs Sm (fun k us I => proj1 (G k us I)) C).
    unfold xs, chosenPairs. rewrite !map_map. apply Permutation_refl. }
  assert (NDc : NoDup (map (tOf pos) (chosen pos o ts))) by (apply nodup_filter; exact ND).
  constructor.
  - split; [eapply Permutation_NoDup; [symmetry; exact P|exact NDc]|]. intros i. split.
    + intros I. apply (Permutation_in _ P) in I. apply in_map_iff in I. destruct I as (t & E & I). apply chosen_in in I. exists t. tauto.
    + intros (t & I & Se & E). apply (Permutation_in _ (Permutation_sym P)). apply in_map_iff. exists t. split; [exact E|]. apply chosen_in. auto.
  - intros i j k k' x x' Hi Hj Gk. exact (sorted_inv _ _ _ _ _ _ _ _ (stage_sorted pos near emptySecs m Sm o _) Hi Hj Gk).
  - intros k tries tr n ids t I It In_ Its Ii. destruct (Fi k tries I) as (us & Im & ->).
    assert (Iu : In (tId _ (fTrip _ t)) (map (tId _) us)).
    { apply (Permutation_in _ (proj2 (addSubs_ok pos near emptySecs o k us (fun t' It' => NE k us t' Im It')))).
      apply in_flat_map. exists tr. split; [exact It|]. unfold Cluster_proofs.ids. apply in_flat_map. exists (n, ids). auto. }
    apply in_map_iff in Iu. destruct Iu as (u & Eu & Iu). destruct (Gt k us u Im Iu) as (ft & Af & Sf & Ef & Gf).
    assert (ft = t) as ->.
    { assert (E : tOf pos ft = tOf pos t) by (unfold tOf; congruence). clear - ND Af Its E. induction ts as [|x ts IH]; [destruct Af|].
      cbn in ND. inversion ND as [|? ? N1 N2]; subst. destruct Af as [->|Af], Its as [->|Its]; auto.
      - exfalso. apply N1. rewrite E. apply in_map. exact Its.
      - exfalso. apply N1. rewrite <- E. apply in_map. exact Af. }
    eexists. split; [|exact Gf]. apply pureAttrs_spec; [exact OL|exact OS|exact (selected_long o t Sf)].
  - intros k tries I. destruct (Fi k tries I) as (us & Im & ->). destruct (G k us Im) as (_ & pre & t & post & Ex & Nx).
    unfold xs, chosenPairs in Ex. apply map_eq_app in Ex. destruct Ex as (l1 & l2 & Ec & E1 & E2).
    destruct l2 as [|ft l2]; [discriminate E2|]. cbn in E2. injection E2 as Ek Et E2.
    destruct (chosen_split o ts l1 ft l2 Ec) as (p1 & p2 & -> & A & B). exists p1, ft, p2. split; [reflexivity|]. split; [exact B|].
    assert (Tk : trip_attrs (normalised (nOrig _ L)) (normalised (nOrig _ S)) ft k).
    { rewrite <- Ek. apply pureAttrs_spec; [exact OL|exact OS|exact (selected_long o ft B)]. }
    split; [exact Tk|]. intros t' a I' Se' Ta Ga.
    apply (Nx (pureAttrs pos regex replace (nRules _ L) (nRules _ S) t', fTrip _ t')).
    + rewrite <- E1. apply in_map_iff. exists t'. split; [reflexivity|]. exact (A t' I' Se').
    + cbn [fst].
      rewrite (trip_attrs_fun pos regex compile replace L S t' _ a OL OS (pureAttrs_spec pos regex compile replace L S t' OL OS (selected_long o t' Se')) Ta).
      exact Ga.
  - intros k tries tr I It. destruct (Fi k tries I) as (us & Im & ->).
    destruct (proj1 (addSubs_ok pos near emptySecs o k us (fun t' It' => NE k us t' Im It')) tr It) as (cs & rs & R & Cs & _ & Ln).
    exists cs, rs. split; [exact R|]. split.
    { rewrite (proj1 (G k us Im)) in Ln. unfold ofKey, xs, chosenPairs in Ln. rewrite map_length in Ln.
      assert (Fl : forall A (g : A -> bool) l, length (filter g l) <= length l) by (intros A g l; induction l as [|z l IHl]; cbn; [lia|destruct (g z); cbn; lia]).
      etransitivity; [exact Ln|]. etransitivity; [apply Fl|]. rewrite map_length. apply Fl. }
    intros c Ic. destruct (Cs c Ic) as (X & Y & Z). split; [exact X|]. split; [exact Y|].
    destruct (Gt k us _ Im Z) as (ft & Af & Sf & Ef & _). exists ft. split; [exact Af|]. split; [exact Sf|]. symmetry. exact Ef.
  - intros k tries tr I. destruct (Fi k tries I) as (us & Im & ->).
    destruct (addSubs_ok pos near emptySecs o k us (fun t' It' => NE k us t' Im It')) as (B & Pu). split.
    + intros X. rewrite X in Pu. cbn in Pu. apply Permutation_nil in Pu. apply map_eq_nil in Pu.
      exact (pushAll_keys_nonempty pos xs k us Im Pu).
    + intros It. destruct (B tr It) as (cs & rs & _ & _ & N & _). exact N.
  - intros k tries tr nd s I It Ind R. destruct (Fi k tries I) as (us & Im & ->).
    assert (exists x, lineTo k = [x]) as (x & Ex).
    { destruct (G k us Im) as (_ & pre & t & post & Exs & _). destruct (Xs k t) as (ft & _ & Sf & _ & ->); [rewrite Exs; apply in_elt|].
      unfold pureAttrs. destruct (tSts _ (fTrip _ ft)) eqn:E; [exfalso; exact (selected_long o ft Sf E)|]. eexists. reflexivity. }
    exact (built_attrs pos near emptySecs o k x us tr Ex (proj1 (addSubs_ok pos near emptySecs o k us (fun t' It' => NE k us t' Im It')) tr It) nd s Ind R).
  - intros No k tries tr I It. destruct (Fi k tries I) as (us & Im & ->).
    destruct (addSubs_single pos near emptySecs o k us No (fun t' It' => NE k us t' Im It') tr It) as (_ & vs & E). rewrite E. reflexivity.
Qed.

(** Some schedule runs all workers to the end. *)
Lemma complete_schedule : forall m o, sorted m -> forall n f progs, length (concat progs) = n -> inv pos near emptySecs m o f progs ->
  exists sched f' rest, runSched pos near emptySecs o f progs sched = Some (f', rest) /\ (forall p, In p rest -> p = []).
Proof.
  intros m o Sm. induction n as [|n IH]; intros f progs L H.
  - exists [], f, progs. split; [reflexivity|]. intros p I. apply length_zero_iff_nil in L. destruct p as [|x p]; [reflexivity|].
    exfalso. assert (In x (concat progs)) as X by (apply in_concat; exists (x :: p); split; [exact I|left; reflexivity]). rewrite L in X. exact X.
  - assert (exists w x p, nth_error progs w = Some (x :: p)) as (w & (k, t) & p & W).
    { clear - L. induction progs as [|[|x p] progs IH]; [discriminate L| |exists 0, x, p; reflexivity].
      cbn in L. destruct (IH L) as (w & y & q & W). exists (Datatypes.S w), y, q. exact W. }
    destruct (sched_step pos near emptySecs m Sm o f progs w k t p H W) as (N & H').
    assert (Ln : length (concat (upd w (fun _ => p) progs)) = n).
    { destruct (upd_split _ progs w _ W (fun _ => p)) as (a & b & E1 & E2 & _). rewrite E2. rewrite E1 in L.
      rewrite concat_app, app_length in *. cbn [concat app length] in *. rewrite app_length in *. cbn [length] in L. lia. }
    destruct (IH _ _ Ln H') as (sched & f' & rest & R & E). exists (w :: sched), f', rest. split; [|exact E].
    cbn [Cluster_model.runSched]. rewrite W. destruct (mapAt f k); [exact R|contradiction].
Qed.

Lemma cluster_main : forall o st f, norm_ok (cLine _ st) -> norm_ok (cStat _ st) -> cTab _ st = [] ->
  NoDup (map (tOf pos) (fTrips _ f)) -> 0 < oThreads o ->
  exists st', okSt pos regex compile replace (fTrips _ f) (cLine _ st) (cStat _ st) st' /\
   (forall t, In t (fTrips _ f) -> selected o t -> exists a, tabGet (cTab _ st') (tOf pos t) = Some a) /\
   (forall s, In s (fStops _ f) -> exists v, cacheGet (nCache _ (cStat _ st')) (sName _ s) = Some v) /\
   (forall sched, exists fo rest, clusterTrips o st f sched = Some (st', fo, rest) /\
      ((forall p, In p rest -> p = []) -> fo = result o (cLine _ st) (cStat _ st) (fTrips _ f))) /\
   (exists sched fo rest, clusterTrips o st f sched = Some (st', fo, rest) /\ forall p, In p rest -> p = []).
Proof.
  intros o st f OL OS ET ND TH. unfold Cluster_model.clusterTrips.
  set (sn := fold_left _ (fStops _ f) (cStat _ st)).
  pose proof (fold_norm_ok (fStops _ f) (cStat _ st) OS) as Sn. fold sn in Sn.
  assert (O0 : okSt pos regex compile replace (fTrips _ f) (cLine _ st) (cStat _ st) (mkC _ (cLine _ st) sn (cTab _ st))).
  { split; [apply sameN_refl; exact OL|]. split; [exact Sn|]. cbn [cTab]. rewrite ET. intros t a _ X. discriminate X. }
  destruct (collect_val pos regex compile replace o (fTrips _ f) (cLine _ st) (cStat _ st) ND (fTrips _ f) _ [] O0 (fun t I => I)) as (st' & E & O' & T' & _ & M').
  cbn [strip map] in E. change (strip pos []) with (@nil (attrs * list (trie pos attrs))) in E.
  fold (chosenPairs o (cLine _ st) (cStat _ st) (fTrips _ f)) in E. set (m := pushAll pos _ []) in E. rewrite E.
  assert (Sm : sorted m) by (apply (pushAll_groups pos)).
  destruct (deal_dealt _ (oThreads o) (map fst m) TH) as (parts & Ed & _ & P & _). rewrite Ed.
  rewrite (allSteps_val pos m Sm parts) by (intros k I; exact (Permutation_in _ P I)).
  pose proof (inv_init pos near emptySecs m Sm o parts P) as I0.
  exists st'. split; [exact O'|]. split; [intros t I Se; apply T'; apply chosen_in; auto|]. split.
  { intros s I. assert (X : exists v, cacheGet (nCache _ sn) (sName _ s) = Some v); [|destruct X as (v & X); exists v; exact (M' _ _ X)].
    unfold sn. clear - I. generalize (cStat _ st). induction (fStops _ f) as [|x l IH]; intros n; [destruct I|]. cbn.
    destruct I as [->|I]; [|apply IH; exact I].
    assert (Y : exists v, cacheGet (nCache _ (snd (norm regex replace n (sName _ s)))) (sName _ s) = Some v).
    { unfold norm. destruct (cacheGet (nCache _ n) (sName _ s)) as [v|] eqn:E; cbn; [eauto|]. rewrite String.eqb_refl. eauto. }
    destruct Y as (v & Y). exists v.
    assert (Z : forall l n, cacheGet (nCache _ n) (sName _ s) = Some v -> cacheGet (nCache _ (fold_left (fun n (s : stop pos) => snd (norm regex replace n (sName _ s))) l n)) (sName _ s) = Some v).
    { clear. induction l as [|x l IH]; intros n H; cbn; [exact H|]. apply IH. exact (norm_cached_mono regex replace n (sName _ x) _ _ H). }
    apply Z. exact Y. }
  split.
  - intros sched. destruct (runSched_inv pos near emptySecs m Sm o sched _ _ I0) as (fo & rest & -> & Iv). exists fo, rest. split; [reflexivity|].
    intros D. exact (inv_done pos near emptySecs m Sm o fo rest Iv D).
  - destruct (complete_schedule m o Sm _ _ _ eq_refl I0) as (sched & fo & rest & R & D). exists sched, fo, rest. rewrite R. auto.
Qed.
End Main.

(** The number of threads is not read by the selection. *)
Lemma collect_threads : forall pos regex replace d ms cm te nt n1 n2 ts st m f,
  collect pos regex replace (mkOpts d ms cm te nt n1) st m f ts = collect pos regex replace (mkOpts d ms cm te nt n2) st m f ts.
Proof.
  intros pos regex replace d ms cm te nt n1 n2. induction ts as [|t ts IH]; intros st m f; cbn [collect]; [reflexivity|].
  change (skipped pos (mkOpts d ms cm te nt n2) t) with (skipped pos (mkOpts d ms cm te nt n1) t).
  destruct (skipped pos _ t); [apply IH|]. destruct (getRAttrs pos regex replace st t) as [(a, st1)|]; [apply IH|reflexivity].
Qed.
Lemma cluster_state : forall pos near emptySecs regex replace d ms cm te nt n1 n2 st f s1 s2 st1 fo1 r1 st2 fo2 r2,
  clusterTrips pos near emptySecs regex replace (mkOpts d ms cm te nt n1) st f s1 = Some (st1, fo1, r1) ->
  clusterTrips pos near emptySecs regex replace (mkOpts d ms cm te nt n2) st f s2 = Some (st2, fo2, r2) -> st1 = st2.
Proof.
  intros pos near emptySecs regex replace d ms cm te nt n1 n2 st f s1 s2 st1 fo1 r1 st2 fo2 r2 H1 H2. unfold clusterTrips in H1, H2.
  rewrite (collect_threads _ _ _ _ _ _ _ _ n2 n1) in H2. destruct (collect _ _ _ _ _ _ _ _) as [((st', m), fo)|]; [|discriminate].
  cbn [oThreads] in *. destruct (deal n1 0 _ _) as [p1|]; [|discriminate]. destruct (deal n2 0 _ _) as [p2|]; [|discriminate].
  destruct (allSteps pos m p1) as [q1|]; [|discriminate]. destruct (allSteps pos m p2) as [q2|]; [|discriminate].
  destruct (runSched _ _ _ _ _ q1 _) as [(f1, x1)|]; [|discriminate]. destruct (runSched _ _ _ _ _ q2 _) as [(f2, x2)|]; [|discriminate].
  congruence.
Qed.
