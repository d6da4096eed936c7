(** Proofs about the choice of the unique trips. *)
From Coq Require Import Ascii String List Arith ZArith Bool Lia Permutation.
From Verif Require Import ListAux TripTrie_model TripTrie_spec TripTrie_proofs OsmGraph_proofs Shapevl_model Shapevl_spec.
Import ListNotations.
Open Scope nat_scope.
Open Scope list_scope.
Local Arguments Nat.eqb : simpl never.

(** ** Lists *)
Lemma buckets : forall (A : Type) (f : A -> nat) K (l : list A), NoDup K -> (forall x, In x l -> In (f x) K) ->
  Permutation (concat (map (fun k => filter (fun x => f x =? k) l) K)) l.
Proof.
  intros A f. induction K as [|k K IH]; intros l ND H; cbn [map concat].
  - destruct l as [|x l]; [constructor|]. destruct (H x (or_introl eq_refl)).
  - inversion ND as [|? ? N1 N2]; subst. rewrite (filter_split A (fun x => f x =? k) l) at 2.
    apply Permutation_app_head.
    rewrite <- (IH (filter (fun x => negb (f x =? k)) l) N2) at 1.
    + erewrite map_ext_in; [reflexivity|]. intros k' J. cbn beta.
      clear IH H. induction l as [|x l IHl]; cbn [filter]; [reflexivity|].
      destruct (f x =? k) eqn:E; cbn [negb filter].
      * apply Nat.eqb_eq in E. destruct (f x =? k') eqn:E2; [apply Nat.eqb_eq in E2; congruence|exact IHl].
      * destruct (f x =? k'); [now rewrite IHl|exact IHl].
    + intros x J. apply filter_In in J. destruct J as [J E]. destruct (H x J) as [X|X]; [|exact X].
      subst k. rewrite Nat.eqb_refl in E. discriminate.
Qed.
Lemma FOP_app : forall (A : Type) (R : A -> A -> Prop) l m, ForallOrdPairs R l -> ForallOrdPairs R m ->
  (forall a b, In a l -> In b m -> R a b) -> ForallOrdPairs R (l ++ m).
Proof.
  intros A R l m L M H. induction L as [|a l F L IH]; [exact M|]. cbn. constructor.
  - apply Forall_app. split; [exact F|]. apply Forall_forall. intros b J. apply H; [left; reflexivity|exact J].
  - apply IH. intros x y X Y. apply H; [right; exact X|exact Y].
Qed.
Lemma FOP_concat : forall (A : Type) (R : A -> A -> Prop) ls, (forall l, In l ls -> ForallOrdPairs R l) ->
  ForallOrdPairs (fun l m => forall a b, In a l -> In b m -> R a b) ls -> ForallOrdPairs R (concat ls).
Proof.
  intros A R. induction ls as [|l ls IH]; intros H P; [constructor|]. inversion P as [|? ? F P']; subst. cbn.
  apply FOP_app; [apply H; left; reflexivity|apply IH; [intros m J; apply H; right; exact J|exact P']|].
  intros a b X Y. apply in_concat in Y. destruct Y as (m & M & Y). rewrite Forall_forall in F. exact (F m M a b X Y).
Qed.
Lemma FOP_nth : forall (A : Type) (R : A -> A -> Prop) l, ForallOrdPairs R l -> forall i j a b, i < j -> nth_error l i = Some a -> nth_error l j = Some b -> R a b.
Proof.
  intros A R l P. induction P as [|x l F P IH]; intros i j a b L X Y; [destruct i; discriminate|].
  destruct j as [|j]; [lia|]. cbn in Y. destruct i as [|i].
  - inversion X; subst. rewrite Forall_forall in F. apply F. eapply nth_error_In; eassumption.
  - apply (IH i j); auto. lia.
Qed.
Lemma FOP_nth_intro : forall (A : Type) (R : A -> A -> Prop) l, (forall i j a b, i < j -> nth_error l i = Some a -> nth_error l j = Some b -> R a b) -> ForallOrdPairs R l.
Proof.
  intros A R. induction l as [|x l IH]; intros H; [constructor|]. constructor.
  - apply Forall_forall. intros y J. apply In_nth_error in J. destruct J as (j & J). apply (H 0 (S j)); auto. lia.
  - apply IH. intros i j a b L X Y. apply (H (S i) (S j)); auto. lia.
Qed.

Section U.
Context {pos : Type}.
Variable near : pos -> pos -> bool.
Hypothesis near_refl : forall p, near p p = true.
Notation trie := (trie pos nat).
Notation node := (node pos nat).
Notation nds := (nds pos nat).
Notation nChilds := (nChilds pos nat).
Notation ndTrips := (ndTrips pos nat).
Notation tripNds := (tripNds pos nat).
Notation gtrip := (gtrip pos).
Notation tryAdd := (tryAdd pos near).
Notation getMatchChild := (getMatchChild pos near nat).
Notation followAll := (@followAll pos near nat).
Notation ok := (@ok pos nat).
Notation idOf := (@idOf pos).
Notation stops := (@stops pos).
Notation sts g := (tSts pos (gTrip pos g)).

Definition mk (g : gtrip) : call pos nat := mkCall pos nat (gTrip _ g) (gRoute _ g) false false.
Definition keys (g : gtrip) : list (@key pos) := call_keys 0 (mk g).

(** *** Keys and stops *)
Fixpoint alt {A} (l : list A) : list A := match l with [] => [] | x :: r => x :: match r with [] => [] | _ :: r' => alt r' end end.
Definition thin {A} (l : list A) : list A := match l with [] => [] | x :: r => x :: alt r end.
Lemma alt_F2 : forall A B (R : A -> B -> Prop) n l m, List.length l <= n -> Forall2 R l m -> Forall2 R (alt l) (alt m).
Proof.
  induction n as [|n IH]; intros l m L F.
  - destruct F; [constructor|cbn in L; lia].
  - destruct F as [|x y l m R1 F]; [constructor|]. destruct F as [|x' y' l m R2 F]; cbn [alt].
    + constructor; [exact R1|constructor].
    + constructor; [exact R1|]. apply IH; [cbn in L; lia|exact F].
Qed.
Lemma thin_F2 : forall A B (R : A -> B -> Prop) l m, Forall2 R l m -> Forall2 R (thin l) (thin m).
Proof. intros A B R l m F. destruct F as [|x y l m R1 F]; [constructor|]. constructor; [exact R1|]. eapply alt_F2; [apply le_n|exact F]. Qed.
Lemma alt_later : forall start (l : list (stime pos)), alt (map kStop (later_keys start l)) = map (stStop pos) l.
Proof.
  intros start. induction l as [|st r IH]; [reflexivity|]. cbn [later_keys map alt kStop].
  destruct r as [|st2 r]; [reflexivity|]. f_equal. exact IH.
Qed.
Lemma thin_trip : forall start (l : list (stime pos)), 2 <= List.length l -> thin (map kStop (trip_keys start l)) = map (stStop pos) l.
Proof.
  intros start [|st [|st2 r]] L; cbn in L; try lia. cbn [trip_keys map thin kStop]. rewrite alt_later. reflexivity.
Qed.
Lemma later_stops : forall s s' (l l' : list (stime pos)), map (stStop pos) l = map (stStop pos) l' -> map kStop (later_keys s l) = map kStop (later_keys s' l').
Proof.
  intros s s'. induction l as [|x l IH]; intros [|x' l'] E; try discriminate; [reflexivity|].
  cbn [map] in E. inversion E as [[E1 E2]]. specialize (IH l' E2). cbn [later_keys map kStop]. f_equal; [exact E1|].
  destruct l as [|y l], l' as [|y' l']; try discriminate; [reflexivity|]. cbn [map kStop]. f_equal; [exact E1|exact IH].
Qed.
Lemma trip_stops : forall s s' (l l' : list (stime pos)), map (stStop pos) l = map (stStop pos) l' -> map kStop (trip_keys s l) = map kStop (trip_keys s' l').
Proof.
  intros s s' [|x l] [|x' l'] E; try discriminate; [reflexivity|]. cbn [map] in E. inversion E as [[E1 E2]].
  destruct l as [|y l], l' as [|y' l']; try discriminate; [reflexivity|].
  cbn [trip_keys map kStop]. rewrite E1. f_equal. apply (later_stops s s' (y :: l) (y' :: l')). exact E2.
Qed.
Lemma keys_stops : forall g h, stops g = stops h -> map kStop (keys g) = map kStop (keys h).
Proof. intros g h E. unfold keys, call_keys. apply trip_stops. exact E. Qed.
Lemma keys_thin : forall g, 2 <= List.length (stops g) -> thin (map kStop (keys g)) = stops g.
Proof. intros g L. unfold keys, call_keys. unfold Shapevl_spec.stops in L. rewrite map_length in L. apply thin_trip. exact L. Qed.
Lemma gmc_time : forall (l : list node) p s t t', getMatchChild l p s t false = getMatchChild l p s t' false.
Proof. intros l p s t t'. unfold TripTrie_model.getMatchChild. destruct (nth_error l p); [|reflexivity]. reflexivity. Qed.
Lemma follow_stops : forall ks ks' (l : list node) cur, map kStop ks = map kStop ks' -> followAll l cur false ks = followAll l cur false ks'.
Proof.
  induction ks as [|k ks IH]; intros [|k' ks'] l cur E; try discriminate; [reflexivity|].
  cbn [map] in E. inversion E as [[E1 E2]]. cbn [TripTrie_proofs.followAll]. rewrite E1, (gmc_time l cur (kStop k') (kTime k) (kTime k')).
  destruct (getMatchChild l cur (kStop k') (kTime k') false); [reflexivity|]. rewrite (IH ks' l (S n) E2). reflexivity.
Qed.

(** *** Accepting and rejecting *)
Definition rejects (tr : trie) (g : gtrip) : Prop :=
  exists k ks, keys g = k :: ks /\ getMatchChild (nds tr) 0 (kStop k) (kTime k) false = 0 /\ tripNds tr <> [].
Lemma keys_eq : forall g, keys g = trip_keys (startSecs pos (gTrip pos g)) (sts g).
Proof.
  intros g. unfold keys, call_keys, call_start, startSecs. cbn [mk cTrip cDegen]. destruct (sts g) as [|st r]; [reflexivity|].
  destruct (stDep pos st); reflexivity.
Qed.
Lemma tryAdd_cases : forall tr g, sts g <> [] ->
  (tryAdd tr g = (tr, false) /\ rejects tr g) \/
  (exists tr' n, tryAdd tr g = (tr', true) /\ ~ rejects tr g /\ ndTrips tr' = pushAt (ndTrips tr) n (idOf g) /\ tripNds tr' <> [] /\
     (keys g = [] -> nds tr' = nds tr)).
Proof.
  intros tr g NE. unfold Shapevl_model.tryAdd, addTrip, add. cbn [negb]. pose proof (keys_eq g) as K.
  unfold rejects. rewrite K. destruct (sts g) as [|st r] eqn:E; [contradiction|]. rewrite addLoop_first.
  destruct (trip_keys (startSecs pos (gTrip pos g)) (st :: r)) as [|k ks] eqn:Ek.
  - right. eexists _, _. split; [reflexivity|]. cbn [TripTrie_model.nds TripTrie_model.ndTrips TripTrie_model.tripNds].
    split; [intros (? & ? & X & _); discriminate|]. split; [reflexivity|]. split; [discriminate|]. reflexivity.
  - destruct (getMatchChild (nds tr) 0 (kStop k) (kTime k) false =? 0) eqn:G; cbn [andb].
    + destruct (tripNds tr) as [|x t] eqn:T; cbn [List.length negb Nat.eqb].
      * change (0 =? 0) with true. cbn [negb]. right. destruct (visitAll _ _ _ _ _ _ _) as [l' p].
        eexists _, _. split; [reflexivity|]. cbn [TripTrie_model.nds TripTrie_model.ndTrips TripTrie_model.tripNds].
        split; [intros (? & ? & _ & _ & X); contradiction|]. split; [reflexivity|]. split; [discriminate|]. intros; discriminate.
      * left. change (S (List.length t) =? 0) with false. cbn [negb]. split; [destruct tr; cbn in *; subst; reflexivity|].
        exists k, ks. split; [reflexivity|]. apply Nat.eqb_eq in G. split; [exact G|discriminate].
    + right. destruct (visitAll _ _ _ _ _ _ _) as [l' p].
      eexists _, _. split; [reflexivity|]. cbn [TripTrie_model.nds TripTrie_model.ndTrips TripTrie_model.tripNds].
      split; [intros (k' & ? & X & Y & _); inversion X; subst; rewrite Y in G; discriminate|]. split; [reflexivity|]. split; [discriminate|]. intros; discriminate.
Qed.
Lemma tryAdd_empty : forall tr g, sts g = [] -> tryAdd tr g = (tr, false).
Proof. intros tr g E. unfold Shapevl_model.tryAdd, addTrip, add. cbn [negb]. rewrite E. reflexivity. Qed.

(** *** The history of a trie *)
Definition placed (h : list (gtrip * list nat)) (n : nat) : list gtrip := map fst (filter (fun gp => last (snd gp) 0 =? n) h).
Record hist (tr : trie) (h : list (gtrip * list nat)) : Prop := {
  h_ok : ok tr;
  h_path : forall g p, In (g, p) h -> followAll (nds tr) 0 false (keys g) = Some p;
  h_sts : forall g p, In (g, p) h -> sts g <> [];
  h_list : forall n, listAt (ndTrips tr) n = map idOf (placed h n);
  h_keys : NoDup (map fst (ndTrips tr));
  h_some : forall n l, In (n, l) (ndTrips tr) -> l <> [];
  h_lock : tripNds tr = [] -> h = []
}.
Lemma pushAt_keys : forall m k v n, In n (map fst (pushAt m k v)) <-> n = k \/ In n (map fst m).
Proof.
  induction m as [|[k' vs] m IH]; intros k v n; cbn; [intuition|]. destruct (k' =? k) eqn:E; cbn.
  - apply Nat.eqb_eq in E. subst. intuition.
  - rewrite IH. intuition.
Qed.
Lemma pushAt_nodup : forall m k v, NoDup (map fst m) -> NoDup (map fst (pushAt m k v)).
Proof.
  induction m as [|[k' vs] m IH]; intros k v ND; cbn in *; [constructor; [intros []|constructor]|].
  inversion ND; subst. destruct (k' =? k) eqn:E; cbn; constructor; auto.
  rewrite pushAt_keys. intros [X|X]; [subst; rewrite Nat.eqb_refl in E; discriminate|contradiction].
Qed.
Lemma pushAt_some : forall m k v n l, (forall n l, In (n, l) m -> l <> []) -> In (n, l) (pushAt m k v) -> l <> [].
Proof.
  induction m as [|[k' vs] m IH]; intros k v n l H J; cbn in J.
  - destruct J as [J|[]]. inversion J. discriminate.
  - destruct (k' =? k); cbn in J; destruct J as [J|J].
    + inversion J. destruct vs; discriminate.
    + apply (H n l). right. exact J.
    + apply (H n l). left. exact J.
    + eapply (IH k v n l); [|exact J]. intros n' l' J'. apply (H n' l'). right. exact J'.
Qed.
Lemma hist_empty : hist (emptyTrie pos nat) [].
Proof.
  constructor; cbn; try (intros; contradiction); try reflexivity; try constructor; try (apply empty_ok).
Qed.
Lemma hist_add : forall tr h g tr', hist tr h -> tryAdd tr g = (tr', true) -> sts g <> [] -> exists p, hist tr' (h ++ [(g, p)]).
Proof.
  intros tr h g tr' H E NE. destruct H as [OK HP HS HL HK HM HLK].
  assert (E' : addTrip pos near nat keepA 0%Z tr (cTrip _ _ (mk g)) (cAttrs _ _ (mk g)) (cTimeEx _ _ (mk g)) (cDegen _ _ (mk g)) = (tr', true)) by exact E.
  destruct (addTrip_spec near keepA 0%Z near_refl tr (mk g) tr' true OK E') as (OK' & G & [[X _]|[_ (p & Sp & Fo & Li & _)]]); [discriminate|].
  destruct (tryAdd_cases tr g NE) as [[X _]|(tr2 & n & X & _ & Nd & Tn & _)]; [congruence|].
  rewrite E in X. inversion X; subst tr2. exists p. constructor.
  - exact OK'.
  - intros g' p' J. apply in_app_or in J. destruct J as [J|[J|[]]].
    + eapply followAll_grows; [exact (proj1 OK)|exact G|exact (HP g' p' J)].
    + inversion J; subst. exact Fo.
  - intros g' p' J. apply in_app_or in J. destruct J as [J|[J|[]]]; [exact (HS g' p' J)|]. inversion J; subst. exact NE.
  - intros m. rewrite Li, HL. unfold placed. rewrite filter_app, !map_app. f_equal. cbn [filter snd].
    destruct (last p 0 =? m); reflexivity.
  - rewrite Nd. apply pushAt_nodup. exact HK.
  - intros m l J. rewrite Nd in J. exact (pushAt_some _ _ _ _ _ HM J).
  - intros X'. contradiction.
Qed.

(** *** Rejections last *)
Lemma root_childs : forall (l l' : list node) s t, tree l -> tree l' -> grows l l' ->
  (forall nd, nth_error l 0 = Some nd -> nChilds nd <> []) -> getMatchChild l' 0 s t false = getMatchChild l 0 s t false.
Proof.
  intros l l' s t T T' [_ G] NE. destruct (tr_root _ T) as (nd & E & _). specialize (NE nd E).
  destruct (G _ _ E) as (nd' & E' & _ & x & Ch). unfold TripTrie_model.getMatchChild. rewrite E, E', Ch.
  assert (X : x = []).
  { destruct (tr_one _ T nd E) as [Y|Y]; [contradiction|]. destruct (tr_one _ T' nd' E') as [Z|Z]; rewrite Ch, Y in Z; [discriminate|].
    destruct x; [reflexivity|discriminate]. }
  rewrite X, app_nil_r. erewrite find_ext; [reflexivity|]. intros c J. destruct (tr_child _ T _ _ _ E J) as [_ (y & Ey & _)].
  destruct (G _ _ Ey) as (y' & Ey' & (S1 & S2 & _) & _). unfold matches. rewrite Ey, Ey', S1, S2. reflexivity.
Qed.
Lemma rejects_last : forall tr h g g' tr', hist tr h -> rejects tr g -> sts g' <> [] -> tryAdd tr g' = (tr', true) -> rejects tr' g.
Proof.
  intros tr h g g' tr' H (k & ks & K & M & TN) NE E.
  destruct (tryAdd_cases tr g' NE) as [[X _]|(tr2 & n & X & NR & _ & Tn & Same)]; [congruence|].
  rewrite E in X. inversion X; subst tr2. exists k, ks. split; [exact K|]. split; [|exact Tn].
  destruct (keys g') as [|k' ks'] eqn:K'; [rewrite (Same eq_refl); exact M|].
  assert (E' : addTrip pos near nat keepA 0%Z tr (cTrip _ _ (mk g')) (cAttrs _ _ (mk g')) (cTimeEx _ _ (mk g')) (cDegen _ _ (mk g')) = (tr', true)) by exact E.
  destruct (addTrip_spec near keepA 0%Z near_refl tr (mk g') tr' true (h_ok _ _ H) E') as (OK' & G & _).
  rewrite (root_childs (nds tr) (nds tr') _ _ (proj1 (h_ok _ _ H)) (proj1 OK') G); [exact M|].
  intros nd En C. apply NR. exists k', ks'. split; [exact K'|]. split; [|exact TN].
  unfold TripTrie_model.getMatchChild. rewrite En, C. reflexivity.
Qed.
Lemma accepts_equal : forall tr h g p g', hist tr h -> In (g, p) h -> stops g = stops g' -> ~ rejects tr g'.
Proof.
  intros tr h g p g' H J E (k & ks & K & M & _). pose proof (h_path _ _ H g p J) as F.
  rewrite (follow_stops _ _ (nds tr) 0 (keys_stops _ _ E)), K in F. cbn [TripTrie_proofs.followAll] in F. rewrite M in F. discriminate.
Qed.

(** *** The groups of a trie *)
Notation represents := (@represents pos).
Definition apart (a b : list gtrip) : Prop := forall g g', In g a -> In g' b -> gRoute _ g = gRoute _ g' -> stops g = stops g' -> False.
Definition repsOf (tr : trie) : list (nat * nat) := map (fun nt => (hd 0 (snd nt), List.length (snd nt))) (ndTrips tr).
Definition groupsOf (tr : trie) (h : list (gtrip * list nat)) : list (list gtrip) := map (placed h) (map fst (ndTrips tr)).
Lemma listAt_in : forall (m : list (nat * list nat)) n l, NoDup (map fst m) -> In (n, l) m -> listAt m n = l.
Proof.
  induction m as [|[k v] m IH]; intros n l ND J; [destruct J|]. cbn in *. inversion ND; subst. destruct J as [J|J].
  - inversion J; subst. rewrite Nat.eqb_refl. reflexivity.
  - destruct (k =? n) eqn:E; [|auto]. apply Nat.eqb_eq in E. subst. exfalso. apply H1. apply in_map_iff. exists (n, l). auto.
Qed.
Lemma listAt_none : forall (m : list (nat * list nat)) n, ~ In n (map fst m) -> listAt m n = [].
Proof. induction m as [|[k v] m IH]; intros n H; [reflexivity|]. cbn in *. destruct (k =? n) eqn:E; [apply Nat.eqb_eq in E; tauto|]. apply IH. tauto. Qed.
Lemma in_placed : forall h n g, In g (placed h n) <-> exists p, In (g, p) h /\ last p 0 = n.
Proof.
  intros h n g. unfold placed. rewrite in_map_iff. split.
  - intros ((g' & p) & E & J). cbn in E. subst. apply filter_In in J. destruct J as [J E]. apply Nat.eqb_eq in E. exists p. auto.
  - intros (p & J & E). exists (g, p). split; [reflexivity|]. apply filter_In. split; [exact J|]. apply Nat.eqb_eq. exact E.
Qed.
Lemma groups_reps : forall tr h, hist tr h -> Forall2 represents (groupsOf tr h) (repsOf tr).
Proof.
  intros tr h H. unfold groupsOf, repsOf.
  assert (G : forall n l, In (n, l) (ndTrips tr) -> map idOf (placed h n) = l /\ l <> []).
  { intros n l J. split; [|exact (h_some _ _ H n l J)]. rewrite <- (h_list _ _ H). apply listAt_in; [exact (h_keys _ _ H)|exact J]. }
  clear H. induction (ndTrips tr) as [|[n l] m IH]; cbn [map]; [constructor|]. constructor.
  - destruct (G n l (or_introl eq_refl)) as [E NE]. cbn [fst snd]. destruct (placed h n) as [|g t] eqn:P; [cbn in E; congruence|].
    exists g. split; [reflexivity|]. rewrite <- E. cbn. rewrite map_length. auto.
  - apply IH. intros n' l' J. apply G. right. exact J.
Qed.
Lemma groups_perm : forall tr h, hist tr h -> Permutation (concat (groupsOf tr h)) (map fst h).
Proof.
  intros tr h H. unfold groupsOf. 
  assert (E : concat (map (placed h) (map fst (ndTrips tr))) = map fst (concat (map (fun k => filter (fun gp => last (snd gp) 0 =? k) h) (map fst (ndTrips tr))))).
  { rewrite concat_map, (map_map _ (map fst)). reflexivity. }
  rewrite E. apply Permutation_map. apply (buckets _ (fun gp => last (snd gp) 0)); [exact (h_keys _ _ H)|].
  intros (g & p) J. cbn [snd]. destruct (in_dec Nat.eq_dec (last p 0) (map fst (ndTrips tr))) as [X|X]; [exact X|]. exfalso.
  pose proof (listAt_none _ _ X) as L. rewrite (h_list _ _ H) in L.
  assert (Q : In g (placed h (last p 0))) by (apply in_placed; exists p; auto). destruct (placed h (last p 0)); [destruct Q|discriminate].
Qed.
Lemma groups_some : forall tr h grp, hist tr h -> In grp (groupsOf tr h) -> grp <> [].
Proof.
  intros tr h grp H J. apply groups_reps in H. apply In_nth_error in J. destruct J as (i & J).
  destruct (nth_error (repsOf tr) i) as [r|] eqn:R.
  - destruct (Forall2_nth _ _ _ _ _ _ _ _ H J R) as (g & E & _). destruct grp; discriminate.
  - apply nth_error_None in R. apply nth_lt in J. unfold groupsOf, repsOf in *. rewrite !map_length in *. lia.
Qed.
Lemma follow_spells : forall tr h g p, hist tr h -> In (g, p) h -> spells near (nds tr) false 0 p (keys g).
Proof.
  intros tr h g p H J. pose proof (proj1 (h_ok _ _ H)) as T. eapply followAll_spells; [exact T|apply tree_len; exact T| |exact (h_path _ _ H g p J)].
  rewrite keys_eq. apply trip_alternate.
Qed.
Lemma groups_path : forall tr h grp, hist tr h -> In grp (groupsOf tr h) -> exists p, forall g, In g grp -> In (g, p) h.
Proof.
  intros tr h grp H J. unfold groupsOf in J. apply in_map_iff in J. destruct J as (n & <- & _).
  destruct (placed h n) as [|g0 t] eqn:P; [exists []; intros g []|].
  assert (J0 : In g0 (placed h n)) by (rewrite P; left; reflexivity). apply in_placed in J0. destruct J0 as (p & J0 & L0).
  exists p. intros g J. rewrite <- P in J. apply in_placed in J. destruct J as (q & J & L).
  replace p with q; [exact J|]. eapply spells_path_unique; [exact (follow_spells tr h g q H J)|exact (follow_spells tr h g0 p H J0)|congruence].
Qed.
Definition reprs (l : list node) (p : list nat) : list (option (stop pos)) := map (fun n => match nth_error l n with Some nd => nRepr _ _ nd | None => None end) p.
Lemma spells_reprs : forall (l : list node) tex cur p ks, spells near l tex cur p ks ->
  Forall2 (fun r k => exists s, r = Some s /\ same_stop near s k) (reprs l p) (map kStop ks).
Proof.
  intros l tex cur p ks H. induction H as [|cur n nd r p k ks E P Z R S A T H IH]; [constructor|]. cbn [reprs map]. constructor; [|exact IH].
  rewrite E. exists r. auto.
Qed.
Lemma groups_places : forall tr h grp g, hist tr h -> In grp (groupsOf tr h) -> In g grp -> 2 <= List.length (stops g) -> same_places near grp.
Proof.
  intros tr h grp g0 H J J0 L0. destruct (groups_path tr h grp H J) as (p & Hp).
  assert (Len : forall g, In g grp -> 2 <= List.length (stops g)).
  { intros g Jg. pose proof (spells_length near _ _ _ _ _ (follow_spells tr h g0 p H (Hp g0 J0))) as A.
    pose proof (spells_length near _ _ _ _ _ (follow_spells tr h g p H (Hp g Jg))) as B. rewrite keys_eq, trip_length in A, B.
    unfold Shapevl_spec.stops in *. rewrite map_length in *. lia. }
  assert (F : forall g, In g grp -> Forall2 (fun r k => exists s, r = Some s /\ same_stop near s k) (thin (reprs (nds tr) p)) (stops g)).
  { intros g Jg. rewrite <- (keys_thin g (Len g Jg)). apply thin_F2. eapply spells_reprs. exact (follow_spells tr h g p H (Hp g Jg)). }
  assert (X : exists rep, thin (reprs (nds tr) p) = map Some rep).
  { specialize (F g0 J0). revert F. generalize (thin (reprs (nds tr) p)) (stops g0). intros l m F. induction F as [|r k l m (s & -> & _) F (rep & ->)]; [exists []; reflexivity|].
    exists (s :: rep). reflexivity. }
  destruct X as (rep & X). exists rep. intros g Jg. specialize (F g Jg). rewrite X in F. clear - F.
  remember (map Some rep) as l eqn:E. revert rep E. induction F as [|r k l m (s & -> & S) F IH]; intros [|r' rep] E; try discriminate; constructor.
  - inversion E; subst. exact S.
  - apply IH. inversion E. reflexivity.
Qed.
Lemma groups_length : forall tr h grp g g', hist tr h -> In grp (groupsOf tr h) -> In g grp -> In g' grp -> List.length (stops g) = List.length (stops g').
Proof.
  intros tr h grp g g' H J J1 J2. destruct (groups_path tr h grp H J) as (p & Hp).
  pose proof (spells_length near _ _ _ _ _ (follow_spells tr h g p H (Hp g J1))) as A.
  pose proof (spells_length near _ _ _ _ _ (follow_spells tr h g' p H (Hp g' J2))) as B. rewrite keys_eq, trip_length in A, B.
  pose proof (h_sts _ _ H g p (Hp g J1)). pose proof (h_sts _ _ H g' p (Hp g' J2)).
  unfold Shapevl_spec.stops. rewrite !map_length. destruct (sts g); [contradiction|]. destruct (sts g'); [contradiction|]. cbn [List.length] in *. lia.
Qed.
Lemma groups_apart : forall tr h, hist tr h -> ForallOrdPairs apart (groupsOf tr h).
Proof.
  intros tr h H. apply FOP_nth_intro. intros i j a b L A B g g' J J' _ E. unfold groupsOf in A, B. rewrite nth_error_map in A, B.
  destruct (nth_error (map fst (ndTrips tr)) i) as [n|] eqn:Ni; [|discriminate]. destruct (nth_error (map fst (ndTrips tr)) j) as [m|] eqn:Nj; [|discriminate].
  inversion A; subst a. inversion B; subst b. apply in_placed in J, J'. destruct J as (p & J & Lp). destruct J' as (q & J' & Lq).
  pose proof (h_path _ _ H g p J) as F. pose proof (h_path _ _ H g' q J') as F'. rewrite (follow_stops _ _ (nds tr) 0 (keys_stops _ _ E)) in F.
  rewrite F in F'. inversion F'; subst q. assert (Q : nth_error (map fst (ndTrips tr)) i = nth_error (map fst (ndTrips tr)) j) by congruence.
  pose proof (proj1 (NoDup_nth_error _) (h_keys _ _ H) i j (nth_lt _ _ _ _ Ni) Q). lia.
Qed.

(** *** The tries of a route *)
Record subOK (sub : list trie) (hs : list (list (gtrip * list nat))) : Prop := {
  s_hist : Forall2 hist sub hs;
  s_sep : forall i j tr h g p, i < j -> nth_error sub i = Some tr -> nth_error hs j = Some h -> In (g, p) h -> rejects tr g
}.
Lemma sub_nil : subOK [] [].
Proof. constructor; [constructor|]. intros i j tr h g p _ E. destruct i; discriminate. Qed.
Lemma empty_accepts : forall g, sts g <> [] -> exists tr', tryAdd (emptyTrie pos nat) g = (tr', true).
Proof. intros g NE. destruct (tryAdd_cases (emptyTrie pos nat) g NE) as [[_ (k & ks & _ & _ & X)]|(tr' & n & E & _)]; [cbn in X; contradiction|exists tr'; exact E]. Qed.
Lemma addTo_ok : forall sub hs g, subOK sub hs -> exists hs', subOK (addTo pos near sub g) hs' /\
  Permutation (map fst (concat hs')) (match sts g with [] => [] | _ => [g] end ++ map fst (concat hs)) /\
  List.length sub <= List.length (addTo pos near sub g) /\
  (forall i tr, nth_error sub i = Some tr -> exists tr', nth_error (addTo pos near sub g) i = Some tr' /\ forall g', rejects tr g' -> rejects tr' g').
Proof.
  induction sub as [|tr sub IH]; intros hs g [H SP].
  - inversion H; subst. cbn [addTo]. destruct (sts g) as [|st r] eqn:E.
    + rewrite (tryAdd_empty _ g E). cbn [fst]. exists [[]]. split; [|split; [cbn; reflexivity|split; [cbn; lia|intros [|i] tr X; discriminate]]].
      constructor; [constructor; [apply hist_empty|constructor]|]. intros i j tr h g' p L E1 E2 J. destruct j as [|j]; [lia|]. destruct j; discriminate.
    + assert (NE : sts g <> []) by (rewrite E; discriminate). destruct (empty_accepts g NE) as (tr' & T). rewrite T. cbn [fst].
      destruct (hist_add _ _ _ _ hist_empty T NE) as (p & Hp). exists [[(g, p)]]. split; [|split; [reflexivity|split; [cbn; lia|intros [|i] tr X; discriminate]]].
      constructor; [constructor; [exact Hp|constructor]|]. intros i j tr h g' q L E1 E2 J. destruct j as [|j]; [lia|]. destruct j; discriminate.
  - inversion H as [|? h ? hs0 Hh Ht]; subst. rename hs0 into hs. cbn [addTo].
    assert (SP' : subOK sub hs).
    { constructor; [exact Ht|]. intros i j t h' g' p L E1 E2 J. apply (SP (S i) (S j) t h' g' p); auto. lia. }
    assert (Ej : forall j h' g' p, nth_error hs j = Some h' -> In (g', p) h' -> rejects tr g').
    { intros j h' g' p E2 J. apply (SP 0 (S j) tr h' g' p); auto. lia. }
    destruct (sts g) as [|st r] eqn:E.
    + rewrite (tryAdd_empty tr g E). destruct (IH hs g SP') as (hs' & [F' S'] & P & L & K). rewrite E in P. cbn [app] in P.
      exists (h :: hs'). split; [|split; [|split]].
      * constructor; [constructor; assumption|]. intros i j t h' g' p Lij E1 E2 J. destruct j as [|j]; [lia|]. cbn in E2. destruct i as [|i].
        -- cbn in E1. inversion E1; subst t.
           assert (Q : In g' (map fst (concat hs))). { eapply Permutation_in; [exact P|]. apply in_map_iff. exists (g', p). split; [reflexivity|]. apply in_concat. exists h'. split; [eapply nth_error_In; eassumption|exact J]. }
           apply in_map_iff in Q. destruct Q as ((g2 & p2) & E3 & Q). cbn in E3. subst g2. apply in_concat in Q. destruct Q as (h2 & Q1 & Q2). apply In_nth_error in Q1. destruct Q1 as (j2 & Q1). exact (Ej j2 h2 g' p2 Q1 Q2).
        -- apply (S' i j t h' g' p); auto. lia.
      * cbn [concat app]. rewrite !map_app. apply Permutation_app_head. exact P.
      * cbn. lia.
      * intros [|i] t X; cbn in X; [inversion X; subst; exists t; split; [reflexivity|auto]|]. exact (K i t X).
    + assert (NE : sts g <> []) by (rewrite E; discriminate). destruct (tryAdd_cases tr g NE) as [[T R]|(tr' & n & T & NR & _)]; rewrite T.
      * destruct (IH hs g SP') as (hs' & [F' S'] & P & L & K). rewrite E in P.
        exists (h :: hs'). split; [|split; [|split]].
        -- constructor; [constructor; assumption|]. intros i j t h' g' p Lij E1 E2 J. destruct j as [|j]; [lia|]. cbn in E2. destruct i as [|i].
           ++ cbn in E1. inversion E1; subst t.
              assert (Q : In g' ([g] ++ map fst (concat hs))). { eapply Permutation_in; [exact P|]. apply in_map_iff. exists (g', p). split; [reflexivity|]. apply in_concat. exists h'. split; [eapply nth_error_In; eassumption|exact J]. }
              destruct Q as [Q|Q]; [subst g'; exact R|]. change (In g' (map fst (concat hs))) in Q.
              apply in_map_iff in Q. destruct Q as ((g2 & p2) & E3 & Q). cbn in E3. subst g2. apply in_concat in Q. destruct Q as (h2 & Q1 & Q2). apply In_nth_error in Q1. destruct Q1 as (j2 & Q1). exact (Ej j2 h2 g' p2 Q1 Q2).
           ++ apply (S' i j t h' g' p); auto. lia.
        -- cbn [concat]. rewrite !map_app. rewrite P. apply Permutation_app_swap_app.
        -- cbn. lia.
        -- intros [|i] t X; cbn in X; [inversion X; subst; exists t; split; [reflexivity|auto]|]. exact (K i t X).
      * destruct (hist_add _ _ _ _ Hh T NE) as (p0 & Hp). exists ((h ++ [(g, p0)]) :: hs). split; [|split; [|split]].
        -- constructor; [constructor; assumption|]. intros i j t h' g' p Lij E1 E2 J. destruct j as [|j]; [lia|]. cbn in E2. destruct i as [|i].
           ++ cbn in E1. inversion E1; subst t. eapply rejects_last; [exact Hh|exact (Ej j h' g' p E2 J)|exact NE|exact T].
           ++ destruct SP' as [_ S']. apply (S' i j t h' g' p); auto. lia.
        -- cbn [concat]. rewrite !map_app. cbn [map fst]. rewrite <- app_assoc. cbn [app]. symmetry. apply Permutation_middle.
        -- cbn. lia.
        -- intros [|i] t X; cbn in X; [inversion X; subst; exists tr'; split; [reflexivity|intros g' R; exact (rejects_last _ _ _ _ _ Hh R NE T)]|].
           exists t. split; [exact X|auto].
Qed.

(** *** The forest *)
Definition entryOK (e : nat * list trie) (hs : list (list (gtrip * list nat))) : Prop :=
  subOK (snd e) hs /\ forall g, In g (map fst (concat hs)) -> gRoute _ g = fst e.
Lemma addForest_keys : forall f g r, In r (map fst (addForest pos near f g)) <-> r = gRoute _ g \/ In r (map fst f).
Proof.
  induction f as [|[r' sub] f IH]; intros g r; cbn; [intuition|]. destruct (r' =? gRoute pos g) eqn:E; cbn.
  - apply Nat.eqb_eq in E. subst. intuition.
  - rewrite IH. intuition.
Qed.
Lemma addForest_nodup : forall f g, NoDup (map fst f) -> NoDup (map fst (addForest pos near f g)).
Proof.
  induction f as [|[r' sub] f IH]; intros g ND; cbn in *; [constructor; [intros []|constructor]|]. inversion ND; subst.
  destruct (r' =? gRoute pos g) eqn:E; cbn; constructor; auto. rewrite addForest_keys. intros [X|X]; [subst; rewrite Nat.eqb_refl in E; discriminate|contradiction].
Qed.
Definition own (g : gtrip) : list gtrip := match sts g with [] => [] | _ => [g] end.
Lemma entry_add : forall e hs g, entryOK e hs -> fst e = gRoute _ g -> exists hs', entryOK (fst e, addTo pos near (snd e) g) hs' /\
  Permutation (map fst (concat hs')) (own g ++ map fst (concat hs)).
Proof.
  intros e hs g [HS R] E. destruct (addTo_ok _ _ g HS) as (hs' & HS' & P & _). exists hs'. split; [|exact P].
  split; [exact HS'|]. intros g' J. apply (Permutation_in _ P) in J. apply in_app_or in J. destruct J as [J|J]; [|exact (R g' J)].
  cbn [fst]. rewrite E. destruct (sts g); [destruct J|]. destruct J as [<-|[]]. reflexivity.
Qed.
Lemma forest_add : forall f Hs g, Forall2 entryOK f Hs -> exists Hs', Forall2 entryOK (addForest pos near f g) Hs' /\
  Permutation (map fst (concat (concat Hs'))) (own g ++ map fst (concat (concat Hs))).
Proof.
  intros f Hs g F. induction F as [|[r sub] hs f Hs E F IH].
  - cbn [addForest]. destruct (entry_add (gRoute _ g, []) [] g) as (hs' & E' & P'); [split; [apply sub_nil|intros ? []]|reflexivity|].
    exists [hs']. split; [constructor; [exact E'|constructor]|]. cbn [concat]. rewrite app_nil_r. exact P'.
  - cbn [addForest]. destruct (r =? gRoute pos g) eqn:Er.
    + apply Nat.eqb_eq in Er. destruct (entry_add (r, sub) hs g E Er) as (hs' & E' & P'). exists (hs' :: Hs). split; [constructor; assumption|].
      cbn [concat]. rewrite !concat_app, !map_app, P', app_assoc. reflexivity.
    + destruct IH as (Hs' & F' & P'). exists (hs :: Hs'). split; [constructor; assumption|].
      cbn [concat]. rewrite !concat_app, !map_app, P'. apply Permutation_app_swap_app.
Qed.
Definition stopping (g : gtrip) : bool := match stops g with [] => false | _ => true end.
Lemma own_filter : forall g l, own g ++ filter stopping l = filter stopping (g :: l).
Proof. intros g l. cbn [filter]. unfold own, stopping, Shapevl_spec.stops. destruct (sts g); reflexivity. Qed.
Lemma forest_ok : forall gs f Hs, Forall2 entryOK f Hs -> NoDup (map fst f) ->
  NoDup (map fst (fold_left (addForest pos near) gs f)) /\ exists Hs', Forall2 entryOK (fold_left (addForest pos near) gs f) Hs' /\
  Permutation (map fst (concat (concat Hs'))) (filter stopping gs ++ map fst (concat (concat Hs))).
Proof.
  induction gs as [|g gs IH]; intros f Hs F ND; cbn [fold_left].
  - split; [exact ND|]. exists Hs. split; [exact F|reflexivity].
  - destruct (forest_add f Hs g F) as (H1 & F1 & P1). destruct (IH _ _ F1 (addForest_nodup f g ND)) as (ND' & H2 & F2 & P2).
    split; [exact ND'|]. exists H2. split; [exact F2|]. rewrite P2, P1. rewrite <- own_filter, <- app_assoc. apply Permutation_app_swap_app.
Qed.

(** *** All groups *)
Fixpoint groupsSub (sub : list trie) (hs : list (list (gtrip * list nat))) : list (list gtrip) :=
  match sub, hs with tr :: sub, h :: hs => groupsOf tr h ++ groupsSub sub hs | _, _ => [] end.
Fixpoint groupsAll (f : list (nat * list trie)) (Hs : list (list (list (gtrip * list nat)))) : list (list gtrip) :=
  match f, Hs with e :: f, hs :: Hs => groupsSub (snd e) hs ++ groupsAll f Hs | _, _ => [] end.
Lemma in_sub : forall sub hs grp, In grp (groupsSub sub hs) -> exists i tr h, nth_error sub i = Some tr /\ nth_error hs i = Some h /\ In grp (groupsOf tr h).
Proof.
  induction sub as [|tr sub IH]; intros [|h hs] grp J; try destruct J. cbn in J. apply in_app_or in J. destruct J as [J|J].
  - exists 0, tr, h. auto.
  - destruct (IH hs grp J) as (i & X). exists (S i). exact X.
Qed.
Lemma in_all : forall f Hs grp, In grp (groupsAll f Hs) -> exists i e hs, nth_error f i = Some e /\ nth_error Hs i = Some hs /\ In grp (groupsSub (snd e) hs).
Proof.
  induction f as [|e f IH]; intros [|hs Hs] grp J; try destruct J. cbn in J. apply in_app_or in J. destruct J as [J|J].
  - exists 0, e, hs. auto.
  - destruct (IH Hs grp J) as (i & X). exists (S i). exact X.
Qed.
Lemma sub_reps : forall sub hs, Forall2 hist sub hs -> Forall2 represents (groupsSub sub hs) (flat_map repsOf sub).
Proof. intros sub hs F. induction F as [|tr h sub hs H F IH]; cbn; [constructor|]. apply Forall2_app; [apply groups_reps; exact H|exact IH]. Qed.
Lemma sub_perm : forall sub hs, Forall2 hist sub hs -> Permutation (concat (groupsSub sub hs)) (map fst (concat hs)).
Proof. intros sub hs F. induction F as [|tr h sub hs H F IH]; cbn; [constructor|]. rewrite concat_app, map_app, IH. apply Permutation_app_tail. apply groups_perm. exact H. Qed.
Lemma sub_apart : forall sub hs, subOK sub hs -> ForallOrdPairs apart (groupsSub sub hs).
Proof.
  induction sub as [|tr sub IH]; intros hs [F SP]; inversion F as [|? h ? hs0 Hh Ht]; subst; cbn [groupsSub]; [constructor|]. apply FOP_app.
  - apply groups_apart. exact Hh.
  - apply IH. constructor; [exact Ht|]. intros i j t h' g' p L E1 E2 J. apply (SP (S i) (S j) t h' g' p); auto. lia.
  - intros a b A B g g' J J' _ E. destruct (in_sub _ _ _ B) as (j & t & h' & T & H' & B').
    pose proof (Forall2_nth _ _ _ _ _ _ _ _ Ht T H') as Q. destruct (groups_path _ _ _ Q B') as (q & Q'). destruct (groups_path _ _ _ Hh A) as (p & P').
    refine (accepts_equal tr h g p g' Hh (P' g J) E _). apply (SP 0 (S j) tr h' g' q); auto. lia.
Qed.
Lemma in_sub_hist : forall sub hs grp, Forall2 hist sub hs -> In grp (groupsSub sub hs) -> exists tr h, hist tr h /\ In grp (groupsOf tr h) /\ In h hs.
Proof.
  intros sub hs grp F J. destruct (in_sub _ _ _ J) as (i & tr & h & T & H & B). exists tr, h.
  split; [exact (Forall2_nth _ _ _ _ _ _ _ _ F T H)|]. split; [exact B|eapply nth_error_In; exact H].
Qed.
Lemma in_sub_trip : forall e hs grp g, entryOK e hs -> In grp (groupsSub (snd e) hs) -> In g grp -> gRoute _ g = fst e.
Proof.
  intros e hs grp g [[F _] R] J Jg. apply R. apply (Permutation_in _ (sub_perm _ _ F)). apply in_concat. exists grp. auto.
Qed.
Lemma all_reps : forall f Hs, Forall2 entryOK f Hs -> Forall2 represents (groupsAll f Hs) (flat_map (fun e => flat_map repsOf (snd e)) f).
Proof. intros f Hs F. induction F as [|e hs f Hs [[H _] _] F IH]; cbn; [constructor|]. apply Forall2_app; [apply sub_reps; exact H|exact IH]. Qed.
Lemma all_perm : forall f Hs, Forall2 entryOK f Hs -> Permutation (concat (groupsAll f Hs)) (map fst (concat (concat Hs))).
Proof. intros f Hs F. induction F as [|e hs f Hs [[H _] _] F IH]; cbn; [constructor|]. rewrite !concat_app, map_app, IH. apply Permutation_app_tail. apply sub_perm. exact H. Qed.
Lemma all_apart : forall f Hs, Forall2 entryOK f Hs -> NoDup (map fst f) -> ForallOrdPairs apart (groupsAll f Hs).
Proof.
  intros f Hs F. induction F as [|e hs f Hs E F IH]; intros ND; cbn [groupsAll]; [constructor|]. cbn in ND. inversion ND as [|? ? N1 N2]; subst. apply FOP_app.
  - apply sub_apart. exact (proj1 E).
  - apply IH. exact N2.
  - intros a b A B g g' J J' R _. destruct (in_all _ _ _ B) as (j & e' & hs' & T & H' & B'). pose proof (Forall2_nth _ _ _ _ _ _ _ _ F T H') as Q.
    apply N1. rewrite <- (in_sub_trip e hs a g E A J), R, (in_sub_trip e' hs' b g' Q B' J'). apply in_map. eapply nth_error_In. exact T.
Qed.
Theorem unique_groups : forall gs, exists groups, grouping near gs groups /\ Forall2 represents groups (reps pos near gs).
Proof.
  intros gs. destruct (forest_ok gs [] [] (Forall2_nil _) (NoDup_nil _)) as (ND & Hs & F & P). cbn [concat map] in P. rewrite app_nil_r in P.
  change (fold_left (addForest pos near) gs []) with (forest pos near gs) in *. exists (groupsAll (forest pos near gs) Hs). split; [|exact (all_reps _ _ F)].
  assert (In1 : forall grp, In grp (groupsAll (forest pos near gs) Hs) -> exists tr h, hist tr h /\ In grp (groupsOf tr h)).
  { intros grp J. destruct (in_all _ _ _ J) as (i & e & hs & E1 & E2 & J1). destruct (Forall2_nth _ _ _ _ _ _ _ _ F E1 E2) as [[Q _] _].
    destruct (in_sub_hist _ _ _ Q J1) as (tr & h & H & J2 & _). exists tr, h. auto. }
  constructor.
  - etransitivity; [exact (all_perm _ _ F)|exact P].
  - intros grp J. destruct (In1 grp J) as (tr & h & H & J2). exact (groups_some _ _ _ H J2).
  - intros grp g h' J Jg Jh. split.
    + destruct (in_all _ _ _ J) as (i & e & hs & E1 & E2 & J1). pose proof (Forall2_nth _ _ _ _ _ _ _ _ F E1 E2) as Q.
      rewrite (in_sub_trip _ _ _ g Q J1 Jg), (in_sub_trip _ _ _ h' Q J1 Jh). reflexivity.
    + destruct (In1 grp J) as (tr & h & H & J2). exact (groups_length _ _ _ _ _ H J2 Jg Jh).
  - intros grp g J Jg L. destruct (In1 grp J) as (tr & h & H & J2). exact (groups_places _ _ _ _ H J2 Jg L).
  - intros i j grp grp' g h A B Jg Jh R E. pose proof (all_apart _ _ F ND) as AP. destruct (Nat.lt_trichotomy i j) as [L|[L|L]]; [|exact L|]; exfalso.
    + exact (FOP_nth _ _ _ AP i j grp grp' L A B g h Jg Jh R E).
    + exact (FOP_nth _ _ _ AP j i grp' grp L B A h g Jh Jg (eq_sym R) (eq_sym E)).
Qed.
End U.
