(** Proofs about the search around an edge and the snapping of stations. *)
From Coq Require Import List Arith ZArith Bool Permutation Lia.
From Verif Require Import ListAux Snap_model Snap_spec.
Import ListNotations.
Open Scope nat_scope.
Local Arguments Nat.eqb : simpl never.
Local Arguments Nat.ltb : simpl never.

Lemma mem_In : forall x l, mem x l = true <-> In x l.
Proof.
  intros x l. unfold mem. rewrite existsb_exists. split.
  - intros (y & Hy & He). apply Nat.eqb_eq in He. subst. exact Hy.
  - intros H. exists x. split; [exact H | apply Nat.eqb_refl].
Qed.
Lemma mem_notIn : forall x l, mem x l = false <-> ~ In x l.
Proof. intros x l. rewrite <- mem_In. destruct (mem x l); split; congruence. Qed.

(** ** The search *)
Section Search.
Variable E : nat -> Prop.
Variable efrom eto : nat -> nat.
Variable adjIn adjOut : nat -> list nat.
Variable dp len : nat -> Z.
Variable plus : Z -> Z -> Z.
Variable sharp : nat -> nat -> nat -> bool.
Variable sf : nat -> bool.
Variable maxD maxTurns : Z.
Variable pick : list cand -> option (cand * list cand).
Hypothesis HIn : forall n g, In g (adjIn n) <-> E g /\ eto g = n.
Hypothesis HOut : forall n g, In g (adjOut n) <-> E g /\ efrom g = n.
Hypothesis Hpick : forall l, match pick l with None => l = [] | Some (c, r) => Permutation l (c :: r) end.
Notation deg := (deg adjIn adjOut).
Notation other := (other efrom eto).
Notation turnAt := (turnAt efrom eto adjIn adjOut sharp).
Notation expand := (expand efrom eto adjIn adjOut len plus sharp sf maxD maxTurns).
Notation around := (around efrom eto adjIn adjOut).
Notation search := (search efrom eto adjIn adjOut len plus sharp sf maxD maxTurns pick).
Notation depthSearch := (depthSearch efrom eto adjIn adjOut dp len plus sharp sf maxD maxTurns pick).
Definition fullT (a n m : nat) : Prop := 2 < length (adjIn n) + length (adjOut n) /\ sharp n a m = true.
Notation joins := (joins efrom eto).
Notation Walk := (Walk E efrom eto dp len plus fullT).
Notation allowed := (allowed maxD maxTurns).

Lemma joins_other : forall f n a, joins f n a -> a = other f n.
Proof.
  intros f n a [(H1 & H2) | (H1 & H2)]; unfold Snap_model.other.
  - rewrite H1, Nat.eqb_refl. congruence.
  - destruct (efrom f =? n) eqn:Ef; [apply Nat.eqb_eq in Ef; congruence | congruence].
Qed.
Lemma around_In : forall n g m, In (g, m) (around n) <-> E g /\ joins g n m.
Proof.
  intros n g m. unfold Snap_model.around, Snap_spec.joins. rewrite in_app_iff, !in_map_iff. split.
  - intros [(x & Hx & Hin) | (x & Hx & Hin)]; injection Hx as -> <-; [apply HIn in Hin | apply HOut in Hin]; tauto.
  - intros (HE & [(H1 & H2) | (H1 & H2)]); [right | left]; exists g; (split; [congruence|]); [apply HOut | apply HIn]; tauto.
Qed.
Lemma turnAt_ok : forall c m a t, joins (cEdge c) (cNode c) a -> (fullT a (cNode c) m /\ t = 1%Z) \/ (~ fullT a (cNode c) m /\ t = 0%Z) <-> t = turnAt c m.
Proof.
  intros c m a t Hj. rewrite (joins_other _ _ _ Hj). unfold Snap_model.turnAt, fullT, Snap_model.deg.
  destruct (2 <? length (adjIn (cNode c)) + length (adjOut (cNode c))) eqn:E1; cbn [andb].
  - apply Nat.ltb_lt in E1. destruct (sharp (cNode c) (other (cEdge c) (cNode c)) m); split; intros H; [lia | left; tauto | | right; split; [intros (_ & H0); discriminate | exact H]].
    destruct H as [((_ & H) & _) | H]; [discriminate | tauto].
  - apply Nat.ltb_ge in E1. split; [lia|]. intros ->. right. split; [lia | reflexivity].
Qed.
Definition nextC (c : cand) (g m : nat) : cand := mkCand (plus (cDist c) (len g)) m g (cTurns c + turnAt c m).
Definition legal (c : cand) (g m : nat) : Prop := m <> cNode c /\ allowed (plus (cDist c) (len g)) (cTurns c + turnAt c m).
Lemma legal_dec : forall c closed m g, m <> cNode c ->
  ((maxTurns <? 0)%Z || (cTurns c + turnAt c m <=? maxTurns)%Z) && (plus (cDist c) (len g) <? maxD)%Z && negb (mem m closed) = true <-> legal c g m /\ ~ In m closed.
Proof.
  intros c closed m g Hm. unfold legal, Snap_spec.allowed. rewrite !andb_true_iff, orb_true_iff, negb_true_iff, mem_notIn, !Z.ltb_lt, Z.leb_le. tauto.
Qed.
Lemma expand_found : forall c closed l pq m, expand c closed l pq = inl m -> sf m = true /\ exists g, In (g, m) l /\ legal c g m.
Proof.
  intros c closed l. induction l as [|[g m'] r IH]; intros pq m H; cbn [Snap_model.expand] in H; [discriminate|].
  destruct (m' =? cNode c) eqn:Em.
  - destruct (IH _ _ H) as (Hs & g' & Hg & Hl). split; [exact Hs|]. exists g'. split; [right; exact Hg | exact Hl].
  - apply Nat.eqb_neq in Em.
    match type of H with (if ?b then _ else _) = _ => destruct b eqn:Eb end.
    + apply (legal_dec c closed m' g Em) in Eb. destruct (sf m') eqn:Es.
      * injection H as <-. split; [exact Es|]. exists g. split; [left; reflexivity | tauto].
      * destruct (IH _ _ H) as (Hs & g' & Hg & Hl). split; [exact Hs|]. exists g'. split; [right; exact Hg | exact Hl].
    + destruct (IH _ _ H) as (Hs & g' & Hg & Hl). split; [exact Hs|]. exists g'. split; [right; exact Hg | exact Hl].
Qed.
Lemma expand_more : forall c closed l pq pq', expand c closed l pq = inr pq' -> exists new, pq' = pq ++ new /\ length new <= length l /\
  (forall x, In x new -> exists g m, In (g, m) l /\ x = nextC c g m /\ legal c g m /\ sf m = false /\ ~ In m closed) /\
  (forall g m, In (g, m) l -> legal c g m -> ~ In m closed -> In (nextC c g m) new).
Proof.
  intros c closed l. induction l as [|[g m'] r IH]; intros pq pq' H; cbn [Snap_model.expand] in H.
  - injection H as <-. exists []. rewrite app_nil_r. split; [reflexivity|]. split; [cbn; lia|]. split; [intros x []|intros g m []].
  - destruct (m' =? cNode c) eqn:Em.
    + destruct (IH _ _ H) as (new & -> & Hl & Hn & Hp). exists new. split; [reflexivity|]. split; [cbn [length]; lia|]. split.
      * intros x Hx. destruct (Hn x Hx) as (g' & m & Hin & Hr). exists g', m. split; [right; exact Hin | exact Hr].
      * intros g' m [Heq | Hin] Hleg Hc; [|apply Hp; assumption]. injection Heq as -> ->. apply Nat.eqb_eq in Em. destruct Hleg as (Hne & _). congruence.
    + apply Nat.eqb_neq in Em. match type of H with (if ?b then _ else _) = _ => destruct b eqn:Eb end.
      * apply (legal_dec c closed m' g Em) in Eb. destruct (sf m') eqn:Es; [discriminate|]. destruct (IH _ _ H) as (new & -> & Hl & Hn & Hp).
        exists (nextC c g m' :: new). split; [rewrite <- app_assoc; reflexivity|]. split; [cbn [length]; lia|]. split.
        -- intros x [<- | Hx]; [exists g, m'; split; [left; reflexivity|]; tauto|].
           destruct (Hn x Hx) as (g' & m & Hin & Hr). exists g', m. split; [right; exact Hin | exact Hr].
        -- intros g' m [Heq | Hin] Hleg Hc; [injection Heq as -> ->; left; reflexivity | right; apply Hp; assumption].
      * destruct (IH _ _ H) as (new & -> & Hl & Hn & Hp). exists new. split; [reflexivity|]. split; [cbn [length]; lia|]. split.
        -- intros x Hx. destruct (Hn x Hx) as (g' & m & Hin & Hr). exists g', m. split; [right; exact Hin | exact Hr].
        -- intros g' m [Heq | Hin] Hleg Hc; [|apply Hp; assumption]. injection Heq as -> ->.
           assert (Ht : legal c g' m /\ ~ In m closed) by tauto. apply (legal_dec c closed m g' Em) in Ht. congruence.
Qed.

Variable e : nat.
Definition ends (n : nat) : Prop := n = efrom e \/ n = eto e.
Definition good (c : cand) : Prop := Walk e (cNode c) (cEdge c) (cDist c) (cTurns c).
Lemma walk_end : forall n f d k, Walk e n f d k -> exists a, joins f n a.
Proof.
  intros n f d k H. destruct H as [n [-> | ->] | n f d k a g m t _ _ Hj _ _ _].
  - exists (eto e). left. tauto.
  - exists (efrom e). right. tauto.
  - exists n. destruct Hj as [Hj | Hj]; [right | left]; tauto.
Qed.
Lemma good_next : forall c g m, good c -> In (g, m) (around (cNode c)) -> m <> cNode c -> good (nextC c g m).
Proof.
  intros c g m Hc Hin Hm. apply around_In in Hin. destruct Hin as (HE & Hj). destruct (walk_end _ _ _ _ Hc) as (a & Ha).
  apply (Wk_step _ _ _ _ _ _ _ _ (cNode c) (cEdge c) (cDist c) (cTurns c) a g m (turnAt c m)); try assumption; [congruence|].
  apply turnAt_ok; [exact Ha | reflexivity].
Qed.

(** [B]: an order of the distances, [zc]: holds of all candidates *)
Variable B : Z -> Z -> Prop.
Variable zc : cand -> Prop.
Hypothesis Brefl : forall d, B d d.
Hypothesis Btrans : forall a b c, B a b -> B b c -> B a c.
Hypothesis Bplus : forall d g, E g -> B d (plus d (len g)).
Hypothesis Bpick : forall l c r, (forall x, In x l -> zc x) -> pick l = Some (c, r) -> forall x, In x r -> B (cDist c) (cDist x).
Hypothesis zc_start : forall n, zc (mkCand (dp n) n e 0).
Hypothesis zc_step : forall c g m, zc c -> legal c g m -> zc (nextC c g m).

Record Inv (R pq : list cand) : Prop := {
  iv_once : NoDup (map cNode R);
  iv_good : forall c, In c R \/ In c pq -> good c /\ zc c /\ (ends (cNode c) /\ cDist c = dp (cNode c) /\ (maxD < cDist c)%Z \/ sf (cNode c) = false);
  iv_start : forall n, ends n -> (exists c, (In c R \/ In c pq) /\ cNode c = n /\ B (cDist c) (dp n));
  iv_step : forall c g m, In c R -> In (g, m) (around (cNode c)) -> legal c g m ->
            exists x, (In x R \/ In x pq) /\ cNode x = m /\ B (cDist x) (plus (cDist c) (len g));
  iv_mono : forall c x, In c R -> In x pq -> B (cDist c) (cDist x)
}.
Lemma search_inv : forall fuel R pq, Inv R pq ->
  match search fuel pq (map cNode R) with
  | None => True
  | Some (Some m) => sf m = true /\ exists c g, good c /\ In (g, m) (around (cNode c)) /\ legal c g m
  | Some None => exists R', Inv R' []
  end.
Proof.
  induction fuel as [|fuel IH]; intros R pq HI; cbn [Snap_model.search]; [exact Logic.I|].
  pose proof (Hpick pq) as Hp. destruct (pick pq) as [[c pq1]|] eqn:Ep; [|exists R; rewrite Hp in HI; exact HI].
  assert (Hin : forall x, In x pq <-> x = c \/ In x pq1).
  { intros x. split; intros H; [apply (Permutation_in _ Hp) in H; destruct H; auto | apply (Permutation_in _ (Permutation_sym Hp)); destruct H; [left; congruence | right; assumption]]. }
  assert (Hmin : forall x, In x pq1 -> B (cDist c) (cDist x)).
  { apply (Bpick pq c pq1); [|exact Ep]. intros x Hx. apply (iv_good _ _ HI x). right. exact Hx. }
  assert (Hc : In c pq) by (apply Hin; left; reflexivity).
  destruct (mem (cNode c) (map cNode R)) eqn:Em.
  - apply mem_In, in_map_iff in Em. destruct Em as (r0 & Hr0 & Hr0in). apply IH.
    assert (Hsw : forall x, In x R \/ In x pq -> exists y, (In y R \/ In y pq1) /\ cNode y = cNode x /\ B (cDist y) (cDist x)).
    { intros x [Hx | Hx]; [exists x; auto|]. apply Hin in Hx. destruct Hx as [-> | Hx]; [|exists x; auto].
      exists r0. split; [left; exact Hr0in|]. split; [exact Hr0|]. apply (iv_mono _ _ HI); assumption. }
    constructor.
    + exact (iv_once _ _ HI).
    + intros x Hx. apply (iv_good _ _ HI). destruct Hx as [Hx | Hx]; [left; exact Hx | right; apply Hin; right; exact Hx].
    + intros n Hn. destruct (iv_start _ _ HI n Hn) as (x & Hx & Hnx & HB). destruct (Hsw x Hx) as (y & Hy & Hny & HB'). exists y. split; [exact Hy|]. split; [congruence | eapply Btrans; eassumption].
    + intros c0 g m Hc0 Hg Hl. destruct (iv_step _ _ HI c0 g m Hc0 Hg Hl) as (x & Hx & Hnx & HB). destruct (Hsw x Hx) as (y & Hy & Hny & HB'). exists y. split; [exact Hy|]. split; [congruence | eapply Btrans; eassumption].
    + intros c0 x Hc0 Hx. apply (iv_mono _ _ HI); [exact Hc0 | apply Hin; right; exact Hx].
  - apply mem_notIn in Em. destruct (iv_good _ _ HI c (or_intror Hc)) as (Hcg & Hcz & Hcs).
    destruct (expand c (cNode c :: map cNode R) (around (cNode c)) pq1) as [m | pq2] eqn:Ee.
    + destruct (expand_found _ _ _ _ _ Ee) as (Hs & g & Hg & Hl). split; [exact Hs|]. exists c, g. tauto.
    + destruct (expand_more _ _ _ _ _ Ee) as (new & -> & _ & Hn & Hall). apply (IH (c :: R)). clear IH Ee.
      assert (Hsw : forall x, In x R \/ In x pq -> In x (c :: R) \/ In x (pq1 ++ new)).
      { intros x [Hx | Hx]; [left; right; exact Hx|]. apply Hin in Hx. destruct Hx as [-> | Hx]; [left; left; reflexivity | right; apply in_or_app; left; exact Hx]. }
      assert (Hnew : forall x, In x new -> B (cDist c) (cDist x)).
      { intros x Hx. destruct (Hn x Hx) as (g & m & Hg & -> & _). apply around_In in Hg. apply Bplus. tauto. }
      constructor.
      * cbn [map]. constructor; [exact Em | exact (iv_once _ _ HI)].
      * intros x [[<- | Hx] | Hx]; [tauto | apply (iv_good _ _ HI); left; exact Hx |]. apply in_app_iff in Hx. destruct Hx as [Hx | Hx]; [apply (iv_good _ _ HI); right; apply Hin; right; exact Hx|].
        destruct (Hn x Hx) as (g & m & Hg & -> & Hl & Hs & _). split; [apply good_next; [exact Hcg | exact Hg | apply Hl]|]. split; [apply zc_step; assumption | right; exact Hs].
      * intros n Hn'. destruct (iv_start _ _ HI n Hn') as (x & Hx & Hr). exists x. split; [apply Hsw; exact Hx | exact Hr].
      * intros c0 g m [<- | Hc0] Hg Hl.
        -- destruct (in_dec Nat.eq_dec m (cNode c :: map cNode R)) as [Hm | Hm].
           ++ destruct Hm as [Hm | Hm]; [destruct Hl as (Hl & _); congruence|]. apply in_map_iff in Hm. destruct Hm as (r & Hr & Hrin). exists r. split; [left; right; exact Hrin|]. split; [exact Hr|].
              apply Btrans with (cDist c); [apply (iv_mono _ _ HI); assumption|]. apply around_In in Hg. apply Bplus. tauto.
           ++ exists (nextC c g m). split; [right; apply in_or_app; right; apply Hall; assumption|]. split; [reflexivity | apply Brefl].
        -- destruct (iv_step _ _ HI c0 g m Hc0 Hg Hl) as (x & Hx & Hr). exists x. split; [apply Hsw; exact Hx | exact Hr].
      * intros c0 x Hc0 Hx. apply in_app_iff in Hx. destruct Hc0 as [<- | Hc0].
        -- destruct Hx as [Hx | Hx]; [apply Hmin; exact Hx | apply Hnew; exact Hx].
        -- destruct Hx as [Hx | Hx]; [apply (iv_mono _ _ HI); [exact Hc0 | apply Hin; right; exact Hx]|]. apply Btrans with (cDist c); [apply (iv_mono _ _ HI); assumption | apply Hnew; exact Hx].
Qed.
Definition init : list cand := mkCand (dp (efrom e)) (efrom e) e 0 :: if efrom e =? eto e then [] else [mkCand (dp (eto e)) (eto e) e 0].
Lemma init_In : forall c, In c init -> c = mkCand (dp (cNode c)) (cNode c) e 0 /\ ends (cNode c).
Proof.
  intros c [<- | H]; [split; [reflexivity | left; reflexivity]|]. destruct (efrom e =? eto e); [destruct H|]. destruct H as [<- | []]. split; [reflexivity | right; reflexivity].
Qed.
Lemma init_inv : (forall n, ends n -> (maxD < dp n)%Z \/ sf n = false) -> Inv [] init.
Proof.
  intros H. constructor.
  - constructor.
  - intros c [[] | Hc]. destruct (init_In c Hc) as (-> & He). cbn [cNode] in *. split; [constructor; exact He|]. split; [apply zc_start|]. destruct (H _ He) as [H1 | H1]; [left; cbn; tauto | right; exact H1].
  - intros n Hn. exists (mkCand (dp n) n e 0). split; [right|split; [reflexivity | apply Brefl]]. destruct Hn as [-> | ->]; [left; reflexivity|]. unfold init.
    destruct (efrom e =? eto e) eqn:Ee; [apply Nat.eqb_eq in Ee; rewrite Ee; left; reflexivity | right; left; reflexivity].
  - intros c g m [].
  - intros c x [].
Qed.
Lemma depth_cases : forall fuel,
  match depthSearch fuel e with
  | None => True
  | Some (Some m) => sf m = true /\ Findable E efrom eto dp len plus fullT e maxD maxTurns m
  | Some None => (forall n, ends n -> (maxD < dp n)%Z) \/ ((forall n, ends n -> (maxD < dp n)%Z \/ sf n = false) /\ exists R, Inv R [])
  end.
Proof.
  intros fuel. unfold Snap_model.depthSearch.
  destruct ((maxD <? dp (efrom e))%Z && (maxD <? dp (eto e))%Z) eqn:E1.
  { left. apply andb_true_iff in E1. rewrite !Z.ltb_lt in E1. intros n [-> | ->]; tauto. }
  destruct ((dp (efrom e) <=? maxD)%Z && sf (efrom e)) eqn:E2.
  { apply andb_true_iff in E2. rewrite Z.leb_le in E2. split; [tauto|]. left. split; [left; reflexivity | tauto]. }
  destruct ((dp (eto e) <=? maxD)%Z && sf (eto e)) eqn:E3.
  { apply andb_true_iff in E3. rewrite Z.leb_le in E3. split; [tauto|]. left. split; [right; reflexivity | tauto]. }
  assert (He : forall n, ends n -> (maxD < dp n)%Z \/ sf n = false).
  { apply andb_false_iff in E2, E3. rewrite Z.leb_gt in E2, E3. intros n [-> | ->]; tauto. }
  pose proof (search_inv fuel [] init (init_inv He)) as H. unfold init in H. cbn [map] in H.
  destruct (search fuel _ []) as [[m|]|]; [|right; split; [exact He | exact H] | exact Logic.I].
  destruct H as (Hs & c & g & Hc & Hg & Hl). split; [exact Hs|]. right. exists g, (plus (cDist c) (len g)), (cTurns c + turnAt c m)%Z. split; [|apply Hl].
  apply (good_next c g m Hc Hg). apply Hl.
Qed.
End Search.

Section SearchMain.
Variable E : nat -> Prop.
Variable efrom eto : nat -> nat.
Variable adjIn adjOut : nat -> list nat.
Variable dp len : nat -> Z.
Variable plus : Z -> Z -> Z.
Variable sharp : nat -> nat -> nat -> bool.
Variable sf : nat -> bool.
Variable maxD maxTurns : Z.
Variable pick : list cand -> option (cand * list cand).
Hypothesis HIn : forall n g, In g (adjIn n) <-> E g /\ eto g = n.
Hypothesis HOut : forall n g, In g (adjOut n) <-> E g /\ efrom g = n.
Hypothesis Hpick : forall l, match pick l with None => l = [] | Some (c, r) => Permutation l (c :: r) end.
Notation depthSearch := (depthSearch efrom eto adjIn adjOut dp len plus sharp sf maxD maxTurns pick).
Notation full := (fullT adjIn adjOut sharp).
Notation Walk := (Walk E efrom eto dp len plus full).

Lemma depth_found : forall fuel e m, depthSearch fuel e = Some (Some m) -> sf m = true /\ Findable E efrom eto dp len plus full e maxD maxTurns m.
Proof.
  intros fuel e m H. pose proof (depth_cases E efrom eto adjIn adjOut dp len plus sharp sf maxD maxTurns pick HIn HOut Hpick e (fun _ _ => True) (fun _ => True)) as Hd.
  specialize (Hd (fun _ => Logic.I) (fun _ _ _ _ _ => Logic.I) (fun _ _ _ => Logic.I) (fun _ _ _ _ _ _ _ => Logic.I) (fun _ => Logic.I) (fun _ _ _ _ _ => Logic.I) fuel). rewrite H in Hd. exact Hd.
Qed.
Definition entry (c : cand) : nat * nat * Z * Z := (cNode c, cEdge c, cDist c, cTurns c).
Lemma entry_In : forall R n f d k, In (n, f, d, k) (map entry R) <-> In (mkCand d n f k) R.
Proof.
  intros R n f d k. rewrite in_map_iff. split.
  - intros ([d' n' f' k'] & Hc & Hin). unfold entry in Hc. cbn in Hc. injection Hc as -> -> -> ->. exact Hin.
  - intros H. exists (mkCand d n f k). split; [reflexivity | exact H].
Qed.
Lemma inv_region : forall e (bounded : bool) (B : Z -> Z -> Prop) zc R, (bounded = true -> forall a b, B a b -> (a <= b)%Z) ->
  Inv E efrom eto adjIn adjOut dp len plus sharp sf maxD maxTurns e B zc R [] -> Region E efrom eto dp len plus full e maxD maxTurns bounded (map entry R) sf.
Proof.
  intros e bounded B zc R HB HI. constructor.
  - rewrite map_map. cbn. exact (iv_once _ _ _ _ _ _ _ _ _ _ _ _ _ _ _ _ _ HI).
  - intros n f d k H. apply entry_In in H. apply (iv_good _ _ _ _ _ _ _ _ _ _ _ _ _ _ _ _ _ HI (mkCand d n f k)). left. exact H.
  - intros n Hn. destruct (iv_start _ _ _ _ _ _ _ _ _ _ _ _ _ _ _ _ _ HI n Hn) as ([d n' f k] & [Hc | []] & Hcn & HBc). cbn in *. subst n'. exists f, d, k. split; [apply entry_In; exact Hc|]. intros Hb. apply HB; assumption.
  - intros n f d k a g m t Hin HE Hj Hne Hja Ht Hal. apply entry_In in Hin.
    destruct (iv_step _ _ _ _ _ _ _ _ _ _ _ _ _ _ _ _ _ HI (mkCand d n f k) g m Hin) as ([d' n' f' k'] & [Hc | []] & Hcn & HBc).
    + apply (around_In E efrom eto adjIn adjOut dp len plus sharp sf maxD); try assumption. cbn. tauto.
    + split; [cbn; congruence|]. cbn [cDist cTurns cNode] in *. replace t with (turnAt efrom eto adjIn adjOut sharp (mkCand d n f k) m) in Hal; [exact Hal|].
      symmetry. apply (turnAt_ok efrom eto adjIn adjOut dp len plus sharp sf maxD (mkCand d n f k) m a t Hja). exact Ht.
    + cbn in *. subst n'. exists f', d', k'. split; [apply entry_In; exact Hc|]. intros Hb. apply HB; assumption.
  - intros n f d k H. apply entry_In in H. apply (iv_good _ _ _ _ _ _ _ _ _ _ _ _ _ _ _ _ _ HI (mkCand d n f k)). left. exact H.
Qed.
Definition far (e : nat) : Prop := (maxD < dp (efrom e))%Z /\ (maxD < dp (eto e))%Z.
Lemma depth_region : forall fuel e, depthSearch fuel e = Some None -> far e \/ exists R, Region E efrom eto dp len plus full e maxD maxTurns false R sf.
Proof.
  intros fuel e H. pose proof (depth_cases E efrom eto adjIn adjOut dp len plus sharp sf maxD maxTurns pick HIn HOut Hpick e (fun _ _ => True) (fun _ => True)) as Hd.
  specialize (Hd (fun _ => Logic.I) (fun _ _ _ _ _ => Logic.I) (fun _ _ _ => Logic.I) (fun _ _ _ _ _ _ _ => Logic.I) (fun _ => Logic.I) (fun _ _ _ _ _ => Logic.I) fuel). rewrite H in Hd.
  destruct Hd as [Hd | (_ & R & HI)]; [left; split; apply Hd; [left | right]; reflexivity|]. right. exists (map entry R). apply (inv_region e false _ _ R) in HI; [exact HI | discriminate].
Qed.
(** The order of the queue: without full turns the nearest candidate comes first. *)
Hypothesis Hmin : forall l c r, (forall x, In x l -> cTurns x = 0%Z) -> pick l = Some (c, r) -> forall x, In x r -> (cDist c <= cDist x)%Z.
Hypothesis Hplus : forall d g, E g -> (d <= plus d (len g))%Z.
Lemma depth_bounded : forall fuel e, maxTurns = 0%Z \/ (forall a n m, ~ full a n m) -> depthSearch fuel e = Some None ->
  far e \/ exists R, Region E efrom eto dp len plus full e maxD maxTurns true R sf.
Proof.
  intros fuel e Ht H. pose proof (depth_cases E efrom eto adjIn adjOut dp len plus sharp sf maxD maxTurns pick HIn HOut Hpick e Z.le (fun c => cTurns c = 0%Z)) as Hd.
  specialize (Hd Z.le_refl Z.le_trans Hplus Hmin (fun _ => eq_refl)).
  assert (Hz : forall c g m, cTurns c = 0%Z -> legal efrom eto adjIn adjOut len plus sharp maxD maxTurns c g m -> cTurns (nextC efrom eto adjIn adjOut len plus sharp c g m) = 0%Z).
  { intros c g m Hc (_ & _ & Hk). cbn [nextC cTurns]. rewrite Hc in *. destruct Ht as [-> | Ht].
    - unfold turnAt in *. destruct (_ && _); lia.
    - unfold turnAt. destruct (2 <? deg adjIn adjOut (cNode c)) eqn:E1; [|reflexivity]. destruct (sharp _ _ _) eqn:E2; [|reflexivity]. exfalso.
      apply (Ht (other efrom eto (cEdge c) (cNode c)) (cNode c) m). split; [apply Nat.ltb_lt in E1; exact E1 | exact E2]. }
  specialize (Hd Hz fuel). rewrite H in Hd. destruct Hd as [Hd | (_ & R & HI)]; [left; split; apply Hd; [left | right]; reflexivity|].
  right. exists (map entry R). apply (inv_region e true _ _ R) in HI; [exact HI | intros _ a b Hab; exact Hab].
Qed.
(** Without full turns nothing is missed. *)
Hypothesis Hmono : forall a b g, (a <= b)%Z -> (plus a (len g) <= plus b (len g))%Z.
Lemma depth_complete : forall fuel e, (forall a n m, ~ full a n m) -> depthSearch fuel e = Some None ->
  forall n, Findable E efrom eto dp len plus full e maxD maxTurns n -> sf n = false.
Proof.
  intros fuel e Hno H.
  assert (HW0 : forall n f d k, Walk e n f d k -> k = 0%Z).
  { intros n f d k HW. induction HW as [n _ | n f d k a g m t HW IH HE Hj Hne Hja Ht]; [reflexivity|]. destruct Ht as [(Ht & _) | (_ & ->)]; [exfalso; exact (Hno _ _ _ Ht) | lia]. }
  assert (Hle : forall n f d k, Walk e n f d k -> exists n', (n' = efrom e \/ n' = eto e) /\ (dp n' <= d)%Z).
  { intros n f d k HW. induction HW as [n Hn | n f d k a g m t HW (n' & Hn' & Hd) HE Hj Hne Hja Ht]; [exists n; split; [exact Hn | lia]|]. exists n'. split; [exact Hn'|]. specialize (Hplus d g HE). lia. }
  destruct (depth_bounded fuel e (or_intror Hno) H) as [(Hf1 & Hf2) | (R & HR)].
  - intros n [([-> | ->] & Hd) | (f & d & k & HW & (Hd & _))]; [lia | lia |]. destruct (Hle _ _ _ _ HW) as (n' & [-> | ->] & Hd'); lia.
  - assert (Hin : forall n f d k, Walk e n f d k -> (d < maxD)%Z -> ((maxTurns < 0)%Z \/ (0 <= maxTurns)%Z) -> exists f' d' k', In (n, f', d', k') R /\ (d' <= d)%Z).
    { intros n f d k HW. induction HW as [n Hn | n f d k a g m t HW IH HE Hj Hne Hja Ht]; intros Hd Hmt.
      - destruct (rg_start _ _ _ _ _ _ _ _ _ _ _ _ _ HR n Hn) as (f' & d' & k' & Hin & Hb). exists f', d', k'. split; [exact Hin | apply Hb; reflexivity].
      - destruct IH as (f' & d' & k' & Hin & Hb); [specialize (Hplus d g HE); lia | exact Hmt |].
        pose proof (rg_walk _ _ _ _ _ _ _ _ _ _ _ _ _ HR _ _ _ _ Hin) as HWR. destruct (walk_end E efrom eto adjIn adjOut dp len plus sharp sf maxD e _ _ _ _ HWR) as (a' & Ha').
        destruct (rg_step _ _ _ _ _ _ _ _ _ _ _ _ _ HR n f' d' k' a' g m 0%Z Hin HE Hj Hne Ha') as (f2 & d2 & k2 & Hin2 & Hb2).
        + right. split; [apply Hno | reflexivity].
        + rewrite (HW0 _ _ _ _ HWR). specialize (Hmono d' d g Hb). split; [lia|]. lia.
        + exists f2, d2, k2. split; [exact Hin2|]. specialize (Hb2 eq_refl). specialize (Hmono d' d g Hb). lia. }
    intros n [(Hn & Hd) | (f & d & k & HW & (Hd & Hk))].
    + destruct (rg_start _ _ _ _ _ _ _ _ _ _ _ _ _ HR n Hn) as (f' & d' & k' & Hin' & Hb). destruct (rg_none _ _ _ _ _ _ _ _ _ _ _ _ _ HR _ _ _ _ Hin') as [(_ & -> & Hlt) | Hs]; [lia | exact Hs].
    + rewrite (HW0 _ _ _ _ HW) in Hk. destruct (Hin n f d k HW Hd Hk) as (f' & d' & k' & Hin' & Hle').
      destruct (rg_none _ _ _ _ _ _ _ _ _ _ _ _ _ HR _ _ _ _ Hin') as [(_ & _ & Hlt) | Hs]; [lia | exact Hs].
Qed.
(** The search ends. *)
Variable nds : list nat.
Hypothesis Hnd : NoDup nds.
Hypothesis Hends : forall g, E g -> In (efrom g) nds /\ In (eto g) nds.
Notation aroundL := (around efrom eto adjIn adjOut).
Definition weight (closed : list nat) : nat := list_sum (map (fun n => if mem n closed then 0 else length (aroundL n)) nds).
Lemma weight_close : forall closed n, In n nds -> ~ In n closed -> weight (n :: closed) + length (aroundL n) = weight closed.
Proof.
  intros closed n Hn Hc. unfold weight. clear Hends. induction nds as [|x l IH]; [destruct Hn|]. inversion Hnd as [|? ? Hx Hl]; subst. cbn [map list_sum fold_right].
  change (fold_right Nat.add 0) with list_sum in *. destruct Hn as [-> | Hn].
  - assert (H1 : mem n (n :: closed) = true) by (apply mem_In; left; reflexivity). rewrite H1. assert (H2 : mem n closed = false) by (apply mem_notIn; exact Hc). rewrite H2.
    replace (map (fun n0 => if mem n0 (n :: closed) then 0 else length (aroundL n0)) l) with (map (fun n0 => if mem n0 closed then 0 else length (aroundL n0)) l); [lia|].
    apply map_ext_in. intros a Ha. replace (mem a (n :: closed)) with (mem a closed); [reflexivity|]. unfold mem. cbn [existsb]. replace (a =? n) with false; [reflexivity|]. symmetry. apply Nat.eqb_neq. congruence.
  - specialize (IH Hl Hn). replace (mem x (n :: closed)) with (mem x closed); [lia|]. unfold mem. cbn [existsb]. replace (x =? n) with false; [reflexivity|]. symmetry. apply Nat.eqb_neq. congruence.
Qed.
Lemma search_ends : forall fuel pq closed, (forall c, In c pq -> In (cNode c) nds) -> length pq + weight closed < fuel ->
  search efrom eto adjIn adjOut len plus sharp sf maxD maxTurns pick fuel pq closed <> None.
Proof.
  induction fuel as [|fuel IH]; intros pq closed Hpq Hlt; [lia|]. cbn [Snap_model.search]. pose proof (Hpick pq) as Hp. destruct (pick pq) as [[c pq1]|]; [|discriminate].
  assert (Hc : In (cNode c) nds) by (apply Hpq; apply (Permutation_in _ (Permutation_sym Hp)); left; reflexivity).
  assert (Hpq1 : forall x, In x pq1 -> In (cNode x) nds) by (intros x Hx; apply Hpq; apply (Permutation_in _ (Permutation_sym Hp)); right; exact Hx).
  apply Permutation_length in Hp. cbn [length] in Hp. destruct (mem (cNode c) closed) eqn:Em.
  - apply IH; [exact Hpq1 | lia].
  - destruct (expand _ _ _ _ _ _ _ _ _ _ c (cNode c :: closed) _ pq1) as [m | pq2] eqn:Ee; [discriminate|].
    destruct (expand_more efrom eto adjIn adjOut dp len plus sharp sf maxD maxTurns c _ _ _ _ Ee) as (new & -> & Hl & Hn & _). apply mem_notIn in Em. pose proof (weight_close closed (cNode c) Hc Em). apply IH.
    + intros x Hx. apply in_app_iff in Hx. destruct Hx as [Hx | Hx]; [apply Hpq1; exact Hx|]. destruct (Hn x Hx) as (g & m & Hg & -> & _). cbn [nextC cNode].
      apply (around_In E efrom eto adjIn adjOut dp len plus sharp sf maxD HIn HOut) in Hg. destruct Hg as (HE & [(_ & Hg) | (Hg & _)]); rewrite <- Hg; apply Hends; exact HE.
    + rewrite app_length. lia.
Qed.
Lemma depth_ends : forall fuel e, E e -> 2 + weight [] < fuel -> depthSearch fuel e <> None.
Proof.
  intros fuel e He Hf. unfold Snap_model.depthSearch. destruct (_ && _); [discriminate|]. destruct (_ && _); [discriminate|]. destruct (_ && _); [discriminate|].
  apply search_ends.
  - intros c [<- | Hc]; [apply Hends; exact He|]. destruct (efrom e =? eto e); [destruct Hc|]. destruct Hc as [<- | []]. apply Hends. exact He.
  - destruct (efrom e =? eto e); cbn [length]; lia.
Qed.
End SearchMain.

(** ** Snapping *)
Lemma perm_filter : forall A (f : A -> bool) l l', Permutation l l' -> Permutation (filter f l) (filter f l').
Proof.
  intros A f l l' H. induction H as [|x l l' H IH | x y l | l l' l'' H1 IH1 H2 IH2]; cbn.
  - constructor.
  - destruct (f x); [constructor|]; exact IH.
  - destruct (f x), (f y); try apply Permutation_refl. apply perm_swap.
  - eapply Permutation_trans; eassumption.
Qed.
Lemma concat_upd : forall A (L : list (list A)) i l, nth_error L i = Some l -> exists rest, Permutation (concat L) (l ++ rest) /\
  forall l', Permutation (concat (ListAux.upd i (fun _ => l') L)) (l' ++ rest).
Proof.
  intros A L. induction L as [|x L IH]; intros i l H; [destruct i; discriminate|]. destruct i as [|i]; cbn [nth_error] in H.
  - injection H as ->. exists (concat L). split; [apply Permutation_refl | intros l'; apply Permutation_refl].
  - destruct (IH i l H) as (rest & H1 & H2). exists (x ++ rest). cbn [concat ListAux.upd]. split.
    + rewrite H1. rewrite !app_assoc. apply Permutation_app_tail, Permutation_app_comm.
    + intros l'. rewrite (H2 l'). rewrite !app_assoc. apply Permutation_app_tail, Permutation_app_comm.
Qed.

Lemma NoDup_filter_map : forall A (g : A -> nat) f l, NoDup (map g l) -> NoDup (map g (filter f l)).
Proof.
  intros A g f l. induction l as [|x l IH]; intros H; [constructor|]. cbn [map filter] in *. inversion H as [|? ? Hx Hl]; subst. destruct (f x); [|apply IH; exact Hl]. cbn [map]. constructor; [|apply IH; exact Hl].
  intros Hi. apply Hx. apply in_map_iff in Hi. destruct Hi as (y & Hy & Hin). apply filter_In in Hin. rewrite <- Hy. apply in_map. tauto.
Qed.

Section Snap.
Context {P I PL : Type}.
Notation edge := (@edge PL).
Notation st := (@st P I PL).
Variable hav : P -> P -> Z.
Variable half five : Z.
Variable plus : Z -> Z -> Z.
Variable project : P -> P -> P -> P.
Variable sharpAt : P -> P -> P -> bool.
Variable lvl : PL -> nat.
Variable maxSnapLevel : nat.
Variable maxBlockDistance : Z.
Variable simiEq simiLow : I -> I -> bool.
Variable noTrack : I -> bool.
Variable takeTrack : I -> I -> I.
Variable pick : list cand -> option (cand * list cand).
Variable ord : list edge -> list edge.
Hypothesis Hpick : forall l, match pick l with None => l = [] | Some (c, r) => Permutation l (c :: r) end.
Hypothesis Hord : forall l, Permutation (ord l) l.
Notation searchIn := (searchIn hav plus sharpAt pick ord).
Notation snapEdge := (snapEdge hav half five plus project sharpAt lvl maxSnapLevel maxBlockDistance simiEq simiLow noTrack takeTrack pick ord).
Notation snapEdges := (snapEdges hav half five plus project sharpAt lvl maxSnapLevel maxBlockDistance simiEq simiLow noTrack takeTrack pick ord).
Notation Kept := (Kept noTrack takeTrack lvl maxSnapLevel).
Notation Filled := (Filled noTrack takeTrack).

Lemma findE_In : forall (s : st) e, Ok s -> In e (edges s) -> findE s (eId e) = Some e.
Proof.
  intros s e HO. unfold findE. pose proof (ok_ids s HO) as Hnd. induction (edges s) as [|x l IH]; intros Hin; [destruct Hin|]. cbn [find map] in *. inversion Hnd as [|? ? Hx Hl]; subst.
  destruct Hin as [-> | Hin]; [rewrite Nat.eqb_refl; reflexivity|]. destruct (eId x =? eId e) eqn:Ee; [|apply IH; assumption].
  apply Nat.eqb_eq in Ee. exfalso. apply Hx. rewrite Ee. apply in_map. exact Hin.
Qed.
Lemma findE_some : forall (s : st) i e, findE s i = Some e -> In e (edges s) /\ eId e = i.
Proof. intros s i e H. apply find_some in H. destruct H as (H1 & H2). apply Nat.eqb_eq in H2. tauto. Qed.
Notation EE := present.
Lemma EE_ex : forall (s : st) i, Ok s -> EE s i -> exists e, In e (edges s) /\ eId e = i /\ fromOf s i = eFrom e /\ toOf s i = eTo e.
Proof.
  intros s i HO H. apply in_map_iff in H. destruct H as (e & <- & Hin). exists e. unfold fromOf, toOf. rewrite (findE_In s e HO Hin). tauto.
Qed.
Lemma adj_In : forall (s : st) n g (f : edge -> nat) (f' : nat -> nat), Ok s -> (forall e, In e (edges s) -> f' (eId e) = f e) ->
  In g (map eId (ord (filter (fun e => f e =? n) (edges s)))) <-> EE s g /\ f' g = n.
Proof.
  intros s n g f f' HO Hf. split.
  - intros H. apply in_map_iff in H. destruct H as (e & <- & Hin). apply (Permutation_in _ (Hord _)), filter_In in Hin. destruct Hin as (Hin & Hn). apply Nat.eqb_eq in Hn.
    split; [apply in_map; exact Hin | rewrite (Hf e Hin); exact Hn].
  - intros (H & Hn). apply in_map_iff in H. destruct H as (e & <- & Hin). rewrite (Hf e Hin) in Hn. apply in_map, (Permutation_in _ (Permutation_sym (Hord _))), filter_In. split; [exact Hin | apply Nat.eqb_eq; exact Hn].
Qed.
Lemma fromOf_In : forall (s : st) e, Ok s -> In e (edges s) -> fromOf s (eId e) = eFrom e.
Proof. intros s e HO H. unfold fromOf. rewrite (findE_In s e HO H). reflexivity. Qed.
Lemma toOf_In : forall (s : st) e, Ok s -> In e (edges s) -> toOf s (eId e) = eTo e.
Proof. intros s e HO H. unfold toOf. rewrite (findE_In s e HO H). reflexivity. Qed.
Notation adjI s := (fun n => map eId (ord (filter (fun e => eTo e =? n) (edges s)))).
Notation adjO s := (fun n => map eId (ord (filter (fun e => eFrom e =? n) (edges s)))).
Notation FindableIn := (Reached hav plus sharpAt).
Notation fullAt := (fullAt sharpAt).
Lemma adj_len : forall (s : st) (f : edge -> nat) n, length (map eId (ord (filter (fun e => f e =? n) (edges s)))) = length (filter (fun e => f e =? n) (edges s)).
Proof. intros s f n. rewrite map_length. apply Permutation_length, Hord. Qed.
Lemma Walk_ext : forall E ef et dp len pl (full full' : nat -> nat -> nat -> Prop) e, (forall a n m, full a n m <-> full' a n m) ->
  forall n f d k, Walk E ef et dp len pl full e n f d k -> Walk E ef et dp len pl full' e n f d k.
Proof.
  intros E ef et dp len pl full full' e Hx n f d k H. induction H as [n Hn | n f d k a g m t HW IH HE Hj Hne Hja Ht]; [constructor; exact Hn|].
  eapply Wk_step; try eassumption. rewrite <- !Hx. exact Ht.
Qed.
Lemma Findable_ext : forall E ef et dp len pl (full full' : nat -> nat -> nat -> Prop) e mD mT n, (forall a n m, full a n m <-> full' a n m) ->
  Findable E ef et dp len pl full e mD mT n <-> Findable E ef et dp len pl full' e mD mT n.
Proof.
  intros E ef et dp len pl full full' e mD mT n Hx. unfold Findable. split; intros [H | (f & d & k & HW & Ha)]; try (left; exact H); right; exists f, d, k; (split; [|exact Ha]).
  - apply (Walk_ext _ _ _ _ _ _ full full' e Hx). exact HW.
  - apply (Walk_ext _ _ _ _ _ _ full' full e); [intros a n' m; symmetry; apply Hx | exact HW].
Qed.
Lemma full_ok : forall (s : st) a n m, fullT (adjI s) (adjO s) (fun n a b => sharpAt (geo s n) (geo s a) (geo s b)) a n m <-> fullAt s a n m.
Proof. intros s a n m. unfold fullT, Snap_spec.fullAt. rewrite !adj_len. tauto. Qed.
Lemma searchIn_found : forall (s : st) sf p D e m, Ok s -> searchIn s sf p D e = Some (Some m) -> sf m = true /\ FindableIn s p D e m.
Proof.
  intros s sf p D e m HO H. unfold Snap_model.searchIn in H.
  apply (depth_found (EE s)) in H; [|intros n g; apply adj_In; [exact HO | intros x Hx; apply toOf_In; assumption] | intros n g; apply adj_In; [exact HO | intros x Hx; apply fromOf_In; assumption] | exact Hpick].
  destruct H as (Hs & Hf). split; [exact Hs|]. unfold Reached. eapply Findable_ext; [|exact Hf]. intros a n m'. symmetry. apply full_ok.
Qed.
(** the number of edges around nodes *)
Lemma sum_filter : forall A (f : A -> nat) nds es, NoDup nds -> list_sum (map (fun n => length (filter (fun e => f e =? n) es)) nds) <= length es.
Proof.
  intros A f nds es Hnd. induction es as [|e es IH]; [cbn; induction nds as [|n l IHn]; [cbn; lia | inversion Hnd; subst; cbn; apply IHn; assumption]|].
  cbn [length]. transitivity (list_sum (map (fun n => length (filter (fun x => f x =? n) es)) nds) + 1); [|lia]. clear IH.
  induction nds as [|n l IHn]; [cbn; lia|]. inversion Hnd as [|? ? Hn Hl]; subst. cbn [map list_sum fold_right]. change (fold_right Nat.add 0) with list_sum. specialize (IHn Hl). cbn [filter] in IHn |- *.
  destruct (f e =? n) eqn:Ef; [|lia]. apply Nat.eqb_eq in Ef. cbn [length].
  replace (list_sum (map (fun n0 => length (if f e =? n0 then e :: filter (fun x => f x =? n0) es else filter (fun x => f x =? n0) es)) l)) with (list_sum (map (fun n0 => length (filter (fun x => f x =? n0) es)) l)); [lia|].
  f_equal. apply map_ext_in. intros a Ha. replace (f e =? a) with false; [reflexivity|]. symmetry. apply Nat.eqb_neq. congruence.
Qed.
Lemma sum_add : forall A (f g : A -> nat) l, list_sum (map (fun x => f x + g x) l) = list_sum (map f l) + list_sum (map g l).
Proof. intros A f g l. induction l as [|x l IH]; [reflexivity|]. cbn [map list_sum fold_right]. change (fold_right Nat.add 0) with list_sum. lia. Qed.
Lemma searchIn_ends : forall (s : st) sf p D e, Ok s -> EE s e -> searchIn s sf p D e <> None.
Proof.
  intros s sf p D e HO He. unfold Snap_model.searchIn.
  set (nds := nodup Nat.eq_dec (map eFrom (edges s) ++ map eTo (edges s))).
  apply (depth_ends (EE s)) with (nds := nds).
  - intros n g; apply adj_In; [exact HO | intros x Hx; apply toOf_In; assumption].
  - intros n g; apply adj_In; [exact HO | intros x Hx; apply fromOf_In; assumption].
  - exact Hpick.
  - apply NoDup_nodup.
  - intros g Hg. destruct (EE_ex s g HO Hg) as (x & Hx & _ & Hf & Ht). rewrite Hf, Ht. unfold nds. rewrite !nodup_In, !in_app_iff, !in_map_iff. split; [left | right]; exists x; tauto.
  - exact He.
  - unfold weight. assert (Hs : forall n, length (around (fromOf s) (toOf s) (adjI s) (adjO s) n) = length (filter (fun e => eTo e =? n) (edges s)) + length (filter (fun e => eFrom e =? n) (edges s))).
    { intros n. unfold around. rewrite app_length, !map_length. f_equal; apply Permutation_length, Hord. }
    assert (Hm : forall l, map (fun n => if mem n [] then 0 else length (around (fromOf s) (toOf s) (adjI s) (adjO s) n)) l = map (fun n => length (filter (fun e => eTo e =? n) (edges s)) + length (filter (fun e => eFrom e =? n) (edges s))) l).
    { intros l. apply map_ext. intros n. cbn [mem existsb]. apply Hs. }
    rewrite Hm, sum_add. pose proof (sum_filter _ eTo nds (edges s) (NoDup_nodup _ _)). pose proof (sum_filter _ eFrom nds (edges s) (NoDup_nodup _ _)). lia.
Qed.

(** *** Chains *)
Lemma Chain_payload : forall pl a b (l : list edge) mid, Chain pl a b l mid -> forall x, In x l -> ePl x = pl.
Proof. intros pl a b l mid H. induction H as [e He | e b l mid He H IH]; intros x Hx; [destruct Hx as [<- | []]; exact He | destruct Hx as [<- | Hx]; [exact He | apply IH; exact Hx]]. Qed.
Lemma Chain_split : forall pl a b (l : list edge) mid e l1 l2 ne nf, Chain pl a b l mid -> l = l1 ++ e :: l2 ->
  eFrom ne = eFrom e -> eTo nf = eTo e -> eFrom nf = eTo ne -> ePl ne = ePl e -> ePl nf = ePl e ->
  exists m1 m2, mid = m1 ++ m2 /\ Chain pl a b (l1 ++ ne :: nf :: l2) (m1 ++ eTo ne :: m2).
Proof.
  intros pl a b l mid e l1 l2 ne nf H. revert l1. induction H as [x Hx | x b l mid Hx H IH]; intros l1 Heq Hf Ht Hm Hp1 Hp2.
  - destruct l1 as [|y l1]; [|destruct l1; discriminate]. injection Heq as -> <-. exists [], []. split; [reflexivity|]. cbn [app]. rewrite <- Hf, <- Ht. apply Ch_cons; [congruence|]. rewrite <- Hm. apply Ch_one. congruence.
  - destruct l1 as [|y l1].
    + injection Heq as -> <-. exists [], (eTo e :: mid). split; [reflexivity|]. cbn [app]. rewrite <- Hf. apply Ch_cons; [congruence|]. rewrite <- Hm, <- Ht. apply Ch_cons; [congruence|]. rewrite Ht. exact H.
    + injection Heq as -> ->. destruct (IH l1 eq_refl Hf Ht Hm Hp1 Hp2) as (m1 & m2 & -> & Hc). exists (eTo y :: m1), m2. split; [reflexivity|]. cbn [app]. apply Ch_cons; [exact Hx | exact Hc].
Qed.
Lemma replay_snoc : forall T t l, replay (T ++ [t]) l = flat_map (fun x => if x =? fst (fst t) then [snd (fst t); snd t] else [x]) (replay T l).
Proof. intros T t l. unfold replay. rewrite fold_left_app. reflexivity. Qed.
Lemma flat_id : forall o (r : list nat) l, ~ In o l -> flat_map (fun x => if x =? o then r else [x]) l = l.
Proof. intros o r l. induction l as [|x l IH]; intros H; [reflexivity|]. cbn [flat_map]. replace (x =? o) with false; [cbn; f_equal; apply IH; intros Hi; apply H; right; exact Hi|]. symmetry. apply Nat.eqb_neq. intros ->. apply H. left. reflexivity. Qed.

(** *** Steps *)
Lemma Kept_refl : forall s : st, Kept s s.
Proof.
  intros s. constructor.
  - split; [lia | reflexivity].
  - intros n _. left. reflexivity.
  - intros n Hn. lia.
  - split; [lia|]. intros k i H. exists i. split; [exact H | constructor].
  - exists [], (map (fun e => [e]) (edges s)), (map (fun _ => []) (edges s)). split; [rewrite app_nil_r; reflexivity|]. rewrite !map_length. split; [reflexivity|]. split; [reflexivity|]. split.
    { rewrite <- flat_map_concat_map. replace (flat_map (fun e => [e]) (edges s)) with (edges s); [apply Permutation_refl|]. induction (edges s) as [|x l IH]; [reflexivity | cbn; f_equal; exact IH]. }
    split. { rewrite Nat.sub_diag. cbn [seq]. rewrite <- flat_map_concat_map. replace (flat_map (fun _ : edge => @nil nat) (edges s)) with (@nil nat); [constructor|]. induction (edges s) as [|x l IH]; [reflexivity | exact IH]. }
    intros i e He. exists [e], []. rewrite !(map_nth_error _ _ _ He). split; [reflexivity|]. split; [reflexivity|]. split; [constructor; reflexivity|]. split; [reflexivity | tauto].
Qed.
Lemma Filled_trans : forall i j k, Filled i j -> Filled j k -> Filled i k.
Proof. intros i j k H. induction H as [i | i j x Hn H IH]; intros Hk; [exact Hk | apply F_track with x; [exact Hn | apply IH; exact Hk]]. Qed.
Lemma updInfo_nth : forall (l : list I) k f i, nth_error (updInfo l k f) i = match nth_error l i with Some x => Some (if i =? k then f x else x) | None => None end.
Proof.
  induction l as [|x l IH]; intros k f i; [destruct i; reflexivity|]. destruct k as [|k].
  - cbn [updInfo]. destruct i as [|i]; cbn [nth_error]; [reflexivity|]. destruct (nth_error l i); reflexivity.
  - cbn [updInfo]. destruct i as [|i]; cbn [nth_error]; [reflexivity|]. change (S i =? S k) with (i =? k). apply IH.
Qed.
Lemma updInfo_length : forall (l : list I) k f, length (updInfo l k f) = length l.
Proof. induction l as [|x l IH]; intros [|k] f; cbn; try reflexivity. f_equal. apply IH. Qed.
Lemma hasSI_false : forall (s : st) n, Ok s -> hasSI s n = false -> forall k, state s n <> Station k.
Proof.
  intros s n HO H k Hk. unfold hasSI, getSI in H. rewrite Hk in H. destruct (nth_ex _ (infos s) k (ok_info s HO n k Hk)) as (i & Hi). rewrite Hi in H. discriminate.
Qed.

(** [Step s k s']: one candidate was handled; [k]: the info of the station *)
Inductive Step (s : st) (k : nat) : nat -> st -> Prop :=
| S_none : forall c, Step s k c s
| S_track : forall c kk j i, nth_error (infos s) kk = Some j -> noTrack j = true ->
    Step s k c (mkSt (size s) (geo s) (state s) (updInfo (infos s) kk (fun j => takeTrack j i)) (edges s) (nextE s) (told s))
| S_set : forall c n i, nth_error (infos s) k = Some i -> n < size s -> (forall kk, state s n <> Station kk) -> Step s k c (setSI s n i)
| S_split : forall e p, In e (edges s) -> lvl (ePl e) <= maxSnapLevel -> Step s k (eId e) (split s e p k).
Lemma snapEdge_step : forall d2 k s g c, Ok s -> EE s c -> k < length (infos s) -> exists s' g', snapEdge d2 k (s, g) c = Some (s', g') /\ Step s k c s'.
Proof.
  intros d2 k s g c HO Hc Hk. unfold Snap_model.snapEdge. destruct (EE_ex s c HO Hc) as (e & He & <- & Hf & Ht). rewrite (findE_In s e HO He).
  destruct (nth_ex _ (infos s) k Hk) as (i & Hi). rewrite Hi. set (geom := project (geo s (eFrom e)) g (geo s (eTo e))).
  pose proof (searchIn_ends s (eqSearch simiEq s i) geom d2 (eId e) HO Hc) as Hn1. destruct (searchIn s (eqSearch simiEq s i) geom d2 (eId e)) as [[eq|]|] eqn:E1; [| |congruence].
  - apply searchIn_found in E1; [|exact HO]. destruct E1 as (E1 & _). unfold eqSearch in E1. destruct (hav g (geo s eq) <? five)%Z; [|exists s, g; split; [reflexivity | constructor]].
    destruct (getSI s eq) as [j|] eqn:Ej; [|discriminate]. unfold getSI in Ej. destruct (state s eq) as [| | |kk] eqn:Es; try discriminate. destruct (noTrack j) eqn:En; eexists _, _; (split; [reflexivity|]); [|constructor].
    apply (S_track s k (eId e) kk j i); assumption.
  - destruct (maxSnapLevel <? lvl (ePl e)) eqn:El; [exists s, g; split; [reflexivity | constructor]|]. apply Nat.ltb_ge in El.
    pose proof (searchIn_ends s (blockSearch simiLow s i) geom maxBlockDistance (eId e) HO Hc) as Hn2. destruct (searchIn s (blockSearch simiLow s i) geom maxBlockDistance (eId e)) as [[x|]|]; [exists s, g; split; [reflexivity | constructor] | |congruence].
    destruct (ok_ends s HO e He) as (He1 & He2).
    destruct (negb (hasSI s (eFrom e)) && (hav geom (geo s (eFrom e)) <? half)%Z) eqn:B1.
    { apply andb_true_iff in B1. rewrite negb_true_iff in B1. eexists _, _. split; [reflexivity|]. apply S_set; [exact Hi | exact He1 | apply hasSI_false; tauto]. }
    destruct (negb (hasSI s (eTo e)) && (hav geom (geo s (eTo e)) <? half)%Z) eqn:B2.
    { apply andb_true_iff in B2. rewrite negb_true_iff in B2. eexists _, _. split; [reflexivity|]. apply S_set; [exact Hi | exact He2 | apply hasSI_false; tauto]. }
    eexists _, _. split; [reflexivity|]. apply S_split; assumption.
Qed.
Lemma NoDup_id : forall (l : list edge) x y, NoDup (map eId l) -> In x l -> In y l -> eId x = eId y -> x = y.
Proof.
  induction l as [|z l IH]; intros x y Hnd Hx Hy He; [destruct Hx|]. cbn [map] in Hnd. inversion Hnd as [|? ? Hz Hl]; subst. destruct Hx as [-> | Hx], Hy as [-> | Hy].
  - reflexivity.
  - exfalso. apply Hz. rewrite He. apply in_map. exact Hy.
  - exfalso. apply Hz. rewrite <- He. apply in_map. exact Hx.
  - apply IH; assumption.
Qed.
Lemma filter_id : forall A (f : A -> bool) l, (forall x, In x l -> f x = true) -> filter f l = l.
Proof. intros A f l. induction l as [|x l IH]; intros H; [reflexivity|]. cbn. rewrite (H x (or_introl eq_refl)). f_equal. apply IH. intros y Hy. apply H. right. exact Hy. Qed.
Lemma split_edges : forall (s : st) e p k, Ok s -> In e (edges s) ->
  edges (split s e p k) = filter (fun x => negb (eId x =? eId e)) (edges s) ++ [mkEdge (nextE s) (eFrom e) (size s) (ePl e); mkEdge (S (nextE s)) (size s) (eTo e) (ePl e)].
Proof.
  intros s e p k HO He. cbn [split edges]. rewrite filter_app. f_equal.
  - apply filter_ext_in. intros x Hx. f_equal. destruct (eId x =? eId e) eqn:Ei.
    + apply Nat.eqb_eq in Ei. rewrite (NoDup_id _ x e (ok_ids s HO) Hx He Ei), !Nat.eqb_refl. reflexivity.
    + destruct ((eFrom x =? eFrom e) && (eTo x =? eTo e)) eqn:Eb; [|reflexivity]. apply andb_true_iff in Eb. rewrite !Nat.eqb_eq in Eb. rewrite (ok_pair s HO x e Hx He (proj1 Eb) (proj2 Eb)), Nat.eqb_refl in Ei. discriminate.
  - apply filter_id. pose proof (ok_ends s HO e He). intros x [<- | [<- | []]]; cbn [eFrom eTo]; apply negb_true_iff, andb_false_iff; rewrite !Nat.eqb_neq; lia.
Qed.
Lemma Step_Ok : forall s k c s', Ok s -> k < length (infos s) -> Step s k c s' -> Ok s'.
Proof.
  intros s k c s' HO Hk H. destruct H as [c | c kk j i Hj Hn | c n i Hi Hn Hs | e p He Hl].
  - exact HO.
  - constructor; cbn; [apply (ok_ids s HO) | apply (ok_new s HO) | apply (ok_pair s HO) | apply (ok_ends s HO) | intros n q Hq; rewrite updInfo_length; apply (ok_info s HO n q Hq)].
  - constructor; cbn; [apply (ok_ids s HO) | apply (ok_new s HO) | apply (ok_pair s HO) | apply (ok_ends s HO) |]. intros m q Hq. rewrite app_length. cbn [length]. unfold Snap_model.upd in Hq. destruct (m =? n); [injection Hq as <-; lia|]. pose proof (ok_info s HO m q Hq). lia.
  - pose proof (ok_new s HO) as Hnew. constructor.
    + rewrite split_edges by assumption. rewrite map_app. cbn [map eId].
      assert (Ho : forall x, In x (map eId (filter (fun x => negb (eId x =? eId e)) (edges s))) -> x < nextE s).
      { intros x Hx. apply in_map_iff in Hx. destruct Hx as (y & <- & Hy). apply filter_In in Hy. apply Hnew. tauto. }
      pose proof (NoDup_filter_map _ eId (fun x => negb (eId x =? eId e)) _ (ok_ids s HO)) as Hnd. revert Ho Hnd. generalize (map eId (filter (fun x => negb (eId x =? eId e)) (edges s))). intros l Ho Hnd.
      apply (Permutation_NoDup (l := nextE s :: S (nextE s) :: l)); [apply (Permutation_app_comm [nextE s; S (nextE s)] l)|].
      constructor; [intros [Hx | Hx]; [lia | specialize (Ho _ Hx); lia]|]. constructor; [intros Hx; specialize (Ho _ Hx); lia | exact Hnd].
    + intros x Hx. rewrite split_edges in Hx by assumption. cbn [split nextE]. apply in_app_iff in Hx. destruct Hx as [Hx | [<- | [<- | []]]]; cbn [eId]; [apply filter_In in Hx; destruct Hx as (Hx & _); specialize (Hnew x Hx); lia | lia | lia].
    + intros x y Hx Hy. rewrite split_edges in Hx, Hy by assumption. rewrite in_app_iff in Hx, Hy. cbn [In] in Hx, Hy.
      assert (Ho : forall z, In z (filter (fun x => negb (eId x =? eId e)) (edges s)) -> In z (edges s) /\ eFrom z < size s /\ eTo z < size s).
      { intros z Hz. apply filter_In in Hz. split; [tauto|]. apply (ok_ends s HO). tauto. }
      pose proof (ok_ends s HO e He).
      destruct Hx as [Hx | [<- | [<- | []]]], Hy as [Hy | [<- | [<- | []]]]; cbn [eFrom eTo]; intros H1 H2; try reflexivity;
        try (apply Ho in Hx); try (apply Ho in Hy); try lia. apply (ok_pair s HO x y); tauto.
    + intros x Hx. rewrite split_edges in Hx by assumption. cbn [split size]. pose proof (ok_ends s HO e He). apply in_app_iff in Hx. destruct Hx as [Hx | [<- | [<- | []]]]; cbn [eFrom eTo]; [|lia|lia].
      apply filter_In in Hx. destruct Hx as (Hx & _). pose proof (ok_ends s HO x Hx). lia.
    + intros m q Hq. cbn [split infos state] in *. unfold Snap_model.upd in Hq. destruct (m =? size s); [injection Hq as <-; exact Hk | apply (ok_info s HO m q Hq)].
Qed.
Lemma Step_Kept : forall s0 s k c s', Ok s -> k < length (infos s) -> Kept s0 s -> Step s k c s' -> Kept s0 s'.
Proof.
  intros s0 s k c s' HO Hk HK H. destruct H as [c | c kk j i Hj Hn | c n i Hi Hn Hs | e p He Hl].
  - exact HK.
  - destruct HK as [K1 K2 K3 (K4 & K5) K6]. constructor; cbn [size geo state infos edges told]; [exact K1 | exact K2 | exact K3 | | exact K6]. rewrite updInfo_length. split; [exact K4|].
    intros q x Hx. destruct (K5 q x Hx) as (y & Hy & HF). rewrite updInfo_nth, Hy. destruct (q =? kk) eqn:Eq; [|exists y; tauto]. apply Nat.eqb_eq in Eq. subst q. rewrite Hj in Hy. injection Hy as <-.
    exists (takeTrack j i). split; [reflexivity|]. apply (Filled_trans _ j); [exact HF|]. apply F_track with i; [exact Hn | constructor].
  - destruct HK as [K1 K2 K3 (K4 & K5) K6]. constructor; cbn [setSI size geo state infos edges told]; [exact K1 | | | | exact K6].
    + intros m Hm. unfold Snap_model.upd. destruct (m =? n) eqn:Em; [|apply K2; exact Hm]. apply Nat.eqb_eq in Em. subst m. right. destruct (K2 n Hm) as [Hst | (_ & q & _ & Hq)]; [|exfalso; exact (Hs q Hq)].
      split; [rewrite <- Hst; exact Hs|]. exists (length (infos s)). split; [lia | reflexivity].
    + intros m Hm. unfold Snap_model.upd. destruct (m =? n); [eexists; reflexivity | apply K3; exact Hm].
    + rewrite app_length. split; [lia|]. intros q x Hx. destruct (K5 q x Hx) as (y & Hy & HF). exists y. split; [apply nth_snoc_some; exact Hy | exact HF].
  - destruct HK as [(K1 & K1') K2 K3 K4 (T & L & M & KT & KL & KM & KPL & KPM & KE)]. constructor.
    + cbn [split size geo]. split; [lia|]. intros m Hm. unfold Snap_model.upd. replace (m =? size s) with false by (symmetry; apply Nat.eqb_neq; lia). apply K1'. exact Hm.
    + cbn [split state infos]. intros m Hm. unfold Snap_model.upd. replace (m =? size s) with false by (symmetry; apply Nat.eqb_neq; lia). apply K2. exact Hm.
    + cbn [split size state]. intros m Hm. unfold Snap_model.upd. destruct (m =? size s) eqn:Em; [eexists; reflexivity|]. apply Nat.eqb_neq in Em. apply K3. lia.
    + exact K4.
    + assert (Hin : In e (concat L)) by (apply (Permutation_in _ (Permutation_sym KPL)); exact He). apply in_concat in Hin. destruct Hin as (l0 & Hl0 & Hel0). apply In_nth_error in Hl0. destruct Hl0 as (i0 & Hi0).
      destruct (nth_ex _ (edges s0) i0) as (e0 & He0); [rewrite <- KL; apply (nth_lt _ L i0 l0 Hi0)|].
      destruct (KE i0 e0 He0) as (l & mid & Hl' & Hmid & Hch & Hid & Hlv). rewrite Hi0 in Hl'. injection Hl' as <-.
      apply in_split in Hel0. destruct Hel0 as (l1 & l2 & Hsp). subst l0.
      set (ne := mkEdge (nextE s) (eFrom e) (size s) (ePl e)). set (nf := mkEdge (S (nextE s)) (size s) (eTo e) (ePl e)).
      destruct (Chain_split _ _ _ _ _ e l1 l2 ne nf Hch eq_refl eq_refl eq_refl eq_refl eq_refl eq_refl) as (m1 & m2 & -> & Hch').
      destruct (concat_upd _ L i0 _ Hi0) as (restL & HL1 & HL2). destruct (concat_upd _ M i0 _ Hmid) as (restM & HM1 & HM2).
      assert (Hndc : NoDup (map eId ((l1 ++ e :: l2) ++ restL))).
      { apply (Permutation_NoDup (l := map eId (edges s))); [apply Permutation_map; rewrite <- HL1; symmetry; exact KPL | exact (ok_ids s HO)]. }
      assert (Hothers : forall x, In x (l1 ++ l2 ++ restL) -> eId x <> eId e).
      { intros x Hx Hxe. rewrite <- app_assoc in Hndc. cbn [app] in Hndc. rewrite map_app in Hndc. cbn [map] in Hndc. apply NoDup_remove_2 in Hndc. apply Hndc. rewrite <- map_app, <- Hxe. apply in_map. exact Hx. }
      exists (T ++ [(eId e, nextE s, S (nextE s))]), (ListAux.upd i0 (fun _ => l1 ++ ne :: nf :: l2) L), (ListAux.upd i0 (fun _ => m1 ++ size s :: m2) M).
      split; [cbn [split told]; rewrite KT, app_assoc; reflexivity|]. rewrite !upd_length. split; [exact KL|]. split; [exact KM|]. split; [|split].
      * rewrite split_edges by assumption. rewrite HL2. rewrite (perm_filter _ _ _ _ (Permutation_trans (Permutation_sym KPL) HL1)). rewrite <- !app_assoc. cbn [app]. rewrite filter_app. cbn [filter]. rewrite Nat.eqb_refl. cbn [negb].
        rewrite <- filter_app, (filter_id _ _ (l1 ++ l2 ++ restL)); [|intros x Hx; apply negb_true_iff, Nat.eqb_neq; apply Hothers; exact Hx].
        fold ne nf. rewrite <- (Permutation_app_comm [ne; nf]). cbn [app]. rewrite <- (Permutation_middle l1 (nf :: l2 ++ restL) ne). apply perm_skip. rewrite <- (Permutation_middle l1 (l2 ++ restL) nf). apply Permutation_refl.
      * rewrite HM2. cbn [split size]. replace (S (size s) - size s0) with (size s - size s0 + 1) by lia. rewrite seq_app. replace (size s0 + (size s - size s0)) with (size s) by lia. cbn [seq].
        rewrite <- KPM, HM1. rewrite <- !app_assoc. cbn [app]. rewrite <- (Permutation_middle m1 (m2 ++ restM) (size s)). rewrite (app_assoc m2 restM), (app_assoc m1 (m2 ++ restM)). apply (Permutation_app_comm [size s]).
      * intros i x Hx. destruct (Nat.eq_dec i i0) as [-> | Hne].
        -- rewrite He0 in Hx. injection Hx as <-. exists (l1 ++ ne :: nf :: l2), (m1 ++ size s :: m2). rewrite (upd_nth_eq _ _ _ _ _ Hi0), (upd_nth_eq _ _ _ _ _ Hmid).
           split; [reflexivity|]. split; [reflexivity|]. split; [exact Hch'|]. split.
           ++ rewrite replay_snoc, <- Hid, (map_app eId l1 (e :: l2)). cbn [map fst snd]. rewrite flat_map_app. cbn [flat_map]. rewrite Nat.eqb_refl.
              rewrite !flat_id; [rewrite map_app; reflexivity | |]; intros Hi; apply in_map_iff in Hi; destruct Hi as (y & Hy & Hyin); apply (Hothers y); try exact Hy; rewrite !in_app_iff; tauto.
           ++ intros Hlt. exfalso. pose proof (Chain_payload _ _ _ _ _ Hch e (in_elt _ _ _)) as Hp. rewrite <- Hp in Hlt. lia.
        -- destruct (KE i x Hx) as (lx & mx & Hlx & Hmx & Hcx & Hidx & Hlvx). exists lx, mx. rewrite !upd_nth_ne by exact Hne. split; [exact Hlx|]. split; [exact Hmx|]. split; [exact Hcx|]. split; [|exact Hlvx].
           rewrite replay_snoc, <- Hidx. cbn [fst snd]. symmetry. apply flat_id. intros Hi. apply in_map_iff in Hi. destruct Hi as (y & Hy & Hyin).
           apply (Hothers y); [|exact Hy]. assert (Hyc : In y restL \/ False); [|destruct Hyc as [Hyc | []]; rewrite !in_app_iff; tauto]. left.
           (* another list of L *)
           clear - Hi0 Hlx Hyin Hne HL1 HL2 Hndc Hy.
           assert (H1 : forall l', In y (concat (ListAux.upd i0 (fun _ => l') L))).
           { intros l'. apply in_concat. exists lx. split; [|exact Hyin]. apply (nth_error_In _ i). rewrite upd_nth_ne by exact Hne. exact Hlx. }
           specialize (H1 []). apply (Permutation_in _ (HL2 [])) in H1. exact H1.
Qed.

(** *** Whole stations *)
Lemma Step_infos : forall s k c s', Step s k c s' -> length (infos s) <= length (infos s').
Proof. intros s k c s' H. destruct H; cbn [infos setSI split]; rewrite ?updInfo_length, ?app_length; lia. Qed.
Lemma Step_edges : forall s k c s' x, Ok s -> Step s k c s' -> EE s x -> x <> c -> EE s' x.
Proof.
  intros s k c s' x HO H Hx Hne. destruct H as [c | c kk j i Hj Hn | c n i Hi Hn Hs | e p He Hl]; try exact Hx.
  unfold present. rewrite split_edges by assumption. rewrite map_app. apply in_app_iff. left. apply in_map_iff in Hx. destruct Hx as (y & <- & Hy). apply in_map, filter_In. split; [exact Hy|]. apply negb_true_iff, Nat.eqb_neq. exact Hne.
Qed.
(** stations that are new come from station info [k] *)
Definition Come (s0 : st) (k : nat) (s : st) : Prop :=
  (forall m, m < size s0 -> (forall q, state s0 m <> Station q) -> forall k', state s m = Station k' ->
     exists i j, nth_error (infos s0) k = Some i /\ nth_error (infos s) k' = Some j /\ Filled i j) /\
  (forall m, size s0 <= m < size s -> state s m = Station k).
Lemma Come_refl : forall s k, Come s k s.
Proof. intros s k. split; [intros m _ H k' Hk; exfalso; exact (H k' Hk) | intros m Hm; lia]. Qed.
Lemma Step_Come : forall s0 s k c s', Ok s -> k < length (infos s0) -> Kept s0 s -> Come s0 k s -> Step s k c s' -> Come s0 k s'.
Proof.
  intros s0 s k c s' HO Hk0 HK (C1 & C2) H. destruct H as [c | c kk j i Hj Hn | c n i Hi Hn Hs | e p He Hl].
  - split; assumption.
  - split; [|exact C2]. cbn [state infos]. intros m Hm Hq k' Hk'. destruct (C1 m Hm Hq k' Hk') as (i0 & j0 & H1 & H2 & H3). rewrite updInfo_nth, H2. destruct (k' =? kk) eqn:Ek.
    + apply Nat.eqb_eq in Ek. subst kk. rewrite H2 in Hj. injection Hj as ->. exists i0, (takeTrack j i). split; [exact H1|]. split; [reflexivity|]. apply (Filled_trans _ j); [exact H3|]. apply F_track with i; [exact Hn | constructor].
    + exists i0, j0. tauto.
  - split; cbn [setSI state infos size]; intros m Hm.
    + intros Hq k' Hk'. unfold Snap_model.upd in Hk'. destruct (m =? n).
      * injection Hk' as <-. destruct (nth_ex _ (infos s0) k Hk0) as (i0 & Hi0). exists i0, i. split; [exact Hi0|]. split; [rewrite nth_error_app2 by lia; rewrite Nat.sub_diag; reflexivity|].
        destruct (proj2 (kp_infos _ _ _ _ _ _ HK) k i0 Hi0) as (i1 & Hi1 & HF). rewrite Hi in Hi1. injection Hi1 as <-. exact HF.
      * destruct (C1 m Hm Hq k' Hk') as (i0 & j0 & H1 & H2 & H3). exists i0, j0. split; [exact H1|]. split; [apply nth_snoc_some; exact H2 | exact H3].
    + unfold Snap_model.upd. destruct (m =? n) eqn:Em; [|apply C2; exact Hm]. apply Nat.eqb_eq in Em. subst m. exfalso. exact (Hs k (C2 n Hm)).
  - split; cbn [split state infos size]; intros m Hm.
    + intros Hq k' Hk'. unfold Snap_model.upd in Hk'. replace (m =? size s) with false in Hk' by (symmetry; apply Nat.eqb_neq; pose proof (proj1 (kp_nodes _ _ _ _ _ _ HK)); lia). exact (C1 m Hm Hq k' Hk').
    + unfold Snap_model.upd. destruct (m =? size s) eqn:Em; [reflexivity|]. apply Nat.eqb_neq in Em. apply C2. lia.
Qed.
Lemma snapEdges_ok : forall d2 k s0 cs s g, Ok s -> k < length (infos s0) -> k < length (infos s) -> Kept s0 s -> NoDup cs -> (forall c, In c cs -> EE s c) ->
  exists s' g', snapEdges d2 k (s, g) cs = Some (s', g') /\ Ok s' /\ Kept s0 s' /\ (forall q, Kept q s -> Kept q s') /\ (Come s0 k s -> Come s0 k s').
Proof.
  intros d2 k s0 cs. induction cs as [|c cs IH]; intros s g HO Hk0 Hk HK Hnd Hc; [exists s, g; split; [reflexivity|]; split; [exact HO|]; split; [exact HK | tauto]|].
  cbn [Snap_model.snapEdges]. inversion Hnd as [|? ? Hnc Hnd']; subst. destruct (snapEdge_step d2 k s g c HO (Hc c (or_introl eq_refl)) Hk) as (s1 & g1 & E1 & HS). rewrite E1.
  pose proof (Step_infos _ _ _ _ HS).
  destruct (IH s1 g1) as (s' & g' & E' & O' & K' & KK' & C').
  - eapply Step_Ok; eassumption.
  - exact Hk0.
  - lia.
  - eapply Step_Kept; eassumption.
  - exact Hnd'.
  - intros x Hx. eapply Step_edges; [exact HO | exact HS | apply Hc; right; exact Hx | intros ->; contradiction].
  - exists s', g'. split; [exact E'|]. split; [exact O'|]. split; [exact K'|]. split.
    + intros q Hq. apply KK'. exact (Step_Kept q s k c s1 HO Hk Hq HS).
    + intros HC. apply C'. exact (Step_Come s0 s k c s1 HO Hk0 HK HC HS).
Qed.
Variable cands : st -> P -> Z -> list nat.
Notation snapStation := (snapStation hav half five plus project sharpAt lvl maxSnapLevel maxBlockDistance simiEq simiLow noTrack takeTrack pick ord cands).
Notation snapStats := (snapStats hav half five plus project sharpAt lvl maxSnapLevel maxBlockDistance simiEq simiLow noTrack takeTrack pick ord cands).
Notation snapAll := (snapAll hav half five plus project sharpAt lvl maxSnapLevel maxBlockDistance simiEq simiLow noTrack takeTrack pick ord cands).
Hypothesis Hcands : forall s p d, Ok s -> NoDup (cands s p d) /\ forall c, In c (cands s p d) -> EE s c.
Lemma snapStation_ok : forall s n d k, Ok s -> state s n = Station k -> exists s', snapStation s n d = Some s' /\ Ok s' /\ Kept s s' /\ (forall q, Kept q s -> Kept q s') /\ Come s k s'.
Proof.
  intros s n d k HO Hn. unfold Snap_model.snapStation. rewrite Hn. destruct (Hcands s (geo s n) d HO) as (Hnd & Hc). pose proof (ok_info s HO n k Hn) as Hk.
  destruct (snapEdges_ok (2 * d) k s (cands s (geo s n) d) s (geo s n) HO Hk Hk (Kept_refl s) Hnd Hc) as (s' & g' & -> & O' & K' & KK & C').
  exists s'. split; [reflexivity|]. split; [exact O'|]. split; [exact K'|]. split; [exact KK | apply C', Come_refl].
Qed.
Lemma Kept_station : forall (s s' : st) n k, Kept s s' -> n < size s -> state s n = Station k -> state s' n = Station k.
Proof. intros s s' n k HK Hn Hs. destruct (kp_state _ _ _ _ _ _ HK n Hn) as [-> | (H & _)]; [exact Hs | exfalso; exact (H k Hs)]. Qed.
Lemma snapAll_ok : forall l s0 s, Ok s -> Kept s0 s -> (forall x, In x l -> snd x < size s0 /\ exists k, state s0 (snd x) = Station k) -> exists s', snapAll s l = Some s' /\ Ok s' /\ Kept s0 s'.
Proof.
  induction l as [|(d & n) l IH]; intros s0 s HO HK Hl; [exists s; tauto|]. cbn [Snap_model.snapAll]. destruct (Hl _ (or_introl eq_refl)) as (Hn & k & Hk). cbn [snd] in Hn, Hk.
  destruct (snapStation_ok s n d k HO (Kept_station _ _ _ _ HK Hn Hk)) as (s1 & -> & O1 & _ & KK & _). apply IH; [exact O1 | apply KK; exact HK | intros x Hx; apply Hl; right; exact Hx].
Qed.
Lemma snapStats_ok : forall s ds stations, Ok s -> (forall n, In n stations -> n < size s /\ exists k, state s n = Station k) -> exists s', snapStats s ds stations = Some s' /\ Ok s' /\ Kept s s'.
Proof.
  intros s ds stations HO Hs. apply snapAll_ok; [exact HO | apply Kept_refl|]. intros x Hx. apply in_flat_map in Hx. destruct Hx as (d & _ & Hx). apply in_map_iff in Hx. destruct Hx as (n & <- & Hn). apply Hs. exact Hn.
Qed.

(** Any other invariant of the steps *)
Lemma snapEdges_inv : forall (J : st -> Prop), (forall s k c s', Ok s -> J s -> Step s k c s' -> J s') ->
  forall d2 k cs s g, Ok s -> k < length (infos s) -> NoDup cs -> (forall c, In c cs -> EE s c) -> J s ->
  forall s' g', snapEdges d2 k (s, g) cs = Some (s', g') -> J s'.
Proof.
  intros J HJ d2 k cs. induction cs as [|c cs IH]; intros s g HO Hk Hnd Hc HS0 s' g' E; [now injection E as <- <-|].
  cbn [Snap_model.snapEdges] in E. inversion Hnd as [|? ? Hnc Hnd']; subst. destruct (snapEdge_step d2 k s g c HO (Hc c (or_introl eq_refl)) Hk) as (s1 & g1 & E1 & HS). rewrite E1 in E.
  pose proof (Step_infos _ _ _ _ HS). apply (IH s1 g1) with (g' := g'); auto.
  - eapply Step_Ok; eassumption.
  - lia.
  - intros x Hx. eapply Step_edges; [exact HO | exact HS | apply Hc; right; exact Hx | intros ->; contradiction].
  - eapply HJ; eassumption.
Qed.
Lemma snapStats_inv : forall (J : st -> Prop), (forall s k c s', Ok s -> J s -> Step s k c s' -> J s') ->
  forall s ds stations, Ok s -> (forall n, In n stations -> n < size s /\ exists k, state s n = Station k) -> J s ->
  exists s', snapStats s ds stations = Some s' /\ Ok s' /\ Kept s s' /\ J s'.
Proof.
  intros J HJ s ds stations HO Hs HS0. unfold Snap_model.snapStats.
  assert (Hl : forall x, In x (flat_map (fun d => map (fun n => (d, n)) stations) ds) -> snd x < size s /\ exists k, state s (snd x) = Station k).
  { intros x Hx. apply in_flat_map in Hx. destruct Hx as (d & _ & Hx). apply in_map_iff in Hx. destruct Hx as (n & <- & Hn). apply Hs. exact Hn. }
  revert Hl. generalize (flat_map (fun d => map (fun n => (d, n)) stations) ds). intros l. pose proof (Kept_refl s) as HK. intros Hl.
  enough (X : forall s1, Ok s1 -> Kept s s1 -> J s1 -> exists s', snapAll s1 l = Some s' /\ Ok s' /\ Kept s s' /\ J s') by (apply X; assumption).
  clear HO HK HS0. induction l as [|(d & n) l IH]; intros s1 HO HK HS0.
  - exists s1. tauto.
  - cbn [Snap_model.snapAll]. destruct (Hl _ (or_introl eq_refl)) as (Hn & k & Hk). cbn [snd] in Hn, Hk. pose proof (Kept_station _ _ _ _ HK Hn Hk) as Hk1.
    destruct (snapStation_ok s1 n d k HO Hk1) as (s2 & E2 & O2 & _ & KK & _). rewrite E2. apply IH; [intros x Hx; apply Hl; right; exact Hx | exact O2 | apply KK; exact HK |].
    unfold Snap_model.snapStation in E2. rewrite Hk1 in E2. destruct (Hcands s1 (geo s1 n) d HO) as (Hnd & Hc).
    destruct (snapEdges (2 * d) k (s1, geo s1 n) (cands s1 (geo s1 n) d)) as [[s3 g3]|] eqn:E3; [|discriminate]. injection E2 as <-.
    eapply (snapEdges_inv J HJ); [exact HO | exact (ok_info s1 HO n k Hk1) | exact Hnd | exact Hc | exact HS0 | exact E3].
Qed.

(** *** One candidate *)
Lemma getSI_Info : forall (s : st) m j, getSI s m = Some j <-> Info s m j.
Proof.
  intros s m j. unfold getSI, Info. destruct (state s m) as [| | |k]; split; intros H; try discriminate; try (destruct H as (q & H & _); discriminate).
  - exists k. tauto.
  - destruct H as (q & Hq & H). injection Hq as ->. exact H.
Qed.
Lemma eqSearch_ok : forall (s : st) i m, eqSearch simiEq s i m = true <-> exists j, Info s m j /\ simiEq j i = true.
Proof.
  intros s i m. unfold eqSearch. destruct (getSI s m) as [j|] eqn:E.
  - apply getSI_Info in E. split; [intros H; exists j; tauto|]. intros (j' & H & Hs). apply getSI_Info in H, E. rewrite H in E. injection E as ->. exact Hs.
  - split; [discriminate|]. intros (j & H & _). apply getSI_Info in H. congruence.
Qed.
Lemma blockSearch_ok : forall (s : st) i m, blockSearch simiLow s i m = true <-> state s m = Blocker \/ exists j, Info s m j /\ simiLow j i = true.
Proof.
  intros s i m. assert (HB : isBlocker s m = true <-> state s m = Blocker) by (unfold isBlocker; destruct (state s m); split; congruence).
  unfold blockSearch. destruct (getSI s m) as [j|] eqn:E.
  - apply getSI_Info in E. destruct (simiLow j i) eqn:El.
    + split; [intros _; right; exists j; tauto | reflexivity].
    + rewrite HB. split; [tauto|]. intros [H | (j' & H & Hs)]; [exact H|]. apply getSI_Info in H, E. rewrite H in E. injection E as ->. congruence.
  - rewrite HB. split; [tauto|]. intros [H | (j' & H & Hs)]; [exact H|]. apply getSI_Info in H. congruence.
Qed.
Lemma setSI_placed : forall (s : st) n i, PlacedAt s (setSI s n i) n i.
Proof.
  intros s n i. unfold PlacedAt, Info, setSI. cbn [size edges told state geo infos]. repeat split.
  - exists (length (infos s)). unfold Snap_model.upd. rewrite Nat.eqb_refl. split; [reflexivity|]. rewrite nth_error_app2 by lia. rewrite Nat.sub_diag. reflexivity.
  - intros m Hm. unfold Snap_model.upd. replace (m =? n) with false by (symmetry; apply Nat.eqb_neq; exact Hm). reflexivity.
  - intros k j. apply nth_snoc_some.
Qed.
Lemma split_placed : forall (s : st) e p k, Ok s -> In e (edges s) -> PlacedOn s (split s e p k) e p k.
Proof.
  intros s e p k HO He. unfold PlacedOn. rewrite split_edges by assumption. cbn [split size geo state infos told]. unfold Snap_model.upd. rewrite Nat.eqb_refl. repeat (split; [reflexivity|]). split.
  - intros m Hm. replace (m =? size s) with false by (symmetry; apply Nat.eqb_neq; lia). tauto.
  - exists (mkEdge (nextE s) (eFrom e) (size s) (ePl e)), (mkEdge (S (nextE s)) (size s) (eTo e) (ePl e)). cbn [eFrom eTo ePl eId]. repeat (split; [reflexivity|]).
    rewrite app_comm_cons. apply Permutation_app_tail. pose proof (ok_ids s HO) as Hnd. apply in_split in He. destruct He as (l1 & l2 & Hl). rewrite Hl in *. rewrite filter_app. cbn [filter]. rewrite Nat.eqb_refl. cbn [negb].
    rewrite map_app in Hnd. cbn [map] in Hnd. apply NoDup_remove_2 in Hnd. rewrite <- map_app in Hnd. rewrite <- filter_app, filter_id; [apply Permutation_middle|]. intros x Hx. apply negb_true_iff, Nat.eqb_neq. intros Hxe. apply Hnd. rewrite <- Hxe. apply in_map. exact Hx.
Qed.
Lemma noInfo : forall (s : st) n, negb (hasSI s n) = true <-> forall j, ~ Info s n j.
Proof.
  intros s n. unfold hasSI. rewrite negb_true_iff. destruct (getSI s n) as [j|] eqn:E; split; intros H; try discriminate; try reflexivity.
  - exfalso. apply (H j). apply getSI_Info. exact E.
  - intros j Hj. apply getSI_Info in Hj. congruence.
Qed.
Lemma snapEdge_cases : forall d2 k (s : st) g e i s' g', Ok s -> In e (edges s) -> nth_error (infos s) k = Some i ->
  snapEdge d2 k (s, g) (eId e) = Some (s', g') ->
  let geom := project (geo s (eFrom e)) g (geo s (eTo e)) in
  (* an equivalent station is near: at most its track is set *)
  (exists m, Reached hav plus sharpAt s geom d2 (eId e) m /\ (exists j, Info s m j /\ simiEq j i = true /\ (infos s' = infos s \/ ((hav g (geo s m) < five)%Z /\ noTrack j = true))) /\ OnlyTrack noTrack takeTrack s s' i /\ g' = g) \/
  (* a road of a high level *)
  (maxSnapLevel < lvl (ePl e) /\ s' = s /\ g' = g) \/
  (* a blocker is near *)
  ((exists m, Reached hav plus sharpAt s geom maxBlockDistance (eId e) m /\ (state s m = Blocker \/ exists j, Info s m j /\ simiLow j i = true)) /\ s' = s /\ g' = g) \/
  (* at an end *)
  (lvl (ePl e) <= maxSnapLevel /\ exists n, (n = eFrom e \/ n = eTo e) /\ (forall j, ~ Info s n j) /\ (hav geom (geo s n) < half)%Z /\ PlacedAt s s' n i /\ g' = g) \/
  (* on the edge *)
  (lvl (ePl e) <= maxSnapLevel /\ (forall n, n = eFrom e \/ n = eTo e -> (exists j, Info s n j) \/ (half <= hav geom (geo s n))%Z) /\ PlacedOn s s' e geom k /\ g' = geom).
Proof.
  intros d2 k s g e i s' g' HO He Hi H. cbv zeta. unfold Snap_model.snapEdge in H. rewrite (findE_In s e HO He), Hi in H. set (geom := project (geo s (eFrom e)) g (geo s (eTo e))) in *.
  destruct (searchIn s (eqSearch simiEq s i) geom d2 (eId e)) as [[eq|]|] eqn:E1; [| |discriminate].
  - left. apply searchIn_found in E1; [|exact HO]. destruct E1 as (E1 & E2). exists eq. split; [exact E2|]. apply eqSearch_ok in E1. destruct E1 as (j & Hj & Hs).
    destruct (hav g (geo s eq) <? five)%Z eqn:E5.
    + pose proof (proj2 (getSI_Info _ _ _) Hj) as Hg. rewrite Hg in H. destruct Hj as (kk & Hkk & Hjj). rewrite Hkk in H. destruct (noTrack j) eqn:En; injection H as <- <-.
      * split; [exists j; split; [exists kk; tauto|]; split; [exact Hs | right; apply Z.ltb_lt in E5; tauto]|]. split; [|reflexivity]. unfold OnlyTrack. cbn [size edges told geo state infos]. repeat (split; [reflexivity|]). right. exists kk, j. split; [exact Hjj|]. split; [exact En|].
        split; [rewrite updInfo_nth, Hjj, Nat.eqb_refl; reflexivity|]. intros q Hq. rewrite updInfo_nth. replace (q =? kk) with false by (symmetry; apply Nat.eqb_neq; exact Hq). destruct (nth_error (infos s) q); reflexivity.
      * split; [exists j; split; [exists kk; tauto|]; tauto|]. split; [|reflexivity]. unfold OnlyTrack. tauto.
    + injection H as <- <-. split; [exists j; tauto|]. split; [|reflexivity]. unfold OnlyTrack. tauto.
  - right. destruct (maxSnapLevel <? lvl (ePl e)) eqn:El; [apply Nat.ltb_lt in El; injection H as <- <-; left; tauto|]. apply Nat.ltb_ge in El. right.
    destruct (searchIn s (blockSearch simiLow s i) geom maxBlockDistance (eId e)) as [[x|]|] eqn:E2; [| |discriminate].
    + left. injection H as <- <-. split; [|tauto]. apply searchIn_found in E2; [|exact HO]. exists x. rewrite <- blockSearch_ok. tauto.
    + right. destruct (negb (hasSI s (eFrom e)) && (hav geom (geo s (eFrom e)) <? half)%Z) eqn:B1.
      { left. split; [exact El|]. injection H as <- <-. apply andb_true_iff in B1. rewrite noInfo, Z.ltb_lt in B1. exists (eFrom e). split; [left; reflexivity|]. split; [tauto|]. split; [tauto|]. split; [apply setSI_placed | reflexivity]. }
      destruct (negb (hasSI s (eTo e)) && (hav geom (geo s (eTo e)) <? half)%Z) eqn:B2.
      { left. split; [exact El|]. injection H as <- <-. apply andb_true_iff in B2. rewrite noInfo, Z.ltb_lt in B2. exists (eTo e). split; [right; reflexivity|]. split; [tauto|]. split; [tauto|]. split; [apply setSI_placed | reflexivity]. }
      right. split; [exact El|]. injection H as <- <-. split; [|split; [apply split_placed; assumption | reflexivity]].
      assert (Hb : forall n, negb (hasSI s n) && (hav geom (geo s n) <? half)%Z = false -> (exists j, Info s n j) \/ (half <= hav geom (geo s n))%Z).
      { intros n Hn. apply andb_false_iff in Hn. rewrite negb_false_iff, Z.ltb_ge in Hn. destruct Hn as [Hn | Hn]; [left | right; exact Hn]. unfold hasSI in Hn. destruct (getSI s n) as [j|] eqn:Ej; [|discriminate]. exists j. apply getSI_Info. exact Ej. }
      intros n [-> | ->]; apply Hb; assumption.
Qed.
(** with no sharp turn around, nothing is missed *)
Hypothesis Hmin : forall l c r, (forall x, In x l -> cTurns x = 0%Z) -> pick l = Some (c, r) -> forall x, In x r -> (cDist c <= cDist x)%Z.
Hypothesis Hplus : forall d a b, (d <= plus d (hav a b))%Z.
Hypothesis Hmono : forall a b x y, (a <= b)%Z -> (plus a (hav x y) <= plus b (hav x y))%Z.
Lemma searchIn_complete : forall (s : st) sf p D e m, Ok s -> (forall a n m, ~ fullAt s a n m) -> searchIn s sf p D e = Some None -> FindableIn s p D e m -> sf m = false.
Proof.
  intros s sf p D e m HO Hno H HF. unfold Snap_model.searchIn in H.
  apply (depth_complete (EE s)) with (n := m) in H; [exact H | | | exact Hpick | exact Hmin | | | |].
  - intros n g; apply adj_In; [exact HO | intros x Hx; apply toOf_In; assumption].
  - intros n g; apply adj_In; [exact HO | intros x Hx; apply fromOf_In; assumption].
  - intros d g _. apply Hplus.
  - intros a b g. apply Hmono.
  - intros a n q Hf. apply (Hno a n q). apply full_ok. exact Hf.
  - unfold Reached in HF. eapply Findable_ext; [|exact HF]. intros a n m'. apply full_ok.
Qed.
Lemma snapEdge_equiv : forall d2 k (s : st) g e i s' g' m j, Ok s -> (forall a n m, ~ fullAt s a n m) -> In e (edges s) -> nth_error (infos s) k = Some i ->
  snapEdge d2 k (s, g) (eId e) = Some (s', g') ->
  FindableIn s (project (geo s (eFrom e)) g (geo s (eTo e))) d2 (eId e) m -> Info s m j -> simiEq j i = true -> OnlyTrack noTrack takeTrack s s' i /\ g' = g.
Proof.
  intros d2 k s g e i s' g' m j HO Hno He Hi H HF Hm Hs.
  destruct (searchIn s (eqSearch simiEq s i) (project (geo s (eFrom e)) g (geo s (eTo e))) d2 (eId e)) as [[eq|]|] eqn:E1.
  - unfold Snap_model.snapEdge in H. rewrite (findE_In s e HO He), Hi, E1 in H. unfold OnlyTrack. destruct (hav g (geo s eq) <? five)%Z; [|injection H as <- <-; tauto].
    destruct (getSI s eq) as [jj|] eqn:Eg; [|discriminate]. unfold getSI in Eg. destruct (state s eq) as [| | |kk] eqn:Es; try discriminate. destruct (noTrack jj) eqn:En; injection H as <- <-; [|tauto].
    cbn [size edges told geo state infos]. split; [|reflexivity]. repeat (split; [reflexivity|]). right. exists kk, jj. split; [exact Eg|]. split; [exact En|].
    split; [rewrite updInfo_nth, Eg, Nat.eqb_refl; reflexivity|]. intros q Hq. rewrite updInfo_nth. replace (q =? kk) with false by (symmetry; apply Nat.eqb_neq; exact Hq). destruct (nth_error (infos s) q); reflexivity.
  - exfalso. pose proof (searchIn_complete _ _ _ _ _ m HO Hno E1 HF) as Hf. assert (eqSearch simiEq s i m = true) by (apply eqSearch_ok; exists j; tauto). congruence.
  - unfold Snap_model.snapEdge in H. rewrite (findE_In s e HO He), Hi, E1 in H. discriminate.
Qed.
End Snap.
