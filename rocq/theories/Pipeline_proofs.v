From Coq Require Import String List Arith ZArith NArith QArith Bool Permutation Lia.
From Verif Require Import ListAux HopCache_model TripTrie_model TripTrie_spec TripTrie_proofs Simi_model Simi_spec Cluster_model Cluster_spec Cluster_props
  Router_model Router_spec Router_proofs Router_props Hops_model Ecm_model Ecm_spec Ecm_proofs Ecm_props Shapes_model Shapes_spec Shapes_proofs
  Workers_model Workers_spec Workers_props Pipeline_model Pipeline_spec.
Import ListNotations.
Open Scope nat_scope.

(** ** Nodes with trips have one entry *)
Section Keys.
Context {pos attrs : Type}.
Variable near : pos -> pos -> bool.
Variable mergeA : attrs -> attrs -> attrs.
Variable emptySecs : Z.
Lemma pushAt_keys : forall m k v, NoDup (map fst m) -> NoDup (map fst (pushAt m k v)).
Proof.
  assert (K : forall m k v x, In x (map fst (pushAt m k v)) -> x = k \/ In x (map fst m)).
  { induction m as [|[k' vs] m IH]; intros k v x I; cbn in I; [destruct I as [<-|[]]; auto|].
    destruct (k' =? k) eqn:E; cbn in I |- *; destruct I as [<-|I]; auto. destruct (IH k v x I); auto. }
  induction m as [|[k' vs] m IH]; intros k v ND; cbn; [constructor; [intros []|constructor]|].
  inversion ND as [|? ? N1 N2]; subst. destruct (k' =? k) eqn:E; cbn; [constructor; assumption|]. constructor; [|apply IH; assumption].
  intros I. destruct (K m k v k' I) as [->|J]; [rewrite Nat.eqb_refl in E; discriminate|contradiction].
Qed.
Lemma addTrip_keys : forall (tr : trie pos attrs) t a tex dg, NoDup (map fst (ndTrips _ _ tr)) ->
  NoDup (map fst (ndTrips _ _ (fst (addTrip pos near attrs mergeA emptySecs tr t a tex dg)))).
Proof.
  intros tr t a tex dg ND. unfold addTrip. destruct dg; cbn [negb].
  - destruct (nth_error (nds _ _ tr) _); [|exact ND]. destruct (_ && _); [|exact ND]. cbn. apply pushAt_keys. exact ND.
  - unfold TripTrie_model.add. destruct (tSts _ t) as [|st sts]; [exact ND|].
    destruct (addLoop _ _ _ _ _ _ _ _ _ _ _ _) as [l [n|]]; cbn; [apply pushAt_keys|]; exact ND.
Qed.
Lemma runCalls_keys : forall cs (tr : trie pos attrs), NoDup (map fst (ndTrips _ _ tr)) ->
  NoDup (map fst (ndTrips _ _ (fst (runCalls pos near attrs mergeA emptySecs tr cs)))).
Proof.
  induction cs as [|c cs IH]; intros tr ND; cbn [TripTrie_model.runCalls]; [exact ND|].
  pose proof (addTrip_keys tr (cTrip _ _ c) (cAttrs _ _ c) (cTimeEx _ _ c) (cDegen _ _ c) ND) as A.
  destruct (addTrip _ _ _ _ _ tr _ _ _ _) as [tr1 r]. cbn [fst] in A. specialize (IH tr1 A).
  destruct (TripTrie_model.runCalls _ _ _ _ _ tr1 cs) as [tr2 rs]. exact IH.
Qed.
Lemma listAt_in : forall m n ids, NoDup (map fst m) -> In (n, ids) m -> listAt m n = ids.
Proof.
  induction m as [|[k v] m IH]; intros n ids ND I; [destruct I|]. cbn in ND. inversion ND as [|? ? N1 N2]; subst. cbn [listAt].
  destruct I as [I|I]; [injection I as -> ->; rewrite Nat.eqb_refl; reflexivity|].
  destruct (Nat.eqb_spec k n) as [->|_]; [|apply IH; assumption]. exfalso. apply N1. apply in_map_iff. exists (n, ids). auto.
Qed.
Lemma placed_one : forall (cs : list (call pos attrs)) (ps : list (option (list nat))) n u, In u (placed_at n cs ps) ->
  exists i c p, nth_error cs i = Some c /\ nth_error ps i = Some (Some p) /\ last p 0 = n /\ tId _ (cTrip _ _ c) = u.
Proof.
  induction cs as [|c cs IH]; intros ps n u I; [destruct I|]. destruct ps as [|[p|] ps]; cbn [placed_at] in I; [destruct I| |].
  - apply in_app_or in I. destruct I as [I|I].
    + destruct (Nat.eqb_spec (last p 0) n) as [e|e]; [|destruct I]. destruct I as [I|[]]. exists 0, c, p. auto.
    + destruct (IH _ _ _ I) as (i & c' & p' & X). exists (S i), c', p'. exact X.
  - destruct (IH _ _ _ I) as (i & c' & p' & X). exists (S i), c', p'. exact X.
Qed.
End Keys.
Lemma at_in : forall A (m : list (nat * A)) n, In n (map fst m) -> exists v, at_ m n = Some v /\ In (n, v) m.
Proof.
  induction m as [|[k v] m IH]; intros n I; [destruct I|]. cbn [at_]. destruct (Nat.eqb_spec k n) as [->|N].
  - exists v. split; [reflexivity|]. left. reflexivity.
  - destruct I as [I|I]; [contradiction|]. destruct (IH n I) as (w & A1 & A2). exists w. split; [exact A1|]. right. exact A2.
Qed.

Section P.
Context {pos C Pt regex : Type}.
Variable W : world pos C Pt.
Variable posAt : list Pt -> Q -> Pt.
Variable compile : string -> option regex.
Variable replace : regex -> string -> string -> string.
Hypothesis WK : world_ok W posAt.
Notation trie := (trie pos attrs).
Notation points := (list (Pt * Q * nat)).
Notation leaf := (leaf points Q).
Notation runCalls := (runCalls pos (near _ _ _ W) attrs mergeAttrs (emptySecs _ _ _ W)).

Lemma cands_ok : cands_of W (stopCands W).
Proof. intros s. apply getEdgCands_ok. exact (wk_enum _ _ WK). Qed.
(** Positions of candidates are shares. *)
Lemma cand_share_any : forall cands, cands_of W cands -> forall tnds ecm, tree tnds -> trie_cands (attrs:=attrs) (ofQ _ _ _ W) (add _ _ _ W) tnds (cands) ecm ->
  forall n i x e, cand_at ecm n i x -> cE _ _ _ x = Some e -> is_share (cProgr _ _ _ x).
Proof.
  intros cands CO tnds ecm T TC n i x e X Ex.
  assert (St : forall s cs c, cands s = Some cs -> In c cs -> cE _ _ _ c = Some e -> is_share (cProgr _ _ _ c)).
  { intros s cs c E I Ec. destruct (CO s) as (cs' & E' & SC). rewrite E in E'. injection E' as <-.
    destruct (sc_sound _ _ _ _ _ _ _ _ _ _ _ _ _ _ _ _ _ SC c e I Ec) as [(nd & _ & _ & -> & _)|(_ & _ & _ & ->)].
    - split; [apply Qle_refl|discriminate].
    - destruct (wk_proj _ _ WK s e) as [A B]. destruct (isRev _ _ _ W e); [|split; assumption].
      split.
      + apply (Qplus_le_l _ _ (eproj _ _ _ W s e)). setoid_replace (1 - eproj _ _ _ W s e + eproj _ _ _ W s e)%Q with 1%Q by ring.
        rewrite Qplus_0_l. exact B.
      + apply (Qplus_le_l _ _ (eproj _ _ _ W s e)). setoid_replace (1 - eproj _ _ _ W s e + eproj _ _ _ W s e)%Q with (1 + 0)%Q by ring.
        apply Qplus_le_r. exact A. }
  assert (N0 : n <> 0). { intros ->. destruct X as (l & El & Ei). rewrite (tc_root _ _ _ _ _ TC) in El. injection El as <-. destruct i; discriminate. }
  assert (exists nd, nth_error tnds n = Some nd) as (nd & En).
  { destruct X as (l & El & _). apply nth_lt in El. rewrite (tc_length _ _ _ _ _ TC) in El. apply nth_ex. exact El. }
  destruct (node_cases tnds T n nd N0 En) as [K|(p & Pn & Sy)].
  - destruct (arr_cand_stop (add _ _ _ W) (ofQ _ _ _ W) tnds (cands) ecm TC n nd i x N0 En K X) as (s & cs & c & _ & Cs & I & S1 & S2 & _).
    rewrite S2. apply (St s cs c Cs I). congruence.
  - destruct (parent_arr tnds T n p Pn Sy) as (pn & Ep & _).
    destruct (dep_cand_stop (add _ _ _ W) (ofQ _ _ _ W) tnds (cands) ecm T TC n p pn i x Pn Sy Ep X) as (s & cs & c & _ & Cs & I & S1 & S2 & _).
    rewrite S2. apply (St s cs c Cs I). congruence.
Qed.
Lemma cand_share : forall tnds ecm, tree tnds -> trie_cands (attrs:=attrs) (ofQ _ _ _ W) (add _ _ _ W) tnds (stopCands W) ecm ->
  forall n i x e, cand_at ecm n i x -> cE _ _ _ x = Some e -> is_share (cProgr _ _ _ x).
Proof. exact (cand_share_any (stopCands W) cands_ok). Qed.

Lemma yields_searched : forall tr ecm log n is hs, yields (C:=C) (startCost _ _ _ W tr) (spath _ _ _ W tr) (nds _ _ tr) ecm log n is hs -> Forall (searched W) hs.
Proof.
  intros tr ecm log n is hs Y. induction Y as [n i F|n p i f is hs Pa St Y IH|n p i f is hs x y h Pa St Y IH X1 X2 H]; [constructor|exact IH|].
  constructor; [|exact IH]. intros Ne. destruct H as (lim & cs & b & _ & _ & _ & H). destruct (cE _ _ _ x) as [ef|], (cE _ _ _ y) as [et|]; try (destruct H as (H & _); contradiction).
  destruct H as (H1 & H2 & _ & _ & H3). destruct (fst (spath _ _ _ W tr n ef et b) <? b)%Z eqn:L; [|contradiction]. apply Z.ltb_lt in L. exists tr, n, ef, et, b. auto.
Qed.
(** Tries of which [ts] are the trips. *)
Definition trie_of (o : copts) (f : feed pos) (tr : trie) : Prop := exists cs rs,
  runCalls (emptyTrie pos attrs) cs = (tr, rs) /\ length cs <= length (fTrips _ f) /\
  forall c, In c cs -> exists t, In t (fTrips _ f) /\ Cluster_spec.selected o t /\ cTrip _ _ c = fTrip _ t.
Definition leaf_by (good : TripTrie_model.trip pos -> points -> list Q -> Prop) (o : copts) (f : feed pos) (l : leaf) : Prop := lTrips _ _ l <> [] /\
  forall u, In u (lTrips _ _ l) -> exists t, nth_error (fTrips _ f) u = Some t /\ Cluster_spec.selected o t /\
    good (fTrip _ t) (lPts _ _ l) (lDists _ _ l).
Definition leaf_for := leaf_by (shape_for W posAt).
Notation types f := (map (fType pos) (fTrips _ f)).

(** ** What is known of the hops of a trie is known of the shapes.
    [Iv]: of the hop cache; [Kp]: of a trip and its hops. *)
Section Known.
Variable Iv : option cache -> Prop.
Variable Kp : TripTrie_model.trip pos -> list (hop edge Pt) -> Prop.
Definition known : Prop := forall cs tr rs ecm hc r m, runCalls (emptyTrie pos attrs) cs = (tr, rs) ->
  (forall c, In c cs -> 2 <= length (tSts _ (cTrip _ _ c))) ->
  trie_cands (ofQ _ _ _ W) (add _ _ _ W) (nds _ _ tr) (stopCands W) ecm -> Iv hc ->
  route pos attrs C (lt _ _ _ W) (add _ _ _ W) (inf _ _ _ W) edge Pt (noPoint _ _ _ W) (option cache)
    (askHops ecm (invWeight _ _ _ W) (enum _ _ _ W) (ecost _ _ _ W tr) (len _ _ _ W) (compF _ _ _ W) (compT _ _ _ W)
       (search _ _ _ W tr) (searchN _ _ _ W tr) (needDist _ _ _ W) (allowsFast _ _ _ W) (noFastHops _ _ _ W))
    (weight _ _ _ W tr) (ofZ _ _ _ W) (limit0 _ _ _ W tr) (startCost _ _ _ W tr) (spath _ _ _ W tr)
    (nds _ _ tr) ecm hc (map fst (ndTrips _ _ tr)) = Some (r, m) ->
  Iv (rSt _ _ r) /\ forall n hops, In (n, hops) m ->
    (exists is c, seqcost (add _ _ _ W) (weight _ _ _ W tr) (ofZ _ _ _ W) (nds _ _ tr) ecm (rLog _ _ r) n is c /\ lt _ _ _ W c (inf _ _ _ W) = true) ->
    forall c, In c cs -> In (tId _ (cTrip _ _ c)) (listAt (ndTrips _ _ tr) n) -> Kp (cTrip _ _ c) (rev hops).
Hypothesis KN : known.
Definition shape_known (t : TripTrie_model.trip pos) (ps : points) (ds : list Q) : Prop :=
  exists hops parts, shape_by W posAt (stopCands W) hops parts t ps ds /\ Kp t hops.

Lemma trie_ok : forall cs tr rs M, runCalls (emptyTrie pos attrs) cs = (tr, rs) ->
  (forall c, In c cs -> 2 <= length (tSts _ (cTrip _ _ c))) ->
  (0 <= M)%Z -> (forall c k, In c cs -> In k (call_keys (emptySecs _ _ _ W) c) -> (0 <= kTime k <= M)%Z) ->
  (Z.of_nat (length cs) * M <= 2147483647)%Z ->
  forall types hc, Iv hc -> (forall c, In c cs -> tId _ (cTrip _ _ c) < length types) ->
  exists m hc' ls, shapeifyTrie W hc tr = Some (m, hc') /\ Iv hc' /\ leavesOf W types m (ndTrips _ _ tr) = Some ls /\
    flat_map (lTrips _ _) ls = flat_map snd (ndTrips _ _ tr) /\
    forall l, In l ls -> lTrips _ _ l <> [] /\
      forall u, In u (lTrips _ _ l) -> exists c, In c cs /\ tId _ (cTrip _ _ c) = u /\ shape_known (cTrip _ _ c) (lPts _ _ l) (lDists _ _ l).
Proof.
  intros cs tr rs M H L2 HM HT HS types hc Ih TY.
  destruct (C34_trips_get_hops C (lt _ _ _ W) (add _ _ _ W) (inf _ _ _ W) (ofQ _ _ _ W) (ofZ _ _ _ W) Pt (noPoint _ _ _ W) pos attrs (near _ _ _ W) mergeAttrs
    (emptySecs _ _ _ W) (weight _ _ _ W tr) (limit0 _ _ _ W tr) (startCost _ _ _ W tr) (spath _ _ _ W tr)
    (eFr _ _ _ W) (eTo _ _ _ W) (deg _ _ _ W) (outF _ _ _ W) (outB _ _ _ W) (inF _ _ _ W) (inB _ _ _ W) (oneWay _ _ _ W) (enumS _ _ _ W)
    (maxStat _ _ _ W) (maxSnap _ _ _ W) (statPen _ _ _ W) (platPen _ _ _ W) (nonStatPen _ _ _ W) (useStations _ _ _ W) (em _ _ _ W)
    (edist _ _ _ W) (eproj _ _ _ W) (isRev _ _ _ W) (point _ _ _ W) (stats _ _ _ W) (edges _ _ _ W)
    (invWeight _ _ _ W) (enum _ _ _ W) (ecost _ _ _ W tr) (len _ _ _ W) (compF _ _ _ W) (compT _ _ _ W) (search _ _ _ W tr) (searchN _ _ _ W tr)
    (needDist _ _ _ W) (allowsFast _ _ _ W) (noFastHops _ _ _ W)
    (wk_costs _ _ WK) (wk_ofQ _ _ WK) (wk_ofZ _ _ WK) (wk_add _ _ WK) (wk_near _ _ WK) (wk_enum _ _ WK) cs tr rs M H L2 HM HT HS) as (ecm & Ge & TC & R).
  destruct (R hc) as (r & m & Ro & Mf & Y & ps & Lps & _ & Pl & Sv). clear R.
  destruct (KN cs tr rs ecm hc r m H L2 TC Ih Ro) as [Iv' Kr].
  pose proof (C26_built_trie_is_tree pos (near _ _ _ W) attrs mergeAttrs (emptySecs _ _ _ W) (wk_near _ _ WK) cs tr rs H) as T.
  pose proof (runCalls_keys (near _ _ _ W) mergeAttrs (emptySecs _ _ _ W) cs (emptyTrie pos attrs) ltac:(constructor)) as ND. rewrite H in ND. cbn [fst] in ND.
  assert (NE : forall n ids, In (n, ids) (ndTrips _ _ tr) -> ids <> []).
  { pose proof (runCalls_built (near _ _ _ W) mergeAttrs (emptySecs _ _ _ W) cs (emptyTrie pos attrs)) as X. rewrite H in X. apply X; cbn.
    - intros [|k] nd E N0; [congruence|]. destruct k; discriminate.
    - lia.
    - intros ? ? []. }
  assert (Sh : forall n ids, In (n, ids) (ndTrips _ _ tr) -> exists hops pts ds col, at_ m n = Some hops /\ drawShape W hops = Some (pts, ds, col) /\
    forall u, In u ids -> exists c, In c cs /\ tId _ (cTrip _ _ c) = u /\ shape_known (cTrip _ _ c) pts ds).
  { intros n ids I. assert (In n (map fst m)) as In_ by (rewrite Mf; apply in_map_iff; exists (n, ids); auto).
    destruct (at_in _ m n In_) as (hops & At & Im). destruct (Y n hops Im) as (is & Yi & Fi).
    assert (Ids : ids = placed_at n cs ps) by (rewrite <- Pl; symmetry; apply listAt_in; assumption).
    destruct ids as [|u0 ids]; [exfalso; exact (NE _ _ I eq_refl)|].
    assert (Un : forall u, In u (u0 :: ids) -> exists i c p, nth_error cs i = Some c /\ nth_error ps i = Some (Some p) /\ last p 0 = n /\ tId _ (cTrip _ _ c) = u).
    { intros u Iu. rewrite Ids in Iu. apply placed_one. exact Iu. }
    assert (Facts : forall u, In u (u0 :: ids) -> exists c, In c cs /\ tId _ (cTrip _ _ c) = u /\
      serves (stopCands W) (near _ _ _ W) (map (stStop _) (tSts _ (cTrip _ _ c))) (rev hops) /\ chained (C:=C) hops).
    { intros u Iu. destruct (Un u Iu) as (i & c & p & Ec & Ep & El & Eu). exists c. split; [eapply nth_error_In; exact Ec|]. split; [exact Eu|].
      destruct (Sv i c p Ec Ep) as (_ & Sv2). rewrite El in Sv2. exact (Sv2 hops Im). }
    destruct (Facts u0 (or_introl eq_refl)) as (c0 & Ic0 & _ & Se0 & Ch).
    assert (Hne : hops <> []).
    { intros ->. destruct Se0 as [Le _]. specialize (L2 c0 Ic0). rewrite map_length in Le. cbn in Le. lia. }
    pose proof (yields_hop_ok (startCost _ _ _ W tr) (spath _ _ _ W tr) (nds _ _ tr) ecm (fromPt _ _ _ W) (toPt _ _ _ W)
      (cand_share (nds _ _ tr) ecm T TC)
      ltac:(intros n' a b lim X; destruct (wk_paths _ _ WK tr n' a b lim X) as [Z|Z];
            [left; apply (f_equal (@rev _)) in Z; rewrite rev_involutive in Z; exact Z|right; exact Z]) _ _ _ _ Yi) as HO.
    destruct (shape_some (C:=C) Nat.eqb (geom _ _ _ W) (isRev _ _ _ W) (fromPt _ _ _ W) (toPt _ _ _ W) (len _ _ _ W) (segment _ _ _ W) (simplify _ _ _ W)
      posAt (hav _ _ _ W) (rndF _ _ _ W) (rndD _ _ _ W) (colorsOf _ _ _ W) (wk_rounding _ _ WK) (wk_hav _ _ WK) Nat.eqb_eq (wk_geometries _ _ WK) (wk_geometry _ _ WK)
      (wk_segment _ _ WK) (noColor _ _ _ W) hops Hne Ch HO) as (parts & pts & ds & col & G & Me & Lp & Fo).
    exists hops, pts, ds, col. split; [exact At|]. split; [exact G|]. intros u Iu. destruct (Facts u Iu) as (c & Ic & Eu & Se & _).
    exists c. split; [exact Ic|]. split; [exact Eu|]. exists (rev hops), parts. split; [|apply (Kr n hops Im); [destruct Fi as (ci & Fi); exists is, ci; exact Fi|exact Ic|rewrite Eu, Pl, <- Ids; exact Iu]]. split; [exact cands_ok|]. split; [exact Se|]. split; [apply Forall_rev; exact (yields_searched _ _ _ _ _ _ Yi)|].
    split; [rewrite rev_length; exact Lp|]. split; [exact Me|]. split.
    - rewrite (me_stops _ _ _ _ _ _ Me), Lp. destruct Se as [Le _]. rewrite map_length, rev_length in Le. symmetry. exact Le.
    - intros Fw. apply Fo. apply Forall_rev in Fw. rewrite rev_involutive in Fw. exact Fw. }
  assert (Ty : forall n ids u, In (n, ids) (ndTrips _ _ tr) -> In u ids -> exists ty, nth_error types u = Some ty).
  { intros n ids u I Iu. destruct (Sh n ids I) as (? & ? & ? & ? & _ & _ & Hu). destruct (Hu u Iu) as (c & Ic & <- & _). apply nth_ex. exact (TY c Ic). }
  assert (exists ls, leavesOf W types m (ndTrips _ _ tr) = Some ls /\ flat_map (lTrips _ _) ls = flat_map snd (ndTrips _ _ tr) /\
    forall l, In l ls -> lTrips _ _ l <> [] /\
      forall u, In u (lTrips _ _ l) -> exists c, In c cs /\ tId _ (cTrip _ _ c) = u /\ shape_known (cTrip _ _ c) (lPts _ _ l) (lDists _ _ l)) as (ls & Els & Fls & Hls).
  { clear - Sh Ty NE. induction (ndTrips _ _ tr) as [|(n, ids) nd IH]; [exists []; split; [reflexivity|]; split; [reflexivity|intros ? []]|].
    destruct IH as (ls & E & F & Hl); [intros; eapply NE; right; eassumption|intros; eapply Sh; right; eassumption|intros; eapply Ty; [right|]; eassumption|].
    destruct (Sh n ids (or_introl eq_refl)) as (hops & pts & ds & col & At & Dr & Hu). pose proof (NE n ids (or_introl eq_refl)) as Nn.
    destruct ids as [|u0 ids]; [contradiction|]. destruct (Ty n (u0 :: ids) u0 (or_introl eq_refl) (or_introl eq_refl)) as (ty & Et).
    exists (mkLeaf _ _ (u0 :: ids) ty pts ds :: ls). split; [cbn [leavesOf]; rewrite At, Et, E, Dr; reflexivity|].
    split; [cbn [flat_map lTrips snd]; rewrite F; reflexivity|]. intros l [<-|I]; [|exact (Hl l I)]. split; [discriminate|exact Hu]. }
  exists m, (rSt _ _ r), ls. split; [|auto]. unfold shapeifyTrie.
  change (getECM _ _ _ _ _ _ _ (stopCands W)) with (getECM C (add _ _ _ W) (ofQ _ _ _ W) Pt pos attrs (nds _ _ tr) (fun s => stopCands W s)).
  unfold stopCands. rewrite Ge, Ro. reflexivity.
Qed.
Lemma forest_ok : forall o f dists M, feed_ok W o f dists M -> forall tries hc, Iv hc -> (forall tr, In tr tries -> trie_of o f tr) ->
  exists ls, forestLeaves W (types f) hc tries = Some ls /\
    flat_map (lTrips _ _) ls = flat_map (fun tr => flat_map snd (ndTrips _ _ tr)) tries /\ forall l, In l ls -> leaf_by shape_known o f l.
Proof.
  intros o f dists M FK. induction tries as [|tr tries IH]; intros hc Ih H; [exists []; split; [reflexivity|]; split; [reflexivity|intros ? []]|].
  destruct (H tr (or_introl eq_refl)) as (cs & rs & R & Ln & Cs).
  assert (At : forall t, In t (fTrips _ f) -> nth_error (fTrips _ f) (tId _ (fTrip _ t)) = Some t).
  { intros t I. apply In_nth_error in I. destruct I as (u & E). rewrite (fk_ids _ _ _ _ _ FK u t E). exact E. }
  destruct (fk_sum _ _ _ _ _ FK) as [M0 MS].
  destruct (trie_ok cs tr rs M R) with (types := types f) (hc := hc) as (m & hc' & ls & Es & Ih' & El & Fl & Hl).
  - intros c I. destruct (Cs c I) as (t & _ & (_ & L & _) & ->). exact L.
  - exact M0.
  - intros c k I K. destruct (Cs c I) as (t & It & Se & E). apply (fk_times _ _ _ _ _ FK t (cAttrs _ _ c) (cTimeEx _ _ c) (cDegen _ _ c) k It Se).
    rewrite <- E. destruct c; exact K.
  - nia.
  - exact Ih.
  - intros c I. destruct (Cs c I) as (t & It & _ & ->). rewrite map_length. eapply nth_lt. exact (At t It).
  - destruct (IH hc' Ih' (fun x X => H x (or_intror X))) as (ls' & E' & F' & H'). exists (ls ++ ls'). split; [cbn [forestLeaves]; rewrite Es, El, E'; reflexivity|].
    split; [rewrite flat_map_app, Fl, F'; reflexivity|]. intros l I. apply in_app_or in I. destruct I as [I|I]; [|exact (H' l I)].
    destruct (Hl l I) as (N & Hu). split; [exact N|]. intros u Iu. destruct (Hu u Iu) as (c & Ic & <- & Sf). destruct (Cs c Ic) as (t & It & Se & E).
    exists t. rewrite E in *. split; [exact (At t It)|]. split; [exact Se|exact Sf].
Qed.
Lemma known_jobs : Iv (if noHopCache _ _ _ W then None else Some []) -> forall o f dists M, feed_ok W o f dists M -> forall fo, (forall k tries tr, In (k, tries) fo -> In tr tries -> trie_of o f tr) ->
  exists jobs, jobsOf W (types f) fo = Some jobs /\ flat_map (lTrips _ _) (concat jobs) = listed fo /\ forall l, In l (concat jobs) -> leaf_by shape_known o f l.
Proof.
  intros I0 o f dists M FK. induction fo as [|(k, tries) fo IH]; intros H; [exists []; split; [reflexivity|]; split; [reflexivity|intros ? []]|].
  destruct (forest_ok o f dists M FK tries (if noHopCache _ _ _ W then None else Some []) I0) as (ls & E & F & Hl).
  { intros tr I. exact (H k tries tr (or_introl eq_refl) I). }
  destruct IH as (jobs & E' & F' & H'); [intros k' tries' tr I; exact (H k' tries' tr (or_intror I))|].
  exists (ls :: jobs). split; [cbn [jobsOf]; rewrite E, E'; reflexivity|]. cbn [concat]. split.
  - rewrite flat_map_app, F, F'. reflexivity.
  - intros l I. apply in_app_or in I. destruct I as [I|I]; auto.
Qed.
End Known.
Lemma leaf_imp : forall (A B : TripTrie_model.trip pos -> points -> list Q -> Prop), (forall t ps ds, A t ps ds -> B t ps ds) ->
  forall o f l, leaf_by A o f l -> leaf_by B o f l.
Proof.
  intros A B H o f l (N & X). split; [exact N|]. intros u Iu. destruct (X u Iu) as (t & E & S & G). exists t. auto.
Qed.
Lemma known_shape : forall Kp t ps ds, shape_known Kp t ps ds -> shape_for W posAt t ps ds.
Proof. intros Kp t ps ds (h & p & X & _). exists (stopCands W), h, p. exact X. Qed.
Lemma jobs_ok : forall o f dists M, feed_ok W o f dists M -> forall fo, (forall k tries tr, In (k, tries) fo -> In tr tries -> trie_of o f tr) ->
  exists jobs, jobsOf W (types f) fo = Some jobs /\ flat_map (lTrips _ _) (concat jobs) = listed fo /\ forall l, In l (concat jobs) -> leaf_for o f l.
Proof.
  intros o f dists M FK fo H. destruct (known_jobs (fun _ => True) (fun _ _ => True)) with (o := o) (f := f) (dists := dists) (M := M) (fo := fo) as (jobs & E & F & Hl); auto.
  - intros cs tr rs ecm hc r m _ _ _ _ _. auto.
  - exists jobs. split; [exact E|]. split; [exact F|]. intros l I. exact (leaf_imp _ _ (known_shape _) o f l (Hl l I)).
Qed.
Lemma tripsOf_nth : forall (ts : list (ftrip pos)) dists u0 u,
  nth_error (tripsOf ts dists u0) u = option_map (fun t => mkTrip Q (fShape _ t) (dists (u0 + u))) (nth_error ts u).
Proof.
  induction ts as [|t ts IH]; intros dists u0 [|u]; cbn; try reflexivity; [rewrite Nat.add_0_r; reflexivity|].
  rewrite IH. rewrite Nat.add_succ_r. reflexivity.
Qed.
Lemma tripsOf_len : forall (ts : list (ftrip pos)) dists u0, length (tripsOf ts dists u0) = length ts.
Proof. induction ts as [|t ts IH]; intros; cbn; [reflexivity|]. rewrite IH. reflexivity. Qed.

Section Main.
Variables (o : copts) (f : feed pos) (dists : nat -> list Q) (M : Z) (fo : list (attrs * list trie)).
Variables lineN statN : string -> string -> Prop.
Hypothesis FK : feed_ok W o f dists M.
Hypothesis CL : clustered (near _ _ _ W) (emptySecs _ _ _ W) lineN statN o (fTrips _ f) fo.

Lemma cl_trie_of : forall k tries tr, In (k, tries) fo -> In tr tries -> trie_of o f tr.
Proof.
  intros k tries tr I It. destruct (cl_built _ _ _ _ _ _ _ CL k tries tr I It) as (cs & rs & R & Ln & Cs). exists cs, rs.
  split; [exact R|]. split; [exact Ln|]. intros c Ic. destruct (Cs c Ic) as (_ & _ & X). exact X.
Qed.
Lemma work : forall jobs, flat_map (lTrips _ _) (concat jobs) = listed fo -> (forall l, In l (concat jobs) -> leaf_for o f l) ->
  work_ok jobs (tripsOf (fTrips _ f) dists 0) /\
  forall u t, nth_error (fTrips _ f) u = Some t -> (Workers_spec.selected jobs u <-> Cluster_spec.selected o t).
Proof.
  intros jobs Fl Hl. destruct (cl_once _ _ _ _ _ _ _ CL) as [ND Li]. split.
  - constructor.
    + change (NoDup (flat_map (lTrips _ _) (concat jobs))). rewrite Fl. exact ND.
    + intros l u I Iu. destruct (proj2 (Hl l I) u Iu) as (t & E & _ & (c & h & p & _ & _ & _ & _ & _ & Ld & _)).
      exists (mkTrip Q (fShape _ t) (dists u)). rewrite tripsOf_nth, E. split; [reflexivity|]. cbn.
      rewrite (fk_dists _ _ _ _ _ FK u t E). symmetry. exact Ld.
    + intros l I. exact (proj1 (Hl l I)).
  - intros u t E. split.
    + intros (l & I & Iu). destruct (proj2 (Hl l I) u Iu) as (t' & E' & Se & _). rewrite E in E'. injection E' as <-. exact Se.
    + intros Se. assert (In u (listed fo)) as J.
      { apply Li. exists t. split; [eapply nth_error_In; exact E|]. split; [exact Se|]. exact (fk_ids _ _ _ _ _ FK u t E). }
      rewrite <- Fl in J. apply in_flat_map in J. destruct J as (l & I & Iu). exists l. auto.
Qed.
Lemma assigned_by : forall good : TripTrie_model.trip pos -> points -> list Q -> Prop, (forall t ps ds, good t ps ds -> shape_for W posAt t ps ds) -> forall jobs cnt ids store iss s, flat_map (lTrips _ _) (concat jobs) = listed fo -> (forall l, In l (concat jobs) -> leaf_by good o f l) ->
  assigned jobs cnt ids store (tripsOf (fTrips _ f) dists 0) iss s -> shaped good o f dists cnt ids store s.
Proof.
  intros good HG jobs cnt ids store iss s Fl Hl A. destruct (work jobs Fl (fun l I => leaf_imp _ _ HG o f l (Hl l I))) as [WO Sel]. constructor.
  - rewrite (as_count _ _ _ _ _ _ _ A), tripsOf_len. reflexivity.
  - intros u t E NS. rewrite <- (Sel u t E) in NS. rewrite (as_others _ _ _ _ _ _ _ A u NS), tripsOf_nth, E. split; [reflexivity|].
    intros I. apply (as_kept _ _ _ _ _ _ _ A u (mkTrip Q (fShape _ t) (dists u)) NS); [rewrite tripsOf_nth, E; reflexivity|exact I].
  - intros u t E Se. apply (Sel u t E) in Se. destruct Se as (l & I & Iu). destruct (proj2 (Hl l I) u Iu) as (t' & E' & _ & Sf).
    rewrite E in E'. injection E' as <-. apply (Permutation_in _ (as_leaves _ _ _ _ _ _ _ A)) in I. apply in_map_iff in I.
    destruct I as ((id, l') & El & I). cbn in El. subst l'. destruct (as_form _ _ _ _ _ _ _ A id l I) as (n & Ln & Eid).
    exists id, n, (lPts _ _ l), (lDists _ _ l). split; [exact (as_trips _ _ _ _ _ _ _ A id l u I Iu)|]. split; [exact Sf|]. split; [exact Ln|].
    split; [eauto|]. intros NCf. assert (NC : no_clash jobs (tripsOf (fTrips _ f) dists 0) cnt).
    { intros v x l0 k Ex _ Lk. rewrite tripsOf_nth in Ex. destruct (nth_error (fTrips _ f) v) as [t'|] eqn:Ev; [|discriminate].
      injection Ex as <-. cbn. apply NCf; [eapply nth_error_In; exact Ev|exact Lk]. }
    destruct (as_new _ _ _ _ _ _ _ A NC id l I) as [X Y]. split; [exact X|]. split; [exact Y|].
    destruct (as_store _ _ _ _ _ _ _ A NC) as (new & -> & P). apply in_or_app. right. apply (Permutation_in _ (Permutation_sym P)).
    apply in_map_iff. exists (id, l). auto.
Qed.
Lemma assigned_shaped : forall jobs cnt ids store iss s, flat_map (lTrips _ _) (concat jobs) = listed fo -> (forall l, In l (concat jobs) -> leaf_for o f l) ->
  assigned jobs cnt ids store (tripsOf (fTrips _ f) dists 0) iss s -> shaped (shape_for W posAt) o f dists cnt ids store s.
Proof. exact (assigned_by _ (fun _ _ _ X => X)). Qed.
End Main.
End P.
