(** C81: the route found for a trip is a cheapest one through the network. *)
From Coq Require Import String List Arith ZArith QArith Qround Bool Lia.
From Verif Require Import ListAux HopCache_model TripTrie_model TripTrie_spec TripTrie_proofs TripTrie_props
  Router_model Router_spec Router_proofs Router_props Hops_model Hops_spec Hops_proofs Ecm_model Ecm_spec Ecm_proofs Ecm_props Optimal_spec Optimal_proofs.
Import ListNotations.
Open Scope nat_scope.

(** Route with the 1 -> n hop engine, with or without the hop cache: there are limits
    (those allowed by the schedule, doubled at most three times), driving is given up only
    where it is impossible even with the largest of them, and the hops returned for a leaf
    are the drives, along cheapest paths of the network, of a cheapest way to choose the
    positions.  ([w] does not look at the length of the drive.) *)
Theorem C81_cheapest_way : forall pos attrs C P lt add inf p0 w ofZ step ecost compF compT search searchN spath limit0 enum len
    invWeight needDist allowsFast noFastHops (tnds : list (node pos attrs)) (ecm : list (list (cand C edge P))),
  cost_laws lt add inf -> tree tnds -> enumerates enum ->
  problem_ok step ecost compF compT search spath limit0 tnds ecm -> noFastHops || negb allowsFast = true ->
  forall hc leaves r m, cache_ok step limit0 hc ->
  route pos attrs C lt add inf edge P p0 (option cache)
    (askHops ecm invWeight enum ecost len compF compT search searchN needDist allowsFast noFastHops)
    (fun p n c _ t => w p n c t) ofZ limit0 ecost spath tnds ecm hc leaves = Some (r, m) ->
  exists lim stuck,
    limits_from tnds lim limit0 /\
    gives_up_only_then lt add inf w ofZ step ecost tnds ecm lim stuck limit0 /\
    forall leaf hs, In (leaf, hs) m ->
      (exists is c, way add w ofZ step ecost tnds ecm lim stuck leaf is c /\ lt c inf = true) ->
      cheapest_way lt add inf w ofZ step ecost tnds ecm lim stuck leaf hs.
Proof.
  intros pos attrs C P lt add inf p0 w ofZ step ecost compF compT search searchN spath limit0 enum len
    invWeight needDist allowsFast noFastHops tnds ecm CL T HE PO Slow hc leaves r m CO Ro.
  destruct (cheapest_core pos attrs C P lt add inf p0 w ofZ step ecost compF compT search searchN spath limit0 enum len
    invWeight needDist allowsFast noFastHops tnds ecm CL T HE PO Slow hc leaves r m CO Ro) as (A & B & _ & D).
  exists (limOf (rLog _ _ r)), (stuckOf (rLog _ _ r)). auto.
Qed.
Print Assumptions C81_cheapest_way.

(** From trips to cheapest ways: add any trips of at least two stops to a trie, compute the
    candidates of its nodes from those of the stops, and route.  Every accepted trip has
    hops, and they are the drives of a cheapest way to serve its stops. *)
Theorem C81_trips_take_cheapest_ways : forall C lt add inf ofQ ofZ P p0 pos attrs near mergeA emptySecs
    (w : nat -> nat -> Z -> Z -> C) limit0 step ecost spath
    eFr eTo deg outF outB inF inB oneWay enumS maxStat maxSnap statPen platPen nonStatPen useStations em
    (edist eproj : stop pos -> edge -> Q) isRev (point : stop pos -> P) (stats : stop pos -> list statNd) (edges : stop pos -> list edge)
    invWeight enum len compF compT search searchN needDist allowsFast noFastHops,
  cost_laws lt add inf -> (forall q, lt (ofQ q) inf = true) -> (forall z, lt (ofZ z) inf = true) ->
  (forall a b, lt a inf = true -> lt b inf = true -> lt (add a b) inf = true) ->
  (forall p, near p p = true) -> (forall l x, In x (enumS l) <-> In x l) ->
  forall cs tr rs M, runCalls pos near attrs mergeA emptySecs (emptyTrie pos attrs) cs = (tr, rs) ->
  (forall c, In c cs -> 2 <= length (tSts _ (cTrip _ _ c))) ->
  (0 <= M)%Z -> (forall c k, In c cs -> In k (call_keys emptySecs c) -> (0 <= kTime k <= M)%Z) ->
  (Z.of_nat (length cs) * M <= 2147483647)%Z ->
  let cands s := getEdgCands C ofQ P p0 eFr eTo deg outF outB inF inB oneWay enumS maxStat maxSnap statPen platPen nonStatPen
                   useStations em (edist s) (eproj s) isRev (point s) (sPlat _ s) (stats s) (edges s) in
  exists ecm, getECM C add ofQ P pos attrs (nds _ _ tr) cands = Some ecm /\ trie_cands ofQ add (nds _ _ tr) cands ecm /\
  (enumerates enum -> problem_ok step ecost compF compT search spath limit0 (nds _ _ tr) ecm -> noFastHops || negb allowsFast = true ->
   forall hc, cache_ok step limit0 hc -> exists r m lim stuck,
   route pos attrs C lt add inf edge P p0 (option cache)
     (askHops ecm invWeight enum ecost len compF compT search searchN needDist allowsFast noFastHops)
     (fun p n c _ t => w p n c t) ofZ limit0 ecost spath (nds _ _ tr) ecm hc (map fst (ndTrips _ _ tr)) = Some (r, m) /\
   limits_from (nds _ _ tr) lim limit0 /\
   gives_up_only_then lt add inf w ofZ step ecost (nds _ _ tr) ecm lim stuck limit0 /\
   exists ps : list (option (list nat)), length ps = length cs /\
     rs = map (fun p => match p with Some _ => true | None => false end) ps /\
     (forall n, listAt (ndTrips _ _ tr) n = placed_at n cs ps) /\
     forall i c p, nth_error cs i = Some c -> nth_error ps i = Some (Some p) ->
       (exists hs, In (last p 0, hs) m) /\
       forall hs, In (last p 0, hs) m ->
         serves cands near (map (stStop _) (tSts _ (cTrip _ _ c))) (rev hs) /\
         cheapest_way lt add inf w ofZ step ecost (nds _ _ tr) ecm lim stuck (last p 0) hs).
Proof.
  intros C lt add inf ofQ ofZ P p0 pos attrs near mergeA emptySecs w limit0 step ecost spath
    eFr eTo deg outF outB inF inB oneWay enumS maxStat maxSnap statPen platPen nonStatPen useStations em
    edist eproj isRev point stats edges invWeight enum len compF compT search searchN needDist allowsFast noFastHops
    CL FQ FZ FA NR EN cs tr rs M H L2 HM HT HS cands.
  destruct (C34_trips_get_hops C lt add inf ofQ ofZ P p0 pos attrs near mergeA emptySecs (fun p n c _ t => w p n c t) limit0 ecost spath
    eFr eTo deg outF outB inF inB oneWay enumS maxStat maxSnap statPen platPen nonStatPen useStations em
    edist eproj isRev point stats edges invWeight enum ecost len compF compT search searchN needDist allowsFast noFastHops
    CL FQ FZ FA NR EN cs tr rs M H L2 HM HT HS) as (ecm & Ge & TC & R).
  exists ecm. split; [exact Ge|]. split; [exact TC|]. intros HE PO Slow hc CO.
  destruct (R hc) as (r & m & Ro & _ & Fin & ps & Lp & Rs & Pl & Sv).
  pose proof (C26_built_trie_is_tree pos near attrs mergeA emptySecs NR cs tr rs H) as T.
  destruct (cheapest_core pos attrs C P lt add inf p0 w ofZ step ecost compF compT search searchN spath limit0 enum len
    invWeight needDist allowsFast noFastHops (nds _ _ tr) ecm CL T HE PO Slow hc _ r m CO Ro) as (LF & GU & SW & Ch).
  exists r, m, (limOf (rLog _ _ r)), (stuckOf (rLog _ _ r)). split; [exact Ro|]. split; [exact LF|]. split; [exact GU|]. exists ps. split; [exact Lp|]. split; [exact Rs|]. split; [exact Pl|].
  intros i c p Ec Ep. destruct (Sv i c p Ec Ep) as (Ex & Sv2). split; [exact Ex|]. intros hs I. split; [apply (Sv2 hs I)|]. apply Ch; [exact I|].
  destruct (Fin _ _ I) as (is & _ & c' & S & F). exists is, c'. split; [apply SW; exact S|exact F].
Qed.
Print Assumptions C81_trips_take_cheapest_ways.

(** Non-vacuity: the three trips of [ecm_example] on a line of edges of cost 40, with the
    cache. *)
Definition oroute := route nat unit (option Z) xlt xadd None edge nat 99 (option cache)
  (askHops eecm (fun x => x) lenum (fun _ => lcost 40) (fun _ => 1%Q) lcomp lcomp (fun _ => lsearch 40) (fun _ => lsearchN 40) false false false)
  (fun _ _ c _ _ => Some c) (fun z => Some z) (fun _ _ => 30%Z) (fun _ => lcost 40) (fun _ a b lim => lsearch 40 a [] lim b) (nds _ _ etrie) eecm (Some emptyCache)
  (map fst (ndTrips _ _ etrie)).
Definition placed (c : cand (option Z) edge nat) : bool :=
  match cE _ _ _ c with None => true | Some e => (e <=? 30) && Qle_bool 0 (cProgr _ _ _ c) && Qle_bool (cProgr _ _ _ c) 1 end.
Lemma eecm_placed : forall n i x, cand_at eecm n i x -> placed x = true.
Proof.
  assert (A : forallb (forallb placed) eecm = true) by (vm_compute; reflexivity).
  intros n i x (cs & E1 & E2). rewrite forallb_forall in A. specialize (A cs (nth_error_In _ _ E1)). rewrite forallb_forall in A. exact (A x (nth_error_In _ _ E2)).
Qed.
Lemma line_path : forall K, path_search_ok (lstep K) (fun a b lim => lsearch K a [] lim b).
Proof.
  intros K a b lim. unfold lsearch. destruct (Nat.leb_spec a b) as [L|L]; cbn [andb].
  - destruct (Z.ltb_spec (ldist K a b) lim) as [Q|Q].
    + left. split; [apply line_cheapest; exact L|]. split; [exact Q|]. rewrite rev_involutive. apply line_walk; auto.
    + right. split; [lia|]. intros d es W. apply line_walk in W. lia.
  - right. split; [lia|]. intros d es W. apply line_walk in W. lia.
Qed.
Example C81_case :
  cost_laws xlt xadd None /\ tree (nds _ _ etrie) /\ enumerates lenum /\
  problem_ok (fun _ => lstep 40) (fun _ => lcost 40) lcomp lcomp (fun _ => lsearch 40) (fun _ a b lim => lsearch 40 a [] lim b) (fun _ _ => 30%Z) (nds _ _ etrie) eecm /\
  cache_ok (fun _ => lstep 40) (fun _ _ => 30%Z) (Some emptyCache) /\
  option_map (fun x => map (fun l => (fst l, map (fun h => (hStart _ _ h, hEnd _ _ h, rev (hEdges _ _ h))) (snd l))) (snd x)) oroute =
    Some [(4, [(Some 11, Some 12, [11; 12]); (Some 10, Some 11, [10; 11])]); (5, [(Some 11, Some 13, [11; 12; 13]); (Some 10, Some 11, [10; 11])]);
          (2, [(Some 10, Some 11, [10; 11])])] /\
  option_map (fun x => map (fun e => (fst e, map fst (hTrace (snd e)))) (rLog _ _ (fst x))) oroute = Some [(5, [30; 60; 120]%Z); (4, [30; 60]%Z); (2, [30; 60]%Z)].
Proof.
  split; [exact xlaws|].
  split; [exact (C26_built_trie_is_tree nat Nat.eqb unit (fun a _ => a) 0 Nat.eqb_refl ecalls etrie _ (surjective_pairing _))|].
  split; [exact line_enum|]. split.
  { split.
    - intros _. apply line_graph. unfold u32max. lia.
    - intros _. apply line_search.
    - intros _. apply line_path.
    - intros n i x e Cx E. pose proof (eecm_placed _ _ _ Cx) as A. unfold placed in A. rewrite E in A.
      apply andb_true_iff in A. destruct A as [A A2]. apply andb_true_iff in A. destruct A as [_ A1]. apply Qle_bool_iff in A1, A2. auto.
    - intros _ _. unfold u32max. lia.
    - intros. unfold lcost, u32max. lia.
    - intros n p f i x y ef et d _ _ Cx Cy Ex Ey [(es & W) _] _. apply line_walk in W. destruct W as (_ & -> & _). unfold ldist, lcost.
      pose proof (eecm_placed _ _ _ Cy) as A. unfold placed in A. rewrite Ey in A.
      apply andb_true_iff in A. destruct A as [A _]. apply andb_true_iff in A. destruct A as [A _]. apply Nat.leb_le in A. unfold u32max. lia. }
  split; [right; split; [reflexivity|]; split; [reflexivity|intros; lia]|].
  split; vm_compute; reflexivity.
Qed.

(** Finding: with the n -> n engine (the default) this is not so.  It answers with one
    source per target edge; here that is the candidate on the same edge behind the target
    position, so the drive from the other candidate is never seen.  The router gives up
    although the network has a drive within the first limit. *)
Definition fcd (e : option edge) (q : Q) : cand (option Z) edge nat := mkCand _ _ _ e (Some 0%Z) q 0 0%Z [].
Definition fecm : list (list (cand (option Z) edge nat)) :=
  [[]; [fcd None 0; fcd (Some 4) 0; fcd (Some 5) (3 # 4)]; [fcd None 0; fcd (Some 5) (1 # 4)]].
Definition ftrie := fst (runCalls nat Nat.eqb unit (fun a _ => a) 0 (emptyTrie nat unit) [tcall 0 [tst 0 100; tst 1 200] false]).
Definition froute := route nat unit (option Z) xlt xadd None edge nat 99 (option cache)
  (askHops fecm (fun x => x) lenum (fun _ => lcost 40) (fun _ => 1%Q) lcomp lcomp (fun _ => lsearch 40) (fun _ => lsearchN 40) false true false)
  (fun _ _ c _ _ => Some c) (fun z => Some z) (fun _ _ => 500%Z) (fun _ => lcost 40) (fun _ a b lim => lsearch 40 a [] lim b) (nds _ _ ftrie) fecm None
  (map fst (ndTrips _ _ ftrie)).
Theorem C81_fast_engine_refuted :
  cost_laws xlt xadd None /\ tree (nds _ _ ftrie) /\ enumerates lenum /\ searchN_ok (lstep 40) (lsearchN 40) /\
  problem_ok (fun _ => lstep 40) (fun _ => lcost 40) lcomp lcomp (fun _ => lsearch 40) (fun _ a b lim => lsearch 40 a [] lim b) (fun _ _ => 500%Z) (nds _ _ ftrie) fecm /\
  exists r hs, froute = Some (r, [(2, hs)]) /\
  forall lim stuck, limits_from (nds _ _ ftrie) lim (fun _ _ => 500%Z) ->
    gives_up_only_then xlt xadd None (fun _ _ c _ => Some c) (fun z => Some z) (fun _ => lstep 40) (fun _ => lcost 40) (nds _ _ ftrie) fecm lim stuck (fun _ _ => 500%Z) ->
    (exists is c, way xadd (fun _ _ c _ => Some c) (fun z => Some z) (fun _ => lstep 40) (fun _ => lcost 40) (nds _ _ ftrie) fecm lim stuck 2 is c /\ xlt c None = true) /\
    ~ cheapest_way xlt xadd None (fun _ _ c _ => Some c) (fun z => Some z) (fun _ => lstep 40) (fun _ => lcost 40) (nds _ _ ftrie) fecm lim stuck 2 hs.
Proof.
  assert (Pl : forall n i x, cand_at fecm n i x -> placed x = true).
  { assert (A : forallb (forallb placed) fecm = true) by (vm_compute; reflexivity).
    intros n i x (cs & E1 & E2). rewrite forallb_forall in A. specialize (A cs (nth_error_In _ _ E1)). rewrite forallb_forall in A. exact (A x (nth_error_In _ _ E2)). }
  split; [exact xlaws|].
  split; [exact (C26_built_trie_is_tree nat Nat.eqb unit (fun a _ => a) 0 Nat.eqb_refl _ ftrie _ (surjective_pairing _))|].
  split; [exact line_enum|]. split; [apply line_searchN|]. split.
  { split.
    - intros _. apply line_graph. unfold u32max. lia.
    - intros _. apply line_search.
    - intros _. apply line_path.
    - intros n i x e Cx E. pose proof (Pl _ _ _ Cx) as A. unfold placed in A. rewrite E in A.
      apply andb_true_iff in A. destruct A as [A A2]. apply andb_true_iff in A. destruct A as [_ A1]. apply Qle_bool_iff in A1, A2. auto.
    - intros _ _. unfold u32max. lia.
    - intros. unfold lcost, u32max. lia.
    - intros n p f i x y ef et d _ _ Cx Cy Ex Ey [(es & W) _] _. apply line_walk in W. destruct W as (_ & -> & _). unfold ldist, lcost.
      pose proof (Pl _ _ _ Cy) as A. unfold placed in A. rewrite Ey in A.
      apply andb_true_iff in A. destruct A as [A _]. apply andb_true_iff in A. destruct A as [A _]. apply Nat.leb_le in A. unfold u32max. lia. }
  assert (P21 : parent (nds _ _ ftrie) 2 1) by (eexists; repeat split; try discriminate; vm_compute; reflexivity).
  assert (NS : ~ stays (nds _ _ ftrie) 1 2) by (intros (a & b & A & B & D & F); vm_compute in A, B; injection A as <-; injection B as <-; discriminate).
  assert (F1 : first_node (nds _ _ ftrie) 1) by (eexists; repeat split; try discriminate; vm_compute; reflexivity).
  eexists _, _. split; [vm_compute; reflexivity|].
  intros lim stuck LF GU. destruct (GU 2 1 P21 NS) as [[G _] _].
  assert (L5 : (500 <= lim 2%nat)%Z).
  { destruct (LF 2 1 P21 NS) as (k & K & ->). assert (1 <= 2 ^ k)%Z by (change 1%Z with (2 ^ 0)%Z; apply Z.pow_le_mono_r; lia). lia. }
  assert (Hc : hop_cost (lstep 40) (lcost 40) 4 5 0 (1 # 4) 50).
  { exists 40%Z, 0%Z, 10%Z. split; [exact (line_cheapest 40 4 5 ltac:(lia))|]. split; [split; [discriminate|reflexivity]|]. split; [split; [discriminate|reflexivity]|].
    split; [discriminate|reflexivity]. }
  set (W := way xadd (fun _ _ c _ => Some c) (fun z => Some z) (fun _ => lstep 40) (fun _ => lcost 40) (nds _ _ ftrie) fecm lim stuck) in *.
  assert (W1 : W 1 [1] (Some 0%Z)).
  { change (Some 0%Z) with (cPen _ _ _ (fcd (Some 4) 0)). apply wy_first; [exact F1|]. eexists. split; reflexivity. }
  assert (Dr : drive (fun _ _ c _ => Some c) (fun _ => lstep 40) (fun _ => lcost 40) fecm lim 1 2 1 1 [Some 0%Z; Some 50%Z]).
  { exists (fcd (Some 4) 0), (fcd (Some 5) (1 # 4)), 4, 5, 50%Z. split; [eexists; split; reflexivity|]. split; [eexists; split; reflexivity|].
    split; [reflexivity|]. split; [reflexivity|]. split; [exact Hc|]. split; [lia|reflexivity]. }
  assert (Ns : ~ stuck 2).
  { intros S. apply (G S). exists 1, 1, 1, [], (Some 0%Z), [Some 0%Z; Some 50%Z]. split; [exact P21|]. split; [exact W1|]. split; [exact Dr|reflexivity]. }
  split.
  - exists [1; 1], (Some 50%Z). split; [|reflexivity]. change (Some 50%Z) with (fold_left xadd [Some 0%Z; Some 50%Z] (Some 0%Z)).
    eapply wy_move; [exact P21|exact W1|]. apply mv_drive; [exact NS|exact Dr].
  - intros (is & c & Wy & _ & Dn & _). inversion Dn as [? ? (nd & E & P0 & _)|? q ? ? ? ? Pq Sy|? q i f is' hs x y h Pq _ Dp Cx Cy Sx Ey]; subst.
    + destruct Pq as (nd & E & Pq & _). vm_compute in E. injection E as <-. cbn in Pq. subst q. contradiction.
    + destruct Pq as (nd & E & Pq & _). vm_compute in E. injection E as <-. cbn in Pq. subst q.
      destruct Sx as (Sx & _). cbn in Sx.
      inversion Wy as [|? q ? ? ? c' adds Pq' Wp Mv]; subst. destruct Pq' as (nd & E & Pq' & _). vm_compute in E. injection E as <-. cbn in Pq'. subst q.
      inversion Mv as [? ? ? Sy|? ? ? _ (x' & y' & ef & et & c0 & Cx' & _ & Et & _)|? ? ? ? _ S|? ? ? ? ? ? ? _ S]; subst; [contradiction| |contradiction|contradiction].
      destruct Cx as (cs & E1 & E2). destruct Cx' as (cs' & E1' & E2'). rewrite E1 in E1'. injection E1' as <-. rewrite E2 in E2'. injection E2' as <-. congruence.
Qed.
Print Assumptions C81_fast_engine_refuted.
