(** C82: trips take cheapest ways through the finished OSM network, with the turn penalties,
    turn restrictions and line factors of the program. *)
From Coq Require Import String List Arith NArith ZArith QArith Bool Lia Lqa.
From Verif Require Import ListAux Weights_model Weights_spec Weights_proofs OsmGraph_model OsmGraph_spec OsmGraph_proofs OsmGraph_props
  Finish_model Finish_spec Finish_proofs Finish_props Astar_spec Astar_proofs Astar_props
  HopCache_model TripTrie_model TripTrie_spec TripTrie_proofs TripTrie_props
  Router_model Router_spec Router_proofs Router_props Hops_model Hops_spec Hops_proofs Ecm_model Ecm_spec Ecm_proofs Ecm_props
  Optimal_spec Optimal_proofs Optimal_props RealNet_model RealNet_spec RealNet_proofs.
Import ListNotations.
Open Scope nat_scope.

(** What a cost function object answers are the costs of the network, whatever it was asked
    before. *)
Theorem C82_costs_of_the_program : forall (P : Type) (g : graph P) baseCost lineSimis noAttrs eFrom eTo turnCycle deg sharp restricted may o,
  (forall e, u32 (baseCost e)) -> opts_ok o -> forall histS histC,
  network_costs g (transition_cost baseCost lineSimis noAttrs eFrom eTo turnCycle deg sharp restricted may o)
    (netStep P g baseCost lineSimis noAttrs eFrom eTo turnCycle deg sharp restricted may o histS)
    (netCost baseCost lineSimis noAttrs eFrom eTo turnCycle deg sharp restricted may o histC).
Proof. intros. now apply net_costs. Qed.
Print Assumptions C82_costs_of_the_program.

(** The network built from an OSM graph, with these costs and the components of its nodes, is
    one the hop engines can handle: costs are 32-bit values, leaving an edge costs at least
    the edge, and no walk leaves a component. *)
Theorem C82_network_fits_the_router : forall (P : Type) (pos : nat -> P) station turn len simplify speed corFac fl sp ec nl,
  (forall l, 0 <= len l)%Q -> (forall l, 0 < speed l)%Q -> (0 < sp)%Q -> (0 <= ec)%Q -> (0 < nl)%Q -> rounding fl ->
  (forall a m b, exists m', simplify (a :: m ++ [b]) = a :: m' ++ [b]) ->
  forall g cns, simple g -> OsmGraph_spec.graph_ok g -> (forall e, In e (edges g) -> ends_fit pos e) -> (forall e, In e (edges g) -> rev_ (ePl e) = false) ->
  exists r, finish P pos station turn len simplify speed corFac fl sp ec nl g cns = Some r /\
  forall place baseCost eFrom eTo, seen pos (net r) place baseCost eFrom eTo ->
  forall lineSimis noAttrs turnCycle deg sharp restricted may o step ecost, opts_ok o ->
  network_costs (net r) (transition_cost baseCost lineSimis noAttrs eFrom eTo turnCycle deg sharp restricted may o) step ecost ->
  Hops_spec.graph_ok step ecost (edgeComp P (net r) (compOf (comps r)) from) (edgeComp P (net r) (compOf (comps r)) to).
Proof.
  intros P pos station turn len simplify speed corFac fl sp ec nl L0 V0 Sp Ec Nl Rd Si g cns S Ok Fit Rv.
  destruct (net_ok pos station turn len simplify speed corFac fl sp ec nl g cns S Ok Fit Rv Rd) as (r & E & Er & A).
  assert (Fin : finished pos station turn len simplify speed sp ec nl g (net r)) by (rewrite Er; now apply finished_ok).
  exists r. split; [exact E|]. intros place baseCost eFrom eTo Sn lineSimis noAttrs turnCycle deg sharp restricted may o step ecost Ho N.
  eapply costs_graph; [|exact Ho| |exact N].
  - eapply (base_u32 pos station turn len simplify speed sp ec nl); eauto.
  - rewrite <- Er in A. eapply areas_edge; [exact A|]. apply (fi_ok _ _ _ _ _ _ _ _ _ _ _ Fin).
Qed.
Print Assumptions C82_network_fits_the_router.

(** From the OSM graph and the trips to the drives: build the network, add any trips of at
    least two stops to a trie, compute the candidates of its nodes and route with the 1 -> n
    engine.  The drives of every accepted trip are those of a cheapest way to serve its stops,
    where a drive moves along the edges of the network and pays at each of them the edge, the
    factors for the lines it does not match, and the penalties of full turns and prohibited
    turns. *)
Theorem C82_cheapest_on_the_network : forall (N : Type) (npos : nat -> N) station turn plen simplify speed corFac fl sp ec nl,
  (forall l, 0 <= plen l)%Q -> (forall l, 0 < speed l)%Q -> (0 < sp)%Q -> (0 <= ec)%Q -> (0 < nl)%Q -> rounding fl ->
  (forall a m b, exists m', simplify (a :: m ++ [b]) = a :: m' ++ [b]) ->
  forall g cns, simple g -> OsmGraph_spec.graph_ok g -> (forall e, In e (edges g) -> ends_fit npos e) -> (forall e, In e (edges g) -> rev_ (ePl e) = false) ->
  exists net_, finish N npos station turn plen simplify speed corFac fl sp ec nl g cns = Some net_ /\
  forall place baseCost eFrom eTo, seen npos (net net_) place baseCost eFrom eTo ->
  forall lineSimis noAttrs turnCycle ndeg sharp restricted may o step ecost, opts_ok o ->
  (forall n, network_costs (net net_) (transition_cost baseCost (lineSimis n) (noAttrs n) eFrom eTo turnCycle ndeg sharp restricted may o) (step n) (ecost n)) ->
  let compF := edgeComp N (net net_) (compOf (comps net_)) from in
  let compT := edgeComp N (net net_) (compOf (comps net_)) to in
  forall C lt add inf ofQ ofZ P p0 pos attrs near mergeA emptySecs
    (w : nat -> nat -> Z -> Z -> C) limit0 spath
    deg outF outB inF inB oneWay enumS maxStat maxSnap statPen platPen nonStatPen useStations em
    (edist eproj : stop pos -> nat -> Q) isRev (point : stop pos -> P) (stats : stop pos -> list statNd) (near_edges : stop pos -> list nat)
    invWeight enum len search searchN needDist allowsFast noFastHops,
  cost_laws lt add inf -> (forall q, lt (ofQ q) inf = true) -> (forall z, lt (ofZ z) inf = true) ->
  (forall a b, lt a inf = true -> lt b inf = true -> lt (add a b) inf = true) ->
  (forall p, near p p = true) -> (forall l x, In x (enumS l) <-> In x l) ->
  forall cs tr rs M, runCalls pos near attrs mergeA emptySecs (emptyTrie pos attrs) cs = (tr, rs) ->
  (forall c, In c cs -> 2 <= length (tSts _ (cTrip _ _ c))) ->
  (0 <= M)%Z -> (forall c k, In c cs -> In k (call_keys emptySecs c) -> (0 <= kTime k <= M)%Z) ->
  (Z.of_nat (length cs) * M <= 2147483647)%Z ->
  let cands s := getEdgCands C ofQ P p0 eFrom eTo deg outF outB inF inB oneWay enumS maxStat maxSnap statPen platPen nonStatPen
                   useStations em (edist s) (eproj s) isRev (point s) (sPlat _ s) (stats s) (near_edges s) in
  exists ecm, getECM C add ofQ P pos attrs (nds _ _ tr) cands = Some ecm /\ trie_cands ofQ add (nds _ _ tr) cands ecm /\
  (enumerates enum -> searches_ok step ecost search spath limit0 (nds _ _ tr) ecm -> noFastHops || negb allowsFast = true ->
   forall hc, cache_ok step limit0 hc -> exists r m lim stuck,
   route pos attrs C lt add inf nat P p0 (option cache)
     (askHops ecm invWeight enum ecost len compF compT search searchN needDist allowsFast noFastHops)
     (fun p n c _ t => w p n c t) ofZ limit0 ecost spath (nds _ _ tr) ecm hc (map fst (ndTrips _ _ tr)) = Some (r, m) /\
   limits_from (nds _ _ tr) lim limit0 /\
   gives_up_only_then lt add inf w ofZ step ecost (nds _ _ tr) ecm lim stuck limit0 /\
   exists ps : list (option (list nat)), length ps = length cs /\
     rs = map (fun p => match p with Some _ => true | None => false end) ps /\
     (forall n, listAt (ndTrips _ _ tr) n = placed_at n cs ps) /\
     forall i c p, nth_error cs i = Some c -> nth_error ps i = Some (Some p) ->
       (exists hs, In (last p 0, hs) m) /\
       forall hs, In (last p 0, hs) m ->
         serves cands near (map (stStop _) (tSts _ (cTrip _ _ c))) (rev hs) /\
         cheapest_way lt add inf w ofZ step ecost (nds _ _ tr) ecm lim stuck (last p 0) hs).
Proof.
  intros N npos station turn plen simplify speed corFac fl sp ec nl L0 V0 Sp Ec Nl Rd Si g cns S Ok Fit Rv.
  destruct (C82_network_fits_the_router N npos station turn plen simplify speed corFac fl sp ec nl L0 V0 Sp Ec Nl Rd Si g cns S Ok Fit Rv) as (net_ & E & G).
  exists net_. split; [exact E|]. intros place baseCost eFrom eTo Sn lineSimis noAttrs turnCycle ndeg sharp restricted may o step ecost Ho NC compF compT.
  intros C lt add inf ofQ ofZ P p0 pos attrs near mergeA emptySecs w limit0 spath
    deg outF outB inF inB oneWay enumS maxStat maxSnap statPen platPen nonStatPen useStations em
    edist eproj isRev point stats near_edges invWeight enum len search searchN needDist allowsFast noFastHops
    CL FQ FZ FA NR EN cs tr rs M H L2 HM HT HS cands.
  destruct (C81_trips_take_cheapest_ways C lt add inf ofQ ofZ P p0 pos attrs near mergeA emptySecs w limit0 step ecost spath
    eFrom eTo deg outF outB inF inB oneWay enumS maxStat maxSnap statPen platPen nonStatPen useStations em
    edist eproj isRev point stats near_edges invWeight enum len compF compT search searchN needDist allowsFast noFastHops
    CL FQ FZ FA NR EN cs tr rs M H L2 HM HT HS) as (ecm & Ge & TC & R).
  exists ecm. split; [exact Ge|]. split; [exact TC|]. intros HE SO Slow hc CO. apply R; auto.
  apply problem_from; [|exact SO]. intros n. eapply G; [exact Sn|exact Ho|apply NC].
Qed.
Print Assumptions C82_cheapest_on_the_network.

(** What is assumed of the searches can be met on every network: for the costs of the program
    there are a 1 -> n and a point-to-point search that work. *)
Theorem C82_searches_exist : forall (P : Type) (g : graph P) baseCost lineSimis noAttrs eFrom eTo turnCycle deg sharp restricted may o step ecost,
  (forall e, u32 (baseCost e)) -> opts_ok o ->
  network_costs g (transition_cost baseCost lineSimis noAttrs eFrom eTo turnCycle deg sharp restricted may o) step ecost ->
  exists search spath, search_ok step search /\ path_search_ok step spath.
Proof.
  intros P g baseCost lineSimis noAttrs eFrom eTo turnCycle deg sharp restricted may o step ecost Ub Ho [Ns _].
  assert (B : forall i j w, step i j = Some w -> (i < length (edges g) /\ j < length (edges g) /\ (0 <= w)%Z)).
  { intros i j w S. apply Ns in S. destruct S as (x & y & Ei & Ej & _ & T). split; [apply nth_error_Some; congruence|]. split; [apply nth_error_Some; congruence|].
    destruct (TC_lower _ _ _ _ _ _ _ _ _ _ _ Ub Ho _ _ _ T) as [[U _] _]. exact U. }
  exists (fun a _ lim b => refSearch step (length (edges g)) a b lim), (refSearch step (length (edges g))).
  split; [now apply ref_search|now apply ref_path].
Qed.
Print Assumptions C82_searches_exist.

(** Non-vacuity: the network of C74_example, where turning from edge 1 into edge 2 is
    prohibited.  A trip from the middle of edge 1 to edge 0 takes the prohibited turn if this
    costs a minute, and drives round, with two full turns, if it costs 70 seconds. *)
Definition rNet : graph nat := match exNet with Some r => net r | None => mkG [] [] end.
Definition rComp (f : OsmGraph_model.edge nat -> nat) : nat -> nat := match exNet with Some r => edgeComp nat (net r) (compOf (comps r)) f | None => fun _ => 0 end.
Definition rO (restr : Z) : ropts := mkOpts 300 restr (1 # 2) 1 1.
Definition rHist (i j : nat) : list (option nat * option (nat * nat)) := [(Some j, None); (Some i, None)].
Definition rTC restr := transition_cost exBase (fun _ => []) true (exOf from) (exOf to) (fun _ => false) (fun _ => 2) (fun _ _ _ => false) (fun e => e =? 1) (fun f t _ => negb ((f =? 1) && (t =? 2))) (rO restr).
Definition rStep restr := netStep nat rNet exBase (fun _ => []) true (exOf from) (exOf to) (fun _ => false) (fun _ => 2) (fun _ _ _ => false) (fun e => e =? 1) (fun f t _ => negb ((f =? 1) && (t =? 2))) (rO restr) rHist.
Definition rCost restr := netCost exBase (fun _ => []) true (exOf from) (exOf to) (fun _ => false) (fun _ => 2) (fun _ _ _ => false) (fun e => e =? 1) (fun f t _ => negb ((f =? 1) && (t =? 2))) (rO restr) (fun i => rHist i i).
Definition rSearch restr (a b : nat) (lim : Z) := refSearch (rStep restr) 6 a b lim.
Definition rEcm : list (list (cand (option Z) nat nat)) := [[]; [fcd None 0; fcd (Some 1) (1 # 2)]; [fcd None 0; fcd (Some 0) (1 # 4)]].
Definition rRoute restr := route nat unit (option Z) xlt xadd None nat nat 99 (option cache)
  (askHops rEcm (fun x => x) lenum (fun _ => rCost restr) (fun _ => 1%Q) (rComp from) (rComp to) (fun _ a _ lim b => rSearch restr a b lim) (fun _ => lsearchN 40) false false false)
  (fun _ _ c _ _ => Some c) (fun z => Some z) (fun _ _ => 500%Z) (fun _ => rCost restr) (fun _ => rSearch restr) (nds _ _ ftrie) rEcm (Some emptyCache)
  (map fst (ndTrips _ _ ftrie)).
Lemma exBase_u32 : forall e, u32 (exBase e).
Proof.
  intros e. unfold exBase, exEdge. destruct exNet as [r|] eqn:E; [|vm_compute; split; discriminate]. destruct (nth_error (edges (net r)) e) as [x|] eqn:N; [|vm_compute; split; discriminate].
  apply nth_error_In in N. vm_compute in E. injection E as <-. cbn in N. repeat (destruct N as [<-|N]; [vm_compute; split; discriminate|]). destruct N.
Qed.
Lemma rO_ok : forall restr, u32 restr -> opts_ok (rO restr).
Proof. intros restr U. split; [vm_compute; split; discriminate|]. split; [exact U|]. split; [reflexivity|]. split; reflexivity. Qed.
Example C82_case : forall restr, restr = 600%Z \/ restr = 700%Z ->
  (exists r, exNet = Some r /\ seen (fun n => n) (net r) (exOf from) exBase (exOf from) (exOf to) /\ network_costs (net r) (rTC restr) (rStep restr) (rCost restr)) /\
  opts_ok (rO restr) /\
  searches_ok (fun _ => rStep restr) (fun _ => rCost restr) (fun _ a _ lim b => rSearch restr a b lim) (fun _ => rSearch restr) (fun _ _ => 500%Z) (nds _ _ ftrie) rEcm /\
  cache_ok (fun _ => rStep restr) (fun _ _ => 500%Z) (Some emptyCache).
Proof.
  intros restr Hr. assert (Ho : opts_ok (rO restr)) by (apply rO_ok; unfold u32, Weights_model.u32max; lia).
  assert (NC : network_costs rNet (rTC restr) (rStep restr) (rCost restr)) by (apply net_costs; [exact exBase_u32|exact Ho]).
  split. { unfold rNet in NC. destruct exNet as [r|] eqn:E; [|vm_compute in E; discriminate]. exists r. split; [reflexivity|]. split; [|exact NC].
    assert (Ee : forall i, exEdge i = nth_error (edges (net r)) i) by (intro i; unfold exEdge; now rewrite E).
    constructor; intros i; unfold exOf, exBase; try (intros e N); try (intros N); rewrite Ee, N; reflexivity. }
  split; [exact Ho|].
  assert (Le : length (edges rNet) = 6) by (vm_compute; reflexivity).
  assert (B : forall i j w, rStep restr i j = Some w -> (i < 6 /\ j < 6 /\ (0 <= w)%Z)).
  { intros i j w S. apply (nc_step _ _ _ _ NC) in S. destruct S as (x & y & Ei & Ej & _ & T). rewrite <- Le. split; [apply nth_error_Some; congruence|]. split; [apply nth_error_Some; congruence|]. unfold rTC in T.
    destruct (TC_lower _ _ _ _ _ _ _ _ _ _ _ exBase_u32 Ho _ _ _ T) as [[U _] _]. exact U. }
  assert (Cc : forall n i x, cand_at rEcm n i x -> cE _ _ _ x = None \/ (cE _ _ _ x = Some 0 \/ cE _ _ _ x = Some 1) /\ (0 <= cProgr _ _ _ x <= 1)%Q).
  { intros n i x (cs & E1 & E2). destruct n as [|[|[|n]]]; cbn in E1; [injection E1 as <-; destruct i; discriminate| | |destruct n; discriminate];
      injection E1 as <-; (destruct i as [|[|i]]; cbn in E2; [injection E2 as <-; left; reflexivity|injection E2 as <-; right|destruct i; discriminate]); cbn; (split; [auto|split; discriminate]). }
  assert (C01 : rCost restr 0 = 6%Z /\ rCost restr 1 = 79%Z) by (destruct Hr as [-> | ->]; split; vm_compute; reflexivity).
  split.
  { split.
    - intros _. now apply ref_search.
    - intros _. now apply ref_path.
    - intros n i x e Cx E. destruct (Cc _ _ _ Cx) as [A|[_ A]]; [congruence|exact A].
    - intros _ _. lia.
    - intros n p f x e _ _ Cx E. destruct (Cc _ _ _ Cx) as [A|[[A|A] _]]; [congruence| |]; rewrite A in E; injection E as <-; rewrite ?(proj1 C01), ?(proj2 C01); lia.
    - intros n p f i x y ef et d _ _ Cx Cy Ex Ey [(es & W) Mn] _.
      assert (D : (d <= 10000)%Z).
      { destruct (Cc _ _ _ Cx) as [A|[Ax _]]; [congruence|]. destruct (Cc _ _ _ Cy) as [A|[Ay _]]; [congruence|]. rewrite Ex in Ax. rewrite Ey in Ay.
        destruct Ax as [Ax|Ax], Ay as [Ay|Ay]; injection Ax as ->; injection Ay as ->.
        - apply Z.le_trans with 0%Z; [|lia]. eapply Mn. constructor.
        - destruct Hr as [-> | ->]; (apply Z.le_trans with (6 + 0)%Z; [|lia]; eapply Mn; eapply (w_cons _ _ 1); [vm_compute; reflexivity|constructor]).
        - destruct Hr as [-> | ->]; (apply Z.le_trans with (379 + (79 + (362 + 0)))%Z; [|lia]; eapply Mn; eapply (w_cons _ _ 3); [vm_compute; reflexivity|]; eapply (w_cons _ _ 5); [vm_compute; reflexivity|]; eapply (w_cons _ _ 0); [vm_compute; reflexivity|constructor]).
        - apply Z.le_trans with 0%Z; [|lia]. eapply Mn. constructor. }
      destruct (Cc _ _ _ Cy) as [A|[[A|A] _]]; [congruence| |]; rewrite A in Ey; injection Ey as <-; rewrite ?(proj1 C01), ?(proj2 C01); lia. }
  right. split; [reflexivity|]. split; [reflexivity|]. intros; lia.
Qed.
Example C82_detour : option_map (fun x => map (fun l => (fst l, map (fun h => (hStart _ _ h, hEnd _ _ h, rev (hEdges _ _ h))) (snd l))) (snd x)) (rRoute 600) =
    Some [(2, [(Some 1, Some 0, [1; 2; 0])])] /\
  option_map (fun x => map (fun l => (fst l, map (fun h => (hStart _ _ h, hEnd _ _ h, rev (hEdges _ _ h))) (snd l))) (snd x)) (rRoute 700) =
    Some [(2, [(Some 1, Some 0, [1; 3; 5; 0])])].
Proof. split; vm_compute; reflexivity. Qed.
