(** C83: the route found with the default hop engine is a way through the network, with the
    cost it has there. *)
From Coq Require Import String List Arith ZArith QArith Qround Bool Lia.
From Verif Require Import ListAux HopCache_model TripTrie_model TripTrie_spec TripTrie_proofs TripTrie_props
  Router_model Router_spec Router_proofs Router_props Hops_model Hops_spec Hops_proofs Hops_props Ecm_model Ecm_spec Ecm_proofs Ecm_props
  Optimal_spec Optimal_proofs Optimal_props Default_spec Default_proofs.
Import ListNotations.
Open Scope nat_scope.

(** Route with the n -> n engine (the default), with any cache: every accepted trip has hops,
    and they are the drives of a way to serve its stops whose cost is finite.  Where driving
    was not given up the hop runs along a cheapest path between the positions chosen; it is
    given up only after the limit of the schedule was doubled three times (or is the largest
    possible one).  That the way is a cheapest one is refuted (C81_fast_engine_refuted). *)
Theorem C83_default_route_is_driven : forall C lt add inf ofQ ofZ P p0 pos attrs near mergeA emptySecs
    (w : nat -> nat -> Z -> Z -> C) limit0 step ecost spath
    eFr eTo deg outF outB inF inB oneWay enumS maxStat maxSnap statPen platPen nonStatPen useStations em
    (edist eproj : stop pos -> edge -> Q) isRev (point : stop pos -> P) (stats : stop pos -> list statNd) (edges : stop pos -> list edge)
    invWeight enum len compF compT search searchN needDist allowsFast noFastHops,
  cost_laws lt add inf -> (forall q, lt (ofQ q) inf = true) -> (forall z, lt (ofZ z) inf = true) ->
  (forall a b, lt a inf = true -> lt b inf = true -> lt (add a b) inf = true) ->
  (forall p, near p p = true) -> (forall l x, In x (enumS l) <-> In x l) ->
  forall cs tr rs M, runCalls pos near attrs mergeA emptySecs (emptyTrie pos attrs) cs = (tr, rs) ->
  (forall c, In c cs -> 2 <= length (tSts _ (cTrip _ _ c))) ->
  (0 <= M)%Z -> (forall c k, In c cs -> In k (call_keys emptySecs c) -> (0 <= kTime k <= M)%Z) ->
  (Z.of_nat (length cs) * M <= 2147483647)%Z ->
  let cands s := getEdgCands C ofQ P p0 eFr eTo deg outF outB inF inB oneWay enumS maxStat maxSnap statPen platPen nonStatPen
                   useStations em (edist s) (eproj s) isRev (point s) (sPlat _ s) (stats s) (edges s) in
  exists ecm, getECM C add ofQ P pos attrs (nds _ _ tr) cands = Some ecm /\ trie_cands ofQ add (nds _ _ tr) cands ecm /\
  (enumerates enum -> fast_problem_ok step ecost compF compT searchN spath limit0 (nds _ _ tr) ecm -> noFastHops = false -> allowsFast = true ->
   forall hc, exists r m lim stuck,
   route pos attrs C lt add inf edge P p0 (option cache)
     (askHops ecm invWeight enum ecost len compF compT search searchN needDist allowsFast noFastHops)
     (fun p n c _ t => w p n c t) ofZ limit0 ecost spath (nds _ _ tr) ecm hc (map fst (ndTrips _ _ tr)) = Some (r, m) /\
   limits_from (nds _ _ tr) lim limit0 /\
   gives_up_last (nds _ _ tr) lim stuck limit0 /\
   exists ps : list (option (list nat)), length ps = length cs /\
     rs = map (fun p => match p with Some _ => true | None => false end) ps /\
     (forall n, listAt (ndTrips _ _ tr) n = placed_at n cs ps) /\
     forall i c p, nth_error cs i = Some c -> nth_error ps i = Some (Some p) ->
       (exists hs, In (last p 0, hs) m) /\
       forall hs, In (last p 0, hs) m ->
         serves cands near (map (stStop _) (tSts _ (cTrip _ _ c))) (rev hs) /\
         exists is c', way add w ofZ step ecost (nds _ _ tr) ecm lim stuck (last p 0) is c' /\ lt c' inf = true /\
           drawn step ecost (nds _ _ tr) ecm lim (last p 0) is hs /\ driven step (nds _ _ tr) ecm stuck (last p 0) is hs).
Proof.
  intros C lt add inf ofQ ofZ P p0 pos attrs near mergeA emptySecs w limit0 step ecost spath
    eFr eTo deg outF outB inF inB oneWay enumS maxStat maxSnap statPen platPen nonStatPen useStations em
    edist eproj isRev point stats edges invWeight enum len compF compT search searchN needDist allowsFast noFastHops
    CL FQ FZ FA NR EN cs tr rs M H L2 HM HT HS cands.
  destruct (C34_trips_get_hops C lt add inf ofQ ofZ P p0 pos attrs near mergeA emptySecs (fun p n c _ t => w p n c t) limit0 ecost spath
    eFr eTo deg outF outB inF inB oneWay enumS maxStat maxSnap statPen platPen nonStatPen useStations em
    edist eproj isRev point stats edges invWeight enum ecost len compF compT search searchN needDist allowsFast noFastHops
    CL FQ FZ FA NR EN cs tr rs M H L2 HM HT HS) as (ecm & Ge & TC & R).
  exists ecm. split; [exact Ge|]. split; [exact TC|]. intros HE PO -> -> hc.
  destruct (R hc) as (r & m & Ro & _ & Fin & ps & Lp & Rs & Pl & Sv).
  pose proof (C26_built_trie_is_tree pos near attrs mergeA emptySecs NR cs tr rs H) as T.
  destruct (default_core pos attrs C P lt add inf p0 w ofZ step ecost compF compT search searchN spath limit0 enum len
    invWeight needDist true false (nds _ _ tr) ecm CL T HE PO eq_refl hc _ r m Ro) as (LF & GU & Ch).
  eexists r, m, _, _. split; [exact Ro|]. split; [exact LF|]. split; [exact GU|]. exists ps. split; [exact Lp|]. split; [exact Rs|]. split; [exact Pl|].
  intros i c p Ec Ep. destruct (Sv i c p Ec Ep) as (Ex & Sv2). split; [exact Ex|]. intros hs J. split; [apply (Sv2 hs J)|]. apply Ch; [exact J|].
  destruct (Fin _ _ J) as (is & _ & c' & S & F). exists is, c'. auto.
Qed.
Print Assumptions C83_default_route_is_driven.

(** Non-vacuity: the trips of C81_case with the default engine. *)
Definition droute := route nat unit (option Z) xlt xadd None edge nat 99 (option cache)
  (askHops eecm (fun x => x) lenum (fun _ => lcost 40) (fun _ => 1%Q) lcomp lcomp (fun _ => lsearch 40) (fun _ => lsearchN 40) false true false)
  (fun _ _ c _ _ => Some c) (fun z => Some z) (fun _ _ => 30%Z) (fun _ => lcost 40) (fun _ a b lim => lsearch 40 a [] lim b) (nds _ _ etrie) eecm (Some emptyCache)
  (map fst (ndTrips _ _ etrie)).
Example C83_case :
  fast_problem_ok (fun _ => lstep 40) (fun _ => lcost 40) lcomp lcomp (fun _ => lsearchN 40) (fun _ a b lim => lsearch 40 a [] lim b) (fun _ _ => 30%Z) (nds _ _ etrie) eecm /\
  option_map (fun x => map (fun l => (fst l, map (fun h => (hStart _ _ h, hEnd _ _ h, rev (hEdges _ _ h))) (snd l))) (snd x)) droute =
    Some [(4, [(Some 11, Some 12, [11; 12]); (Some 10, Some 11, [10; 11])]); (5, [(Some 11, Some 13, [11; 12; 13]); (Some 10, Some 11, [10; 11])]);
          (2, [(Some 10, Some 11, [10; 11])])].
Proof.
  split.
  { split.
    - intros _. apply line_graph. unfold u32max. lia.
    - intros _. apply line_searchN.
    - intros _. apply line_path.
    - intros n i x e Cx E. pose proof (eecm_placed _ _ _ Cx) as A. unfold placed in A. rewrite E in A.
      apply andb_true_iff in A. destruct A as [A A2]. apply andb_true_iff in A. destruct A as [_ A1]. apply Qle_bool_iff in A1, A2. auto.
    - intros _ _. lia.
    - intros. unfold lcost. lia.
    - intros n p f i x y ef et d _ _ Cx Cy Ex Ey [(es & W) _] _. apply line_walk in W. destruct W as (_ & -> & _). unfold ldist, lcost.
      pose proof (eecm_placed _ _ _ Cy) as A. unfold placed in A. rewrite Ey in A.
      apply andb_true_iff in A. destruct A as [A _]. apply andb_true_iff in A. destruct A as [A _]. apply Nat.leb_le in A. lia. }
  vm_compute. reflexivity.
Qed.
