(** C34: the candidates of stops and of trips. *)
From Coq Require Import String List Arith ZArith QArith Qround Bool Lia.
From Verif Require Import ListAux HopCache_model TripTrie_model TripTrie_spec TripTrie_proofs TripTrie_props
  Router_model Router_spec Router_proofs Router_props Hops_model Ecm_model Ecm_spec Ecm_proofs.
Import ListNotations.
Open Scope nat_scope.

(** C34: the candidates of a stop.  The computation never fails; the list starts with the
    fallback at the stop itself; every other candidate is the start of an edge leaving a
    station within the station distance, or the closest position on an edge within the
    snapping distance, with its penalty; every such station edge is there, and for every
    edge within the snapping distance there is a snapped candidate at most as far away. *)
Theorem C34_stop_candidates : forall C ofQ P p0 eFr eTo deg outF outB inF inB oneWay enum,
  (forall l x, In x (enum l) <-> In x l) ->
  forall maxStat maxSnap statPen platPen nonStatPen useStations em edist eproj isRev (p : P) platform sts es, exists cs : list (cand C edge P),
  getEdgCands C ofQ P p0 eFr eTo deg outF outB inF inB oneWay enum maxStat maxSnap statPen platPen nonStatPen useStations em
    edist eproj isRev p platform sts es = Some cs /\
  stop_cands ofQ oneWay maxStat maxSnap statPen platPen nonStatPen useStations em edist eproj isRev p platform sts es cs.
Proof. intros. apply getEdgCands_ok. assumption. Qed.
Print Assumptions C34_stop_candidates.

(** C34: the candidates of the nodes of a trie: those of the stop at first departures and
    arrivals, and at a later departure one for each candidate of its arrival. *)
Theorem C34_trie_candidates : forall C add ofQ P pos attrs (tnds : list (node pos attrs)) (cands : stop pos -> option (list (cand C edge P))),
  tree tnds ->
  (forall n nd, nth_error tnds n = Some nd -> n <> 0 -> exists s cs, nRepr _ _ nd = Some s /\ cands s = Some cs) ->
  (forall n nd, nth_error tnds n = Some nd -> (0 <= nAcc _ _ nd <= 2147483647)%Z) ->
  (forall s cs c, cands s = Some cs -> In c cs -> cPrede _ _ _ c = []) ->
  exists ecm, getECM C add ofQ P pos attrs tnds cands = Some ecm /\ trie_cands ofQ add tnds cands ecm.
Proof.
  intros C add ofQ P pos attrs tnds cands T R A F. apply getECM_ok; auto.
  intros n nd E. apply avgT_mean. exact (A n nd E).
Qed.
Print Assumptions C34_trie_candidates.

(** C34: from trips to hops.  Add any trips of at least two stops to a trie; compute the
    candidates of its nodes from those of the stops; route with either hop engine,
    whatever the engine's searches return.  Then every accepted trip has hops at its
    node: one for every two consecutive stops, each from a candidate of the one to a
    candidate of the other, and consecutive hops meet.  They are those of a sequence of
    candidates of finite cost.  (The times are not negative and
    their sums fit into an int.) *)
Theorem C34_trips_get_hops : forall C lt add inf ofQ ofZ P p0 pos attrs near mergeA emptySecs
    (weight : nat -> nat -> Z -> Z -> Z -> C) limit0 startCost spath
    eFr eTo deg outF outB inF inB oneWay enumS maxStat maxSnap statPen platPen nonStatPen useStations em
    (edist eproj : stop pos -> edge -> Q) isRev (point : stop pos -> P) (stats : stop pos -> list statNd) (edges : stop pos -> list edge)
    invWeight enum ecost len compF compT search searchN needDist allowsFast noFastHops,
  cost_laws lt add inf -> (forall q, lt (ofQ q) inf = true) -> (forall z, lt (ofZ z) inf = true) ->
  (forall a b, lt a inf = true -> lt b inf = true -> lt (add a b) inf = true) ->
  (forall p, near p p = true) -> (forall l x, In x (enumS l) <-> In x l) ->
  forall cs tr rs M, runCalls pos near attrs mergeA emptySecs (emptyTrie pos attrs) cs = (tr, rs) ->
  (forall c, In c cs -> 2 <= length (tSts _ (cTrip _ _ c))) ->
  (0 <= M)%Z -> (forall c k, In c cs -> In k (call_keys emptySecs c) -> (0 <= kTime k <= M)%Z) ->
  (Z.of_nat (length cs) * M <= 2147483647)%Z ->
  let cands s := getEdgCands C ofQ P p0 eFr eTo deg outF outB inF inB oneWay enumS maxStat maxSnap statPen platPen nonStatPen
                   useStations em (edist s) (eproj s) isRev (point s) (sPlat _ s) (stats s) (edges s) in
  exists ecm, getECM C add ofQ P pos attrs (nds _ _ tr) cands = Some ecm /\ trie_cands ofQ add (nds _ _ tr) cands ecm /\
  forall hc : option cache, exists r m,
  route pos attrs C lt add inf edge P p0 (option cache)
    (askHops ecm invWeight enum ecost len compF compT search searchN needDist allowsFast noFastHops)
    weight ofZ limit0 startCost spath (nds _ _ tr) ecm hc (map fst (ndTrips _ _ tr)) = Some (r, m) /\
  map fst m = map fst (ndTrips _ _ tr) /\
  (forall n hs, In (n, hs) m -> exists is, yields startCost spath (nds _ _ tr) ecm (rLog _ _ r) n is hs /\
     exists c, seqcost add weight ofZ (nds _ _ tr) ecm (rLog _ _ r) n is c /\ lt c inf = true) /\
  exists ps : list (option (list nat)), length ps = length cs /\
    rs = map (fun p => match p with Some _ => true | None => false end) ps /\
    (forall n, listAt (ndTrips _ _ tr) n = placed_at n cs ps) /\
    forall i c p, nth_error cs i = Some c -> nth_error ps i = Some (Some p) ->
      (exists hs, In (last p 0, hs) m) /\
      forall hs, In (last p 0, hs) m ->
        serves cands near (map (stStop _) (tSts _ (cTrip _ _ c))) (rev hs) /\ chained (C:=C) hs.
Proof.
  intros C lt add inf ofQ ofZ P p0 pos attrs near mergeA emptySecs weight limit0 startCost spath
    eFr eTo deg outF outB inF inB oneWay enumS maxStat maxSnap statPen platPen nonStatPen useStations em
    edist eproj isRev point stats edges invWeight enum ecost len compF compT search searchN needDist allowsFast noFastHops
    CL FQ FZ FA NR EN cs tr rs M H L2 HM HT HS cands.
  destruct (trie_history near mergeA emptySecs NR cs tr rs H) as (T & ps & R & F & _ & Pl & A).
  assert (SC : forall s, exists l, cands s = Some l /\ stop_cands ofQ oneWay maxStat maxSnap statPen platPen nonStatPen useStations em
    (edist s) (eproj s) isRev (point s) (sPlat _ s) (stats s) (edges s) l) by (intros s; apply getEdgCands_ok; exact EN).
  assert (Fresh : forall s l c, cands s = Some l -> In c l -> cPrede _ _ _ c = []).
  { intros s l c E I. destruct (SC s) as (l' & E' & S). rewrite E in E'. injection E' as <-. exact (proj2 (sc_fresh _ _ _ _ _ _ _ _ _ _ _ _ _ _ _ _ _ S c I)). }
  assert (Null : forall s l, cands s = Some l -> exists c rest, l = c :: rest /\ cE _ _ _ c = None).
  { intros s l E. destruct (SC s) as (l' & E' & S). rewrite E in E'. injection E' as <-.
    destruct (sc_null _ _ _ _ _ _ _ _ _ _ _ _ _ _ _ _ _ S) as (c & rest & X & Y & _). eauto. }
  assert (Fin : forall s l c, cands s = Some l -> In c l -> lt (cPen _ _ _ c) inf = true).
  { intros s l c E I. destruct (SC s) as (l' & E' & S). rewrite E in E'. injection E' as <-.
    destruct (cE _ _ _ c) as [e|] eqn:Ec.
    - destruct (sc_sound _ _ _ _ _ _ _ _ _ _ _ _ _ _ _ _ _ S c e I Ec) as [(nd & _ & _ & _ & np & tp & -> & _)|(_ & _ & -> & _)]; apply FQ.
    - destruct (sc_null _ _ _ _ _ _ _ _ _ _ _ _ _ _ _ _ _ S) as (c0 & rest & -> & _ & Pc & _ & Rn). destruct I as [<-|I]; [rewrite Pc; apply FQ|].
      exfalso. exact (Rn c I Ec). }
  destruct (C34_trie_candidates C add ofQ P pos attrs (nds _ _ tr) cands T) as (ecm & Ge & TC).
  { intros n nd E N0. pose proof (built_repr near mergeA emptySecs cs tr rs H n nd E N0) as Rn.
    destruct (nRepr _ _ nd) as [s|]; [|contradiction]. destruct (SC s) as (l & El & _). eauto. }
  { intros n nd E. destruct (A n nd E) as [_ ->]. pose proof (sum_bound emptySecs M n cs ps HM HT). lia. }
  { exact Fresh. }
  exists ecm. split; [exact Ge|]. split; [exact TC|]. intros hc.
  assert (Lps : length ps = length cs) by (clear - F; induction F; cbn; auto).
  assert (Sp : forall i c p, nth_error cs i = Some c -> nth_error ps i = Some (Some p) -> spells near (nds _ _ tr) (cTimeEx _ _ c) 0 p (call_keys emptySecs c)).
  { intros i c p Ec Ep. exact (Forall2_nth _ _ _ _ _ _ _ _ F Ec Ep). }
  pose proof (built_leaves near mergeA emptySecs cs tr rs ps H Lps Pl) as Lv.
  destruct (C27_routing_never_stuck pos attrs C edge P (option cache) lt add inf p0
    (askHops ecm invWeight enum ecost len compF compT search searchN needDist allowsFast noFastHops)
    weight ofZ limit0 startCost spath (nds _ _ tr) ecm (fun _ => True) CL T (fun _ _ _ _ _ _ => Logic.I)
    (needs_ok add ofQ (nds _ _ tr) cands ecm T TC Null _ (engine_range (nds _ _ tr) ecm _ _ _ _ _ _ _ _ _ _ _ (tc_length _ _ _ _ _ TC)))
    (needs_live lt add inf ofQ ofZ (nds _ _ tr) cands ecm T TC Null Fin FQ FZ FA) hc (map fst (ndTrips _ _ tr)) Logic.I) as (r & m & Ro & Mf & Hm).
  { intros n I. apply Lv in I. destruct I as (i & c & p & Ec & Ep & <-).
    destruct (spells_nhops _ _ _ _ _ _ _ _ (Sp i c p Ec Ep) (L2 c (nth_error_In _ _ Ec))) as [N0 Hn]. split; [exact N0|].
    destruct Hn as [n (nd & E & _)|n q k (nd & E & _) _ _|n q k (nd & E & _) _ _]; eapply nth_lt; exact E. }
  exists r, m. split; [exact Ro|]. split; [exact Mf|]. split.
  { intros n hs I. destruct (Hm _ _ I) as (is & c' & Sq & Fc & Y & _). exists is. split; [exact Y|]. exists c'. split; assumption. }
  exists ps. split; [exact Lps|]. split; [exact R|]. split; [exact Pl|]. intros i c p Ec Ep. split.
  - assert (I : In (last p 0) (map fst m)) by (rewrite Mf; apply Lv; exists i, c, p; auto).
    apply in_map_iff in I. destruct I as ((n & hs) & En & I). cbn in En. subst n. eauto.
  - intros hs I. destruct (Hm _ _ I) as (is & c' & Sq & Fc & Y & _). split.
    + specialize (Sp i c p Ec Ep). specialize (L2 c (nth_error_In _ _ Ec)). unfold call_keys in Sp.
      destruct (tSts pos (cTrip pos attrs c)) as [|s0 sts0] eqn:Es; [cbn in L2; lia|].
      destruct (exists_last (l := s0 :: sts0)) as (sts & s & Eq); [discriminate|]. rewrite Eq in *.
      assert (NE : sts <> []) by (intros ->; cbn in L2; lia).
      exact (yields_serves add ofQ (nds _ _ tr) cands ecm T TC near startCost spath _ _ _ sts s p is hs NE Sp Y).
    + exact (proj1 (yields_chained _ _ _ _ _ _ _ _ _ _ _ _ (needs_aligned add ofQ (nds _ _ tr) cands ecm T TC) _ _ _ _ Sq _ Y)).
Qed.
Print Assumptions C34_trips_get_hops.

(** Non-vacuity: three trips over four stops, a station and two edges near each stop. *)
Definition ecalls : list (call nat unit) :=
  [tcall 0 [tst 0 100; tst 1 200; tst 2 300] false; tcall 1 [tst 0 1000; tst 1 1110; tst 3 1300] false; tcall 2 [tst 0 5; tst 1 80] false].
Definition etrie := fst (runCalls nat Nat.eqb unit (fun a _ => a) 0 (emptyTrie nat unit) ecalls).
Definition eofQ (q : Q) : option Z := Some (Qfloor q).
Definition ecands (s : stop nat) : option (list (cand (option Z) edge nat)) :=
  getEdgCands (option Z) eofQ nat 99 (fun e => e) (fun e => S e) (fun _ => 3) (fun n => n) (fun n => n) (fun n => n) (fun n => n)
    (fun _ => 0) (fun l => l) 100 50 7 3 20 true (fun q => q) (fun e => if e <? 30 then 10 else 60)%Q (fun _ => 1 # 4)%Q
    (fun e => e =? 21) (sPos _ s) (sPlat _ s) [mkStat 5 false "" [10 + sPos _ s]; mkStat 101 true "" [50]] [20 + sPos _ s; 30 + sPos _ s].
Definition eecm := match getECM (option Z) xadd eofQ nat nat unit (nds _ _ etrie) ecands with Some x => x | None => [] end.
Definition eroute := route nat unit (option Z) xlt xadd None edge nat 99 (option cache)
  (askHops eecm (fun x => x) (fun l => l) (fun _ _ => 40%Z) (fun _ => 1%Q) (fun _ => 1) (fun _ => 1)
     (fun _ a _ _ b => ((40 + Z.of_nat a)%Z, [b; a])) (fun _ _ _ _ _ _ => []) false false false)
  (fun _ _ c _ _ => Some c) (fun z => Some z) (fun _ _ => 500%Z) (fun _ _ => 40%Z) (fun _ a b _ => (40%Z, [b; a])) (nds _ _ etrie) eecm None
  (map fst (ndTrips _ _ etrie)).
Example ecm_example :
  cost_laws xlt xadd None /\ (forall q, xlt (eofQ q) None = true) /\
  (forall c, In c ecalls -> 2 <= length (tSts _ (cTrip _ _ c))) /\
  (forall c k, In c ecalls -> In k (call_keys 0 c) -> (0 <= kTime k <= 1000)%Z) /\ (Z.of_nat (length ecalls) * 1000 <= 2147483647)%Z /\
  option_map (map (fun c => (cE _ _ _ c, cPen _ _ _ c, cProgr _ _ _ c))) (ecands (tstop 1)) =
    Some [(None, Some 0%Z, 0%Q); (Some 11, Some 12%Z, 0%Q); (Some 21, Some 30%Z, (3 # 4)%Q)] /\
  map (map (fun c => (Z.to_nat (cTime _ _ _ c), cPrede _ _ _ c))) (firstn 4 eecm) =
    [[]; [(0, []); (0, []); (0, [])]; [(85, []); (85, []); (85, [])]; [(105, [0]); (105, [1]); (105, [2])]] /\
  option_map (fun x => map (fun l => (fst l, map (fun h => (hStart _ _ h, hEnd _ _ h)) (snd l))) (snd x)) eroute =
    Some [(4, [(Some 11, Some 12); (Some 10, Some 11)]); (5, [(Some 11, Some 13); (Some 10, Some 11)]); (2, [(Some 10, Some 11)])].
Proof.
  split; [exact xlaws|]. split; [reflexivity|].
  split; [intros c [<-|[<-|[<-|[]]]]; cbn; lia|].
  split; [intros c k [<-|[<-|[<-|[]]]] I; cbn in I; repeat (destruct I as [<-|I]; [cbn; lia|]); contradiction|].
  split; [cbn; lia|]. split; [vm_compute; reflexivity|]. split; [vm_compute; reflexivity|]. vm_compute. reflexivity.
Qed.

(** Finding: a trip that arrives before it departs makes the mean time (computed with
    unsigned numbers) huge; converting it to int is undefined. *)
Theorem C34_negative_times_refuted : exists cs : list (call nat unit),
  (forall c, In c cs -> 2 <= length (tSts _ (cTrip _ _ c))) /\
  forall C add ofQ P (cands : stop nat -> option (list (cand C edge P))),
  (forall s, exists c l, cands s = Some (c :: l)) ->
  getECM C add ofQ P nat unit (nds _ _ (fst (runCalls nat Nat.eqb unit (fun a _ => a) 0 (emptyTrie nat unit) cs))) cands = None.
Proof.
  exists [tcall 0 [tst 0 100; tst 1 50] false]. split; [intros c [<-|[]]; cbn; lia|].
  intros C add ofQ P cands H. unfold getECM. cbn [runCalls].
  set (l := nds _ _ _). vm_compute in l. subst l. cbn [length Nat.sub seq ecmLoop ecmNode nth_error negb Nat.eqb andb nArr nRepr].
  match goal with |- context [cands ?s] => destruct (H s) as (c & r & ->) end.
  match goal with |- context [candLoop ?a ?b ?c ?d ?e ?f ?g ?h ?i ?j ?k ?cs] =>
    assert (X : forall cs' ecm, length ecm = 3 -> exists ecm', candLoop a b c d e f g ecm i j k cs' = Some ecm' /\ length ecm' = 3) end.
  { induction cs' as [|x cs' IH]; intros ecm L; [cbn; eauto|]. cbn [candLoop childCands Nat.eqb].
    change (avgT _ _ _ <=? INT_MAX)%Z with true. cbn iota. apply IH. rewrite upd_length. exact L. }
  match goal with |- context [candLoop ?a ?b ?c ?d ?e ?f ?g ?h ?i ?j ?k ?cs] => destruct (X cs h eq_refl) as (e1 & -> & _) end.
  cbn [ecmLoop ecmNode nth_error negb Nat.eqb andb nArr nRepr].
  match goal with |- context [cands ?s] => destruct (H s) as (c2 & r2 & ->) end. cbn [candLoop].
  change (avgT _ _ _ <=? INT_MAX)%Z with false. reflexivity.
Qed.
Print Assumptions C34_negative_times_refuted.

(** Finding: a station node at the stop's own platform is charged the penalty for an
    unmatched platform; one at another platform is not. *)
Theorem C34_own_platform_preferred_refuted : exists own other platform cs,
  sdTrack own = platform /\ sdTrack other <> platform /\ sdDist own = sdDist other /\ sdSim own = sdSim other /\
  getEdgCands Q (fun q => q) nat 0 (fun e => e) S (fun _ => 3) (fun n => n) (fun n => n) (fun n => n) (fun n => n)
    (fun _ => 0) (fun l => l) 100 50 7 3 20 true (fun q => q) (fun _ => 10%Q) (fun _ => 0%Q) (fun _ => false) 0 platform [own; other] [] = Some cs /\
  exists c1 c2, In c1 cs /\ In c2 cs /\ cE _ _ _ c1 = Some 1 /\ sdOut own = [1] /\
    cE _ _ _ c2 = Some 2 /\ sdOut other = [2] /\ (cPen _ _ _ c2 < cPen _ _ _ c1)%Q.
Proof.
  exists (mkStat 5 true "3" [1]), (mkStat 5 true "4" [2]), "3"%string. eexists.
  split; [reflexivity|]. split; [discriminate|]. split; [reflexivity|]. split; [reflexivity|]. split; [vm_compute; reflexivity|].
  eexists _, _. split; [right; left; reflexivity|]. split; [right; right; left; reflexivity|]. repeat split.
Qed.
Print Assumptions C34_own_platform_preferred_refuted.

(** Finding: which of two consecutive edges are snapped depends on the order in which the
    grid lists them (the order of addresses): the search for an already selected edge
    looks one edge ahead and never back. *)
Definition esnap (es : list edge) :=
  option_map (map (fun c => cE _ _ _ c))
   (getEdgCands Q (fun q => q) nat 0 (fun e => e) S (fun _ => 2) (fun n => n) (fun n => n) (fun n => pred n) (fun n => pred n)
    (fun _ => 0) (fun l => l) 100 50 7 3 20 true (fun q => q) (fun e => inject_Z (Z.of_nat e)) (fun _ => 0%Q) (fun _ => false) 0 "" [] es).
Theorem C34_snapping_order_refuted : esnap [1; 2] = Some [None; Some 2; Some 1] /\ esnap [2; 1] = Some [None; Some 1].
Proof. vm_compute. auto. Qed.
Print Assumptions C34_snapping_order_refuted.

(** The search for an already selected edge: it returns the one edge that follows [e], if
    it is selected, is not against a one-way street and starts at a node of degree two. *)
Theorem C34_reach_looks_one_ahead : forall eFr eTo deg outF outB inF inB oneWay e s, ~ In e s ->
  exists r, deg2reachable eFr eTo deg outF outB inF inB oneWay e s = Some r /\
  forall x, r = Some x <-> x = (if eTo (outF (eTo e)) =? eFr e then outB (eTo e) else outF (eTo e)) /\
    In x s /\ deg (eTo e) = 2 /\ x <> e /\ oneWay x <> 2.
Proof. intros. apply (deg2_eq unit (fun _ => tt)); auto; intros; exact 0%Q || exact true. Qed.
Print Assumptions C34_reach_looks_one_ahead.

(** C34: no candidate is on an edge against a one-way street, and none is snapped to an edge
    above the snapping level, whatever the grid query returns. *)
Theorem C34_no_wrong_way_candidates : forall C ofQ P p0 eFr eTo deg outF outB inF inB oneWay enum,
  (forall l x, In x (enum l) <-> In x l) ->
  forall maxStat maxSnap statPen platPen nonStatPen useStations em edist eproj isRev (p : P) platform sts es maxLvl lvl nodes adj cs,
  (forall e, In e es -> In e (indexEdges oneWay maxLvl lvl nodes adj)) ->
  getEdgCands C ofQ P p0 eFr eTo deg outF outB inF inB oneWay enum maxStat maxSnap statPen platPen nonStatPen useStations em
    edist eproj isRev p platform sts es = Some cs ->
  forall c e, In c cs -> cE _ _ _ c = Some e -> oneWay e <> 2 /\
    (lvl e <= maxLvl \/ exists nd, In nd sts /\ In e (sdOut nd)).
Proof.
  intros C ofQ P p0 eFr eTo deg outF outB inF inB oneWay enum EN maxStat maxSnap statPen platPen nonStatPen useStations em edist eproj isRev
    p platform sts es maxLvl lvl nodes adj cs G H c e Ic Ee.
  destruct (C34_stop_candidates C ofQ P p0 eFr eTo deg outF outB inF inB oneWay enum EN maxStat maxSnap statPen platPen nonStatPen
    useStations em edist eproj isRev p platform sts es) as (cs' & H' & S). rewrite H in H'. injection H' as <-.
  destruct (sc_sound _ _ _ _ _ _ _ _ _ _ _ _ _ _ _ _ _ S c e Ic Ee) as [(nd & (_ & I & _ & O & W) & _)|((I & _) & _)].
  - split; [exact W|]. right. exists nd. auto.
  - apply G in I. unfold indexEdges in I. apply in_flat_map in I. destruct I as (n & _ & I). apply in_flat_map in I. destruct I as (f & _ & I).
    destruct (maxLvl <? lvl f) eqn:L; [destruct I|]. destruct (oneWay f =? 2) eqn:W; [destruct I|]. destruct I as [->|[]].
    apply Nat.eqb_neq in W. apply Nat.ltb_ge in L. auto.
Qed.
Print Assumptions C34_no_wrong_way_candidates.

Example wrong_way_example :
  indexEdges (fun e => e mod 3) 4 (fun e => e) [0; 1] (fun n => if n =? 0 then [1; 2; 3] else [4; 5; 6; 7]) = [1; 3; 4].
Proof. reflexivity. Qed.
