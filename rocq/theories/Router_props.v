(** C25, C26, C27: the router's choice of candidates. *)
From Coq Require Import List Arith ZArith QArith Bool Lia.
From Verif Require Import ListAux HopCache_model TripTrie_model TripTrie_spec TripTrie_proofs TripTrie_props
  Router_model Router_spec Router_proofs.
Import ListNotations.
Open Scope nat_scope.

(** Every trie built by adding trips is a tree. *)
Theorem C26_built_trie_is_tree : forall (pos : Type) (near : pos -> pos -> bool) (attrs : Type) mergeA emptySecs,
  (forall p, near p p = true) -> forall cs tr rs,
  runCalls pos near attrs mergeA emptySecs (emptyTrie pos attrs) cs = (tr, rs) -> tree (nds _ _ tr).
Proof. intros pos near attrs mergeA emptySecs NR cs tr rs H. exact (proj1 (trie_history near mergeA emptySecs NR cs tr rs H)). Qed.
Print Assumptions C26_built_trie_is_tree.

(** C25: for every leaf with a sequence of candidates of finite cost the hops returned
    are those of a cheapest sequence. *)
Theorem C25_chosen_sequence_optimal : forall pos attrs C E P St lt add inf p0 ask weight ofZ limit0 startCost spath
    (tnds : list (node pos attrs)) (ecm : list (list (cand C E P))),
  cost_laws lt add inf -> tree tnds ->
  forall (s0 : St) leaves r m,
  route pos attrs C lt add inf E P p0 St ask weight ofZ limit0 startCost spath tnds ecm s0 leaves = Some (r, m) ->
  let seqcost := seqcost add weight ofZ tnds ecm (rLog _ _ r) in
  forall leaf hs, In (leaf, hs) m ->
  (exists is' c', seqcost leaf is' c' /\ lt c' inf = true) ->
  exists is c, seqcost leaf is c /\ yields startCost spath tnds ecm (rLog _ _ r) leaf is hs /\
    forall is' c', seqcost leaf is' c' -> lt c' c = false.
Proof.
  intros pos attrs C E P St lt add inf p0 ask weight ofZ limit0 startCost spath tnds ecm CL T s0 leaves r m H sq leaf hs I F.
  unfold route in H. destruct (solve _ _ _ _ _ _ _ _ _ _ _ _ _ _ _ s0) as [r'|] eqn:Es; [|discriminate].
  destruct (allLeaves _ _ _ _ _ _ _ _ _ _ _ _ _ r' leaves) as [m'|] eqn:Em; [|discriminate]. inversion H; subst r' m'.
  assert (HG : forall s p n cs l, (fun _ : St => True) s ->
    (fun (_ _ : nat) (_ : list C) (_ : Z) (_ : list ans) => True) p n cs l (fst (ask s p n cs l)) /\ (fun _ : St => True) (snd (ask s p n cs l))) by auto.
  destruct (solve_inv pos attrs C E P lt add inf St ask weight ofZ limit0 startCost spath tnds ecm CL T (fun _ => True) (fun _ _ _ _ _ => True) HG s0 r Logic.I Es) as (D & G & All).
  destruct (allLeaves_in pos attrs C E P lt inf p0 St startCost spath tnds ecm _ _ _ _ _ Em I) as [_ Eh].
  exact (leaf_optimal pos attrs C E P lt add inf p0 St weight ofZ limit0 startCost spath tnds ecm CL _ _ _ _ G All leaf hs Eh F).
Qed.
Print Assumptions C25_chosen_sequence_optimal.

(** C25: what the sequences range over.  Each node reached by a hop is asked for once
    and has one log entry; every entry holds the limits tried (starting with the limit
    of the hop, doubling) and genuine answers of the hop engine to the best costs of
    the source candidates; the fallback is only offered if no answer gave a finite
    cost. *)
Theorem C25_moves_are_answers : forall pos attrs C E P St lt add inf p0 ask weight ofZ limit0 startCost spath
    (tnds : list (node pos attrs)) (ecm : list (list (cand C E P))),
  cost_laws lt add inf -> tree tnds ->
  forall (Inv : St -> Prop) (Good : nat -> nat -> list C -> Z -> list ans -> Prop),
  (forall s p n cs l, Inv s -> Good p n cs l (fst (ask s p n cs l)) /\ Inv (snd (ask s p n cs l))) ->
  forall (s0 : St) leaves r m, Inv s0 ->
  route pos attrs C lt add inf E P p0 St ask weight ofZ limit0 startCost spath tnds ecm s0 leaves = Some (r, m) ->
  let log := rLog _ _ r in
  let seqcost := seqcost add weight ofZ tnds ecm log in
  NoDup (map fst log) /\
  (forall n p, parent tnds n p -> ~ stays tnds p n -> exists h, In (n, h) log) /\
  forall n h, In (n, h) log -> exists p cs, parent tnds n p /\ ~ stays tnds p n /\ limits_ok (limit0 p n) h /\
    best_costs lt add inf weight ofZ tnds ecm log p cs /\
    (forall l a, In (l, a) (hTrace h) -> Good p n cs l a) /\
    (hFailed h = true -> forall lim la a x y is c, In (lim, la) (hTrace h) -> In a la -> cand_at ecm p (aFr a) x ->
       cand_at ecm n (aTo a) y -> seqcost p (aFr a :: is) c ->
       lt (add (add c (cPen _ _ _ y)) (weight p n (aC a) (aD a) (cTime _ _ _ y - cTime _ _ _ x)%Z)) inf = false) /\
    (hFailed h = false -> exists i is c, seqcost n (i :: is) c /\ lt c inf = true).
Proof.
  intros pos attrs C E P St lt add inf p0 ask weight ofZ limit0 startCost spath tnds ecm CL T Inv Good HG s0 leaves r m I0 H.
  unfold route in H. destruct (solve _ _ _ _ _ _ _ _ _ _ _ _ _ _ _ s0) as [r'|] eqn:Es; [|discriminate].
  destruct (allLeaves _ _ _ _ _ _ _ _ _ _ _ _ _ r' leaves) as [m'|] eqn:Em; [|discriminate]. inversion H; subst r' m'.
  destruct (solve_inv pos attrs C E P lt add inf St ask weight ofZ limit0 startCost spath tnds ecm CL T Inv Good HG s0 r I0 Es) as (D & G & All).
  exact (log_facts pos attrs C E P lt add inf St weight ofZ limit0 tnds ecm CL T Inv Good r D G All).
Qed.
Print Assumptions C25_moves_are_answers.

(** C26: such a leaf gets one hop per move between stops; consecutive hops meet at a
    candidate. *)
Theorem C26_hops_connected : forall pos attrs C E P St lt add inf p0 ask weight ofZ limit0 startCost spath
    (tnds : list (node pos attrs)) (ecm : list (list (cand C E P))),
  cost_laws lt add inf -> tree tnds -> aligned tnds ecm ->
  forall (s0 : St) leaves r m,
  route pos attrs C lt add inf E P p0 St ask weight ofZ limit0 startCost spath tnds ecm s0 leaves = Some (r, m) ->
  forall leaf hs, In (leaf, hs) m ->
  (exists is' c', seqcost add weight ofZ tnds ecm (rLog _ _ r) leaf is' c' /\ lt c' inf = true) ->
  nhops tnds leaf (length hs) /\ chained (C:=C) hs.
Proof.
  intros pos attrs C E P St lt add inf p0 ask weight ofZ limit0 startCost spath tnds ecm CL T Al s0 leaves r m H leaf hs I F.
  destruct (C25_chosen_sequence_optimal _ _ _ _ _ _ _ _ _ _ _ _ _ _ _ _ _ _ CL T _ _ _ _ H _ _ I F) as (is & c & S & Y & _).
  split; [exact (yields_nhops _ _ _ _ _ _ _ _ _ _ _ _ _ Y)|].
  exact (proj1 (yields_chained _ _ _ _ _ _ _ _ _ _ _ _ Al _ _ _ _ S _ Y)).
Qed.
Print Assumptions C26_hops_connected.

(** C26: the moves between stops on the path of an accepted trip with [k] stops are
    [k - 1], and no other number. *)
Theorem C26_one_hop_per_stop_pair : forall (pos : Type) (near : pos -> pos -> bool) (attrs : Type) mergeA emptySecs,
  (forall p, near p p = true) -> forall cs tr rs,
  runCalls pos near attrs mergeA emptySecs (emptyTrie pos attrs) cs = (tr, rs) ->
  exists ps : list (option (list nat)),
    rs = map (fun p => match p with Some _ => true | None => false end) ps /\
    (forall n, listAt (ndTrips _ _ tr) n = placed_at n cs ps) /\
    forall i c p, nth_error cs i = Some c -> nth_error ps i = Some (Some p) -> 2 <= length (tSts _ (cTrip _ _ c)) ->
      last p 0 <> 0 /\ forall k, nhops (nds _ _ tr) (last p 0) k <-> k = length (tSts _ (cTrip _ _ c)) - 1.
Proof.
  intros pos near attrs mergeA emptySecs NR cs tr rs H.
  destruct (trie_history near mergeA emptySecs NR cs tr rs H) as (T & ps & R & F & _ & P & _).
  exists ps. split; [exact R|]. split; [exact P|]. intros i c p Ec Ep L.
  assert (S : spells near (nds _ _ tr) (cTimeEx _ _ c) 0 p (call_keys emptySecs c)).
  { clear - F Ec Ep. revert i Ec Ep. induction F as [|x y l l' X F IH]; intros [|i] Ec Ep; try discriminate; [|eauto].
    cbn in Ec, Ep. inversion Ec; inversion Ep; subst. exact X. }
  destruct (spells_nhops _ _ _ _ _ _ _ _ S L) as [N0 Hn]. split; [exact N0|]. intros k. split; [|intros ->; exact Hn].
  intros Hk. exact (nhops_det _ _ _ _ _ Hk _ Hn).
Qed.
Print Assumptions C26_one_hop_per_stop_pair.

(** C27: with the fallback candidate at every stop the routing always ends, without
    leaving any vector, with hops for every leaf below the root; they belong to a
    sequence of finite cost. *)
Theorem C27_routing_never_stuck : forall pos attrs C E P St lt add inf p0 ask weight ofZ limit0 startCost spath
    (tnds : list (node pos attrs)) (ecm : list (list (cand C E P))) (Inv : St -> Prop),
  cost_laws lt add inf -> tree tnds ->
  (forall s p n cs l, Inv s -> Inv (snd (ask s p n cs l))) ->
  ecm_ok tnds ecm (in_range tnds ecm ask Inv) -> ecm_live lt add inf ofZ tnds ecm ->
  forall (s0 : St) leaves, Inv s0 -> (forall n, In n leaves -> n <> 0 /\ n < length tnds) ->
  exists r m, route pos attrs C lt add inf E P p0 St ask weight ofZ limit0 startCost spath tnds ecm s0 leaves = Some (r, m) /\
    map fst m = leaves /\
    forall leaf hs, In (leaf, hs) m ->
      exists is c, seqcost add weight ofZ tnds ecm (rLog _ _ r) leaf is c /\ lt c inf = true /\
        yields startCost spath tnds ecm (rLog _ _ r) leaf is hs /\
        nhops tnds leaf (length hs).
Proof.
  intros pos attrs C E P St lt add inf p0 ask weight ofZ limit0 startCost spath tnds ecm Inv CL T HI EO EL s0 leaves I0 HL.
  assert (HG : forall s p n cs l, Inv s ->
    (fun (_ _ : nat) (_ : list C) (_ : Z) (_ : list ans) => True) p n cs l (fst (ask s p n cs l)) /\ Inv (snd (ask s p n cs l))) by auto.
  destruct (route_total pos attrs C E P lt add inf p0 St ask weight ofZ limit0 startCost spath tnds ecm CL T Inv _ HG EO s0 leaves I0 HL)
    as (r & m & R & M).
  exists r, m. split; [exact R|]. split; [exact M|]. intros leaf hs I.
  assert (Il : In leaf leaves) by (rewrite <- M; apply in_map_iff; exists (leaf, hs); auto).
  destruct (HL _ Il) as [N0 Hn].
  assert (Es : solve pos attrs C lt add inf E P St ask weight ofZ limit0 tnds ecm s0 = Some r).
  { unfold route in R. destruct (solve _ _ _ _ _ _ _ _ _ _ _ _ _ _ _ s0) as [r'|]; [|discriminate].
    destruct (allLeaves _ _ _ _ _ _ _ _ _ _ _ _ _ r' leaves); [|discriminate]. inversion R. reflexivity. }
  destruct (solve_inv pos attrs C E P lt add inf St ask weight ofZ limit0 startCost spath tnds ecm CL T Inv _ HG s0 r I0 Es) as (D & G & All).
  pose proof (leaf_reached pos attrs C E P lt add inf St ask weight ofZ limit0 tnds ecm CL T Inv _ EO EL r D G All leaf N0 Hn) as F.
  destruct (C25_chosen_sequence_optimal _ _ _ _ _ _ _ _ _ _ _ _ _ _ _ _ _ _ CL T _ _ _ _ R _ _ I F) as (is & c & S & Y & Mn).
  exists is, c. split; [exact S|]. split; [|split; [exact Y|exact (yields_nhops _ _ _ _ _ _ _ _ _ _ _ _ _ Y)]].
  destruct F as (is' & c' & S' & F'). specialize (Mn _ _ S'). destruct (lt c inf) eqn:X; [reflexivity|].
  rewrite (cl_ntrans _ _ _ CL _ _ _ Mn X) in F'. discriminate.
Qed.
Print Assumptions C27_routing_never_stuck.

(** Non-vacuity: integer costs with infinity; the trie of [trie_example]; three
    candidates at B, one of them the fallback; the hop engine answers from limit 200 on
    and never for the hop into node 5. *)
Definition xlt (a b : option Z) : bool :=
  match a, b with Some x, Some y => (x <? y)%Z | Some _, None => true | None, _ => false end.
Definition xadd (a b : option Z) : option Z :=
  match a, b with Some x, Some y => Some (x + y)%Z | _, _ => None end.
Lemma xlaws : cost_laws xlt xadd None.
Proof.
  constructor.
  - intros [a|]; cbn; [apply Z.ltb_irrefl|reflexivity].
  - intros [a|] [b|] [c|]; cbn; try discriminate; auto. rewrite !Z.ltb_lt. lia.
  - intros [a|] [b|] [c|]; cbn; try discriminate; auto. rewrite !Z.ltb_ge. lia.
  - intros [a|] [b|] [x|]; cbn; try discriminate; auto. rewrite !Z.ltb_ge. lia.
  - intros [a|]; reflexivity.
  - intros [x|]; reflexivity.
Qed.
Definition xc (e : option nat) (pen : Z) (pred : list nat) : cand (option Z) nat nat :=
  mkCand _ _ _ e (Some pen) (1 # 2)%Q 7 0%Z pred.
Definition xecm : list (list (cand (option Z) nat nat)) :=
  [[]; [xc None 50 []; xc (Some 1) 1 []]; [xc None 50 []; xc (Some 2) 1 []; xc (Some 3) 5 []];
   [xc None 0 [0]; xc (Some 2) 0 [1]; xc (Some 3) 0 [2]]; [xc None 50 []; xc (Some 4) 2 []]; [xc None 50 []; xc (Some 5) 2 []]].
Definition xask (s : nat) (p n : nat) (cs : list (option Z)) (l : Z) : list ans * nat :=
  (if (n =? 5) then [] else
   if (l <? 200)%Z then [] else
   if n =? 2 then [mkAns 1 1 30 0; mkAns 1 2 10 0] else [mkAns 1 1 5 0; mkAns 2 1 8 0], S s).
Definition xtnds := nds _ _ (fst trie_run).
Definition xspath (n : nat) (a b : nat) (l : Z) : Z * list nat := (if n =? 5 then (u32max, []) else (0%Z, [a; b])).
Definition xroute := route nat unit (option Z) xlt xadd None nat nat 0 nat xask
  (fun _ _ c _ _ => Some c) (fun z => Some z) (fun _ _ => 100%Z) (fun _ _ => 10%Z) xspath xtnds xecm 0.
Lemma xtnds_eq : xtnds = [nth 0 xtnds (root _ _); nth 1 xtnds (root _ _); nth 2 xtnds (root _ _); nth 3 xtnds (root _ _); nth 4 xtnds (root _ _); nth 5 xtnds (root _ _)].
Proof. vm_compute. reflexivity. Qed.
Lemma xparent : forall n p, parent xtnds n p -> (n = 2 /\ p = 1) \/ (n = 3 /\ p = 2) \/ (n = 4 /\ p = 3) \/ (n = 5 /\ p = 3).
Proof.
  intros n p (nd & H & Pn & N0 & P0). do 6 (destruct n as [|n]; [vm_compute in H; injection H as <-; cbn in Pn; subst p; auto; try contradiction|]).
  vm_compute in H. destruct n; discriminate.
Qed.
Lemma xstays : forall n p, parent xtnds n p -> (stays xtnds p n <-> n = 3).
Proof.
  intros n p H. destruct (xparent _ _ H) as [[-> ->]|[[-> ->]|[[-> ->]|[-> ->]]]]; split; intros X; try lia;
    try (destruct X as (a & b & X1 & X2 & X3 & X4); vm_compute in X1, X2; injection X1 as <-; injection X2 as <-; cbn in X3, X4; discriminate).
  eexists _, _. vm_compute. auto.
Qed.
Example router_example :
  cost_laws xlt xadd None /\ tree xtnds /\ aligned xtnds xecm /\
  ecm_ok xtnds xecm (in_range xtnds xecm xask (fun _ => True)) /\
  ecm_live xlt xadd None (fun z => Some z) xtnds xecm /\
  (forall n, In n [4; 5] -> n <> 0 /\ n < length xtnds) /\
  option_map (fun x => (rSt _ _ (fst x), map (fun l => (fst l, map (fun h => (hStart _ _ h, hEnd _ _ h, hEdges _ _ h)) (snd l))) (snd x)))
    (xroute [4; 5]) =
  Some (8, [(4, [(Some 3, Some 4, [3; 4]); (Some 1, Some 3, [1; 3])]); (5, [(Some 3, Some 5, []); (Some 1, Some 3, [1; 3])])]).
Proof.
  split; [exact xlaws|]. split.
  { unfold xtnds. destruct trie_run as [tr rs] eqn:R. exact (C26_built_trie_is_tree _ _ _ _ _ Nat.eqb_refl _ _ _ R). }
  split.
  { intros p n i x f y Pn Sy Cx If Cy. apply (xstays _ _ Pn) in Sy. subst n.
    destruct (xparent _ _ Pn) as [[X ->]|[[X ->]|[[X ->]|[X ->]]]]; try discriminate.
    destruct Cx as (cs & C1 & C2). vm_compute in C1. injection C1 as <-. destruct Cy as (cs' & D1 & D2). vm_compute in D1. injection D1 as <-.
    destruct i as [|[|[|i]]]; cbn in C2; try (destruct i; discriminate); injection C2 as <-; cbn in If; destruct If as [<-|[]];
      cbn in D2; injection D2 as <-; auto. }
  split.
  { constructor.
    - intros n L N0. do 6 (destruct n as [|n]; [eexists; reflexivity|]). vm_compute in L. lia.
    - intros n cs L N0 H X. do 6 (destruct n as [|n]; [vm_compute in H; congruence|]). vm_compute in L. lia.
    - intros p n i x f Pn Sy Cx If. apply (xstays _ _ Pn) in Sy. subst n.
      destruct (xparent _ _ Pn) as [[X ->]|[[X ->]|[[X ->]|[X ->]]]]; try discriminate.
      destruct Cx as (cs & C1 & C2). vm_compute in C1. injection C1 as <-.
      destruct i as [|[|[|i]]]; cbn in C2; try (destruct i; discriminate); injection C2 as <-; cbn in If; destruct If as [<-|[]];
        eexists _, _; split; reflexivity.
    - intros s p n cs l a _ Pn NS Lc Ia. unfold xask in Ia.
      destruct (xparent _ _ Pn) as [[-> ->]|[[-> ->]|[[-> ->]|[-> ->]]]]; cbn in Ia;
        try (exfalso; apply NS; apply (xstays _ _ Pn); reflexivity); try contradiction;
        destruct (l <? 200)%Z; cbn in Ia; try contradiction; destruct Ia as [<-|[<-|[]]]; split; eexists _, _; split; reflexivity. }
  split.
  { constructor.
    - intros n i x (cs & C1 & C2). do 6 (destruct n as [|n]; [vm_compute in C1; injection C1 as <-;
        do 4 (destruct i as [|i]; [cbn in C2; try discriminate; injection C2 as <-; reflexivity|]); destruct i; discriminate|]).
      destruct n; discriminate.
    - intros p n Pn NS. destruct (xparent _ _ Pn) as [[-> ->]|[[-> ->]|[[-> ->]|[-> ->]]]];
        eexists; (split; [eexists; split; reflexivity|reflexivity]).
    - intros p n f y Pn Sy Cy. apply (xstays _ _ Pn) in Sy. subst n.
      destruct (xparent _ _ Pn) as [[X ->]|[[X ->]|[[X ->]|[X ->]]]]; try discriminate.
      destruct Cy as (cs & C1 & C2). vm_compute in C1. injection C1 as <-.
      exists f. destruct f as [|[|[|f]]]; cbn in C2; try (destruct f; discriminate);
        eexists; (split; [eexists; split; reflexivity|cbn; auto]).
    - intros [a|] [b|]; cbn; auto.
    - reflexivity. }
  split; [intros n [<-|[<-|[]]]; vm_compute; lia|].
  vm_compute. reflexivity.
Qed.

(** Finding (C27): although nothing leads to node 5, its hop ends at an edge candidate
    and the position-less candidate loses: the fallback charges an unreachable edge
    candidate its own penalty only. *)
Theorem C27_unreachable_uses_fallback_refuted : exists r m hs h e,
  xroute [5] = Some (r, m) /\ In (5, hs) m /\ In h hs /\ hEnd _ _ h = Some e /\ hEdges _ _ h = [] /\
  (forall s p cs l, fst (xask s p 5 cs l) = []) /\ (exists x, cand_at xecm 5 0 x /\ cE _ _ _ x = None).
Proof.
  assert (H : exists r m, xroute [5] = Some (r, m)) by (vm_compute; eauto). destruct H as (r & m & H).
  pose proof H as H'. vm_compute in H'. injection H' as _ Hm.
  exists r, m. rewrite <- Hm. do 3 eexists. split; [rewrite Hm; exact H|]. split; [left; reflexivity|]. split; [left; reflexivity|].
  split; [reflexivity|]. split; [reflexivity|]. split; [intros; reflexivity|]. eexists. split; [eexists; split; reflexivity|reflexivity].
Qed.
Print Assumptions C27_unreachable_uses_fallback_refuted.

(** Finding (C27): a single-stop trip is stored at the root (see C31) and asking for its
    hops leaves the vectors. *)
Theorem C27_single_stop_trip_refuted : exists c : call nat unit,
  let tr := fst (runCalls nat Nat.eqb unit (fun a _ => a) 0 (emptyTrie nat unit) [c]) in
  listAt (ndTrips _ _ tr) 0 = [7] /\
  route nat unit (option Z) xlt xadd None nat nat 0 nat xask
    (fun _ _ c _ _ => Some c) (fun z => Some z) (fun _ _ => 100%Z) (fun _ _ => 10%Z) xspath (nds _ _ tr) [[]] 0 [0] = None.
Proof. exists (tcall 7 [tst 0 100] false). vm_compute. auto. Qed.
Print Assumptions C27_single_stop_trip_refuted.

(** Finding (C25): the penalty of the fallback wraps; with the limit 42949673 it is 4. *)
Theorem C25_fallback_penalty_refuted : exists lim : Z, (0 < lim <= u32max)%Z /\ (wrap32 (lim * 100) < lim)%Z.
Proof. exists 42949673%Z. vm_compute. split; [split; [reflexivity|discriminate]|reflexivity]. Qed.
Print Assumptions C25_fallback_penalty_refuted.
