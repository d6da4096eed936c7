(** Hop costs and the hop cache: properties C28, C29. *)
From Coq Require Import List Arith ZArith QArith Qround Bool Lia.
From Verif Require Import HopCache_model Router_model Hops_model Hops_spec Hops_proofs.
Import ListNotations.
Open Scope nat_scope.

(** The answers of the 1 -> n engine are exactly the hops below the limit, each with
    the cost of its cheapest path less the part before the start position plus the part
    up to the end position.  (A hop within [M], the largest start offset, of the largest
    32-bit value is left out.) *)
Theorem C28_hop_costs_exact : forall enum ecost len compF compT search needDist step,
  enumerates enum -> graph_ok step ecost compF compT -> search_ok step search ->
  forall froms tos maxCost M, cands_ok froms -> cands_ok tos -> fits step ecost froms tos ->
  (0 <= maxCost <= u32max)%Z -> largest_offset ecost froms M ->
  forall i j c,
    (exists a, In a (fst (hops enum ecost len compF compT search needDist None froms tos maxCost)) /\ aFr a = i /\ aTo a = j /\ aC a = c) <->
    exists ef et pf pt, nth_error froms i = Some (Some ef, pf) /\ nth_error tos j = Some (Some et, pt) /\
      hop_cost step ecost ef et pf pt c /\ (c < maxCost)%Z /\ (inject_Z c < inject_Z u32max - M)%Q.
Proof.
  intros enum ecost len compF compT search needDist step HE HG HS froms tos maxCost M Hf Ht F Hm LO.
  exact (hops_spec enum ecost len compF compT search needDist step HE HG HS None froms tos maxCost M I Hf Ht F Hm (or_introl eq_refl) LO).
Qed.
Print Assumptions C28_hop_costs_exact.

(** That cost is never negative. *)
Theorem C28_hop_cost_nonneg : forall step ecost compF compT ef et pf pt c, graph_ok step ecost compF compT ->
  (0 <= pf <= 1)%Q -> (0 <= pt <= 1)%Q -> hop_cost step ecost ef et pf pt c -> (0 <= c)%Z.
Proof. exact hop_cost_nonneg. Qed.
Print Assumptions C28_hop_cost_nonneg.

(** The distance reported with a hop is the length of a cheapest path, corrected by the
    start and end positions, rounded down; if both are on one edge it is not corrected. *)
Theorem C28_hop_distance : forall enum ecost len compF compT search needDist step,
  enumerates enum -> graph_ok step ecost compF compT -> search_ok step search ->
  forall hc froms tos maxCost a, needDist = true -> cands_ok froms -> cands_ok tos -> (2 <= maxCost <= u32max)%Z ->
  In a (fst (hops enum ecost len compF compT search needDist hc froms tos maxCost)) ->
  exists ef et pf pt d es, nth_error froms (aFr a) = Some (Some ef, pf) /\ nth_error tos (aTo a) = Some (Some et, pt) /\
    cheapest step ef et d /\ walk step ef et d es /\
    (ef <> et -> whole (walk_length len es - len ef * pf + len et * pt) (aD a)) /\
    (ef = et -> whole (walk_length len es) (aD a)).
Proof. exact hops_dist. Qed.
Print Assumptions C28_hop_distance.

(** Every answer of the n -> n engine is a hop below the limit with its cost, whatever
    the cache contains. *)
Theorem C28_fast_hops_sound : forall enum ecost compF compT step searchN,
  enumerates enum -> graph_ok step ecost compF compT -> searchN_ok step searchN ->
  forall hc froms tos maxCost M a, cands_ok (map fst froms) -> cands_ok tos ->
  fits step ecost (map fst froms) tos -> (0 <= maxCost <= u32max)%Z -> largest_offset ecost (map fst froms) M ->
  In a (fst (hopsFast enum ecost compF searchN hc froms tos maxCost)) ->
  exists ef et pf pt z, nth_error froms (aFr a) = Some ((Some ef, pf), Some z) /\ nth_error tos (aTo a) = Some (Some et, pt) /\
    hop_cost step ecost ef et pf pt (aC a) /\ (aC a < maxCost)%Z /\ (inject_Z (aC a) < inject_Z u32max - M)%Q.
Proof.
  intros enum ecost compF compT step searchN HE HG HN.
  exact (fast_sound enum ecost (fun _ => 0%Q) compF compT step HG searchN HN).
Qed.
Print Assumptions C28_fast_hops_sound.

(** For a hop of cost [c] from a source of cost [z], the n -> n engine answers with a
    source that is at most one unit (rounding) worse, unless that source is behind the
    target on the same edge or its own hop is not below the limit. *)
Theorem C28_fast_best_source : forall enum ecost compF compT step searchN,
  enumerates enum -> graph_ok step ecost compF compT -> searchN_ok step searchN ->
  forall froms tos maxCost, cands_ok (map fst froms) -> cands_ok tos ->
  fits step ecost (map fst froms) tos -> (0 <= maxCost <= u32max)%Z -> small ecost froms maxCost ->
  forall i j ef et pf pt z d c, nth_error froms i = Some ((Some ef, pf), Some z) -> nth_error tos j = Some (Some et, pt) ->
  hop_via step ecost ef et pf pt d c -> (c < maxCost)%Z ->
  exists k ef' pf' z' d', nth_error froms k = Some ((Some ef', pf'), Some z') /\ cheapest step ef' et d' /\
    ((ef' = et /\ (pt < pf')%Q) \/
     exists c', hop_via step ecost ef' et pf' pt d' c' /\ (z' + c' <= z + c + 1)%Z /\
       ((maxCost <= c')%Z \/ exists a, In a (fst (hopsFast enum ecost compF searchN None froms tos maxCost)) /\ aFr a = k /\ aTo a = j /\ aC a = c')).
Proof.
  intros enum ecost compF compT step searchN HE HG HN froms tos maxCost Hf Ht F Hm Sm i j ef et pf pt z d c If It HV L.
  exact (fast_best enum ecost (fun _ => 0%Q) compF compT step HE HG searchN HN None froms tos maxCost I Hf Ht F Hm Sm i j ef et pf pt z d c If It HV L (or_introl eq_refl)).
Qed.
Print Assumptions C28_fast_best_source.

(** With the cache the 1 -> n engine gives the same answers as without, for every history
    of calls with one cost structure (limits of at least 2). *)
Theorem C29_cache_transparent : forall enum ecost len compF compT search needDist step,
  enumerates enum -> graph_ok step ecost compF compT -> search_ok step search ->
  forall calls, Forall (fun x => cands_ok (hcF x) /\ (2 <= hcMax x <= u32max)%Z) calls ->
  hopsRun enum ecost len compF compT search needDist (Some emptyCache) calls =
  hopsRun enum ecost len compF compT search needDist None calls.
Proof.
  intros enum ecost len compF compT search needDist step HE HG HS calls H.
  apply (hopsRun_transparent enum ecost len compF compT search needDist step HE HG HS calls H).
  intros a b v X. discriminate X.
Qed.
Print Assumptions C29_cache_transparent.

(** With the cache of any history the n -> n engine still finds a best source for every
    hop whose whole path costs at most the limit.  (Missing: hops whose path is dearer
    than the limit although the hop is not, see C29_fast_cache_refuted.) *)
Theorem C29_fast_cache_partial : forall enum ecost compF compT step searchN,
  enumerates enum -> graph_ok step ecost compF compT -> searchN_ok step searchN ->
  forall calls hc, Forall (fcall_ok ecost) calls -> hc = fastRun enum ecost compF searchN (Some emptyCache) calls ->
  forall froms tos maxCost, cands_ok (map fst froms) -> cands_ok tos ->
  fits step ecost (map fst froms) tos -> (0 <= maxCost <= u32max)%Z -> small ecost froms maxCost ->
  forall i j ef et pf pt z d c, nth_error froms i = Some ((Some ef, pf), Some z) -> nth_error tos j = Some (Some et, pt) ->
  hop_via step ecost ef et pf pt d c -> (c < maxCost)%Z -> (d <= maxCost)%Z ->
  exists k ef' pf' z' d', nth_error froms k = Some ((Some ef', pf'), Some z') /\ cheapest step ef' et d' /\
    ((ef' = et /\ (pt < pf')%Q) \/
     exists c', hop_via step ecost ef' et pf' pt d' c' /\ (z' + c' <= z + c + 1)%Z /\
       ((maxCost <= c')%Z \/ exists a, In a (fst (hopsFast enum ecost compF searchN hc froms tos maxCost)) /\ aFr a = k /\ aTo a = j /\ aC a = c')).
Proof.
  intros enum ecost compF compT step searchN HE HG HN calls hc HC -> froms tos maxCost Hf Ht F Hm Sm i j ef et pf pt z d c If It HV L Ld.
  refine (fast_best enum ecost (fun _ => 0%Q) compF compT step HE HG searchN HN _ froms tos maxCost _ Hf Ht F Hm Sm i j ef et pf pt z d c If It HV L (or_intror Ld)).
  apply (fastRun_lower enum ecost compF compT step HE HG searchN HN calls (Some emptyCache)); [|exact HC].
  intros a b d' es W. cbn. apply (walk_nonneg ecost compF compT step HG _ _ _ _ W).
Qed.
Print Assumptions C29_fast_cache_partial.

(** ** Examples, on a line of edges *)
Definition lhops K nd hc f t m := hops lenum (lcost K) (fun _ => 3%Q) lcomp lcomp (lsearch K) nd hc f t m.
Definition lfast K hc f t m := hopsFast lenum (lcost K) lcomp (lsearchN K) hc f t m.
Definition xf : list pcand := [(None, 0); (Some 0%nat, 1 # 4); (Some 2%nat, 1 # 2)]%Q.
Definition xt : list pcand := [(Some 2%nat, 3 # 4); (None, 0); (Some 3%nat, 0); (Some 9%nat, 0)]%Q.

Example hops_example :
  enumerates lenum /\ graph_ok (lstep 10) (lcost 10) lcomp lcomp /\ search_ok (lstep 10) (lsearch 10) /\
  cands_ok xf /\ cands_ok xt /\ fits (lstep 10) (lcost 10) xf xt /\ largest_offset (lcost 10) xf 5 /\
  fst (lhops 10 true None xf xt 60) = [mkAns 1 0 25 7; mkAns 1 2 28 8; mkAns 2 0 2 0; mkAns 2 2 5 1].
Proof.
  split; [exact line_enum|]. split; [apply line_graph; unfold u32max; lia|]. split; [apply line_search; unfold u32max; lia|].
  split; [intros e p [X|[X|[X|[]]]]; inversion X; subst; split; discriminate|].
  split; [intros e p [X|[X|[X|[X|[]]]]]; inversion X; subst; split; discriminate|].
  split.
  { intros ef pf et pt d c I1 I2 _ _ (d' & zf & zt & [(es & W) _] & Wf & Wt & _ & ->).
    apply (line_walk 10) in W. destruct W as (L & -> & _). unfold lcost in *.
    assert (0 <= zf)%Z by (apply (whole_bounds _ _ 0 10 Wf); destruct I1 as [X|[X|[X|[]]]]; inversion X; subst; split; discriminate).
    assert (zt <= 10)%Z by (apply (whole_bounds _ _ 0 10 Wt); destruct I2 as [X|[X|[X|[X|[]]]]]; inversion X; subst; split; discriminate).
    assert (ldist 10 ef et <= 90)%Z.
    { unfold ldist. assert (et <= 9) by (destruct I2 as [X|[X|[X|[X|[]]]]]; inversion X; subst; lia). lia. }
    unfold u32max. lia. }
  split; [split; [discriminate|]; split; [intros e p [X|[X|[X|[]]]]; inversion X; subst; discriminate|right; exists 2, (1 # 2)%Q; split; [right; right; left; reflexivity|reflexivity]]|].
  vm_compute. reflexivity.
Qed.

Definition xff : list fcand := [((Some 0%nat, 1 # 4), Some 7%Z); ((Some 1%nat, 1 # 2), Some 1%Z); ((None, 0), Some 3%Z)]%Q.
Definition xft : list pcand := [(Some 3%nat, 1 # 2); (Some 9%nat, 0)]%Q.
Example fast_example :
  searchN_ok (lstep 10) (lsearchN 10) /\ fcall_ok (lcost 10) (mkFcall xff xft 60) /\
  fst (lfast 10 None xff xft 60) = [mkAns 1 0 20 0] /\
  hop_via (lstep 10) (lcost 10) 0 3 (1 # 4) (1 # 2) 30 33 /\
  option_map (fun c => fst (get c 0 9)) (fastRun lenum (lcost 10) lcomp (lsearchN 10) (Some emptyCache) [mkFcall xff xft 60]) = Some 65%Z.
Proof.
  split; [apply line_searchN; unfold u32max; lia|]. split.
  { split; [intros e p [X|[X|[X|[]]]]; inversion X; subst; split; discriminate|].
    split; [intros e p [X|[X|[]]]; inversion X; subst; split; discriminate|]. split; [cbn; unfold u32max; lia|].
    intros M f z (M0 & _ & D) I. cbn in I.
    assert (HM : (M <= 10)%Q).
    { destruct D as [->|(e & p & J & ->)]; [discriminate|]. destruct J as [X|[X|[X|[]]]]; inversion X; subst; discriminate. }
    assert (Hz : (0 <= z <= 7)%Z) by (destruct I as [X|[X|[X|[]]]]; inversion X; subst; lia).
    split; [lia|]. cbn [fcMax]. destruct Hz as [_ Hz]. rewrite Zle_Qle in Hz. change (inject_Z 7) with 7%Q in Hz.
    change (inject_Z 60) with 60%Q. change (inject_Z u32max) with 4294967295%Q. Lqa.lra. }
  split; [vm_compute; reflexivity|]. split.
  { split; [apply (line_cheapest 10); lia|]. exists 30%Z, 2%Z, 5%Z. split; [apply (line_cheapest 10); lia|].
    split; [split; [discriminate|reflexivity]|]. split; [split; [discriminate|reflexivity]|]. split; [discriminate|reflexivity]. }
  vm_compute. reflexivity.
Qed.

(** Without the hypothesis that costs fit into 32 bits an answer can be too small. *)
Theorem C28_wraps_refuted : exists K froms tos maxCost a, graph_ok (lstep K) (lcost K) lcomp lcomp /\ search_ok (lstep K) (lsearch K) /\
  cands_ok froms /\ cands_ok tos /\ (0 <= maxCost <= u32max)%Z /\ In a (fst (lhops K false None froms tos maxCost)) /\
  froms = [(Some 0, 0%Q)] /\ tos = [(Some 1, 1%Q)] /\ hop_cost (lstep K) (lcost K) 0 1 0 1 (aC a + 2 ^ 32).
Proof.
  exists 4294967290%Z, [(Some 0, 0%Q)], [(Some 1, 1%Q)], u32max, (mkAns 0 0 4294967284 0).
  split; [apply line_graph; unfold u32max; lia|]. split; [apply line_search; unfold u32max; lia|].
  split; [intros e p [X|[]]; inversion X; subst; split; discriminate|].
  split; [intros e p [X|[]]; inversion X; subst; split; discriminate|].
  split; [unfold u32max; lia|]. split; [vm_compute; left; reflexivity|]. split; [reflexivity|]. split; [reflexivity|].
  exists 4294967290%Z, 0%Z, 4294967290%Z. split; [apply (line_cheapest 4294967290); lia|].
  split; [split; [discriminate|reflexivity]|]. split; [split; [discriminate|reflexivity]|]. split; [discriminate|reflexivity].
Qed.
Print Assumptions C28_wraps_refuted.

(** The n -> n engine misses a hop if a source further along the target's own edge is
    nearer. *)
Theorem C28_fast_same_edge_refuted : exists froms tos maxCost, small (lcost 10) froms maxCost /\
  fst (lhops 10 false None (map fst froms) tos maxCost) = [mkAns 1 0 11 0] /\ fst (lfast 10 None froms tos maxCost) = [].
Proof.
  exists [((Some 5%nat, 9 # 10), Some 0%Z); ((Some 4%nat, 0), Some 0%Z)]%Q, [(Some 5%nat, 1 # 10)]%Q, 50%Z.
  split; [|split; vm_compute; reflexivity].
  intros M f z (M0 & _ & D) I. assert (HM : (M <= 10)%Q).
  { destruct D as [->|(e & p & J & ->)]; [discriminate|]. destruct J as [X|[X|[]]]; inversion X; subst; discriminate. }
  assert (Hz : z = 0%Z) by (destruct I as [X|[X|[]]]; inversion X; reflexivity). subst z. split; [lia|].
  change (inject_Z 0) with 0%Q. change (inject_Z 50) with 50%Q. change (inject_Z u32max) with 4294967295%Q. Lqa.lra.
Qed.
Print Assumptions C28_fast_same_edge_refuted.

(** ... and misses hops if its limit wraps around. *)
Theorem C28_fast_limit_wraps_refuted : exists froms tos, fst (lhops 10 false None (map fst froms) tos u32max) <> [] /\
  fst (lfast 10 None froms tos u32max) = [].
Proof.
  exists [((Some 3%nat, 0), Some 0%Z); ((Some 0%nat, 0), Some 5%Z)]%Q, [(Some 4%nat, 0)]%Q. split; vm_compute; [discriminate|reflexivity].
Qed.
Print Assumptions C28_fast_limit_wraps_refuted.

(** With the limit 1 the cache changes the answers of the 1 -> n engine. *)
Theorem C29_limit_one_refuted : exists calls,
  hopsRun lenum (lcost 10) (fun _ => 3%Q) lcomp lcomp (lsearch 10) false (Some emptyCache) calls <>
  hopsRun lenum (lcost 10) (fun _ => 3%Q) lcomp lcomp (lsearch 10) false None calls.
Proof.
  exists [mkHcall [(Some 0, 0%Q)] [(Some 0, 0%Q)] 1; mkHcall [(Some 0, 0%Q)] [(Some 0, 0%Q)] 1]. vm_compute. discriminate.
Qed.
Print Assumptions C29_limit_one_refuted.

(** A cache shared by two cost structures changes the answers. *)
Theorem C29_shared_cache_refuted : exists froms tos maxCost,
  fst (lhops 20 false (snd (lhops 10 false (Some emptyCache) froms tos maxCost)) froms tos maxCost) <>
  fst (lhops 20 false None froms tos maxCost).
Proof. exists [(Some 0, 0%Q)], [(Some 2, 0%Q)], 100%Z. vm_compute. discriminate. Qed.
Print Assumptions C29_shared_cache_refuted.

(** The cache makes the n -> n engine miss a hop below the limit. *)
Theorem C29_fast_cache_refuted : exists f1 t1 m1 f2 t2 m2,
  let hc := snd (lfast 10 (Some emptyCache) f1 t1 m1) in
  fst (lfast 10 None f2 t2 m2) = [mkAns 0 0 191 0] /\ fst (lfast 10 hc f2 t2 m2) = [].
Proof.
  exists [((Some 0%nat, 0), Some 0%Z)]%Q, [(Some 20%nat, 0)]%Q, 199%Z, [((Some 0%nat, 9 # 10), Some 0%Z)]%Q, [(Some 20%nat, 0)]%Q, 195%Z.
  split; vm_compute; reflexivity.
Qed.
Print Assumptions C29_fast_cache_refuted.
