(** Proofs for C85: the network of the file meets what Feedway assumes. *)
From Coq Require Import Ascii String List Arith NArith ZArith QArith Bool Lia.
From Verif Require Import ListAux HopCache_model TripTrie_model TripTrie_spec Simi_model Router_model Router_spec Router_props Hops_model Hops_spec Shapes_spec
  Ecm_model Ecm_spec Ecm_proofs Router_proofs Optimal_spec Default_spec Pipeline_model Pipeline_spec Pipeline_proofs Feedway_spec Whole_spec Whole_proofs Allway_spec.
From Verif Require Weights_model Weights_spec OsmGraph_model OsmGraph_spec OsmRead_model OsmRead_spec Finish_model Finish_spec Build_model Build_spec Astar_spec Astar_proofs
  RealNet_model RealNet_spec RealNet_proofs.
Import ListNotations.
Open Scope nat_scope.
Open Scope list_scope.

(** The candidates of trie nodes are candidates of stops. *)
Lemma cand_stop : forall pos C P ofQ add (tnds : list (node pos attrs)) (cands : stop pos -> option (list (cand C nat P))) ecm, tree tnds ->
  trie_cands ofQ add tnds cands ecm -> forall n i x, cand_at ecm n i x -> exists s cs c, cands s = Some cs /\ In c cs /\ cE _ _ _ x = cE _ _ _ c.
Proof.
  intros pos C P ofQ add tnds cands ecm T TC n i x X.
  assert (N0 : n <> 0). { intros ->. destruct X as (l & El & Ei). rewrite (tc_root _ _ _ _ _ TC) in El. injection El as <-. destruct i; discriminate. }
  assert (exists nd, nth_error tnds n = Some nd) as (nd & En).
  { destruct X as (l & El & _). apply nth_lt in El. rewrite (tc_length _ _ _ _ _ TC) in El. apply nth_ex. exact El. }
  destruct (node_cases tnds T n nd N0 En) as [K|(p & Pn & Sy)].
  - destruct (arr_cand_stop add ofQ tnds cands ecm TC n nd i x N0 En K X) as (s & cs & c & _ & Cs & I & S1 & _). exists s, cs, c. auto.
  - destruct (parent_arr tnds T n p Pn Sy) as (pn & Ep & _).
    destruct (dep_cand_stop add ofQ tnds cands ecm T TC n p pn i x Pn Sy Ep X) as (s & cs & c & _ & Cs & I & S1 & _). exists s, cs, c. auto.
Qed.

Section P.
Context {P SI pos C : Type}.
Variable b : @Build_model.built P SI.
Variable W : world pos C P.
Notation trie := (trie pos attrs).
Notation network := (Finish_model.net (Build_model.bNet b)).
Variable step : trie -> nat -> nat -> nat -> option Z.
Variable place : nat -> P.
Variable baseCost : nat -> Z.
Variable lineSimis : trie -> nat -> nat -> list Weights_model.simi.
Variable noAttrs : trie -> nat -> bool.
Variable turnCycle : nat -> bool.
Variable degree : nat -> nat.
Variable sharp : nat -> nat -> nat -> bool.
Variable restricted : nat -> bool.
Variable may : nat -> nat -> nat -> bool.
Variable o : Weights_model.ropts.
Hypothesis RO : routes_on b W step place baseCost lineSimis noAttrs turnCycle degree sharp restricted may o.
Variable posAt : list P -> Q -> P.

(** ** Candidates are on edges of the network *)
Lemma cands_real : forall cands s cs x k, cands_of W cands -> cands s = Some cs -> In x cs -> cE _ _ _ x = Some k -> exists e, edge_no b k e.
Proof.
  intros cands s cs x k CO Ec Ix Ex. destruct (CO s) as (cs' & E' & SC). rewrite Ec in E'. injection E' as <-.
  destruct (sc_sound _ _ _ _ _ _ _ _ _ _ _ _ _ _ _ _ _ SC x k Ix Ex) as [(nd & (_ & In1 & _ & In2 & _) & _)|((I & _) & _)].
  - exact (ro_stations _ _ _ _ _ _ _ _ _ _ _ _ _ RO s nd k In1 In2).
  - exact (ro_near _ _ _ _ _ _ _ _ _ _ _ _ _ RO s k I).
Qed.

(** ** Walks lead along edges of the network *)
Lemma walk_ends : forall tr n x z d es, walk (step tr n) x z d es -> first_is es x /\ last_is es z.
Proof.
  intros tr n x z d es X. induction X as [e|e f t k d es St X (_ & (l & ->))]; [split; exists []; reflexivity|].
  split; [exists (l ++ [t]); reflexivity|exists (e :: l); reflexivity].
Qed.
Lemma walk_follows : forall tr n x z d es, walk (step tr n) x z d es ->
  es = [x] \/ (forall k, In k es -> exists e, edge_no b k e) /\
    forall l i j r, es = l ++ i :: j :: r -> exists y y', edge_no b i y /\ edge_no b j y' /\ OsmGraph_model.to y = OsmGraph_model.from y'.
Proof.
  intros tr n x z d es X. induction X as [e|e f t k d es St X IH]; [left; reflexivity|right].
  apply (RealNet_spec.nc_step _ _ _ _ (ro_costs _ _ _ _ _ _ _ _ _ _ _ _ _ RO tr n)) in St. destruct St as (y & y' & Ey & Ey' & J & _).
  destruct (walk_ends _ _ _ _ _ _ X) as [(t1 & E1) _]. split.
  - intros k' [<-|I]; [exists y; exact Ey|]. destruct IH as [->|[IH _]]; [|auto]. destruct I as [<-|[]]. exists y'. exact Ey'.
  - intros l i j r E. destruct l as [|i0 l]; cbn in E; injection E as <- E.
    + rewrite E1 in E. injection E as <- _. exists y, y'. auto.
    + destruct IH as [Es|[_ IH]]; [|exact (IH l i j r E)]. rewrite Es in E. destruct l as [|? [|? ?]]; discriminate E.
Qed.
Lemma walk_path : forall tr n x z d es, walk (step tr n) x z d es -> path (fromPt _ _ _ W) (toPt _ _ _ W) es.
Proof.
  intros tr n x z d es X. destruct (walk_follows _ _ _ _ _ _ X) as [->|D]; [cbn; auto|].
  exact (drives_path b W (ro_edges _ _ _ _ _ _ _ _ _ _ _ _ _ RO) es D).
Qed.
Lemma world_here : (forall tr n, path_search_ok (step tr n) (spath _ _ _ W tr n)) ->
  (forall k e, edge_no b k e -> OsmGraph_spec.fits (Build_model.bPos b) e) -> library_ok W posAt -> world_ok W posAt.
Proof.
  intros SP Fits [L1 L2 L3 L4 L5 L6 L7 L8 L9 L10 L11]. constructor; auto.
  - intros tr n x z lim H. pose proof (SP tr n x z lim) as S. destruct (spath _ _ _ W tr n x z lim) as [d p]. cbn [fst snd] in *. right.
    destruct S as [(_ & _ & X)|(S & _)]; [|lia]. split; [exact (walk_path _ _ _ _ _ _ X)|]. exact (walk_ends _ _ _ _ _ _ X).
  - exact (geometries b W (ro_edges _ _ _ _ _ _ _ _ _ _ _ _ _ RO) Fits).
Qed.
(** The edges of the hops of a shape are edges of the network. *)
Lemma hops_edges : (forall tr n, path_search_ok (step tr n) (spath _ _ _ W tr n)) ->
  forall cands hops parts t ps ds, shape_by W posAt cands hops parts t ps ds ->
  forall h k, In h hops -> In k (hEdges _ _ h) -> exists e, edge_no b k e.
Proof.
  intros SP cands hops parts t ps ds (CO & (Ls & Sv) & Se & _) h k Ih Ik.
  rewrite Forall_forall in Se. assert (N : hEdges _ _ h <> []) by (destruct (hEdges _ _ h); [easy|discriminate]).
  destruct (Se h Ih N) as (tr & n & x & z & lim & Hs & He & L & E). pose proof (SP tr n x z lim) as S.
  destruct (spath _ _ _ W tr n x z lim) as [d p]. cbn [fst snd] in *. destruct S as [(_ & _ & X)|(S & _)]; [|lia].
  assert (Ir : In k (rev p)) by (apply -> in_rev; rewrite <- E; exact Ik).
  destruct (walk_follows _ _ _ _ _ _ X) as [Er|[D _]]; [|exact (D k Ir)].
  rewrite Er in Ir. destruct Ir as [<-|[]]. apply In_nth_error in Ih. destruct Ih as (i & Ei).
  destruct (Sv i h Ei) as (sa & sb & _ & _ & (ra & rb & ca & cb & u & v & _ & _ & Ca & _ & Iu & _ & (Su & _) & _)).
  apply (cands_real cands ra ca u x CO Ca Iu). rewrite <- Su. exact Hs.
Qed.

(** ** The routing problems *)
Variables (station turn : nat -> bool) (len : list P -> Q) (simplify : list P -> list P) (speed : nat -> Q) (sp ec nl : Q) (fl : Q -> Q) (spA : nat -> Q).
Variable G : OsmGraph_model.graph P.
Hypothesis L0 : forall l, (0 <= len l)%Q.
Hypothesis V0 : forall l, (0 < speed l)%Q.
Hypothesis Sp : (0 < sp)%Q.
Hypothesis Ec : (0 <= ec)%Q.
Hypothesis Nl : (0 < nl)%Q.
Hypothesis Fi : Finish_spec.finished (Build_model.bPos b) station turn len simplify speed sp ec nl G network.
Hypothesis Ar : Finish_spec.areas spA fl G network (OsmGraph_model.compOf (Finish_model.comps (Build_model.bNet b))) (Finish_model.maxs (Build_model.bNet b)) (Finish_model.num (Build_model.bNet b)).

Lemma graph_here : forall tr n, Hops_spec.graph_ok (step tr n) (ecost _ _ _ W tr n) (compF _ _ _ W) (compT _ _ _ W).
Proof.
  intros tr n. set (cf := OsmGraph_model.compOf (Finish_model.comps (Build_model.bNet b))).
  assert (Gn : Hops_spec.graph_ok (step tr n) (ecost _ _ _ W tr n) (RealNet_model.edgeComp P network cf (@OsmGraph_model.from P)) (RealNet_model.edgeComp P network cf (@OsmGraph_model.to P))).
  { eapply RealNet_proofs.costs_graph; [|exact (ro_opts _ _ _ _ _ _ _ _ _ _ _ _ _ RO)| |exact (ro_costs _ _ _ _ _ _ _ _ _ _ _ _ _ RO tr n)].
    - eapply (Astar_proofs.base_u32 (Build_model.bPos b) station turn len simplify speed sp ec nl); eauto. exact (ro_seen _ _ _ _ _ _ _ _ _ _ _ _ _ RO).
    - eapply RealNet_proofs.areas_edge; [exact Ar|]. exact (Finish_spec.fi_ok _ _ _ _ _ _ _ _ _ _ _ Fi). }
  destruct Gn as [G1 G2 G3]. split; [exact G1|exact G2|].
  assert (EC : forall k, (nth_error (OsmGraph_model.edges network) k = None /\ compF _ _ _ W k = compT _ _ _ W k) \/
    compF _ _ _ W k = RealNet_model.edgeComp P network cf (@OsmGraph_model.from P) k /\ compT _ _ _ W k = RealNet_model.edgeComp P network cf (@OsmGraph_model.to P) k).
  { intros k. unfold RealNet_model.edgeComp. destruct (nth_error (OsmGraph_model.edges network) k) as [e|] eqn:E.
    - right. exact (ro_comp _ _ _ _ _ _ _ _ _ _ _ _ _ RO k e E).
    - left. split; [reflexivity|]. apply (ro_nocomp _ _ _ _ _ _ _ _ _ _ _ _ _ RO). unfold edge_no. intros e X. congruence. }
  intros x z d es X. destruct (walk_follows _ _ _ _ _ _ X) as [->|[D _]].
  - destruct (walk_ends _ _ _ _ _ _ X) as [_ (l & El)]. destruct l as [|? [|? ?]]; try discriminate. injection El as <-.
    destruct (EC x) as [[_ Y]|[-> ->]]; [exact Y|]. exact (G3 _ _ _ _ X).
  - destruct (walk_ends _ _ _ _ _ _ X) as [(l & El) (l' & El')].
    destruct (D x ltac:(rewrite El; left; reflexivity)) as (e & Ee). destruct (D z ltac:(rewrite El'; apply in_or_app; right; left; reflexivity)) as (e' & Ee').
    unfold edge_no in *. destruct (EC x) as [[Y _]|[-> _]]; [congruence|]. destruct (EC z) as [[Y _]|[_ ->]]; [congruence|]. exact (G3 _ _ _ _ X).
Qed.
Lemma net_here : world_ok W posAt -> searching W step true -> net_ok W step.
Proof.
  intros WK S cs tr cands ecm Tm Ps. split.
  - intros n. exact (graph_here tr n).
  - exact (se_one _ _ _ S eq_refl tr).
  - exact (se_path _ _ _ S tr).
  - destruct Tm as (rs & H), Ps as [Co Tc]. exact (cand_share_any W posAt WK cands Co (nds _ _ tr) ecm
      (C26_built_trie_is_tree pos (near _ _ _ W) attrs mergeAttrs (emptySecs _ _ _ W) (wk_near _ _ WK) cs tr rs H) Tc).
  - exact (se_limit _ _ _ S tr).
  - exact (se_room _ _ _ S cs tr cands ecm Tm Ps).
  - exact (se_fits _ _ _ S cs tr cands ecm Tm Ps).
Qed.
Lemma fast_here : world_ok W posAt -> searching W step false -> fast_net_ok W step.
Proof.
  intros WK S cs tr cands ecm Tm Ps. split.
  - intros n. exact (graph_here tr n).
  - exact (se_many _ _ _ S eq_refl tr).
  - exact (se_path _ _ _ S tr).
  - destruct Tm as (rs & H), Ps as [Co Tc]. exact (cand_share_any W posAt WK cands Co (nds _ _ tr) ecm
      (C26_built_trie_is_tree pos (near _ _ _ W) attrs mergeAttrs (emptySecs _ _ _ W) (wk_near _ _ WK) cs tr rs H) Tc).
  - exact (se_limit _ _ _ S tr).
  - exact (se_room _ _ _ S cs tr cands ecm Tm Ps).
  - exact (se_fits _ _ _ S cs tr cands ecm Tm Ps).
Qed.
End P.

(** ** Searches that work, for every network *)
Section Many.
Variable step : nat -> nat -> option Z.
(** Cheapest walks. *)
Variable best : nat -> nat -> option (Z * list nat).
Hypothesis Best : forall x z, match best x z with Some (d, p) => cheapest step x z d /\ walk step x z d p | None => forall d es, ~ walk step x z d es end.
Definition bestSearch (x z : nat) (lim : Z) : Z * list nat :=
  match best x z with Some (d, p) => if (d <? lim)%Z then (d, rev p) else (lim, []) | None => (lim, []) end.
Lemma best_search : search_ok step (fun x _ lim z => bestSearch x z lim).
Proof.
  intros x tos lim z _. unfold bestSearch. pose proof (Best x z) as B. destruct (best x z) as [[d p]|].
  - destruct B as [Ch X]. destruct (Z.ltb_spec d lim) as [L|L].
    + left. split.
      { intros R. destruct (RealNet_proofs.walk_head step _ _ _ _ X) as (t & Ep). apply (f_equal (@length _)) in R. rewrite rev_length, Ep in R. discriminate. }
      split; [exact Ch|]. split; [exact L|]. rewrite rev_involutive. exact X.
    + right. split; [reflexivity|]. split; [lia|]. intros d' es X'. destruct Ch as [_ Ch]. specialize (Ch _ _ X'). lia.
  - right. split; [reflexivity|]. split; [lia|]. intros d' es X'. destruct (B _ _ X').
Qed.
Lemma best_path : path_search_ok step bestSearch.
Proof.
  intros x z lim. unfold bestSearch. pose proof (Best x z) as B. destruct (best x z) as [[d p]|].
  - destruct B as [Ch X]. destruct (Z.ltb_spec d lim) as [L|L].
    + left. rewrite rev_involutive. auto.
    + right. split; [lia|]. intros d' es X'. destruct Ch as [_ Ch]. specialize (Ch _ _ X'). lia.
  - right. split; [lia|]. intros d' es X'. destruct (B _ _ X').
Qed.
Definition dist (x z : nat) : option Z := option_map fst (best x z).
Lemma Dist : forall x z, match dist x z with Some d => cheapest step x z d | None => forall d es, ~ walk step x z d es end.
Proof. intros x z. pose proof (Best x z) as B. unfold dist. destruct (best x z) as [[d p]|]; cbn; [exact (proj1 B)|exact B]. Qed.
Fixpoint nearest (init : nat -> Z) (frs : list nat) (z : nat) (best : nat * Z) : nat * Z :=
  match frs with
  | [] => best
  | x :: r => nearest init r z (match dist x z with Some d => if (init x + d <? snd best)%Z then (x, init x + d)%Z else best | None => best end)
  end.
Definition manySearch (frs tos : list nat) (init : nat -> Z) (_ lim : Z) : list (nat * (nat * Z)) :=
  map (fun z => (z, nearest init frs z (0, lim))) tos.
Lemma nearest_ok : forall init frs z x0 c0, let '(x, c) := nearest init frs z (x0, c0) in (c <= c0)%Z /\
  ((x, c) = (x0, c0) \/ In x frs /\ exists d, cheapest step x z d /\ c = (init x + d)%Z) /\
  forall x' d' es, In x' frs -> walk step x' z d' es -> (c <= init x' + d')%Z.
Proof.
  intros init. induction frs as [|y frs IH]; intros z x0 c0; cbn [nearest].
  - split; [lia|]. split; [left; reflexivity|intros x' d' es []].
  - pose proof (Dist y z) as D. destruct (dist y z) as [d|].
    + cbn [snd]. destruct (Z.ltb_spec (init y + d) c0) as [L|L].
      * pose proof (IH z y (init y + d)%Z) as H. destruct (nearest init frs z (y, (init y + d)%Z)) as [x c]. destruct H as (H1 & H2 & H3). split; [lia|]. split.
        { right. destruct H2 as [E|(I & E)]; [injection E as -> ->; split; [left; reflexivity|exists d; auto]|split; [right; exact I|exact E]]. }
        intros x' d' es [<-|I] X; [destruct D as [_ D]; specialize (D _ _ X); lia|exact (H3 _ _ _ I X)].
      * pose proof (IH z x0 c0) as H. destruct (nearest init frs z (x0, c0)) as [x c]. destruct H as (H1 & H2 & H3). split; [lia|]. split.
        { destruct H2 as [E|(I & E)]; [left; exact E|right; split; [right; exact I|exact E]]. }
        intros x' d' es [<-|I] X; [destruct D as [_ D]; specialize (D _ _ X); lia|exact (H3 _ _ _ I X)].
    + pose proof (IH z x0 c0) as H. destruct (nearest init frs z (x0, c0)) as [x c]. destruct H as (H1 & H2 & H3). split; [lia|]. split.
      { destruct H2 as [E|(I & E)]; [left; exact E|right; split; [right; exact I|exact E]]. }
      intros x' d' es [<-|I] X; [destruct (D _ _ X)|exact (H3 _ _ _ I X)].
Qed.
Lemma many_search : searchN_ok step manySearch.
Proof.
  intros frs tos init stall lim. unfold manySearch. split.
  { intros z I. rewrite map_map. cbn. rewrite map_id. exact I. }
  intros z x c I. apply in_map_iff in I. destruct I as (z' & E & I). injection E as -> E. split; [exact I|].
  pose proof (nearest_ok init frs z 0 lim) as H. rewrite E in H. destruct H as (H1 & H2 & H3). split.
  - intros L. destruct H2 as [X|(Ix & d & X & ->)]; [injection X as -> ->; lia|]. split; [exact Ix|]. split; [exists d; auto|]. intros x' d' es Ix' Wx _. exact (H3 _ _ _ Ix' Wx).
  - intros L x' d' es Ix' Wx _. pose proof (H3 _ _ _ Ix' Wx). lia.
Qed.
End Many.

(** The cheapest walks of a finite network. *)
Lemma best_exists : forall step n, (forall i j w, step i j = Some w -> (i < n /\ j < n /\ (0 <= w)%Z)) -> forall x z,
  match RealNet_proofs.refPath step n n x z with Some (d, p) => cheapest step x z d /\ walk step x z d p | None => forall d es, ~ walk step x z d es end.
Proof.
  intros step n Sn x z.
  assert (Best : forall d es, walk step x z d es -> exists c p, RealNet_proofs.refPath step n n x z = Some (c, p) /\ (c <= d)%Z).
  { intros d es W. destruct (RealNet_proofs.walk_short step n Sn _ _ _ _ _ (le_n _) W) as (d' & es' & W' & L & S').
    destruct (RealNet_proofs.refPath_best step n Sn n _ _ _ _ W' S') as (c & p & E & Lc). exists c, p. split; [exact E|lia]. }
  destruct (RealNet_proofs.refPath step n n x z) as [[c p]|] eqn:E.
  - pose proof (RealNet_proofs.refPath_sound step n _ _ _ _ _ E) as W. split; [|exact W]. split; [exists p; exact W|].
    intros d es Wd. destruct (Best d es Wd) as (c' & p' & E' & Lc). injection E' as <- <-. exact Lc.
  - intros d es Wd. destruct (Best d es Wd) as (c' & p' & E' & _). discriminate.
Qed.
