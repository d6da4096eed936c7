(** C85: from an OSM file and a feed to shapes along cheapest ways. *)
From Coq Require Import Ascii String List Arith NArith ZArith QArith Bool Lia Permutation.
From Verif Require Import ListAux HopCache_model TripTrie_model TripTrie_spec Simi_model Router_model Router_spec Router_props Hops_model Hops_spec Hops_proofs Hops_props Ecm_model Ecm_spec
  Shapes_model Shapes_spec Shapes_props Cluster_model Cluster_spec Cluster_props Workers_model Workers_props Optimal_spec Optimal_props Pipeline_model Pipeline_spec Pipeline_proofs Pipeline_props
  Feedway_spec Feedway_proofs Feedway_props Whole_spec Whole_proofs Whole_props Allway_spec Allway_proofs.
From Verif Require OsmRead_model OsmRead_spec OsmRead_props OsmGraph_model OsmGraph_spec OsmGraph_proofs OsmGraph_props Finish_model Finish_spec Snap_model Snap_spec Snap_props
  Build_model Build_spec Build_props Weights_model Weights_spec Weights_proofs Astar_spec RealNet_model RealNet_spec RealNet_proofs.
Import ListNotations.
Open Scope nat_scope.
Open Scope list_scope.

(** The network of the file meets what the router needs. *)
Lemma router_here : forall (P SI : Type) (origin : P) E level oneway onewayrev linesOf (statInfo : nat -> list (string * string) -> option SI) station blocker turnCycle
    close near order hav half five plus project sharpAt maxSnapLevel maxBlockDistance simiEq simiLow noTrack takeTrack pick ord cands ds
    len simplify speed corFac fl sp ec nl meets c (ns ws rs : list (@OsmRead_spec.elem P)) pre n c0,
  (* as in C76 *)
  (forall l, match pick l with None => l = [] | Some (c, r) => Permutation l (c :: r) end) -> (forall l, Permutation (ord l) l) ->
  (forall (s : @Snap_model.st P SI (OsmGraph_model.pl P)) p d, Snap_spec.Ok s -> NoDup (cands s p d) /\ forall c, In c (cands s p d) -> Snap_spec.present s c) ->
  (forall l, (0 <= len l)%Q) -> (forall l, (0 < speed l)%Q) -> (0 < sp)%Q -> (0 <= ec)%Q -> (0 < nl)%Q ->
  (forall a m b, exists m', simplify (a :: m ++ [b]) = a :: m' ++ [b]) -> OsmGraph_spec.rounding fl ->
  Forall OsmRead_spec.nodeElem ns -> Forall OsmRead_spec.wayElem ws -> Forall OsmRead_spec.relElem rs -> Forall OsmRead_spec.noNodes pre -> ns <> [] -> ws <> [] ->
  length ns < n -> length ws < n -> length rs < n -> NoDup (map OsmRead_spec.idOf ns) -> (forall e m, In e rs -> In m (OsmRead_spec.wayMembers e) -> fst m <> 0) ->
  exists b G,
    Build_model.build origin E level oneway onewayrev linesOf statInfo station blocker turnCycle close near order hav half five plus project sharpAt maxSnapLevel maxBlockDistance
      simiEq simiLow noTrack takeTrack pick ord cands ds len simplify speed corFac fl sp ec nl meets c n
      (OsmRead_model.mkXml c0 (pre ++ OsmRead_spec.text ns ++ OsmRead_spec.text ws ++ OsmRead_spec.text rs)) = Some b /\
  (loops_fit b -> forall (pos C : Type) (W : world pos C P) posAt step place baseCost lineSimis noAttrs nodeTurn degree sharp restricted may ro,
    routes_on b W step place baseCost lineSimis noAttrs nodeTurn degree sharp restricted may ro -> (forall tr n, path_search_ok (step tr n) (spath _ _ _ W tr n)) -> library_ok W posAt ->
    world_ok W posAt /\ (searching W step true -> net_ok W step) /\ (searching W step false -> fast_net_ok W step) /\
    forall K t ps ds, (exists cands hops parts, shape_by W posAt cands hops parts t ps ds /\ K cands t hops) -> street_way b W c ns ws rs level oneway onewayrev posAt G K t ps ds).
Proof.
  intros P SI origin E level oneway onewayrev linesOf statInfo station blocker turnCycle close near order hav half five plus project sharpAt mL mB simiEq simiLow noTrack takeTrack pick ord cands ds
    len simplify speed corFac fl sp ec nl meets c ns ws rs pre n c0 Hpick Hord Hcands L0 V0 Sp Ec Nl En Rd Hns Hws Hrs Hpre Hns0 Hws0 Hn1 Hn2 Hn3 Hnd Hm.
  destruct (Build_props.C76_network P SI origin E level oneway onewayrev linesOf statInfo station blocker turnCycle close near order hav half five plus project sharpAt mL mB simiEq simiLow noTrack takeTrack pick ord cands ds
    len simplify speed corFac fl sp ec nl meets c ns ws rs pre n c0 Hpick Hord Hcands L0 V0 Sp Ec Nl En Rd Hns Hws Hrs Hpre Hns0 Hws0 Hn1 Hn2 Hn3 Hnd Hm)
    as (b & r & rules & wl & g & O & s0 & st0 & G & Eb & Fr & _ & _ & Ca & Fi & Ar).
  exists b, G. split; [exact Eb|]. intros Lf pos C W posAt step place baseCost lineSimis noAttrs nodeTurn degree sharp restricted may ro RO SP LB.
  assert (Fits : forall k e, edge_no b k e -> OsmGraph_spec.fits (Build_model.bPos b) e).
  { intros k e Ek. destruct (Nat.eq_dec (OsmGraph_model.from e) (OsmGraph_model.to e)) as [Ft|Ft].
    - destruct (Nat.eq_dec (OsmGraph_model.oneWay (OsmGraph_model.ePl e)) 0) as [Ow|Ow]; [apply (Finish_spec.fi_fits _ _ _ _ _ _ _ _ _ _ _ Fi e (nth_error_In _ _ Ek)); auto|now apply (Lf k)].
    - apply (Finish_spec.fi_fits _ _ _ _ _ _ _ _ _ _ _ Fi e (nth_error_In _ _ Ek)); auto. }
  assert (WK : world_ok W posAt) by exact (world_here b W step _ _ _ _ _ _ _ _ _ _ RO posAt SP Fits LB).
  split; [exact WK|]. split; [|split].
  - exact (net_here b W step _ _ _ _ _ _ _ _ _ _ RO posAt _ _ _ _ _ _ _ _ _ _ _ L0 V0 Sp Ec Nl Fi Ar WK).
  - exact (fast_here b W step _ _ _ _ _ _ _ _ _ _ RO posAt _ _ _ _ _ _ _ _ _ _ _ L0 V0 Sp Ec Nl Fi Ar WK).
  - intros K t ps ds' (cands' & hops & parts & By & Hk). exists cands', hops, parts. split; [exact By|]. split; [|exact Hk]. intros h k Ih Ik.
    destruct (hops_edges b W step _ _ _ _ _ _ _ _ _ _ RO posAt SP _ _ _ _ _ _ By h k Ih Ik) as (e & Ek).
    exists e. split; [exact Ek|]. destruct (Finish_spec.fi_edges _ _ _ _ _ _ _ _ _ _ _ Fi e (nth_error_In _ _ Ek)) as [T|(tr & T & _)]; [now left|right]. exists tr. split; [exact T|].
    intros x Ix. destruct (Build_spec.fr_graph _ _ _ _ _ _ _ _ _ _ _ _ _ _ _ _ _ _ Fr) as (hup & has & _ & _ & Go).
    apply (piece_way c ns ws rs level oneway onewayrev (linesOf r) hup has _ _ _ _ wl g O _ G (Build_spec.fr_ways _ _ _ _ _ _ _ _ _ _ _ _ _ _ _ _ _ _ Fr) Go Ca).
    exact (Finish_spec.tr_in _ _ _ _ _ T x Ix).
Qed.

(** C85: for every well-formed OSM file the network is built; for every feed, every schedule of
    the clustering and of the shape workers, and every 1 -> n and point-to-point search that works
    on this network with the costs of the program, every selected trip gets a shape along the
    drives of a cheapest way to serve its stops, and these lead along edges of the network
    that are made of wanted ways of the file. *)
Theorem C85_file_and_feed_to_cheapest_ways : forall (P SI : Type) (origin : P) E level oneway onewayrev linesOf (statInfo : nat -> list (string * string) -> option SI) station blocker turnCycle
    close near order hav half five plus project sharpAt maxSnapLevel maxBlockDistance simiEq simiLow noTrack takeTrack pick ord cands ds
    len simplify speed corFac fl sp ec nl meets c (ns ws rs : list (@OsmRead_spec.elem P)) pre n c0,
  (* as in C76 *)
  (forall l, match pick l with None => l = [] | Some (c, r) => Permutation l (c :: r) end) -> (forall l, Permutation (ord l) l) ->
  (forall (s : @Snap_model.st P SI (OsmGraph_model.pl P)) p d, Snap_spec.Ok s -> NoDup (cands s p d) /\ forall c, In c (cands s p d) -> Snap_spec.present s c) ->
  (forall l, (0 <= len l)%Q) -> (forall l, (0 < speed l)%Q) -> (0 < sp)%Q -> (0 <= ec)%Q -> (0 < nl)%Q ->
  (forall a m b, exists m', simplify (a :: m ++ [b]) = a :: m' ++ [b]) -> OsmGraph_spec.rounding fl ->
  Forall OsmRead_spec.nodeElem ns -> Forall OsmRead_spec.wayElem ws -> Forall OsmRead_spec.relElem rs -> Forall OsmRead_spec.noNodes pre -> ns <> [] -> ws <> [] ->
  length ns < n -> length ws < n -> length rs < n -> NoDup (map OsmRead_spec.idOf ns) -> (forall e m, In e rs -> In m (OsmRead_spec.wayMembers e) -> fst m <> 0) ->
  exists b G,
    Build_model.build origin E level oneway onewayrev linesOf statInfo station blocker turnCycle close near order hav half five plus project sharpAt maxSnapLevel maxBlockDistance
      simiEq simiLow noTrack takeTrack pick ord cands ds len simplify speed corFac fl sp ec nl meets c n
      (OsmRead_model.mkXml c0 (pre ++ OsmRead_spec.text ns ++ OsmRead_spec.text ws ++ OsmRead_spec.text rs)) = Some b /\
  (* a router on this network, and a feed *)
  (loops_fit b ->
  forall (pos C regex : Type) (W : world pos C P) posAt step w place baseCost lineSimis noAttrs nodeTurn degree sharp restricted may ro
    (compile : string -> option regex) replace ops L S o f dists M,
  routes_on b W step place baseCost lineSimis noAttrs nodeTurn degree sharp restricted may ro -> searching W step true ->
  library_ok W posAt -> costs_as_given W w -> caching_ok W step -> noFastHops _ _ _ W || negb (allowsFast _ _ _ W) = true ->
  feed_ok W o f dists M -> 0 < oThreads o ->
  In L (fst (runNorm regex compile replace [] ops)) -> In S (fst (runNorm regex compile replace [] ops)) ->
  forall cs st' fo rest, clusterTrips pos (Pipeline_model.near _ _ _ W) (emptySecs _ _ _ W) regex replace o (mkC _ L S []) f cs = Some (st', fo, rest) ->
  (forall p, In p rest -> p = []) ->
  forall ws' cnt ids store, exists ths s, build W replace o (mkC _ L S []) f cs ws' cnt ids store dists = Some (rest, ths, s) /\
    ((forall p, In p ths -> p = PDone _ _) -> shaped (street_way b W c ns ws rs level oneway onewayrev posAt G (cheapest_hops W step w)) o f dists cnt ids store s)).
Proof.
  intros P SI origin E level oneway onewayrev linesOf statInfo station blocker turnCycle close near order hav half five plus project sharpAt mL mB simiEq simiLow noTrack takeTrack pick ord cands ds
    len simplify speed corFac fl sp ec nl meets c ns ws rs pre n c0 Hpick Hord Hcands L0 V0 Sp Ec Nl En Rd Hns Hws Hrs Hpre Hns0 Hws0 Hn1 Hn2 Hn3 Hnd Hm.
  destruct (router_here P SI origin E level oneway onewayrev linesOf statInfo station blocker turnCycle close near order hav half five plus project sharpAt mL mB simiEq simiLow noTrack takeTrack pick ord cands ds
    len simplify speed corFac fl sp ec nl meets c ns ws rs pre n c0 Hpick Hord Hcands L0 V0 Sp Ec Nl En Rd Hns Hws Hrs Hpre Hns0 Hws0 Hn1 Hn2 Hn3 Hnd Hm)
    as (b & G & Eb & K).
  exists b, G. split; [exact Eb|]. intros Lf pos C regex W posAt step w place baseCost lineSimis noAttrs nodeTurn degree sharp restricted may ro
    compile replace ops L S o f dists M RO SE LB CG CO Slow FK TH IL IS cs st' fo rest Cl Dn ws' cnt ids store.
  destruct (K Lf pos C W posAt step _ _ _ _ _ _ _ _ _ _ RO (se_path _ _ _ SE) LB) as (WK & N1 & N2 & St).
  destruct (C84_shapes_take_cheapest_ways pos C P regex W posAt step w compile replace ops L S o f dists M WK CG (N1 SE) CO Slow FK TH IL IS cs st' fo rest Cl Dn ws' cnt ids store) as (ths & s & B & Sh).
  exists ths, s. split; [exact B|]. intros D. exact (shaped_imp _ _ (cheapest_shape W posAt step w) _ (St (cheapest_hops W step w)) _ _ _ _ _ _ _ (Sh D)).
Qed.
Print Assumptions C85_file_and_feed_to_cheapest_ways.

(** C85: the same with the n -> n search of the default engine, with or without the hop cache:
    the drives can be driven at the price the router sees. *)
Theorem C85_file_and_feed_to_driven_ways : forall (P SI : Type) (origin : P) E level oneway onewayrev linesOf (statInfo : nat -> list (string * string) -> option SI) station blocker turnCycle
    close near order hav half five plus project sharpAt maxSnapLevel maxBlockDistance simiEq simiLow noTrack takeTrack pick ord cands ds
    len simplify speed corFac fl sp ec nl meets c (ns ws rs : list (@OsmRead_spec.elem P)) pre n c0,
  (* as in C76 *)
  (forall l, match pick l with None => l = [] | Some (c, r) => Permutation l (c :: r) end) -> (forall l, Permutation (ord l) l) ->
  (forall (s : @Snap_model.st P SI (OsmGraph_model.pl P)) p d, Snap_spec.Ok s -> NoDup (cands s p d) /\ forall c, In c (cands s p d) -> Snap_spec.present s c) ->
  (forall l, (0 <= len l)%Q) -> (forall l, (0 < speed l)%Q) -> (0 < sp)%Q -> (0 <= ec)%Q -> (0 < nl)%Q ->
  (forall a m b, exists m', simplify (a :: m ++ [b]) = a :: m' ++ [b]) -> OsmGraph_spec.rounding fl ->
  Forall OsmRead_spec.nodeElem ns -> Forall OsmRead_spec.wayElem ws -> Forall OsmRead_spec.relElem rs -> Forall OsmRead_spec.noNodes pre -> ns <> [] -> ws <> [] ->
  length ns < n -> length ws < n -> length rs < n -> NoDup (map OsmRead_spec.idOf ns) -> (forall e m, In e rs -> In m (OsmRead_spec.wayMembers e) -> fst m <> 0) ->
  exists b G,
    Build_model.build origin E level oneway onewayrev linesOf statInfo station blocker turnCycle close near order hav half five plus project sharpAt maxSnapLevel maxBlockDistance
      simiEq simiLow noTrack takeTrack pick ord cands ds len simplify speed corFac fl sp ec nl meets c n
      (OsmRead_model.mkXml c0 (pre ++ OsmRead_spec.text ns ++ OsmRead_spec.text ws ++ OsmRead_spec.text rs)) = Some b /\
  (* a router on this network, and a feed *)
  (loops_fit b ->
  forall (pos C regex : Type) (W : world pos C P) posAt step w place baseCost lineSimis noAttrs nodeTurn degree sharp restricted may ro
    (compile : string -> option regex) replace ops L S o f dists M,
  routes_on b W step place baseCost lineSimis noAttrs nodeTurn degree sharp restricted may ro -> searching W step false ->
  library_ok W posAt -> costs_as_given W w -> noFastHops _ _ _ W = false -> allowsFast _ _ _ W = true ->
  feed_ok W o f dists M -> 0 < oThreads o ->
  In L (fst (runNorm regex compile replace [] ops)) -> In S (fst (runNorm regex compile replace [] ops)) ->
  forall cs st' fo rest, clusterTrips pos (Pipeline_model.near _ _ _ W) (emptySecs _ _ _ W) regex replace o (mkC _ L S []) f cs = Some (st', fo, rest) ->
  (forall p, In p rest -> p = []) ->
  forall ws' cnt ids store, exists ths s, build W replace o (mkC _ L S []) f cs ws' cnt ids store dists = Some (rest, ths, s) /\
    ((forall p, In p ths -> p = PDone _ _) -> shaped (street_way b W c ns ws rs level oneway onewayrev posAt G (driven_hops W step w)) o f dists cnt ids store s)).
Proof.
  intros P SI origin E level oneway onewayrev linesOf statInfo station blocker turnCycle close near order hav half five plus project sharpAt mL mB simiEq simiLow noTrack takeTrack pick ord cands ds
    len simplify speed corFac fl sp ec nl meets c ns ws rs pre n c0 Hpick Hord Hcands L0 V0 Sp Ec Nl En Rd Hns Hws Hrs Hpre Hns0 Hws0 Hn1 Hn2 Hn3 Hnd Hm.
  destruct (router_here P SI origin E level oneway onewayrev linesOf statInfo station blocker turnCycle close near order hav half five plus project sharpAt mL mB simiEq simiLow noTrack takeTrack pick ord cands ds
    len simplify speed corFac fl sp ec nl meets c ns ws rs pre n c0 Hpick Hord Hcands L0 V0 Sp Ec Nl En Rd Hns Hws Hrs Hpre Hns0 Hws0 Hn1 Hn2 Hn3 Hnd Hm)
    as (b & G & Eb & K).
  exists b, G. split; [exact Eb|]. intros Lf pos C regex W posAt step w place baseCost lineSimis noAttrs nodeTurn degree sharp restricted may ro
    compile replace ops L S o f dists M RO SE LB CG NF AF FK TH IL IS cs st' fo rest Cl Dn ws' cnt ids store.
  destruct (K Lf pos C W posAt step _ _ _ _ _ _ _ _ _ _ RO (se_path _ _ _ SE) LB) as (WK & N1 & N2 & St).
  destruct (C84_shapes_are_driven pos C P regex W posAt step w compile replace ops L S o f dists M WK CG (N2 SE) NF AF FK TH IL IS cs st' fo rest Cl Dn ws' cnt ids store) as (ths & s & B & Sh).
  exists ths, s. split; [exact B|]. intros D. exact (shaped_imp _ _ (driven_shape W posAt step w) _ (St (driven_hops W step w)) _ _ _ _ _ _ _ (Sh D)).
Qed.
Print Assumptions C85_file_and_feed_to_driven_ways.

(** What is assumed of the searches can be met on every network: with the costs of the program
    there are a 1 -> n, an n -> n and a point-to-point search that work. *)
Theorem C85_searches_exist : forall (P : Type) (g : OsmGraph_model.graph P) baseCost lineSimis noAttrs eFrom eTo turnCycle deg sharp restricted may o step ecost,
  (forall e, Weights_spec.u32 (baseCost e)) -> Weights_spec.opts_ok o ->
  RealNet_spec.network_costs g (Weights_spec.transition_cost baseCost lineSimis noAttrs eFrom eTo turnCycle deg sharp restricted may o) step ecost ->
  exists search searchN spath, search_ok step search /\ searchN_ok step searchN /\ path_search_ok step spath.
Proof.
  intros P g baseCost lineSimis noAttrs eFrom eTo turnCycle deg sharp restricted may o step ecost Ub Ho [Ns _].
  assert (B : forall i j w, step i j = Some w -> (i < length (OsmGraph_model.edges g) /\ j < length (OsmGraph_model.edges g) /\ (0 <= w)%Z)).
  { intros i j w S. apply Ns in S. destruct S as (x & y & Ei & Ej & _ & T). split; [apply nth_error_Some; congruence|]. split; [apply nth_error_Some; congruence|].
    destruct (Weights_proofs.TC_lower _ _ _ _ _ _ _ _ _ _ _ Ub Ho _ _ _ T) as [[U _] _]. exact U. }
  pose proof (best_exists step _ B) as K.
  eexists _, _, _. split; [exact (best_search step _ K)|]. split; [exact (many_search step _ K)|exact (best_path step _ K)].
Qed.
Print Assumptions C85_searches_exist.

(** Non-vacuity: the sample of C76, where turning from edge 0 into edge 8 is prohibited and full
    turns cost half a minute, with four stops beside its streets. *)
Definition yNet : OsmGraph_model.graph Z := match Build_props.sBuild with Some b => Finish_model.net (Build_model.bNet b) | None => OsmGraph_model.mkG [] [] end.
Definition yComp (f : OsmGraph_model.edge Z -> nat) : nat -> nat := match Build_props.sBuild with Some b => zEdge (fun e => OsmGraph_model.compOf (Finish_model.comps (Build_model.bNet b)) (f e)) 0 | None => fun _ => 0 end.
Definition yBase (k : nat) : Z := match nth_error zEdges k with Some e => Z.of_N (OsmGraph_model.cost (OsmGraph_model.ePl e)) | None => 4294967295%Z end.
Definition yO := Weights_model.mkOpts 300 600 (1 # 2) 1 1.
Definition yDeg (n : nat) : nat := length (filter (fun e => OsmGraph_model.from e =? n) zEdges).
Definition yMay (f t n : nat) : bool := negb ((f =? 0) && (t =? 8)).
Definition yStep := RealNet_model.netStep Z yNet yBase (fun _ => []) true (zEdge (@OsmGraph_model.from Z) 0) (zEdge (@OsmGraph_model.to Z) 0)
  (fun _ => false) yDeg (fun _ _ _ => false) (fun e => e =? 0) yMay yO (fun _ _ => []).
Definition yCost := RealNet_model.netCost yBase (fun _ => []) true (zEdge (@OsmGraph_model.from Z) 0) (zEdge (@OsmGraph_model.to Z) 0)
  (fun _ => false) yDeg (fun _ _ _ => false) (fun e => e =? 0) yMay yO (fun _ => []).
Definition yCosts : list (list (option Z)) := Eval vm_compute in map (fun a => map (yStep a) (seq 0 10)) (seq 0 10).
Definition yTab : list (list (option (Z * list nat))) := Eval vm_compute in
  map (fun a => map (RealNet_proofs.refPath (fun a b => nth b (nth a yCosts []) None) 10 10 a) (seq 0 10)) (seq 0 10).
Definition yBest (a z : nat) : option (Z * list nat) :=
  if (a <? 10) && (z <? 10) then nth z (nth a yTab []) None else if a =? z then Some (0%Z, [a]) else None.
Definition yW (slow : bool) : world nat (option Z) Z := mkW nat (option Z) Z
  Nat.eqb 0%Z
  xlt xadd None (fun q => Some (Qround.Qfloor q)) (fun z => Some z)
  (zEdge (@OsmGraph_model.from Z) 0) (zEdge (@OsmGraph_model.to Z) 0) (fun _ => 3) (fun n => n) (fun n => n) (fun n => pred n) (fun n => pred n) (zEdge (fun e => OsmGraph_model.oneWay (OsmGraph_model.ePl e)) 0)
  (fun _ => 10%Q) (zEdge (fun e => OsmGraph_model.rev_ (OsmGraph_model.ePl e)) false) (zEdge (fun e => OsmGraph_model.geom (OsmGraph_model.ePl e)) None)
  (zEdge (fun e => zPos (OsmGraph_model.from e)) 0%Z) (zEdge (fun e => zPos (OsmGraph_model.to e)) 0%Z)
  (yComp (@OsmGraph_model.from Z)) (yComp (@OsmGraph_model.to Z)) (fun _ => [])
  (fun l => l) 100 50 7 3 20 true (fun q => q)
  (fun _ _ => 10%Q) (fun _ _ => (1 # 2)%Q) (fun s => Z.of_nat (sPos _ s))
  (fun s => []) (fun s => match sPos _ s with 1 => [3] | 2 => [0] | 3 => [8] | _ => [1] end)
  (fun _ _ _ c _ _ => Some c) (fun _ _ _ => 2000%Z)
  (fun _ _ => yCost) (fun _ _ => bestSearch yBest)
  (fun x => x) lenum (fun _ _ => yCost)
  (fun _ _ a _ lim z => bestSearch yBest a z lim) (fun _ _ => manySearch yBest)
  false true slow false
  0%Z zSeg (fun l => l) (fun a b => inject_Z (Z.abs (a - b))) (fun q => q) (fun q => q) 0%N.
Definition yTC := Weights_spec.transition_cost yBase (fun _ => []) true (zEdge (@OsmGraph_model.from Z) 0) (zEdge (@OsmGraph_model.to Z) 0)
  (fun _ => false) yDeg (fun _ _ _ => false) (fun e => e =? 0) yMay yO.
Lemma yBase_u32 : forall e, Weights_spec.u32 (yBase e).
Proof.
  intros e. unfold yBase. destruct (nth_error zEdges e) as [x|] eqn:N; [|split; unfold Weights_model.u32max; lia].
  apply nth_error_In in N. assert (A : forallb (fun x => (Z.of_N (OsmGraph_model.cost (OsmGraph_model.ePl x)) <=? 4294967295)%Z) zEdges = true) by (vm_compute; reflexivity).
  rewrite forallb_forall in A. specialize (A x N). apply Z.leb_le in A. split; [apply N2Z.is_nonneg|exact A].
Qed.
Lemma yO_ok : Weights_spec.opts_ok yO.
Proof. split; [vm_compute; split; discriminate|]. split; [vm_compute; split; discriminate|]. split; [reflexivity|]. split; reflexivity. Qed.
Lemma yNetCosts : RealNet_spec.network_costs yNet yTC yStep yCost.
Proof. apply RealNet_proofs.net_costs; [exact yBase_u32|exact yO_ok]. Qed.
Lemma yNum : length (OsmGraph_model.edges yNet) = 10.
Proof. vm_compute. reflexivity. Qed.
Lemma yBound : forall i j w, yStep i j = Some w -> (i < 10 /\ j < 10 /\ (0 <= w)%Z).
Proof.
  intros i j w S. apply (RealNet_spec.nc_step _ _ _ _ yNetCosts) in S. destruct S as (x & y & Ei & Ej & _ & T). rewrite <- yNum. split; [apply nth_error_Some; congruence|]. split; [apply nth_error_Some; congruence|].
  unfold yTC in T. destruct (Weights_proofs.TC_lower _ _ _ _ _ _ _ _ _ _ _ yBase_u32 yO_ok _ _ _ T) as [[U _] _]. exact U.
Qed.
Lemma yTab_ok : yTab = map (fun a => map (RealNet_proofs.refPath yStep 10 10 a) (seq 0 10)) (seq 0 10).
Proof. vm_compute. reflexivity. Qed.
Lemma yBest_ok : forall x z, match yBest x z with Some (d, p) => cheapest yStep x z d /\ Hops_spec.walk yStep x z d p | None => forall d es, ~ Hops_spec.walk yStep x z d es end.
Proof.
  intros x z. unfold yBest. destruct (Nat.ltb_spec x 10) as [Lx|Lx], (Nat.ltb_spec z 10) as [Lz|Lz]; cbn [andb].
  1: { rewrite yTab_ok. rewrite (nth_indep _ [] (map (RealNet_proofs.refPath yStep 10 10 0) (seq 0 10))) by (rewrite map_length, seq_length; exact Lx).
    rewrite (map_nth (fun a => map (RealNet_proofs.refPath yStep 10 10 a) (seq 0 10)) (seq 0 10) 0 x), seq_nth by exact Lx. cbn [Nat.add].
    rewrite (nth_indep _ None (RealNet_proofs.refPath yStep 10 10 x 0)) by (rewrite map_length, seq_length; exact Lz).
    rewrite (map_nth (RealNet_proofs.refPath yStep 10 10 x) (seq 0 10) 0 z), seq_nth by exact Lz. cbn [Nat.add]. exact (best_exists yStep 10 yBound x z). }
  all: assert (Only : forall d es, Hops_spec.walk yStep x z d es -> x = z /\ d = 0%Z)
    by (intros d es X; destruct X as [e|e f t k d es S X]; [auto|exfalso];
        destruct (yBound _ _ _ S) as (L1 & L2 & _); assert (t < 10) by (clear - X L2; induction X as [|? ? ? ? ? ? S X IH]; [exact L2|apply IH; exact (proj1 (proj2 (yBound _ _ _ S)))]); lia);
    (destruct (Nat.eqb_spec x z) as [->|Ne]; [|intros d es X; destruct (Only d es X); contradiction]);
    (split; [|constructor]); (split; [exists [z]; constructor|]); intros d es X; destruct (Only d es X) as [_ ->]; lia.
Qed.
Example yW_library : forall slow, library_ok (yW slow) zAt.
Proof. intros slow. destruct zW_library as [L1 L2 L3 L4 L5 L6 L7 L8 L9 L10 L11]. constructor; auto. Qed.
Example yW_routes : forall slow b, Build_props.sBuild = Some b -> routes_on b (yW slow) (fun _ _ => yStep) (zEdge (fun e => zPos (OsmGraph_model.from e)) 0%Z) yBase
  (fun _ _ _ => []) (fun _ _ => true) (fun _ => false) yDeg (fun _ _ _ => false) (fun e => e =? 0) yMay yO.
Proof.
  intros slow b Eb. assert (Ee : zEdges = OsmGraph_model.edges (Finish_model.net (Build_model.bNet b))) by (unfold zEdges; now rewrite Eb). assert (Ep : zPos = Build_model.bPos b) by (unfold zPos; now rewrite Eb).
  assert (En : yNet = Finish_model.net (Build_model.bNet b)) by (unfold yNet; now rewrite Eb).
  constructor.
  - destruct (proj1 (zW_shows b Eb)) as [[S1 S2] _]. constructor; assumption.
  - constructor; rewrite <- Ee; intros i; try (intros e N); try (intros N); cbn [eFr eTo yW]; unfold zEdge, yBase; rewrite N, ?Ep; reflexivity.
  - intros k e Ek. unfold edge_no in Ek. rewrite <- Ee in Ek. cbn [compF compT yW]. unfold yComp, zEdge. rewrite Eb, Ek. auto.
  - intros k Nk. cbn [compF compT yW]. unfold yComp, zEdge. rewrite Eb. destruct (nth_error zEdges k) as [e|] eqn:Ek; [|reflexivity]. exfalso. apply (Nk e). unfold edge_no. now rewrite <- Ee.
  - exact yO_ok.
  - intros tr n. rewrite <- En. exact yNetCosts.
  - intros s k I. unfold edge_no. rewrite <- Ee. assert (L : k < 10) by (cbn in I; destruct (sPos _ s) as [|[|[|[|?]]]]; destruct I as [<-|[]]; lia).
    destruct (nth_error zEdges k) as [e|] eqn:Ek; [exists e; reflexivity|]. exfalso. apply nth_error_None in Ek. rewrite Ee, <- En, yNum in Ek. lia.
  - intros s nd k [].
Qed.
Lemma yCost_small : forall e, e < 10 -> (0 <= yCost e <= 1000)%Z.
Proof. intros e L. do 10 (destruct e as [|e]; [vm_compute; split; discriminate|]). lia. Qed.
Lemma yDist_small : forall x z d, x < 10 -> z < 10 -> cheapest yStep x z d -> (d <= 10000)%Z.
Proof.
  intros x z d Lx Lz [_ Mn]. pose proof (yBest_ok x z) as B.
  assert (A : match yBest x z with Some (c, _) => (c <= 10000)%Z | None => False end).
  { do 10 (destruct x as [|x]; [do 10 (destruct z as [|z]; [vm_compute; discriminate|]); lia|]). lia. }
  destruct (yBest x z) as [[c p]|]; [|destruct A]. destruct B as [_ X]. specialize (Mn _ _ X). lia.
Qed.
Example yW_searching : forall slow, Build_props.sBuild <> None -> searching (yW slow) (fun _ _ => yStep) slow.
Proof.
  intros slow Nb. destruct Build_props.sBuild as [b|] eqn:Eb; [clear Nb|contradiction].
  assert (Real : forall cs tr cands ecm, trie_made (yW slow) cs tr -> positions (yW slow) tr cands ecm -> forall n i x e, cand_at ecm n i x -> cE _ _ _ x = Some e -> e < 10).
  { intros cs tr cands ecm (rs & H) (Co & Tc) n i x e X Ex.
    destruct (cand_stop _ _ _ _ _ _ _ _ (C26_built_trie_is_tree nat Nat.eqb attrs mergeAttrs 0%Z Nat.eqb_refl cs tr rs H) Tc n i x X) as (s & l & c & Es & Ic & Ec).
    rewrite Ex in Ec. destruct (cands_real b (yW slow) _ _ _ _ _ _ _ _ _ _ _ (yW_routes slow b Eb) cands s l c e Co Es Ic (eq_sym Ec)) as (y & Ey).
    rewrite <- yNum. apply nth_error_Some. unfold edge_no in Ey. assert (En : yNet = Finish_model.net (Build_model.bNet b)) by (unfold yNet; now rewrite Eb). rewrite En, Ey. discriminate. }
  constructor.
  - intros _ tr n. exact (best_search yStep yBest yBest_ok).
  - intros _ tr n. exact (many_search yStep yBest yBest_ok).
  - intros tr n. exact (best_path yStep yBest yBest_ok).
  - intros tr p n. cbn. lia.
  - intros cs tr cands ecm Tm Ps n p f x e _ _ Cx Ex. pose proof (yCost_small e (Real _ _ _ _ Tm Ps _ _ _ _ Cx Ex)). cbn [limit0 ecost yW]. lia.
  - intros cs tr cands ecm Tm Ps n p f i x y ef et d _ _ Cx Cy Ex Ey Ch _.
    pose proof (yCost_small et (Real _ _ _ _ Tm Ps _ _ _ _ Cy Ey)). pose proof (yDist_small ef et d (Real _ _ _ _ Tm Ps _ _ _ _ Cx Ex) (Real _ _ _ _ Tm Ps _ _ _ _ Cy Ey) Ch). cbn [ecost yW]. lia.
Qed.
Definition ybuild slow := build (yW slow) xrepl xo (mkC _ xL xS []) pfeed [0; 0; 0; 0; 1; 1; 1; 1] (alt 60) 0 ["old"; "x"]%string [] pdists.
Definition yview (r : option (list (list (cstep nat)) * list (pc (list (Z * Q * nat)) Q) * shared (list (Z * Q * nat)) Q)) := match r with
  | Some (rest, ths, s) => Some (rest, ths, map (fun x => (tShape _ x, map Qred (tDists _ x))) (sTrips _ _ s),
      map (fun x => (fst x, map (fun p => fst (fst p)) (snd x))) (sStore _ _ s))
  | None => None
  end.
Example C85_case : forall slow, Build_props.sBuild <> None /\ costs_as_given (yW slow) (fun _ _ _ c _ => Some c) /\ caching_ok (yW slow) (fun _ _ => yStep) /\
  feed_ok (yW slow) xo pfeed pdists 240 /\ 0 < oThreads xo /\
  yview (ybuild slow) = Some ([[]; []], [PDone _ _; PDone _ _],
    [("shp_3_2", [0; 100; 200]); ("shp_3_3", [0; 100; 300]); ("old", [9; 9]); ("", [9]); ("shp_3_1", [0; 100]); ("", [9; 9]); ("shp_3_2", [0; 100; 200])]%string%Q,
    [("shp_3_1", [100; 200; 200; 200]); ("shp_3_2", [0; 40; 40; 100; 100; 100; 100; 200; 200; 200]); ("shp_3_3", [0; 40; 40; 100; 100; 100; 100; 200; 200; 100; 100; 100])]%string%Z).
Proof.
  intros slow. split; [vm_compute; discriminate|]. split; [split; [reflexivity|reflexivity|exact line_enum]|]. split; [right; split; [reflexivity|intros; cbn; lia]|].
  split. { destruct C58_case as (_ & [F1 F2 F3 F4] & _). constructor; assumption. }
  split; [cbn; lia|]. destruct slow; vm_compute; reflexivity.
Qed.
(** The theorems apply to it. *)
Example C85_sample_cheapest : exists b G ths s, Build_props.sBuild = Some b /\ ybuild true = Some ([[]; []], ths, s) /\
  shaped (street_way b (yW true) Build_props.sampleCfg Build_props.sNodes Build_props.sWays Build_props.sRels (fun _ => 1) (fun _ => false) (fun _ => false) zAt G
    (cheapest_hops (yW true) (fun _ _ => yStep) (fun _ _ _ c _ => Some c))) xo pfeed pdists 0 ["old"; "x"]%string [] s.
Proof.
  destruct Build_props.sample_ok as (A1 & A2 & A3 & A4 & A5).
  pose proof (C85_file_and_feed_to_cheapest_ways Z nat 0%Z 2 (fun _ => 1) (fun _ => false) (fun _ => false) (fun r => OsmRead_model.relsOf (OsmRead_model.wayRels r)) (fun id _ => Some id) (OsmRead_props.hasTag "railway" "station") (fun _ => false) (fun _ => false)
    (fun a b => Z.abs (a - b) <=? 1)%Z (fun g _ => OsmGraph_model.nodes g) (@OsmGraph_model.nodes Z)
    Snap_props.lhav 1%Z 5%Z Z.add Snap_props.lproj (fun _ _ _ => false) 5 5%Z Nat.eqb (fun a b => negb (a =? b)) (fun _ => false) (fun a _ => a) Snap_props.nearest (fun l => l) Build_props.zcands [10%Z]
    Build_props.zlen (fun l => l) (fun _ => 10%Q) 1%Q (fun x => x) 2%Q 5%Q 1%Q (fun g => map (fun n => (n, true)) (OsmGraph_model.nodes g))
    Build_props.sampleCfg Build_props.sNodes Build_props.sWays Build_props.sRels [OsmRead_model.mkTok 1 OsmRead_model.TOther] 20 (OsmRead_model.mkTok 0 OsmRead_model.TOther)) as H.
  assert (B1 : forall l : list (@Snap_model.edge (OsmGraph_model.pl Z)), Permutation l l) by (intros; apply Permutation_refl).
  assert (B2 : forall l : nat, (0 < 10)%Q) by (intros; reflexivity).
  assert (B3 : forall (a : Z) m b, exists m', a :: m ++ [b] = a :: m' ++ [b]) by (intros a m b; exists m; reflexivity).
  assert (B4 : (0 < 2)%Q) by reflexivity. assert (B5 : (0 <= 5)%Q) by (vm_compute; discriminate). assert (B6 : (0 < 1)%Q) by reflexivity.
  assert (B7 : Forall (@OsmRead_spec.noNodes Z) [OsmRead_model.mkTok 1 OsmRead_model.TOther]) by (repeat constructor).
  assert (B8 : length Build_props.sNodes < 20) by (cbn; lia). assert (B9 : length Build_props.sWays < 20) by (cbn; lia). assert (B10 : length Build_props.sRels < 20) by (cbn; lia).
  assert (B11 : Build_props.sNodes <> []) by discriminate. assert (B12 : Build_props.sWays <> []) by discriminate.
  destruct (H Snap_props.nearest_pick B1 Build_props.zcands_ok Build_props.zlen_pos B2 B4 B5 B6 B3 OsmGraph_props.ex_round A1 A2 A3 B7 B11 B12 B8 B9 B10 A4 A5) as (b & G & E & K). clear H.
  destruct (C85_case true) as (Nb & CG & Ca & FK & TH & Cz). destruct (zW_shows b E) as (_ & LF). destruct C78_case as (_ & _ & IL & IS & _).
  assert (Cl : exists st fo, clusterTrips nat Nat.eqb 0%Z string xrepl xo (mkC _ xL xS []) pfeed [0; 0; 0; 0; 1; 1; 1; 1] = Some (st, fo, [[]; []])) by (eexists _, _; vm_compute; reflexivity).
  destruct Cl as (st & fo & Cl). assert (Dn : forall p : list (cstep nat), In p [[]; []] -> p = []) by (intros p [<- |[<- |[]]]; reflexivity).
  destruct (K LF nat (option Z) string (yW true) zAt (fun _ _ => yStep) (fun _ _ _ c _ => Some c) _ _ _ _ _ _ _ _ _ _ xcomp xrepl xops xL xS xo pfeed pdists 240%Z
    (yW_routes true b E) (yW_searching true Nb) (yW_library true) CG Ca eq_refl FK TH IL IS _ st fo _ Cl Dn (alt 60) 0 ["old"; "x"]%string []) as (ths & s & B & Sh).
  assert (B' : ybuild true = Some ([[]; []], ths, s)) by exact B. exists b, G, ths, s. split; [exact E|]. split; [exact B|]. apply Sh. rewrite B' in Cz. cbv beta iota delta [yview] in Cz. injection Cz as -> _. intros p [<- |[<- |[]]]; reflexivity.
Qed.
Example C85_sample_driven : exists b G ths s, Build_props.sBuild = Some b /\ ybuild false = Some ([[]; []], ths, s) /\
  shaped (street_way b (yW false) Build_props.sampleCfg Build_props.sNodes Build_props.sWays Build_props.sRels (fun _ => 1) (fun _ => false) (fun _ => false) zAt G
    (driven_hops (yW false) (fun _ _ => yStep) (fun _ _ _ c _ => Some c))) xo pfeed pdists 0 ["old"; "x"]%string [] s.
Proof.
  destruct Build_props.sample_ok as (A1 & A2 & A3 & A4 & A5).
  pose proof (C85_file_and_feed_to_driven_ways Z nat 0%Z 2 (fun _ => 1) (fun _ => false) (fun _ => false) (fun r => OsmRead_model.relsOf (OsmRead_model.wayRels r)) (fun id _ => Some id) (OsmRead_props.hasTag "railway" "station") (fun _ => false) (fun _ => false)
    (fun a b => Z.abs (a - b) <=? 1)%Z (fun g _ => OsmGraph_model.nodes g) (@OsmGraph_model.nodes Z)
    Snap_props.lhav 1%Z 5%Z Z.add Snap_props.lproj (fun _ _ _ => false) 5 5%Z Nat.eqb (fun a b => negb (a =? b)) (fun _ => false) (fun a _ => a) Snap_props.nearest (fun l => l) Build_props.zcands [10%Z]
    Build_props.zlen (fun l => l) (fun _ => 10%Q) 1%Q (fun x => x) 2%Q 5%Q 1%Q (fun g => map (fun n => (n, true)) (OsmGraph_model.nodes g))
    Build_props.sampleCfg Build_props.sNodes Build_props.sWays Build_props.sRels [OsmRead_model.mkTok 1 OsmRead_model.TOther] 20 (OsmRead_model.mkTok 0 OsmRead_model.TOther)) as H.
  assert (B1 : forall l : list (@Snap_model.edge (OsmGraph_model.pl Z)), Permutation l l) by (intros; apply Permutation_refl).
  assert (B2 : forall l : nat, (0 < 10)%Q) by (intros; reflexivity).
  assert (B3 : forall (a : Z) m b, exists m', a :: m ++ [b] = a :: m' ++ [b]) by (intros a m b; exists m; reflexivity).
  assert (B4 : (0 < 2)%Q) by reflexivity. assert (B5 : (0 <= 5)%Q) by (vm_compute; discriminate). assert (B6 : (0 < 1)%Q) by reflexivity.
  assert (B7 : Forall (@OsmRead_spec.noNodes Z) [OsmRead_model.mkTok 1 OsmRead_model.TOther]) by (repeat constructor).
  assert (B8 : length Build_props.sNodes < 20) by (cbn; lia). assert (B9 : length Build_props.sWays < 20) by (cbn; lia). assert (B10 : length Build_props.sRels < 20) by (cbn; lia).
  assert (B11 : Build_props.sNodes <> []) by discriminate. assert (B12 : Build_props.sWays <> []) by discriminate.
  destruct (H Snap_props.nearest_pick B1 Build_props.zcands_ok Build_props.zlen_pos B2 B4 B5 B6 B3 OsmGraph_props.ex_round A1 A2 A3 B7 B11 B12 B8 B9 B10 A4 A5) as (b & G & E & K). clear H.
  destruct (C85_case false) as (Nb & CG & Ca & FK & TH & Cz). destruct (zW_shows b E) as (_ & LF). destruct C78_case as (_ & _ & IL & IS & _).
  assert (Cl : exists st fo, clusterTrips nat Nat.eqb 0%Z string xrepl xo (mkC _ xL xS []) pfeed [0; 0; 0; 0; 1; 1; 1; 1] = Some (st, fo, [[]; []])) by (eexists _, _; vm_compute; reflexivity).
  destruct Cl as (st & fo & Cl). assert (Dn : forall p : list (cstep nat), In p [[]; []] -> p = []) by (intros p [<- |[<- |[]]]; reflexivity).
  destruct (K LF nat (option Z) string (yW false) zAt (fun _ _ => yStep) (fun _ _ _ c _ => Some c) _ _ _ _ _ _ _ _ _ _ xcomp xrepl xops xL xS xo pfeed pdists 240%Z
    (yW_routes false b E) (yW_searching false Nb) (yW_library false) CG eq_refl eq_refl FK TH IL IS _ st fo _ Cl Dn (alt 60) 0 ["old"; "x"]%string []) as (ths & s & B & Sh).
  assert (B' : ybuild false = Some ([[]; []], ths, s)) by exact B. exists b, G, ths, s. split; [exact E|]. split; [exact B|]. apply Sh. rewrite B' in Cz. cbv beta iota delta [yview] in Cz. injection Cz as -> _. intros p [<- |[<- |[]]]; reflexivity.
Qed.
