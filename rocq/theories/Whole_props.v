(** C78: from an OSM file and a feed to the shapes. *)
From Coq Require Import Ascii String List Arith NArith ZArith QArith Bool Lia Permutation.
From Verif Require Import HopCache_model TripTrie_model TripTrie_spec Simi_model Router_model Router_spec Router_props Shapes_model Shapes_spec Shapes_props
  Cluster_model Cluster_spec Cluster_props Workers_model Workers_props Pipeline_model Pipeline_spec Pipeline_props Whole_spec Whole_proofs.
From Verif Require OsmRead_model OsmRead_spec OsmRead_props OsmGraph_model OsmGraph_spec OsmGraph_props Finish_model Finish_spec Snap_model Snap_spec Snap_props Build_model Build_spec Build_props Weights_spec.
Import ListNotations.
Open Scope nat_scope.
Open Scope list_scope.

(** C78: for every well-formed OSM file the network is built, and shapes that serve a trip in it (as in C58, C79)
    lead along edges that are made of wanted ways of the file. *)
Theorem C78_shapes_follow_streets : forall (P SI : Type) (origin : P) E level oneway onewayrev linesOf (statInfo : nat -> list (string * string) -> option SI) station blocker turnCycle
    close near order hav half five plus project sharpAt maxSnapLevel maxBlockDistance simiEq simiLow noTrack takeTrack pick ord cands ds
    len simplify speed corFac fl sp ec nl meets c (ns ws rs : list (@OsmRead_spec.elem P)) pre n c0,
  (* as in C76 *)
  (forall l, match pick l with None => l = [] | Some (c, r) => Permutation l (c :: r) end) -> (forall l, Permutation (ord l) l) ->
  (forall (s : @Snap_model.st P SI (OsmGraph_model.pl P)) p d, Snap_spec.Ok s -> NoDup (cands s p d) /\ forall c, In c (cands s p d) -> Snap_spec.present s c) ->
  (forall l, (0 <= len l)%Q) -> (forall l, (0 < speed l)%Q) -> (0 < sp)%Q -> (0 <= ec)%Q -> (0 < nl)%Q ->
  (forall a m b, exists m', simplify (a :: m ++ [b]) = a :: m' ++ [b]) -> OsmGraph_spec.rounding fl ->
  Forall OsmRead_spec.nodeElem ns -> Forall OsmRead_spec.wayElem ws -> Forall OsmRead_spec.relElem rs -> Forall OsmRead_spec.noNodes pre -> ns <> [] -> ws <> [] ->
  length ns < n -> length ws < n -> length rs < n -> NoDup (map OsmRead_spec.idOf ns) -> (forall e m, In e rs -> In m (OsmRead_spec.wayMembers e) -> fst m <> 0) ->
  exists b G,
    Build_model.build origin E level oneway onewayrev linesOf statInfo station blocker turnCycle close near order hav half five plus project sharpAt maxSnapLevel maxBlockDistance
      simiEq simiLow noTrack takeTrack pick ord cands ds len simplify speed corFac fl sp ec nl meets c n
      (OsmRead_model.mkXml c0 (pre ++ OsmRead_spec.text ns ++ OsmRead_spec.text ws ++ OsmRead_spec.text rs)) = Some b /\
  (loops_fit b -> forall (pos C : Type) (W : world pos C P) posAt, shows b W -> library_ok W posAt ->
    world_ok W posAt /\ forall t ps ds, shape_for W posAt t ps ds -> street_shape b c ns ws rs level oneway onewayrev W posAt G t ps ds).
Proof.
  intros P SI origin E level oneway onewayrev linesOf statInfo station blocker turnCycle close near order hav half five plus project sharpAt mL mB simiEq simiLow noTrack takeTrack pick ord cands ds
    len simplify speed corFac fl sp ec nl meets c ns ws rs pre n c0 Hpick Hord Hcands L0 V0 Sp Ec Nl En Rd Hns Hws Hrs Hpre Hns0 Hws0 Hn1 Hn2 Hn3 Hnd Hm.
  destruct (Build_props.C76_network P SI origin E level oneway onewayrev linesOf statInfo station blocker turnCycle close near order hav half five plus project sharpAt mL mB simiEq simiLow noTrack takeTrack pick ord cands ds
    len simplify speed corFac fl sp ec nl meets c ns ws rs pre n c0 Hpick Hord Hcands L0 V0 Sp Ec Nl En Rd Hns Hws Hrs Hpre Hns0 Hws0 Hn1 Hn2 Hn3 Hnd Hm)
    as (b & r & rules & wl & g & O & s0 & st0 & G & Eb & Fr & _ & _ & Ca & Fi & _).
  exists b, G. split; [exact Eb|]. intros Lf pos C W posAt SW LB.
  assert (Fits : forall k e, edge_no b k e -> OsmGraph_spec.fits (Build_model.bPos b) e).
  { intros k e Ek. destruct (Nat.eq_dec (OsmGraph_model.from e) (OsmGraph_model.to e)) as [Ft|Ft].
    - destruct (Nat.eq_dec (OsmGraph_model.oneWay (OsmGraph_model.ePl e)) 0) as [Ow|Ow]; [apply (Finish_spec.fi_fits _ _ _ _ _ _ _ _ _ _ _ Fi e (nth_error_In _ _ Ek)); auto|now apply (Lf k)].
    - apply (Finish_spec.fi_fits _ _ _ _ _ _ _ _ _ _ _ Fi e (nth_error_In _ _ Ek)); auto. }
  split; [exact (world_of b W posAt SW Fits LB)|].
  intros t ps ds' (cands' & hops & parts & By). exists cands', hops, parts. split; [exact By|]. intros h k Ih Ik.
  destruct By as (_ & _ & Se & _). rewrite Forall_forall in Se. destruct (hop_edges b W SW h k (Se h Ih) Ik) as (e & Ek).
  exists e. split; [exact Ek|]. destruct (Finish_spec.fi_edges _ _ _ _ _ _ _ _ _ _ _ Fi e (nth_error_In _ _ Ek)) as [T|(tr & T & _)]; [now left|right]. exists tr. split; [exact T|].
  intros x Ix. destruct (Build_spec.fr_graph _ _ _ _ _ _ _ _ _ _ _ _ _ _ _ _ _ _ Fr) as (hup & has & _ & _ & Go).
  apply (piece_way c ns ws rs level oneway onewayrev (linesOf r) hup has _ _ _ _ wl g O _ G (Build_spec.fr_ways _ _ _ _ _ _ _ _ _ _ _ _ _ _ _ _ _ _ Fr) Go Ca).
  exact (Finish_spec.tr_in _ _ _ _ _ T x Ix).
Qed.
Print Assumptions C78_shapes_follow_streets.

(** C78: for every well-formed OSM file the network is built; for every feed, every schedule of
    the clustering and of the shape workers, and every search on this network that yields paths, the
    shapes of the selected trips serve their stops, and lead along edges of the network that
    are made of wanted ways of the file. *)
Theorem C78_file_and_feed_to_shapes : forall (P SI : Type) (origin : P) E level oneway onewayrev linesOf (statInfo : nat -> list (string * string) -> option SI) station blocker turnCycle
    close near order hav half five plus project sharpAt maxSnapLevel maxBlockDistance simiEq simiLow noTrack takeTrack pick ord cands ds
    len simplify speed corFac fl sp ec nl meets c (ns ws rs : list (@OsmRead_spec.elem P)) pre n c0,
  (* as in C76 *)
  (forall l, match pick l with None => l = [] | Some (c, r) => Permutation l (c :: r) end) -> (forall l, Permutation (ord l) l) ->
  (forall (s : @Snap_model.st P SI (OsmGraph_model.pl P)) p d, Snap_spec.Ok s -> NoDup (cands s p d) /\ forall c, In c (cands s p d) -> Snap_spec.present s c) ->
  (forall l, (0 <= len l)%Q) -> (forall l, (0 < speed l)%Q) -> (0 < sp)%Q -> (0 <= ec)%Q -> (0 < nl)%Q ->
  (forall a m b, exists m', simplify (a :: m ++ [b]) = a :: m' ++ [b]) -> OsmGraph_spec.rounding fl ->
  Forall OsmRead_spec.nodeElem ns -> Forall OsmRead_spec.wayElem ws -> Forall OsmRead_spec.relElem rs -> Forall OsmRead_spec.noNodes pre -> ns <> [] -> ws <> [] ->
  length ns < n -> length ws < n -> length rs < n -> NoDup (map OsmRead_spec.idOf ns) -> (forall e m, In e rs -> In m (OsmRead_spec.wayMembers e) -> fst m <> 0) ->
  exists b G,
    Build_model.build origin E level oneway onewayrev linesOf statInfo station blocker turnCycle close near order hav half five plus project sharpAt maxSnapLevel maxBlockDistance
      simiEq simiLow noTrack takeTrack pick ord cands ds len simplify speed corFac fl sp ec nl meets c n
      (OsmRead_model.mkXml c0 (pre ++ OsmRead_spec.text ns ++ OsmRead_spec.text ws ++ OsmRead_spec.text rs)) = Some b /\
  (* a world around this network, and a feed *)
  (loops_fit b ->
  forall (pos C regex : Type) (W : world pos C P) posAt (compile : string -> option regex) replace ops L S o f dists M,
  shows b W -> library_ok W posAt -> feed_ok W o f dists M -> 0 < oThreads o ->
  In L (fst (runNorm regex compile replace [] ops)) -> In S (fst (runNorm regex compile replace [] ops)) ->
  forall cs st' fo rest, clusterTrips pos (Pipeline_model.near _ _ _ W) (emptySecs _ _ _ W) regex replace o (mkC _ L S []) f cs = Some (st', fo, rest) ->
  (forall p, In p rest -> p = []) ->
  forall ws' cnt ids store, exists ths s, build W replace o (mkC _ L S []) f cs ws' cnt ids store dists = Some (rest, ths, s) /\
    ((forall p, In p ths -> p = PDone _ _) -> shaped (street_shape b c ns ws rs level oneway onewayrev W posAt G) o f dists cnt ids store s)).
Proof.
  intros P SI origin E level oneway onewayrev linesOf statInfo station blocker turnCycle close near order hav half five plus project sharpAt mL mB simiEq simiLow noTrack takeTrack pick ord cands ds
    len simplify speed corFac fl sp ec nl meets c ns ws rs pre n c0 Hpick Hord Hcands L0 V0 Sp Ec Nl En Rd Hns Hws Hrs Hpre Hns0 Hws0 Hn1 Hn2 Hn3 Hnd Hm.
  destruct (C78_shapes_follow_streets P SI origin E level oneway onewayrev linesOf statInfo station blocker turnCycle close near order hav half five plus project sharpAt mL mB simiEq simiLow noTrack takeTrack pick ord cands ds
    len simplify speed corFac fl sp ec nl meets c ns ws rs pre n c0 Hpick Hord Hcands L0 V0 Sp Ec Nl En Rd Hns Hws Hrs Hpre Hns0 Hws0 Hn1 Hn2 Hn3 Hnd Hm)
    as (b & G & Eb & K).
  exists b, G. split; [exact Eb|]. intros Lf pos C regex W posAt compile replace ops L S o f dists M SW LB FK TH IL IS cs st' fo rest Cl Dn ws' cnt ids store.
  destruct (K Lf pos C W posAt SW LB) as [WK St].
  destruct (C58_feed_to_shapes pos C P regex W posAt compile replace ops L S o f dists M WK FK TH IL IS cs st' fo rest Cl Dn ws' cnt ids store) as (ths & s & B & Sh).
  exists ths, s. split; [exact B|]. intros D. exact (shaped_imp _ _ (shape_for W posAt) _ St _ _ _ _ _ _ _ (Sh D)).
Qed.
Print Assumptions C78_file_and_feed_to_shapes.

(** ** The sample of C76 with four stops beside its streets *)
Definition zEdges : list (OsmGraph_model.edge Z) := match Build_props.sBuild with Some b => OsmGraph_model.edges (Finish_model.net (Build_model.bNet b)) | None => [] end.
Definition zPos : nat -> Z := match Build_props.sBuild with Some b => Build_model.bPos b | None => fun _ => 0%Z end.
(** A search: the first path without more than [fuel] further edges. *)
Fixpoint walk (es : list (OsmGraph_model.edge Z)) (fuel a z : nat) : option (list nat) :=
  match nth_error es a with
  | None => None
  | Some x =>
      if a =? z then Some [a]
      else match fuel with
           | 0 => None
           | S f => fold_right (fun j acc => match nth_error es j with
                                             | Some y => if OsmGraph_model.to x =? OsmGraph_model.from y then match walk es f j z with Some p => Some (a :: p) | None => acc end else acc
                                             | None => acc end) None (seq 0 (length es))
           end
  end.
Lemma walk_ok : forall es fuel a z p, walk es fuel a z = Some p ->
  (forall k, In k p -> exists e, nth_error es k = Some e) /\
  (forall l i j r, p = l ++ i :: j :: r -> exists x y, nth_error es i = Some x /\ nth_error es j = Some y /\ OsmGraph_model.to x = OsmGraph_model.from y) /\ first_is p a /\ last_is p z.
Proof.
  intros es. induction fuel as [|fuel IH]; intros a z p E; cbn in E; (destruct (nth_error es a) as [x|] eqn:Ex; [|discriminate]); (destruct (Nat.eqb_spec a z) as [->|N];
    [injection E as <-; split; [intros k [<- | []]; eauto|]; split; [intros l i j r X; exfalso; destruct l as [|? [|? ?]]; discriminate|]; split; [now exists []|now exists []]|]); [discriminate|].
  assert (K : forall js, fold_right (fun j acc => match nth_error es j with
                                             | Some y => if OsmGraph_model.to x =? OsmGraph_model.from y then match walk es fuel j z with Some p => Some (a :: p) | None => acc end else acc
                                             | None => acc end) None js = Some p -> exists j y q, nth_error es j = Some y /\ OsmGraph_model.to x = OsmGraph_model.from y /\ walk es fuel j z = Some q /\ p = a :: q).
  { induction js as [|j js IHj]; [discriminate|]. cbn. destruct (nth_error es j) as [y|] eqn:Ey; [|exact IHj]. destruct (Nat.eqb_spec (OsmGraph_model.to x) (OsmGraph_model.from y)) as [F|F]; [|exact IHj].
    destruct (walk es fuel j z) as [q|] eqn:Eq; [|exact IHj]. intros X. injection X as <-. exists j, y, q. auto. }
  destruct (K _ E) as (j & y & q & Ey & F & Eq & ->). destruct (IH j z q Eq) as (A & B & (t & Ft) & (t' & Lt)). split; [intros k [<- | I]; eauto|]. split; [|split; [now exists q|exists (a :: t'); now rewrite Lt]].
  intros l i j' r X. destruct l as [|i0 l]; cbn in X; injection X as <- X; [|exact (B l i j' r X)]. rewrite Ft in X. injection X as <- _. exists x, y. auto.
Qed.
Definition zPath (a z : nat) (lim : Z) : Z * list nat := match walk zEdges 2 a z with Some p => ((40 * Z.of_nat (length p))%Z, rev p) | None => (lim, []) end.
Definition zEdge {A} (f : OsmGraph_model.edge Z -> A) (d : A) (k : nat) : A := match nth_error zEdges k with Some e => f e | None => d end.
Definition zAt (l : list Z) (q : Q) : Z := if Qlt_le_dec q 1 then hd 0%Z l else last l 0%Z.
Definition zSeg (l : list Z) (a b : Q) : list Z := [zAt l a; zAt l b].
Definition zW : world nat (option Z) Z := mkW nat (option Z) Z
  Nat.eqb 0%Z
  xlt xadd None (fun q => Some (Qround.Qfloor q)) (fun z => Some z)
  (zEdge (@OsmGraph_model.from Z) 0) (zEdge (@OsmGraph_model.to Z) 0) (fun _ => 3) (fun n => n) (fun n => n) (fun n => pred n) (fun n => pred n) (zEdge (fun e => OsmGraph_model.oneWay (OsmGraph_model.ePl e)) 0)
  (fun _ => 10%Q) (zEdge (fun e => OsmGraph_model.rev_ (OsmGraph_model.ePl e)) false) (zEdge (fun e => OsmGraph_model.geom (OsmGraph_model.ePl e)) None)
  (zEdge (fun e => zPos (OsmGraph_model.from e)) 0%Z) (zEdge (fun e => zPos (OsmGraph_model.to e)) 0%Z)
  (fun _ => 1) (fun _ => 1) (fun _ => [])
  (fun l => l) 100 50 7 3 20 true (fun q => q)
  (fun _ _ => 10%Q) (fun _ _ => (1 # 2)%Q) (fun s => Z.of_nat (sPos _ s))
  (fun s => []) (fun s => match sPos _ s with 1 => [3] | 2 => [0] | 3 => [8] | _ => [1] end)
  (fun _ _ _ c _ _ => Some c) (fun _ _ _ => 500%Z)
  (fun _ _ _ => 40%Z) (fun _ _ => zPath)
  (fun x => x) (fun l => l) (fun _ _ _ => 40%Z)
  (fun _ _ a _ lim z => zPath a z lim) (fun _ _ _ _ _ _ _ => [])
  false false true false
  0%Z zSeg (fun l => l) (fun a b => inject_Z (Z.abs (a - b))) (fun q => q) (fun q => q) 0%N.
Example zW_library : library_ok zW zAt.
Proof.
  constructor.
  - exact xlaws.
  - reflexivity.
  - reflexivity.
  - intros [a|] [b|] X Y; try discriminate; reflexivity.
  - apply Nat.eqb_refl.
  - intros; split; auto.
  - intros s e. split; vm_compute; discriminate.
  - constructor; cbn; intros; auto; reflexivity.
  - intros p q. cbn [hav zW]. change 0%Q with (inject_Z 0). rewrite <- Zle_Qle. lia.
  - constructor; cbn [segment simplify zW].
    + intros l p q (t & ->) E. unfold zAt. destruct (Qlt_le_dec q 1) as [X|X]; [reflexivity|]. rewrite E in X. exfalso. now apply X.
    + intros l p q (t & ->) E. unfold zAt. destruct (Qlt_le_dec q 1) as [X|X]; [|apply last_last]. rewrite E in X. discriminate X.
    + intros l a b N _ _ _. exists []. split; [|left; reflexivity]. clear N. induction l; [apply sub_nil|now apply sub_skip].
    + induction l; [apply sub_nil|now apply sub_keep].
    + auto.
    + auto.
  - intros; discriminate.
Qed.
Example zW_shows : forall b, Build_props.sBuild = Some b -> shows b zW /\ loops_fit b.
Proof.
  intros b Eb. assert (Ee : zEdges = OsmGraph_model.edges (Finish_model.net (Build_model.bNet b))) by (unfold zEdges; now rewrite Eb). assert (Ep : zPos = Build_model.bPos b) by (unfold zPos; now rewrite Eb).
  split; [constructor; [constructor|]|].
  - intros k e Ek. unfold edge_no in Ek. rewrite <- Ee in Ek. cbn [eFr eTo oneWay isRev geom fromPt toPt zW]. unfold zEdge. rewrite Ek, Ep. auto 10.
  - intros k N. cbn [geom zW]. unfold zEdge. destruct (nth_error zEdges k) as [e|] eqn:Ek; [|reflexivity]. exfalso. apply (N e). unfold edge_no. now rewrite <- Ee.
  - intros tr n a z lim H. change (spath _ _ _ zW tr n a z lim) with (zPath a z lim) in *. unfold zPath in *. destruct (walk zEdges 2 a z) as [p|] eqn:Ew; [right|left; reflexivity]. cbn [snd].
    rewrite rev_involutive. destruct (walk_ok _ _ _ _ _ Ew) as (A & B & F). unfold drives, edge_no. rewrite <- Ee. auto.
  - intros k e Ek Ft _. exfalso. unfold edge_no in Ek. rewrite <- Ee in Ek. apply nth_error_In in Ek.
    assert (A : Forall (fun e => OsmGraph_model.from e <> OsmGraph_model.to e) zEdges) by (vm_compute; repeat constructor; discriminate). rewrite Forall_forall in A. exact (A e Ek Ft).
Qed.
Definition zbuild := build zW xrepl xo (mkC _ xL xS []) pfeed [0; 0; 0; 0; 1; 1; 1; 1] (alt 60) 0 ["old"; "x"]%string [] pdists.
Example zfeed_ok : feed_ok zW xo pfeed pdists 240.
Proof. destruct C58_case as (_ & [F1 F2 F3 F4] & _). constructor; auto. Qed.
Example C78_case : Build_props.sBuild <> None /\ 0 < oThreads xo /\ In xL (fst (runNorm string xcomp xrepl [] xops)) /\ In xS (fst (runNorm string xcomp xrepl [] xops)) /\
  match zbuild with
  | Some (rest, ths, s) => rest = [[]; []] /\ ths = [PDone _ _; PDone _ _] /\
      map (fun x => (tShape _ x, map Qred (tDists _ x))) (sTrips _ _ s) =
        [("shp_3_2", [0; 100; 200]); ("shp_3_3", [0; 100; 300]); ("old", [9; 9]); ("", [9]); ("shp_3_1", [0; 100]); ("", [9; 9]); ("shp_3_2", [0; 100; 200])]%string%Q /\
      map (fun x => (fst x, map (fun p => fst (fst p)) (snd x))) (sStore _ _ s) =
        [("shp_3_1", [100; 200; 200; 200]); ("shp_3_2", [0; 40; 40; 100; 100; 100; 100; 200; 200; 200]); ("shp_3_3", [0; 40; 40; 100; 100; 100; 100; 200; 200; 100; 100; 100])]%string%Z
  | None => False
  end.
Proof. split; [vm_compute; discriminate|]. split; [cbn; lia|]. split; [now left|]. split; [right; now left|]. vm_compute. repeat split. Qed.
(** The theorem applies to it: every selected trip has a shape along streets of the file. *)
Example C78_sample : exists b G ths s, Build_props.sBuild = Some b /\ zbuild = Some ([[]; []], ths, s) /\
  shaped (street_shape b Build_props.sampleCfg Build_props.sNodes Build_props.sWays Build_props.sRels (fun _ => 1) (fun _ => false) (fun _ => false) zW zAt G) xo pfeed pdists 0 ["old"; "x"]%string [] s.
Proof.
  destruct Build_props.sample_ok as (A1 & A2 & A3 & A4 & A5).
  pose proof (C78_file_and_feed_to_shapes Z nat 0%Z 2 (fun _ => 1) (fun _ => false) (fun _ => false) (fun r => OsmRead_model.relsOf (OsmRead_model.wayRels r)) (fun id _ => Some id) (OsmRead_props.hasTag "railway" "station") (fun _ => false) (fun _ => false)
    (fun a b => Z.abs (a - b) <=? 1)%Z (fun g _ => OsmGraph_model.nodes g) (@OsmGraph_model.nodes Z)
    Snap_props.lhav 1%Z 5%Z Z.add Snap_props.lproj (fun _ _ _ => false) 5 5%Z Nat.eqb (fun a b => negb (a =? b)) (fun _ => false) (fun a _ => a) Snap_props.nearest (fun l => l) Build_props.zcands [10%Z]
    Build_props.zlen (fun l => l) (fun _ => 10%Q) 1%Q (fun x => x) 2%Q 5%Q 1%Q (fun g => map (fun n => (n, true)) (OsmGraph_model.nodes g))
    Build_props.sampleCfg Build_props.sNodes Build_props.sWays Build_props.sRels [OsmRead_model.mkTok 1 OsmRead_model.TOther] 20 (OsmRead_model.mkTok 0 OsmRead_model.TOther)) as H.
  assert (B1 : forall l : list (@Snap_model.edge (OsmGraph_model.pl Z)), Permutation l l) by (intros; apply Permutation_refl).
  assert (B2 : forall l : nat, (0 < 10)%Q) by (intros; reflexivity).
  assert (B3 : forall (a : Z) m b, exists m', a :: m ++ [b] = a :: m' ++ [b]) by (intros a m b; exists m; reflexivity).
  assert (B4 : (0 < 2)%Q) by reflexivity. assert (B5 : (0 <= 5)%Q) by (vm_compute; discriminate). assert (B6 : (0 < 1)%Q) by reflexivity.
  assert (B7 : Forall (@OsmRead_spec.noNodes Z) [OsmRead_model.mkTok 1 OsmRead_model.TOther]) by (repeat constructor).
  assert (B8 : length Build_props.sNodes < 20) by (cbn; lia). assert (B9 : length Build_props.sWays < 20) by (cbn; lia). assert (B10 : length Build_props.sRels < 20) by (cbn; lia).
  assert (B11 : Build_props.sNodes <> []) by discriminate. assert (B12 : Build_props.sWays <> []) by discriminate.
  destruct (H Snap_props.nearest_pick B1 Build_props.zcands_ok Build_props.zlen_pos B2 B4 B5 B6 B3 OsmGraph_props.ex_round A1 A2 A3 B7 B11 B12 B8 B9 B10 A4 A5) as (b & G & E & K). clear H.
  destruct (zW_shows b E) as (SW & LF). destruct C78_case as (_ & TH & IL & IS & Cz).
  assert (Cl : exists st fo, clusterTrips nat Nat.eqb 0%Z string xrepl xo (mkC _ xL xS []) pfeed [0; 0; 0; 0; 1; 1; 1; 1] = Some (st, fo, [[]; []])) by (eexists _, _; vm_compute; reflexivity).
  destruct Cl as (st & fo & Cl). assert (Dn : forall p : list (cstep nat), In p [[]; []] -> p = []) by (intros p [<- |[<- |[]]]; reflexivity).
  destruct (K LF nat (option Z) string zW zAt xcomp xrepl xops xL xS xo pfeed pdists 240%Z SW zW_library zfeed_ok TH IL IS _ st fo _ Cl Dn (alt 60) 0 ["old"; "x"]%string []) as (ths & s & B & Sh).
  assert (B' : zbuild = Some ([[]; []], ths, s)) by exact B. exists b, G, ths, s. split; [exact E|]. split; [exact B|]. apply Sh. rewrite B' in Cz. destruct Cz as (_ & -> & _). intros p [<- |[<- |[]]]; reflexivity.
Qed.
