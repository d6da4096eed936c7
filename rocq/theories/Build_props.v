(** C76, C77: the network that is built from an OSM file. *)
From Coq Require Import Ascii String List Arith NArith ZArith QArith Bool Lia Lqa Permutation.
From Verif Require Import OsmGraph_model OsmGraph_spec Weights_spec Gaps_model Restrictor_model Restrictor_spec Finish_model Finish_spec Build_model Build_spec Build_proofs.
From Verif Require OsmRead_model OsmRead_spec OsmRead_proofs OsmRead_props Snap_model Snap_spec Snap_props OsmGraph_props.
Import ListNotations.
Open Scope nat_scope.
Open Scope list_scope.

(** C76: for every well-formed file the reading succeeds; the network is the finished form of a
    graph that carries, piece by piece, the edges of the graph that was read from the file,
    its nodes have the positions and station infos that were read.  [s0]: the nodes after
    reading; [G]: the graph before it is collapsed. *)
Theorem C76_network : forall (P SI : Type) (origin : P) E level oneway onewayrev linesOf (statInfo : nat -> list (string * string) -> option SI) station blocker turnCycle
    close near order hav half five plus project sharpAt maxSnapLevel maxBlockDistance simiEq simiLow noTrack takeTrack pick ord cands ds
    len simplify speed corFac fl sp ec nl meets c (ns ws rs : list (@OsmRead_spec.elem P)) pre n c0,
  (* Snapping: the queue gives every candidate, sorting loses none, the grid gives edges that are there *)
  (forall l, match pick l with None => l = [] | Some (c, r) => Permutation l (c :: r) end) -> (forall l, Permutation (ord l) l) ->
  (forall (s : @Snap_model.st P SI (pl P)) p d, Snap_spec.Ok s -> NoDup (cands s p d) /\ forall c, In c (cands s p d) -> Snap_spec.present s c) ->
  (* lengths, speeds and options *)
  (forall l, (0 <= len l)%Q) -> (forall l, (0 < speed l)%Q) -> (0 < sp)%Q -> (0 <= ec)%Q -> (0 < nl)%Q ->
  (forall a m b, exists m', simplify (a :: m ++ [b]) = a :: m' ++ [b]) -> rounding fl ->
  (* the file *)
  Forall OsmRead_spec.nodeElem ns -> Forall OsmRead_spec.wayElem ws -> Forall OsmRead_spec.relElem rs -> Forall OsmRead_spec.noNodes pre -> ns <> [] -> ws <> [] ->
  length ns < n -> length ws < n -> length rs < n -> NoDup (map OsmRead_spec.idOf ns) -> (forall e m, In e rs -> In m (OsmRead_spec.wayMembers e) -> fst m <> 0) ->
  exists b r rules wl g O s0 station0 G,
    build origin E level oneway onewayrev linesOf statInfo station blocker turnCycle close near order hav half five plus project sharpAt maxSnapLevel maxBlockDistance
      simiEq simiLow noTrack takeTrack pick ord cands ds len simplify speed corFac fl sp ec nl meets c n
      (OsmRead_model.mkXml c0 (pre ++ OsmRead_spec.text ns ++ OsmRead_spec.text ws ++ OsmRead_spec.text rs)) = Some b /\
    file_read c ns ws rs level oneway onewayrev linesOf statInfo station blocker turnCycle r rules wl g O s0 /\
    (forall m, station0 m = true <-> exists i, OsmRead_model.pState (OsmRead_model.ngPay s0 m) = OsmRead_model.Station i) /\
    nodes_keep noTrack takeTrack origin s0 (bPos b) (bInfo b) (bTurn b) /\
    carries (fun m x => close (read_at origin s0 x) (read_at origin s0 m)) station0 (bStation b) rules g (OsmRead_model.ngSize s0) G /\
    finished (bPos b) (bStation b) (bTurn b) len simplify speed sp ec nl G (net (bNet b)) /\
    areas (fun l => speed l / corFac)%Q fl G (net (bNet b)) (compOf (comps (bNet b))) (maxs (bNet b)) (num (bNet b)).
Proof.
  intros P SI origin E level oneway onewayrev linesOf statInfo station blocker turnCycle close near order hav half five plus project sharpAt mL mB simiEq simiLow noTrack takeTrack pick ord cands ds
    len simplify speed corFac fl sp ec nl meets c ns ws rs pre n c0 Hpick Hord Hcands L0 V0 Sp Ec Nl En Rd Hns Hws Hrs Hpre Hns0 Hws0 Hn1 Hn2 Hn3 Hnd Hm.
  destruct (file_start (SI := SI) E c ns ws rs pre n c0 level oneway onewayrev linesOf statInfo station blocker turnCycle Hns Hws Hrs Hpre Hns0 Hws0 Hn1 Hn2 Hn3 Hnd Hm)
    as (r & wl & g & ndl & O & Er & Fr & Rb & Ho).
  set (s0 := OsmRead_model.readNodes statInfo station blocker turnCycle g ndl) in *.
  destruct (buildFrom_ok origin close near order hav half five plus project sharpAt mL mB simiEq simiLow noTrack takeTrack pick ord cands ds len simplify speed corFac fl sp ec nl meets
    Hpick Hord Hcands L0 V0 Sp Ec Nl En Rd r g s0 Rb Ho) as (b & s2 & Eb & O2 & K2 & _ & _ & Ca & Fi & Ar & (E1 & E2 & E3 & E4 & _) & _).
  exists b, r, (OsmRead_model.rests r), wl, g, O, s0, (hasInfo s0), (fromSnap (fixGaps P (hasInfo s0) (fun a b => close (posOf origin s0 b) (posOf origin s0 a)) (near (readGraph r g (OsmRead_model.ngSize s0))) (readGraph r g (OsmRead_model.ngSize s0)) (order (readGraph r g (OsmRead_model.ngSize s0)))) (OsmRead_model.ngSize s0) s2).
  split; [unfold build; rewrite Er; exact Eb|]. split; [exact Fr|]. split; [intros m; apply hasInfo_iff|].
  split; [rewrite E1, E3, E4; eapply nodes_kept; eauto|].
  rewrite E1, E2, E3. auto.
Qed.
Print Assumptions C76_network.

(** ** A sample: a street 1 - 2 (way 11) that goes on as 2 - 3 (way 12) and branches off to 4
    (way 13), a street 6 - 7 (way 14) whose end 6 is a metre from 3, and a station 5 beside
    way 11.  One must not go on from way 11 to way 12. *)
Definition sampleCfg : @OsmRead_model.cfg Z :=
  OsmRead_model.mkCfg (fun _ => true) (fun _ _ => false)
    (fun _ => true) (fun k => String.eqb k "railway"%string) (fun _ => true)
    (OsmRead_props.hasTag "railway" "station") (fun _ => false) (OsmRead_props.hasTag "railway" "rail") (fun _ => false)
    (fun a => if OsmRead_props.hasTag "type" "restriction" a then 3%N else 0%N) (fun _ => 0%N)
    (fun _ => false) (OsmRead_props.hasTag "restriction" "no_left_turn") (fun _ => false) (fun _ => false).
Notation el h b := (OsmRead_spec.mkElem h b).
Notation tg3 k v := (OsmRead_model.mkTok 3 (OsmRead_model.TTag k%string v%string)).
Notation nd3 r := (OsmRead_model.mkTok 3 (OsmRead_model.TNd r)).
Definition sNodes : list (@OsmRead_spec.elem Z) :=
  [el (OsmRead_model.TNode 1 0%Z) []; el (OsmRead_model.TNode 2 100%Z) []; el (OsmRead_model.TNode 3 200%Z) [];
   el (OsmRead_model.TNode 4 150%Z) []; el (OsmRead_model.TNode 5 40%Z) [tg3 "railway" "station"]; el (OsmRead_model.TNode 6 201%Z) []; el (OsmRead_model.TNode 7 300%Z) []].
Definition sWays : list (@OsmRead_spec.elem Z) :=
  [el (OsmRead_model.TWay 11) [nd3 1; nd3 2; tg3 "railway" "rail"]; el (OsmRead_model.TWay 12) [nd3 2; nd3 3; tg3 "railway" "rail"];
   el (OsmRead_model.TWay 13) [nd3 2; nd3 4; tg3 "railway" "rail"]; el (OsmRead_model.TWay 14) [nd3 6; nd3 7; tg3 "railway" "rail"]].
Definition sRels : list (@OsmRead_spec.elem Z) :=
  [el (OsmRead_model.TRel 22) [tg3 "type" "restriction"; tg3 "restriction" "no_left_turn"; OsmRead_model.mkTok 3 (OsmRead_model.TMember OsmRead_model.MWay 11 "from"%string);
     OsmRead_model.mkTok 3 (OsmRead_model.TMember OsmRead_model.MWay 12 "to"%string); OsmRead_model.mkTok 3 (OsmRead_model.TMember OsmRead_model.MNode 2 "via"%string)]].
Example sample_ok : Forall OsmRead_spec.nodeElem sNodes /\ Forall OsmRead_spec.wayElem sWays /\ Forall OsmRead_spec.relElem sRels /\
  NoDup (map OsmRead_spec.idOf sNodes) /\ (forall e m, In e sRels -> In m (OsmRead_spec.wayMembers e) -> fst m <> 0).
Proof.
  split; [OsmRead_props.elems|]. split; [OsmRead_props.elems|]. split; [OsmRead_props.elems|].
  split; [repeat constructor; cbn; intuition discriminate|]. intros e m [<- | []]; cbn; intuition (subst; discriminate).
Qed.
Definition zcands (s : @Snap_model.st Z nat (pl Z)) (p d : Z) : list nat :=
  map Snap_model.eId (filter (fun e => Snap_props.lhav p (Snap_props.lproj (Snap_model.geo s (Snap_model.eFrom e)) p (Snap_model.geo s (Snap_model.eTo e))) <=? d)%Z (Snap_model.edges s)).
Fixpoint zlen (l : list Z) : Q := match l with a :: r => match r with b :: _ => inject_Z (Z.abs (a - b)) + zlen r | [] => 0 end | [] => 0 end%Q.
Definition sBuild : option (@built Z nat) :=
  build 0%Z 2 (fun _ => 1) (fun _ => false) (fun _ => false) (fun r => OsmRead_model.relsOf (OsmRead_model.wayRels r)) (fun id _ => Some id) (OsmRead_props.hasTag "railway" "station") (fun _ => false) (fun _ => false)
    (fun a b => Z.abs (a - b) <=? 1)%Z (fun g _ => nodes g) (@nodes Z)
    Snap_props.lhav 1 5 Z.add Snap_props.lproj (fun _ _ _ => false) 5 5 Nat.eqb (fun a b => negb (a =? b)) (fun _ => false) (fun a _ => a) Snap_props.nearest (fun l => l) zcands [10%Z]
    zlen (fun l => l) (fun _ => 10%Q) 1%Q (fun x => x) 2%Q 5%Q 1%Q (fun g => map (fun n => (n, true)) (nodes g))
    sampleCfg 20 (OsmRead_model.mkXml (OsmRead_model.mkTok 0 OsmRead_model.TOther) ([OsmRead_model.mkTok 1 OsmRead_model.TOther] ++ OsmRead_spec.text sNodes ++ OsmRead_spec.text sWays ++ OsmRead_spec.text sRels)).
Example zcands_ok : forall (s : @Snap_model.st Z nat (pl Z)) p d, Snap_spec.Ok s -> NoDup (zcands s p d) /\ forall c, In c (zcands s p d) -> Snap_spec.present s c.
Proof.
  intros s p d H. split.
  - unfold zcands. apply OsmGraph_proofs.NoDup_map_filter. apply H.
  - intros c I. unfold zcands in I. apply in_map_iff in I. destruct I as (e & <- & I). apply filter_In in I. unfold Snap_spec.present. apply in_map. tauto.
Qed.
Example zlen_pos : forall l, (0 <= zlen l)%Q.
Proof.
  induction l as [|a [|b r] IH]; cbn [zlen]; try lra. assert (0 <= inject_Z (Z.abs (a - b)))%Q by (change 0%Q with (inject_Z 0); rewrite <- Zle_Qle; lia). cbn [zlen] in IH. lra.
Qed.
(** The gap between 3 and 6 is closed (graph nodes 2 and 4, edge 5 - 2), the station is put on the
    street (graph node 7), the rule is at graph node 1 and names the piece 7 - 1 (edge 9). *)
Example C76_sample : exists b, sBuild = Some b /\
  nodes (net (bNet b)) = [0; 1; 2; 3; 5; 6; 7] /\
  map (fun e => (from e, to e, OsmGraph_model.restr (ePl e), cost (ePl e), bNo b e)) (edges (net (bNet b))) =
    [(1, 2, true, 100%N, 1); (1, 3, false, 50%N, 2); (5, 2, false, 100%N, 7); (0, 7, true, 40%N, 8); (7, 1, true, 60%N, 9);
     (7, 0, true, 40%N, 10); (2, 1, true, 100%N, 11); (3, 1, false, 50%N, 13); (2, 5, false, 100%N, 13); (1, 7, true, 60%N, 12)] /\
  num (bNet b) = 1 /\ map (bInfo b) [4; 6; 7] = [None; Some 5; Some 5] /\ map (bPos b) [0; 6; 7] = [0; 40; 40]%Z /\ rNeg (bTable b) 1 = [(9, Some 1)].
Proof. eexists. split; [vm_compute; reflexivity|]. vm_compute. auto 7. Qed.
Example C76_sample_ok : exists b r rules wl g O s0 station0 G, sBuild = Some b /\
  file_read sampleCfg sNodes sWays sRels (fun _ => 1) (fun _ => false) (fun _ => false) (fun r => OsmRead_model.relsOf (OsmRead_model.wayRels r)) (fun id _ => Some id)
    (OsmRead_props.hasTag "railway" "station") (fun _ => false) (fun _ => false) r rules wl g O s0 /\
  carries (fun m x => Z.abs (read_at 0%Z s0 x - read_at 0%Z s0 m) <=? 1)%Z station0 (bStation b) rules g (OsmRead_model.ngSize s0) G /\
  finished (bPos b) (bStation b) (bTurn b) zlen (fun l => l) (fun _ => 10%Q) 2%Q 5%Q 1%Q G (net (bNet b)).
Proof.
  destruct sample_ok as (A1 & A2 & A3 & A4 & A5).
  pose proof (C76_network Z nat 0%Z 2 (fun _ => 1) (fun _ => false) (fun _ => false) (fun r => OsmRead_model.relsOf (OsmRead_model.wayRels r)) (fun id _ => Some id) (OsmRead_props.hasTag "railway" "station") (fun _ => false) (fun _ => false)
    (fun a b => Z.abs (a - b) <=? 1)%Z (fun g _ => nodes g) (@nodes Z)
    Snap_props.lhav 1%Z 5%Z Z.add Snap_props.lproj (fun _ _ _ => false) 5 5%Z Nat.eqb (fun a b => negb (a =? b)) (fun _ => false) (fun a _ => a) Snap_props.nearest (fun l => l) zcands [10%Z]
    zlen (fun l => l) (fun _ => 10%Q) 1%Q (fun x => x) 2%Q 5%Q 1%Q (fun g => map (fun n => (n, true)) (nodes g))
    sampleCfg sNodes sWays sRels [OsmRead_model.mkTok 1 OsmRead_model.TOther] 20 (OsmRead_model.mkTok 0 OsmRead_model.TOther)) as H.
  assert (B1 : forall l : list (@Snap_model.edge (pl Z)), Permutation l l) by (intros; apply Permutation_refl).
  assert (B2 : forall l : nat, (0 < 10)%Q) by (intros; lra).
  assert (B3 : forall (a : Z) m b, exists m', a :: m ++ [b] = a :: m' ++ [b]) by (intros a m b; exists m; reflexivity).
  assert (B4 : (0 < 2 /\ 0 <= 5 /\ 0 < 1)%Q) by (repeat split; lra). destruct B4 as (B4 & B5 & B6).
  assert (B7 : Forall (@OsmRead_spec.noNodes Z) [OsmRead_model.mkTok 1 OsmRead_model.TOther]) by (repeat constructor).
  assert (B8 : length sNodes < 20) by (cbn; lia). assert (B9 : length sWays < 20) by (cbn; lia). assert (B10 : length sRels < 20) by (cbn; lia).
  assert (B11 : sNodes <> []) by discriminate. assert (B12 : sWays <> []) by discriminate.
  destruct (H Snap_props.nearest_pick B1 zcands_ok zlen_pos B2 B4 B5 B6 B3 OsmGraph_props.ex_round A1 A2 A3 B7 B11 B12 B8 B9 B10 A4 A5) as (b & r & rules & wl & g & O & s0 & st0 & G & E & F & _ & _ & C & D & _).
  exists b, r, rules, wl, g, O, s0, st0, G. split; [exact E|]. auto.
Qed.
