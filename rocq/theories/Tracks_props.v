(** C86: stations get the track numbers of the ways they lie on. *)
From Coq Require Import Ascii String List Arith NArith ZArith QArith Bool Lia Lqa Permutation.
From Verif Require Import OsmGraph_model OsmGraph_spec Weights_spec Gaps_model Finish_model Finish_spec Build_model Build_spec Build_proofs Attrs_model Tracks_model Tracks_spec Tracks_proofs.
From Verif Require OsmRead_model OsmRead_spec OsmRead_proofs OsmRead_props Snap_model Snap_spec Snap_props OsmGraph_props Build_props.
Import ListNotations.
Open Scope nat_scope.
Open Scope list_scope.

(** The tracks of edges: for each edge that of the last way with a track that runs along it, and
    no other entry. *)
Theorem C86_edge_tracks : forall level oneway onewayrev linesOf trackOf hup has ws, exists O tr,
  readTracks level oneway onewayrev linesOf trackOf hup has ws = (OsmRead_model.readEdges level oneway onewayrev linesOf hup has ws, tr) /\
  OsmRead_spec.GraphOf level oneway onewayrev linesOf hup has ws (OsmRead_model.readEdges level oneway onewayrev linesOf hup has ws) O /\
  NoDup (map fst tr) /\
  forall i t, In (i, t) tr <-> exists e, nth_error (OsmRead_model.gEdges (OsmRead_model.readEdges level oneway onewayrev linesOf hup has ws)) i = Some e /\
    edge_track trackOf (steps_of ws O) (OsmRead_model.eFrom e) (OsmRead_model.eTo e) t.
Proof.
  intros level oneway onewayrev linesOf trackOf hup has ws. destruct (OsmRead_proofs.graph_ok level oneway onewayrev linesOf hup has ws) as (O & G).
  destruct (edge_tracks level oneway onewayrev linesOf trackOf hup has hup has ws O (fun _ => eq_refl) (fun _ => eq_refl) G) as (tr & E & N & T). exists O, tr. auto.
Qed.
Print Assumptions C86_edge_tracks.

Lemma edge_there : forall level oneway onewayrev linesOf hup has ws g O, OsmRead_spec.GraphOf level oneway onewayrev linesOf hup has ws g O ->
  forall a b, (exists s, In s (steps_of ws O) /\ OsmRead_spec.onStep a b s) -> exists e, In e (OsmRead_model.gEdges g) /\ OsmRead_model.eFrom e = a /\ OsmRead_model.eTo e = b.
Proof.
  intros level oneway onewayrev linesOf hup has ws g O G a b (s & I & Ha & Hb). pose proof (OsmRead_spec.go_segs _ _ _ _ _ _ _ _ _ G) as F. fold (steps_of ws O) in F.
  destruct (In_nth_error _ _ I) as (k & Ek). clear I. revert k Ek. induction F as [|s' x T L (_ & H2 & H3 & e & He & Ef & Et) F IH]; intros [|k] Ek; try discriminate; cbn in Ek; [|exact (IH k Ek)].
  injection Ek as ->. exists e. split; [exact (nth_error_In _ _ He)|]. rewrite Ef, Et. cbn in H2, H3. rewrite <- H2 in Ha. rewrite <- H3 in Hb. cbn in Ha, Hb. auto.
Qed.

(** Stations: in whatever order the tracks are gone through. *)
Theorem C86_station_tracks : forall (P : Type) level oneway onewayrev linesOf trackOf hup has ws (s : @OsmRead_model.ngraph P statInfo) tr, exists O,
  OsmRead_spec.GraphOf level oneway onewayrev linesOf hup has ws (OsmRead_model.readEdges level oneway onewayrev linesOf hup has ws) O /\
  (Permutation tr (snd (readTracks level oneway onewayrev linesOf trackOf hup has ws)) ->
   tracks_given trackOf (steps_of ws O) s (writeEdgeTracks (OsmRead_model.gEdges (OsmRead_model.readEdges level oneway onewayrev linesOf hup has ws)) tr s)).
Proof.
  intros P level oneway onewayrev linesOf trackOf hup has ws s tr. destruct (C86_edge_tracks level oneway onewayrev linesOf trackOf hup has ws) as (O & tr0 & E & G & _ & T).
  exists O. split; [exact G|]. rewrite E. cbn [snd]. intros Pm. eapply tracks_written; [exact T|exact (edge_there _ _ _ _ _ _ _ _ _ G)|exact Pm].
Qed.
Print Assumptions C86_station_tracks.

(** A station without a track has one afterwards exactly if it lies on a way with a track; if the
    ways that it lies on agree, it is theirs. *)
Theorem C86_agreed : forall (P : Type) trackOf T (s s' : @OsmRead_model.ngraph P statInfo) n i, tracks_given trackOf T s s' ->
  OsmRead_model.pState (OsmRead_model.ngPay s n) = OsmRead_model.Station i -> siTrack i = ""%string ->
  exists j, OsmRead_model.pState (OsmRead_model.ngPay s' n) = OsmRead_model.Station j /\
    (siTrack j <> ""%string <-> on_tracked_way trackOf T n) /\
    forall t, on_tracked_way trackOf T n ->
      (forall x, In x T -> snd (fst (snd x)) = n \/ snd (snd (snd x)) = n -> trackOf (fst x) = ""%string \/ trackOf (fst x) = t) -> siTrack j = t.
Proof.
  intros P trackOf T s s' n i G Hi Ht. destruct (tg_station _ _ _ _ G n i Hi) as (j & Hj & _ & _ & _ & K). specialize (K Ht). exists j. split; [exact Hj|].
  assert (At : on_tracked_way trackOf T n -> track_at trackOf T n (siTrack j)) by (intros W; destruct K as [K|[_ K]]; [exact K|]; apply some_track in W; destruct W as (t & W); exfalso; exact (K t W)).
  split.
  - split; [intros N; destruct K as [K|[K _]]; [apply some_track; eauto|contradiction]|]. intros W. destruct (At W) as (a & b & _ & T1 & x & T2 & _ & _ & _ & N & _). exact N.
  - intros t W Ag. destruct (At W) as (a & b & Hn & T1 & x & T2 & E & [Ha Hb] & Et & N & _).
    destruct (Ag x) as [X|X]; [rewrite E; apply in_or_app; right; left; reflexivity|rewrite Ha, Hb; exact Hn|congruence|congruence].
Qed.
Print Assumptions C86_agreed.

(** The network of C76, built with tracks: it exists, carries the file, and its stations have the
    tracks of the ways they lie on. *)
Theorem C86_network : forall (P : Type) (origin : P) E level oneway onewayrev linesOf trackOf perm getInfo station blocker turnCycle
    close near order hav half five plus project sharpAt maxSnapLevel maxBlockDistance simiEq simiLow pick ord cands ds
    len simplify speed corFac fl sp ec nl meets c (ns ws rs : list (@OsmRead_spec.elem P)) pre n c0,
  (* the map is gone through in any order *)
  (forall l, Permutation (perm l) l) ->
  (* as in C76 *)
  (forall l, match pick l with None => l = [] | Some (c, r) => Permutation l (c :: r) end) -> (forall l, Permutation (ord l) l) ->
  (forall (s : @Snap_model.st P statInfo (pl P)) p d, Snap_spec.Ok s -> NoDup (cands s p d) /\ forall c, In c (cands s p d) -> Snap_spec.present s c) ->
  (forall l, (0 <= len l)%Q) -> (forall l, (0 < speed l)%Q) -> (0 < sp)%Q -> (0 <= ec)%Q -> (0 < nl)%Q ->
  (forall a m b, exists m', simplify (a :: m ++ [b]) = a :: m' ++ [b]) -> rounding fl ->
  Forall OsmRead_spec.nodeElem ns -> Forall OsmRead_spec.wayElem ws -> Forall OsmRead_spec.relElem rs -> Forall OsmRead_spec.noNodes pre -> ns <> [] -> ws <> [] ->
  length ns < n -> length ws < n -> length rs < n -> NoDup (map OsmRead_spec.idOf ns) -> (forall e m, In e rs -> In m (OsmRead_spec.wayMembers e) -> fst m <> 0) ->
  exists b r rules wl g O s0 s1 station0 G,
    Tracks_model.build origin E level oneway onewayrev linesOf trackOf perm getInfo station blocker turnCycle close near order hav half five plus project sharpAt maxSnapLevel maxBlockDistance
      simiEq simiLow pick ord cands ds len simplify speed corFac fl sp ec nl meets c n
      (OsmRead_model.mkXml c0 (pre ++ OsmRead_spec.text ns ++ OsmRead_spec.text ws ++ OsmRead_spec.text rs)) = Some b /\
    file_read c ns ws rs level oneway onewayrev linesOf getInfo station blocker turnCycle r rules wl g O s0 /\
    tracks_given (trackOf r) (steps_of wl O) s0 s1 /\
    (forall m, station0 m = true <-> exists i, OsmRead_model.pState (OsmRead_model.ngPay s0 m) = OsmRead_model.Station i) /\
    nodes_keep noTrack takeTrack origin s1 (bPos b) (bInfo b) (bTurn b) /\
    carries (fun m x => close (read_at origin s1 x) (read_at origin s1 m)) station0 (bStation b) rules g (OsmRead_model.ngSize s0) G /\
    finished (bPos b) (bStation b) (bTurn b) len simplify speed sp ec nl G (net (bNet b)) /\
    areas (fun l => speed l / corFac)%Q fl G (net (bNet b)) (compOf (comps (bNet b))) (maxs (bNet b)) (num (bNet b)) /\
    (* stations that were read *)
    forall m i, m < OsmRead_model.ngSize s0 -> OsmRead_model.pState (OsmRead_model.ngPay s0 m) = OsmRead_model.Station i ->
      exists j, bInfo b m = Some j /\ siName j = siName i /\ siAlt j = siAlt i /\ (siTrack i <> ""%string -> siTrack j = siTrack i) /\
        (siTrack i = ""%string -> on_tracked_way (trackOf r) (steps_of wl O) m -> track_at (trackOf r) (steps_of wl O) m (siTrack j)).
Proof.
  intros P origin E level oneway onewayrev linesOf trackOf perm getInfo station blocker turnCycle close near order hav half five plus project sharpAt mL mB simiEq simiLow pick ord cands ds
    len simplify speed corFac fl sp ec nl meets c ns ws rs pre n c0 Hperm Hpick Hord Hcands L0 V0 Sp Ec Nl En Rd Hns Hws Hrs Hpre Hns0 Hws0 Hn1 Hn2 Hn3 Hnd Hm.
  destruct (file_start (SI := statInfo) E c ns ws rs pre n c0 level oneway onewayrev linesOf getInfo station blocker turnCycle Hns Hws Hrs Hpre Hns0 Hws0 Hn1 Hn2 Hn3 Hnd Hm)
    as (r & wl & g & ndl & O & Er & Fr & Rb & Ho).
  set (x0 := OsmRead_model.mkXml c0 (pre ++ OsmRead_spec.text ns ++ OsmRead_spec.text ws ++ OsmRead_spec.text rs)) in *.
  set (s0 := OsmRead_model.readNodes getInfo station blocker turnCycle g ndl) in *.
  pose proof (box_link _ _ _ _ _ _ _ _ _ Er) as Eg. cbv beta in Eg.
  set (hup := OsmRead_model.hasHup c (boxNodes E c x0)) in *. set (has := OsmRead_model.hasBox c (boxNodes E c x0)) in *.
  (* the same id sets *)
  destruct (fr_graph _ _ _ _ _ _ _ _ _ _ _ _ _ _ _ _ _ _ Fr) as (hup' & has' & Hh & Hb & Gr).
  destruct (OsmRead_proofs.passes E c ns ws rs Hns Hws Hrs pre Hpre Hns0 Hws0 n c0 Hn2 Hn3) as (nc & nr & wc & wr & bx & rl & wl1 & x1 & x2 & Hs & _ & _ & Hbx & Hbb & _).
  assert (Ebx : boxNodes E c x0 = bx) by (unfold boxNodes, x0; cbn [OsmRead_model.cur OsmRead_model.rest]; rewrite Hs; cbn [OsmRead_model.cur OsmRead_model.rest]; rewrite Hbx; reflexivity).
  assert (Same : forall p q : bool, (p = true <-> q = true) -> p = q) by (intros [|] [|] [A B]; try reflexivity; [symmetry; apply A; reflexivity|apply B; reflexivity]).
  assert (Eh : forall id, hup' id = hup id) by (intros id; apply Same; rewrite Hh; unfold hup; rewrite Ebx; symmetry; now apply OsmRead_proofs.hasHup_ok).
  assert (Ea : forall id, has' id = has id) by (intros id; apply Same; rewrite Hb; unfold has; rewrite Ebx; symmetry; now apply OsmRead_proofs.hasBox_ok).
  pose proof Gr as Gr0. rewrite Eg in Gr0.
  destruct (edge_tracks level oneway onewayrev (linesOf r) (trackOf r) hup has hup' has' wl O Eh Ea Gr0) as (tr & Etr & _ & Tr). rewrite <- Eg in Tr, Etr.
  set (s1 := writeEdgeTracks (OsmRead_model.gEdges g) (perm tr) s0).
  assert (G1 : tracks_given (trackOf r) (steps_of wl O) s0 s1) by (eapply tracks_written; [exact Tr|exact (edge_there _ _ _ _ _ _ _ _ _ Gr)|apply Hperm]).
  assert (Rb1 : readable g (OsmRead_model.ngSize s1)) by (rewrite (tg_size _ _ _ _ G1); exact Rb).
  assert (Ho1 : forall m, In m (OsmRead_model.orphans s1) -> m < OsmRead_model.ngSize s1 /\ hasInfo s1 m = true).
  { intros m I. rewrite (tg_orphans _ _ _ _ G1) in I. rewrite (tg_size _ _ _ _ G1). destruct (Ho m I) as (A & B). split; [exact A|]. now apply (given_info _ _ _ _ _ G1). }
  destruct (buildFrom_ok origin close near order hav half five plus project sharpAt mL mB simiEq simiLow noTrack takeTrack pick ord cands ds len simplify speed corFac fl sp ec nl meets
    Hpick Hord Hcands L0 V0 Sp Ec Nl En Rd r g s1 Rb1 Ho1) as (b & s2 & Eb & O2 & K2 & _ & _ & Ca & Fi & Ar & (E1 & E2 & E3 & E4 & _) & _).
  assert (NK : nodes_keep noTrack takeTrack origin s1 (bPos b) (bInfo b) (bTurn b)) by (rewrite E1, E3, E4; eapply nodes_kept; eauto).
  exists b, r, (OsmRead_model.rests r), wl, g, O, s0, s1, (hasInfo s1), (fromSnap (fixGaps P (hasInfo s1) (fun a b => close (posOf origin s1 b) (posOf origin s1 a)) (near (readGraph r g (OsmRead_model.ngSize s1))) (readGraph r g (OsmRead_model.ngSize s1)) (order (readGraph r g (OsmRead_model.ngSize s1)))) (OsmRead_model.ngSize s1) s2).
  split.
  { unfold Tracks_model.build. erewrite readFile_ext; [|intros; rewrite tracks_zip; reflexivity]. cbn [fst]. rewrite Er.
    fold hup. fold has. rewrite Etr. cbn [snd]. exact Eb. }
  split; [exact Fr|]. split; [exact G1|]. split; [intros m; rewrite (given_info _ _ _ _ m G1); apply hasInfo_iff|]. split; [exact NK|].
  rewrite E1, E2, E3. split; [exact Ca|]. split; [exact Fi|]. split; [exact Ar|].
  intros m i Lm Hi. destruct (tg_station _ _ _ _ G1 m i Hi) as (j1 & Hj1 & N1 & N2 & K & T).
  destruct (nk_info _ _ _ _ _ _ _ NK m j1) as (j & Hj & Fj); [rewrite (tg_size _ _ _ _ G1); exact Lm|exact Hj1|].
  exists j. split; [exact Hj|]. destruct (filled_names _ _ Fj) as (M1 & M2). split; [congruence|]. split; [congruence|]. split.
  - intros X. rewrite (filled_track _ _ Fj) by (rewrite (K X); exact X). exact (K X).
  - intros X W. destruct (T X) as [A|[_ A]]; [|apply some_track in W; destruct W as (t & W); exfalso; exact (A t W)].
    rewrite (filled_track _ _ Fj); [exact A|]. destruct A as (u & v & _ & T1 & x & T2 & _ & _ & _ & Nn & _). exact Nn.
Qed.
Print Assumptions C86_network.

(** ** A sample: the file of Build_props; node 2, where ways 11, 12 and 13 meet, and node 4, the end
    of way 13, are stations, way 11 has track 7 and way 12 track 8. *)
Definition tNodes : list (@OsmRead_spec.elem Z) :=
  map (fun e => if (OsmRead_spec.idOf e =? 2) || (OsmRead_spec.idOf e =? 4) || (OsmRead_spec.idOf e =? 3) then OsmRead_spec.mkElem (OsmRead_spec.head e) [OsmRead_model.mkTok 3 (OsmRead_model.TTag "railway"%string "station"%string)] else e) Build_props.sNodes.
Definition tTrack (_ : OsmRead_model.rels) (w : OsmRead_model.way) : string := if OsmRead_model.wId w =? 11 then "7"%string else if OsmRead_model.wId w =? 12 then "8"%string else ""%string.
Definition tcands (s : @Snap_model.st Z statInfo (pl Z)) (p d : Z) : list nat :=
  map Snap_model.eId (filter (fun e => Snap_props.lhav p (Snap_props.lproj (Snap_model.geo s (Snap_model.eFrom e)) p (Snap_model.geo s (Snap_model.eTo e))) <=? d)%Z (Snap_model.edges s)).
Definition tBuild (perm : list (nat * string) -> list (nat * string)) : option (@built Z statInfo) :=
  Tracks_model.build 0%Z 2 (fun _ => 1) (fun _ => false) (fun _ => false) (fun r => OsmRead_model.relsOf (OsmRead_model.wayRels r)) tTrack perm (fun _ _ => Some (mkStat "a" [] "")) (OsmRead_props.hasTag "railway" "station") (fun _ => false) (fun _ => false)
    (fun a b => Z.abs (a - b) <=? 1)%Z (fun g _ => nodes g) (@nodes Z)
    Snap_props.lhav 1 5 Z.add Snap_props.lproj (fun _ _ _ => false) 5 5 (fun _ _ => true) (fun _ _ => false) Snap_props.nearest (fun l => l) tcands [10%Z]
    Build_props.zlen (fun l => l) (fun _ => 10%Q) 1%Q (fun x => x) 2%Q 5%Q 1%Q (fun g => map (fun n => (n, true)) (nodes g))
    Build_props.sampleCfg 20 (OsmRead_model.mkXml (OsmRead_model.mkTok 0 OsmRead_model.TOther) ([OsmRead_model.mkTok 1 OsmRead_model.TOther] ++ OsmRead_spec.text tNodes ++ OsmRead_spec.text Build_props.sWays ++ OsmRead_spec.text Build_props.sRels)).
(** In the order of the file node 2 (graph node 1) gets track 7, node 3 (graph node 2) track 8, node
    4 (graph node 3) none. *)
Example C86_sample : exists b, tBuild (fun l => l) = Some b /\ map (fun n => option_map siTrack (bInfo b n)) [0; 1; 2; 3] = [None; Some "7"; Some "8"; Some ""]%string.
Proof. eexists. split; [vm_compute; reflexivity|]. vm_compute. auto. Qed.

(** "The track of a station is determined by the file" is false: node 2 lies on tracks 7 and 8 and
    gets the one that comes first in the map, whose keys are addresses. *)
Theorem C86_order_matters_refuted : ~ (forall perm b b' n, (forall l, Permutation (perm l) l) -> tBuild perm = Some b -> tBuild (fun l => l) = Some b' -> bInfo b n = bInfo b' n).
Proof.
  intros H. destruct (tBuild (fun l => l)) as [b'|] eqn:E'; [|vm_compute in E'; discriminate]. destruct (tBuild (@rev _)) as [b|] eqn:E; [|vm_compute in E; discriminate].
  assert (X := H (@rev _) b b' 1 (fun l => Permutation_sym (Permutation_rev l)) E eq_refl).
  assert (A : option_map siTrack (bInfo b 1) = Some "8"%string) by (change (match Some b with Some b => option_map siTrack (bInfo b 1) | None => None end = Some "8"%string); rewrite <- E; vm_compute; reflexivity).
  assert (B : option_map siTrack (bInfo b' 1) = Some "7"%string) by (change (match Some b' with Some b => option_map siTrack (bInfo b 1) | None => None end = Some "7"%string); rewrite <- E'; vm_compute; reflexivity).
  rewrite X, B in A. discriminate.
Qed.
Print Assumptions C86_order_matters_refuted.

(** The hypotheses of C86_network hold of the sample, in every order. *)
Example C86_sample_ok : forall perm, (forall l, Permutation (perm l) l) -> exists b r wl O (s0 : @OsmRead_model.ngraph Z statInfo), tBuild perm = Some b /\
  forall m i, m < OsmRead_model.ngSize s0 -> OsmRead_model.pState (OsmRead_model.ngPay s0 m) = OsmRead_model.Station i ->
      exists j, bInfo b m = Some j /\ siName j = siName i /\ siAlt j = siAlt i /\ (siTrack i <> ""%string -> siTrack j = siTrack i) /\
        (siTrack i = ""%string -> on_tracked_way (tTrack r) (steps_of wl O) m -> track_at (tTrack r) (steps_of wl O) m (siTrack j)).
Proof.
  intros perm Hperm.
  assert (A1 : Forall OsmRead_spec.nodeElem tNodes) by OsmRead_props.elems.
  destruct Build_props.sample_ok as (_ & A2 & A3 & _ & A5).
  assert (A4 : NoDup (map OsmRead_spec.idOf tNodes)) by (repeat constructor; cbn; intuition discriminate).
  assert (Tc : forall (s : @Snap_model.st Z statInfo (pl Z)) p d, Snap_spec.Ok s -> NoDup (tcands s p d) /\ forall c, In c (tcands s p d) -> Snap_spec.present s c).
  { intros s p d H. split.
    - unfold tcands. apply OsmGraph_proofs.NoDup_map_filter. apply H.
    - intros c I. unfold tcands in I. apply in_map_iff in I. destruct I as (e & <- & I). apply filter_In in I. unfold Snap_spec.present. apply in_map. tauto. }
  assert (B1 : forall l : list (@Snap_model.edge (pl Z)), Permutation l l) by (intros; apply Permutation_refl).
  assert (B2 : forall l : nat, (0 < 10)%Q) by (intros; lra).
  assert (B3 : forall (a : Z) m b, exists m', a :: m ++ [b] = a :: m' ++ [b]) by (intros a m b; exists m; reflexivity).
  assert (B4 : (0 < 2 /\ 0 <= 5 /\ 0 < 1)%Q) by (repeat split; lra). destruct B4 as (B4 & B5 & B6).
  assert (B7 : Forall (@OsmRead_spec.noNodes Z) [OsmRead_model.mkTok 1 OsmRead_model.TOther]) by (repeat constructor).
  assert (B8 : length tNodes < 20) by (cbn; lia). assert (B9 : length Build_props.sWays < 20) by (cbn; lia). assert (B10 : length Build_props.sRels < 20) by (cbn; lia).
  assert (B11 : tNodes <> []) by discriminate. assert (B12 : Build_props.sWays <> []) by discriminate.
  destruct (C86_network Z 0%Z 2 (fun _ => 1) (fun _ => false) (fun _ => false) (fun r => OsmRead_model.relsOf (OsmRead_model.wayRels r)) tTrack perm (fun _ _ => Some (mkStat "a" [] "")) (OsmRead_props.hasTag "railway" "station") (fun _ => false) (fun _ => false)
    (fun a b => Z.abs (a - b) <=? 1)%Z (fun g _ => nodes g) (@nodes Z)
    Snap_props.lhav 1%Z 5%Z Z.add Snap_props.lproj (fun _ _ _ => false) 5 5%Z (fun _ _ => true) (fun _ _ => false) Snap_props.nearest (fun l => l) tcands [10%Z]
    Build_props.zlen (fun l => l) (fun _ => 10%Q) 1%Q (fun x => x) 2%Q 5%Q 1%Q (fun g => map (fun n => (n, true)) (nodes g))
    Build_props.sampleCfg tNodes Build_props.sWays Build_props.sRels [OsmRead_model.mkTok 1 OsmRead_model.TOther] 20 (OsmRead_model.mkTok 0 OsmRead_model.TOther)
    Hperm Snap_props.nearest_pick B1 Tc Build_props.zlen_pos B2 B4 B5 B6 B3 OsmGraph_props.ex_round A1 A2 A3 B7 B11 B12 B8 B9 B10 A4 A5)
    as (b & r & rules & wl & g & O & s0 & s1 & st0 & G & Eb & _ & _ & _ & _ & _ & _ & _ & H).
  exists b, r, wl, O, s0. split; [exact Eb|exact H].
Qed.
