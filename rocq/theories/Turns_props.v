(** C77: what the turn restrictions of an OSM file mean in the network. *)
From Coq Require Import Ascii String List Arith NArith ZArith QArith Bool Lia Lqa Permutation.
From Verif Require Import OsmGraph_model OsmGraph_spec Weights_spec Gaps_model Restrictor_model Restrictor_spec Finish_model Finish_spec Finish_proofs Build_model Build_spec Build_proofs Build_props Turns_spec Turns_proofs.
From Verif Require OsmRead_model OsmRead_spec OsmRead_proofs OsmRead_props Snap_model Snap_spec Snap_props OsmGraph_props.
Import ListNotations.
Open Scope nat_scope.
Open Scope list_scope.

(** Weights.cpp:146-149: the search adds the penalty for forbidden turns when it goes on from [f] with [t] *)
Definition punished {P SI : Type} (b : @built P SI) (f t : edge P) : Prop :=
  OsmGraph_model.restr (ePl f) = true /\ may (bTable b) (bNo b f) (bNo b t) (to f) = false.

(** C77: in the network that is built from a well-formed file, the search punishes exactly the
    turns that the rules at the OSM node do not allow.  [L i]: the pieces of the [i]-th edge
    that was read. *)
Theorem C77_turns : forall (P SI : Type) (origin : P) E level oneway onewayrev linesOf (statInfo : nat -> list (string * string) -> option SI) station blocker turnCycle
    close near order hav half five plus project sharpAt maxSnapLevel maxBlockDistance simiEq simiLow noTrack takeTrack pick ord cands ds
    len simplify speed corFac fl sp ec nl meets c (ns ws rs : list (@OsmRead_spec.elem P)) pre n c0,
  (* Snapping: the queue gives every candidate, sorting loses none, the grid gives edges that are there *)
  (forall l, match pick l with None => l = [] | Some (c, r) => Permutation l (c :: r) end) -> (forall l, Permutation (ord l) l) ->
  (forall (s : @Snap_model.st P SI (pl P)) p d, Snap_spec.Ok s -> NoDup (cands s p d) /\ forall c, In c (cands s p d) -> Snap_spec.present s c) ->
  (* lengths, speeds and options *)
  (forall l, (0 <= len l)%Q) -> (forall l, (0 < speed l)%Q) -> (0 < sp)%Q -> (0 <= ec)%Q -> (0 < nl)%Q ->
  (forall a m b, exists m', simplify (a :: m ++ [b]) = a :: m' ++ [b]) -> rounding fl ->
  (* the file *)
  Forall OsmRead_spec.nodeElem ns -> Forall OsmRead_spec.wayElem ws -> Forall OsmRead_spec.relElem rs -> Forall OsmRead_spec.noNodes pre -> ns <> [] -> ws <> [] ->
  length ns < n -> length ws < n -> length rs < n -> NoDup (map OsmRead_spec.idOf ns) -> (forall e m, In e rs -> In m (OsmRead_spec.wayMembers e) -> fst m <> 0) ->
  exists b r rules wl g O s0 station0 G L,
    build origin E level oneway onewayrev linesOf statInfo station blocker turnCycle close near order hav half five plus project sharpAt maxSnapLevel maxBlockDistance
      simiEq simiLow noTrack takeTrack pick ord cands ds len simplify speed corFac fl sp ec nl meets c n
      (OsmRead_model.mkXml c0 (pre ++ OsmRead_spec.text ns ++ OsmRead_spec.text ws ++ OsmRead_spec.text rs)) = Some b /\
    file_read c ns ws rs level oneway onewayrev linesOf statInfo station blocker turnCycle r rules wl g O s0 /\
    carries (fun m x => close (read_at origin s0 x) (read_at origin s0 m)) station0 (bStation b) rules g (OsmRead_model.ngSize s0) G /\
    finished (bPos b) (bStation b) (bTurn b) len simplify speed sp ec nl G (net (bNet b)) /\
    (forall i e, nth_error (OsmRead_model.gEdges g) i = Some e -> In (OsmRead_model.eFrom e) (nodes G) -> In (OsmRead_model.eTo e) (nodes G) ->
       in_pieces rules g (OsmRead_model.ngSize s0) (bStation b) G i e (L i)) /\
    turns_ruled rules g O (bStation b) (bTurn b) G (net (bNet b)) L (punished b).
Proof.
  intros P SI origin E level oneway onewayrev linesOf statInfo station blocker turnCycle close near order hav half five plus project sharpAt mL mB simiEq simiLow noTrack takeTrack pick ord cands ds
    len simplify speed corFac fl sp ec nl meets c ns ws rs pre n c0 Hpick Hord Hcands L0 V0 Sp Ec Nl En Rd Hns Hws Hrs Hpre Hns0 Hws0 Hn1 Hn2 Hn3 Hnd Hm.
  destruct (file_start (SI := SI) E c ns ws rs pre n c0 level oneway onewayrev linesOf statInfo station blocker turnCycle Hns Hws Hrs Hpre Hns0 Hws0 Hn1 Hn2 Hn3 Hnd Hm)
    as (r & wl & g & ndl & O & Er & Fr & Rb & Ho).
  set (s0 := OsmRead_model.readNodes statInfo station blocker turnCycle g ndl) in *.
  destruct (buildFrom_ok origin close near order hav half five plus project sharpAt mL mB simiEq simiLow noTrack takeTrack pick ord cands ds len simplify speed corFac fl sp ec nl meets
    Hpick Hord Hcands L0 V0 Sp Ec Nl En Rd r g s0 Rb Ho) as (b & s2 & Eb & O2 & K2 & Ta & Fin & Ca & Fi & _ & (E1 & E2 & E3 & _ & E5) & t0 & Et & Etab).
  pose proof (g1_mended origin close near order r g s0 Rb) as Md.
  set (g1 := fixGaps P (hasInfo s0) (fun a b => close (posOf origin s0 b) (posOf origin s0 a)) (near (readGraph r g (OsmRead_model.ngSize s0))) (readGraph r g (OsmRead_model.ngSize s0)) (order (readGraph r g (OsmRead_model.ngSize s0)))) in *.
  destruct Ta as [_ (f & T & ET & HT & Hnx & Hf1 & Hf2)]. cbn [toSnap Snap_model.told] in ET. cbn [app] in ET. subst T.
  pose proof (g2_simple s0 g1 s2 O2) as S2.
  pose proof (g2_ok origin s0 r g _ (@lvl P) mL noTrack takeTrack g1 s2 Md K2) as Ok2.
  assert (Fit : forall e, In e (edges (fromSnap g1 (OsmRead_model.ngSize s0) s2)) -> ends_fit (Snap_model.geo s2) e).
  { intros e I. destruct (g2_plain origin s0 r g _ (@lvl P) mL noTrack takeTrack g1 s2 Md K2 e I) as (i & e' & _ & Ep). unfold ends_fit. now rewrite Ep. }
  assert (Rv : forall e, In e (edges (fromSnap g1 (OsmRead_model.ngSize s0) s2)) -> rev_ (ePl e) = false).
  { intros e I. destruct (g2_plain origin s0 r g _ (@lvl P) mL noTrack takeTrack g1 s2 Md K2 e I) as (i & e' & _ & Ep). now rewrite Ep. }
  pose proof (net_doubled _ _ _ _ _ _ _ _ _ _ _ _ _ S2 Ok2 Fit Rv _ Rd Fin) as Hd.
  destruct (fr_graph _ _ _ _ _ _ _ _ _ _ _ _ _ _ _ _ _ _ Fr) as (hup & has & _ & _ & Go).
  destruct (segs_ok _ _ _ _ _ _ _ _ _ Go) as (Hsg & Hids).
  exists b, r, (OsmRead_model.rests r), wl, g, O, s0, (hasInfo s0), (fromSnap g1 (OsmRead_model.ngSize s0) s2), (ePieces s2).
  split; [unfold build; rewrite Er; exact Eb|]. split; [exact Fr|]. rewrite E1, E2, E3. split; [exact Ca|]. split; [exact Fi|].
  split; [intros i e; eapply pieces_ok; eauto|].
  intros id v pos neg Iv Rp Rn Ns Nw Ne wf ef wt et e1 e2 If It N1 F1 T1 N2 F2 T2 a bb x y Ia Ib Va Vb Px Py Mx My.
  apply rules_at_raw in Rp, Rn. subst pos neg. unfold punished. rewrite E5, Etab, Va.
  assert (Hv : v < OsmRead_model.ngSize s0).
  { pose proof (rb_ends _ _ Rb e1 (nth_error_In _ _ N1)) as B. apply arms_in in If. destruct If as (sg & Is & _ & Ee & D). destruct (Hsg sg Is) as (e1' & Ne' & Fe & Te). rewrite Ee, N1 in Ne'. injection Ne' as <-. rewrite Fe, Te in B. destruct D; lia. }
  eapply (turn_at origin s0 r g _ (@lvl P) mL noTrack takeTrack g1 s2 Rb Md O2 K2 Hsg f HT Hnx Hf1 Hf2 (bNet b) Hd (fi_simple _ _ _ _ _ _ _ _ _ _ _ Fi) t0 Et v id Hv (Hids id v Iv) Nw Ne); eauto.
Qed.
Print Assumptions C77_turns.

(** The sample: at OSM node 2 (graph node 1) the ways 11, 12 and 13 meet, no left turn from 11
    to 12; the piece of way 11 there is the edge from the new station, 7.  The hypotheses of
    [turns_ruled] hold for the turns from way 11 to 12 and from 11 to 13; the first is punished,
    the second is not. *)
Definition sSnap : option (OsmRead_model.rels * OsmRead_model.graph * graph Z * @Snap_model.st Z nat (pl Z)) :=
  match OsmRead_model.readFile 2 sampleCfg (fun b r ws => OsmRead_model.readEdges (fun _ => 1) (fun _ => false) (fun _ => false) (OsmRead_model.relsOf (OsmRead_model.wayRels r)) (OsmRead_model.hasHup sampleCfg b) (OsmRead_model.hasBox sampleCfg b) ws) 20
    (OsmRead_model.mkXml (OsmRead_model.mkTok 0 OsmRead_model.TOther) ([OsmRead_model.mkTok 1 OsmRead_model.TOther] ++ OsmRead_spec.text sNodes ++ OsmRead_spec.text sWays ++ OsmRead_spec.text sRels)) with
  | Some (r, _, g, nl) =>
      let s := OsmRead_model.readNodes (fun id _ => Some id) (OsmRead_props.hasTag "railway" "station") (fun _ => false) (fun _ => false) g nl in
      let g0 := readGraph (P := Z) r g (OsmRead_model.ngSize s) in
      let g1 := fixGaps Z (hasInfo s) (fun a b => Z.abs (posOf 0%Z s b - posOf 0%Z s a) <=? 1)%Z (fun _ => nodes g0) g0 (nodes g0) in
      match Snap_model.snapStats Snap_props.lhav 1%Z 5%Z Z.add Snap_props.lproj (fun _ _ _ => false) (@lvl Z) 5 5%Z Nat.eqb (fun a b => negb (a =? b)) (fun _ => false) (fun a _ => a) Snap_props.nearest (fun l => l) zcands (toSnap 0%Z g s g1) [10%Z] (OsmRead_model.orphans s) with
      | Some s2 => Some (r, g, fromSnap g1 (OsmRead_model.ngSize s) s2, s2)
      | None => None
      end
  | None => None
  end.
Ltac trace := constructor; cbn; [discriminate|repeat split|intros h [<- | []]; cbn; tauto|intros h [<- | []]; reflexivity|intros h [<- | []]; reflexivity|intros h [<- | []]; reflexivity|intros X; (discriminate X || (eexists; reflexivity))|intros n []].
Example C77_sample : exists b r g G s2 f t t' x y y', sBuild = Some b /\ sSnap = Some (r, g, G, s2) /\
  rules_at (OsmRead_model.rests r) true 2 [] /\ rules_at (OsmRead_model.rests r) false 2 [(11, 12)] /\ no_self ([] ++ [(11, 12)]) /\
  arms (OsmRead_model.gSegs g) 1 = [(11, 0); (12, 1); (13, 2)] /\
  (forall i e, In i [0; 1; 2] -> nth_error (OsmRead_model.gEdges g) i = Some e -> In (OsmRead_model.eFrom e) (nodes G) /\ In (OsmRead_model.eTo e) (nodes G)) /\
  In f (edges (net (bNet b))) /\ In t (edges (net (bNet b))) /\ In t' (edges (net (bNet b))) /\
  (from f, to f, (from t, to t), (from t', to t')) = (7, 1, (1, 2), (1, 3)) /\
  piece_at (ePieces s2 0) 1 x /\ piece_at (ePieces s2 1) 1 y /\ piece_at (ePieces s2 2) 1 y' /\
  made_with (bStation b) (bTurn b) G f x /\ made_with (bStation b) (bTurn b) G t y /\ made_with (bStation b) (bTurn b) G t' y' /\
  punished b f t /\ ~ way_turn_allowed [] [(11, 12)] [11; 12; 13] 11 12 /\ ~ punished b f t' /\ way_turn_allowed [] [(11, 12)] [11; 12; 13] 11 13.
Proof.
  set (p := fun r l => mkPl (P := Z) 0 r false 1 0%N None l).
  set (q := fun r c geo l => mkPl (P := Z) 0 r false 1 c (Some geo) l).
  eexists _, _, _, _, _, (mkE 7 1 (q true 60%N [40%Z; 100%Z] [0])), (mkE 1 2 (q true 100%N [100%Z; 200%Z] [0])), (mkE 1 3 (q false 50%N [100%Z; 150%Z] [])),
    (mkE 7 1 (p true [0])), (mkE 1 2 (p true [0])), (mkE 1 3 (p false [])). unfold p, q. clear p q.
  split; [vm_compute; reflexivity|]. split; [vm_compute; reflexivity|].
  split; [cbn; constructor; [cbn; intuition discriminate|constructor]|].
  split; [cbn; apply (OsmRead_spec.P_take (fun x : bool * nat * nat * nat => fst (fst (fst x)) = false /\ snd (fst (fst x)) = 2) (fun x => (snd (fst x), snd x)) (false, 2, 11, 12) [] []); [cbn; auto|constructor]|].
  split; [intros a b [E|[]]; injection E as <- <-; discriminate|]. split; [reflexivity|].
  split. { intros i e [<- |[<- |[<- |[]]]] E; injection E as <-; cbn; auto 8. }
  split; [cbn; auto 12|]. split; [cbn; auto 12|]. split; [cbn; auto 12|]. split; [reflexivity|].
  split; [right; split; [reflexivity|]; eexists [_]; reflexivity|]. split; [left; split; [reflexivity|]; exists []; reflexivity|]. split; [left; split; [reflexivity|]; exists []; reflexivity|].
  split; [eexists [(_, true)], true; split; cycle 1; [now left|trace]|]. split; [eexists [(_, true)], true; split; cycle 1; [now left|trace]|]. split; [eexists [(_, true)], true; split; cycle 1; [now left|trace]|].
  split; [split; vm_compute; reflexivity|].
  split. { intros [(p1 & p2 & E & _)|(_ & X)]; [destruct p1; discriminate|apply X; now left]. }
  split. { intros (_ & X). vm_compute in X. discriminate. }
  right. split; [intros w (p1 & p2 & E & _); destruct p1; discriminate|]. intros [E|[]]. discriminate.
Qed.

(** A rule is lost if one of the streets that it names ends at a gap: the street 6 - 7 (way 14) is
    moved to node 3, a metre from 6, and the rule at 7 (graph node 5), no left turn from way 14
    to way 15 (7 - 8), does not name the new edge, so the network allows the turn. *)
Definition gNodes : list (@OsmRead_spec.elem Z) :=
  [el (OsmRead_model.TNode 2 100%Z) []; el (OsmRead_model.TNode 3 200%Z) []; el (OsmRead_model.TNode 6 201%Z) []; el (OsmRead_model.TNode 7 300%Z) []; el (OsmRead_model.TNode 8 400%Z) []].
Definition gWays : list (@OsmRead_spec.elem Z) :=
  [el (OsmRead_model.TWay 12) [nd3 2; nd3 3; tg3 "railway" "rail"]; el (OsmRead_model.TWay 14) [nd3 6; nd3 7; tg3 "railway" "rail"]; el (OsmRead_model.TWay 15) [nd3 7; nd3 8; tg3 "railway" "rail"]].
Definition gRels : list (@OsmRead_spec.elem Z) :=
  [el (OsmRead_model.TRel 22) [tg3 "type" "restriction"; tg3 "restriction" "no_left_turn"; OsmRead_model.mkTok 3 (OsmRead_model.TMember OsmRead_model.MWay 14 "from"%string);
     OsmRead_model.mkTok 3 (OsmRead_model.TMember OsmRead_model.MWay 15 "to"%string); OsmRead_model.mkTok 3 (OsmRead_model.TMember OsmRead_model.MNode 7 "via"%string)]].
(** [close a b]: at most a metre apart; without gaps ([fun _ _ => false]) the turn is punished *)
Definition gBuild (close : Z -> Z -> bool) : option (@built Z nat) :=
  build 0%Z 2 (fun _ => 1) (fun _ => false) (fun _ => false) (fun r => OsmRead_model.relsOf (OsmRead_model.wayRels r)) (fun id _ => Some id) (OsmRead_props.hasTag "railway" "station") (fun _ => false) (fun _ => false)
    close (fun g _ => nodes g) (@nodes Z)
    Snap_props.lhav 1 5 Z.add Snap_props.lproj (fun _ _ _ => false) 5 5 Nat.eqb (fun a b => negb (a =? b)) (fun _ => false) (fun a _ => a) Snap_props.nearest (fun l => l) zcands [10%Z]
    zlen (fun l => l) (fun _ => 10%Q) 1%Q (fun x => x) 2%Q 5%Q 1%Q (fun g => map (fun n => (n, true)) (nodes g))
    sampleCfg 20 (OsmRead_model.mkXml (OsmRead_model.mkTok 0 OsmRead_model.TOther) ([OsmRead_model.mkTok 1 OsmRead_model.TOther] ++ OsmRead_spec.text gNodes ++ OsmRead_spec.text gWays ++ OsmRead_spec.text gRels)).
Theorem C77_gap_refuted : exists b b' f t f' t',
  gBuild (fun a b => Z.abs (a - b) <=? 1)%Z = Some b /\ In f (edges (net (bNet b))) /\ In t (edges (net (bNet b))) /\
  map (bPos b) [from f; to f; from t; to t] = [200; 300; 300; 400]%Z /\ OsmGraph_model.restr (ePl f) = true /\ ~ punished b f t /\
  gBuild (fun _ _ => false) = Some b' /\ In f' (edges (net (bNet b'))) /\ In t' (edges (net (bNet b'))) /\
  map (bPos b') [from f'; to f'; from t'; to t'] = [201; 300; 300; 400]%Z /\ punished b' f' t'.
Proof.
  set (q := fun rv c geo => mkPl (P := Z) 0 true rv 1 c (Some geo) [0]).
  eexists _, _, (mkE 1 3 (q true 100%N [300%Z; 200%Z])), (mkE 3 4 (q false 100%N [300%Z; 400%Z])), (mkE 2 3 (q false 99%N [201%Z; 300%Z])), (mkE 3 4 (q false 100%N [300%Z; 400%Z])). unfold q. clear q.
  split; [vm_compute; reflexivity|]. split; [cbn; auto 12|]. split; [cbn; auto 12|]. split; [vm_compute; reflexivity|]. split; [reflexivity|].
  split. { intros (_ & X). vm_compute in X. discriminate. }
  split; [vm_compute; reflexivity|]. split; [cbn; auto 12|]. split; [cbn; auto 12|]. split; [vm_compute; reflexivity|]. split; vm_compute; reflexivity.
Qed.
Print Assumptions C77_gap_refuted.
