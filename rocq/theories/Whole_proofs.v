(** Proofs for the way from an OSM file and a feed to the shapes. *)
From Coq Require Import Ascii String List Arith NArith ZArith QArith Bool Lia.
From Verif Require Import HopCache_model TripTrie_model Router_model Router_spec Shapes_spec Cluster_model Cluster_spec Workers_model Pipeline_model Pipeline_spec Whole_spec.
From Verif Require OsmRead_model OsmRead_spec OsmRead_proofs OsmGraph_model OsmGraph_spec Finish_model Finish_spec Build_model Build_spec.
Import ListNotations.
Open Scope nat_scope.
Open Scope list_scope.

Lemma shaped_imp : forall (pos Pt : Type) (A B : TripTrie_model.trip pos -> list (Pt * Q * nat) -> list Q -> Prop), (forall t ps ds, A t ps ds -> B t ps ds) ->
  forall o f dists cnt ids store s, shaped A o f dists cnt ids store s -> shaped B o f dists cnt ids store s.
Proof.
  intros pos Pt A B AB o f dists cnt ids store s [H1 H2 H3]. constructor; [exact H1|exact H2|].
  intros u t E Se. destruct (H3 u t E Se) as (id & n & ps & ds & X1 & X2 & X3). exists id, n, ps, ds. split; [exact X1|]. split; [now apply AB|exact X3].
Qed.

Section Proofs.
Context {P SI pos C : Type}.
Variable b : @Build_model.built P SI.
Variable W : world pos C P.
Hypothesis SE : shows_edges b W.
Hypothesis Fits : forall k e, edge_no b k e -> OsmGraph_spec.fits (Build_model.bPos b) e.

Lemma drives_path : forall p, drives b p -> path (fromPt _ _ _ W) (toPt _ _ _ W) p.
Proof.
  induction p as [|i [|j p] IH]; intros (K & D); cbn; auto. split.
  - destruct (D [] i j p eq_refl) as (x & y & Ex & Ey & E). destruct (sw_edge _ _ SE i x Ex) as (_ & _ & _ & _ & _ & _ & ->). destruct (sw_edge _ _ SE j y Ey) as (_ & _ & _ & _ & _ & -> & _). now rewrite E.
  - apply IH. split; [intros k I; apply K; now right|]. intros l i' j' r E. apply (D (i :: l) i' j' r). now rewrite E.
Qed.
Lemma geometries : geometries_ok (geom _ _ _ W) (isRev _ _ _ W) (fromPt _ _ _ W) (toPt _ _ _ W).
Proof.
  intros k l D. unfold drawn in D. destruct (nth_error (OsmGraph_model.edges (Finish_model.net (Build_model.bNet b))) k) as [e|] eqn:E.
  - destruct (sw_edge _ _ SE k e E) as (_ & _ & _ & Er & Eg & Ef & Et). rewrite Er, Eg in D. destruct (Fits k e E) as (m & Em). unfold OsmGraph_spec.points in Em. unfold OsmGraph_spec.fits in *.
    destruct (OsmGraph_model.geom (OsmGraph_model.ePl e)) as [g|]; [|discriminate]. injection Em as Em. destruct g as [|p g]; [destruct (OsmGraph_model.rev_ (OsmGraph_model.ePl e)); discriminate Em|].
    assert (El : l = Build_model.bPos b (OsmGraph_model.from e) :: m ++ [Build_model.bPos b (OsmGraph_model.to e)]). { destruct (OsmGraph_model.rev_ (OsmGraph_model.ePl e)); congruence. }
    rewrite El, Ef, Et. split; [eexists; reflexivity|]. exists (Build_model.bPos b (OsmGraph_model.from e) :: m). reflexivity.
  - rewrite (sw_none _ _ SE k) in D; [|unfold edge_no; intros e Ee; congruence]. subst l. split; [eexists; reflexivity|exists [fromPt _ _ _ W k]; reflexivity].
Qed.
End Proofs.

Section Search.
Context {P SI pos C : Type}.
Variable b : @Build_model.built P SI.
Variable W : world pos C P.
Variable posAt : list P -> Q -> P.
Hypothesis SW : shows b W.
Hypothesis Fits : forall k e, edge_no b k e -> OsmGraph_spec.fits (Build_model.bPos b) e.

Lemma world_of : library_ok W posAt -> world_ok W posAt.
Proof.
  intros [L1 L2 L3 L4 L5 L6 L7 L8 L9 L10 L11]. constructor; auto.
  - intros tr n a z lim H. destruct (sw_search _ _ SW tr n a z lim H) as [E|(D & F)]; [now left|right]. split; [exact (drives_path b W (sw_edges _ _ SW) _ D)|exact F].
  - exact (geometries b W (sw_edges _ _ SW) Fits).
Qed.
(** The edges of a hop are edges of the network. *)
Lemma hop_edges : forall h k, searched W h -> In k (hEdges _ _ h) -> exists e, edge_no b k e.
Proof.
  intros h k Se I. assert (N : hEdges _ _ h <> []) by (destruct (hEdges _ _ h); [easy|discriminate]).
  destruct (Se N) as (tr & n & a & z & lim & _ & _ & L & E). destruct (sw_search _ _ SW tr n a z lim L) as [X|((D & _) & _)].
  - exfalso. apply N. rewrite E. rewrite <- (rev_involutive (snd _)), X. reflexivity.
  - apply D. apply -> in_rev. now rewrite <- E.
Qed.
End Search.

Section Ways.
Context {P SI : Type}.
Variable c : @OsmRead_model.cfg P.
Variable ns ws rs : list (@OsmRead_spec.elem P).
Variable level : list (string * string) -> nat.
Variable oneway onewayrev : list (string * string) -> bool.
Variable linesOf : nat -> list nat.
Variable hup has : nat -> bool.
(** An edge that was read is of a wanted way. *)
Lemma read_way : forall wl g O, OsmRead_spec.Picked (OsmRead_spec.WayWanted c ns rs) (OsmRead_spec.wayVal c) ws wl ->
  OsmRead_spec.GraphOf level oneway onewayrev linesOf hup has wl g O ->
  forall e, In e (OsmRead_model.gEdges g) ->
    (exists a, way_tags c ns ws rs a /\ OsmRead_model.eLvl e = level a) /\
    (OsmRead_model.eOneWay e = 1 -> exists a, way_tags c ns ws rs a /\ oneway a = true) /\
    (OsmRead_model.eOneWay e = 2 -> exists a, way_tags c ns ws rs a /\ onewayrev a = true).
Proof.
  intros wl g O Pk Go e I. pose proof (OsmRead_spec.go_attrs _ _ _ _ _ _ _ _ _ Go e I) as Ek. set (T := flat_map _ _) in Ek.
  assert (Tags : forall s, In s T -> way_tags c ns ws rs (OsmRead_model.wAttrs (fst s))).
  { intros s Is. unfold T in Is. apply in_flat_map in Is. destruct Is as ((w & l) & Iw & Is). apply in_map_iff in Is. destruct Is as (q & <- & _). cbn [fst]. apply in_combine_l in Iw.
    apply (OsmRead_proofs.Picked_In _ _ _ _ _ _ Pk) in Iw. destruct Iw as (el & Iel & Wel & <-). exists el. auto. }
  split; [|split].
  - destruct (OsmRead_spec.ek_level _ _ _ _ _ _ Ek) as (T1 & s & T2 & E & _ & _ & El). exists (OsmRead_model.wAttrs (fst s)). split; [apply Tags; rewrite E; apply in_or_app; right; now left|exact El].
  - intros O1. destruct (OsmRead_spec.ek_dir _ _ _ _ _ _ Ek) as [(O0 & _)|(T1 & s & T2 & E & _ & Ds & _ & [(_ & O2)|(Nr & _)])]; [congruence|congruence|].
    exists (OsmRead_model.wAttrs (fst s)). split; [apply Tags; rewrite E; apply in_or_app; right; now left|]. destruct Ds as [Ds|Ds]; [exact Ds|congruence].
  - intros O2. destruct (OsmRead_spec.ek_dir _ _ _ _ _ _ Ek) as [(O0 & _)|(T1 & s & T2 & E & _ & Ds & _ & [(Rv & _)|(_ & O1)])]; [congruence| |congruence].
    exists (OsmRead_model.wAttrs (fst s)). split; [apply Tags; rewrite E; apply in_or_app; right; now left|exact Rv].
Qed.
Lemma piece_way : forall close station0 station rules wl g O n0 (G : OsmGraph_model.graph P), OsmRead_spec.Picked (OsmRead_spec.WayWanted c ns rs) (OsmRead_spec.wayVal c) ws wl ->
  OsmRead_spec.GraphOf level oneway onewayrev linesOf hup has wl g O -> Build_spec.carries close station0 station rules g n0 G ->
  forall x, In x (OsmGraph_model.edges G) -> of_way c ns ws rs level oneway onewayrev x.
Proof.
  intros close station0 station rules wl g O n0 G Pk Go Ca x I. destruct (Build_spec.ca_edge _ _ _ _ _ _ _ Ca x I) as (i & e & y & Ne & St & _).
  destruct (read_way wl g O Pk Go e (nth_error_In _ _ Ne)) as (A & B & D). unfold of_way. rewrite (Build_spec.st_oneway _ _ _ _ _ St), (Build_spec.st_level _ _ _ _ _ St). auto.
Qed.
End Ways.
