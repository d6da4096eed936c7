(** C35, C57: measures and geometry of the generated shapes. *)
From Coq Require Import List Arith ZArith QArith Bool Lia.
From Verif Require Import ListAux TripTrie_model TripTrie_spec Router_model Router_spec Router_proofs Router_props
  Shapes_model Shapes_spec Shapes_proofs.
Import ListNotations.
Open Scope nat_scope.

(** C35: points are numbered from 0, measures start at 0, never decrease and grow by the
    distance between points; every stop has a distance, that of the last point of the
    part of the shape leading to it. *)
Theorem C35_measures : forall (E Pt : Type) eqE geom isRev fromPt toPt len segment simplify hav rndF rndD colorsOf,
  rounding rndF rndD -> (forall p q : Pt, 0 <= hav p q)%Q ->
  forall noColor (hops : list (hop E Pt)) ps ds c,
  getGtfsShape E Pt eqE geom isRev fromPt toPt len segment simplify hav rndF rndD colorsOf noColor hops = Some (ps, ds, c) ->
  exists parts, length parts = length hops /\ measured hav rndF rndD parts ps ds.
Proof. intros until 1. intros HP noColor hops ps ds c H0. eapply shape_measured; eauto. Qed.
Print Assumptions C35_measures.

(** C57: for chained hops a shape is produced; its parts, one per hop, start and end at
    the matched positions of the stops, follow the edges of the hop, and join without a
    gap. *)
Theorem C57_continuous : forall (E Pt C : Type) eqE geom isRev fromPt toPt len segment simplify pos hav rndF rndD colorsOf,
  rounding rndF rndD -> (forall p q : Pt, 0 <= hav p q)%Q -> (forall a b : E, eqE a b = true <-> a = b) ->
  geometries_ok geom isRev fromPt toPt -> geometry segment simplify pos ->
  forall noColor (hops : list (hop E Pt)), hops <> [] -> chained (C:=C) hops ->
  Forall (hop_ok fromPt toPt) hops -> Forall forward hops ->
  exists parts ps ds c,
    getGtfsShape E Pt eqE geom isRev fromPt toPt len segment simplify hav rndF rndD colorsOf noColor hops = Some (ps, ds, c) /\
    measured hav rndF rndD parts ps ds /\
    Forall2 (part_ok geom isRev fromPt toPt pos) (rev hops) parts /\ meet parts.
Proof.
  intros E Pt C eqE geom isRev fromPt toPt len segment simplify pos hav rndF rndD colorsOf RO HP EQ GO GE noColor hops N CH HO FW.
  exact (shape_ok (C:=C) eqE geom isRev fromPt toPt len segment simplify pos hav rndF rndD colorsOf RO HP EQ GO GE noColor hops N CH HO FW).
Qed.
Print Assumptions C57_continuous.

(** C57, from the router on: the hops found for a leaf of the trie give such a shape. *)
Theorem C57_routed_shape : forall pos_ attrs C E Pt St lt add inf p0 ask weight ofZ limit0 startCost spath
    (tnds : list (node pos_ attrs)) (ecm : list (list (cand C E Pt)))
    eqE geom isRev fromPt toPt len segment simplify pos hav rndF rndD colorsOf,
  cost_laws lt add inf -> tree tnds -> aligned tnds ecm ->
  (forall n i x e, cand_at ecm n i x -> cE _ _ _ x = Some e -> is_share (cProgr _ _ _ x)) ->
  (forall n a b lim, (fst (spath n a b lim) < lim)%Z -> snd (spath n a b lim) = [] \/
     (path fromPt toPt (rev (snd (spath n a b lim))) /\ first_is (rev (snd (spath n a b lim))) a /\ last_is (rev (snd (spath n a b lim))) b)) ->
  rounding rndF rndD -> (forall p q : Pt, 0 <= hav p q)%Q -> (forall a b : E, eqE a b = true <-> a = b) ->
  geometries_ok geom isRev fromPt toPt -> geometry segment simplify pos ->
  forall (s0 : St) leaves r m,
  route pos_ attrs C lt add inf E Pt p0 St ask weight ofZ limit0 startCost spath tnds ecm s0 leaves = Some (r, m) ->
  forall noColor leaf hops k, In (leaf, hops) m ->
  (exists is' c', seqcost add weight ofZ tnds ecm (rLog _ _ r) leaf is' c' /\ lt c' inf = true) ->
  nhops tnds leaf (S k) -> Forall forward hops ->
  exists parts ps ds c,
    getGtfsShape E Pt eqE geom isRev fromPt toPt len segment simplify hav rndF rndD colorsOf noColor hops = Some (ps, ds, c) /\
    length parts = S k /\ measured hav rndF rndD parts ps ds /\
    Forall2 (part_ok geom isRev fromPt toPt pos) (rev hops) parts /\ meet parts.
Proof.
  intros pos_ attrs C E Pt St lt add inf p0 ask weight ofZ limit0 startCost spath tnds ecm
    eqE geom isRev fromPt toPt len segment simplify pos hav rndF rndD colorsOf CL T Al SH PA RO HP EQ GO GE
    s0 leaves r m H noColor leaf hops k I F NH FW.
  destruct (C26_hops_connected _ _ _ _ _ _ _ _ _ _ _ _ _ _ _ _ _ _ CL T Al _ _ _ _ H _ _ I F) as [N1 CH].
  pose proof (nhops_det _ _ _ _ _ N1 _ NH) as Ln.
  destruct (C25_chosen_sequence_optimal _ _ _ _ _ _ _ _ _ _ _ _ _ _ _ _ _ _ CL T _ _ _ _ H _ _ I F) as (is & c & _ & Y & _).
  pose proof (yields_hop_ok startCost spath tnds ecm fromPt toPt SH PA _ _ _ _ Y) as HO.
  destruct (C57_continuous E Pt C eqE geom isRev fromPt toPt len segment simplify pos hav rndF rndD colorsOf RO HP EQ GO GE
    noColor hops ltac:(intros ->; discriminate) CH HO FW) as (parts & ps & ds & col & G & M & F2 & ME).
  exists parts, ps, ds, col. split; [exact G|]. split; [|auto].
  assert (L2 : length (rev hops) = length parts) by (clear - F2; induction F2; cbn; congruence). rewrite rev_length in L2. congruence.
Qed.
Print Assumptions C57_routed_shape.

(** * A concrete street network on a line
    Edges are [0] from 0 to 10, [1] from 10 to 20 (geometry stored backwards, with an
    inner vertex), [2] from 20 to 30 without geometry. *)
Definition xgeom (e : nat) : option (list Q) :=
  match e with 0 => Some [0; 10]%Q | 1 => Some [20; 14; 10]%Q | _ => None end.
Definition xrev (e : nat) : bool := e =? 1.
Definition xfrom (e : nat) : Q := match e with 0 => 0%Q | 1 => 10%Q | _ => 20%Q end.
Definition xto (e : nat) : Q := match e with 0 => 10%Q | 1 => 20%Q | _ => 30%Q end.
Definition xpos (l : list Q) (q : Q) : Q :=
  if Qlt_le_dec 0 q then (if Qlt_le_dec q 1 then Qred (hd 0 l + q * (last l 0 - hd 0 l))%Q else last l 0%Q) else hd 0%Q l.
Definition xseg (l : list Q) (a b : Q) : list Q := if Qlt_le_dec b a then [xpos l b; xpos l a] else [xpos l a; xpos l b].
Definition xhav (p q : Q) : Q := if Qlt_le_dec p q then Qred (q - p) else Qred (p - q).
Definition xshape := getGtfsShape nat Q Nat.eqb xgeom xrev xfrom xto (fun _ => 10%Q) xseg (fun l => l) xhav Qred Qred (fun _ => []) 0%N.

Example xrounding : rounding Qred Qred.
Proof.
  constructor; intros; rewrite ?Qred_correct; auto; reflexivity.
Qed.
Example xgeometries : geometries_ok xgeom xrev xfrom xto.
Proof.
  intros [|[|e]] l H; cbn in H; subst l; split; cbn.
  - eexists; reflexivity.
  - exists [0%Q]. reflexivity.
  - eexists; reflexivity.
  - exists [10; 14]%Q. reflexivity.
  - eexists; reflexivity.
  - exists [20%Q]. reflexivity.
Qed.
Example xgeometry : geometry xseg (fun l => l) xpos.
Proof.
  constructor.
  - intros l p q (t & ->) H. unfold xpos. destruct (Qlt_le_dec 0 q) as [L|L]; [|reflexivity]. rewrite H in L. discriminate.
  - intros l p q (t & ->) H. unfold xpos. destruct (Qlt_le_dec 0 q) as [L|L].
    + destruct (Qlt_le_dec q 1) as [L'|L']; [rewrite H in L'; discriminate|]. apply last_snoc.
    + rewrite H in L. exfalso. apply L. reflexivity.
  - intros l a b _ _ AB _. exists []. split; [apply sub_nil_l|]. left. unfold xseg.
    destruct (Qlt_le_dec b a) as [L|L]; [|reflexivity]. exfalso. exact (Qlt_not_le _ _ L AB).
  - intros l. apply sub_refl.
  - auto.
  - auto.
Qed.
(** A trip with three stops: routed over the three edges, then off the network. *)
Definition xh1 : hop nat Q := mkHop nat Q [2; 1; 0] (Some 0) (Some 2) (1 # 2) (1 # 2) 0%Q 0%Q.
Definition xh2 : hop nat Q := mkHop nat Q [] (Some 2) None (1 # 2) 0 0%Q 40%Q.
Example C57_case : chained (C:=Z) [xh2; xh1] /\ Forall (hop_ok xfrom xto) [xh2; xh1] /\ Forall forward [xh2; xh1] /\
  exists ps ds, xshape [xh2; xh1] = Some (ps, ds, 0%N) /\
    map (fun p => fst (fst p)) ps = [5; 10; 10; 14; 20; 20; 25; 25; 40]%Q /\ ds = [0; 20; 35]%Q.
Proof.
  split; [|split; [|split]].
  - split; [|exact I]. exists (mkCand Z nat Q (Some 2) 0%Z (1 # 2) 0%Q 0%Z []). repeat split; intros; try reflexivity; discriminate.
  - constructor; [|constructor; [|constructor]].
    + split; [split; vm_compute; discriminate|]. split; [intros X; exfalso; apply X; reflexivity|]. intros s e _ X. discriminate.
    + split; [split; vm_compute; discriminate|]. split; [split; vm_compute; discriminate|].
      intros s e X Y. injection X as <-. injection Y as <-. right. cbn. repeat split.
      * exists [1; 2]. reflexivity.
      * exists [0; 1]. reflexivity.
  - constructor; [|constructor; [|constructor]]; intros s X Y Z; discriminate.
  - do 2 eexists. split; [vm_compute; reflexivity|]. split; reflexivity.
Qed.

(** C57 needs [forward]: if the segment function treats its bounds alike, a hop that ends
    before its start on the same edge is drawn from its end to its start. *)
Theorem C57_backwards_refuted : exists h p,
  hop_ok xfrom xto h /\ (forall l a b, (b < a)%Q -> xseg l a b = xseg l b a) /\
  start_pos xgeom xrev xfrom xto xpos h p /\
  exists q m n t ds c, xshape [h] = Some ((q, m, n) :: t, ds, c) /\ ~ (q == p)%Q /\ end_pos xgeom xrev xfrom xto xpos h q.
Proof.
  exists (mkHop nat Q [0] (Some 0) (Some 0) (3 # 4) (1 # 4) 0%Q 0%Q), (15 # 2)%Q.
  split; [|split; [|split]].
  - split; [split; vm_compute; discriminate|]. split; [split; vm_compute; discriminate|].
    intros s e X Y. injection X as <-. injection Y as <-. right. cbn. repeat split; [exists []; reflexivity|exists []; reflexivity].
  - intros l a b L. unfold xseg. destruct (Qlt_le_dec b a) as [L1|L1]; [|exfalso; exact (Qlt_not_le _ _ L L1)].
    destruct (Qlt_le_dec a b) as [L2|L2]; [exfalso; exact (Qlt_irrefl _ (Qlt_trans _ _ _ L L2))|reflexivity].
  - intros l H. cbn in H. subst l. reflexivity.
  - do 6 eexists. split; [vm_compute; reflexivity|]. split; [discriminate|]. intros l H. cbn in H. subst l. reflexivity.
Qed.
Print Assumptions C57_backwards_refuted.
