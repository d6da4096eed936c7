(** C54: the search around an edge; C59: snapping stations keeps the network. *)
From Coq Require Import List Arith ZArith Bool Permutation Lia.
From Verif Require Import Snap_model Snap_spec Snap_proofs.
Import ListNotations.
Open Scope nat_scope.

(** ** C54.
    [E]: the edges; adjacency lists hold exactly the edges at a node; [pick]: any choice of the next candidate. *)
Definition full (adjIn adjOut : nat -> list nat) (sharp : nat -> nat -> nat -> bool) (a n m : nat) : Prop :=
  2 < length (adjIn n) + length (adjOut n) /\ sharp n a m = true.
(** What is found satisfies the criterion and is the end of a walk within the limits. *)
Theorem C54_found : forall E efrom eto adjIn adjOut dp len plus sharp sf maxD maxTurns pick fuel e m,
  (forall n g, In g (adjIn n) <-> E g /\ eto g = n) -> (forall n g, In g (adjOut n) <-> E g /\ efrom g = n) ->
  (forall l, match pick l with None => l = [] | Some (c, r) => Permutation l (c :: r) end) ->
  depthSearch efrom eto adjIn adjOut dp len plus sharp sf maxD maxTurns pick fuel e = Some (Some m) ->
  sf m = true /\ Findable E efrom eto dp len plus (full adjIn adjOut sharp) e maxD maxTurns m.
Proof. intros E efrom eto adjIn adjOut dp len plus sharp sf maxD maxTurns pick fuel e m H1 H2 H3. apply depth_found; assumption. Qed.
Print Assumptions C54_found.
(** If nothing is found, there is a region around the edge that is closed under allowed steps and in which nothing is to be found. *)
Theorem C54_region : forall E efrom eto adjIn adjOut dp len plus sharp sf maxD maxTurns pick fuel e,
  (forall n g, In g (adjIn n) <-> E g /\ eto g = n) -> (forall n g, In g (adjOut n) <-> E g /\ efrom g = n) ->
  (forall l, match pick l with None => l = [] | Some (c, r) => Permutation l (c :: r) end) ->
  depthSearch efrom eto adjIn adjOut dp len plus sharp sf maxD maxTurns pick fuel e = Some None ->
  ((maxD < dp (efrom e))%Z /\ (maxD < dp (eto e))%Z) \/
  exists R, Region E efrom eto dp len plus (full adjIn adjOut sharp) e maxD maxTurns false R sf.
Proof. intros E efrom eto adjIn adjOut dp len plus sharp sf maxD maxTurns pick fuel e H1 H2 H3. apply depth_region; assumption. Qed.
Print Assumptions C54_region.
(** If the nearest candidate comes first, the walks to the nodes of the region are, within the region, shortest ones. *)
Theorem C54_bounded : forall E efrom eto adjIn adjOut dp len plus sharp sf maxD maxTurns pick fuel e,
  (forall n g, In g (adjIn n) <-> E g /\ eto g = n) -> (forall n g, In g (adjOut n) <-> E g /\ efrom g = n) ->
  (forall l, match pick l with None => l = [] | Some (c, r) => Permutation l (c :: r) end) ->
  (forall l c r, (forall x, In x l -> cTurns x = 0%Z) -> pick l = Some (c, r) -> forall x, In x r -> (cDist c <= cDist x)%Z) ->
  (forall d g, E g -> (d <= plus d (len g))%Z) ->
  maxTurns = 0%Z \/ (forall a n m, ~ full adjIn adjOut sharp a n m) ->
  depthSearch efrom eto adjIn adjOut dp len plus sharp sf maxD maxTurns pick fuel e = Some None ->
  ((maxD < dp (efrom e))%Z /\ (maxD < dp (eto e))%Z) \/
  exists R, Region E efrom eto dp len plus (full adjIn adjOut sharp) e maxD maxTurns true R sf.
Proof. intros E efrom eto adjIn adjOut dp len plus sharp sf maxD maxTurns pick fuel e H1 H2 H3 H4 H5. apply depth_bounded; assumption. Qed.
Print Assumptions C54_bounded.
(** Without full turns, nothing that can be found is missed. *)
Theorem C54_complete : forall E efrom eto adjIn adjOut dp len plus sharp sf maxD maxTurns pick fuel e,
  (forall n g, In g (adjIn n) <-> E g /\ eto g = n) -> (forall n g, In g (adjOut n) <-> E g /\ efrom g = n) ->
  (forall l, match pick l with None => l = [] | Some (c, r) => Permutation l (c :: r) end) ->
  (forall l c r, (forall x, In x l -> cTurns x = 0%Z) -> pick l = Some (c, r) -> forall x, In x r -> (cDist c <= cDist x)%Z) ->
  (forall d g, E g -> (d <= plus d (len g))%Z) -> (forall a b g, (a <= b)%Z -> (plus a (len g) <= plus b (len g))%Z) ->
  (forall a n m, ~ full adjIn adjOut sharp a n m) ->
  depthSearch efrom eto adjIn adjOut dp len plus sharp sf maxD maxTurns pick fuel e = Some None ->
  forall n, Findable E efrom eto dp len plus (full adjIn adjOut sharp) e maxD maxTurns n -> sf n = false.
Proof. intros E efrom eto adjIn adjOut dp len plus sharp sf maxD maxTurns pick fuel e H1 H2 H3 H4 H5 H6. apply depth_complete; assumption. Qed.
Print Assumptions C54_complete.
(** The search ends, after as many rounds as there are ends of edges. *)
Theorem C54_ends : forall efrom eto (es : list nat) ord dp len plus sharp sf maxD maxTurns pick fuel e,
  (forall l, Permutation (ord l) l) -> NoDup es ->
  (forall l, match pick l with None => l = [] | Some (c, r) => Permutation l (c :: r) end) -> In e es ->
  3 + 2 * length es <= fuel ->
  depthSearch efrom eto (fun n => ord (filter (fun g => eto g =? n) es)) (fun n => ord (filter (fun g => efrom g =? n) es))
    dp len plus sharp sf maxD maxTurns pick fuel e <> None.
Proof.
  intros efrom eto es ord dp len plus sharp sf maxD maxTurns pick fuel e Hord Hes Hpick He Hf.
  assert (Hin : forall g l, In g (ord l) <-> In g l) by (intros g l; split; apply Permutation_in; [|symmetry]; apply Hord).
  apply (depth_ends (fun g => In g es)) with (nds := nodup Nat.eq_dec (map efrom es ++ map eto es)).
  - intros n g. rewrite Hin, filter_In, Nat.eqb_eq. tauto.
  - intros n g. rewrite Hin, filter_In, Nat.eqb_eq. tauto.
  - exact Hpick.
  - apply NoDup_nodup.
  - intros g Hg. rewrite !nodup_In, !in_app_iff, !in_map_iff. split; [left | right]; exists g; tauto.
  - exact He.
  - unfold weight. set (nds := nodup Nat.eq_dec (map efrom es ++ map eto es)).
    rewrite (map_ext _ (fun n => length (filter (fun g => eto g =? n) es) + length (filter (fun g => efrom g =? n) es))).
    + rewrite sum_add. pose proof (sum_filter _ eto nds es (NoDup_nodup _ _)). pose proof (sum_filter _ efrom nds es (NoDup_nodup _ _)). lia.
    + intros n. cbn [mem existsb]. unfold around. rewrite app_length, !map_length. f_equal; apply Permutation_length, Hord.
Qed.
Print Assumptions C54_ends.

(** The order of the candidates is a strict weak order among candidates with the same number of turns (with a limit of
    no turn there are no others) but not in general: two candidates are each less than the other. *)
Theorem C54_order : forall a b c, cTurns a = cTurns b -> cTurns b = cTurns c ->
  candLt a a = false /\ (candLt a b = true -> candLt b c = true -> candLt a c = true) /\
  (candLt a b = false -> candLt b a = false -> candLt b c = false -> candLt c b = false -> candLt a c = false /\ candLt c a = false).
Proof.
  intros a b c H1 H2. unfold candLt. rewrite <- H2, <- H1, !Z.ltb_irrefl. cbn [orb]. rewrite !Z.ltb_lt, !Z.ltb_ge. lia.
Qed.
Print Assumptions C54_order.
Theorem C54_order_refuted : exists a b, candLt a b = true /\ candLt b a = true.
Proof. exists (mkCand 1 0 0 1), (mkCand 2 0 0 0). split; reflexivity. Qed.
Print Assumptions C54_order_refuted.

(** *** A choice of candidates that meets the hypotheses: the nearest one first *)
Fixpoint nearest (l : list cand) : option (cand * list cand) :=
  match l with
  | [] => None
  | c :: r => match nearest r with
              | None => Some (c, [])
              | Some (d, r') => if (cDist d <? cDist c)%Z then Some (d, c :: r') else Some (c, d :: r')
              end
  end.
Example nearest_pick : forall l, match nearest l with None => l = [] | Some (c, r) => Permutation l (c :: r) end.
Proof.
  induction l as [|c r IH]; [reflexivity|]. cbn [nearest]. destruct (nearest r) as [[d r']|]; [|rewrite IH; constructor; constructor].
  destruct (cDist d <? cDist c)%Z; [|constructor; exact IH]. eapply Permutation_trans; [apply perm_skip; exact IH | apply perm_swap].
Qed.
Example nearest_first : forall l c r, nearest l = Some (c, r) -> forall x, In x r -> (cDist c <= cDist x)%Z.
Proof.
  induction l as [|c r IH]; intros c' r' H; [discriminate|]. cbn [nearest] in H. destruct (nearest r) as [[d r1]|].
  - destruct (Z.ltb_spec (cDist d) (cDist c)); injection H as <- <-; intros x [<- | Hx].
    + lia.
    + apply (IH d r1 eq_refl x Hx).
    + lia.
    + specialize (IH d r1 eq_refl x Hx). lia.
  - injection H as <- <-. intros x [].
Qed.
(** *** A network: 0 - 1 - 2 - 3 and 0 - 2; edge 0 is the start; node 3 is what is looked for *)
Definition xf (e : nat) : nat := nth e [0; 0; 1; 2] 0.
Definition xt (e : nat) : nat := nth e [1; 2; 2; 3] 0.
Definition xin (n : nat) : list nat := filter (fun g => xt g =? n) [0; 1; 2; 3].
Definition xout (n : nat) : list nat := filter (fun g => xf g =? n) [0; 1; 2; 3].
Definition xlen (e : nat) : Z := nth e [3; 1; 5; 2]%Z 0%Z.
Definition xdp (n : nat) : Z := nth n [1; 2; 0; 0]%Z 0%Z.
Definition xsearch (sharp : nat -> nat -> nat -> bool) (maxD : Z) := depthSearch xf xt xin xout xdp xlen Z.add sharp (fun n => n =? 3) maxD 0 nearest 11 0.
Example ex_adj : (forall n g, In g (xin n) <-> In g [0; 1; 2; 3] /\ xt g = n) /\ (forall n g, In g (xout n) <-> In g [0; 1; 2; 3] /\ xf g = n).
Proof. split; intros n g; unfold xin, xout; rewrite filter_In, Nat.eqb_eq; tauto. Qed.
Example ex_found : xsearch (fun _ _ _ => false) 5 = Some (Some 3) /\ xsearch (fun _ _ _ => false) 4 = Some None /\
  xsearch (fun n a m => (n =? 2) && (a =? 0) && (m =? 3)) 5 = Some None.
Proof. vm_compute. repeat split. Qed.
Example ex_plus : (forall d g, In g [0; 1; 2; 3] -> (d <= d + xlen g)%Z) /\ (forall a b g, (a <= b)%Z -> (a + xlen g <= b + xlen g)%Z) /\
  (forall a n m, ~ full xin xout (fun _ _ _ => false) a n m).
Proof. split; [|split; [intros; lia | intros a n m (_ & H); discriminate]]. intros d g [<- | [<- | [<- | [<- | []]]]]; cbn; lia. Qed.
(** With sharp turns something is missed: node 2 is reached first by the short way, from where the turn to node 3 is too sharp;
    it is not visited again by the longer way, from where it is not. *)
Theorem C54_sharp_refuted : exists efrom eto adjIn adjOut dp len sharp sf maxD e n,
  (forall n g, In g (adjIn n) <-> In g [0; 1; 2; 3] /\ eto g = n) /\ (forall n g, In g (adjOut n) <-> In g [0; 1; 2; 3] /\ efrom g = n) /\
  depthSearch efrom eto adjIn adjOut dp len Z.add sharp sf maxD 0 nearest 11 e = Some None /\
  Findable (fun g => In g [0; 1; 2; 3]) efrom eto dp len Z.add (full adjIn adjOut sharp) e maxD 0 n /\ sf n = true.
Proof.
  exists xf, xt, xin, xout, xdp, xlen, (fun n a m => (n =? 2) && (a =? 0) && (m =? 3)), (fun n => n =? 3), 10%Z, 0, 3.
  split; [apply ex_adj|]. split; [apply ex_adj|]. split; [vm_compute; reflexivity|]. split; [|reflexivity]. right. exists 3, 9%Z, 0%Z. split; [|split; [lia | right; lia]].
  change 9%Z with (Z.add (Z.add (xdp 1) (xlen 2)) (xlen 3)). change 0%Z with (0 + 0 + 0)%Z. apply (Wk_step) with (n := 2) (f := 2) (a := 1).
  - apply Wk_step with (n := 1) (f := 0) (a := 0).
    + apply Wk_start. right. reflexivity.
    + cbn. tauto.
    + left. split; reflexivity.
    + discriminate.
    + right. split; reflexivity.
    + right. split; [|reflexivity]. intros (_ & H). vm_compute in H. discriminate.
  - cbn. tauto.
  - left. split; reflexivity.
  - discriminate.
  - right. split; reflexivity.
  - right. split; [|reflexivity]. intros (_ & H). vm_compute in H. discriminate.
Qed.
Print Assumptions C54_sharp_refuted.

(** ** C59 *)
Section Props.
Context {P I PL : Type}.
Notation edge := (@edge PL).
Notation st := (@st P I PL).
(** Snapping never fails.  No node is moved or lost, stations stay stations with their info (a missing track may be filled in),
    each edge is there or was replaced by a chain of edges with the same payload by way of new nodes, which the restrictor was
    told, all new nodes are stations on such chains, roads above the level are not touched. *)
Theorem C59_kept : forall hav half five plus project sharpAt lvl maxSnapLevel maxBlockDistance simiEq simiLow noTrack takeTrack pick ord cands
    (s : st) ds stations,
  (forall l, match pick l with None => l = [] | Some (c, r) => Permutation l (c :: r) end) -> (forall l, Permutation (ord l) l) ->
  (forall (s : st) p d, Ok s -> NoDup (cands s p d) /\ forall c, In c (cands s p d) -> present s c) ->
  Ok s -> (forall n, In n stations -> n < size s /\ exists k, state s n = Station k) ->
  exists s', snapStats hav half five plus project sharpAt lvl maxSnapLevel maxBlockDistance simiEq simiLow noTrack takeTrack pick ord cands s ds stations = Some s' /\
    Ok s' /\ Kept noTrack takeTrack lvl maxSnapLevel s s'.
Proof. intros hav half five plus project sharpAt lvl mL mB simiEq simiLow noTrack takeTrack pick ord cands s ds stations H1 H2 H3. apply snapStats_ok; assumption. Qed.
(** Where a station is snapped, the nodes that become stations have its info. *)
Theorem C59_station : forall hav half five plus project sharpAt lvl maxSnapLevel maxBlockDistance simiEq simiLow noTrack takeTrack pick ord cands
    (s : st) n d k i s',
  (forall l, match pick l with None => l = [] | Some (c, r) => Permutation l (c :: r) end) -> (forall l, Permutation (ord l) l) ->
  (forall (s : st) p d, Ok s -> NoDup (cands s p d) /\ forall c, In c (cands s p d) -> present s c) ->
  Ok s -> state s n = Station k -> nth_error (infos s) k = Some i ->
  snapStation hav half five plus project sharpAt lvl maxSnapLevel maxBlockDistance simiEq simiLow noTrack takeTrack pick ord cands s n d = Some s' ->
  forall m, m < size s' -> (m < size s -> forall q, state s m <> Station q) -> (exists q, state s' m = Station q) -> exists j, Info s' m j /\ Filled noTrack takeTrack i j.
Proof.
  intros hav half five plus project sharpAt lvl mL mB simiEq simiLow noTrack takeTrack pick ord cands s n d k i s' H1 H2 H3 HO Hn Hi H m Hm Hno (q & Hq).
  destruct (snapStation_ok hav half five plus project sharpAt lvl mL mB simiEq simiLow noTrack takeTrack pick ord H1 H2 cands H3 s n d k HO Hn) as (s1 & E & HO1 & HK & _ & (C1 & C2)).
  rewrite H in E. injection E as <-. destruct (lt_dec m (size s)) as [Hlt | Hge].
  - destruct (C1 m Hlt (Hno Hlt) q Hq) as (i0 & j & Hi0 & Hj & HF). rewrite Hi in Hi0. injection Hi0 as <-. exists j. split; [exists q; tauto | exact HF].
  - destruct (proj2 (kp_infos _ _ _ _ _ _ HK) k i Hi) as (j & Hj & HF). exists j. split; [exists k; split; [apply C2; lia | exact Hj] | exact HF].
Qed.
(** One candidate edge. *)
Theorem C59_edge : forall hav half five plus project sharpAt lvl maxSnapLevel maxBlockDistance simiEq simiLow noTrack takeTrack pick ord
    d2 k (s : st) g e i s' g',
  (forall l, match pick l with None => l = [] | Some (c, r) => Permutation l (c :: r) end) -> (forall l, Permutation (ord l) l) ->
  Ok s -> In e (edges s) -> nth_error (infos s) k = Some i ->
  snapEdge hav half five plus project sharpAt lvl maxSnapLevel maxBlockDistance simiEq simiLow noTrack takeTrack pick ord d2 k (s, g) (eId e) = Some (s', g') ->
  let geom := project (geo s (eFrom e)) g (geo s (eTo e)) in
  (* an equivalent station is near: at most its track is set *)
  (exists m, Reached hav plus sharpAt s geom d2 (eId e) m /\ (exists j, Info s m j /\ simiEq j i = true /\ (infos s' = infos s \/ ((hav g (geo s m) < five)%Z /\ noTrack j = true))) /\ OnlyTrack noTrack takeTrack s s' i /\ g' = g) \/
  (* a road of a high level *)
  (maxSnapLevel < lvl (ePl e) /\ s' = s /\ g' = g) \/
  (* a blocker or a different station is near *)
  ((exists m, Reached hav plus sharpAt s geom maxBlockDistance (eId e) m /\ (state s m = Blocker \/ exists j, Info s m j /\ simiLow j i = true)) /\ s' = s /\ g' = g) \/
  (* the station is placed at an end of the edge *)
  (lvl (ePl e) <= maxSnapLevel /\ exists n, (n = eFrom e \/ n = eTo e) /\ (forall j, ~ Info s n j) /\ (hav geom (geo s n) < half)%Z /\ PlacedAt s s' n i /\ g' = g) \/
  (* the station is placed on the edge *)
  (lvl (ePl e) <= maxSnapLevel /\ (forall n, n = eFrom e \/ n = eTo e -> (exists j, Info s n j) \/ (half <= hav geom (geo s n))%Z) /\ PlacedOn s s' e geom k /\ g' = geom).
Proof. intros hav half five plus project sharpAt lvl mL mB simiEq simiLow noTrack takeTrack pick ord d2 k s g e i s' g' H1 H2. apply snapEdge_cases; assumption. Qed.
(** Without full turns, no station is placed where an equivalent one is near. *)
Theorem C59_equivalent : forall hav half five plus project sharpAt lvl maxSnapLevel maxBlockDistance simiEq simiLow noTrack takeTrack pick ord
    d2 k (s : st) g e i s' g' m j,
  (forall l, match pick l with None => l = [] | Some (c, r) => Permutation l (c :: r) end) -> (forall l, Permutation (ord l) l) ->
  (forall l c r, (forall x, In x l -> cTurns x = 0%Z) -> pick l = Some (c, r) -> forall x, In x r -> (cDist c <= cDist x)%Z) ->
  (forall d a b, (d <= plus d (hav a b))%Z) -> (forall a b x y, (a <= b)%Z -> (plus a (hav x y) <= plus b (hav x y))%Z) ->
  Ok s -> (forall a n m, ~ fullAt sharpAt s a n m) -> In e (edges s) -> nth_error (infos s) k = Some i ->
  snapEdge hav half five plus project sharpAt lvl maxSnapLevel maxBlockDistance simiEq simiLow noTrack takeTrack pick ord d2 k (s, g) (eId e) = Some (s', g') ->
  Reached hav plus sharpAt s (project (geo s (eFrom e)) g (geo s (eTo e))) d2 (eId e) m -> Info s m j -> simiEq j i = true ->
  OnlyTrack noTrack takeTrack s s' i /\ g' = g.
Proof. intros hav half five plus project sharpAt lvl mL mB simiEq simiLow noTrack takeTrack pick ord d2 k s g e i s' g' m j H1 H2 H3 H4 H5. apply snapEdge_equiv; assumption. Qed.
End Props.
Print Assumptions C59_kept.
Print Assumptions C59_station.
Print Assumptions C59_edge.
Print Assumptions C59_equivalent.

(** *** Positions on a line; infos: name and track *)
Definition lhav (a b : Z) : Z := Z.abs (a - b).
Definition lproj (a p b : Z) : Z := Z.max (Z.min a b) (Z.min p (Z.max a b)).
Definition Inf : Type := (nat * nat)%type.
Definition lcands (s : @st Z Inf nat) (p d : Z) : list nat :=
  map eId (filter (fun e => lhav p (lproj (geo s (eFrom e)) p (geo s (eTo e))) <=? d)%Z (edges s)).
Definition sameName (a b : Inf) : bool := fst a =? fst b.
Definition lsnap := snapStats (PL := nat) lhav 1 5 Z.add lproj (fun _ _ _ => false) (fun l => l) 5 5 sameName (fun a b => negb (sameName a b))
  (fun i => snd i =? 0) (fun a b => (fst a, snd b)) nearest (fun l => l) lcands.
(** 0 - 1 - 2 at 0, 100, 200 (the second edge has level 7); stations 3 at 40, 4 at 43 with the same name, 5 at 99, 6 at 150 *)
Definition line : @st Z Inf nat := mkSt 7 (fun n => nth n [0; 100; 200; 40; 43; 99; 150]%Z 0%Z)
  (fun n => match n with 3 => Station 0 | 4 => Station 1 | 5 => Station 2 | 6 => Station 3 | 1 => Turn | _ => Plain end) [(7, 0); (7, 2); (8, 1); (9, 1)]
  [mkEdge 0 0 1 3; mkEdge 1 1 2 7] 2 [].
Example ex_line_ok : Ok line /\ (forall n, In n [3; 4; 5; 6] -> n < size line /\ exists k, state line n = Station k).
Proof.
  split; [constructor; cbn|].
  - repeat constructor; cbn; intuition discriminate.
  - intros e [<- | [<- | []]]; cbn; lia.
  - intros x y [<- | [<- | []]] [<- | [<- | []]]; cbn; congruence.
  - intros e [<- | [<- | []]]; cbn; lia.
  - intros n k H. do 7 (destruct n as [|n]; [try discriminate; injection H as <-; lia|]). discriminate.
  - intros n [<- | [<- | [<- | [<- | []]]]]; (split; [cbn; lia | eexists; reflexivity]).
Qed.
Example ex_lcands : forall (s : @st Z Inf nat) p d, Ok s -> NoDup (lcands s p d) /\ forall c, In c (lcands s p d) -> present s c.
Proof.
  intros s p d HO. unfold lcands, present. split; [apply NoDup_filter_map; apply (ok_ids s HO)|]. intros c H. apply in_map_iff in H. destruct H as (e & <- & He). apply filter_In in He. apply in_map. tauto.
Qed.
(** station 3 splits the first edge; station 4 finds it, its own track is set; station 5 is too far from the end and splits
    again; station 6 is not placed *)
Example ex_line : match lsnap line [10%Z] [3; 4; 5; 6] with
  | Some s => size s = 9 /\ map (geo s) [7; 8] = [40; 99]%Z /\ map (state s) [7; 8] = [Station 0; Station 2] /\ infos s = [(7, 2); (7, 2); (8, 1); (9, 1)] /\
              edges s = [mkEdge 1 1 2 7; mkEdge 2 0 7 3; mkEdge 4 7 8 3; mkEdge 5 8 1 3] /\ told s = [(0, 2, 3); (3, 4, 5)]
  | None => False end.
Proof. vm_compute. repeat split. Qed.
Example ex_line_edge : match snapEdge (PL := nat) lhav 2 5 Z.add lproj (fun _ _ _ => false) (fun l => l) 5 5 sameName (fun a b => negb (sameName a b))
  (fun i => snd i =? 0) (fun a b => (fst a, snd b)) nearest (fun l => l) 20 2 (line, 99%Z) 0 with
  | Some (s, _) => state s 1 = Station 4 /\ infos s = infos line ++ [(8, 1)] /\ size s = 7
  | None => False end.
Proof. vm_compute. repeat split. Qed.
(** A node that is a turning circle and becomes a station is no turning circle any more (then full turns there are penalised). *)
Theorem C59_turning_circle_refuted : exists (s s' : @st Z Inf nat) n, Ok s /\ state s n = Turn /\
  snapStats (PL := nat) lhav 2 5 Z.add lproj (fun _ _ _ => false) (fun l => l) 5 5 sameName (fun a b => negb (sameName a b))
    (fun i => snd i =? 0) (fun a b => (fst a, snd b)) nearest (fun l => l) lcands s [10%Z] [5] = Some s' /\ state s' n <> Turn.
Proof.
  eexists line, _, 1. split; [apply ex_line_ok|]. split; [reflexivity|]. split; [vm_compute; reflexivity|]. vm_compute. discriminate.
Qed.
Print Assumptions C59_turning_circle_refuted.

(** *** Positions in the plane, edges parallel to an axis *)
Definition phav (a b : Z * Z) : Z := (Z.abs (fst a - fst b) + Z.abs (snd a - snd b))%Z.
Definition pproj (a p b : Z * Z) : Z * Z := if (fst a =? fst b)%Z then (fst a, snd p) else (fst p, snd a).
Definition pcands (s : @st (Z * Z) Inf nat) (p : Z * Z) (d : Z) : list nat :=
  map eId (filter (fun e => phav p (pproj (geo s (eFrom e)) p (geo s (eTo e))) <=? d)%Z (edges s)).
Definition plane : @st (Z * Z) Inf nat := mkSt 5 (fun n => nth n [(0, -30); (0, 30); (-60, 4); (60, 4); (5, 3)]%Z (0, 0)%Z)
  (fun n => match n with 4 => Station 0 | _ => Plain end) [(7, 0)] [mkEdge 0 0 1 3; mkEdge 1 2 3 3] 2 [].
(** The station is moved: on the second edge it is not placed at the projection of its position. *)
Theorem C59_position_refuted : exists (s s' : @st (Z * Z) Inf nat) n e, Ok s /\ In e (edges s) /\
  snapStation (PL := nat) phav 1 5 Z.add pproj (fun _ _ _ => false) (fun l => l) 5 5 sameName (fun a b => negb (sameName a b))
    (fun i => snd i =? 0) (fun a b => (fst a, snd b)) nearest (fun l => l) pcands s 4 6 = Some s' /\
  size s <= n < size s' /\ (exists a, In a (edges s') /\ eFrom a = eFrom e /\ eTo a = n) /\
  geo s' n <> pproj (geo s (eFrom e)) (geo s 4) (geo s (eTo e)).
Proof.
  eexists plane, _, 6, (mkEdge 1 2 3 3). split; [|split; [right; left; reflexivity | split; [vm_compute; reflexivity|]]].
  - constructor; cbn.
    + repeat constructor; cbn; intuition discriminate.
    + intros e [<- | [<- | []]]; cbn; lia.
    + intros x y [<- | [<- | []]] [<- | [<- | []]]; cbn; congruence.
    + intros e [<- | [<- | []]]; cbn; lia.
    + intros n k H. do 5 (destruct n as [|n]; [try discriminate; injection H as <-; lia|]). discriminate.
  - split; [cbn; lia|]. split; [|vm_compute; discriminate]. exists (mkEdge 4 2 6 3). cbn. tauto.
Qed.
Print Assumptions C59_position_refuted.
