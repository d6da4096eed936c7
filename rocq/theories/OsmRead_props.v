(** Theorems about the reading and filtering of OSM files: C09, C10, C11, C53. *)
From Coq Require Import Ascii String List Arith NArith Bool Lia.
From Verif Require Import OsmRead_model OsmRead_spec OsmRead_proofs.
Import ListNotations.
Open Scope string_scope.
Open Scope nat_scope.
Open Scope list_scope.

(** ** A sample file *)
Definition hasTag (k v : string) (a : list (string * string)) : bool := existsb (fun x => String.eqb (fst x) k && String.eqb (snd x) v) a.
Definition sampleCfg : @cfg nat :=
  mkCfg (fun p => p <? 100) (fun k v => String.eqb k "railway" && String.eqb v "crossing")
    (fun _ => true) (fun k => String.eqb k "railway") (fun _ => true)
    (hasTag "railway" "station") (fun _ => false) (hasTag "railway" "rail") (fun _ => false)
    (fun a => if hasTag "type" "route" a then 1%N else if hasTag "type" "restriction" a then 3%N else 0%N) (fun _ => 0%N)
    (fun _ => false) (hasTag "restriction" "no_left_turn") (fun _ => false) (fun _ => false).
Notation el h b := (mkElem h b).
Notation tg3 k v := (mkTok 3 (TTag k v)).
Notation nd3 r := (mkTok 3 (TNd r)).
Definition sNodes : list (@elem nat) :=
  [el (TNode 1 10) []; el (TNode 2 20) [tg3 "railway" "crossing"]; el (TNode 3 30) [];
   el (TNode 4 200) []; el (TNode 5 50) [tg3 "railway" "station"]; el (TNode 6 300) [tg3 "railway" "crossing"]].
Definition sWays : list (@elem nat) :=
  [el (TWay 11) [nd3 1; nd3 2; nd3 3; tg3 "railway" "tram"; mkTok 4 TOther; tg3 "name" "x"; tg3 "railway" "rail"];
   el (TWay 12) [nd3 3; nd3 4; nd3 6; nd3 1; nd3 2];
   el (TWay 13) [nd3 1; nd3 3]].
Definition sRels : list (@elem nat) :=
  [el (TRel 21) [mkTok 3 (TMember MWay 12 ""); mkTok 3 (TMember MNode 5 "stop"); tg3 "type" "route"];
   el (TRel 22) [tg3 "type" "restriction"; tg3 "restriction" "no_left_turn"; mkTok 3 (TMember MWay 11 "from"); mkTok 3 (TMember MWay 12 "to"); mkTok 3 (TMember MNode 3 "via")]].
Definition sPre : list (@tok nat) := [mkTok 1 TOther; mkTok 2 TOther].
Definition sFile : @xml nat := mkXml (mkTok 0 TOther) (sPre ++ text sNodes ++ text sWays ++ text sRels).
Ltac elems := repeat (constructor; [split; [eexists; try eexists; reflexivity | repeat (constructor; [split; [cbn; lia | exact Logic.I]|]); constructor]|]); constructor.
Example sample_ok : Forall nodeElem sNodes /\ Forall wayElem sWays /\ Forall relElem sRels /\ Forall noNodes sPre /\
  NoDup (map idOf sNodes) /\ NoDup (map idOf sWays) /\ (forall e m, In e sRels -> In m (wayMembers e) -> fst m <> 0).
Proof.
  split; [elems|]. split; [elems|]. split; [elems|]. split; [repeat (constructor; [exact Logic.I|]); constructor|].
  split; [repeat constructor; cbn; intuition discriminate|]. split; [repeat constructor; cbn; intuition discriminate|].
  intros e m [<- | [<- | []]]; cbn; intuition (subst; discriminate).
Qed.

(** ** C09: what is read
    For every well-formed file, every filter and every behaviour of the id sets on other ids, the
    relations, ways and nodes that are read are exactly those wanted, in order and with their content. *)
Theorem C09_file : forall (P : Type) E (c : @cfg P) ns ws rs (pre : list (@tok P)) n c0 readGraph,
  Forall nodeElem ns -> Forall wayElem ws -> Forall relElem rs -> Forall noNodes pre -> ns <> [] -> ws <> [] ->
  length ns < n -> length ws < n -> length rs < n ->
  exists b r rl wl nl, readFile E c readGraph n (mkXml c0 (pre ++ text ns ++ text ws ++ text rs)) = Some (r, wl, readGraph b r wl, nl) /\
    Picked (RelWanted c) (relVal c) rs rl /\ RelsOk rl r /\
    Picked (WayWanted c ns rs) (wayVal c) ws wl /\
    Picked (NodeWanted c ns rs (fun id => In id (map fst (gNodes (readGraph b r wl)))) (fun id => In id (map fst (gMult (readGraph b r wl))))) (nodeVal c) ns nl.
Proof.
  intros P E c ns ws rs pre n c0 rG Hns Hws Hrs Hpre Hns0 Hws0 Hn1 Hn2 Hn3.
  destruct (file_read E c ns ws rs Hns Hws Hrs pre Hpre Hns0 Hws0 n c0 rG Hn1 Hn2 Hn3) as (b & r & rl & wl & nl & H1 & H2 & _ & H4 & H5 & H6 & _).
  exists b, r, rl, wl, nl. tauto.
Qed.
Print Assumptions C09_file.
(** The tags that are read have different keys. *)
Theorem C09_tags : forall (P : Type) keys (e : @elem P), NoDup (map fst (tags keys e)).
Proof. exact tags_unique. Qed.
Print Assumptions C09_tags.
(** The reader of ways stops at the first entity of another kind, whatever the condition. *)
Theorem C09_way_block : forall (P : Type) E keys relK kW dW has (ws : list (@elem P)) t tl n c r,
  Forall wayElem ws -> lvl t = 2 -> (forall id, tg t <> TWay id) -> c :: r = text ws ++ t :: tl -> length ws < n ->
  exists l, readWays E keys (keepWay relK kW dW has) n (mkXml c r) = Some (l, mkXml t tl).
Proof.
  intros P E keys relK kW dW has ws t tl n c r Hws Ht Hn Heq Hlen.
  destruct (readWays_all E keys (keepWay relK kW dW has) ws (t :: tl) n c r) as (l & x & Hl & Hx & _); try assumption.
  - intros w Hw. unfold keepWay. rewrite Hw. reflexivity.
  - intros w Hw. unfold keepWay. replace (1 <? length (wNodes w)) with false; [rewrite andb_false_r; reflexivity|]. symmetry. apply Nat.ltb_ge. lia.
  - split; [apply top2; exact Ht|]. unfold newWay. destruct (tg t) eqn:E1; try reflexivity. exfalso. apply (Hn id). reflexivity.
  - destruct Hx as (t' & tl' & Heq' & ->); [discriminate|]. injection Heq' as <- <-. exists l. exact Hl.
Qed.
Print Assumptions C09_way_block.
Definition sRead E := readFile E sampleCfg (fun b r ws => readEdges (fun _ => 1) (fun _ => false) (fun _ => false) (relsOf (wayRels r)) (hasHup sampleCfg b) (hasBox sampleCfg b) ws) 20 sFile.
Example C09_sample : match sRead 2 with None => False | Some (r, wl, g, nl) =>
    map wId wl = [11; 12] /\ map wAttrs wl = [[("railway", "rail")]; []] /\ map wNodes wl = [[1; 2; 3]; [3; 4; 6; 1; 2]] /\
    map (@nId nat) nl = [1; 2; 3; 5] /\ wayRels r = [(12, 0); (11, 1); (12, 1)] /\ flat r = [1] end.
Proof. vm_compute. repeat split. Qed.
(** A file without ways: the search for the relations skips the first one.  So "exactly those
    wanted" is false without [ws <> []]. *)
Theorem C09_no_ways_refuted : exists ns rs : list (@elem nat), Forall nodeElem ns /\ Forall relElem rs /\ ns <> [] /\
  (exists e, In e rs /\ RelWanted sampleCfg e) /\
  match readFile 2 sampleCfg (fun _ _ ws => readEdges (fun _ => 1) (fun _ => false) (fun _ => false) (fun _ => []) (fun _ => false) (fun _ => true) ws) 20
          (mkXml (mkTok 0 TOther) (text ns ++ text [] ++ text rs)) with
  | Some (r, _, _, _) => relAttrs r = []
  | None => False
  end.
Proof.
  exists [el (TNode 5 50) [tg3 "railway" "station"]], [el (TRel 21) [mkTok 3 (TMember MNode 5 "stop"); tg3 "type" "route"]].
  split; [elems|]. split; [elems|]. split; [discriminate|]. split.
  - eexists. split; [left; reflexivity|]. repeat split; vm_compute; discriminate.
  - vm_compute. reflexivity.
Qed.
Print Assumptions C09_no_ways_refuted.

(** ** C10: the graph *)
(** The steps of the ways are exactly the neighbours among their used nodes, places with the same id
    share a graph node iff ways meet there, edges carry what the ways say, the restrictor hears of
    each step, and graph nodes get the position and state of the node. *)
Theorem C10_graph : forall level oneway onewayrev linesOf hup has ws,
  exists O, GraphOf level oneway onewayrev linesOf hup has ws (readEdges level oneway onewayrev linesOf hup has ws) O.
Proof. exact graph_ok. Qed.
Print Assumptions C10_graph.
Theorem C10_file : forall (P SI : Type) E (c : @cfg P) ns ws rs (pre : list (@tok P)) n c0 level oneway onewayrev linesOf
    (statInfo : nat -> list (string * string) -> option SI) station blocker turnCycle,
  Forall nodeElem ns -> Forall wayElem ws -> Forall relElem rs -> Forall noNodes pre -> ns <> [] -> ws <> [] ->
  length ns < n -> length ws < n -> length rs < n -> NoDup (map idOf ns) ->
  exists r wl g nl O hup has,
    readFile E c (fun b r ws => readEdges level oneway onewayrev (linesOf r) (hasHup c b) (hasBox c b) ws) n (mkXml c0 (pre ++ text ns ++ text ws ++ text rs)) = Some (r, wl, g, nl) /\
    (forall id, hup id = true <-> NoHup c ns id) /\ (forall id, has id = true <-> InBox c ns id) /\
    Picked (WayWanted c ns rs) (wayVal c) ws wl /\
    GraphOf level oneway onewayrev (linesOf r) hup has wl g O /\
    NodesOk statInfo station blocker turnCycle g O nl (readNodes statInfo station blocker turnCycle g nl) /\
    forall id v e, In (id, v) (concat O) -> In e ns -> idOf e = id -> id <> 0 -> ~ NoHup c ns id \/ InBox c ns id ->
      pPos (ngPay (readNodes statInfo station blocker turnCycle g nl) v) = posOf e.
Proof. exact @file_graph. Qed.
Print Assumptions C10_file.
(** The sample: node 2 is where ways do not meet, node 4 is left out, node 6 is outside. *)
Example C10_sample : match sRead 2 with None => False | Some (r, wl, g, nl) =>
    let s := readNodes (fun id _ => Some id) (hasTag "railway" "station") (fun _ => false) (fun _ => false) g nl in
    map (fun e => (eFrom e, eTo e, eLines e)) (gEdges g) = [(0, 1, [1]); (1, 2, [1]); (2, 3, [0; 1]); (3, 0, [0; 1]); (0, 4, [0; 1])] /\
    gNodes g = [(1, 0); (3, 2)] /\ gMult g = [(2, 1); (6, 3); (2, 4)] /\
    map (fun v => pPos (ngPay s v)) [0; 1; 2; 3; 4; 5] = [Some 10; Some 20; Some 30; None; Some 20; Some 50] /\ orphans s = [5] end.
Proof. vm_compute. repeat split. Qed.
(** "Every used node of the file gets its position" is false: a node where ways do not meet is
    used also outside of the box, but not read there. *)
Theorem C10_outside_refuted : exists (ns ws rs : list (@elem nat)) e, Forall nodeElem ns /\ Forall wayElem ws /\ Forall relElem rs /\ In e ns /\ NoHup sampleCfg ns (idOf e) /\
  match readFile 2 sampleCfg (fun b r ws => readEdges (fun _ => 1) (fun _ => false) (fun _ => false) (relsOf (wayRels r)) (hasHup sampleCfg b) (hasBox sampleCfg b) ws) 20
          (mkXml (mkTok 0 TOther) (text ns ++ text ws ++ text rs)) with
  | None => False
  | Some (r, wl, g, nl) => exists v, In (idOf e, v) (gMult g) /\ (exists e', In e' (gEdges g) /\ eTo e' = v) /\
      pPos (ngPay (readNodes (fun id _ => Some id) (fun _ => false) (fun _ => false) (fun _ => false) g nl) v) = None
  end.
Proof.
  exists sNodes, sWays, sRels, (el (TNode 6 300) [tg3 "railway" "crossing"]).
  split; [apply sample_ok|]. split; [apply sample_ok|]. split; [apply sample_ok|]. split; [cbn; tauto|]. split.
  - left. split; [discriminate|]. eexists. split; [|split; [reflexivity | exists "railway", "crossing"; split; [left; reflexivity | reflexivity]]]. cbn. tauto.
  - vm_compute. exists 3. split; [tauto|]. split; [|reflexivity]. eexists. split; [right; right; left; reflexivity | reflexivity].
Qed.
Print Assumptions C10_outside_refuted.
(** "An edge is driven both ways where a way without direction runs" is false: a later way on the
    same nodes gives the shared edge its direction. *)
Definition both := mkWay 11 [1; 2] [].
Definition single := mkWay 12 [1; 2] [("oneway", "yes")].
Theorem C10_direction_refuted : exists e,
  gEdges (readEdges (fun _ => 1) (hasTag "oneway" "yes") (fun _ => false) (fun _ => []) (fun _ => false) (fun _ => true) [both; single]) = [e] /\ eOneWay e = 1.
Proof. eexists. split; reflexivity. Qed.
Print Assumptions C10_direction_refuted.

(** ** C11: filtering *)
(** What is written: nodes, ways and relations that are wanted, in order and with their content.
    If the last way of the file is written, the first relation is not. *)
Theorem C11_written : forall (P : Type) E (c : @cfg P) ns ws rs pre n c0,
  Forall nodeElem ns -> Forall wayElem ws -> Forall relElem rs -> Forall noNodes pre -> ns <> [] -> ws <> [] ->
  length ns < n -> length ws < n -> length rs < n -> NoDup (map idOf ns) -> NoDup (map idOf ws) ->
  exists nl wl ro rs', filterWrite E c n (mkXml c0 (pre ++ text ns ++ text ws ++ text rs)) = Some (map ONode nl ++ map OWay wl ++ ro) /\
  Picked (WayWanted c ns rs) (wayVal c) ws wl /\
  Picked (NodeWanted c ns rs (fun id => In id (flat_map wNodes wl)) (fun _ => False)) (nodeVal c) ns nl /\
  Written c (fun i => In i (flat_map wNodes wl) \/ In i (map nId nl)) (fun i => In i (map wId wl)) rs' ro /\
  ((~ LastWanted (WayWanted c ns rs) ws /\ rs' = rs) \/ (LastWanted (WayWanted c ns rs) ws /\ rs' = tl rs)).
Proof. exact @file_filtered. Qed.
Print Assumptions C11_written.
(** The output is closed: nodes of written ways are written, with their position; members of
    written relations are written ways and written nodes, or nodes of written ways. *)
Theorem C11_closed : forall (P : Type) E (c : @cfg P) ns ws rs pre n c0,
  Forall nodeElem ns -> Forall wayElem ws -> Forall relElem rs -> Forall noNodes pre -> ns <> [] -> ws <> [] ->
  length ns < n -> length ws < n -> length rs < n -> NoDup (map idOf ns) -> NoDup (map idOf ws) ->
  exists os, filterWrite E c n (mkXml c0 (pre ++ text ns ++ text ws ++ text rs)) = Some os /\
  (forall w id e, In (OWay w) os -> In id (wNodes w) -> In e ns -> idOf e = id -> id <> 0 -> exists nd, In (ONode nd) os /\ nId nd = id /\ nPos nd = posOf e) /\
  (forall id nm wm a, In (ORel id nm wm a) os -> (nm <> [] \/ wm <> []) /\
     (forall m, In m wm -> exists w, In (OWay w) os /\ wId w = fst m) /\
     (forall m, In m nm -> (exists nd, In (ONode nd) os /\ nId nd = fst m) \/ (exists w, In (OWay w) os /\ In (fst m) (wNodes w)))).
Proof. exact @closed. Qed.
Print Assumptions C11_closed.
(** Every wanted relation with a way that is written, or with a node of the file that is written,
    is written, unless it is the first relation and the last way is written. *)
Theorem C11_relations : forall (P : Type) E (c : @cfg P) ns ws rs pre n c0,
  Forall nodeElem ns -> Forall wayElem ws -> Forall relElem rs -> Forall noNodes pre -> ns <> [] -> ws <> [] ->
  length ns < n -> length ws < n -> length rs < n -> NoDup (map idOf ns) -> NoDup (map idOf ws) ->
  exists os, filterWrite E c n (mkXml c0 (pre ++ text ns ++ text ws ++ text rs)) = Some os /\
  forall e, In e rs -> RelWanted c e -> ~ LastWanted (WayWanted c ns rs) ws \/ In e (tl rs) ->
    (exists m w, In m (wayMembers e) /\ In (OWay w) os /\ wId w = fst m) \/ (exists m nd, In m (nodeMembers e) /\ In (ONode nd) os /\ nId nd = fst m) ->
    exists nm wm, In (ORel (idOf e) nm wm (tags (keysR c) e)) os /\
      (forall m w, In m (wayMembers e) -> In (OWay w) os -> wId w = fst m -> In m wm) /\
      (forall m nd, In m (nodeMembers e) -> In (ONode nd) os -> nId nd = fst m -> In m nm).
Proof. exact @all_relations. Qed.
Print Assumptions C11_relations.
Definition sWritten E := filterWrite E sampleCfg 20 sFile.
Example C11_sample : match sWritten 2 with None => False | Some os =>
    flat_map (fun o => match o with ONode n => [nId n] | _ => [] end) os = [1; 2; 3; 4; 5; 6] /\
    flat_map (fun o => match o with OWay w => [wId w] | _ => [] end) os = [11; 12] /\
    flat_map (fun o => match o with ORel id nm wm _ => [(id, map fst nm, map fst wm)] | _ => [] end) os = [(21, [5], [12]); (22, [3], [11; 12])] end.
Proof. vm_compute. repeat split. Qed.
Example C11_sample_last : ~ LastWanted (WayWanted sampleCfg sNodes sRels) sWays.
Proof.
  intros (d & e & Heq & _ & _ & Hk & _). assert (He : e = el (TWay 13) [nd3 1; nd3 3]).
  { change sWays with (removelast sWays ++ [el (TWay 13) [nd3 1; nd3 3]]) in Heq. symmetry. exact (proj2 (app_inj_tail _ _ _ _ Heq)). }
  subst e. destruct Hk as [(r & [<- | [<- | []]] & _ & Hin) | Hk]; [| |discriminate]; cbn in Hin; intuition discriminate.
Qed.
(** "All wanted relations with written members are written" is false: without the last way of the
    sample, which is not wanted, the first relation is lost. *)
Theorem C11_first_relation_refuted : exists ns ws rs : list (@elem nat), Forall nodeElem ns /\ Forall wayElem ws /\ Forall relElem rs /\
  match rs with r :: _ => RelWanted sampleCfg r | [] => False end /\
  match filterWrite 2 sampleCfg 20 (mkXml (mkTok 0 TOther) (text ns ++ text ws ++ text rs)), rs with
  | Some os, r :: _ => (exists w m, In (OWay w) os /\ In m (wayMembers r) /\ wId w = fst m) /\ forall id nm wm a, In (ORel id nm wm a) os -> id <> idOf r
  | _, _ => False
  end.
Proof.
  exists sNodes, (removelast sWays), sRels. split; [apply sample_ok|]. split; [elems|]. split; [apply sample_ok|]. split; [repeat split; vm_compute; discriminate|].
  vm_compute. split.
  - eexists _, _. split; [do 7 right; left; reflexivity|]. split; [left; reflexivity | reflexivity].
  - intros id nm wm a H. repeat (destruct H as [H | H]; [discriminate H || (injection H as <-; discriminate)|]). destruct H.
Qed.
Print Assumptions C11_first_relation_refuted.
(** "Node members of written relations are written nodes" is false, but only for nodes that are not
    in the file. *)
Theorem C11_member_refuted : exists ns ws rs : list (@elem nat), Forall nodeElem ns /\ Forall wayElem ws /\ Forall relElem rs /\
  match filterWrite 2 sampleCfg 20 (mkXml (mkTok 0 TOther) (text ns ++ text ws ++ text rs)) with
  | Some os => exists id nm wm a m, In (ORel id nm wm a) os /\ In m nm /\ forall nd, In (ONode nd) os -> nId nd <> fst m
  | None => False
  end.
Proof.
  exists [el (TNode 1 10) []], [el (TWay 11) [nd3 1; nd3 7; tg3 "railway" "rail"]; el (TWay 12) []], [el (TRel 21) [mkTok 3 (TMember MNode 7 "stop"); tg3 "type" "route"]].
  split; [elems|]. split; [elems|]. split; [elems|]. vm_compute. eexists _, _, _, _, _. split; [right; right; left; reflexivity|]. split; [left; reflexivity|].
  intros nd H. repeat (destruct H as [H | H]; [discriminate H || (injection H as <-; discriminate)|]). destruct H.
Qed.
Print Assumptions C11_member_refuted.

(** ** C53: restrictions *)
Theorem C53_rule : forall posRestr negRestr r pos via f t, NoDup (map fst (rAttrs r)) -> (forall m, In m (rWays r) -> fst m <> 0) ->
  In (pos, via, f, t) (readRestr posRestr negRestr r) <-> Rule posRestr negRestr r pos via f t.
Proof. exact restr_rule. Qed.
Print Assumptions C53_rule.
Theorem C53_one : forall posRestr negRestr r, length (readRestr posRestr negRestr r) <= 1.
Proof. exact restr_one. Qed.
Print Assumptions C53_one.
(** The rules of the file are those of the wanted relations. *)
Theorem C53_file : forall (P : Type) E (c : @cfg P) ns ws rs (pre : list (@tok P)) n c0 readGraph,
  Forall nodeElem ns -> Forall wayElem ws -> Forall relElem rs -> Forall noNodes pre -> ns <> [] -> ws <> [] ->
  length ns < n -> length ws < n -> length rs < n -> (forall e m, In e rs -> In m (wayMembers e) -> fst m <> 0) ->
  exists r wl g nl, readFile E c readGraph n (mkXml c0 (pre ++ text ns ++ text ws ++ text rs)) = Some (r, wl, g, nl) /\
    forall pos via f t, In (pos, via, f, t) (rests r) <-> exists e, In e rs /\ RelWanted c e /\ Rule (posR c) (negR c) (relVal c e) pos via f t.
Proof.
  intros P E c ns ws rs pre n c0 rG Hns Hws Hrs Hpre Hns0 Hws0 Hn1 Hn2 Hn3 Hm.
  destruct (file_read E c ns ws rs Hns Hws Hrs pre Hpre Hns0 Hws0 n c0 rG Hn1 Hn2 Hn3) as (b & r & rl & wl & nl & H1 & _ & H3 & H4 & _).
  exists r, wl, (rG b r wl), nl. split; [exact H1|]. intros pos via f t. rewrite H3, in_flat_map. split.
  - intros (x & Hx & Hr). apply (Picked_In _ _ _ _ _ _ H4) in Hx. destruct Hx as (e & He & Hw & <-). exists e. split; [exact He|]. split; [exact Hw|].
    apply restr_rule in Hr; [exact Hr | apply tags_unique | intros m; apply (Hm e m He)].
  - intros (e & He & Hw & Hr). exists (relVal c e). split; [apply (Picked_In _ _ _ _ _ _ H4); exists e; tauto|].
    apply restr_rule; [apply tags_unique | intros m; apply (Hm e m He) | exact Hr].
Qed.
Print Assumptions C53_file.
Example C53_sample : match sRead 2 with None => False | Some (r, _, _, _) => rests r = [(false, 3, 11, 12)] end.
Proof. vm_compute. reflexivity. Qed.
Example C53_sample_rule : Rule (posR sampleCfg) (negR sampleCfg) (relVal sampleCfg (nth 1 sRels (el (TWay 0) []))) false 3 11 12.
Proof. vm_compute. repeat split; try discriminate; [left; reflexivity | eexists; reflexivity]. Qed.
(** Two "from" members: no rule. *)
Example C53_two_from : forall p n, readRestr p n (mkRel 1 [(3, "via")] [(11, "from"); (12, "to"); (13, "from")] [("type", "restriction")] 1%N) = [].
Proof. intros. unfold readRestr. cbn. destruct (negb _ && negb _); reflexivity. Qed.
