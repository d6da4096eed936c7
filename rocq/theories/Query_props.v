(** C68: the Overpass query.  C69: the rules for osmfilter. *)
From Coq Require Import Ascii String List Arith NArith ZArith Bool Lia.
From Verif Require Import OsmFilter_model OsmFilter_spec OsmFilter_proofs BBoxIdx_model BBoxIdx_spec BBoxIdx_proofs Query_model Query_spec Query_proofs.
Import ListNotations.
Open Scope nat_scope.
Open Scope list_scope.

(** C68: for all configurations and areas, the calls give one document, with every element closed, *)
Theorem C68_document : forall cs leafs, exists ts, builds (overpass cs leafs) [] [] ts /\ forall ts', builds (overpass cs leafs) [] [] ts' -> ts' = ts.
Proof. intros cs leafs. exists (document cs leafs). split; [apply document_built|]. intros ts' B. exact (builds_unique _ _ _ _ (document_built cs leafs) ts' B). Qed.
Print Assumptions C68_document.

(** and its answer has an entity iff the entity, or one it is part of, has a tag of a rule that is not disabled for its kind and a
    point in a box of the area, as printed. *)
Theorem C68_answer : forall rnd D cs leafs ts e, agree cs -> builds (overpass cs leafs) [] [] ts ->
  (answer rnd D ts e <-> chosen rnd D cs leafs e \/ exists r, chosen rnd D cs leafs r /\ below D r e).
Proof.
  intros rnd D cs leafs ts e Ag B. rewrite (builds_unique _ _ _ _ (document_built cs leafs) ts B), document_answer, (chosenM_iff rnd D cs leafs e Ag). split.
  - intros [H|(r & H & Bl)]; [auto|]. right. exists r. split; [now apply chosenM_iff|auto].
  - intros [H|(r & H & Bl)]; [auto|]. right. exists r. split; [now apply chosenM_iff|auto].
Qed.
Print Assumptions C68_answer.

(** C68: also if configurations disagree on flags, nothing else is in the answer. *)
Theorem C68_only : forall rnd D cs leafs ts e, builds (overpass cs leafs) [] [] ts ->
  answer rnd D ts e -> chosen rnd D cs leafs e \/ exists r, chosen rnd D cs leafs r /\ below D r e.
Proof.
  intros rnd D cs leafs ts e B A. rewrite (builds_unique _ _ _ _ (document_built cs leafs) ts B) in A. apply document_answer in A.
  destruct A as [H|(r & H & Bl)]; [left; now apply chosenM_only|]. right. exists r. split; [now apply chosenM_only|auto].
Qed.
Print Assumptions C68_only.

(** C68: what any of the configurations needs is in the answer, if the digits printed change a coordinate by [e] at most and the points
    are at least [e] inside a box of the area, *)
Theorem C68_sufficient : forall rnd D e cs leafs ts c x, (forall z, Z.abs (rnd z - z) <= e)%Z -> agree cs -> no_lists cs -> In c cs ->
  builds (overpass cs leafs) [] [] ts -> needed D (fKeep c) (well_inside e leafs) x -> answer rnd D ts x.
Proof.
  intros rnd D e cs leafs ts c x Hr Ag Nl Ic B N. rewrite (builds_unique _ _ _ _ (document_built cs leafs) ts B). exact (needed_answer rnd D e cs leafs c x Hr Ag Nl Ic N).
Qed.
Print Assumptions C68_sufficient.

(** so also if they are in the (padded) box of one feed. *)
Theorem C68_feeds : forall rnd D e cs M pad area bs ts c x, (forall z, Z.abs (rnd z - z) <= e)%Z -> agree cs -> no_lists cs -> In c cs ->
  builds (overpass cs (getLeafs (adds M pad area bs))) [] [] ts -> needed D (fKeep c) (well_inside e (map pad bs)) x -> answer rnd D ts x.
Proof.
  intros rnd D e cs M pad area bs ts c x Hr Ag Nl Ic B N. apply (C68_sufficient rnd D e cs (getLeafs (adds M pad area bs)) ts c x); auto.
  induction N as [y a p T Mt A W|i a y p T Mt Mb A W|w n Nw IH Mb].
  - eapply nd_kept; eauto using leaf_around.
  - eapply nd_in_rel; eauto using leaf_around.
  - eapply nd_way_node; eauto.
Qed.
Print Assumptions C68_feeds.

(** C68: without a feed, nothing is asked for. *)
Theorem C68_no_feeds : forall rnd D cs M pad area ts e, (0 < M)%Z -> builds (overpass cs (getLeafs (adds M pad area []))) [] [] ts -> ~ answer rnd D ts e.
Proof.
  intros rnd D cs M pad area ts e HM B A.
  assert (X : forall y, ~ chosen rnd D cs (getLeafs (adds M pad area [])) y).
  { intros y (a & p & l & c & k & v & b & fl & _ & _ & [<-|[]] & L & _). cbn in L. lia. }
  destruct (C68_only rnd D cs _ ts e B A) as [H|(r & H & _)]; eapply X; eauto.
Qed.
Print Assumptions C68_no_feeds.

(** One configuration: ways with railway=rail, nodes with public_transport=*, relations with route=tram.  Way 1 has the tag; way 2 is
    part of relation 5; node 3 is outside, but part of way 1; node 9 is far away. *)
Definition exKeep : rulemap := [("railway", [("rail", 21%N)]); ("public_transport", [("*", 13%N)]); ("route", [("tram", 25%N)])]%string.
Definition exCfg : filt := withKeep exKeep [].
Definition exData : data := mkData
  (fun i => match i with
            | 1 => Some ((10, 10)%Z, []) | 2 => Some ((12, 14)%Z, [("public_transport", "platform")%string])
            | 3 => Some ((50, 50)%Z, []) | 9 => Some ((90, 90)%Z, [("public_transport", "platform")%string]) | _ => None end)
  (fun i => match i with 1 => Some ([1; 3], [("railway", "rail")%string]) | 2 => Some ([1; 2], [("railway", "tram")%string]) | _ => None end)
  (fun i => match i with 5 => Some ([], [2], [("type", "route"); ("route", "tram")]%string) | _ => None end).
Definition exLeafs : list box := [mkBox 0 0 20 20; mkBox 30 30 40 40].
Lemma ex_agree : forall c, NoDup (map fst (fKeep c)) -> (forall k vs, In (k, vs) (fKeep c) -> NoDup (map fst vs)) -> agree [c].
Proof.
  intros c Nd Nv c1 c2 k b fl fl' [<-|[]] [<-|[]] (vs & I & Ib) (vs' & I' & Ib').
  assert (E : vs = vs'). { clear - Nd I I'. induction (fKeep c) as [|[k0 v0] l IH]; [easy|]. cbn in Nd. inversion Nd; subst. destruct I as [I|I], I' as [I'|I'].
    - congruence.
    - injection I as -> ->. elim H1. apply in_map_iff. exists (k, vs'). auto.
    - injection I' as -> ->. elim H1. apply in_map_iff. exists (k, vs). auto.
    - auto. }
  subst vs'. specialize (Nv k vs I). clear - Nv Ib Ib'. induction vs as [|[b0 f0] l IH]; [easy|]. cbn in Nv. inversion Nv; subst. destruct Ib as [I|I], Ib' as [I'|I'].
  - congruence.
  - injection I as -> ->. elim H1. apply in_map_iff. exists (b, fl'). auto.
  - injection I' as -> ->. elim H1. apply in_map_iff. exists (b, fl). auto.
  - auto.
Qed.
Example C68_hypotheses : (forall z, Z.abs (z - z) <= 1)%Z /\ agree [exCfg] /\ no_lists [exCfg].
Proof.
  split; [intros; lia|]. split.
  - apply ex_agree; [repeat constructor; cbn; intuition discriminate|]. intros k vs I. cbn in I. destruct I as [I|[I|[I|[]]]]; injection I as <- <-; repeat constructor; cbn; tauto.
  - intros c k b fl [<-|[]] (vs & I & Ib). cbn in I. destruct I as [I|[I|[I|[]]]]; injection I as <- <-; destruct Ib as [Ib|[]]; injection Ib as <- <-; reflexivity.
Qed.
Example C68_needed : needed exData (fKeep exCfg) (well_inside 1 exLeafs) (EWay 1) /\ needed exData (fKeep exCfg) (well_inside 1 exLeafs) (ENode 3) /\
  needed exData (fKeep exCfg) (well_inside 1 exLeafs) (EWay 2).
Proof.
  assert (P : well_inside 1 exLeafs (10, 10)%Z) by (exists (mkBox 0 0 20 20); split; [now left|cbn; lia]).
  assert (W1 : needed exData (fKeep exCfg) (well_inside 1 exLeafs) (EWay 1)).
  { eapply nd_kept with (p := (10, 10)%Z); [eapply tg_way; reflexivity| | |exact P].
    - exists 21%N, "railway"%string, "rail"%string, "rail"%string. split; [now left|]. split; [exists [("rail"%string, 21%N)]; split; now left|]. split; [discriminate|right; now left].
    - eapply ap_member with (m := ENode 1); [eapply mb_way; [reflexivity|now left|reflexivity]|eapply ap_node; reflexivity]. }
  split; [exact W1|]. split.
  - eapply nd_way_node; [exact W1|]. eapply mb_way; [reflexivity|right; now left|reflexivity].
  - eapply nd_in_rel with (i := 5) (p := (10, 10)%Z); [eapply tg_rel; reflexivity| | | |exact P].
    + exists 25%N, "route"%string, "tram"%string, "tram"%string. split; [right; now left|]. split; [exists [("tram"%string, 25%N)]; split; [right; right; now left|now left]|]. split; [discriminate|right; now left].
    + eapply mb_rel_way; [reflexivity|now left|reflexivity].
    + eapply ap_member with (m := ENode 1); [eapply mb_way; [reflexivity|now left|reflexivity]|eapply ap_node; reflexivity].
Qed.
Example C68_calls : List.length (overpass [exCfg] exLeafs) = 5 + 9 + 2 * (3 + 3 * 6).
Proof. reflexivity. Qed.

(** C68 is false for values in lists (mult_val_match): the query asks for the exact value. *)
Theorem C68_lists_refuted : exists cs leafs D ts c x, agree cs /\ In c cs /\ builds (overpass cs leafs) [] [] ts /\
  needed D (fKeep c) (well_inside 0 leafs) x /\ ~ answer (fun z => z) D ts x.
Proof.
  set (c := withKeep [("route", [("tram", 33%N)])]%string []).
  set (D := mkData (fun i => match i with 1 => Some ((10, 10)%Z, [("route", "bus;tram")%string]) | _ => None end) (fun _ => None) (fun _ => None)).
  set (leafs := [mkBox 0 0 20 20]).
  assert (Ag : agree [c]). { apply ex_agree; [repeat constructor; cbn; tauto|]. intros k vs [I|[]]. injection I as <- <-. repeat constructor. cbn. tauto. }
  exists [c], leafs, D, (document [c] leafs), c, (ENode 1). split; [exact Ag|]. split; [now left|]. split; [apply document_built|]. split.
  - eapply nd_kept with (p := (10, 10)%Z); [eapply tg_node; reflexivity| |eapply ap_node; reflexivity|exists (mkBox 0 0 20 20); split; [now left|cbn; lia]].
    exists 33%N, "route"%string, "bus;tram"%string, "tram"%string. split; [now left|]. split; [exists [("tram"%string, 33%N)]; split; now left|]. split; [discriminate|].
    right. right. split; [reflexivity|]. exists "bus"%string, ""%string. left. reflexivity.
  - intros A. destruct (C68_only _ _ _ _ _ _ (document_built [c] leafs) A) as [H|(r & _ & Bl)].
    + destruct H as (a & p & l & c' & k & v & b & fl & T & _ & _ & _ & _ & [<-|[]] & R & _ & Iv & E). inversion T; subst. cbn in H0. injection H0 as <- <-.
      destruct Iv as [Iv|[]]. injection Iv as <- <-. destruct R as (vs & [I|[]] & Ib). injection I as <-. destruct Ib as [Ib|[]]. injection Ib as <- <-. destruct E; discriminate.
    + assert (N : forall e m, ~ member D e m) by (intros e m M; inversion M; discriminate). inversion Bl; subst; eapply N; eauto.
Qed.
Print Assumptions C68_lists_refuted.

(** C68 is false without the distance from the border: the digits printed may move the border inwards. *)
Theorem C68_border_refuted : exists rnd cs leafs D ts c x, (forall z, Z.abs (rnd z - z) <= 5)%Z /\ agree cs /\ no_lists cs /\ In c cs /\ builds (overpass cs leafs) [] [] ts /\
  needed D (fKeep c) (well_inside 0 leafs) x /\ ~ answer rnd D ts x.
Proof.
  set (rnd := fun z => (10 * ((z + 5) / 10))%Z). set (c := withKeep [("public_transport", [("*", 1%N)])]%string []).
  set (D := mkData (fun i => match i with 1 => Some ((6, 10)%Z, [("public_transport", "platform")%string]) | _ => None end) (fun _ => None) (fun _ => None)).
  set (leafs := [mkBox 5 0 20 20]).
  assert (Ag : agree [c]). { apply ex_agree; [repeat constructor; cbn; tauto|]. intros k vs [I|[]]. injection I as <- <-. repeat constructor. cbn. tauto. }
  exists rnd, [c], leafs, D, (document [c] leafs), c, (ENode 1). split; [|split; [exact Ag|split; [|split; [now left|split; [apply document_built|split]]]]].
  - intros z. unfold rnd. pose proof (Z.div_mod (z + 5) 10). pose proof (Z.mod_pos_bound (z + 5) 10). lia.
  - intros c' k b fl [<-|[]] (vs & [I|[]] & Ib). injection I as <- <-. destruct Ib as [Ib|[]]. injection Ib as <- <-. reflexivity.
  - eapply nd_kept with (p := (6, 10)%Z); [eapply tg_node; reflexivity| |eapply ap_node; reflexivity|exists (mkBox 5 0 20 20); split; [now left|cbn; lia]].
    exists 1%N, "public_transport"%string, "platform"%string, "*"%string. split; [now left|]. split; [exists [("*"%string, 1%N)]; split; now left|]. split; [discriminate|now left].
  - intros A. destruct (C68_only _ _ _ _ _ _ (document_built [c] leafs) A) as [H|(r & _ & Bl)].
    + destruct H as (a & p & l & c' & k & v & b & fl & _ & P & [<-|[]] & _ & Ip & _). inversion P; subst; [|match goal with M : member _ _ _ |- _ => inversion M; discriminate end].
      cbn in H0. injection H0 as <- <-. destruct Ip as (Ip & _). vm_compute in Ip. destruct Ip as (Ip & _). apply Ip. reflexivity.
    + assert (N : forall e m, ~ member D e m) by (intros e m M; inversion M; discriminate). inversion Bl; subst; eapply N; eauto.
Qed.
Print Assumptions C68_border_refuted.

(** C68 is false if configurations disagree on the flags of a rule. *)
Theorem C68_flags_refuted : exists cs leafs D ts c x, no_lists cs /\ In c cs /\ builds (overpass cs leafs) [] [] ts /\
  needed D (fKeep c) (well_inside 0 leafs) x /\ ~ answer (fun z => z) D ts x.
Proof.
  set (c1 := withKeep [("railway", [("rail", 17%N)])]%string []). set (c2 := withKeep [("railway", [("rail", 1%N)])]%string []).
  set (D := mkData (fun i => match i with 1 => Some ((10, 10)%Z, [("railway", "rail")%string]) | _ => None end) (fun _ => None) (fun _ => None)).
  set (leafs := [mkBox 0 0 20 20]).
  exists [c1; c2], leafs, D, (document [c1; c2] leafs), c2, (ENode 1). split; [|split; [right; now left|split; [apply document_built|split]]].
  - intros c' k b fl [<-|[<-|[]]] (vs & [I|[]] & Ib); injection I as <- <-; destruct Ib as [Ib|[]]; injection Ib as <- <-; reflexivity.
  - eapply nd_kept with (p := (10, 10)%Z); [eapply tg_node; reflexivity| |eapply ap_node; reflexivity|exists (mkBox 0 0 20 20); split; [now left|cbn; lia]].
    exists 1%N, "railway"%string, "rail"%string, "rail"%string. split; [now left|]. split; [exists [("rail"%string, 1%N)]; split; now left|]. split; [discriminate|right; now left].
  - intros A. apply document_answer in A. destruct A as [H|(r & _ & Bl)].
    + destruct H as (a & p & l & k & v & b & fl & _ & _ & _ & _ & _ & R & Dis & _). destruct R as (vs & [I|[]] & Ib). injection I as <- <-. destruct Ib as [Ib|[]]. injection Ib as <- <-. apply Dis. reflexivity.
    + assert (N : forall e m, ~ member D e m) by (intros e m M; inversion M; discriminate). inversion Bl; subst; eapply N; eauto.
Qed.
Print Assumptions C68_flags_refuted.

(** C69: an entity of any kind is selected iff a rule of some configuration has its key, and its value, no value or any value, *)
Theorem C69_selected : forall cs a, (forall c j k, In c cs -> j < 3 -> In k (keptKeys (fst c) (snd c) j) -> ~ heading k) ->
  (forall c k b fl, In c cs -> rule (fKeep (fst c)) k b fl -> no_eq k) ->
  ((exists l, under "--keep=" (osmfilter cs) l /\ line_keeps l a) <->
   exists c k v b fl, In c cs /\ rule (fKeep (fst c)) k b fl /\ In (k, v) a /\ (b = "*"%string \/ b = ""%string \/ v = b)).
Proof. intros cs a K E. exact (selected cs K E a). Qed.
Print Assumptions C69_selected.

(** so what some configuration keeps is selected, *)
Theorem C69_sufficient : forall cs a c t, (forall c j k, In c cs -> j < 3 -> In k (keptKeys (fst c) (snd c) j) -> ~ heading k) ->
  (forall c k b fl, In c cs -> rule (fKeep (fst c)) k b fl -> no_eq k) -> no_lists (map fst cs) ->
  In c cs -> rules_ok (fKeep (fst c)) -> keep (fst c) a (code t) <> 0%N -> exists l, under "--keep=" (osmfilter cs) l /\ line_keeps l a.
Proof.
  intros cs a c t K E Nl Ic Ok H. apply contained_iff in H; [|exact Ok]. destruct H as (fl & k & v & b & Iv & R & _ & Acc). apply C69_selected; auto.
  exists c, k, v, b, fl. repeat (split; [now auto|]). destruct Acc as [B|[B|(M & _)]]; auto.
  rewrite (Nl (fst c) k b fl (in_map fst cs c Ic) R) in M. discriminate.
Qed.
Print Assumptions C69_sufficient.

(** C69: the tags kept are those some configuration reads, and after dropping the others every configuration reads the same. *)
Theorem C69_tags : forall cs, (forall c j k, In c cs -> j < 3 -> In k (keptKeys (fst c) (snd c) j) -> ~ heading k) ->
  (forall k, tag_kept (osmfilter cs) k <-> exists c j, In c cs /\ j < 3 /\ In k (keptKeys (fst c) (snd c) j)) /\
  (forall a a' c j, stripped (tag_kept (osmfilter cs)) a a' -> In c cs -> j < 3 -> readAttrs (fst c) (snd c) j a' = readAttrs (fst c) (snd c) j a).
Proof. intros cs K. split; [exact (tags_kept cs K)|exact (stripped_read cs K)]. Qed.
Print Assumptions C69_tags.

Definition exCs : list (filt * (nat -> list string)) := [(exCfg, fun j => match j with 0 => ["name"%string] | _ => [] end); (withKeep [("route", [("tram", 1%N); ("bus", 1%N)])]%string [("access", [("no", 1%N)])]%string, fun _ => ["ref"%string])].
Example C69_lines : osmfilter exCs = ["--keep="; "railway=rail"; "public_transport="; "route=tram"; "route=bus"; ""; "--keep-tags="; "all";
  "railway="; "public_transport="; "route="; "name="; "access="; "ref="; "railway="; "public_transport="; "route="; "access="; "ref=";
  "railway="; "public_transport="; "route="; "access="; "ref="]%string.
Proof. reflexivity. Qed.
Example C69_hypotheses : (forall c j k, In c exCs -> j < 3 -> In k (keptKeys (fst c) (snd c) j) -> ~ heading k) /\
  (forall c k b fl, In c exCs -> rule (fKeep (fst c)) k b fl -> no_eq k) /\ no_lists (map fst exCs) /\ keep exCfg [("railway", "rail")%string] (code Way) <> 0%N.
Proof.
  assert (NE : forall k, (fix f (s : string) := match s with EmptyString => true | String c r => negb (Ascii.eqb c "=") && f r end) k = true -> no_eq k).
  { intros k H x y ->. induction x as [|c x IH]; cbn in H; [discriminate|]. apply andb_true_iff in H. apply IH. apply H. }
  split; [|split; [|split]].
  - intros c j k Ic Lj I (r & E). subst k. destruct Ic as [<-|[<-|[]]]; destruct j as [|[|[|j]]]; try lia; cbn in I; repeat destruct I as [I|I]; try discriminate; exact I.
  - intros c k b fl Ic (vs & I & _). apply NE. destruct Ic as [<-|[<-|[]]]; cbn in I; repeat destruct I as [I|I]; try (injection I as <- <-); try destruct I; reflexivity.
  - intros c k b fl Ic (vs & I & Ib). destruct Ic as [<-|[<-|[]]]; cbn in I; repeat destruct I as [I|I]; try (injection I as <- <-); try destruct I; cbn in Ib; repeat destruct Ib as [Ib|Ib]; try (injection Ib as <- <-); try destruct Ib; reflexivity.
  - vm_compute. discriminate.
Qed.

(** C69 is false for values in lists. *)
Theorem C69_lists_refuted : exists cs a c, (forall c j k, In c cs -> j < 3 -> In k (keptKeys (fst c) (snd c) j) -> ~ heading k) /\
  (forall c k b fl, In c cs -> rule (fKeep (fst c)) k b fl -> no_eq k) /\ In c cs /\ rules_ok (fKeep (fst c)) /\ keep (fst c) a (code Way) <> 0%N /\
  ~ exists l, under "--keep=" (osmfilter cs) l /\ line_keeps l a.
Proof.
  set (c := (withKeep [("r", [("tram", 33%N)])]%string [], fun _ : nat => @nil string)). 
  assert (K : forall c' j k, In c' [c] -> j < 3 -> In k (keptKeys (fst c') (snd c') j) -> ~ heading k).
  { intros c' j k [<-|[]] Lj I (r & E). subst k. destruct j as [|[|[|j]]]; try lia; cbn in I; repeat destruct I as [I|I]; try discriminate; exact I. }
  assert (E : forall c' k b fl, In c' [c] -> rule (fKeep (fst c')) k b fl -> no_eq k).
  { intros c' k b fl [<-|[]] (vs & [I|[]] & _) x y ->. injection I as I _. destruct x as [|? [|? ?]]; discriminate. }
  exists [c], [("r", "bus;tram")%string], c. split; [exact K|]. split; [exact E|]. split; [now left|]. split; [|split].
  - constructor; [repeat constructor; cbn; tauto|]. intros k b fl (vs & [I|[]] & Ib). injection I as <- <-. destruct Ib as [Ib|[]]. injection Ib as <- <-. discriminate.
  - vm_compute. discriminate.
  - intros H. apply (C69_selected [c] _ K E) in H. destruct H as (c' & k & v & b & fl & [<-|[]] & (vs & [I|[]] & Ib) & [Iv|[]] & B). injection Iv as <- <-. injection I as <-.
    destruct Ib as [Ib|[]]. injection Ib as <- <-. destruct B as [B|[B|B]]; discriminate.
Qed.
Print Assumptions C69_lists_refuted.
