(** Proofs for C68, C69. *)
From Coq Require Import Ascii String List Arith NArith ZArith Bool Lia.
From Verif Require Import OsmFilter_model OsmFilter_spec OsmFilter_proofs BBoxIdx_model BBoxIdx_spec BBoxIdx_proofs Query_model Query_spec.
Import ListNotations.
Open Scope nat_scope.
Open Scope list_scope.

(** ** The document *)
Lemma builds_unique : forall l st d ts, builds l st d ts -> forall ts', builds l st d ts' -> ts' = ts.
Proof.
  induction 1; intros ts' B; inversion B; subst; auto; try congruence.
Qed.

Definition queryTrees (b : box) (t k : string) (v : string * N) : list tree :=
  if skipped t (snd v) then []
  else [Elem "query" [("type"%string, VStr t)]
         [Elem "has-kv" (if String.eqb (fst v) "*" then [("k"%string, VStr k)] else [("k"%string, VStr k); ("v"%string, VStr (fst v))]) [];
          Elem "bbox-query" [("s"%string, VNum (y0 b)); ("w"%string, VNum (x0 b)); ("n"%string, VNum (y1 b)); ("e"%string, VNum (x1 b))] []]].
Definition boxTrees (f : filt) (b : box) : list tree :=
  flat_map (fun t => flat_map (fun r => flat_map (queryTrees b t (fst r)) (snd r)) (fKeep f)) ["way"; "node"; "relation"]%string.
Fixpoint boxesTrees (f : filt) (bs : list box) : list tree :=
  match bs with [] => [] | b :: r => if (x1 b <? x0 b)%Z then boxesTrees f r else Comment :: boxTrees f b ++ boxesTrees f r end.

(** [calls] add the trees [new] to an open element. *)
Definition adds_trees (calls : list call) (new : list tree) : Prop :=
  forall o ch st l d ts, builds l ((o, ch ++ new) :: st) d ts -> builds (calls ++ l) ((o, ch) :: st) d ts.
Lemma at_nil : adds_trees [] [].
Proof. intros o ch st l d ts B. now rewrite app_nil_r in B. Qed.
Lemma at_app : forall c1 n1 c2 n2, adds_trees c1 n1 -> adds_trees c2 n2 -> adds_trees (c1 ++ c2) (n1 ++ n2).
Proof. intros c1 n1 c2 n2 A1 A2 o ch st l d ts B. rewrite <- app_assoc. apply A1. apply A2. now rewrite <- app_assoc. Qed.
Lemma at_flat : forall (A : Type) (f : A -> list call) (g : A -> list tree) xs, (forall x, In x xs -> adds_trees (f x) (g x)) -> adds_trees (flat_map f xs) (flat_map g xs).
Proof. induction xs as [|x xs IH]; cbn [flat_map]; intros H; [apply at_nil|]. apply at_app; [apply H; now left|]. apply IH. intros y I. apply H. now right. Qed.
Lemma at_elem : forall n a c new, adds_trees c new -> adds_trees (COpen n a :: c ++ [CClose]) [Elem n a new].
Proof.
  intros n a c new A o ch st l d ts B. cbn [app]. apply bd_open. rewrite <- app_assoc. apply A. cbn [app]. apply bd_close. exact B.
Qed.
Lemma at_query : forall b t k v, adds_trees (queryCalls b t k v) (queryTrees b t k v).
Proof.
  intros b t k v. unfold queryCalls, queryTrees. destruct (skipped t (snd v)); [apply at_nil|].
  destruct (String.eqb (fst v) "*"); intros o ch st l d ts B; cbn [app]; repeat constructor; exact B.
Qed.
Lemma at_box : forall f b, adds_trees (boxCalls f b) (boxTrees f b).
Proof.
  intros f b. unfold boxCalls, boxTrees. apply at_flat. intros t _. apply at_flat. intros r _. apply at_flat. intros v _. apply at_query.
Qed.
Lemma at_boxes : forall f bs c, adds_trees (boxesCalls f c bs) (boxesTrees f bs).
Proof.
  induction bs as [|b bs IH]; intros c; cbn [boxesCalls boxesTrees]; [apply at_nil|]. destruct (x1 b <? x0 b)%Z; [apply IH|].
  change (Comment :: boxTrees f b ++ boxesTrees f bs) with ([Comment] ++ boxTrees f b ++ boxesTrees f bs).
  apply at_app; [|apply at_app; [apply at_box|apply IH]]. intros o ch st l d ts B. cbn [app]. apply bd_comment, bd_textbox. apply bd_close. exact B.
Qed.
Definition document (cs : list filt) (leafs : list box) : list tree :=
  [Comment; Elem "osm-script" [] [Elem "union" [] (boxesTrees (mergeConfigs cs) leafs);
    Elem "union" [] [Elem "item" [] []; Elem "recurse" [("type"%string, VStr "down")] []]; Elem "print" [] []]].
Lemma document_built : forall cs leafs, builds (overpass cs leafs) [] [] (document cs leafs).
Proof.
  intros cs leafs. unfold overpass. cbn [app]. apply bd_comment, bd_text. apply bd_close_top. cbn [app closed]. apply bd_open, bd_open.
  apply at_boxes. cbn [app]. apply bd_close. cbn [app closed]. apply bd_open, bd_open. apply bd_close. apply bd_open. apply bd_close. apply bd_close. apply bd_open.
  cbn [app closed]. apply bd_all_more; [discriminate|]. apply bd_close. apply bd_all_more; [discriminate|]. apply bd_close_top. apply bd_all_none. apply bd_end.
Qed.

(** ** The answer *)
Lemma skipped_iff : forall e fl, skipped (kind_name e) fl = true <-> disabled (kind_of e) fl.
Proof.
  intros e fl. unfold skipped, isSet. destruct e; cbn [kind_name kind_of]; cbn -[N.land N.eqb WAY REL NODE]; rewrite ?orb_false_r.
  - apply (disabled_iff Node).
  - apply (disabled_iff Way).
  - apply (disabled_iff Relation).
Qed.
Lemma merged_rule : forall cs k b fl, rule (fKeep (mergeConfigs cs)) k b fl -> exists c, In c cs /\ rule (fKeep c) k b fl.
Proof. intros cs k b fl R. apply (proj1 (merge_spec cs emptyFilt)) in R. destruct R as [(us & [] & _)|H]. exact H. Qed.
Lemma rule_merged : forall cs c k b fl, agree cs -> In c cs -> rule (fKeep c) k b fl -> rule (fKeep (mergeConfigs cs)) k b fl.
Proof.
  intros cs c k b fl Ag I R. destruct (proj2 (merge_spec cs emptyFilt) k b fl) as (fl' & R'); [right; eauto|].
  destruct (merged_rule cs k b fl' R') as (c' & I' & R2). rewrite (Ag c c' k b fl fl' I I' R R2). exact R'.
Qed.
Lemma in_boxes : forall f bs t, In t (boxesTrees f bs) <-> (exists b, In b bs /\ (x0 b <= x1 b)%Z /\ (t = Comment \/ In t (boxTrees f b))).
Proof.
  induction bs as [|b bs IH]; intros t; cbn [boxesTrees]; [split; [easy|intros (b & [] & _)]|].
  destruct (Z.ltb_spec (x1 b) (x0 b)).
  - rewrite IH. split; intros (b' & I & L & T); [exists b'; cbn; auto|]. destruct I as [<-|I]; [lia|]. eauto.
  - cbn [In]. rewrite in_app_iff, IH. split.
    + intros [<-|[I|(b' & I & L & T)]]; [exists b; auto|exists b; auto|exists b'; auto].
    + intros (b' & [<-|I] & L & [->|T]); eauto 8.
Qed.
Lemma in_box : forall f b t, In t (boxTrees f b) <-> exists ty k v fl, In ty ["way"; "node"; "relation"]%string /\ rule (fKeep f) k v fl /\ In t (queryTrees b ty k (v, fl)).
Proof.
  intros f b t. unfold boxTrees. rewrite in_flat_map. split.
  - intros (ty & Ity & I). apply in_flat_map in I. destruct I as ([k vs] & Ir & I). apply in_flat_map in I. destruct I as ([v fl] & Iv & I).
    exists ty, k, v, fl. split; [auto|]. split; [exists vs; auto|exact I].
  - intros (ty & k & v & fl & Ity & (vs & Ir & Iv) & I). exists ty. split; [auto|]. apply in_flat_map. exists (k, vs). split; [auto|]. apply in_flat_map. exists (v, fl). auto.
Qed.
Lemma kind_name_in : forall e, In (kind_name e) ["way"; "node"; "relation"]%string.
Proof. destruct e; cbn; auto. Qed.

Section Answer.
Variable rnd : Z -> Z.
Variable D : data.
Definition chosenM (f : filt) (leafs : list box) (e : ent) : Prop :=
  exists a p l k v b fl, tags D e a /\ at_point D e p /\ In l leafs /\ (x0 l <= x1 l)%Z /\ inside p (printed_box rnd l) /\
    rule (fKeep f) k b fl /\ ~ disabled (kind_of e) fl /\ In (k, v) a /\ (b = "*"%string \/ v = b).
Lemma gives_query : forall cur f leafs e, gives rnd D cur (Elem "union" [] (boxesTrees f leafs)) e <-> chosenM f leafs e.
Proof.
  intros cur f leafs e. split.
  - intros G. inversion G; subst. match goal with H : In _ _ |- _ => rename H into I end. match goal with H : gives _ _ _ t _ |- _ => rename H into Q end. apply in_boxes in I. destruct I as (l & Il & L & [->|I]); [inversion Q|].
    apply in_box in I. destruct I as (ty & k & b & fl & _ & R & I). unfold queryTrees in I. cbn [fst snd] in I. destruct (skipped ty fl) eqn:S; [destruct I|].
    destruct I as [<-|[]]. inversion Q; subst.
    match goal with H : in_bbox _ _ _ |- _ => inversion H; subst end.
    match goal with H : has_kv _ _ |- _ => rename H into K end.
    assert (Dis : ~ disabled (kind_of e) fl). { intros X. apply skipped_iff in X. congruence. }
    assert (KV : exists v, In (k, v) a /\ (b = "*"%string \/ v = b)).
    { destruct (String.eqb_spec b "*") as [->|Nb]; inversion K; subst; [exists v; auto|exists b; auto]. }
    destruct KV as (v & Iv & E). exists a, p, l, k, v, b, fl. repeat split; auto; unfold inside, printed_box; cbn; tauto.
  - intros (a & p & l & k & v & b & fl & T & A & Il & L & Ip & R & Dis & Iv & E).
    assert (S : skipped (kind_name e) fl = false). { destruct (skipped (kind_name e) fl) eqn:S; [|reflexivity]. apply skipped_iff in S. contradiction. }
    apply gv_union with (t := Elem "query" [("type"%string, VStr (kind_name e))]
         [Elem "has-kv" (if String.eqb b "*" then [("k"%string, VStr k)] else [("k"%string, VStr k); ("v"%string, VStr b)]) [];
          Elem "bbox-query" [("s"%string, VNum (y0 l)); ("w"%string, VNum (x0 l)); ("n"%string, VNum (y1 l)); ("e"%string, VNum (x1 l))] []]).
    + apply in_boxes. exists l. split; [auto|]. split; [auto|]. right. apply in_box. exists (kind_name e), k, b, fl. split; [apply kind_name_in|]. split; [auto|].
      unfold queryTrees. cbn [fst snd]. rewrite S. now left.
    + apply gv_query with (a := a) (p := p); auto.
      * destruct (String.eqb_spec b "*") as [->|Nb]; [now apply hk_any with (v := v)|]. destruct E as [->| ->]; [congruence|]. now apply hk_val.
      * destruct Ip as (Hx & Hy). unfold printed_box in Hx, Hy. cbn in Hx, Hy. now constructor.
Qed.
Lemma script_answer : forall cur f leafs e,
  runs rnd D cur [Elem "union" [] (boxesTrees f leafs); Elem "union" [] [Elem "item" [] []; Elem "recurse" [("type"%string, VStr "down")] []]; Elem "print" [] []] e
  <-> chosenM f leafs e \/ exists r, chosenM f leafs r /\ below D r e.
Proof.
  intros cur f leafs e. split.
  - intros R. inversion R as [|? ? ? ? R1]; subst. inversion R1 as [|? ? ? ? R2]; subst. inversion R2; subst; [|match goal with H : runs _ _ _ [] _ |- _ => inversion H end].
    match goal with H : gives _ _ _ _ _ |- _ => inversion H; subst end.
    match goal with H : In _ _ |- _ => destruct H as [<-|[<-|[]]] end; match goal with H : gives _ _ _ (Elem "item" _ _) _ |- _ => inversion H; subst | H : gives _ _ _ (Elem "recurse" _ _) _ |- _ => inversion H; subst end.
    + left. eapply gives_query. eassumption.
    + right. eexists. split; [eapply gives_query; eassumption|assumption].
  - intros H. apply rn_next, rn_next, rn_print. destruct H as [H|(r & H & B)].
    + apply gv_union with (t := Elem "item" [] []); [now left|]. apply gv_item. now apply gives_query.
    + apply gv_union with (t := Elem "recurse" [("type"%string, VStr "down")] []); [right; now left|]. apply gv_down with (e := r); [now apply gives_query|exact B].
Qed.
Lemma document_answer : forall cs leafs e, answer rnd D (document cs leafs) e <-> chosenM (mergeConfigs cs) leafs e \/ exists r, chosenM (mergeConfigs cs) leafs r /\ below D r e.
Proof.
  intros cs leafs e. rewrite <- (script_answer (fun _ => False)). split.
  - intros [ss I R]. destruct I as [I|[I|[]]]; [discriminate|]. injection I as <-. exact R.
  - intros R. econstructor; [right; now left|exact R].
Qed.
Lemma chosenM_iff : forall cs leafs e, agree cs -> (chosenM (mergeConfigs cs) leafs e <-> chosen rnd D cs leafs e).
Proof.
  intros cs leafs e Ag. split.
  - intros (a & p & l & k & v & b & fl & T & A & Il & L & Ip & R & H). destruct (merged_rule cs k b fl R) as (c & Ic & Rc). exists a, p, l, c, k, v, b, fl. tauto.
  - intros (a & p & l & c & k & v & b & fl & T & A & Il & L & Ip & Ic & R & H). exists a, p, l, k, v, b, fl. pose proof (rule_merged cs c k b fl Ag Ic R). tauto.
Qed.
Lemma chosenM_only : forall cs leafs e, chosenM (mergeConfigs cs) leafs e -> chosen rnd D cs leafs e.
Proof.
  intros cs leafs e (a & p & l & k & v & b & fl & T & A & Il & L & Ip & R & H). destruct (merged_rule cs k b fl R) as (c & Ic & Rc). exists a, p, l, c, k, v, b, fl. tauto.
Qed.
End Answer.

Lemma well_inside_printed : forall rnd e leafs p, (forall z, Z.abs (rnd z - z) <= e)%Z -> well_inside e leafs p ->
  exists l, In l leafs /\ (x0 l <= x1 l)%Z /\ inside p (printed_box rnd l).
Proof.
  intros rnd e leafs p Hr (l & I & Hx & Hy). exists l. assert (0 <= e)%Z by (pose proof (Hr 0%Z); lia). split; [auto|]. split; [lia|].
  unfold inside, printed_box. cbn. pose proof (Hr (x0 l)). pose proof (Hr (x1 l)). pose proof (Hr (y0 l)). pose proof (Hr (y1 l)). lia.
Qed.
Lemma kept_chosen : forall rnd D e cs leafs c x a p, (forall z, Z.abs (rnd z - z) <= e)%Z -> no_lists cs -> In c cs ->
  tags D x a -> matches (fKeep c) (kind_of x) a -> at_point D x p -> well_inside e leafs p -> chosen rnd D cs leafs x.
Proof.
  intros rnd D e cs leafs c x a p Hr Nl Ic T (fl & k & v & b & Iv & R & Dis & Acc) A W. destruct (well_inside_printed rnd e leafs p Hr W) as (l & Il & L & Ip).
  exists a, p, l, c, k, v, b, fl. repeat (split; [now auto|]). destruct Acc as [Acc|[Acc|(M & _)]]; auto. rewrite (Nl c k b fl Ic R) in M. discriminate.
Qed.
Lemma needed_answer : forall rnd D e cs leafs c x, (forall z, Z.abs (rnd z - z) <= e)%Z -> agree cs -> no_lists cs -> In c cs ->
  needed D (fKeep c) (well_inside e leafs) x -> answer rnd D (document cs leafs) x.
Proof.
  intros rnd D e cs leafs c x Hr Ag Nl Ic H.
  assert (G : chosen rnd D cs leafs x \/ exists r, chosen rnd D cs leafs r /\ below D r x).
  { induction H as [x a p T M A W|i a x p T M Mb A W|w n Nw IH Mb].
    - left. eapply kept_chosen; eauto.
    - right. exists (ERel i). split; [|now constructor]. eapply kept_chosen; eauto. eapply ap_member; eauto.
    - right. destruct IH as [C|(r & C & B)]; [exists (EWay w); split; [auto|now constructor]|]. exists r. split; [auto|].
      clear - B Mb. remember (EWay w) as y eqn:E. induction B as [r m M0|r m m' M0 B IH]; subst; [eapply bl_more; eauto; now constructor|]. eapply bl_more; eauto. }
  apply document_answer. destruct G as [C|(r & C & B)]; [left; now apply chosenM_iff|right]. exists r. split; [now apply chosenM_iff|auto].
Qed.
Lemma leaf_around : forall M pad area bs e p, well_inside e (map pad bs) p -> well_inside e (getLeafs (adds M pad area bs)) p.
Proof.
  intros M pad area bs e p (b & I & Hx & Hy). assert (Nn : map pad bs <> []) by (destruct (map pad bs); [destruct I|discriminate]).
  assert (N : bs <> []) by (destruct bs; [now elim Nn|discriminate]).
  destruct (leafs_grouped M pad area bs N) as (gs & P & F).
  assert (I' : In b (concat gs)) by (eapply Permutation.Permutation_in; [apply Permutation.Permutation_sym, P|exact I]).
  apply in_concat in I'. destruct I' as (g & Ig & Ib). clear P.
  assert (X : exists l, In l (getLeafs (adds M pad area bs)) /\ around g l).
  { clear - F Ig. induction F as [|g' l' gs' ls' R' F IH]; [easy|]. destruct Ig as [->|Ig]; [exists l'; split; [now left|auto]|]. destruct (IH Ig) as (l & B & C). exists l. split; [now right|auto]. }
  destruct X as (l & Il & (A & _)). exists l. split; [auto|]. destruct (A b Ib). lia.
Qed.

(** ** osmfilter *)
Lemma heading_eq : forall k w, heading (k ++ "=" ++ w)%string -> heading k.
Proof.
  intros k w (r & E). destruct k as [|c [|d k]]; [discriminate|discriminate|]. cbn in E. injection E as -> -> E. exists k. reflexivity.
Qed.
Lemma eq_split : forall k k' w w', no_eq k -> no_eq k' -> (k ++ "=" ++ w)%string = (k' ++ "=" ++ w')%string -> k = k' /\ w = w'.
Proof.
  assert (T : forall c k, no_eq (String c k) -> c <> "="%char /\ no_eq k).
  { intros c k N. split; [intros ->; apply (N ""%string k); reflexivity|]. intros x y ->. apply (N (String c x) y). reflexivity. }
  induction k as [|c k IH]; intros [|c' k'] w w' Nk Nk' E.
  - cbn in E. injection E as ->. auto.
  - cbn in E. injection E as <- E. destruct (T _ _ Nk') as (X & _). congruence.
  - cbn in E. injection E as -> E. destruct (T _ _ Nk) as (X & _). congruence.
  - cbn in E. injection E as -> E. destruct (T _ _ Nk) as (_ & A). destruct (T _ _ Nk') as (_ & B). destruct (IH k' w w' A B E) as (-> & ->). auto.
Qed.
(** A list with two headings, the rest not. *)
Lemma two_sections : forall h1 h2 b1 b2, heading h1 -> heading h2 -> h1 <> h2 -> (forall x, In x (b1 ++ b2) -> ~ heading x) ->
  forall l, (under h1 (h1 :: b1 ++ h2 :: b2) l <-> In l b1) /\ (under h2 (h1 :: b1 ++ h2 :: b2) l <-> In l b2).
Proof.
  intros h1 h2 b1 b2 H1 H2 Ne Nh l.
  assert (N1 : forall x, In x b1 -> ~ heading x) by (intros x I; apply Nh, in_app_iff; auto).
  assert (N2 : forall x, In x b2 -> ~ heading x) by (intros x I; apply Nh, in_app_iff; auto).
  (* the position of a heading in [b ++ r] *)
  assert (Skip : forall h b r before rest, heading h -> (forall x, In x b -> ~ heading x) -> b ++ r = before ++ h :: rest -> exists before', before = b ++ before' /\ r = before' ++ h :: rest).
  { induction b as [|x b IH]; intros r before rest Hh Nb E; [exists before; auto|]. destruct before as [|y before]; cbn in E.
    - injection E as -> _. elim (Nb h); [now left|auto].
    - injection E as -> E. destruct (IH r before rest Hh) as (b' & -> & ->); [intros z I; apply Nb; now right|auto|]. exists b'. auto. }
  assert (Cut : forall block after b r, (forall x, In x block -> ~ heading x) -> (exists t, r = h2 :: t) -> block ++ after = b ++ r -> In l block -> In l b).
  { induction block as [|x block IH]; intros after b r Nb (t & ->) E I; [destruct I|]. destruct b as [|y b]; cbn in E.
    - injection E as -> _. elim (Nb h2); [now left|auto].
    - injection E as -> E. destruct I as [->|I]; [now left|]. right. apply (IH after b (h2 :: t)); eauto. intros z Iz. apply Nb. now right. }
  split; split.
  - intros [before block after E Nb I]. destruct before as [|y before]; cbn in E.
    + injection E as E. apply (Cut block after b1 (h2 :: b2)); eauto.
    + injection E as <- E. destruct (Skip h1 b1 (h2 :: b2) before (block ++ after) H1 N1 E) as (b' & -> & E').
      destruct b' as [|z b']; cbn in E'; [congruence|]. injection E' as <- E'. elim (N2 h1); [rewrite E'; apply in_app_iff; right; now left|auto].
  - intros I. exists [] b1 (h2 :: b2); auto.
  - intros [before block after E Nb I]. destruct before as [|y before]; cbn in E; [congruence|]. injection E as <- E.
    destruct (Skip h2 b1 (h2 :: b2) before (block ++ after) H2 N1 E) as (b' & -> & E').
    destruct b' as [|z b']; cbn in E'.
    + injection E' as E'. rewrite E'. apply in_app_iff. auto.
    + injection E' as <- E'. elim (N2 h2); [rewrite E'; apply in_app_iff; right; now left|auto].
  - intros I. exists (h1 :: b1) b2 []; auto. now rewrite app_nil_r.
Qed.

Lemma addKey_in : forall s k x, In x (addKey s k) <-> In x s \/ x = k.
Proof.
  intros s k x. unfold addKey. destruct (existsb (String.eqb k) s) eqn:E.
  - apply existsb_exists in E. destruct E as (y & I & Ey). apply String.eqb_eq in Ey. subst y. split; [auto|]. intros [H| ->]; auto.
  - rewrite in_app_iff. cbn. split; [intros [H|[->|[]]]; auto|intros [H| ->]; auto].
Qed.
Lemma addKeys_in : forall ks s x, In x (fold_left addKey ks s) <-> In x s \/ In x ks.
Proof. induction ks as [|k ks IH]; cbn [fold_left In]; intros s x; [tauto|]. rewrite IH, addKey_in. intuition. Qed.
Lemma attrKeys_in : forall cs j x, In x (attrKeys cs j) <-> exists c, In c cs /\ In x (keptKeys (fst c) (snd c) j).
Proof.
  intros cs j x. unfold attrKeys.
  assert (G : forall l s, In x (fold_left (fun s c => fold_left addKey (keptKeys (fst c) (snd c) j) s) l s) <-> In x s \/ exists c, In c l /\ In x (keptKeys (fst c) (snd c) j)).
  { induction l as [|c l IH]; cbn [fold_left]; intros s; [split; [auto|intros [H|(c & [] & _)]; auto]|]. rewrite IH, addKeys_in. cbn [In]. split.
    - intros [[H|H]|(c' & I & H)]; [auto|right; exists c; auto|right; exists c'; auto].
    - intros [H|(c' & [<-|I] & H)]; [auto|auto|right; eauto]. }
  rewrite G. cbn. tauto.
Qed.

Definition keepLines (cs : list (filt * (nat -> list string))) : list string :=
  flat_map (fun r => map (keepLine (fst r)) (snd r)) (fKeep (mergeConfigs (map fst cs))) ++ [""%string].
Definition tagLines (cs : list (filt * (nat -> list string))) : list string :=
  "all"%string :: flat_map (fun j => map (fun k => (k ++ "=")%string) (attrKeys cs j)) [0; 1; 2].
Lemma osmfilter_split : forall cs, osmfilter cs = "--keep="%string :: keepLines cs ++ "--keep-tags="%string :: tagLines cs.
Proof. intros cs. unfold osmfilter, keepLines, tagLines. rewrite <- app_assoc. reflexivity. Qed.
Lemma keepLines_in : forall cs l, In l (keepLines cs) <-> l = ""%string \/ exists k b fl, rule (fKeep (mergeConfigs (map fst cs))) k b fl /\ l = keepLine k (b, fl).
Proof.
  intros cs l. unfold keepLines. rewrite in_app_iff, in_flat_map. split.
  - intros [([k vs] & Ir & I)|[<-|[]]]; [|auto]. apply in_map_iff in I. destruct I as ([b fl] & <- & I). right. exists k, b, fl. split; [exists vs; auto|reflexivity].
  - intros [->|(k & b & fl & (vs & Ir & Iv) & ->)]; [right; now left|]. left. exists (k, vs). split; [auto|]. apply in_map. exact Iv.
Qed.
Lemma tagLines_in : forall cs l, In l (tagLines cs) <-> l = "all"%string \/ exists c j k, In c cs /\ j < 3 /\ In k (keptKeys (fst c) (snd c) j) /\ l = (k ++ "=")%string.
Proof.
  intros cs l. unfold tagLines. cbn [In]. rewrite in_flat_map. split.
  - intros [<-|(j & Ij & I)]; [auto|]. apply in_map_iff in I. destruct I as (k & <- & I). apply attrKeys_in in I. destruct I as (c & Ic & I).
    right. exists c, j, k. assert (j < 3) by (cbn in Ij; lia). auto.
  - intros [->|(c & j & k & Ic & Lj & I & ->)]; [auto|]. right. exists j. split; [cbn; lia|]. apply in_map_iff. exists k. split; [reflexivity|]. apply attrKeys_in. eauto.
Qed.
Lemma rule_kept : forall m k b fl, rule m k b fl -> In k (keys m).
Proof. intros m k b fl (vs & I & _). apply in_map_iff. exists (k, vs). auto. Qed.

Section Lines.
Variable cs : list (filt * (nat -> list string)).
Hypothesis Keys : forall c j k, In c cs -> j < 3 -> In k (keptKeys (fst c) (snd c) j) -> ~ heading k.
Hypothesis NoEq : forall c k b fl, In c cs -> rule (fKeep (fst c)) k b fl -> no_eq k.
Lemma keep_in_kept : forall c k b fl, In c cs -> rule (fKeep (fst c)) k b fl -> ~ heading k.
Proof. intros c k b fl I R. apply (Keys c 0 k I); [lia|]. unfold keptKeys. apply in_app_iff. left. eapply rule_kept, R. Qed.
Lemma merged_pair : forall k b fl, rule (fKeep (mergeConfigs (map fst cs))) k b fl -> exists c, In c cs /\ rule (fKeep (fst c)) k b fl.
Proof. intros k b fl R. destruct (merged_rule _ _ _ _ R) as (f & I & R'). apply in_map_iff in I. destruct I as (c & <- & I). eauto. Qed.
Lemma no_headings : forall x, In x (keepLines cs ++ tagLines cs) -> ~ heading x.
Proof.
  intros x I. apply in_app_iff in I. destruct I as [I|I].
  - apply keepLines_in in I. destruct I as [->|(k & b & fl & R & ->)]; [intros (r & E); discriminate|]. intros H. unfold keepLine in H. apply heading_eq in H.
    destruct (merged_pair k b fl R) as (c & Ic & Rc). now apply (keep_in_kept c k b fl Ic Rc).
  - apply tagLines_in in I. destruct I as [->|(c & j & k & Ic & Lj & Ik & ->)]; [intros (r & E); discriminate|]. intros H.
    apply (Keys c j k Ic Lj Ik). apply (heading_eq k ""). exact H.
Qed.
Lemma sections : forall l, (under "--keep=" (osmfilter cs) l <-> In l (keepLines cs)) /\ (under "--keep-tags=" (osmfilter cs) l <-> In l (tagLines cs)).
Proof.
  intros l. rewrite osmfilter_split. apply two_sections; [exists "keep="%string; reflexivity|exists "keep-tags="%string; reflexivity|discriminate|apply no_headings].
Qed.
Lemma selected : forall a, (exists l, under "--keep=" (osmfilter cs) l /\ line_keeps l a) <->
  exists c k v b fl, In c cs /\ rule (fKeep (fst c)) k b fl /\ In (k, v) a /\ (b = "*"%string \/ b = ""%string \/ v = b).
Proof.
  intros a. split.
  - intros (l & U & (k & v & w & El & Nk & Iv & W)). apply sections in U. apply keepLines_in in U. destruct U as [->|(k' & b & fl & R & ->)].
    { destruct k; discriminate. }
    destruct (merged_pair k' b fl R) as (c & Ic & Rc). unfold keepLine in El. cbn [fst] in El.
    apply eq_split in El; [|now apply (NoEq c k' b fl)|exact Nk]. destruct El as (-> & Ew). exists c, k, v, b, fl. repeat (split; [now auto|]).
    destruct (String.eqb_spec b "*") as [->|Nb]; [auto|]. cbn in Ew. subst w. destruct W as [W|W]; auto.
  - intros (c & k & v & b & fl & Ic & R & Iv & B).
    destruct (proj2 (merge_spec (map fst cs) emptyFilt) k b fl) as (fl' & R'); [right; exists (fst c); split; [now apply in_map|auto]|].
    exists (keepLine k (b, fl')). split; [apply sections, keepLines_in; right; exists k, b, fl'; auto|].
    unfold line_keeps, keepLine. cbn [fst]. exists k, v. eexists. split; [reflexivity|]. split; [now apply (NoEq c k b fl)|]. split; [auto|].
    destruct (String.eqb_spec b "*") as [->|Nb]; [auto|]. cbn. destruct B as [B|[B|B]]; [congruence|auto|auto].
Qed.
Lemma tags_kept : forall k, tag_kept (osmfilter cs) k <-> exists c j, In c cs /\ j < 3 /\ In k (keptKeys (fst c) (snd c) j).
Proof.
  intros k. unfold tag_kept. rewrite (proj2 (sections _)), tagLines_in. split.
  - intros [E|(c & j & k' & Ic & Lj & I & E)].
    + destruct k as [|? [|? [|? [|? ?]]]]; discriminate.
    + assert (X : k = k'). { clear - E. revert k' E. induction k as [|c k IH]; intros [|d k'] E; cbn in E; [reflexivity| | |].
        - injection E as -> E. destruct k'; discriminate.
        - injection E as <- E. destruct k; discriminate.
        - injection E as -> E. f_equal. now apply IH. }
      subst. eauto.
  - intros (c & j & Ic & Lj & I). right. exists c, j, k. auto.
Qed.
Lemma stripped_read : forall a a' c j, stripped (tag_kept (osmfilter cs)) a a' -> In c cs -> j < 3 -> readAttrs (fst c) (snd c) j a' = readAttrs (fst c) (snd c) j a.
Proof.
  intros a a' c j S Ic Lj. unfold readAttrs. induction S as [|k v a a' K S IH|k v a a' K S IH]; cbn [filter fst]; [reflexivity|now rewrite IH|].
  destruct (existsb (String.eqb k) (keptKeys (fst c) (snd c) j)) eqn:E; [|exact IH].
  apply existsb_exists in E. destruct E as (y & I & Ey). apply String.eqb_eq in Ey. subst y. elim K. apply tags_kept. eauto.
Qed.
End Lines.
