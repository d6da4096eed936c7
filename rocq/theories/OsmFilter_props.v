(** C06, C07, C08: the filters for OSM tags. *)
From Coq Require Import Ascii String List Arith NArith Bool Permutation Lia.
From Verif Require Import StrAux OsmFilter_model OsmFilter_spec OsmFilter_proofs.
Import ListNotations.
Open Scope string_scope.
Open Scope nat_scope.

(** C06: what the filter functions say about an entity is what its tags and the rules say. *)
Theorem C06_meaning : forall f a, filt_ok f -> filter_meaning f a.
Proof. exact meaning. Qed.
Print Assumptions C06_meaning.

(** C06: the order in which the tags are stored does not matter. *)
Theorem C06_order : forall f a a', filt_ok f -> Permutation a a' -> same_node f a a' /\ same_way f a a' /\ same_rel f a a'.
Proof. intros f a a' Ok P. repeat split; first [apply (order_node f a a' Ok P)|apply (order_way f a a' Ok P)|apply (order_rel f a a' Ok P)]. Qed.
Print Assumptions C06_order.

(** C06: only tags with certain keys are read from the file.  Nodes and relations are
    classified as if all of their tags were read, *)
Theorem C06_read_tags : forall f extra a, filt_ok f ->
  same_node f (readAttrs f extra 0 a) a /\ same_rel f (readAttrs f extra 2 a) a.
Proof. intros f extra a Ok. split; [now apply read_node|now apply read_rel]. Qed.
Print Assumptions C06_read_tags.

(** and ways, provided that the keys of the rules for level 7 occur in other rules. *)
Theorem C06_read_way_tags : forall f extra a, filt_ok f -> length (fLevels f) = 8 ->
  (forall m k, nth_error (fLevels f) 7 = Some m -> In k (keys m) -> In k (keptKeys f extra 1)) -> same_way f (readAttrs f extra 1 a) a.
Proof. exact read_way. Qed.
Print Assumptions C06_read_way_tags.

(** A configuration: railway=rail is kept (ways only), ways with service=yard dropped,
    oneway rules with an exception, eight levels. *)
Definition exRules (k : string) (vs : list (string * N)) : rulemap := [(k, vs)].
Definition exF : filt :=
  mkFilt [("railway", [("rail", 1); ("station", 9); ("tram", 33)]); ("route", [("train", 3)])]%string%N (exRules "service" [("yard", 1%N)])
    (exRules "railway" [("buffer", 1%N)]) (exRules "oneway" [("yes", 1%N)]) (exRules "oneway" [("-1", 1%N)]) (exRules "oneway:train" [("no", 1%N)])
    (exRules "railway" [("station", 1%N)]) (exRules "railway" [("derail", 1%N)]) (exRules "restriction" [("only_straight_on", 1%N)])
    (exRules "restriction" [("no_u_turn", 1%N)]) (exRules "except" [("psv", 1%N)]) (exRules "railway" [("turntable", 1%N)])
    [exRules "usage" [("main", 1%N)]; exRules "usage" [("branch", 1%N)]; exRules "railway" [("rail", 1%N)]; []; []; []; []; exRules "usage" [("*", 1%N)]].
Ltac okr := apply rulesOk_ok; reflexivity.
Example C06_case : filt_ok exF /\
  (forall m k, nth_error (fLevels exF) 7 = Some m -> In k (keys m) -> In k (keptKeys exF (fun _ => []) 1)) /\
  let a := [("railway", "tram;rail"); ("oneway", "yes"); ("usage", "industrial")]%string in
  keep exF a WAY <> 0%N /\ keep exF a NODE <> 0%N /\ keep exF [("railway", "station")]%string WAY = 0%N /\ oneway exF a <> 0%N /\
  oneway exF (("oneway:train", "no")%string :: a) = 0%N /\ level exF a = 7 /\ level exF [("railway", "rail"); ("usage", "branch")]%string = 1.
Proof.
  split; [|split].
  - constructor; try okr. cbn [exF fLevels]. repeat (apply Forall_cons; [okr|]). apply Forall_nil.
  - intros m k E I. cbn in E. injection E; intros <-. cbn in I. destruct I as [<-|[]]. cbn. intuition.
  - vm_compute. intuition discriminate.
Qed.

(** C06, not true: the keys of rules for level 7 are not read (the loop ends at 6).  A way
    with a tag for level 7 then has level 0, which is the best. *)
Definition lvl7 : filt :=
  mkFilt (exRules "highway" [("*", 1%N)]) [] [] [] [] [] [] [] [] [] [] [] [[]; []; []; []; []; []; []; exRules "access" [("private", 1%N)]].
Theorem C06_level7_refuted : exists f extra a, filt_ok f /\ length (fLevels f) = 8 /\ NoDup (map fst a) /\
  level f a = 7 /\ level f (readAttrs f extra 1 a) = 0 /\ same_bool (keep f a WAY) (keep f (readAttrs f extra 1 a) WAY) /\ keep f a WAY <> 0%N.
Proof.
  exists lvl7, (fun _ => []), [("highway", "service"); ("access", "private")]%string.
  assert (E : rules_ok []) by (constructor; [constructor|intros k b fl (vs & [] & _)]).
  split; [|split; [reflexivity|]].
  - constructor; auto; [cbn [lvl7 fKeep exRules]; okr|]. cbn [lvl7 fLevels]. do 7 (apply Forall_cons; [exact E|]). apply Forall_cons; [|apply Forall_nil]. unfold exRules. okr.
  - split; [repeat constructor; cbn; intuition discriminate|]. vm_compute. intuition discriminate.
Qed.
Print Assumptions C06_level7_refuted.

(** C06, not true for the flags: which rule's flags a relation gets depends on the order of
    its tags (here: whether attributes are passed down, rel_flat). *)
Definition flagsF : filt := mkFilt [("route", [("train", 1)]); ("network", [("*", 3)])]%string%N [] [] [] [] [] [] [] [] [] [] [] [].
Theorem C06_flags_order_refuted : exists f a a', filt_ok f /\ Permutation a a' /\ NoDup (map fst a) /\
  N.testbit (keep f a REL) 1 <> N.testbit (keep f a' REL) 1.
Proof.
  exists flagsF, [("route", "train"); ("network", "x")]%string, [("network", "x"); ("route", "train")]%string.
  assert (E : rules_ok []) by (constructor; [constructor|intros k b fl (vs & [] & _)]).
  split; [|split; [constructor|]].
  - constructor; auto; [cbn [flagsF fKeep]; okr|apply Forall_nil].
  - split; [repeat constructor; cbn; intuition discriminate|]. vm_compute. discriminate.
Qed.
Print Assumptions C06_flags_order_refuted.

(** C07: with mult_val_match every entry of a list is accepted. *)
Theorem C07_listed : forall v b, listed v b -> valMatches v b true = true.
Proof. exact listed_ok. Qed.
Print Assumptions C07_listed.
(** C07: as a statement about filters. *)
Theorem C07_kept : forall f a t k v b fl, filt_ok f -> In (k, v) a -> rule (fKeep f) k b fl -> ~ disabled t fl -> N.testbit fl 5 = true -> listed v b ->
  keep f a (code t) <> 0%N.
Proof.
  intros f a t k v b fl Ok I R D F L. apply (meaning f a Ok). exists fl, k, v, b. split; [auto|]. split; [auto|]. split; [auto|].
  rewrite F. apply listed_ok in L. apply valMatches_iff in L. exact L.
Qed.
Print Assumptions C07_kept.
(** Without the flag, only the value itself. *)
Theorem C07_plain : forall v b, b <> "*"%string -> (valMatches v b false = true <-> v = b).
Proof. intros v b N0. rewrite plain_iff. tauto. Qed.
Print Assumptions C07_plain.
Example C07_case : listed "u1;u2; u3 ;u4" "u1" /\ listed "u1;u2; u3 ;u4" "u2" /\ listed "u1;u2; u3 ;u4" "u3" /\ listed "u1;u2; u3 ;u4" "u4".
Proof.
  split; [|split; [|split]].
  - exists "", "", ";", "u2; u3 ;u4"; cbn; auto.
  - exists "u1", ";", ";", " u3 ;u4"; cbn; auto.
  - exists "u1;u2", "; ", " ;", "u4"; cbn; auto.
  - exists "u1;u2; u3 ", ";", "", ""; cbn; auto.
Qed.
(** C07, the converse is not true: part of an entry is enough. *)
Theorem C07_substring_refuted : exists v b, valMatches v b true = true /\ ~ listed v b.
Proof.
  exists "x;foobar"%string, "foo"%string. split; [reflexivity|]. intros (pre & l & r & post & E & L & R).
  assert (T : exists u w, ("x;foobar" = u ++ "foo" ++ w /\ (w = "" \/ exists w', w = ";" ++ w' \/ w = " ;" ++ w'))%string).
  { exists (pre ++ l)%string, (r ++ post)%string. split; [rewrite E, <- !str_app_assoc; reflexivity|].
    destruct R as [(-> & ->)|[-> | ->]]; [left; reflexivity|right; exists post; left; reflexivity|right; exists post; right; reflexivity]. }
  destruct T as (u & w & Eu & W). clear - Eu W.
  destruct u as [|c0 u]; [discriminate|]. injection Eu; clear Eu; intros Eu _.
  destruct u as [|c1 u]; [discriminate|]. injection Eu; clear Eu; intros Eu _.
  destruct u as [|c2 u].
  - cbn in Eu. injection Eu; intros <-. destruct W as [W|(w' & [W|W])]; discriminate.
  - assert (L : String.length u + 3 <= 5).
    { apply (f_equal String.length) in Eu. cbn [String.append] in Eu. cbn [String.length] in Eu. rewrite str_app_length in Eu. cbn in Eu. lia. }
    injection Eu; clear Eu; intros Eu _.
    destruct u as [|c3 u]; [discriminate|]. injection Eu; clear Eu; intros Eu _.
    destruct u as [|c4 u]; [discriminate|]. injection Eu; clear Eu; intros Eu _.
    destruct u as [|c5 u]; [discriminate|]. cbn in L. lia.
Qed.
Print Assumptions C07_substring_refuted.
(** C07, not true with more than one space beside the semicolon, or a tab. *)
Theorem C07_spaces_refuted : exists v b, v = ("a;" ++ "  " ++ b)%string /\ valMatches v b true = false.
Proof. exists "a;  b"%string, "b"%string. split; reflexivity. Qed.
Print Assumptions C07_spaces_refuted.

(** C08: the merged filter keeps what one of the configurations keeps, and nothing else; it
    drops nothing. *)
Theorem C08_merged : forall cs, (forall c, In c cs -> rules_ok (fKeep c)) -> agree cs -> forall a t,
  (keep (mergeConfigs cs) a (code t) <> 0%N <-> exists c, In c cs /\ keep c a (code t) <> 0%N) /\
  drop (mergeConfigs cs) a (code t) = 0%N.
Proof. intros cs Ok Ag a t. split; [now apply merged_keeps|apply merged_drops_nothing]. Qed.
Print Assumptions C08_merged.
(** C08: also if they do not agree, nothing is kept that no configuration keeps. *)
Theorem C08_nothing_else : forall cs, (forall c, In c cs -> rules_ok (fKeep c)) -> forall a t,
  keep (mergeConfigs cs) a (code t) <> 0%N -> exists c, In c cs /\ keep c a (code t) <> 0%N.
Proof. exact merged_only. Qed.
Print Assumptions C08_nothing_else.
Definition exG : filt := withKeep [("railway", [("rail", 1)]); ("highway", [("*", 1)])]%string%N [].
Example C08_case : (forall c, In c [exF; exG] -> rules_ok (fKeep c)) /\ agree [exF; exG] /\
  keep (mergeConfigs [exF; exG]) [("highway", "x")]%string WAY <> 0%N /\ keep (mergeConfigs [exF; exG]) [("route", "train")]%string REL <> 0%N /\
  keep (mergeConfigs [exF; exG]) [("waterway", "x")]%string WAY = 0%N.
Proof.
  split; [|split].
  - intros c [<-|[<-|[]]]; [apply (fo_keep _ (proj1 C06_case))|]. unfold exG. cbn [withKeep fKeep]. okr.
  - intros c c' k b fl fl' I I' (vs & J & K) (vs' & J' & K').
    cbn in I, I'. destruct I as [<-|[<-|[]]]; destruct I' as [<-|[<-|[]]]; cbn in J, J';
    repeat match goal with H : _ \/ _ |- _ => destruct H end; try contradiction;
    repeat match goal with H : (_, _) = (_, _) |- _ => injection H; intros; clear H; subst end; try discriminate; try reflexivity;
    cbn in *; repeat match goal with H : _ \/ _ |- _ => destruct H end; try contradiction; try congruence.
  - vm_compute. intuition discriminate.
Qed.
(** C08, not true if flags differ: the first configuration disables the rule for ways, the
    second keeps ways. *)
Theorem C08_flags_refuted : exists cs a, (forall c, In c cs -> rules_ok (fKeep c)) /\
  (exists c, In c cs /\ keep c a WAY <> 0%N) /\ keep (mergeConfigs cs) a WAY = 0%N.
Proof.
  exists [withKeep [("railway", [("rail", 9)])]%string%N []; exG], [("railway", "rail")]%string. split; [|split; [|reflexivity]].
  - intros c [<-|[<-|[]]]; cbn [withKeep fKeep exG]; okr.
  - exists exG. split; [cbn; auto|]. vm_compute. discriminate.
Qed.
Print Assumptions C08_flags_refuted.
