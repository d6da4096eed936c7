(** Property theorems: C30, C44, C45, C46, C56. *)
From Coq Require Import String Ascii List Arith NArith QArith Bool Sorted.
From Verif Require Import Simi_model Simi_spec Simi_proofs.
Import ListNotations.
Local Open Scope nat_scope.

(** The order is a strict weak order, and incomparable means equal short name and origin. *)
Theorem C30_order_strict_weak :
  (forall a, attrsLt a a = false) /\
  (forall a b c, attrsLt a b = true -> attrsLt b c = true -> attrsLt a c = true) /\
  (forall a b, (attrsLt a b = false /\ attrsLt b a = false) <->
               (shortName a = shortName b /\ lineFrom a = lineFrom b)) /\
  (forall a b, attrsEq a b = true <-> (shortName a = shortName b /\ lineFrom a = lineFrom b)).
Proof.
  exact (conj attrsLt_irrefl (conj attrsLt_trans (conj attrsLt_incomparable attrsEq_iff))).
Qed.
Print Assumptions C30_order_strict_weak.

(** However attributes are merged, the headsigns are the sorted, duplicate-free union. *)
Theorem C30_merge_union : forall t,
  (forall a, In a (leaves t) -> ascending (lineTo a)) ->
  ascending (lineTo (merged t)) /\
  (forall x, In x (lineTo (merged t)) <-> exists a, In a (leaves t) /\ In x (lineTo a)).
Proof. exact merged_spec. Qed.
Print Assumptions C30_merge_union.

(** The result does not depend on the order or grouping of the merges. *)
Theorem C30_merge_order_irrelevant : forall t u,
  (forall a, In a (leaves t) -> ascending (lineTo a)) -> (forall a, In a (leaves u) -> ascending (lineTo a)) ->
  (forall x, (exists a, In a (leaves t) /\ In x (lineTo a)) <-> (exists a, In a (leaves u) /\ In x (lineTo a))) ->
  lineTo (merged t) = lineTo (merged u).
Proof. exact merged_unique. Qed.
Print Assumptions C30_merge_order_irrelevant.

Theorem C30_merge_keeps_name : forall t n f,
  (forall a, In a (leaves t) -> shortName a = n /\ lineFrom a = f) ->
  shortName (merged t) = n /\ lineFrom (merged t) = f.
Proof. exact merged_keeps. Qed.
Print Assumptions C30_merge_keeps_name.

(** Without merges in between, every similarity query of any history is answered as if
    there were no memo table. *)
Theorem C30_similarity_queries : forall similar lines a ps,
  Forall2 (fun p v => agreement similar a (lines p) v) ps (snd (runAttrs similar lines a [] (map Ask ps))) /\
  fst (fst (runAttrs similar lines a [] (map Ask ps))) = a.
Proof. intros. apply simi_history. intros p v H. discriminate H. Qed.
Print Assumptions C30_similarity_queries.

(** A query after a merge may return the value from before the merge. *)
Theorem C30_stale_similarity_refuted : exists similar lines a b p,
  ascending (lineTo a) /\ ascending (lineTo b) /\
  exists v1 v2, snd (runAttrs similar lines a [] [Ask p; Merge b; Ask p]) = [v1; v2] /\
                ~ agreement similar (mergeAttrs a b) (lines p) v2.
Proof.
  exists String.eqb, (fun _ => mkLine "" "Basel" ""), (mkAttrs "" "" ["Ulm"%string]), (mkAttrs "" "" ["Basel"%string]), 0.
  split; [repeat constructor|]. split; [repeat constructor|].
  exists (mkLS true true false), (mkLS true true false). split; [vm_compute; reflexivity|].
  intros [_ H]. destruct H as [_ [_ [_ T]]]; [cbn; intros [_ [H _]]; discriminate H|].
  cbn in T. assert (X : false = true); [|discriminate X]. apply T. right.
  exists "Basel"%string. split; [cbn; auto|]. right. reflexivity.
Qed.
Print Assumptions C30_stale_similarity_refuted.

Example merge_example :
  lineTo (merged (MNode (MNode (MLeaf (mkAttrs "1" "a" ["m"%string])) (MLeaf (mkAttrs "1" "a" ["b"%string; "z"%string])))
                        (MLeaf (mkAttrs "1" "a" ["m"%string; "n"%string]))))
  = ["b"%string; "m"%string; "n"%string; "z"%string].
Proof. reflexivity. Qed.
Example order_example :
  attrsLt (mkAttrs "2" "a" []) (mkAttrs "1" "b" []) = true /\ attrsLt (mkAttrs "1" "a" []) (mkAttrs "2" "a" []) = true.
Proof. split; reflexivity. Qed.

(** Line labels. *)
Theorem C45_line_similarity : forall a b,
  (lineSimi a b = true <-> same_line_label a b) /\ lineSimi a b = lineSimi b a /\ lineSimi a a = true.
Proof. exact (fun a b => conj (lineSimi_iff a b) (conj (lineSimi_sym a b) (lineSimi_refl a))). Qed.
Print Assumptions C45_line_similarity.

(** Station infos: similar iff some pair of their names is. *)
Theorem C45_station_similarity : forall ed a b, (forall x y, ed x y = ed y x) ->
  (siSimi ed a (Some b) = true <->
     exists x y, In x (all_names a) /\ In y (all_names b) /\ same_station_name ed x y) /\
  siSimi ed a (Some b) = siSimi ed b (Some a) /\ siSimi ed a (Some a) = true /\ siSimi ed a None = false.
Proof.
  exact (fun ed a b E => conj (siSimi_iff ed a b) (conj (siSimi_sym ed a b E) (conj (siSimi_refl ed a) eq_refl))).
Qed.
Print Assumptions C45_station_similarity.

Example label_example : lineSimi "Bus 11" "11" = true /\ lineSimi "11" "11 Express" = true /\
  lineSimi "Bus11" "11" = false /\ lineSimi "11" "" = false /\ lineSimi "11 " "11" = false.
Proof. repeat split; reflexivity. Qed.
Example station_example :
  siSimi (fun a b => if String.eqb a b then 0 else 1)
    (mkSI "Freiburg Hbf" ["Freiburg"%string] "") (Some (mkSI "X" ["Y"%string; "Freiburg (Breisgau)"%string] "3")) = true /\
  siSimi (fun a b => if String.eqb a b then 0 else 1)
    (mkSI "Freiburg Hbf" [] "") (Some (mkSI "Freiburg Sued" [] "3")) = false.
Proof. split; reflexivity. Qed.

(** The station classifiers. *)
Theorem C46_classifiers_symmetric : forall jacc bts ed ped (pos : Type) (decay : pos -> pos -> Q),
  token_similarity jacc -> token_similarity bts -> edit_distance ed -> geo_decay decay -> forall a b p q,
  jaccSimilar jacc a b = jaccSimilar jacc b a /\ btsSimilar bts a b = btsSimilar bts b a /\
  edSimilar ed a b = edSimilar ed b a /\ pedSimilar ped a b = pedSimilar ped b a /\
  geoSimilar jacc pos decay a p b q = geoSimilar jacc pos decay b q a p.
Proof.
  exact (fun jacc bts ed ped pos decay J B E D a b p q =>
    conj (jacc_sym jacc J a b) (conj (bts_sym bts B a b) (conj (ed_sym ed E a b)
      (conj (ped_sym ped a b) (geo_sym jacc pos decay J D a p b q))))).
Qed.
Print Assumptions C46_classifiers_symmetric.

Theorem C46_equal_names_similar : forall jacc bts ed ped (pos : Type) (decay : pos -> pos -> Q),
  token_similarity jacc -> token_similarity bts -> edit_distance ed -> (forall a, ped a a = 0) -> geo_decay decay ->
  forall a p,
  jaccSimilar jacc a a = true /\ btsSimilar bts a a = true /\ geoSimilar jacc pos decay a p a p = true /\
  (a <> ""%string -> edSimilar ed a a = true /\ pedSimilar ped a a = true).
Proof.
  exact (fun jacc bts ed ped pos decay J B E P D a p =>
    conj (jacc_refl jacc J a) (conj (bts_refl bts B a) (conj (geo_refl jacc pos decay J D a p)
      (fun N => conj (ed_refl ed E a N) (ped_refl ped P a N))))).
Qed.
Print Assumptions C46_equal_names_similar.

(** Two empty names are similar for the token classifiers, but never for the edit
    distance classifiers (0/0 is NaN). *)
Theorem C46_empty_names_refuted : forall ed ped, edit_distance ed -> (forall a, ped a a = 0) ->
  edSimilar ed "" "" = false /\ pedSimilar ped "" "" = false.
Proof.
  intros ed ped [_ [E _]] P. unfold edSimilar, pedSimilar. rewrite E, P. split; reflexivity.
Qed.
Print Assumptions C46_empty_names_refuted.

(** The combined score is in [0,1]; the decision is "decay + Jaccard > 1", hence it can only
    change from similar to dissimilar when the stops move apart or the names get less
    similar. *)
Theorem C46_geo_decision : forall jacc (pos : Type) (decay : pos -> pos -> Q),
  token_similarity jacc -> geo_decay decay -> forall a p b q,
  (0 <= geoScore jacc pos decay a p b q /\ geoScore jacc pos decay a p b q <= 1)%Q /\
  (geoSimilar jacc pos decay a p b q = true <-> 1 < decay p q + jacc a b)%Q /\
  (forall a' p' b' q', decay p q <= decay p' q' -> jacc a b <= jacc a' b' ->
     geoSimilar jacc pos decay a p b q = true -> geoSimilar jacc pos decay a' p' b' q' = true)%Q.
Proof.
  exact (fun jacc pos decay J D a p b q =>
    conj (geo_score_bounds jacc pos decay J D a p b q) (conj (geo_iff jacc pos decay J D a p b q)
      (fun a' p' b' q' => geo_monotone jacc pos decay J D a p b q a' p' b' q'))).
Qed.
Print Assumptions C46_geo_decision.

Theorem C46_edit_decision : forall ed, edit_distance ed -> forall a b,
  edSimilar ed a b = true <-> 20 * ed a b < 3 * Nat.max (String.length a) (String.length b).
Proof. exact ed_iff. Qed.
Print Assumptions C46_edit_decision.

(** Oracles satisfying the contracts. *)
Definition exEd (a b : string) : nat := if String.eqb a b then 0 else Nat.max (String.length a) (String.length b).
Definition exJacc (a b : string) : Q := if String.eqb a b then 1%Q else (1 # 4)%Q.
Definition exDecay (a b : nat) : Q := if a =? b then 1%Q else (4 # 5)%Q.
Example exEd_ok : edit_distance exEd.
Proof.
  unfold exEd. repeat split; intros.
  - rewrite String.eqb_sym, Nat.max_comm. reflexivity.
  - rewrite String.eqb_refl. reflexivity.
  - destruct (String.eqb a b); [apply Nat.le_0_l|apply Nat.le_refl].
Qed.
Example exJacc_ok : token_similarity exJacc.
Proof.
  unfold exJacc. repeat split; intros.
  - rewrite String.eqb_sym. reflexivity.
  - rewrite String.eqb_refl. reflexivity.
  - destruct (String.eqb a b); discriminate.
  - destruct (String.eqb a b); discriminate.
Qed.
Example exDecay_ok : geo_decay exDecay.
Proof.
  unfold exDecay. repeat split; intros.
  - rewrite Nat.eqb_sym. reflexivity.
  - rewrite Nat.eqb_refl. reflexivity.
  - destruct (p =? q); discriminate.
  - destruct (p =? q); discriminate.
Qed.
Example classifier_example :
  geoSimilar exJacc nat exDecay "a" 1 "b" 2 = true /\ jaccSimilar exJacc "a" "b" = false /\
  edSimilar exEd "abc" "abc" = true /\ edSimilar exEd "abc" "abd" = false.
Proof. repeat split; reflexivity. Qed.

(** Normalisation is a function of the rules, whatever was normalised, copied or assigned
    before. *)
Theorem C44_normaliser_pure : forall (regex : Type) compile replace ops,
  observed regex compile replace [] ops (snd (runNorm regex compile replace [] ops)).
Proof. exact (fun regex compile replace ops => norm_history regex compile replace ops [] (fun n H => match H with end)). Qed.
Print Assumptions C44_normaliser_pure.

Theorem C44_normalised_unique : forall (regex : Type) compile replace rules s r r',
  normalised regex compile replace rules s r -> normalised regex compile replace rules s r' -> r = r'.
Proof. exact normalised_fun. Qed.
Print Assumptions C44_normalised_unique.

(** Normalisers that compare equal have the same rules and normalise alike. *)
Theorem C44_equal_normalisers : forall (regex : Type) compile replace ops n m s,
  In n (fst (runNorm regex compile replace [] ops)) -> In m (fst (runNorm regex compile replace [] ops)) ->
  (normEq regex n m = true <-> nOrig regex n = nOrig regex m) /\
  (normEq regex n m = true -> fst (norm regex replace n s) = fst (norm regex replace m s)).
Proof. exact equal_after_history. Qed.
Print Assumptions C44_equal_normalisers.

(** Once names have been normalised, normalising them again writes nothing: concurrent
    readers are safe afterwards. *)
Theorem C56_warm_cache_read_only : forall (regex : Type) replace names n s, In s names ->
  snd (norm regex replace (fold_left (fun m x => snd (norm regex replace m x)) names n) s)
  = fold_left (fun m x => snd (norm regex replace m x)) names n.
Proof. exact warm_no_write. Qed.
Print Assumptions C56_warm_cache_read_only.

(** A tiny regular expression engine: a pattern is one character, replaced everywhere. *)
Fixpoint exReplace (c : ascii) (f s : string) : string :=
  match s with
  | EmptyString => EmptyString
  | String d t => if Ascii.eqb c d then (f ++ exReplace c f t)%string else String d (exReplace c f t)
  end.
Definition exCompile (p : string) : option ascii :=
  match p with String c EmptyString => Some c | _ => None end.
Example normaliser_example :
  snd (runNorm ascii exCompile exReplace []
    [ONew [("-", " "); ("B", "bb")]%string; ONew [("(", "x"); ("[a", "")]%string; ONorm 0 "A-B"; ODefault; ONorm 0 "A-B";
     OAssign 1 0; ONorm 1 "A-B"; OCopy 1; ONorm 2 "Q-"; OAssign 0 5])
  = [Done; Thrown; Text "a bb"; Done; Text "a bb"; Done; Text "a bb"; Done; Text "q "; NoObj].
Proof. reflexivity. Qed.
Example normalised_example : normalised ascii exCompile exReplace [("-", " ")]%string "A-b" "a b".
Proof.
  exists "A b"%string. split; [eapply rw_rule; [reflexivity|]; apply rw_nil|]. apply lower_lower_case.
Qed.
