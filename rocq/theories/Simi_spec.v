(** Independent reading of the similarities, the attribute merge and the normaliser. *)
From Coq Require Import String Ascii List Arith NArith QArith Bool Sorted.
From Verif Require Import Simi_model.
Import ListNotations.
Local Open Scope nat_scope.

(** [a] is [b] with something before or after it, separated by a blank. *)
Definition blank_extension (a b : string) : Prop :=
  exists r, r <> ""%string /\ (a = (b ++ " " ++ r)%string \/ a = (r ++ " " ++ b)%string).
Definition same_line_label (a b : string) : Prop :=
  a = b \/ (a <> ""%string /\ b <> ""%string /\ (blank_extension a b \/ blank_extension b a)).
(** Fewer edits than five percent of the longer name. *)
Definition typo (ed : string -> string -> nat) (a b : string) : Prop :=
  20 * ed a b < Nat.max (String.length a) (String.length b).
Definition same_station_name (ed : string -> string -> nat) (a b : string) : Prop :=
  same_line_label a b \/ (a <> ""%string /\ b <> ""%string /\ typo ed a b).
Definition all_names (s : statInfo) : list string := siName s :: siAlts s.

(** What is required of the edit distance. *)
Definition edit_distance (ed : string -> string -> nat) : Prop :=
  (forall a b, ed a b = ed b a) /\ (forall a, ed a a = 0) /\
  (forall a b, ed a b <= Nat.max (String.length a) (String.length b)).
(** What is required of a token similarity. *)
Definition token_similarity (f : string -> string -> Q) : Prop :=
  (forall a b, f a b == f b a)%Q /\ (forall a, f a a == 1)%Q /\ (forall a b, 0 <= f a b /\ f a b <= 1)%Q.
(** What is required of the geographic decay: it does not depend on the direction,
    lies in [0,1] and is 1 without a distance. *)
Definition geo_decay {pos} (d : pos -> pos -> Q) : Prop :=
  (forall p q, d p q == d q p)%Q /\ (forall p, d p p == 1)%Q /\ (forall p q, 0 <= d p q /\ d p q <= 1)%Q.

Definition ascending (l : list string) : Prop := StronglySorted (fun a b => String.ltb a b = true) l.

(** Any way of combining attribute objects by merging. *)
Inductive mtree := MLeaf (a : attrs) | MNode (l r : mtree).
Fixpoint merged (t : mtree) : attrs :=
  match t with MLeaf a => a | MNode l r => mergeAttrs (merged l) (merged r) end.
Fixpoint leaves (t : mtree) : list attrs :=
  match t with MLeaf a => [a] | MNode l r => leaves l ++ leaves r end.

(** How a trip with attributes [a] agrees with a line [l]: a part that one of the two
    does not state agrees; a line stating nothing agrees in everything. *)
Definition agreement (similar : string -> string -> bool) (a : attrs) (l : line) (s : lsimi) : Prop :=
  ((lShort l = "" /\ lTo l = "" /\ lFrom l = "")%string -> s = mkLS true true true) /\
  (~ (lShort l = "" /\ lTo l = "" /\ lFrom l = "")%string ->
    (nameSim s = true <-> shortName a = ""%string \/ same_line_label (lShort l) (shortName a)) /\
    (fromSim s = true <-> lineFrom a = ""%string \/ similar (lFrom l) (lineFrom a) = true) /\
    (toSim s = true <-> lineTo a = [] \/
       exists t, In t (lineTo a) /\ (t = ""%string \/ similar (lTo l) t = true))).

Section Norm.
Variable regex : Type.
Variable compile : string -> option regex.
Variable replace : regex -> string -> string -> string.

(** Lower case, letter by letter. *)
Definition lower_letter (c d : ascii) : Prop :=
  (65 <= N_of_ascii c <= 90 -> N_of_ascii d = N_of_ascii c + 32)%N /\
  (~ (65 <= N_of_ascii c <= 90) -> d = c)%N.
Definition lower_case (s r : string) : Prop :=
  String.length r = String.length s /\
  forall i c d, String.get i s = Some c -> String.get i r = Some d -> lower_letter c d.
(** All replacements, in the order of the rules. *)
Inductive rewritten : list (string * string) -> string -> string -> Prop :=
| rw_nil : forall s, rewritten [] s s
| rw_rule : forall p f re rules s r, compile p = Some re -> rewritten rules (replace re f s) r ->
    rewritten ((p, f) :: rules) s r.
Definition normalised (rules : list (string * string)) (s r : string) : Prop :=
  exists m, rewritten rules s m /\ lower_case m r.

(** What a client sees: each object is its list of rules. *)
Inductive observed : list (list (string * string)) -> list nop -> list nout -> Prop :=
| ob_nil : forall st, observed st [] []
| ob_new : forall st rules ops os, (forall p f, In (p, f) rules -> compile p <> None) ->
    observed (st ++ [rules]) ops os -> observed st (ONew rules :: ops) (Done :: os)
| ob_throw : forall st rules ops os p f, In (p, f) rules -> compile p = None ->
    observed st ops os -> observed st (ONew rules :: ops) (Thrown :: os)
| ob_default : forall st ops os, observed (st ++ [[]]) ops os -> observed st (ODefault :: ops) (Done :: os)
| ob_copy : forall st i rules ops os, nth_error st i = Some rules ->
    observed (st ++ [rules]) ops os -> observed st (OCopy i :: ops) (Done :: os)
| ob_assign : forall st st' i j rules ops os, i < List.length st -> nth_error st j = Some rules ->
    List.length st' = List.length st -> nth_error st' i = Some rules ->
    (forall k, k <> i -> nth_error st' k = nth_error st k) ->
    observed st' ops os -> observed st (OAssign i j :: ops) (Done :: os)
| ob_norm : forall st i rules s r ops os, nth_error st i = Some rules -> normalised rules s r ->
    observed st ops os -> observed st (ONorm i s :: ops) (Text r :: os)
| ob_none : forall st op ops os,
    (match op with
     | OCopy i | ONorm i _ => nth_error st i = None
     | OAssign i j => nth_error st i = None \/ nth_error st j = None
     | _ => False
     end) -> observed st ops os -> observed st (op :: ops) (NoObj :: os).
End Norm.
