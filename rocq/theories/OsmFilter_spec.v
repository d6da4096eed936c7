(** Specification for the filters for OSM tags (C06-C08). *)
From Coq Require Import Ascii String List Arith NArith Bool Permutation.
From Verif Require Import OsmFilter_model.
Import ListNotations.
Open Scope nat_scope.

(** What a rule with value [b] accepts, without and with mult_val_match. *)
Definition accepts (mult : Prop) (v b : string) : Prop :=
  b = "*"%string \/ v = b \/
  (mult /\ exists x y, v = (x ++ ";" ++ b ++ y)%string \/ v = (x ++ b ++ ";" ++ y)%string \/
                       v = (x ++ "; " ++ b ++ y)%string \/ v = (x ++ b ++ " ;" ++ y)%string).
(** Rule for key [k], value [b] with flags [fl]. *)
Definition rule (m : rulemap) (k b : string) (fl : N) : Prop := exists vs, In (k, vs) m /\ In (b, fl) vs.
(** Flag bits: 1 rel_flat, 2 no_match_rels, 3 no_match_ways, 4 no_match_nds,
    5 mult_val_match. *)
Inductive kind := Relation | Way | Node | Any.
Definition disabled (t : kind) (fl : N) : Prop :=
  match t with Relation => N.testbit fl 2 = true | Way => N.testbit fl 3 = true | Node => N.testbit fl 4 = true | Any => False end.
Definition code (t : kind) : N := match t with Relation => 4 | Way => 8 | Node => 16 | Any => 0 end.

(** A tag matches a rule that holds for this kind of entity. *)
Definition hit (m : rulemap) (t : kind) (a : attrmap) (fl : N) : Prop :=
  exists k v b, In (k, v) a /\ rule m k b fl /\ ~ disabled t fl /\ accepts (N.testbit fl 5 = true) v b.
Definition matches (m : rulemap) (t : kind) (a : attrmap) : Prop := exists fl, hit m t a fl.
(** Without regard to flags. *)
Definition matches_plain (m : rulemap) (a : attrmap) : Prop := exists k v b fl, In (k, v) a /\ rule m k b fl /\ (b = "*"%string \/ v = b).

(** Rules from a configuration: one entry for a key, flags are never 0. *)
Record rules_ok (m : rulemap) : Prop := {
  ro_keys : NoDup (map fst m);
  ro_flags : forall k b fl, rule m k b fl -> fl <> 0%N
}.
Record filt_ok (f : filt) : Prop := {
  fo_keep : rules_ok (fKeep f); fo_drop : rules_ok (fDrop f); fo_nohup : rules_ok (fNohup f); fo_oneway : rules_ok (fOneway f);
  fo_onewayrev : rules_ok (fOnewayrev f); fo_twoway : rules_ok (fTwoway f); fo_station : rules_ok (fStation f); fo_blocker : rules_ok (fBlocker f);
  fo_pos : rules_ok (fPosRestr f); fo_neg : rules_ok (fNegRestr f); fo_no : rules_ok (fNoRestr f); fo_turn : rules_ok (fTurnCycle f);
  fo_levels : Forall rules_ok (fLevels f)
}.

(** The meaning of the filter functions. *)
Record filter_meaning (f : filt) (a : attrmap) : Prop := {
  fm_keep : forall t, keep f a (code t) <> 0%N <-> matches (fKeep f) t a;
  fm_drop : forall t, drop f a (code t) <> 0%N <-> matches (fDrop f) t a;
  fm_oneway : oneway f a <> 0%N <-> matches (fOneway f) Way a /\ ~ matches (fTwoway f) Way a;
  fm_onewayrev : onewayrev f a <> 0%N <-> matches (fOnewayrev f) Way a /\ ~ matches (fTwoway f) Way a;
  fm_station : station f a <> 0%N <-> matches (fStation f) Node a;
  fm_blocker : blocker f a <> 0%N <-> matches (fBlocker f) Node a;
  fm_turn : turnCycle f a <> 0%N <-> matches (fTurnCycle f) Node a;
  fm_pos : posRestr f a <> 0%N <-> matches (fPosRestr f) Any a /\ ~ matches (fNoRestr f) Any a;
  fm_neg : negRestr f a <> 0%N <-> matches (fNegRestr f) Any a /\ ~ matches (fNoRestr f) Any a;
  fm_nohup : forall k v, nohup f k v = true <-> matches_plain (fNohup f) [(k, v)];
  (* the flags are those of a rule that matches *)
  fm_flags : forall t, keep f a (code t) <> 0%N -> hit (fKeep f) t a (keep f a (code t));
  (* the smallest level with a rule that matches, or 0 *)
  fm_level : (exists m, nth_error (fLevels f) (level f a) = Some m /\ matches_plain m a /\
                forall j m', j < level f a -> nth_error (fLevels f) j = Some m' -> ~ matches_plain m' a) \/
             (level f a = 0 /\ forall m, In m (fLevels f) -> ~ matches_plain m a)
}.

(** Two lists of tags (read from the file, and with all tags) are classified alike. *)
Definition same_bool (x y : N) : Prop := x <> 0%N <-> y <> 0%N.
Record same_node (f : filt) (a a' : attrmap) : Prop := {
  sn_keep : same_bool (keep f a NODE) (keep f a' NODE); sn_drop : same_bool (drop f a NODE) (drop f a' NODE);
  sn_station : same_bool (station f a) (station f a'); sn_blocker : same_bool (blocker f a) (blocker f a');
  sn_turn : same_bool (turnCycle f a) (turnCycle f a')
}.
Record same_way (f : filt) (a a' : attrmap) : Prop := {
  sy_keep : same_bool (keep f a WAY) (keep f a' WAY); sy_drop : same_bool (drop f a WAY) (drop f a' WAY);
  sy_oneway : same_bool (oneway f a) (oneway f a'); sy_onewayrev : same_bool (onewayrev f a) (onewayrev f a');
  sy_level : level f a = level f a'
}.
Record same_rel (f : filt) (a a' : attrmap) : Prop := {
  sr_keep : same_bool (keep f a REL) (keep f a' REL); sr_drop : same_bool (drop f a REL) (drop f a' REL);
  sr_pos : same_bool (posRestr f a) (posRestr f a'); sr_neg : same_bool (negRestr f a) (negRestr f a')
}.

(** ** C07 *)
(** [b] is an entry of the list [v], separated by semicolons, with one space at most on the
    inner side of a semicolon. *)
Definition listed (v b : string) : Prop :=
  exists pre l r post, v = (pre ++ l ++ b ++ r ++ post)%string /\
    ((l = "" /\ pre = "") \/ l = ";" \/ l = "; ")%string /\ ((r = "" /\ post = "") \/ r = ";" \/ r = " ;")%string.

(** ** C08 *)
(** Configurations that have a rule for the same key and value agree on its flags. *)
Definition agree (cs : list filt) : Prop :=
  forall c c' k b fl fl', In c cs -> In c' cs -> rule (fKeep c) k b fl -> rule (fKeep c') k b fl' -> fl = fl'.
