(** Model of the Overpass query and the osmfilter rules.
    Source: /repo/src/pfaedle/osm/OsmBuilder.cpp:184-225 [osmfilterRuleWrite], 228-307 [overpassQryWrite].

    Simplifications.
    - util::xml::XmlWriter is not in the checkout.  The query is the list of the calls to it; escaping and
      indentation are left out.  A coordinate printed by [std::to_string] is the attribute value [VNum], with
      the number.
    - The lines of the osmfilter rules are a list of strings.
    - The key sets (unordered_set) are lists without duplicates. *)
From Coq Require Import Ascii String List Arith NArith ZArith Bool.
From Verif Require Import OsmFilter_model BBoxIdx_model.
Import ListNotations.
Open Scope nat_scope.
Open Scope string_scope.
Open Scope list_scope.

(** ** overpassQryWrite *)
Inductive val := VStr (s : string) | VNum (z : Z).
Inductive call :=
| COpen (name : string) (attrs : list (string * val))    (* openTag *)
| CComment | CText (s : string) | CTextBox (n : nat) (b : box)   (* openComment, writeText *)
| CClose | CCloseAll.                                    (* closeTag, closeTags *)

(** 278-280: the type is disabled by the flags of the rule *)
Definition skipped (t : string) (fl : N) : bool :=
  (String.eqb t "way" && isSet (N.land fl WAY)) || (String.eqb t "relation" && isSet (N.land fl REL)) || (String.eqb t "node" && isSet (N.land fl NODE)).
(** 282-295 *)
Definition queryCalls (b : box) (t k : string) (v : string * N) : list call :=
  if skipped t (snd v) then []
  else [COpen "query" [("type", VStr t)]]
       ++ [if String.eqb (fst v) "*" then COpen "has-kv" [("k", VStr k)] else COpen "has-kv" [("k", VStr k); ("v", VStr (fst v))]]
       ++ [CClose]
       ++ [COpen "bbox-query" [("s", VNum (y0 b)); ("w", VNum (x0 b)); ("n", VNum (y1 b)); ("e", VNum (x1 b))]]
       ++ [CClose; CClose].
(** 275-298 *)
Definition boxCalls (f : filt) (b : box) : list call :=
  flat_map (fun t => flat_map (fun r => flat_map (queryCalls b t (fst r)) (snd r)) (fKeep f)) ["way"; "node"; "relation"]%string.
(** 263-299; [c] is the number of boxes so far *)
Fixpoint boxesCalls (f : filt) (c : nat) (bs : list box) : list call :=
  match bs with
  | [] => []
  | b :: r =>
      if (x1 b <? x0 b)%Z then boxesCalls f c r
      else [CComment; CTextBox (S c) b; CClose] ++ boxCalls f b ++ boxesCalls f (S c) r
  end.
(** 228-307 *)
Definition overpass (cs : list filt) (leafs : list box) : list call :=
  [CComment; CText " - written by pfaedle -"; CClose; COpen "osm-script" []; COpen "union" []]
  ++ boxesCalls (mergeConfigs cs) 0 leafs
  ++ [CClose; COpen "union" []; COpen "item" []; CClose; COpen "recurse" [("type", VStr "down")]; CClose; CClose; COpen "print" []; CCloseAll].

(** ** osmfilterRuleWrite *)
Definition addKey (s : list string) (k : string) : list string := if existsb (String.eqb k) s then s else s ++ [k].
(** 198-201: the keys for nodes, ways and relations, of all configurations (filter, keys for names and so on) *)
Definition attrKeys (cs : list (filt * (nat -> list string))) (j : nat) : list string :=
  fold_left (fun s c => fold_left addKey (keptKeys (fst c) (snd c) j) s) cs [].
(** 206-212 *)
Definition keepLine (k : string) (v : string * N) : string :=
  (k ++ "=" ++ (if negb (String.eqb (fst v) "*") then fst v else ""))%string.
(** 184-225 *)
Definition osmfilter (cs : list (filt * (nat -> list string))) : list string :=
  ["--keep="]
  ++ flat_map (fun r => map (keepLine (fst r)) (snd r)) (fKeep (mergeConfigs (map fst cs)))
  ++ [""; "--keep-tags="; "all"]
  ++ flat_map (fun j => map (fun k => (k ++ "=")%string) (attrKeys cs j)) [0; 1; 2].
