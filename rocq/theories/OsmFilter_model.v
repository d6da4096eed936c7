(** Model of the filters for OSM tags.
    Source: /repo/src/pfaedle/osm/OsmFilter.cpp:14-205, 247-262, OsmFilter.h:20-66,
    /repo/src/pfaedle/osm/OsmReadOpts.h:46-54 (flags), /repo/src/pfaedle/osm/Osm.h:22
    (AttrMap), /repo/src/pfaedle/osm/OsmBuilder.cpp:1443-1549 (getKeptAttrKeys), 195-204,
    253-258, 390-398 (merging of the filters of all configurations).

    Simplifications.
    - The tags of an entity (an unordered_map) are a list in the order of iteration.  A map
      of rules is a list of keys with their values and flags, as is std::map (sorted).
    - [levels]: the eight maps of rules for levels.
    - getKeptAttrKeys: the keys needed for other purposes (names, lines, restriction
      members) are a parameter. *)
From Coq Require Import Ascii String List Arith NArith Bool.
Import ListNotations.
Open Scope nat_scope.

(** OsmReadOpts.h:47-54, OsmFilter.h:21. *)
Definition REL_NO_DOWN : N := 2.
Definition MULT_VAL_MATCH : N := 32.
Definition REL : N := 4.
Definition WAY : N := 8.
Definition NODE : N := 16.
Definition ALL : N := 0.

Notation attrmap := (list (string * string)).
Notation rulemap := (list (string * list (string * N))).

(** [a.find(b) != npos] *)
Fixpoint startsWith (b a : string) : bool :=
  match b, a with
  | EmptyString, _ => true
  | String c b', String d a' => Ascii.eqb c d && startsWith b' a'
  | String _ _, EmptyString => false
  end.
Fixpoint hasSub (a b : string) : bool :=
  startsWith b a || match a with EmptyString => false | String _ a' => hasSub a' b end.
(** OsmFilter.cpp:136-151 [valMatches]. *)
Definition valMatches (a b : string) (m : bool) : bool :=
  if String.eqb b "*" then true
  else if m && (hasSub a (";" ++ b) || hasSub a (b ++ ";") || hasSub a ("; " ++ b) || hasSub a (b ++ " ;"))%string then true
  else String.eqb a b.

(** [map.find(k)] *)
Fixpoint findK (m : rulemap) (k : string) : option (list (string * N)) :=
  match m with [] => None | (k', vs) :: r => if String.eqb k' k then Some vs else findK r k end.
(** The loop over the values, lines 89-93. *)
Fixpoint matchVals (v : string) (vs : list (string * N)) (t : N) : option N :=
  match vs with
  | [] => None
  | (b, fl) :: r =>
      if negb (N.land fl t =? 0)%N then matchVals v r t
      else if valMatches v b (negb (N.land fl MULT_VAL_MATCH =? 0)%N) then Some fl else matchVals v r t
  end.
(** OsmFilter.cpp:82-98 [contained]. *)
Fixpoint contained (attrs : attrmap) (m : rulemap) (t : N) : N :=
  match attrs with
  | [] => 0%N
  | (k, v) :: r =>
      match findK m k with
      | None => contained r m t
      | Some vs => match matchVals v vs t with Some fl => fl | None => contained r m t end
      end
  end.
Definition isSet (n : N) : bool := negb (n =? 0)%N.

(** OsmFilter.h:53-56. *)
Record filt := mkFilt { fKeep : rulemap; fDrop : rulemap; fNohup : rulemap; fOneway : rulemap; fOnewayrev : rulemap; fTwoway : rulemap;
  fStation : rulemap; fBlocker : rulemap; fPosRestr : rulemap; fNegRestr : rulemap; fNoRestr : rulemap; fTurnCycle : rulemap; fLevels : list rulemap }.
(** OsmFilter.cpp:33-80, 247-256. *)
Definition keep (f : filt) (a : attrmap) (t : N) : N := contained a (fKeep f) t.
Definition drop (f : filt) (a : attrmap) (t : N) : N := contained a (fDrop f) t.
Definition nohup (f : filt) (k v : string) : bool :=
  match findK (fNohup f) k with None => false | Some vs => existsb (fun b => valMatches v (fst b) false) vs end.
Definition oneway (f : filt) (a : attrmap) : N := if isSet (contained a (fTwoway f) WAY) then 0%N else contained a (fOneway f) WAY.
Definition onewayrev (f : filt) (a : attrmap) : N := if isSet (contained a (fTwoway f) WAY) then 0%N else contained a (fOnewayrev f) WAY.
Definition station (f : filt) (a : attrmap) : N := contained a (fStation f) NODE.
Definition blocker (f : filt) (a : attrmap) : N := contained a (fBlocker f) NODE.
Definition turnCycle (f : filt) (a : attrmap) : N := contained a (fTurnCycle f) NODE.
Definition negRestr (f : filt) (a : attrmap) : N := if isSet (contained a (fNoRestr f) ALL) then 0%N else contained a (fNegRestr f) ALL.
Definition posRestr (f : filt) (a : attrmap) : N := if isSet (contained a (fNoRestr f) ALL) then 0%N else contained a (fPosRestr f) ALL.
(** OsmFilter.cpp:110-125 [level]; flags are ignored. *)
Definition levelHit (a : attrmap) (m : rulemap) : bool :=
  existsb (fun kv => match findK m (fst kv) with None => false | Some vs => existsb (fun b => valMatches (snd kv) (fst b) false) vs end) a.
Fixpoint levelFrom (a : attrmap) (ls : list rulemap) (i : nat) : nat :=
  match ls with [] => 0 | m :: r => if levelHit a m then i else levelFrom a r (S i) end.
Definition level (f : filt) (a : attrmap) : nat := levelFrom a (fLevels f) 0.
(** OsmFilter.cpp:100-108 [contained] with one attribute. *)
Fixpoint containedOne (a : attrmap) (at' : string * string) : bool :=
  match a with [] => false | (k, v) :: r => if String.eqb k (fst at') then valMatches v (snd at') false else containedOne r at' end.

(** ** Merging, OsmFilter.cpp:192-205 *)
(** [std::map::insert]: an existing value keeps its flags. *)
Definition insertVal (vs : list (string * N)) (b : string * N) : list (string * N) :=
  if existsb (fun x => String.eqb (fst x) (fst b)) vs then vs else vs ++ [b].
(** [keep[k].insert(vs.begin(), vs.end())] *)
Fixpoint insertVals (m : rulemap) (k : string) (vs : list (string * N)) : rulemap :=
  match m with
  | [] => [(k, fold_left insertVal vs [])]
  | (k', ws) :: r => if String.eqb k' k then (k', fold_left insertVal vs ws) :: r else (k', ws) :: insertVals r k vs
  end.
Definition mergeMap (m : rulemap) (other : rulemap) : rulemap := fold_left (fun m kv => insertVals m (fst kv) (snd kv)) other m.
Definition emptyFilt : filt := mkFilt [] [] [] [] [] [] [] [] [] [] [] [] [].
Definition withKeep (k d : rulemap) : filt := mkFilt k d [] [] [] [] [] [] [] [] [] [] [].
Definition merge (f other : filt) : filt := withKeep (mergeMap (mergeMap [] (fKeep f)) (fKeep other)) [].
(** OsmBuilder.cpp:391-397 (and 197-203, 254-258). *)
Definition mergeConfigs (cs : list filt) : filt := fold_left (fun f c => merge f (withKeep (fKeep c) (fDrop c))) cs emptyFilt.

(** ** Which tags are read: OsmBuilder.cpp:1443-1549 *)
Definition keys (m : rulemap) : list string := map fst m.
(** [j]: 0 nodes, 1 ways, 2 relations; [extra]: the keys for names and so on. *)
Definition keptKeys (f : filt) (extra : nat -> list string) (j : nat) : list string :=
  keys (fKeep f) ++ keys (fDrop f) ++
  match j with
  | 0 => keys (fNohup f) ++ keys (fStation f) ++ keys (fBlocker f) ++ keys (fTurnCycle f)
  | 1 => keys (fOneway f) ++ keys (fOnewayrev f) ++ keys (fTwoway f) ++ flat_map keys (firstn 7 (fLevels f))
  | _ => keys (fStation f) ++ keys (fPosRestr f) ++ keys (fNegRestr f) ++ keys (fNoRestr f)
  end ++ extra j.
Definition readAttrs (f : filt) (extra : nat -> list string) (j : nat) (a : attrmap) : attrmap :=
  filter (fun kv => existsb (String.eqb (fst kv)) (keptKeys f extra j)) a.
