(** Model of the look-up of names, tracks, lines and colours in OSM tags.
    Source: /repo/src/pfaedle/osm/OsmBuilder.cpp:1025-1101 (getAttrByFirstMatch, getAttrMatchRanked, getAttr,
    getStatInfo), 1359-1440 (getLines), 1443-1549 (getKeptAttrKeys), 1886-1938 (parseHexColor),
    /repo/src/pfaedle/trgraph/EdgePL.h:25-45 (TransitEdgeLine), StatInfo.cpp:11-66.

    Simplifications.
    - pfxml::file::decode and the normalisers are one function each, from value to name (oracles).
      A normaliser has a cache, which does not change its results (see C35).
    - toupper, isdigit, isalpha: of ASCII; other characters are not changed by toupper and
      are not letters or digits.
    - std::stoul("0x" + ret, ..., 16): the number that the hexadecimal digits denote; 0 for blanks
      (strtoul takes the leading 0).
    - Maps are lists of pairs (Osm.h:22: unordered_map; keys are unique).  Pointers to lines are
      positions in the list of all lines.
    - [None]: access outside of the vector of relations.
    - PFAEDLE_STATION_IDS (1092-1095) is not set. *)
From Coq Require Import Ascii String List Arith NArith Bool.
From Verif Require Import OsmFilter_model.
Import ListNotations.
Open Scope list_scope.
Open Scope nat_scope.

(** ** Colours: OsmBuilder.cpp:1886-1938 [parseHexColor] *)
Definition toupper (c : ascii) : ascii := let n := nat_of_ascii c in if (97 <=? n) && (n <=? 122) then ascii_of_nat (n - 32) else c.
Definition isdigit (c : ascii) : bool := let n := nat_of_ascii c in (48 <=? n) && (n <=? 57).
Definition isAF (c : ascii) : bool := let n := nat_of_ascii c in (64 <? n) && (n <? 71).
Definition digitVal (c : ascii) : N := N.of_nat (if isdigit c then nat_of_ascii c - 48 else nat_of_ascii c - 55).
Definition stoul16 (l : list ascii) : N := fold_left (fun a c => (a * 16 + digitVal c)%N) l 0%N.
Definition names : list (string * N) :=
  [("BLACK", 0x000000); ("SILVER", 0xC0C0C0); ("GRAY", 0x808080); ("WHITE", 0xFFFFFF); ("MAROON", 0x800000); ("RED", 0xFF0000);
   ("PURPLE", 0x800080); ("FUCHSIA", 0xFF00FF); ("GREEN", 0x008000); ("LIME", 0x00FF00); ("OLIVE", 0x808000); ("YELLOW", 0xFFFF00);
   ("NAVY", 0x000080); ("BLUE", 0x0000FF); ("TEAL", 0x008080); ("AQUA", 0x00FFFF)]%string%N.
Fixpoint named (l : list (string * N)) (s : string) : N := match l with [] => 0%N | (n, v) :: r => if String.eqb s n then v else named r s end.
Section Colour.
Variable NO_COLOR : N.
Definition parseHexColor (s : string) : N :=
  let s := map toupper (list_ascii_of_string s) in
  let ok := forallb (fun c => isdigit c || isAF c) in
  match s with
  | ["#"; a; b; c; d; e; f]%char => if ok [a; b; c; d; e; f] then stoul16 [a; b; c; d; e; f] else NO_COLOR
  | ["#"; a; b; c]%char => if ok [a; b; c] then stoul16 [a; a; b; b; c; c] else NO_COLOR
  | _ => named names (string_of_list_ascii s)
  end.

(** ** Attributes *)
(** [am.find(k)] *)
Fixpoint attr (a : attrmap) (k : string) : option string := match a with [] => None | (k', v) :: r => if String.eqb k' k then Some v else attr r k end.
(** OsmReadOpts.h:56-68 [DeepAttrRule]: the attribute and the key and value of the relation *)
Record deepRule := mkDeep { dAttr : string; dKey : string; dVal : string }.
(** 1054-1074 [getAttr]; [rels]: the tags of all relations; [ids]: the relations of the entity (empty if there is no entry) *)
Fixpoint relAttr (rels : list attrmap) (r : deepRule) (ids : list nat) : option string :=
  match ids with
  | [] => Some ""%string
  | i :: t => match nth_error rels i with
              | None => None
              | Some a => if containedOne a (dKey r, dVal r) then match attr a (dAttr r) with Some v => Some v | None => relAttr rels r t end else relAttr rels r t
              end
  end.
Definition getAttr (rels : list attrmap) (ids : list nat) (am : attrmap) (r : deepRule) : option string :=
  if String.eqb (dKey r) "" then Some (match attr am (dAttr r) with Some v => v | None => ""%string end) else relAttr rels r ids.
Definition isEmpty (s : string) : bool := String.eqb s "".
(** 1025-1037 [getAttrByFirstMatch] *)
Fixpoint firstMatch (norm : string -> string) (rels : list attrmap) (ids : list nat) (am : attrmap) (l : list deepRule) : option string :=
  match l with
  | [] => Some ""%string
  | r :: t => match getAttr rels ids am r with
              | None => None
              | Some v => if isEmpty (norm v) then firstMatch norm rels ids am t else Some (norm v)
              end
  end.
(** 1040-1051 [getAttrMatchRanked] *)
Fixpoint matchRanked (norm : string -> string) (rels : list attrmap) (ids : list nat) (am : attrmap) (l : list deepRule) : option (list string) :=
  match l with
  | [] => Some []
  | r :: t => match getAttr rels ids am r, matchRanked norm rels ids am t with
              | Some v, Some vs => Some (if isEmpty (norm v) then vs else norm v :: vs)
              | _, _ => None
              end
  end.
Record statInfo := mkStat { siName : string; siAlt : list string; siTrack : string }.
(** The options that are used here (OsmReadOpts.h) *)
Record opts := mkOpts { oFilter : filt; oName : list deepRule; oPlatform : list deepRule; oId : list deepRule; oEdgePlatform : list deepRule;
  oLineName : list string; oLineFrom : list string; oLineTo : list string; oLineColor : list string }.
Variable statNorm trackNorm lineNorm decode : string -> string.     (* the first three: norm(decode(v)) *)
(** 1077-1101 [getStatInfo] *)
Definition getStatInfo (o : opts) (rels : list attrmap) (ids : list nat) (am : attrmap) : option (option statInfo) :=
  match matchRanked statNorm rels ids am (oName o), firstMatch trackNorm rels ids am (oPlatform o) with
  | Some (n :: alt), Some t => Some (Some (mkStat n alt t))
  | Some [], Some _ => Some None
  | _, _ => None
  end.
(** 700-702: the track of a way *)
Definition wayTrack (o : opts) (rels : list attrmap) (ids : list nat) (am : attrmap) : option string := firstMatch trackNorm rels ids am (oEdgePlatform o).
(** 1443-1549 [getKeptAttrKeys], the rules for names, tracks and lines *)
Definition own (l : list deepRule) : list string := map dAttr (filter (fun r => isEmpty (dKey r)) l).
Definition ofRels (l : list deepRule) : list string := flat_map (fun r => if isEmpty (dKey r) then [] else [dKey r; dAttr r]) l.
Definition extraKeys (o : opts) (j : nat) : list string :=
  match j with
  | 0 => own (oName o) ++ own (oPlatform o) ++ own (oId o)
  | 1 => own (oEdgePlatform o)
  | _ => ["from"; "via"; "to"]%string ++ oLineTo o ++ oLineFrom o ++ oLineName o ++ oLineColor o ++ ofRels (oName o) ++ ofRels (oEdgePlatform o) ++ ofRels (oPlatform o) ++ ofRels (oId o)
  end.
Definition readTags (o : opts) (j : nat) (a : attrmap) : attrmap := readAttrs (oFilter o) (extraKeys o) j a.

(** ** Lines *)
Record line := mkLine { lFrom : string; lTo : string; lShort : string; lColor : N }.
(** 1373-1382 (1384-1394, 1396-1406): value and found *)
Definition scan (norm : string -> string) (rel : attrmap) (r : string) (v : string) : string * bool :=
  fold_left (fun (x : string * bool) kv => if String.eqb (fst kv) r then let n := norm (snd kv) in (n, if isEmpty n then snd x else true) else x) rel (v, false).
Fixpoint lineAttr (norm : string -> string) (rel : attrmap) (rules : list string) (v : string) : string :=
  match rules with [] => v | r :: t => let (v, found) := scan norm rel r v in if found then v else lineAttr norm rel t v end.
(** 1408-1424 *)
Definition colorOf (v : string) : N := let c := parseHexColor (decode v) in if (c =? NO_COLOR)%N then parseHexColor (String "#" (decode v)) else c.
Definition scanColor (rel : attrmap) (r : string) (c : N) : N * bool :=
  fold_left (fun (x : N * bool) kv => if String.eqb (fst kv) r then let n := colorOf (snd kv) in if (n =? NO_COLOR)%N then x else (n, true) else x) rel (c, false).
Fixpoint lineColor (rel : attrmap) (rules : list string) (c : N) : N :=
  match rules with [] => c | r :: t => let (c, found) := scanColor rel r c in if found then c else lineColor rel t c end.
(** 1369-1424 *)
Definition readLine (o : opts) (rel : attrmap) : line :=
  mkLine (lineAttr statNorm rel (oLineFrom o) "") (lineAttr statNorm rel (oLineTo o) "") (lineAttr lineNorm rel (oLineName o) "") (lineColor rel (oLineColor o) NO_COLOR).
(** OsmBuilder.h:256-257: _lines and _relLines; the order of lines ignores the colour (EdgePL.h:38-45) *)
Record builder := mkB { bAll : list line; bLines : list (line * nat); bRels : list (nat * nat) }.
Definition sameLine (a b : line) : bool := String.eqb (lFrom a) (lFrom b) && String.eqb (lTo a) (lTo b) && String.eqb (lShort a) (lShort b).
Definition empty : builder := mkB [] [] [].
Fixpoint findLine (l : list (line * nat)) (x : line) : option nat := match l with [] => None | (y, p) :: r => if sameLine y x then Some p else findLine r x end.
Fixpoint findRel (l : list (nat * nat)) (x : nat) : option nat := match l with [] => None | (y, p) :: r => if y =? x then Some p else findRel r x end.
(** 1363-1437: one relation; the line, if there is one *)
Definition getLine (o : opts) (rels : list attrmap) (b : builder) (id : nat) : option (builder * option nat) :=
  match findRel (bRels b) id with
  | Some p => Some (b, Some p)
  | None =>
      match nth_error rels id with
      | None => None
      | Some rel =>
          let el := readLine o rel in
          if isEmpty (lShort el) && isEmpty (lFrom el) && isEmpty (lTo el) then Some (b, None)
          else match findLine (bLines b) el with
               | Some p => Some (mkB (bAll b) (bLines b) ((id, p) :: bRels b), Some p)
               | None => let p := length (bAll b) in Some (mkB (bAll b ++ [el]) ((el, p) :: bLines b) ((id, p) :: bRels b), Some p)
               end
      end
  end.
(** 1359-1440 [getLines] *)
Fixpoint getLines (o : opts) (rels : list attrmap) (b : builder) (ids : list nat) : option (builder * list nat) :=
  match ids with
  | [] => Some (b, [])
  | id :: t => match getLine o rels b id with
               | None => None
               | Some (b, r) => match getLines o rels b t with None => None | Some (b, ps) => Some (b, match r with Some p => p :: ps | None => ps end) end
               end
  end.
(** all ways of the file *)
Fixpoint getAll (o : opts) (rels : list attrmap) (b : builder) (ways : list (list nat)) : option (builder * list (list nat)) :=
  match ways with
  | [] => Some (b, [])
  | w :: t => match getLines o rels b w with
              | None => None
              | Some (b, ps) => match getAll o rels b t with None => None | Some (b, r) => Some (b, ps :: r) end
              end
  end.
End Colour.
