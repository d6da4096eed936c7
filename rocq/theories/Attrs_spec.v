(** Specification of colours, names and lines. *)
From Coq Require Import Ascii String List Arith NArith Bool.
From Verif Require Import OsmFilter_model Attrs_model.
Import ListNotations.
Open Scope list_scope.
Open Scope nat_scope.

(** ** Colours *)
(** [Hex c v]: character [c] is a hexadecimal digit of value [v]. *)
Definition Hex (c : ascii) (v : N) : Prop := get (N.to_nat v) "0123456789abcdef" = Some c \/ get (N.to_nat v) "0123456789ABCDEF" = Some c.
Definition NotHex (c : ascii) : Prop := forall v, ~ Hex c v.
(** lower case *)
Definition lower (c : ascii) : ascii :=
  match index 0 (String c "") "ABCDEFGHIJKLMNOPQRSTUVWXYZ" with Some i => match get i "abcdefghijklmnopqrstuvwxyz" with Some d => d | None => c end | None => c end.
Fixpoint lowerAll (s : string) : string := match s with EmptyString => EmptyString | String c r => String (lower c) (lowerAll r) end.
(** HTML: red, green, blue *)
Definition rgb (r g b : N) : N := (r * 65536 + g * 256 + b)%N.
Definition htmlNames : list (string * N) :=
  [("black", rgb 0 0 0); ("silver", rgb 192 192 192); ("gray", rgb 128 128 128); ("white", rgb 255 255 255); ("maroon", rgb 128 0 0); ("red", rgb 255 0 0);
   ("purple", rgb 128 0 128); ("fuchsia", rgb 255 0 255); ("green", rgb 0 128 0); ("lime", rgb 0 255 0); ("olive", rgb 128 128 0); ("yellow", rgb 255 255 0);
   ("navy", rgb 0 0 128); ("blue", rgb 0 0 255); ("teal", rgb 0 128 128); ("aqua", rgb 0 255 255)]%string.
(** [Parsed NOC s c]: string [s] is read as [c]; [NOC]: no colour *)
Inductive Parsed (NOC : N) : string -> N -> Prop :=
| K_hex6 : forall c1 c2 c3 c4 c5 c6 v1 v2 v3 v4 v5 v6, Hex c1 v1 -> Hex c2 v2 -> Hex c3 v3 -> Hex c4 v4 -> Hex c5 v5 -> Hex c6 v6 ->
    Parsed NOC (String "#" (String c1 (String c2 (String c3 (String c4 (String c5 (String c6 EmptyString))))))) (rgb (v1 * 16 + v2) (v3 * 16 + v4) (v5 * 16 + v6))
| K_hex3 : forall c1 c2 c3 v1 v2 v3, Hex c1 v1 -> Hex c2 v2 -> Hex c3 v3 ->
    Parsed NOC (String "#" (String c1 (String c2 (String c3 EmptyString)))) (rgb (v1 * 16 + v1) (v2 * 16 + v2) (v3 * 16 + v3))
| K_name : forall s v, In (lowerAll s, v) htmlNames -> Parsed NOC s v
(* # and three or six characters that are not all digits *)
| K_bad : forall s c, String.length s = 6 \/ String.length s = 3 -> In c (list_ascii_of_string s) -> NotHex c -> Parsed NOC (String "#" s) NOC
(* anything else is black *)
| K_other : forall s, (forall v, ~ In (lowerAll s, v) htmlNames) -> (forall r, s = String "#" r -> String.length r <> 6 /\ String.length r <> 3) -> Parsed NOC s 0.

(** ** Attributes *)
(** The tags of an entity have distinct keys. *)
Definition tags (a : attrmap) : Prop := NoDup (map fst a).
(** [Given rels ids am r v]: what rule [r] gives for an entity with tags [am] in the relations [ids]. *)
Definition matches (a : attrmap) (r : deepRule) : Prop := exists v, In (dKey r, v) a /\ (dVal r = "*"%string \/ v = dVal r).
Inductive Given (rels : list attrmap) (ids : list nat) (am : attrmap) (r : deepRule) : string -> Prop :=
| G_own : forall v, dKey r = ""%string -> In (dAttr r, v) am -> Given rels ids am r v
(* the first relation that matches and has the attribute *)
| G_rel : forall v l i l' a, dKey r <> ""%string -> ids = l ++ i :: l' -> nth_error rels i = Some a -> matches a r -> In (dAttr r, v) a ->
    (forall j b, In j l -> nth_error rels j = Some b -> matches b r -> ~ In (dAttr r) (map fst b)) -> Given rels ids am r v.
(** [Names norm … rules l]: in the order of the rules, the values given that are not empty. *)
Inductive Names (norm : string -> string) (rels : list attrmap) (ids : list nat) (am : attrmap) : list deepRule -> list string -> Prop :=
| N_nil : Names norm rels ids am [] []
| N_some : forall r t v l, Given rels ids am r v -> norm v <> ""%string -> Names norm rels ids am t l -> Names norm rels ids am (r :: t) (norm v :: l)
| N_empty : forall r t v l, Given rels ids am r v -> norm v = ""%string -> Names norm rels ids am t l -> Names norm rels ids am (r :: t) l
| N_none : forall r t l, (forall v, ~ Given rels ids am r v) -> Names norm rels ids am t l -> Names norm rels ids am (r :: t) l.
(** Relations that are there *)
Definition known (rels : list attrmap) (ids : list nat) : Prop := forall i, In i ids -> i < length rels.

(** ** Lines *)
(** [First norm rel keys v]: the first value that is not empty, else the empty string. *)
Inductive First (norm : string -> string) (rel : attrmap) : list string -> string -> Prop :=
| F_nil : First norm rel [] ""
| F_hit : forall k t v, In (k, v) rel -> norm v <> ""%string -> First norm rel (k :: t) (norm v)
| F_next : forall k t v, (forall w, In (k, w) rel -> norm w = ""%string) -> First norm rel t v -> First norm rel (k :: t) v.
(** The names of the line of a relation: from, to, short name *)
Definition LineNames (statNorm lineNorm : string -> string) (o : opts) (rel : attrmap) (n : string * string * string) : Prop :=
  First statNorm rel (oLineFrom o) (fst (fst n)) /\ First statNorm rel (oLineTo o) (snd (fst n)) /\ First lineNorm rel (oLineName o) (snd n).
Definition namesOf (l : line) : string * string * string := (lFrom l, lTo l, lShort l).
Definition noNames : string * string * string := (""%string, ""%string, ""%string).
(** The colour of a line: of the first tag that is there; what is malformed is black. *)
Inductive Colour (NOC : N) (decode : string -> string) (rel : attrmap) : list string -> N -> Prop :=
| C_nil : Colour NOC decode rel [] NOC
| C_hit : forall k t v c, In (k, v) rel -> Parsed NOC (decode v) c -> Colour NOC decode rel (k :: t) (if (c =? NOC)%N then 0%N else c)
| C_next : forall k t c, ~ In k (map fst rel) -> Colour NOC decode rel t c -> Colour NOC decode rel (k :: t) c.
(** [LinesOf … all ids ps]: for each relation with a name, in order, the line of these names. *)
Inductive LinesOf (statNorm lineNorm : string -> string) (o : opts) (rels : list attrmap) (all : list line) : list nat -> list nat -> Prop :=
| LO_nil : LinesOf statNorm lineNorm o rels all [] []
| LO_skip : forall i rel ids ps, nth_error rels i = Some rel -> LineNames statNorm lineNorm o rel noNames -> LinesOf statNorm lineNorm o rels all ids ps -> LinesOf statNorm lineNorm o rels all (i :: ids) ps
| LO_line : forall i rel l p ids ps, nth_error rels i = Some rel -> LineNames statNorm lineNorm o rel (namesOf l) -> namesOf l <> noNames -> nth_error all p = Some l ->
    LinesOf statNorm lineNorm o rels all ids ps -> LinesOf statNorm lineNorm o rels all (i :: ids) (p :: ps).
(** The lines have distinct names; each has the names and the colour of the first relation that has these names, in the order [ids] in which the relations are met. *)
Record LinesOk (NOC : N) (statNorm lineNorm decode : string -> string) (o : opts) (rels : list attrmap) (ids : list nat) (all : list line) : Prop := {
  lo_once : NoDup (map namesOf all);
  lo_names : forall l, In l all -> namesOf l <> noNames;
  lo_from : forall l, In l all -> exists before i after rel, ids = before ++ i :: after /\ nth_error rels i = Some rel /\
    LineNames statNorm lineNorm o rel (namesOf l) /\ Colour NOC decode rel (oLineColor o) (lColor l) /\
    forall j rel', In j before -> nth_error rels j = Some rel' -> ~ LineNames statNorm lineNorm o rel' (namesOf l)
}.
