(** Independent reading of the Overpass query and the osmfilter rules (C68, C69). *)
From Coq Require Import Ascii String List Arith NArith ZArith Bool.
From Verif Require Import OsmFilter_model OsmFilter_spec BBoxIdx_model BBoxIdx_spec Query_model.
Import ListNotations.
Open Scope nat_scope.
Open Scope list_scope.

(** ** OSM data *)
Inductive ent := ENode (i : nat) | EWay (i : nat) | ERel (i : nat).
Record data := mkData {
  dNode : nat -> option ((Z * Z) * attrmap);
  dWay : nat -> option (list nat * attrmap);
  dRel : nat -> option (list nat * list nat * attrmap)     (* members: nodes, ways *)
}.
Inductive tags (D : data) : ent -> attrmap -> Prop :=
| tg_node : forall i p a, dNode D i = Some (p, a) -> tags D (ENode i) a
| tg_way : forall i ns a, dWay D i = Some (ns, a) -> tags D (EWay i) a
| tg_rel : forall i ns ws a, dRel D i = Some (ns, ws, a) -> tags D (ERel i) a.
(** Member of a relation, node of a way. *)
Inductive member (D : data) : ent -> ent -> Prop :=
| mb_way : forall i ns a n x, dWay D i = Some (ns, a) -> In n ns -> dNode D n = Some x -> member D (EWay i) (ENode n)
| mb_rel_node : forall i ns ws a n x, dRel D i = Some (ns, ws, a) -> In n ns -> dNode D n = Some x -> member D (ERel i) (ENode n)
| mb_rel_way : forall i ns ws a w x, dRel D i = Some (ns, ws, a) -> In w ws -> dWay D w = Some x -> member D (ERel i) (EWay w).
(** Below: members, members of members. *)
Inductive below (D : data) : ent -> ent -> Prop :=
| bl_one : forall e m, member D e m -> below D e m
| bl_more : forall e m m', member D e m -> below D m m' -> below D e m'.
(** A point of an entity. *)
Inductive at_point (D : data) : ent -> Z * Z -> Prop :=
| ap_node : forall i p a, dNode D i = Some (p, a) -> at_point D (ENode i) p
| ap_member : forall e m p, member D e m -> at_point D m p -> at_point D e p.
Definition kind_of (e : ent) : kind := match e with ENode _ => Node | EWay _ => Way | ERel _ => Relation end.
Definition kind_name (e : ent) : string := match e with ENode _ => "node" | EWay _ => "way" | ERel _ => "relation" end.

(** ** Overpass *)
(** The document that is written: a stack of open elements. *)
Inductive tree := Elem (name : string) (attrs : list (string * val)) (ch : list tree) | Comment.
Inductive open := OElem (name : string) (attrs : list (string * val)) | OComment.
Definition closed (o : open) (ch : list tree) : tree := match o with OElem n a => Elem n a ch | OComment => Comment end.
(** [builds l st done ts]: after the calls [l], with the open elements [st] and their contents so far (the innermost
    first), and [done] at the top, the document is [ts]. *)
Inductive builds : list call -> list (open * list tree) -> list tree -> list tree -> Prop :=
| bd_end : forall d, builds [] [] d d
| bd_open : forall n a l st d ts, builds l ((OElem n a, []) :: st) d ts -> builds (COpen n a :: l) st d ts
| bd_comment : forall l st d ts, builds l ((OComment, []) :: st) d ts -> builds (CComment :: l) st d ts
| bd_text : forall s l st d ts, builds l st d ts -> builds (CText s :: l) st d ts
| bd_textbox : forall n b l st d ts, builds l st d ts -> builds (CTextBox n b :: l) st d ts
| bd_close : forall o ch o' ch' l st d ts, builds l ((o', ch' ++ [closed o ch]) :: st) d ts -> builds (CClose :: l) ((o, ch) :: (o', ch') :: st) d ts
| bd_close_top : forall o ch l d ts, builds l [] (d ++ [closed o ch]) ts -> builds (CClose :: l) [(o, ch)] d ts
| bd_all_none : forall l d ts, builds l [] d ts -> builds (CCloseAll :: l) [] d ts
| bd_all_more : forall l st d ts, st <> [] -> builds (CClose :: CCloseAll :: l) st d ts -> builds (CCloseAll :: l) st d ts.

(** The meaning of the statements.  [rnd]: a number printed with six digits, read again. *)
Section Overpass.
Variable rnd : Z -> Z.
Variable D : data.
Definition printed_box (b : box) : box := mkBox (rnd (x0 b)) (rnd (y0 b)) (rnd (x1 b)) (rnd (y1 b)).
(** has-kv *)
Inductive has_kv (a : attrmap) : tree -> Prop :=
| hk_any : forall k v, In (k, v) a -> has_kv a (Elem "has-kv" [("k"%string, VStr k)] [])
| hk_val : forall k v, In (k, v) a -> has_kv a (Elem "has-kv" [("k"%string, VStr k); ("v"%string, VStr v)] []).
Inductive in_bbox (p : Z * Z) : tree -> Prop :=
| ib : forall s w n e, (rnd s <= snd p <= rnd n)%Z -> (rnd w <= fst p <= rnd e)%Z ->
    in_bbox p (Elem "bbox-query" [("s"%string, VNum s); ("w"%string, VNum w); ("n"%string, VNum n); ("e"%string, VNum e)] []).
(** What a statement gives, from the result of the one before. *)
Inductive gives (cur : ent -> Prop) : tree -> ent -> Prop :=
| gv_query : forall e a p kv bb, tags D e a -> at_point D e p -> has_kv a kv -> in_bbox p bb ->
    gives cur (Elem "query" [("type"%string, VStr (kind_name e))] [kv; bb]) e
| gv_union : forall t ch e, In t ch -> gives cur t e -> gives cur (Elem "union" [] ch) e
| gv_item : forall e, cur e -> gives cur (Elem "item" [] []) e
| gv_down : forall e m, cur e -> below D e m -> gives cur (Elem "recurse" [("type"%string, VStr "down")] []) m.
Inductive runs : (ent -> Prop) -> list tree -> ent -> Prop :=
| rn_print : forall (cur : ent -> Prop) e, cur e -> runs cur [Elem "print" [] []] e
| rn_next : forall (cur : ent -> Prop) t r e, runs (gives cur t) r e -> runs cur (t :: r) e.
(** [e] is in the answer to the document. *)
Inductive answer (ts : list tree) (e : ent) : Prop :=
| an : forall ss, In (Elem "osm-script" [] ss) ts -> runs (fun _ => False) ss e -> answer ts e.

(** ** What is needed *)
(** The entities read from the data for a configuration with the rules [m] for keeping, if [box] are the points inside. *)
Inductive needed (m : rulemap) (box : Z * Z -> Prop) : ent -> Prop :=
| nd_kept : forall e a p, tags D e a -> matches m (kind_of e) a -> at_point D e p -> box p -> needed m box e
| nd_in_rel : forall i a e p, tags D (ERel i) a -> matches m Relation a -> member D (ERel i) e -> at_point D e p -> box p -> needed m box e
| nd_way_node : forall w n, needed m box (EWay w) -> member D (EWay w) n -> needed m box n.
End Overpass.

(** No rule matches lists of values. *)
Definition no_lists (cs : list filt) : Prop := forall c k b fl, In c cs -> rule (fKeep c) k b fl -> N.testbit fl 5 = false.
(** The points that are at least [e] inside of one of the boxes. *)
Definition well_inside (e : Z) (bs : list box) (p : Z * Z) : Prop :=
  exists b, In b bs /\ (x0 b + e <= fst p <= x1 b - e)%Z /\ (y0 b + e <= snd p <= y1 b - e)%Z.

(** An entity has a rule's tag and a point in the printed form of a box. *)
Definition chosen (rnd : Z -> Z) (D : data) (cs : list filt) (leafs : list box) (e : ent) : Prop :=
  exists a p l c k v b fl, tags D e a /\ at_point D e p /\ In l leafs /\ (x0 l <= x1 l)%Z /\ inside p (printed_box rnd l) /\
    In c cs /\ rule (fKeep c) k b fl /\ ~ disabled (kind_of e) fl /\ In (k, v) a /\ (b = "*"%string \/ v = b).

(** ** osmfilter *)
Definition heading (s : string) : Prop := exists r, s = ("--" ++ r)%string.
(** Line [l] is in the section with this heading. *)
Inductive under (h : string) (ls : list string) (l : string) : Prop :=
| un : forall before block after, ls = before ++ h :: block ++ after -> (forall x, In x block -> ~ heading x) -> In l block -> under h ls l.
Definition no_eq (s : string) : Prop := forall x y, s <> (x ++ "=" ++ y)%string.
(** A rule "key=value" or "key=" keeps an entity with these tags. *)
Definition line_keeps (l : string) (a : attrmap) : Prop :=
  exists k v w, l = (k ++ "=" ++ w)%string /\ no_eq k /\ In (k, v) a /\ (w = ""%string \/ w = v).
(** A rule "key=" keeps the tags with this key. *)
Definition tag_kept (ls : list string) (k : string) : Prop := under "--keep-tags=" ls (k ++ "=")%string.
(** [a'] are those tags of [a] that are kept. *)
Inductive stripped (kept : string -> Prop) : attrmap -> attrmap -> Prop :=
| st_nil : stripped kept [] []
| st_keep : forall k v a a', kept k -> stripped kept a a' -> stripped kept ((k, v) :: a) ((k, v) :: a')
| st_drop : forall k v a a', ~ kept k -> stripped kept a a' -> stripped kept ((k, v) :: a) a'.
