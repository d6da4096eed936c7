(** Specification of the reading of an OSM file, in terms of the elements of the file. *)
From Coq Require Import Ascii String List Arith NArith Bool.
From Verif Require Import OsmRead_model.
Import ListNotations.
Open Scope nat_scope.

Section Spec.
Context {P : Type}.
Notation tok := (@tok P).
Notation tag := (@tag P).
Notation attrmap := (list (string * string)).

(** ** A file: elements with their nested tags *)
Record elem := mkElem { head : tag; body : list tok }.
Definition tokens (e : elem) : list tok := mkTok 2 (head e) :: body e.
Definition text (es : list elem) : list tok := flat_map tokens es.
(** nested tags are nested, and no nodes, ways or relations *)
Definition inner (t : tok) : Prop := 3 <= lvl t /\ match tg t with TNode _ _ | TWay _ | TRel _ => False | _ => True end.
Definition nodeElem (e : elem) : Prop := (exists id p, head e = TNode id p) /\ Forall inner (body e).
Definition wayElem (e : elem) : Prop := (exists id, head e = TWay id) /\ Forall inner (body e).
Definition relElem (e : elem) : Prop := (exists id, head e = TRel id) /\ Forall inner (body e).
Definition noNodes (t : tok) : Prop := match tg t with TNode _ _ => False | _ => True end.

Definition idOf (e : elem) : nat := match head e with TNode id _ | TWay id | TRel id => id | _ => 0 end.
Definition posOf (e : elem) : option P := match head e with TNode _ p => Some p | _ => None end.
(** The children of an element: those directly below it. *)
Definition children (e : elem) : list tag := map tg (filter (fun t => lvl t =? 3) (body e)).
Definition refs (e : elem) : list nat := flat_map (fun t => match t with TNd r => [r] | _ => [] end) (children e).
Definition nodeMembers (e : elem) : list (nat * string) := flat_map (fun t => match t with TMember MNode r role => [(r, role)] | _ => [] end) (children e).
Definition wayMembers (e : elem) : list (nat * string) := flat_map (fun t => match t with TMember MWay r role => [(r, role)] | _ => [] end) (children e).
(** The tags with a needed key.  Of several tags with the same key the last one counts. *)
Definition needed (keys : string -> bool) (e : elem) : attrmap :=
  flat_map (fun t => match t with TTag k v => if keys k then [(k, v)] else [] | _ => [] end) (children e).
Fixpoint lastOnes (l : attrmap) : attrmap :=
  match l with
  | [] => []
  | (k, v) :: r => if existsb (fun x => String.eqb (fst x) k) r then lastOnes r else (k, v) :: lastOnes r
  end.
Definition tags (keys : string -> bool) (e : elem) : attrmap := lastOnes (needed keys e).

(** [Picked A W val es l]: [l] has the value of each element that is wanted, in order. *)
Inductive Picked {B A : Type} (W : B -> Prop) (val : B -> A) : list B -> list A -> Prop :=
| P_nil : Picked W val [] []
| P_take : forall e es l, W e -> Picked W val es l -> Picked W val (e :: es) (val e :: l)
| P_skip : forall e es l, ~ W e -> Picked W val es l -> Picked W val (e :: es) l.

(** The last element is wanted. *)
Definition LastWanted (W : elem -> Prop) (ws : list elem) : Prop := exists d e, ws = d ++ [e] /\ W e.

(** ** What is wanted; [ns], [rs]: the nodes and relations of the file *)
Section Wanted.
Variable c : @cfg P.
Variable ns rs : list elem.

(** The answer of a set of ids that was told about some: right for these, any for others. *)
Definition InBox (id : nat) : Prop :=
  (exists e p, In e ns /\ head e = TNode id p /\ inBox c p = true) \/
  ((forall e, In e ns -> idOf e <> id) /\ otherBox c id = true).
Definition hupNode (e : elem) : Prop := exists k v, In (TTag k v) (children e) /\ nohupF c k v = true.
Definition NoHup (id : nat) : Prop :=
  (id <> 0 /\ exists e, In e ns /\ idOf e = id /\ hupNode e) \/
  (~ (id <> 0 /\ exists e, In e ns /\ idOf e = id /\ hupNode e) /\ otherHup c id = true).

Definition RelWanted (e : elem) : Prop :=
  idOf e <> 0 /\ tags (keysR c) e <> [] /\ keepR c (tags (keysR c) e) <> 0%N /\ dropR c (tags (keysR c) e) = 0%N.
(** Its members are wanted too: it is wanted without the flag "no down", which is 2. *)
Definition Downward (e : elem) : Prop := RelWanted e /\ N.testbit (keepR c (tags (keysR c) e)) 1 = false.
Definition relVal (e : elem) : rel := mkRel (idOf e) (nodeMembers e) (wayMembers e) (tags (keysR c) e) (keepR c (tags (keysR c) e)).

Definition WayWanted (e : elem) : Prop :=
  idOf e <> 0 /\ 2 <= length (refs e) /\
  ((exists r, In r rs /\ Downward r /\ In (idOf e) (map fst (wayMembers r))) \/ keepW c (tags (keysW c) e) = true) /\
  dropW c (tags (keysW c) e) = false /\
  (exists id, In id (refs e) /\ InBox id).
Definition wayVal (e : elem) : way := mkWay (idOf e) (refs e) (tags (keysW c) e).

(** [used], [many]: the ids of the nodes of ways, and those where ways do not meet *)
Definition NodeWanted (used many : nat -> Prop) (e : elem) : Prop :=
  idOf e <> 0 /\
  (used (idOf e) \/
   InBox (idOf e) /\
   (many (idOf e) \/
    ((exists r, In r rs /\ Downward r /\ In (idOf e) (map fst (nodeMembers r))) \/ keepN c (tags (keysN c) e) = true) /\
    dropN c (tags (keysN c) e) = false)).
Definition nodeVal (e : elem) : node := mkNode (idOf e) (posOf e) (tags (keysN c) e).
End Wanted.

(** The relations that are written: those wanted, with the members that are there, if any.
    [known], [ways]: the ids of the nodes and ways that are there *)
Section Written.
Variable c : @cfg P.
Variable known ways : nat -> Prop.
Inductive Written : list elem -> list (@out P) -> Prop :=
| W_nil : Written [] []
| W_take : forall e es l nm wm, RelWanted c e ->
    Picked (fun m => known (fst m)) (fun m => m) (nodeMembers e) nm -> Picked (fun m => ways (fst m)) (fun m => m) (wayMembers e) wm ->
    nm <> [] \/ wm <> [] -> Written es l -> Written (e :: es) (ORel (idOf e) nm wm (tags (keysR c) e) :: l)
| W_skip : forall e es l,
    ~ RelWanted c e \/ (forall m, In m (nodeMembers e) -> ~ known (fst m)) /\ (forall m, In m (wayMembers e) -> ~ ways (fst m)) ->
    Written es l -> Written (e :: es) l.
End Written.

(** What is remembered of the relations that were read. *)
Record RelsOk (rl : list rel) (s : rels) : Prop := {
  ro_attrs : relAttrs s = map rAttrs rl;
  ro_flat : forall i, In i (flat s) <-> exists r, nth_error rl i = Some r /\ N.testbit (rKeep r) 1 = true;
  ro_nodes : forall id i, In (id, i) (nodeRels s) <-> exists r, nth_error rl i = Some r /\ In id (map fst (rNodes r));
  ro_ways : forall id i, In (id, i) (wayRels s) <-> exists r, nth_error rl i = Some r /\ In id (map fst (rWays r))
}.

(** ** The graph of the ways *)
Section Graph.
Variable level : attrmap -> nat.
Variable oneway onewayrev : attrmap -> bool.
Variable linesOf : nat -> list nat.
Variable hup has : nat -> bool.

(** The nodes of a way that get into the graph. *)
Definition usedNodes (w : way) : list nat := filter (fun id => hup id || has id) (wNodes w).
Fixpoint neighbours {A : Type} (l : list A) : list (A * A) :=
  match l with a :: r => match r with b :: _ => (a, b) :: neighbours r | [] => [] end | [] => [] end.
(** The steps of the ways: way, and id and graph node of both ends. *)
Notation step := (way * ((nat * nat) * (nat * nat)))%type.
Definition onStep (a b : nat) (s : step) : Prop := snd (fst (snd s)) = a /\ snd (snd (snd s)) = b.
Definition directed (w : way) : Prop := oneway (wAttrs w) = true \/ onewayrev (wAttrs w) = true.
Record EdgeOk (T : list step) (e : edge) : Prop := {
  ek_some : exists s, In s T /\ onStep (eFrom e) (eTo e) s;
  ek_lines : forall l, In l (eLines e) <-> exists s, In s T /\ onStep (eFrom e) (eTo e) s /\ In l (linesOf (wId (fst s)));
  (* the last way decides *)
  ek_level : exists T1 s T2, T = T1 ++ s :: T2 /\ onStep (eFrom e) (eTo e) s /\ (forall s', In s' T2 -> ~ onStep (eFrom e) (eTo e) s') /\
             eLvl e = level (wAttrs (fst s));
  (* the last way with a direction decides *)
  ek_dir : (eOneWay e = 0 /\ forall s, In s T -> onStep (eFrom e) (eTo e) s -> ~ directed (fst s)) \/
           (exists T1 s T2, T = T1 ++ s :: T2 /\ onStep (eFrom e) (eTo e) s /\ directed (fst s) /\
              (forall s', In s' T2 -> onStep (eFrom e) (eTo e) s' -> ~ directed (fst s')) /\
              ((onewayrev (wAttrs (fst s)) = true /\ eOneWay e = 2) \/ (onewayrev (wAttrs (fst s)) = false /\ eOneWay e = 1)))
}.
(** [O]: for each way, its used nodes with their graph node. *)
Record GraphOf (ws : list way) (g : graph) (O : list (list (nat * nat))) : Prop := {
  go_nodes : map (map fst) O = map usedNodes ws;
  (* two places share a graph node iff they have the same id and ways meet there *)
  go_shared : forall i j id v id' v', nth_error (concat O) i = Some (id, v) -> nth_error (concat O) j = Some (id', v') -> i <> j ->
              (v = v' <-> id = id' /\ hup id = false);
  go_size : forall v, v < gSize g <-> In v (map snd (concat O));
  go_known : forall id v, In (id, v) (gNodes g) <-> In (id, v) (concat O) /\ hup id = false;
  go_many : forall id v, In (id, v) (gMult g) <-> In (id, v) (concat O) /\ hup id = true;
  (* the edges *)
  go_once : NoDup (map (fun e => (eFrom e, eTo e)) (gEdges g));
  go_edge : forall a b, In (a, b) (map (fun e => (eFrom e, eTo e)) (gEdges g)) <->
            exists l, In l O /\ In (a, b) (neighbours (map snd l));
  go_attrs : forall e, In e (gEdges g) -> EdgeOk (flat_map (fun p => map (fun s => (fst p, s)) (neighbours (snd p))) (combine ws O)) e;
  (* the restrictor hears of each step, in order *)
  go_segs : Forall2 (fun s t => sgWay t = wId (fst s) /\ (sgLastId t, sgLast t) = fst (snd s) /\ (sgId t, sgN t) = snd (snd s) /\
                               exists e, nth_error (gEdges g) (sgEdge t) = Some e /\ eFrom e = sgLast t /\ eTo e = sgN t)
              (flat_map (fun p => map (fun s => (fst p, s)) (neighbours (snd p))) (combine ws O)) (gSegs g)
}.
End Graph.

(** ** Positions and states of graph nodes *)
Section Pay.
Context {SI : Type}.
Variable statInfo : nat -> attrmap -> option SI.
Variable station blocker turnCycle : attrmap -> bool.
Inductive StateOf (id : nat) (a : attrmap) : @nstate SI -> Prop :=
| SO_station : forall i, station a = true -> statInfo id a = Some i -> StateOf id a (Station i)
| SO_null : station a = true -> statInfo id a = None -> StateOf id a Plain
| SO_blocker : station a = false -> blocker a = true -> StateOf id a Blocker
| SO_turn : station a = false -> blocker a = false -> turnCycle a = true -> StateOf id a Turn
| SO_plain : station a = false -> blocker a = false -> turnCycle a = false -> StateOf id a Plain.
(** [O] as above, [nl]: the nodes that were read. *)
Record NodesOk (g : graph) (O : list (list (nat * nat))) (nl : list (@node P)) (s : @ngraph P SI) : Prop := {
  nk_read : forall id v nd, In (id, v) (concat O) -> In nd nl -> nId nd = id ->
            pPos (ngPay s v) = nPos nd /\ StateOf id (nAttrs nd) (pState (ngPay s v));
  nk_unread : forall id v, In (id, v) (concat O) -> (forall nd, In nd nl -> nId nd <> id) -> ngPay s v = mkPay None Plain;
  (* stations that are on no way get graph nodes of their own *)
  nk_extra : exists xs, Picked (fun nd => ~ In (nId nd) (map fst (concat O)) /\ station (nAttrs nd) = true) (fun nd => nd) nl xs /\
             ngSize s = gSize g + length xs /\
             forall i nd, nth_error xs i = Some nd ->
               pPos (ngPay s (gSize g + i)) = nPos nd /\ StateOf (nId nd) (nAttrs nd) (pState (ngPay s (gSize g + i))) /\
               (In (gSize g + i) (orphans s) <-> statInfo (nId nd) (nAttrs nd) <> None);
  nk_orphans : forall k, In k (orphans s) -> gSize g <= k < ngSize s
}.
End Pay.

(** ** A restriction *)
Section Restr.
Variable posRestr negRestr : attrmap -> bool.
(** [Rule r pos via f t]: what relation [r] says *)
Definition Rule (r : rel) (pos : bool) (via f t : nat) : Prop :=
  In ("type", "restriction")%string (rAttrs r) /\
  filter (fun m => String.eqb (snd m) "from") (rWays r) = [(f, "from"%string)] /\
  filter (fun m => String.eqb (snd m) "to") (rWays r) = [(t, "to"%string)] /\
  (exists r', filter (fun m => String.eqb (snd m) "via") (rNodes r) = (via, "via"%string) :: r') /\
  f <> 0 /\ t <> 0 /\ via <> 0 /\
  (if pos then posRestr (rAttrs r) = true else posRestr (rAttrs r) = false /\ negRestr (rAttrs r) = true).
End Restr.
End Spec.
