(** Specification for the passes over the OSM graph (C14-C17). *)
From Coq Require Import List Arith NArith QArith Bool Permutation.
From Verif Require Import OsmGraph_model.
Import ListNotations.
Open Scope nat_scope.

Section Spec.
Context {P : Type}.
Variable pos : nat -> P.
Variable station turn : nat -> bool.
Notation edge := (edge P). Notation graph := (graph P).

(** At most one edge from a node to a node. *)
Definition simple (g : graph) : Prop := NoDup (map (fun e => (from e, to e)) (edges g)).
Definition touches (e : edge) (n : nat) : Prop := from e = n \/ to e = n.

(** ** Chains of edges *)
(** An edge driven along ([true]) or against its direction. *)
Notation hop := (edge * bool)%type.
Definition src (h : hop) : nat := if snd h then from (fst h) else to (fst h).
Definition dst (h : hop) : nat := if snd h then to (fst h) else from (fst h).
Fixpoint chain (u : nat) (c : list hop) (v : nat) : Prop :=
  match c with [] => u = v | h :: r => src h = u /\ chain (dst h) r v end.
(** The nodes between the hops of a chain. *)
Fixpoint between (c : list hop) : list nat :=
  match c with [] => [] | h :: r => match r with [] => [] | _ => dst h :: between r end end.
(** The line of an edge; without geometry the straight line between its nodes. *)
Definition shape (e : edge) : list P := match geom (ePl e) with Some l => l | None => [pos (from e); pos (to e)] end.
Definition line (h : hop) : list P := if snd h then shape (fst h) else rev (shape (fst h)).
(** If an edge has a geometry, it leads from its first to its second node. *)
Definition ends_fit (e : edge) : Prop :=
  match geom (ePl e) with None => True | Some l => exists m, l = pos (from e) :: m ++ [pos (to e)] end.
(** One line after the other; the point where they meet occurs twice or once. *)
Inductive joined : list P -> list P -> list P -> Prop :=
| j_twice : forall l1 l2, joined l1 l2 (l1 ++ l2)
| j_once : forall l1 p l2, joined (l1 ++ [p]) (p :: l2) (l1 ++ p :: l2).
(** The line of a chain. *)
Inductive runs : list hop -> list P -> Prop :=
| r_one : forall h, runs [h] (line h)
| r_app : forall c1 c2 l1 l2 l, runs c1 l1 -> runs c2 l2 -> joined l1 l2 l -> runs (c1 ++ c2) l.

(** ** C14, C15: an edge stands for a chain of edges. *)
Record stands_for (e : edge) (c : list hop) : Prop := {
  sf_chain : c <> [] /\ chain (from e) c (to e);
  (* an edge that was not merged is as before *)
  sf_same : length c = 1 -> c = [(e, true)];
  (* geometry, but not for loops made of one-way edges *)
  sf_line : ~ (1 < length c /\ oneWay (ePl e) <> 0 /\ from e = to e) -> runs c (shape e) /\ ends_fit e;
  sf_level : forall h, In h c -> lvl (ePl (fst h)) = lvl (ePl e);
  sf_lines : forall h, In h c -> lines (ePl (fst h)) = lines (ePl e);
  (* restricted edges are not merged *)
  sf_restr : 1 < length c -> restr (ePl e) = false /\ forall h, In h c -> restr (ePl (fst h)) = false;
  (* one-way edges are merged with one-way edges only, and are driven along *)
  sf_both : oneWay (ePl e) = 0 -> forall h, In h c -> oneWay (ePl (fst h)) = 0;
  sf_one : oneWay (ePl e) <> 0 -> (forall h, In h c -> oneWay (ePl (fst h)) <> 0 /\ snd h = true) /\
                                  exists h, In h c /\ oneWay (ePl (fst h)) = oneWay (ePl e);
  (* stations and turning circles stay *)
  sf_plain : forall n, In n (between c) -> station n = false /\ turn n = false
}.
(** [g'] is [g] with chains of edges replaced by edges: every edge of [g] is in one chain,
    and the nodes between are no longer used. *)
Definition collapsed (g g' : graph) : Prop :=
  nodes g' = nodes g /\ simple g' /\
  exists cs, Forall2 stands_for (edges g') cs /\ Permutation (map fst (concat cs)) (edges g) /\
    forall c n, In c cs -> In n (between c) -> forall e, In e (edges g') -> ~ touches e n.

(** Driving without violating one-way rules: code 1 is along, 2 against the direction. *)
Definition drives (g : graph) (u v : nat) : Prop :=
  exists e, In e (edges g) /\ ((from e = u /\ to e = v /\ oneWay (ePl e) <> 2) \/ (from e = v /\ to e = u /\ oneWay (ePl e) <> 1)).
Inductive reach (g : graph) (u : nat) : nat -> Prop :=
| re_here : reach g u u
| re_step : forall v w, reach g u v -> drives g v w -> reach g u w.
(** One-way codes. *)
Definition codes_ok (g : graph) : Prop := forall e, In e (edges g) -> oneWay (ePl e) <= 2.
(** Edge [a] ends and edge [b] begins at [n], and there are no other edges at [n]. *)
Definition meet (g : graph) (n : nat) (a b : edge) : Prop :=
  In a (edges g) /\ In b (edges g) /\ to a = n /\ from b = n /\ from a <> n /\ to b <> n /\ forall e, In e (edges g) -> touches e n -> e = a \/ e = b.
(** Two one-way edges that meet in this way are both to be driven along, or both against
    their direction. *)
Definition codes_agree (g : graph) : Prop :=
  forall n a b, meet g n a b -> oneWay (ePl a) <> 0 -> oneWay (ePl b) <> 0 -> oneWay (ePl a) = oneWay (ePl b).

(** ** C16 *)
Definition mirrored (e e' : edge) : Prop :=
  from e' = to e /\ to e' = from e /\ lvl (ePl e') = lvl (ePl e) /\ cost (ePl e') = cost (ePl e) /\ lines (ePl e') = lines (ePl e) /\
  restr (ePl e') = restr (ePl e) /\ geom (ePl e') = geom (ePl e) /\ rev_ (ePl e') = true /\
  (oneWay (ePl e) = 0 -> oneWay (ePl e') = 0) /\ (oneWay (ePl e) = 1 -> oneWay (ePl e') = 2) /\ (oneWay (ePl e) = 2 -> oneWay (ePl e') = 1).
(** [ds]: the edges whose restrictions were duplicated. *)
Record two_way (g g' : graph) (ds : list edge) : Prop := {
  tw_simple : simple g';
  tw_nodes : nodes g' = nodes g;
  tw_news : exists news, edges g' = edges g ++ news /\
    forall e', In e' news -> exists e, In e (edges g) /\ mirrored e e' /\ ~ exists x, In x (edges g) /\ from x = from e' /\ to x = to e';
  tw_both : forall e, In e (edges g') -> exists e', In e' (edges g') /\ from e' = to e /\ to e' = from e;
  tw_dup : forall e, In e ds <-> In e (edges g) /\ restr (ePl e) = true /\ ~ exists x, In x (edges g) /\ from x = to e /\ to x = from e
}.
(** The points of an edge in its direction. *)
Definition points (e : edge) : option (list P) :=
  match geom (ePl e) with Some l => Some (if rev_ (ePl e) then rev l else l) | None => None end.
(** The geometry of an edge leads from its first to its second node. *)
Definition fits (e : edge) : Prop :=
  exists m, points e = Some (pos (from e) :: m ++ [pos (to e)]).

(** Self-edges: [ns'] are the stations with exactly one outgoing edge. *)
Definition self_edges (g g' : graph) (ns ns' : list nat) : Prop :=
  nodes g' = nodes g /\
  (exists loops, edges g' = edges g ++ loops /\
    Forall2 (fun e n => from e = n /\ to e = n /\ cost (ePl e) = 4294967295%N /\ points e = Some [pos n; pos n]) loops ns') /\
  forall n, In n ns' <-> In n ns /\ station n = true /\ exists e, In e (edges g) /\ from e = n /\ forall x, In x (edges g) -> from x = n -> x = e.

(** ** C17 *)
Inductive connected (g : graph) (u : nat) : nat -> Prop :=
| cn_here : connected g u u
| cn_step : forall v w e, connected g u v -> In e (edges g) -> (from e = v /\ to e = w) \/ (from e = w /\ to e = v) -> connected g u w.
Record graph_ok (g : graph) : Prop := {
  go_nodes : NoDup (nodes g);
  go_ends : forall e, In e (edges g) -> In (from e) (nodes g) /\ In (to e) (nodes g)
}.
Variable speed : nat -> Q.
Variable fl : Q -> Q.
(** Rounding to float. *)
Record rounding : Prop := {
  rd_mono : forall x y, (x <= y)%Q -> (fl x <= fl y)%Q;
  rd_idem : forall x, (fl (fl x) == fl x)%Q;
  rd_zero : (fl 0 == 0)%Q
}.
(** [c]: component ids; [ms]: the recorded maximum speeds; [num]: the value returned. *)
Record components (g : graph) (c : nat -> nat) (ms : list Q) (num : nat) : Prop := {
  cp_some : forall n, In n (nodes g) -> 1 <= c n;
  cp_iff : forall u v, In u (nodes g) -> In v (nodes g) -> (c u = c v <-> connected g u v);
  cp_speed : forall n, In n (nodes g) -> exists m, nth_error ms (c n - 1) = Some m /\
    (forall e, In e (edges g) -> c (from e) = c n -> (fl (speed (lvl (ePl e))) <= m)%Q) /\
    ((m == 0)%Q \/ exists e, In e (edges g) /\ c (from e) = c n /\ (m == fl (speed (lvl (ePl e))))%Q);
  (* the number of components with more than one node *)
  cp_count : exists ks, NoDup ks /\ length ks = num /\
    forall k, In k ks <-> exists u v, In u (nodes g) /\ In v (nodes g) /\ u <> v /\ c u = k /\ c v = k
}.
End Spec.
