(** Model of the transit graph (option --write-trgraph): what the workers record, how it is merged, the graph built.
    Source: /repo/src/pfaedle/router/ShapeBuilder.cpp:435-447, 468-481 (threads, merge), 934-944 (writeTransitGraph),
    946-969 (buildNetGraph), 1160-1201 (shapeWorker, the part about this graph), ShapeBuilder.h:41-43 (TrGraphEdgs),
    /repo/src/pfaedle/netgraph/EdgePL.h:26-52, NodePL.h:22-32, Graph.h:24-26.

    Simplifications.
    - Edges and nodes of the network, and trips, are numbers; the network is given by functions ([getEdg]: the edge
      between two nodes, as in OsmGraph).
    - An unordered map is a list of entries; iterating over it is in the order [ord] gives, about which the theorems
      assume only that it is a permutation.
    - The work of a thread on one forest touches only the thread's own map and is one step; the result of the matching
      (hops and trips of a leaf) is the input.
    - Dereferencing a null edge is the outcome [None] (here when it is recorded, in the code in buildNetGraph).
    - util::graph::UndirGraph (not in the checkout): at most one edge between two nodes, in whichever direction;
      addEdg leaves an existing edge as it is. *)
From Coq Require Import String List Arith Bool.
Import ListNotations.
Open Scope nat_scope.

(** ShapeBuilder.h:41-43 *)
Notation tgraph := (list (nat * list nat)).
(** Misc.h:98-112, TripTrie.h (getNdTrips): the edges of the hops of a leaf, and its trips *)
Notation leaf := (list (list nat) * list nat)%type.
(** netgraph/EdgePL.h:26-52 with the nodes it connects *)
Record nedge (Ln : Type) := mkNE { neFrom : nat; neTo : nat; neGeom : Ln; neTrips : list nat }.
(** netgraph/Graph.h:26 *)
Record ngraph (Pt Ln : Type) := mkNG { ngNodes : list Pt; ngEdges : list (nedge Ln) }.

Section NetGraph.
Variables Pt Ln : Type.
Variables (isRev : nat -> bool) (fromN toN : nat -> nat) (getEdg : nat -> nat -> option nat).
Variables (pos : nat -> Pt) (geo : nat -> Ln).
Variable ord : tgraph -> tgraph.

(** ShapeBuilder.cpp:941, 476-477: operator[] and insert at the beginning *)
Fixpoint insertTrips (g : tgraph) (e : nat) (ts : list nat) : tgraph :=
  match g with
  | [] => [(e, ts)]
  | (x, l) :: g' => if x =? e then (x, ts ++ l) :: g' else (x, l) :: insertTrips g' e ts
  end.
Definition bindO {A B : Type} (x : option A) (f : A -> option B) : option B := match x with Some a => f a | None => None end.
(** 939-941 *)
Definition writeEdge (ts : list nat) (g : option tgraph) (e : nat) : option tgraph :=
  bindO g (fun g =>
  bindO (if isRev e then getEdg (toN e) (fromN e) else Some e) (fun e => Some (insertTrips g e ts))).
(** 934-944 *)
Definition writeTransitGraph (hops : list (list nat)) (g : option tgraph) (ts : list nat) : option tgraph :=
  fold_left (fun g hop => fold_left (writeEdge ts) hop g) hops g.
(** 1185-1201: the leaves of the tries of a forest *)
Definition work (job : list leaf) (g : tgraph) : option tgraph :=
  fold_left (fun g l => writeTransitGraph (fst l) g (snd l)) job (Some g).

(** ** Threads: 1165-1177 *)
(** The shared counter, and for each thread whether it has returned and its map *)
Record threads := mkThr { at_ : nat; thr : list (bool * tgraph) }.
Fixpoint update {A : Type} (l : list A) (i : nat) (x : A) : list A :=
  match l, i with
  | [], _ => []
  | _ :: l', 0 => x :: l'
  | y :: l', S i' => y :: update l' i' x
  end.
Definition step (jobs : list (list leaf)) (s : threads) (i : nat) : option threads :=
  match nth_error (thr s) i with
  | Some (false, g) =>
      match nth_error jobs (at_ s) with
      | None => Some (mkThr (S (at_ s)) (update (thr s) i (true, g)))
      | Some job => bindO (work job g) (fun g' => Some (mkThr (S (at_ s)) (update (thr s) i (false, g'))))
      end
  | _ => Some s
  end.
Definition start (n : nat) : threads := mkThr 0 (repeat (false, []) n).
Definition run (jobs : list (list leaf)) (n : nat) (sched : list nat) : option threads :=
  fold_left (fun s i => bindO s (fun s => step jobs s i)) sched (Some (start n)).

(** ** 471-479 *)
Definition merge (gs : list tgraph) : tgraph :=
  fold_left (fun m g => fold_left (fun m ep => insertTrips m (fst ep) (snd ep)) (ord g) m) gs [].

(** ** 946-969 *)
Record nstate := mkNS { nsMap : list (nat * nat); nsNodes : list Pt; nsEdges : list (nedge Ln) }.
Definition lookupN (m : list (nat * nat)) (v : nat) : option nat :=
  match find (fun p => fst p =? v) m with Some (_, i) => Some i | None => None end.
(** 957-964: one of the nodes; the lookups at 955-956 are made before either is added *)
Definition addN (found : option nat) (s : nstate) (v : nat) : nat * nstate :=
  match found with
  | Some i => (i, s)
  | None => (length (nsNodes s), mkNS ((v, length (nsNodes s)) :: nsMap s) (nsNodes s ++ [pos v]) (nsEdges s))
  end.
Definition joins (i j : nat) (e : nedge Ln) : bool :=
  ((neFrom _ e =? i) && (neTo _ e =? j)) || ((neFrom _ e =? j) && (neTo _ e =? i)).
Definition addE (s : nstate) (i j : nat) (l : Ln) (ts : list nat) : nstate :=
  if existsb (joins i j) (nsEdges s) then s else mkNS (nsMap s) (nsNodes s) (nsEdges s ++ [mkNE _ i j l ts]).
(** 951-968 *)
Definition netEdge (s : nstate) (ep : nat * list nat) : nstate :=
  let e := fst ep in
  let ff := lookupN (nsMap s) (fromN e) in
  let ft := lookupN (nsMap s) (toN e) in
  let (i, s) := addN ff s (fromN e) in
  let (j, s) := addN ft s (toN e) in
  addE s i j (geo e) (snd ep).
Definition buildNetGraph (g : tgraph) : ngraph Pt Ln :=
  let s := fold_left netEdge (ord g) (mkNS [] [] []) in mkNG _ _ (nsNodes s) (nsEdges s).

(** 435-480: the graph after the threads are joined *)
Definition transitGraph (jobs : list (list leaf)) (n : nat) (sched : list nat) : option (ngraph Pt Ln) :=
  bindO (run jobs n sched) (fun s => Some (buildNetGraph (merge (map snd (thr s))))).
Definition joined (s : threads) : Prop := forall t, In t (thr s) -> fst t = true.

(** netgraph/EdgePL.h:29-45: the attributes printed; a set of names is a list without duplicates *)
Definition numTrips (e : nedge Ln) : nat := length (neTrips _ e).
Definition names (nameOf : nat -> string) (e : nedge Ln) : list string := nodup string_dec (map nameOf (neTrips _ e)).
End NetGraph.
