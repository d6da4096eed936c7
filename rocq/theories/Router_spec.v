(** Specification for the search over candidate sequences (C25-C27). *)
From Coq Require Import List Arith ZArith QArith Bool.
From Verif Require Import HopCache_model TripTrie_model Router_model.
Import ListNotations.
Open Scope nat_scope.

Section Spec.
Context {pos attrs C E P : Type}.
Variable lt : C -> C -> bool.
Variable add : C -> C -> C.
Variable inf : C.
Variable p0 : P.
Variable weight : nat -> nat -> Z -> Z -> Z -> C.
Variable ofZ : Z -> C.
Variable startCost : nat -> E -> Z.
Variable spath : nat -> E -> E -> Z -> Z * list E.
Variable tnds : list (node pos attrs).
Variable ecm : list (list (cand C E P)).

(** What is needed of the cost type: [lt] is a strict weak order, [inf] is largest and
    absorbs additions, additions preserve the order.  (The double values without NaN
    have these properties for additions that are not NaN.) *)
Record cost_laws : Prop := {
  cl_irrefl : forall a, lt a a = false;
  cl_trans : forall a b c, lt a b = true -> lt b c = true -> lt a c = true;
  cl_ntrans : forall a b c, lt a b = false -> lt b c = false -> lt a c = false;
  cl_mono : forall a b x, lt a b = false -> lt (add a x) (add b x) = false;
  cl_inf : forall a, lt inf a = false;
  cl_add_inf : forall x, lt (add inf x) inf = false
}.

(** [x] is the [i]-th candidate of trie node [n]. *)
Definition cand_at (n i : nat) (x : cand C E P) : Prop :=
  exists cs, nth_error ecm n = Some cs /\ nth_error cs i = Some x.
(** [p] is the parent of [n], and neither is the root. *)
Definition parent (n p : nat) : Prop :=
  exists nd, nth_error tnds n = Some nd /\ nParent _ _ nd = p /\ n <> 0 /\ p <> 0.
Definition first_node (n : nat) : Prop :=
  exists nd, nth_error tnds n = Some nd /\ nParent _ _ nd = 0 /\ n <> 0.
(** Moving from [p] to [n] stays at the stop (from its arrival to its departure). *)
Definition stays (p n : nat) : Prop :=
  exists a b, nth_error tnds p = Some a /\ nth_error tnds n = Some b /\ nArr _ _ a = true /\ nArr _ _ b = false.

(** The moves from candidate [f] of node [p] to candidate [i] of its child [n], with the
    summands each adds to the cost.  [log] tells, for each node reached by a hop, the
    limits tried with the answers of the hop engine and whether nothing usable came
    back. *)
Inductive offers (log : list (nat * hinfo)) (p n : nat) : nat -> nat -> list C -> Prop :=
| of_stay : forall f i x, stays p n -> cand_at n i x -> In f (cPrede _ _ _ x) ->
    offers log p n f i [cPen _ _ _ x]
| of_hop : forall h lim l a x y, ~ stays p n -> In (n, h) log -> In (lim, l) (hTrace h) -> In a l ->
    cand_at p (aFr a) x -> cand_at n (aTo a) y ->
    offers log p n (aFr a) (aTo a)
      [cPen _ _ _ y; weight p n (aC a) (aD a) (cTime _ _ _ y - cTime _ _ _ x)%Z]
| of_null : forall h tr lim l f i x y, ~ stays p n -> In (n, h) log -> hFailed h = true ->
    hTrace h = tr ++ [(lim, l)] -> cand_at p f x -> cand_at n i y ->
    (forall j z, j <= i -> cand_at n j z -> cE _ _ _ z = None) ->
    offers log p n f i [ofZ (wrap32 (lim * 100))]
| of_dummy : forall h f i j x y z e, ~ stays p n -> In (n, h) log -> hFailed h = true ->
    cand_at p f x -> cand_at n i y -> 1 <= j <= i -> cand_at n j z -> cE _ _ _ z = Some e ->
    offers log p n f i [cPen _ _ _ y].

(** Candidate sequences, last choice first, along the path from the first node to [n],
    with their costs. *)
Inductive seqcost (log : list (nat * hinfo)) : nat -> list nat -> C -> Prop :=
| sc_first : forall n i x, first_node n -> cand_at n i x -> seqcost log n [i] (cPen _ _ _ x)
| sc_step : forall n p i f is c adds, parent n p -> seqcost log p (f :: is) c ->
    offers log p n f i adds -> seqcost log n (i :: f :: is) (fold_left add adds c).

(** The best cost of each candidate of [p]. *)
Definition best_costs (log : list (nat * hinfo)) (p : nat) (cs : list C) : Prop :=
  forall i c, nth_error cs i = Some c ->
    (forall is c', seqcost log p (i :: is) c' -> lt c' c = false) /\
    (lt c inf = true -> exists is, seqcost log p (i :: is) c).

(** The largest limit tried for the hop into [n]. *)
Definition last_limit (log : list (nat * hinfo)) (n : nat) (lim : Z) : Prop :=
  exists h tr l, In (n, h) log /\ hTrace h = tr ++ [(lim, l)].

(** The limit of the search that recovers the path of a hop: the limit tried, raised by
    the largest start offset [M] (cost of the start edge up to the start position) of the
    source candidates, at most the largest 32-bit value. *)
Definition search_limit (n : nat) (lim : Z) (cs : list (cand C E P)) (b : Z) : Prop :=
  exists M : Q, (0 <= M)%Q /\
    (forall c e, In c cs -> cE _ _ _ c = Some e -> (0 < cProgr _ _ _ c)%Q -> (inject_Z (startCost n e) * cProgr _ _ _ c <= M)%Q) /\
    ((M == 0)%Q \/ exists c e, In c cs /\ cE _ _ _ c = Some e /\ (M == inject_Z (startCost n e) * cProgr _ _ _ c)%Q) /\
    ((inject_Z lim + M < inject_Z u32max)%Q -> (inject_Z b <= inject_Z lim + M < inject_Z (b + 1))%Q) /\
    ((inject_Z u32max <= inject_Z lim + M)%Q -> b = u32max).
(** The hop between two chosen candidates. *)
Definition is_hop (log : list (nat * hinfo)) (p n : nat) (x y : cand C E P) (h : hop E P) : Prop :=
  exists lim cs b, last_limit log n lim /\ nth_error ecm p = Some cs /\ search_limit n lim cs b /\
  match cE _ _ _ x, cE _ _ _ y with
  | Some ef, Some et =>
      hStart _ _ h = Some ef /\ hEnd _ _ h = Some et /\
      hPrS _ _ h = cProgr _ _ _ x /\ hPrE _ _ h = cProgr _ _ _ y /\
      hEdges _ _ h = (if (fst (spath n ef et b) <? b)%Z then snd (spath n ef et b) else [])
  | Some ef, None =>
      hEdges _ _ h = [] /\ hStart _ _ h = Some ef /\ hEnd _ _ h = None /\
      hPrS _ _ h = cProgr _ _ _ x /\ hPtE _ _ h = cPoint _ _ _ y
  | None, Some et =>
      hEdges _ _ h = [] /\ hStart _ _ h = None /\ hEnd _ _ h = Some et /\
      hPrE _ _ h = cProgr _ _ _ y /\ hPtS _ _ h = cPoint _ _ _ x
  | None, None =>
      hEdges _ _ h = [] /\ hStart _ _ h = None /\ hEnd _ _ h = None /\
      hPtS _ _ h = cPoint _ _ _ x /\ hPtE _ _ h = cPoint _ _ _ y
  end.
(** The hops of a candidate sequence, last hop first: one for every move that does not
    stay at its stop. *)
Inductive yields (log : list (nat * hinfo)) : nat -> list nat -> list (hop E P) -> Prop :=
| y_first : forall n i, first_node n -> yields log n [i] []
| y_stay : forall n p i f is hs, parent n p -> stays p n -> yields log p (f :: is) hs ->
    yields log n (i :: f :: is) hs
| y_hop : forall n p i f is hs x y h, parent n p -> ~ stays p n -> yields log p (f :: is) hs ->
    cand_at p f x -> cand_at n i y -> is_hop log p n x y h -> yields log n (i :: f :: is) (h :: hs).

(** Every answer is about existing candidates, if asked for a hop with one cost per
    source candidate. *)
Definition in_range {St : Type} (ask : St -> nat -> nat -> list C -> Z -> list ans * St) (Inv : St -> Prop) : Prop :=
  forall s p n cs l a, Inv s -> parent n p -> ~ stays p n ->
    (forall c, nth_error ecm p = Some c -> List.length cs = List.length c) -> In a (fst (ask s p n cs l)) ->
    (exists x, cand_at p (aFr a) x) /\ (exists y, cand_at n (aTo a) y).

(** What the candidate lists must satisfy for every access to be in range. *)
Record ecm_ok (ask_in_range : Prop) : Prop := {
  eo_nodes : forall n, n < List.length tnds -> n <> 0 -> exists cs, nth_error ecm n = Some cs;
  eo_nonempty : forall n cs, n < List.length tnds -> n <> 0 -> nth_error ecm n = Some cs -> cs <> [];
  eo_prede : forall p n i x f, parent n p -> stays p n -> cand_at n i x -> In f (cPrede _ _ _ x) -> exists y, cand_at p f y;
  eo_ask : ask_in_range
}.
(** ... and for a route to exist for every trip: penalties are finite, the first
    candidate of every node reached by a hop has no edge (it is the fallback), and
    every candidate of an arrival can be continued at the departure. *)
Record ecm_live : Prop := {
  el_pen : forall n i x, cand_at n i x -> lt (cPen _ _ _ x) inf = true;
  el_null : forall p n, parent n p -> ~ stays p n -> exists x, cand_at n 0 x /\ cE _ _ _ x = None;
  el_stay : forall p n f y, parent n p -> stays p n -> cand_at p f y -> exists i x, cand_at n i x /\ In f (cPrede _ _ _ x);
  el_add : forall a b, lt a inf = true -> lt b inf = true -> lt (add a b) inf = true;
  el_ofZ : forall z, lt (ofZ z) inf = true
}.

(** Number of moves on the path to [n] that leave their stop. *)
Inductive nhops : nat -> nat -> Prop :=
| nh_first : forall n, first_node n -> nhops n 0
| nh_stay : forall n p k, parent n p -> stays p n -> nhops p k -> nhops n k
| nh_hop : forall n p k, parent n p -> ~ stays p n -> nhops p k -> nhops n (S k).

(** The limits tried: the first one, then doubled each time, at most four; fewer than
    four only if the last one succeeded or cannot be doubled any more. *)
Definition double (x : Z) : Z := if (x <=? u32max / 2)%Z then (x * 2)%Z else u32max.
Fixpoint iter_double (k : nat) (x : Z) : list Z :=
  match k with 0 => [] | S k' => x :: iter_double k' (double x) end.
Definition limits_ok (m0 : Z) (h : hinfo) : Prop :=
  let k := List.length (hTrace h) in
  map fst (hTrace h) = iter_double k m0 /\ 1 <= k <= 4 /\
  (hFailed h = true -> k = 4 \/ exists l, last (map fst (hTrace h)) m0 = l /\ double l = l).

(** A hop ends / starts at a candidate. *)
Definition ends_at (h : hop E P) (x : cand C E P) : Prop :=
  hEnd _ _ h = cE _ _ _ x /\ (cE _ _ _ x <> None -> hPrE _ _ h = cProgr _ _ _ x) /\
  (cE _ _ _ x = None -> hPtE _ _ h = cPoint _ _ _ x).
Definition starts_at (h : hop E P) (x : cand C E P) : Prop :=
  hStart _ _ h = cE _ _ _ x /\ (cE _ _ _ x <> None -> hPrS _ _ h = cProgr _ _ _ x) /\
  (cE _ _ _ x = None -> hPtS _ _ h = cPoint _ _ _ x).
(** Consecutive hops (last first) meet at a candidate. *)
Fixpoint chained (hs : list (hop E P)) : Prop :=
  match hs with
  | h2 :: ((h1 :: _) as t) => (exists x, ends_at h1 x /\ starts_at h2 x) /\ chained t
  | _ => True
  end.
(** A departure candidate has the position of the arrival candidates it continues. *)
Definition aligned : Prop := forall p n i x f y, parent n p -> stays p n -> cand_at n i x -> In f (cPrede _ _ _ x) ->
  cand_at p f y -> cE _ _ _ x = cE _ _ _ y /\ cProgr _ _ _ x = cProgr _ _ _ y /\ cPoint _ _ _ x = cPoint _ _ _ y.
End Spec.
