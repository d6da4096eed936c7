(** Independent reading of turn restrictions. *)
From Coq Require Import List Arith Bool Permutation.
From Verif Require Import Restrictor_model.
Import ListNotations.

(** [e] is the edge announced last in [h] for way [w] at node [n]. *)
Definition last_announced (h : list rcall) (w n e : nat) : Prop :=
  exists h1 h2, h = h1 ++ Relax w n e :: h2 /\ forall e', ~ In (Relax w n e') h2.
Definition never_announced (h : list rcall) (w n : nat) : Prop := forall e, ~ In (Relax w n e) h.
(** The edge meant by a rule registered between [h1] and [h2]: the one known when it was
    registered, else the one announced later. *)
Definition names (h1 h2 : list rcall) (w n e : nat) : Prop :=
  last_announced h1 w n e \/ (never_announced h1 w n /\ last_announced h2 w n e).
(** The first registered mandatory rule of [from] at [via] naming an edge names [e]. *)
Definition must_take (h : list rcall) (from via e : nat) : Prop :=
  exists h1 w h2, h = h1 ++ Add from w via true :: h2 /\ names h1 h2 w via e /\
    forall g1 w' g2 e', h = g1 ++ Add from w' via true :: g2 -> length g1 < length h1 -> ~ names g1 g2 w' via e'.
Definition must_not_take (h : list rcall) (from to via : nat) : Prop :=
  exists h1 w h2, h = h1 ++ Add from w via false :: h2 /\ names h1 h2 w via to.
Definition turn_allowed (h : list rcall) (from to via : nat) : Prop :=
  must_take h from via to \/ ((forall e, ~ must_take h from via e) /\ ~ must_not_take h from to via).

(** Each way has one edge at each node. *)
Definition one_edge_per_way (h : list rcall) : Prop :=
  forall w n e e', In (Relax w n e) h -> In (Relax w n e') h -> e = e'.
Definition is_add (c : rcall) : bool := match c with Add _ _ _ _ => true | Relax _ _ _ => false end.

(** Turn restrictions as (from way, to way) pairs, at a node where the ways [ways] meet:
    the first mandatory restriction leading to one of them decides, else prohibitions. *)
Definition mandatory_way (pos : list (nat * nat)) (ways : list nat) (f t : nat) : Prop :=
  exists p1 p2, pos = p1 ++ (f, t) :: p2 /\ In t ways /\ forall t', In (f, t') p1 -> ~ In t' ways.
Definition way_turn_allowed (pos neg : list (nat * nat)) (ways : list nat) (f t : nat) : Prop :=
  mandatory_way pos ways f t \/ ((forall t', ~ mandatory_way pos ways f t') /\ ~ In (f, t) neg).

(** The ways and edges meeting at node [v]; both ends of a loop count. *)
Definition meets (segs : list seg) (v : nat) : list (nat * nat) :=
  flat_map (fun s => (if sN s =? v then [(sWay s, sEdge s)] else []) ++
                     (if sLast s =? v then [(sWay s, sEdge s)] else [])) segs.
(** No restriction at [v] starts and ends on the same way. *)
Definition no_self (l : list (nat * nat)) : Prop := forall a b, In (a, b) l -> a <> b.

(** A table in which no rule at [via] names [e]. *)
Definition named (l : list rule) (e : nat) : Prop := exists f t, In (f, t) l /\ (f = e \/ t = Some e).
Definition not_named (r : restr) (e via : nat) : Prop := ~ named (rPos r via) e /\ ~ named (rNeg r via) e.

(** [ps] lists edges with their new opposite edges. *)
Definition opposite_pairs (eFrom eTo : nat -> nat) (ps : list (nat * nat)) : Prop :=
  NoDup (map fst ps ++ map snd ps) /\
  forall o n, In (o, n) ps -> eFrom n = eTo o /\ eTo n = eFrom o /\ eFrom o <> eTo o.
(** [e] is [o] itself or the opposite edge added for it. *)
Definition stands_for (ps : list (nat * nat)) (e o : nat) : Prop :=
  In (o, e) ps \/ (e = o /\ ~ In e (map snd ps)).
(** [x] is [e] with the edge [old] exchanged for its piece. *)
Definition exchanged (old piece e x : nat) : Prop := (e = old /\ x = piece) \/ (e <> old /\ x = e).
