(** Specification for the hop costs (C28, C29). *)
From Coq Require Import List Arith ZArith QArith Bool.
From Verif Require Import HopCache_model Router_model Hops_model.
Import ListNotations.
Open Scope nat_scope.

Section Spec.
(** The routing graph: moving from an edge to a following edge costs [step]; [ecost] is
    the cost of a whole edge. *)
Variable step : edge -> edge -> option Z.
Variable ecost : edge -> Z.

(** A walk from the start of one edge to the start of another, with its edges; the last
    edge is not paid for. *)
Inductive walk : edge -> edge -> Z -> list edge -> Prop :=
| w_one : forall e, walk e e 0 [e]
| w_cons : forall e f t w c es, step e f = Some w -> walk f t c es -> walk e t (w + c) (e :: es).
Definition cheapest (a b : edge) (d : Z) : Prop :=
  (exists es, walk a b d es) /\ forall d' es, walk a b d' es -> (d <= d')%Z.

(** The integer part of a non-negative rational. *)
Definition whole (q : Q) (z : Z) : Prop := (inject_Z z <= q < inject_Z (z + 1))%Q.
(** The cost [c] of the hop from position [pf] on edge [ef] to position [pt] on [et]. *)
Definition hop_cost (ef et : edge) (pf pt : Q) (c : Z) : Prop :=
  exists d zf zt, cheapest ef et d /\ whole (inject_Z (ecost ef) * pf) zf /\ whole (inject_Z (ecost et) * pt) zt /\
    (ef = et -> (pf <= pt)%Q) /\ c = (d - zf + zt)%Z.

(** Edge costs are 32-bit values, leaving an edge costs at least its cost, positions
    are fractions, and a walk stays in one component. *)
Record graph_ok (compF compT : edge -> nat) : Prop := {
  gk_cost : forall e, (0 <= ecost e <= u32max)%Z;
  gk_step : forall e f w, step e f = Some w -> (ecost e <= w)%Z;
  gk_comp : forall a b d es, walk a b d es -> compF a = compT b
}.
Definition cands_ok (l : list pcand) : Prop := forall e p, In (Some e, p) l -> (0 <= p <= 1)%Q.

(** What is assumed of the 1 -> n search: for every requested target a cheapest walk
    below the limit, or no path and a cost not below the limit if there is none. *)
Definition search_ok (search : edge -> list edge -> Z -> edge -> Z * list edge) : Prop :=
  forall a tos lim b, In b tos ->
    let '(c, p) := search a tos lim b in
    (p <> [] /\ cheapest a b c /\ (c < lim)%Z /\ walk a b c (rev p)) \/
    (p = [] /\ (lim <= c)%Z /\ forall d es, walk a b d es -> (lim <= d)%Z).

(** The costs of the hops fit into 32 bits. *)
Definition fits (froms tos : list pcand) : Prop := forall ef pf et pt d c,
  In (Some ef, pf) froms -> In (Some et, pt) tos -> cheapest ef et d -> (d < u32max)%Z ->
  hop_cost ef et pf pt c -> (c <= u32max)%Z.

(** The largest start offset of a group. *)
Definition largest_offset (froms : list pcand) (M : Q) : Prop :=
  (0 <= M)%Q /\
  (forall e p, In (Some e, p) froms -> (inject_Z (ecost e) * p <= M)%Q) /\
  ((M == 0)%Q \/ exists e p, In (Some e, p) froms /\ (M == inject_Z (ecost e) * p)%Q).

(** [enum] lists the elements of a set in some order. *)
Definition enumerates (enum : list edge -> list edge) : Prop :=
  forall l, NoDup (enum l) /\ forall x, In x (enum l) <-> In x l.

(** What is assumed of the n -> n search: it answers each requested target once; an
    answer below the limit names a source, its cost is the initial cost of the source plus
    a cheapest walk, and no other source is better, except by walks not below [stall]; if
    the answer is not below the limit, no source has such a walk below the limit. *)
Definition searchN_ok (searchN : list edge -> list edge -> (edge -> Z) -> Z -> Z -> list (edge * (edge * Z))) : Prop :=
  forall frs tos init stall lim,
    (forall b, In b tos -> In b (map fst (searchN frs tos init stall lim))) /\
    forall b a c, In (b, (a, c)) (searchN frs tos init stall lim) ->
    In b tos /\
    ((c < lim)%Z -> In a frs /\ (exists d, cheapest a b d /\ c = (init a + d)%Z) /\
       forall a' d' es, In a' frs -> walk a' b d' es -> (d' < stall)%Z -> (c <= init a' + d')%Z) /\
    ((lim <= c)%Z -> forall a' d' es, In a' frs -> walk a' b d' es -> (d' < stall)%Z -> (lim <= init a' + d')%Z).

(** The costs of a call stay far enough below the largest 32-bit value: largest cost of
    interest, start offsets [M] and costs of the sources. *)
Definition small (froms : list fcand) (maxCost : Z) : Prop :=
  forall M f z, largest_offset (map fst froms) M -> In (f, Some z) froms -> (0 <= z)%Z /\
    (inject_Z z + inject_Z maxCost + 2 * M + 1 < inject_Z u32max)%Q.
Definition fcall_ok (x : fcall) : Prop :=
  cands_ok (map fst (fcF x)) /\ cands_ok (fcT x) /\ (0 <= fcMax x <= u32max)%Z /\ small (fcF x) (fcMax x).
(** [c] is the cost of the hop, and its (whole) path costs [d]. *)
Definition hop_via (ef et : edge) (pf pt : Q) (d c : Z) : Prop := cheapest ef et d /\ hop_cost ef et pf pt c.

(** The length of all edges of a walk but the last. *)
Definition walk_length (len : edge -> Q) (es : list edge) : Q :=
  fold_right (fun e s => len e + s)%Q 0%Q (removelast es).
End Spec.
