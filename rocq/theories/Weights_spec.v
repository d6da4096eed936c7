(** Independent reading of the edge cost passes, the transition cost and the
    distance heuristic. *)
From Coq Require Import List Arith ZArith QArith Qminmax Bool Lia.
From Verif Require Import Weights_model.
Import ListNotations.

(** Rounding, stated without rounding functions. *)
Definition rounds_up (q : Q) (z : Z) : Prop := Zq (z - 1) < q /\ q <= Zq z.
Definition rounds_down (q : Q) (z : Z) : Prop := Zq z <= q /\ q < Zq (z + 1).
Definition rounds_nearest (q : Q) (z : Z) : Prop := Zq z - (1 # 2) <= q /\ q < Zq z + (1 # 2).

(** [r] is a cost of [s] seconds in tenths of seconds: rounded up, at most the largest
    32-bit value. *)
Definition tenths (s : Q) (r : Z) : Prop := exists v, rounds_up (s * 10) v /\ r = Z.min v u32max.

(** The cost of an edge: its travel time; if it is driven against a one-way, slowed down
    and charged with the entry cost; if it has no lines, multiplied by the no-lines
    factor. *)
Definition edge_cost (len speed : Q) (againstOneWay hasLines : bool)
    (speedPen entryCost noLinesFac : Q) (r : Z) : Prop :=
  exists c0 c1, tenths (len / speed) c0 /\
    (againstOneWay = true -> tenths (Zq c0 / 10 * speedPen + entryCost) c1) /\
    (againstOneWay = false -> c1 = c0) /\
    (hasLines = true \/ noLinesFac == 1 -> r = c1) /\
    (hasLines = false -> ~ noLinesFac == 1 -> tenths (Zq c1 / 10 * noLinesFac) r).

(** How one punishment factor changes a cost; [None] is "infinite". *)
Inductive punished (matched : bool) (f : Q) : option Z -> option Z -> Prop :=
| p_inf : punished matched f None None
| p_matched : forall c, matched = true -> punished matched f (Some c) (Some c)
| p_cheaper : forall c r, matched = false -> f < 1 -> rounds_up (Zq c * f) r ->
    punished matched f (Some c) (Some r)
| p_same : forall c, matched = false -> f == 1 -> punished matched f (Some c) (Some c)
| p_dearer : forall c r, matched = false -> 1 < f -> rounds_nearest (Zq c * f) r ->
    (r <= u32max)%Z -> punished matched f (Some c) (Some r)
| p_toodear : forall c r, matched = false -> 1 < f -> rounds_nearest (Zq c * f) r ->
    (u32max < r)%Z -> punished matched f (Some c) None.

(** The line similarity of an edge: that of the first line agreeing with the trip in
    the most of name, origin and destination; nothing agrees if no line agrees in
    anything; everything agrees if the trip states nothing. *)
Definition best_line (noAttrs : bool) (sims : list simi) (s : simi) : Prop :=
  if noAttrs then s = mkSimi true true true
  else (exists pre post, sims = pre ++ s :: post /\ (0 < simiCount s)%nat /\
          (forall x, In x pre -> (simiCount x < simiCount s)%nat) /\
          (forall x, In x post -> (simiCount x <= simiCount s)%nat))
    \/ (s = mkSimi false false false /\ forall x, In x sims -> simiCount x = 0%nat).

Section TransitionCost.
Variable baseCost : nat -> Z.
Variable lineSimis : nat -> list simi.
Variable noAttrs : bool.
Variable eFrom eTo : nat -> nat.
Variable turnCycle : nat -> bool.
Variable deg : nat -> nat.
Variable sharp : nat -> nat -> nat -> bool.
Variable restricted : nat -> bool.
Variable may : nat -> nat -> nat -> bool.
Variable o : ropts.

(** Cost of edge [from] after line matching. *)
Definition line_matched (from : nat) (l : option Z) : Prop :=
  if noAttrs || Qeq_bool (fName o) 1 then l = Some (baseCost from)
  else exists s l1 l2, best_line noAttrs (lineSimis from) s /\
         punished (sName s) (fName o) (Some (baseCost from)) l1 /\
         punished (sFrom s) (fFrom o) l1 l2 /\
         punished (sTo s) (fTo o) l2 l.

(** Turning from [from] over node [n] into [to] is a full turn / is prohibited. *)
Definition full_turn (from n to : nat) : Prop :=
  turnCycle n = false /\
  ((eFrom from = eTo to /\ eTo from = eFrom to) \/
   (2 < deg n /\ sharp n from to = true)%nat).
Definition prohibited (from n to : nat) : Prop :=
  turnCycle n = false /\ restricted from = true /\ may from to n = false.

(** [p] is the penalty [amount] if [P], else 0. *)
Definition pen_if (P : Prop) (amount p : Z) : Prop := (P /\ p = amount) \/ (~ P /\ p = 0%Z).

Definition transition_cost (from : option nat) (tgt : option (nat * nat)) (r : Z) : Prop :=
  match from with
  | None => r = 0%Z
  | Some f =>
      (baseCost f = u32max /\ r = u32max) \/
      (baseCost f <> u32max /\ line_matched f None /\ r = u32max) \/
      (baseCost f <> u32max /\ exists l tp rp, line_matched f (Some l) /\
         match tgt with
         | None => tp = 0%Z /\ rp = 0%Z
         | Some (n, to) => pen_if (full_turn f n to) (fullTurn o) tp /\
                           pen_if (prohibited f n to) (turnRestr o) rp
         end /\
         r = Z.min u32max (l + tp + rp))
  end.
End TransitionCost.

(** Values as they can occur: 32-bit costs and penalties, non-negative factors. *)
Definition u32 (z : Z) : Prop := (0 <= z <= u32max)%Z.
Definition opts_ok (o : ropts) : Prop :=
  u32 (fullTurn o) /\ u32 (turnRestr o) /\ 0 < fName o /\ 0 < fFrom o /\ 0 < fTo o.

(** A distance. *)
Definition is_dist {P : Type} (d : P -> P -> Q) : Prop :=
  (forall a b, 0 <= d a b) /\ (forall a b, d a b == d b a) /\
  (forall a b c, d a c <= d a b + d b c).

(** Cost of driving along a list of edges: the sum of the costs of moving from each
    edge to the next (the last edge is the target and is not driven). *)
Fixpoint path_cost (cost : nat -> nat -> Z) (path : list nat) : Z :=
  match path with
  | a :: ((b :: _) as t) => (cost a b + path_cost cost t)%Z
  | _ => 0%Z
  end.
(** Every step of the path satisfies [P]. *)
Fixpoint path_all (P : nat -> nat -> Prop) (path : list nat) : Prop :=
  match path with
  | a :: ((b :: _) as t) => P a b /\ path_all P t
  | _ => True
  end.
(** No step of the path is faster than [maxV] (costs are tenths of seconds). *)
Definition no_faster {P : Type} (d : P -> P -> Q) (pos : nat -> P) (maxV : Q) (cost : nat -> nat -> Z)
    (a b : nat) : Prop :=
  cost a b = u32max \/ 10 * (d (pos a) (pos b) / maxV) <= Zq (cost a b).
