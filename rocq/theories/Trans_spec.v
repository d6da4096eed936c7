(** Specification of the transition penalties and of the limit (C70). *)
From Coq Require Import String List Arith ZArith QArith Qabs Bool.
From Verif Require Import Weights_model Weights_spec Trans_model.
Import ListNotations.
Open Scope Q_scope.

(** The penalty of a way of [s] seconds and [d] metres between stops [t0] seconds and [d0] metres apart; [None]: impossible. *)
Inductive penalty : method -> Q -> Q -> Q -> Q -> Q -> option Q -> Prop :=
| pn_exp : forall pen s d t0 d0 w, w == pen * s -> penalty Exp pen s d t0 d0 (Some w)
| pn_dist_more : forall pen s d t0 d0 w, d0 <= d -> w == pen * (d - d0) -> penalty DistDiff pen s d t0 d0 (Some w)
| pn_dist_less : forall pen s d t0 d0 w, d <= d0 -> w == pen * (d0 - d) -> penalty DistDiff pen s d t0 d0 (Some w)
| pn_back : forall pen s d t0 d0, t0 < 0 -> penalty TimeNorm pen s d t0 d0 None
| pn_norm : forall pen s d t0 d0 w, 10 <= t0 -> w * (t0 * t0) == (s - t0) * (s - t0) + pen * s * (t0 * t0) -> penalty TimeNorm pen s d t0 d0 (Some w)
| pn_norm_short : forall pen s d t0 d0 w, 0 <= t0 -> t0 <= 10 -> w * 100 == (s - 10) * (s - 10) + pen * s * 100 -> penalty TimeNorm pen s d t0 d0 (Some w).

(** The greatest speed of the components of the candidates that have an edge. *)
Definition fastest (cands : list (option Q)) (v : Q) : Prop :=
  In (Some v) cands /\ forall u, In (Some u) cands -> u <= v.
(** The time for a hop: as scheduled, but not less than the stops' distance at the greatest speed, and not less than a minute. *)
Definition hop_seconds (sched dist v t : Q) : Prop :=
  (sched <= t /\ dist / v <= t /\ 60 <= t) /\ (t == sched \/ t == dist / v \/ t == 60).

(** Equal penalties *)
Definition same (a b : option Q) : Prop := match a, b with Some x, Some y => x == y | None, None => True | _, _ => False end.

(** The penalty of several ways: impossible if one of them is, their sum otherwise. *)
Inductive total : list (option Q) -> option Q -> Prop :=
| tt_none : total [] (Some 0)
| tt_impossible : forall l, In None l -> total l None
| tt_more : forall x l s r, total l (Some s) -> r == x + s -> total (Some x :: l) (Some r).
