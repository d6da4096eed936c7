(** Specification of the transit graph (C71). *)
From Coq Require Import List Arith Bool.
From Verif Require Import NetGraph_model.
Import ListNotations.
Open Scope nat_scope.

Section Spec.
Variables Pt Ln : Type.
Variables (isRev : nat -> bool) (fromN toN : nat -> nat) (getEdg : nat -> nat -> option nat).
Variables (pos : nat -> Pt) (geo : nat -> Ln).

(** Driving [x] is driving along the mapped edge [e], forwards or backwards. *)
Definition along (x e : nat) : Prop :=
  (isRev x = false /\ x = e) \/ (isRev x = true /\ getEdg (toN x) (fromN x) = Some e).
(** How often the edges of a way go along [e]. *)
Inductive passes (e : nat) : list nat -> nat -> Prop :=
| ps_nil : passes e [] 0
| ps_yes : forall x l n, along x e -> passes e l n -> passes e (x :: l) (S n)
| ps_no : forall x l n, ~ along x e -> passes e l n -> passes e (x :: l) n.
(** How often trip [t] goes along [e], and how often any trip does. *)
Inductive travels (e t : nat) : list leaf -> nat -> Prop :=
| tv_nil : travels e t [] 0
| tv_cons : forall hops ts ls n m, passes e (concat hops) n -> travels e t ls m ->
    travels e t ((hops, ts) :: ls) (n * count_occ Nat.eq_dec ts t + m).
Inductive all_travels (e : nat) : list leaf -> nat -> Prop :=
| at_nil : all_travels e [] 0
| at_cons : forall hops ts ls n m, passes e (concat hops) n -> all_travels e ls m ->
    all_travels e ((hops, ts) :: ls) (n * length ts + m).
(** [e] is on the way of a matched trip. *)
Definition used (leaves : list leaf) (e : nat) : Prop :=
  exists hops ts x, In (hops, ts) leaves /\ In x (concat hops) /\ along x e.
Definition same_ends (e e' : nat) : Prop :=
  (fromN e = fromN e' /\ toN e = toN e') \/ (fromN e = toN e' /\ toN e = fromN e').
(** A line drawn for [e]: its nodes, its geometry, its trips as often as they go along it. *)
Definition shows (leaves : list leaf) (nds : list nat) (e : nat) (d : nedge Ln) : Prop :=
  nth_error nds (neFrom _ d) = Some (fromN e) /\ nth_error nds (neTo _ d) = Some (toN e) /\ neGeom _ d = geo e /\
  forall t n, travels e t leaves n -> count_occ Nat.eq_dec (neTrips _ d) t = n.
(** The graph shows the used part of the network: [nds] are the network's nodes it shows, [es] the edges. *)
Definition depicts (leaves : list leaf) (ng : ngraph Pt Ln) (nds es : list nat) : Prop :=
  map pos nds = ngNodes _ _ ng /\
  (forall i j v, nth_error nds i = Some v -> nth_error nds j = Some v ->
     i = j \/ exists e, used leaves e /\ fromN e = v /\ toN e = v) /\
  (forall v, In v nds <-> exists e, used leaves e /\ (v = fromN e \/ v = toN e)) /\
  NoDup es /\
  (forall e, In e es -> used leaves e) /\
  (forall e, used leaves e -> exists e', In e' es /\ same_ends e e') /\
  Forall2 (shows leaves nds) es (ngEdges _ _ ng).
End Spec.
