(** Specification for the statistics of a run (C88). *)
From Coq Require Import Ascii String List Arith QArith.
From Verif Require Import Stats_model Labels_spec.
Import ListNotations.
Open Scope nat_scope.
Open Scope list_scope.

Definition sum (l : list nat) : nat := fold_right Nat.add 0 l.
Definition sumQ (l : list Q) : Q := fold_right Qplus 0%Q l.
Section Spec.
Variable work : nat -> crun.
Variable cmd : list nat.
Variable cfgs : list (list nat).
(** Configuration [k] is used: one of its types is selected. *)
Definition is_used (k : nat) : Prop := exists t, uses cmd cfgs k t.
(** [l] has, for each configuration, [p] of what was done for it, or nothing if it is not used. *)
Definition each {A} (z : A) (p : crun -> A) (l : list A) : Prop :=
  length l = length cfgs /\ forall k x, nth_error l k = Some x -> (is_used k -> x = p (work k)) /\ (~ is_used k -> x = z).
(** The numbers of nodes and edges of the graph of a configuration. *)
Definition nodes (r : crun) : nat := length (rDegs r).
Definition edges (r : crun) : nat := sum (rDegs r).
(** No two configurations are used for the same types. *)
Definition told_apart : Prop := forall i j, is_used i -> is_used j -> same_types cmd cfgs i j -> i = j.
End Spec.
