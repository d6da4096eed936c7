(** What a client of the OSM id set relies on, independent of the model.
    A history is a list of calls; the observed outcomes must satisfy:
    - before the first query, [add]/[nadd] succeed;
    - after the first query, [add]/[nadd] are rejected and change nothing;
    - a query for an added id answers [true];
    - a query for an id not added answers [false] if nothing was ever excluded
      or if that very id was excluded with [nadd]. *)
From Coq Require Import List NArith.
From Verif Require Import IdSet_model.
Import ListNotations.

Fixpoint conforms (added excluded : list N) (queried : bool)
    (ops : list op) (outs : list outcome) : Prop :=
  match ops, outs with
  | [], [] => True
  | OpAdd id :: ops', r :: outs' =>
      if queried then r = Thrown /\ conforms added excluded true ops' outs'
      else r = Done /\ conforms (id :: added) excluded false ops' outs'
  | OpNadd id :: ops', r :: outs' =>
      if queried then r = Thrown /\ conforms added excluded true ops' outs'
      else r = Done /\ conforms added (id :: excluded) false ops' outs'
  | OpHas id :: ops', r :: outs' =>
      (exists b, r = Answer b /\
         (In id added -> b = true) /\
         (~ In id added -> excluded = [] \/ In id excluded -> b = false))
      /\ conforms added excluded true ops' outs'
  | _, _ => False
  end.

(** Ids are unsigned 64-bit numbers. *)
Definition op_id (o : op) : N :=
  match o with OpAdd i | OpNadd i | OpHas i => i end.
Definition u64_ops (ops : list op) : Prop :=
  Forall (fun o => (op_id o < 2 ^ 64)%N) ops.

(** The ids added before the first query. *)
Fixpoint added_of (ops : list op) : list N :=
  match ops with
  | OpAdd id :: t => id :: added_of t
  | OpNadd _ :: t => added_of t
  | _ => []
  end.
