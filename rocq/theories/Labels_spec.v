(** Specification for the graphs a run outputs (C75). *)
From Coq Require Import Ascii String List Arith.
Import ListNotations.
Open Scope nat_scope.

(** After the writes [ws], file [f] holds [c]: nothing is written to it later. *)
Definition holds (ws : list (string * nat)) (f : string) (c : nat) : Prop :=
  exists pre post, ws = pre ++ (f, c) :: post /\ forall c', ~ In (f, c') post.
(** The types of the [k]-th configuration that are selected. *)
Definition uses (cmd : list nat) (cfgs : list (list nat)) (k t : nat) : Prop :=
  exists mots, nth_error cfgs k = Some mots /\ In t mots /\ In t cmd.
Definition same_types (cmd : list nat) (cfgs : list (list nat)) (i j : nat) : Prop :=
  forall t, uses cmd cfgs i t <-> uses cmd cfgs j t.
(** Strings with "-" between them. *)
Fixpoint dashed (l : list string) : string :=
  match l with [] => ""%string | [s] => s | s :: r => (s ++ "-" ++ dashed r)%string end.
(** What the library must provide: names of types that can be told apart from each other and
    from the names of families of types, not empty, without "-". *)
Record good_names (families : list string) (typeStr : nat -> string) : Prop := {
  gn_inj : forall t u, typeStr t = typeStr u -> t = u;
  gn_some : forall t, typeStr t <> ""%string;
  gn_dash : forall t, ~ In "-"%char (list_ascii_of_string (typeStr t));
  gn_other : forall t, ~ In (typeStr t) families
}.
