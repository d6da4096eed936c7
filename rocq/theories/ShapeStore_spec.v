(** Specification for the shape storage and shapes.txt (C40, C41). *)
From Coq Require Import Ascii String List Arith NArith Bool.
From Verif Require Import ShapeStore_model.
Import ListNotations.
Open Scope nat_scope.

(** An id is registered if some call has registered it and none has removed it since. *)
Definition registers (o : op) (id : string) : Prop :=
  match o with OAdd i _ => i = id | OReg i => i = id | ORemove _ => False end.
Definition registered (h : list op) (id : string) : Prop :=
  exists h1 o h2, h = h1 ++ o :: h2 /\ registers o id /\ ~ In (ORemove id) h2.

(** The shapes added, in order; adding a shape under a registered id has no effect. *)
Inductive added : list op -> list (string * list pt) -> Prop :=
| added_nil : added [] []
| added_new h l id ps : added h l -> ~ registered h id -> added (h ++ [OAdd id ps]) (l ++ [(id, ps)])
| added_known h l id ps : added h l -> registered h id -> added (h ++ [OAdd id ps]) l
| added_reg h l id : added h l -> added (h ++ [OReg id]) l
| added_remove h l id : added h l -> added (h ++ [ORemove id]) l.

(** [l'] is what is left of [l] if only the elements with [P] are kept. *)
Inductive keeping {A} (P : A -> Prop) : list A -> list A -> Prop :=
| keep_nil : keeping P [] []
| keep_yes x l l' : P x -> keeping P l l' -> keeping P (x :: l) (x :: l')
| keep_no x l l' : ~ P x -> keeping P l l' -> keeping P (x :: l) l'.

(** The rows of a shape: its points, numbered from one. *)
Definition rows_of (s : string * list pt) : list row :=
  map (fun ip => mkRow (fst s) (N.of_nat (fst ip)) (snd ip)) (combine (seq 1 (length (snd s))) (snd s)).

(** The rows of one shape. *)
Definition with_id (id : string) (rows : list row) : list row := filter (fun x => String.eqb (wId x) id) rows.

(** An id that can be stored: not empty, no white space (blank, tab, line feed, vertical
    tab, form feed, carriage return). *)
Definition plain (id : string) : Prop :=
  id <> ""%string /\
  forall b, In b (list_ascii_of_string id) -> ~ In (N_of_ascii b) [32; 9; 10; 11; 12; 13]%N.
(** Shapes that can be stored: such an id, at least one point, no more points than a
    [size_t] can count, values of the right size. *)
Definition storable (wa wb wd : nat) (o : op) : Prop :=
  match o with
  | OAdd id ps => plain id /\ ps <> [] /\ (N.of_nat (length ps) < 2 ^ 64)%N /\
      forall p, In p ps -> length (pLat p) = wa /\ length (pLng p) = wb /\ length (pDist p) = wd
  | _ => True
  end.
(** No shape is added under an id that was removed, or under which one was added before. *)
Definition never_again (h : list op) : Prop :=
  forall h1 id ps h2, h = h1 ++ OAdd id ps :: h2 ->
    forall o, In o h1 -> o <> ORemove id /\ ~ registers o id.
