(** Specification for the payloads of edges and nodes (C20, C21). *)
From Coq Require Import List Arith NArith Bool.
From Verif Require Import Payload_model.
Import ListNotations.
Open Scope nat_scope.

Section Edges.
Context {P : Type}.

(** ** Payloads without memory management: a polyline is a cell that is never reused. *)
Record world := mkW { w_geom : nat -> option (option nat); w_lines : nat -> nat -> Prop; w_cells : list (list P) }.
(** [w_geom w i]: none if payload [i] does not live; its cell, if it has one. *)
Definition put {A : Type} (f : nat -> A) (k : nat) (v : A) : nat -> A := fun x => if Nat.eq_dec x k then v else f x.
Fixpoint change (l : list (list P)) (k : nat) (f : list P -> list P) : list (list P) :=
  match l, k with [], _ => [] | x :: r, O => f x :: r | x :: r, S k => x :: change r k f end.
Definition w_step (w : world) (o : op P) : world :=
  match o with
  | New i => mkW (put (w_geom w) i (Some None)) (put (w_lines w) i (fun _ => False)) (w_cells w)
  | Copy i j flat _ =>
      let ls := put (w_lines w) i (w_lines w j) in
      match w_geom w j with
      | Some (Some c) =>
          if flat then mkW (put (w_geom w) i (Some (Some c))) ls (w_cells w)
          else mkW (put (w_geom w) i (Some (Some (length (w_cells w))))) ls (w_cells w ++ [nth c (w_cells w) []])
      | _ => mkW (put (w_geom w) i (Some None)) ls (w_cells w)
      end
  | AddPoint i p _ =>
      match w_geom w i with
      | Some (Some c) => mkW (w_geom w) (w_lines w) (change (w_cells w) c (fun l => l ++ [p]))
      | _ => mkW (put (w_geom w) i (Some (Some (length (w_cells w))))) (w_lines w) (w_cells w ++ [[p]])
      end
  | Edit i f => match w_geom w i with Some (Some c) => mkW (w_geom w) (w_lines w) (change (w_cells w) c f) | _ => w end
  | AddLine i l => mkW (w_geom w) (put (w_lines w) i (fun x => x = l \/ w_lines w i x)) (w_cells w)
  | NewLine l => w
  | Destroy i => mkW (put (w_geom w) i None) (w_lines w) (w_cells w)
  end.
Definition w_empty : world := mkW (fun _ => None) (fun _ _ => False) [].
Definition w_run (os : list (op P)) : world := fold_left w_step os w_empty.
(** The geometry of payload [i]: none if it does not live. *)
Definition w_points (w : world) (i : nat) : option (option (list P)) :=
  match w_geom w i with None => None | Some None => Some None | Some (Some c) => Some (Some (nth c (w_cells w) [])) end.

(** ** Histories that are possible *)
(** Payload objects are created when they do not live, and used when they do; a line given to
    addLine lives; the allocator gives addresses that are not in use. *)
Definition live (m : mem P) (i : nat) : Prop := exists p, In (i, p) (pls m).
Definition can (m : mem P) (o : op P) : Prop :=
  match o with
  | New i => ~ live m i
  | Copy i j flat a => ~ live m i /\ live m j /\ heap m a = None
  | AddPoint i p a => live m i /\ heap m a = None
  | Edit i f => exists a ls, In (i, (Some a, ls)) (pls m)
  | AddLine i l => live m i /\ tl m l = true
  | NewLine l => tl m l = false
  | Destroy i => live m i
  end.
(** Every operation is possible in the states the ones before lead to. *)
Definition possible (os : list (op P)) : Prop :=
  forall os1 o os2 m, os = os1 ++ o :: os2 -> run (Some empty) os1 = Some m -> can m o.
(** A line object that was created and not used since. *)
Definition unused (os : list (op P)) (l : nat) : Prop :=
  exists os1 os2, os = os1 ++ NewLine l :: os2 /\ forall i, ~ In (AddLine i l) os2.

(** What holds after every possible history: *)
Record memory_ok (os : list (op P)) (m : mem P) : Prop := {
  (* users see what they would see without memory management, *)
  mo_geom : forall i, geomOf m i = w_points (w_run os) i;
  mo_lines : forall i, match linesOf m i with None => w_geom (w_run os) i = None | Some ls => w_geom (w_run os) i <> None /\ NoDup ls /\ forall l, In l ls <-> w_lines (w_run os) i l end;
  (* a polyline lives iff a living payload uses it, *)
  mo_heap : forall a, heap m a <> None <-> exists i ls, In (i, (Some a, ls)) (pls m);
  (* a line lives iff a living payload uses it, or if none has used it yet *)
  mo_tl : forall l, tl m l = true <-> (exists i g ls, In (i, (g, ls)) (pls m) /\ In l ls) \/ unused os l
}.
End Edges.

Section Nodes.
Context {I : Type}.
(** ** Nodes *)
Inductive state := Plain | Blocker | Turn | Station (k : nat).   (* k: number of the station info *)
Record nworld := mkNW { n_state : nat -> state; n_infos : list I }.
Fixpoint changeI (l : list I) (k : nat) (f : I -> I) : list I :=
  match l, k with [], _ => [] | x :: r, O => f x :: r | x :: r, S k => x :: changeI r k f end.
Definition n_step (w : nworld) (o : nop I) : nworld :=
  match o with
  | SetSI n i => mkNW (put (n_state w) n (Station (length (n_infos w)))) (n_infos w ++ [i])
  | SetNoStat n => mkNW (put (n_state w) n Plain) (n_infos w)
  | SetTurn n => mkNW (put (n_state w) n Turn) (n_infos w)
  | SetBlocker n => mkNW (put (n_state w) n Blocker) (n_infos w)
  | CopyNode n k => mkNW (put (n_state w) n (n_state w k)) (n_infos w)
  | EditSI n f => match n_state w n with Station k => mkNW (n_state w) (changeI (n_infos w) k f) | _ => w end
  end.
Definition n_run (os : list (nop I)) : nworld := fold_left n_step os (mkNW (fun _ => Plain) []).
(** What a user sees of node [n]. *)
Definition seen_as (m : nmem I) (n : nat) (w : nworld) : Prop :=
  match n_state w n with
  | Plain => isBlocker m n = false /\ isTurnCycle m n = false /\ getSI m n = Some None
  | Blocker => isBlocker m n = true /\ isTurnCycle m n = false /\ getSI m n = Some None
  | Turn => isBlocker m n = false /\ isTurnCycle m n = true /\ getSI m n = Some None
  | Station k => isBlocker m n = false /\ isTurnCycle m n = false /\ exists i, nth_error (n_infos w) k = Some i /\ getSI m n = Some (Some i)
  end.
(** The number of station infos created. *)
Fixpoint created (os : list (nop I)) : N := match os with [] => 0%N | SetSI _ _ :: r => N.succ (created r) | _ :: r => created r end.
End Nodes.
