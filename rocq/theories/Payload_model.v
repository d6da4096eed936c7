(** Model of the payloads of edges and nodes.
    Source: /repo/src/pfaedle/trgraph/EdgePL.cpp:14-64 (constructors, destructor,
    unRefTLine), 67-76 (revCopy), 90-101 (addLine), 113-119 (addPoint), EdgePL.h:97-120;
    /repo/src/pfaedle/trgraph/NodePL.cpp:17-67 (constructors, setNoStat), 104-148 (setSI,
    getSI, setTurnCycle, isTurnCycle, setBlocker, isBlocker).

    Simplifications.
    - Memory: an object lives from new to delete at an address (a number).  The allocator
      gives any address where no object lives; it is part of the operation.  Using or
      deleting an object that does not live, and counting below zero, is undefined: [None].
    - A payload object is known by a number as long as it lives.  The flags and the cost are
      plain values that are copied and are left out.
    - std::map with operator[]: a function to numbers, 0 if there is no element (_flines), to
      optional numbers where elements are erased (_tlines). *)
From Coq Require Import List Arith NArith Bool.
Import ListNotations.
Open Scope nat_scope.

Definition set {A : Type} (f : nat -> A) (k : nat) (v : A) : nat -> A := fun x => if x =? k then v else f x.

(** _l and _lines *)
Notation pld := (option nat * list nat)%type.
Section EdgePL.
Variable P : Type.
Record mem := mkMem {
  pls : list (nat * pld);          (* the payload objects that live *)
  heap : nat -> option (list P);   (* the LINE objects that live *)
  flines : nat -> nat;             (* EdgePL::_flines *)
  tl : nat -> bool;                (* the TransitEdgeLine objects that live *)
  tlines : nat -> option nat       (* EdgePL::_tlines *)
}.
Definition empty : mem := mkMem [] (fun _ => None) (fun _ => 0) (fun _ => false) (fun _ => None).
Definition getPl (m : mem) (i : nat) : option pld := match find (fun x => fst x =? i) (pls m) with Some x => Some (snd x) | None => None end.
Definition setPl (l : list (nat * pld)) (i : nat) (p : pld) : list (nat * pld) := map (fun x => if fst x =? i then (i, p) else x) l.

(** std::lower_bound and insertion, EdgePL.cpp:91-95 *)
Definition found (x : nat) (l : list nat) : bool := match find (fun y => negb (y <? x)) l with Some y => y =? x | None => false end.
Fixpoint ins (x : nat) (l : list nat) : list nat := match l with [] => [x] | y :: r => if y <? x then y :: ins x r else x :: l end.
(** EdgePL.cpp:90-101 [addLine] *)
Definition addLine (s : list nat * (nat -> option nat)) (x : nat) : list nat * (nat -> option nat) :=
  let (l, tc) := s in
  if found x l then s else (ins x l, set tc x (Some (match tc x with Some n => S n | None => 1 end))).
(** EdgePL.cpp:56-64 [unRefTLine] *)
Definition unRef (s : option ((nat -> option nat) * (nat -> bool))) (x : nat) : option ((nat -> option nat) * (nat -> bool)) :=
  match s with
  | None => None
  | Some (tc, al) =>
      match tc x with
      | None | Some 0 => None
      | Some 1 => if al x then Some (set tc x None, set al x false) else None
      | Some (S n) => Some (set tc x (Some n), al)
      end
  end.

Inductive op :=
| New (i : nat)                              (* EdgePL() *)
| Copy (i j : nat) (flat : bool) (a : nat)   (* EdgePL(pl, geoflat); a: address of the new LINE *)
| AddPoint (i : nat) (p : P) (a : nat)
| Edit (i : nat) (f : list P -> list P)      (* a change of *getGeom() *)
| AddLine (i l : nat)
| NewLine (l : nat)                          (* new TransitEdgeLine, OsmBuilder.cpp:1359-1440 *)
| Destroy (i : nat).

Definition step (m : mem) (o : op) : option mem :=
  match o with
  | New i => Some (mkMem ((i, (None, [])) :: pls m) (heap m) (flines m) (tl m) (tlines m))
  | Copy i j flat a =>
      match getPl m j with
      | None => None
      | Some (gm, ls) =>
          let (ls', tc) := fold_left addLine ls ([], tlines m) in
          match gm with
          | None => Some (mkMem ((i, (None, ls')) :: pls m) (heap m) (flines m) (tl m) tc)
          | Some b =>
              if flat then Some (mkMem ((i, (Some b, ls')) :: pls m) (heap m) (set (flines m) b (S (flines m b))) (tl m) tc)
              else match heap m b with
                   | None => None
                   | Some c => Some (mkMem ((i, (Some a, ls')) :: pls m) (set (heap m) a (Some c)) (set (flines m) a (S (flines m a))) (tl m) tc)
                   end
          end
      end
  | AddPoint i p a =>
      match getPl m i with
      | None => None
      | Some (Some b, ls) => match heap m b with None => None | Some c => Some (mkMem (pls m) (set (heap m) b (Some (c ++ [p]))) (flines m) (tl m) (tlines m)) end
      | Some (None, ls) => Some (mkMem (setPl (pls m) i (Some a, ls)) (set (heap m) a (Some [p])) (set (flines m) a 1) (tl m) (tlines m))
      end
  | Edit i f =>
      match getPl m i with
      | Some (Some b, ls) => match heap m b with None => None | Some c => Some (mkMem (pls m) (set (heap m) b (Some (f c))) (flines m) (tl m) (tlines m)) end
      | _ => None
      end
  | AddLine i l =>
      match getPl m i with
      | None => None
      | Some (gm, ls) => let (ls', tc) := addLine (ls, tlines m) l in Some (mkMem (setPl (pls m) i (gm, ls')) (heap m) (flines m) (tl m) tc)
      end
  | NewLine l => Some (mkMem (pls m) (heap m) (flines m) (set (tl m) l true) (tlines m))
  | Destroy i =>
      match getPl m i with
      | None => None
      | Some (gm, ls) =>
          match fold_left unRef ls (Some (tlines m, tl m)) with
          | None => None
          | Some (tc, al) =>
              let ps := filter (fun x => negb (fst x =? i)) (pls m) in
              match gm with
              | None => Some (mkMem ps (heap m) (flines m) al tc)
              | Some a =>
                  match flines m a with
                  | 0 => None
                  | S n =>
                      if n =? 0
                      then match heap m a with None => None | Some _ => Some (mkMem ps (set (heap m) a None) (set (flines m) a 0) al tc) end
                      else Some (mkMem ps (heap m) (set (flines m) a n) al tc)
                  end
              end
          end
      end
  end.
Definition run (m : option mem) (os : list op) : option mem := fold_left (fun m o => match m with Some m => step m o | None => None end) os m.
(** EdgePL.h:52-120: there is no operator=, so the implicit one copies the members.  Not used in
    the checkout. *)
Definition assign (m : mem) (i j : nat) : option mem :=
  match getPl m i, getPl m j with Some _, Some p => Some (mkMem (setPl (pls m) i p) (heap m) (flines m) (tl m) (tlines m)) | _, _ => None end.
(** EdgePL.cpp:122-125 [getGeom], 108-110 [getLines]: what a user sees. *)
Definition geomOf (m : mem) (i : nat) : option (option (list P)) :=
  match getPl m i with
  | None => None
  | Some (None, _) => Some None
  | Some (Some a, _) => match heap m a with Some c => Some (Some c) | None => None end
  end.
Definition linesOf (m : mem) (i : nat) : option (list nat) := match getPl m i with Some (_, ls) => Some ls | None => None end.
End EdgePL.
Arguments mkMem {P}. Arguments pls {P}. Arguments heap {P}. Arguments flines {P}. Arguments tl {P}. Arguments tlines {P}. Arguments empty {P}.
Arguments New {P}. Arguments Copy {P}. Arguments AddPoint {P}. Arguments Edit {P}. Arguments AddLine {P}. Arguments NewLine {P}. Arguments Destroy {P}.
Arguments step {P}. Arguments run {P}. Arguments geomOf {P}. Arguments linesOf {P}. Arguments getPl {P}. Arguments assign {P}.

Section NodePL.
Variable I : Type.
Open Scope N_scope.
Definition MAX : N := 4294967295.
(** The _si of the nodes (32 bits; nodes are numbers), and NodePL::_statInfos. *)
Record nmem := mkN { si : nat -> N; infos : list I }.
Definition nempty : nmem := mkN (fun _ => 0) [].
Definition isBlocker (m : nmem) (n : nat) : bool := si m n =? MAX.
Definition isTurnCycle (m : nmem) (n : nat) : bool := si m n =? MAX - 1.
(** NodePL.cpp:110-125; [Some None]: the null pointer, [None]: access behind the vector. *)
Definition getSI (m : nmem) (n : nat) : option (option I) :=
  if isBlocker m n then Some None else if isTurnCycle m n then Some None else if si m n =? 0 then Some None
  else match nth_error (infos m) (N.to_nat (si m n - 1)) with Some i => Some (Some i) | None => None end.
Inductive nop :=
| SetSI (n : nat) (i : I)
| SetNoStat (n : nat)
| SetTurn (n : nat)
| SetBlocker (n : nat)
| CopyNode (n k : nat)               (* n gets a copy of the payload of k *)
| EditSI (n : nat) (f : I -> I).     (* a change of *getSI(), if it is not null *)
Fixpoint updNth (l : list I) (k : nat) (f : I -> I) : list I :=
  match l with [] => [] | x :: r => match k with O => f x :: r | S k => x :: updNth r k f end end.
Definition nstep (m : nmem) (o : nop) : nmem :=
  match o with
  | SetSI n i => mkN (set (si m) n (N.of_nat (length (infos m ++ [i])) mod 4294967296)) (infos m ++ [i])
  | SetNoStat n => mkN (set (si m) n 0) (infos m)
  | SetTurn n => mkN (set (si m) n (MAX - 1)) (infos m)
  | SetBlocker n => mkN (set (si m) n MAX) (infos m)
  | CopyNode n k => mkN (set (si m) n (si m k)) (infos m)
  | EditSI n f => match getSI m n with None | Some None => m | Some (Some _) => mkN (si m) (updNth (infos m) (N.to_nat (si m n - 1)) f) end
  end.
Definition nrun (os : list nop) : nmem := fold_left nstep os nempty.
End NodePL.
Arguments mkN {I}. Arguments si {I}. Arguments infos {I}. Arguments nempty {I}. Arguments isBlocker {I}. Arguments isTurnCycle {I}. Arguments getSI {I}.
Arguments SetSI {I}. Arguments SetNoStat {I}. Arguments SetTurn {I}. Arguments SetBlocker {I}. Arguments CopyNode {I}. Arguments EditSI {I}.
Arguments updNth {I}. Arguments nstep {I}. Arguments nrun {I}.
