(** Model of the index of bounding boxes.
    Source: /repo/src/pfaedle/osm/BBoxIdx.cpp:9-105, BBoxIdx.h:17-70.

    Simplifications.
    - util::geo is not in the checkout.  Boxes have whole-number coordinates: only comparisons,
      minima and maxima are used, which are exact for doubles.  [M] stands for the largest
      double; every coordinate is between -M and M.  pad and commonArea are oracles: any
      functions.
    - getFullWebMercBox (a change of coordinates of the full box) is left out. *)
From Coq Require Import List ZArith Bool.
Import ListNotations.
Open Scope Z_scope.

Record box := mkBox { x0 : Z; y0 : Z; x1 : Z; y1 : Z }.
(** util::geo::contains(p, box), minbox, extendBox *)
Definition contains (p : Z * Z) (b : box) : bool := (x0 b <=? fst p) && (fst p <=? x1 b) && (y0 b <=? snd p) && (snd p <=? y1 b).
Definition extendBox (a b : box) : box := mkBox (Z.min (x0 a) (x0 b)) (Z.min (y0 a) (y0 b)) (Z.max (x1 a) (x1 b)) (Z.max (y1 a) (y1 b)).

(** BBoxIdx.h:17-22 *)
Inductive nd := Nd (b : box) (childs : list nd).
Definition boxOf (n : nd) : box := match n with Nd b _ => b end.

Section BBoxIdx.
Variable M : Z.
Variable pad : box -> box.                 (* util::geo::pad(box, _padding / 83000) *)
Variable commonArea : box -> box -> Z.
Definition minbox : box := mkBox M M (- M) (- M).
Definition MAX_LVL : nat := 5.
Definition MIN_COM_AREA : Z := 0.
(** 88-94: the best child *)
Fixpoint best (b : box) (cs : list nd) (i : nat) (acc : Z * option nat) : option nat :=
  match cs with
  | [] => snd acc
  | c :: r =>
      let cur := commonArea b (boxOf c) in
      best b r (S i) (if (MIN_COM_AREA <? cur) && (fst acc <? cur) then (cur, Some i) else acc)
  end.
Fixpoint updAt (l : list nd) (i : nat) (f : nd -> nd) : list nd :=
  match l, i with [], _ => [] | x :: r, O => f x :: r | x :: r, S i => x :: updAt r i f end.
(** 78-105 [addToTree]; [k] = MAX_LVL - lvl *)
Fixpoint addToTree (b : box) (k : nat) (n : nd) : nd :=
  match n with
  | Nd nb cs =>
      let nb' := extendBox b nb in
      match k with
      | O => Nd nb' cs
      | S k' =>
          match best b cs 0 (0, None) with
          | None => Nd nb' (cs ++ [addToTree b k' (Nd b [])])
          | Some i => Nd nb' (updAt cs i (addToTree b k'))
          end
      end
  end.
Record idx := mkIdx { size : nat; root : nd }.
(** 10 *)
Definition newIdx : idx := mkIdx 0 (Nd minbox []).
(** 13-21 [add] *)
Definition add (x : idx) (b : box) : idx := mkIdx (S (size x)) (addToTree (pad b) MAX_LVL (root x)).
Definition adds (bs : list box) : idx := fold_left add bs newIdx.
(** 68-75 [treeHas] *)
Fixpoint treeHas (p : Z * Z) (n : nd) : bool :=
  match n with
  | Nd b [] => contains p b
  | Nd b cs => (fix go (cs : list nd) : bool := match cs with [] => false | c :: r => if contains p (boxOf c) then treeHas p c else go r end) cs
  end.
(** 27-29, 41, 44-65 *)
Definition hasPoint (x : idx) (p : Z * Z) : bool := treeHas p (root x).
Definition getFullBox (x : idx) : box := boxOf (root x).
Fixpoint getLeafsRec (n : nd) : list box :=
  match n with
  | Nd b [] => [b]
  | Nd b cs => (fix go (cs : list nd) : list box := match cs with [] => [] | c :: r => getLeafsRec c ++ go r end) cs
  end.
Definition getLeafs (x : idx) : list box := getLeafsRec (root x).
End BBoxIdx.
