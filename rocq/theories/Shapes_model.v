(** Model of the geometry, the measures and the colour of a generated shape.
    Source: /repo/src/pfaedle/router/ShapeBuilder.cpp:564-601 (getGtfsShape), 972-1028
    (getGeom), 1031-1120 (getLine of a hop), 1123-1133 (getLine of an edge), 1136-1157
    (getMeasure), 1237-1246 (getColorMatch).

    Simplifications.
    - A point is a value of type [Pt]; geometry functions of the util library, which is not
      part of the checkout, are oracles: [segment l a b] is PolyLine(l).getSegment(a, b),
      [simplify] is util::geo::simplify, [hav] is util::geo::haversine.
    - Measures are rationals, rounded by [rndD] (double addition) and [rndF] (conversion to
      float).  Lengths of coloured parts are rationals without rounding.
    - Warnings are left out.
    - Access to the first or last element of an empty vector is the outcome [None]. *)
From Coq Require Import List Arith ZArith QArith Bool.
From Verif Require Import Router_model.
Import ListNotations.
Open Scope nat_scope.

Section Shapes.
Variable E Pt : Type.
Variable eqE : E -> E -> bool.                 (* equality of edge pointers *)
Variable geom : E -> option (list Pt).         (* e->pl().getGeom() *)
Variable isRev : E -> bool.                    (* e->pl().isRev() *)
Variable fromPt toPt : E -> Pt.                (* position of the nodes of an edge *)
Variable len : E -> Q.                         (* e->pl().getLength() *)
Variable segment : list Pt -> Q -> Q -> list Pt.
Variable simplify : list Pt -> list Pt.
Variable hav : Pt -> Pt -> Q.
Variable rndF rndD : Q -> Q.
Notation hop := (hop E Pt).

Definition front (l : list Pt) : option Pt := match l with [] => None | p :: _ => Some p end.
Definition back (l : list Pt) : option Pt := match l with [] => None | p :: r => Some (last r p) end.
Definition isPos (q : Q) : bool := if Qlt_le_dec 0 q then true else false.

(** ShapeBuilder.cpp:1123-1133 [getLine] of an edge. *)
Definition edgeLine (e : E) : list Pt :=
  match geom e with
  | None | Some [] => [fromPt e; toPt e]
  | Some g => if isRev e then rev g else g
  end.

(** ShapeBuilder.cpp:1091-1102: the loop from index [size - 2] down to 1. *)
Fixpoint middle (es : list E) (j : nat) : option (list E) :=
  match j with
  | 0 => Some []
  | S k => match nth_error es j, middle es k with
           | Some e, Some r => Some (e :: r)
           | _, _ => None
           end
  end.

(** ShapeBuilder.cpp:1031-1120 [getLine] of a hop; the second component
    lists the edges whose colours are counted, with the length added to each. *)
Definition hopLine (h : hop) (s e : E) : option (list Pt * list (E * Q)) :=
  match hEdges _ _ h with
  | [] =>
      match (if isPos (hPrS _ _ h) then front (segment (edgeLine s) (hPrS _ _ h) 1) else front (edgeLine s)),
            (if isPos (hPrE _ _ h) then back (segment (edgeLine e) 0 (hPrE _ _ h)) else Some (fromPt e)) with
      | Some a, Some b => Some ([a; b], [])
      | _, _ => None
      end
  | es =>
      if (length es =? 1) && eqE s e
      then Some (segment (edgeLine s) (hPrS _ _ h) (hPrE _ _ h), [(s, len s)])
      else
        let l1 := if isPos (hPrS _ _ h) then segment (edgeLine s) (hPrS _ _ h) 1 else edgeLine s in
        let c1 := (s, if isPos (hPrS _ _ h) then (len s * (1 - hPrS _ _ h))%Q else len s) in
        match (if 1 <? length es then middle es (length es - 2) else Some []) with
        | None => None
        | Some ms =>
            let l3 := if isPos (hPrE _ _ h) then segment (edgeLine e) 0 (hPrE _ _ h) else [] in
            let c3 := if isPos (hPrE _ _ h) then [(e, len e * hPrE _ _ h)%Q] else [] in
            let l := l1 ++ flat_map edgeLine ms ++ l3 in
            Some (if 1 <? length l then simplify l else l, c1 :: map (fun m => (m, len m)) ms ++ c3)
        end
  end.

(** ShapeBuilder.cpp:972-1028 [getGeom]: one hop. *)
Definition hopGeom (h : hop) : option (list Pt * list (E * Q)) :=
  match hStart _ _ h, hEnd _ _ h with
  | Some s, Some e => hopLine h s e
  | Some s, None =>
      match (if isPos (hPrS _ _ h) then front (segment (edgeLine s) (hPrS _ _ h) 1) else Some (fromPt s)) with
      | Some a => Some ([a; hPtE _ _ h], [])
      | None => None
      end
  | None, Some e =>
      match (if isPos (hPrE _ _ h) then back (segment (edgeLine e) 0 (hPrE _ _ h)) else Some (fromPt e)) with
      | Some b => Some ([hPtS _ _ h; b], [])
      | None => None
      end
  | None, None => Some ([hPtS _ _ h; hPtE _ _ h], [])
  end.
Fixpoint mapM {A B} (f : A -> option B) (l : list A) : option (list B) :=
  match l with
  | [] => Some []
  | x :: t => match f x, mapM f t with Some y, Some r => Some (y :: r) | _, _ => None end
  end.
(** ... and all of them; [hops] is ordered last to first. *)
Definition getGeom (hops : list hop) : option (list (list Pt) * list (E * Q)) :=
  match mapM hopGeom (rev hops) with
  | None => None
  | Some r => Some (map fst r, flat_map snd r)
  end.

(** ShapeBuilder.cpp:1136-1157 [getMeasure]: the loop; [ms] is [ret] reversed. *)
Fixpoint measureLoop (pts : list Pt) (lst : Pt) (ms : list Q) : list Q :=
  match pts with
  | [] => ms
  | p :: t =>
      let v := match ms with [] => 0%Q | b :: _ => rndF (rndD (b + hav lst p)) end in
      measureLoop t p (v :: ms)
  end.
Definition getMeasure (lines : list (list Pt)) : option (list Q) :=
  match lines with
  | (p :: _) :: _ => Some (rev (measureLoop (concat lines) p []))
  | _ => None
  end.

(** ShapeBuilder.cpp:577-586: points with measure and sequence number, and the distances
    of the stops.  [None]: index out of range. *)
Fixpoint pointLoop (l : list Pt) (ms : list Q) (seq : nat) : option (list (Pt * Q * nat)) :=
  match l with
  | [] => Some []
  | p :: t => match nth_error ms seq, pointLoop t ms (S seq) with
              | Some m, Some r => Some ((p, m, seq) :: r)
              | _, _ => None
              end
  end.
Fixpoint lineLoop (gl : list (list Pt)) (ms : list Q) (seq : nat) : option (list (Pt * Q * nat) * list Q) :=
  match gl with
  | [] => Some ([], [])
  | l :: t =>
      match pointLoop l ms seq with
      | None => None
      | Some ps =>
          let seq1 := seq + length l in
          match seq1 with
          | 0 => None
          | S k => match nth_error ms k, lineLoop t ms seq1 with
                   | Some d, Some (ps2, ds) => Some (ps ++ ps2, d :: ds)
                   | _, _ => None
                   end
          end
      end
  end.

(** ShapeBuilder.cpp:1237-1246 [getColorMatch]: an ordered set of colours per edge. *)
Variable colorsOf : E -> list N.
(** [colors[color] += l]: std::map from colours to lengths, ordered by colour. *)
Fixpoint addColor (m : list (N * Q)) (c : N) (l : Q) : list (N * Q) :=
  match m with
  | [] => [(c, l)]
  | (c', l') :: r => if (c <? c')%N then (c, l) :: m
                     else if (c =? c')%N then (c', l' + l)%Q :: r
                     else (c', l') :: addColor r c l
  end.
Definition countColors (cs : list (E * Q)) : list (N * Q) :=
  fold_left (fun m e => fold_left (fun m c => addColor m c (snd e)) (colorsOf (fst e)) m) cs [].

(** ShapeBuilder.cpp:588-598: the most likely colour.  The share of a colour is a
    quotient of doubles; for a shape of length 0 it is infinite (or NaN if no length was
    counted for the colour).  [best]: the share of the current choice. *)
Inductive share := NaN | Inf | Fin (q : Q).
Definition shareOf (l total : Q) : share :=
  if Qeq_bool total 0 then (if isPos l then Inf else NaN) else Fin (l / total).
Definition shareGt (a b : share) : bool :=
  match a, b with
  | NaN, _ | _, NaN => false
  | Inf, Inf => false
  | Inf, Fin _ => true
  | Fin _, Inf => false
  | Fin x, Fin y => if Qlt_le_dec y x then true else false
  end.
Definition bestColor (noColor : N) (m : list (N * Q)) (total : Q) : N :=
  fst (fold_left (fun (acc : N * share) cl =>
    let p := shareOf (snd cl) total in
    if shareGt p (Fin (9 # 10)) && shareGt p (snd acc) then (fst cl, p) else acc) m (noColor, Fin 0%Q)).

(** ShapeBuilder.cpp:564-601 [getGtfsShape] without the id: points, distances of the stops
    and the colour. *)
Definition getGtfsShape (noColor : N) (hops : list hop) : option (list (Pt * Q * nat) * list Q * N) :=
  match getGeom hops with
  | None => None
  | Some (gl, cs) =>
      match getMeasure gl with
      | None => None
      | Some ms =>
          match lineLoop gl ms 0 with
          | None => None
          | Some (ps, ds) => Some (ps, 0%Q :: ds, bestColor noColor (countColors cs) (last ms 0%Q))
          end
      end
  end.
End Shapes.
