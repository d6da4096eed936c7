(** Specification for the generated shapes (C35, C57). *)
From Coq Require Import List Arith ZArith QArith Bool.
From Verif Require Import Router_model.
Import ListNotations.
Open Scope nat_scope.

Definition first_is {A} (l : list A) (x : A) : Prop := exists t, l = x :: t.
Definition last_is {A} (l : list A) (x : A) : Prop := exists t, l = t ++ [x].
(** Subsequence. *)
Inductive sub {A} : list A -> list A -> Prop :=
| sub_nil : sub [] []
| sub_keep : forall x k l, sub k l -> sub (x :: k) (x :: l)
| sub_skip : forall x k l, sub k l -> sub k (x :: l).
(** Consecutive lines meet: each starts where the one before it ends. *)
Fixpoint meet {A} (ls : list (list A)) : Prop :=
  match ls with
  | a :: ((b :: _) as t) => (exists x, last_is a x /\ first_is b x) /\ meet t
  | _ => True
  end.

(** Rounding to double and to float: both are monotone, and a float is left alone. *)
Record rounding (rndF rndD : Q -> Q) : Prop := {
  ro_monoF : forall x y, (x <= y -> rndF x <= rndF y)%Q;
  ro_monoD : forall x y, (x <= y -> rndD x <= rndD y)%Q;
  ro_float : forall x, (rndF (rndD (rndF x)) == rndF x)%Q;
  ro_zero : (rndF (rndD 0) == 0)%Q
}.

Section Spec.
Context {E Pt C : Type}.
Variable geom : E -> option (list Pt).
Variable isRev : E -> bool.
Variable fromPt toPt : E -> Pt.
Variable segment : list Pt -> Q -> Q -> list Pt.
Variable simplify : list Pt -> list Pt.
Variable pos : list Pt -> Q -> Pt.       (* the point at a share of the length of a line *)
Notation hop := (hop E Pt).

(** The line of an edge: its geometry in the direction of the edge; straight if there is
    none. *)
Definition drawn (e : E) (l : list Pt) : Prop :=
  match geom e with
  | None => l = [fromPt e; toPt e]
  | Some [] => l = [fromPt e; toPt e]
  | Some g => if isRev e then l = rev g else l = g
  end.
(** Geometries lead from the first node of the edge to the second. *)
Definition geometries_ok : Prop := forall e l, drawn e l -> first_is l (fromPt e) /\ last_is l (toPt e).

(** [part] is the part of line [l] between the shares [a] and [b]. *)
Definition covers (l : list Pt) (a b : Q) (part : list Pt) : Prop :=
  exists inner, sub inner l /\
    (part = pos l a :: inner ++ [pos l b] \/ (part = [pos l a] /\ pos l a = pos l b)).
(** What is assumed of the geometry library (util, not in the checkout). *)
Record geometry : Prop := {
  ge_0 : forall l p q, first_is l p -> (q == 0)%Q -> pos l q = p;
  ge_1 : forall l p q, last_is l p -> (q == 1)%Q -> pos l q = p;
  ge_segment : forall l a b, l <> [] -> (0 <= a)%Q -> (a <= b)%Q -> (b <= 1)%Q -> covers l a b (segment l a b);
  ge_simplify : forall l, sub (simplify l) l;
  ge_simplify_first : forall l p, first_is l p -> first_is (simplify l) p;
  ge_simplify_last : forall l p, last_is l p -> last_is (simplify l) p
}.

(** Edges of which each starts where the one before it ends. *)
Fixpoint path (es : list E) : Prop :=
  match es with
  | a :: ((b :: _) as t) => toPt a = fromPt b /\ path t
  | _ => True
  end.
(** The hops the router hands over: shares are shares, the edges (last first) are a path
    from the start edge to the end edge, or there are none.  [forward]: a path of one edge
    is not driven backwards. *)
Definition is_share (q : Q) : Prop := (0 <= q)%Q /\ (q <= 1)%Q.
Definition hop_ok (h : hop) : Prop :=
  (hStart _ _ h <> None -> is_share (hPrS _ _ h)) /\ (hEnd _ _ h <> None -> is_share (hPrE _ _ h)) /\
  forall s e, hStart _ _ h = Some s -> hEnd _ _ h = Some e ->
    hEdges _ _ h = [] \/ (path (rev (hEdges _ _ h)) /\ first_is (rev (hEdges _ _ h)) s /\ last_is (rev (hEdges _ _ h)) e).
Definition forward (h : hop) : Prop :=
  forall s, hStart _ _ h = Some s -> hEnd _ _ h = Some s -> hEdges _ _ h = [s] -> (hPrS _ _ h <= hPrE _ _ h)%Q.

(** Where a hop starts and ends: at a share of an edge, or at the stop itself. *)
Definition start_pos (h : hop) (p : Pt) : Prop :=
  match hStart _ _ h with None => p = hPtS _ _ h | Some s => forall l, drawn s l -> p = pos l (hPrS _ _ h) end.
Definition end_pos (h : hop) (p : Pt) : Prop :=
  match hEnd _ _ h with None => p = hPtE _ _ h | Some e => forall l, drawn e l -> p = pos l (hPrE _ _ h) end.
Definition routed (h : hop) : Prop := hStart _ _ h <> None /\ hEnd _ _ h <> None /\ hEdges _ _ h <> [].

(** A routed hop drives along its edges: from the start position to the end of the first
    edge, over the edges between, and from the start of the last edge to the end
    position (nothing, if that is at its start).  Of the vertices on the way some may be
    left out. *)
Definition along (h : hop) (part : list Pt) : Prop :=
  (exists s l, hEdges _ _ h = [s] /\ drawn s l /\ covers l (hPrS _ _ h) (hPrE _ _ h) part) \/
  (exists s mids e ls le lm p1 p3 pieces,
     rev (hEdges _ _ h) = s :: mids ++ [e] /\ drawn s ls /\ drawn e le /\ Forall2 drawn mids lm /\
     covers ls (hPrS _ _ h) 1 p1 /\
     ((covers le 0 (hPrE _ _ h) p3 /\ pieces = p1 :: lm ++ [p3]) \/ ((hPrE _ _ h == 0)%Q /\ pieces = p1 :: lm)) /\
     meet pieces /\ sub part (concat pieces)).

(** The part of the shape that belongs to a hop. *)
Definition part_ok (h : hop) (part : list Pt) : Prop :=
  exists a b, start_pos h a /\ end_pos h b /\ first_is part a /\ last_is part b /\
    (routed h -> along h part) /\ (~ routed h -> part = [a; b]).

(** What the consumer of the shape sees: points with measure and number, distances of
    the stops.  [parts]: the points split by hop. *)
Variable hav : Pt -> Pt -> Q.
Variable rndF rndD : Q -> Q.
Record measured (parts : list (list Pt)) (ps : list (Pt * Q * nat)) (ds : list Q) : Prop := {
  me_points : map (fun p => fst (fst p)) ps = concat parts;
  me_seq : map snd ps = List.seq 0 (length ps);
  me_first : exists p t, ps = (p, 0%Q, 0) :: t;
  me_next : forall i p m n p' m' n', nth_error ps i = Some (p, m, n) -> nth_error ps (S i) = Some (p', m', n') ->
    m' = rndF (rndD (m + hav p p'));
  me_mono : forall i j p m n p' m' n', i <= j -> nth_error ps i = Some (p, m, n) -> nth_error ps j = Some (p', m', n') ->
    (m <= m')%Q;
  me_stops : length ds = S (length parts);
  me_dist0 : nth_error ds 0 = Some 0%Q;
  me_dist : forall i, i < length parts -> exists p d n,
    nth_error ps (length (concat (firstn (S i) parts)) - 1) = Some (p, d, n) /\ nth_error ds (S i) = Some d;
  me_dist_mono : forall i j d d', i <= j -> nth_error ds i = Some d -> nth_error ds j = Some d' -> (d <= d')%Q
}.
End Spec.
