(** Specification of the search around an edge and of the snapping of stations. *)
From Coq Require Import List Arith ZArith Bool Permutation.
From Verif Require Import Snap_model.
Import ListNotations.
Open Scope nat_scope.

(** ** Walks.  [E]: the edges; [e]: where the search starts *)
Section Walks.
Variable E : nat -> Prop.
Variable efrom eto : nat -> nat.
Variable dp len : nat -> Z.
Variable plus : Z -> Z -> Z.
Variable full : nat -> nat -> nat -> Prop.        (* coming from one node, at a node, going to another: a full turn *)
Variable e : nat.
Definition joins (g a b : nat) : Prop := (efrom g = a /\ eto g = b) \/ (efrom g = b /\ eto g = a).
(** [Walk n f d k]: a walk from an end of [e] to [n], the last edge is [f], with length [d]
    (from the position on) and [k] full turns. *)
Inductive Walk : nat -> nat -> Z -> Z -> Prop :=
| Wk_start : forall n, n = efrom e \/ n = eto e -> Walk n e (dp n) 0
| Wk_step : forall n f d k a g m t, Walk n f d k -> E g -> joins g n m -> n <> m -> joins f n a ->
    (full a n m /\ t = 1%Z) \/ (~ full a n m /\ t = 0%Z) -> Walk m g (plus d (len g)) (k + t).
(** Within the limits. *)
Variable maxD maxTurns : Z.
Definition allowed (d k : Z) : Prop := (d < maxD)%Z /\ ((maxTurns < 0)%Z \/ (k <= maxTurns)%Z).
(** What can be found: an end that is near, or the end of an allowed walk. *)
Definition Findable (n : nat) : Prop := ((n = efrom e \/ n = eto e) /\ (dp n <= maxD)%Z) \/ (exists f d k, Walk n f d k /\ allowed d k).
(** A region that was explored: each node with the last edge, the length and turns of a walk. *)
Record Region (bounded : bool) (R : list (nat * nat * Z * Z)) (sf : nat -> bool) : Prop := {
  rg_once : NoDup (map (fun r => fst (fst (fst r))) R);
  rg_walk : forall n f d k, In (n, f, d, k) R -> Walk n f d k;
  rg_start : forall n, n = efrom e \/ n = eto e -> exists f d k, In (n, f, d, k) R /\ (bounded = true -> (d <= dp n)%Z);
  (* allowed steps stay in it; if [bounded], its walks are not longer *)
  rg_step : forall n f d k a g m t, In (n, f, d, k) R -> E g -> joins g n m -> n <> m -> joins f n a ->
            (full a n m /\ t = 1%Z) \/ (~ full a n m /\ t = 0%Z) -> allowed (plus d (len g)) (k + t) ->
            exists f' d' k', In (m, f', d', k') R /\ (bounded = true -> (d' <= plus d (len g))%Z);
  (* nothing is to be found in it, except at an end that is too far away *)
  rg_none : forall n f d k, In (n, f, d, k) R -> ((n = efrom e \/ n = eto e) /\ d = dp n /\ (maxD < d)%Z) \/ sf n = false
}.
End Walks.

(** ** Snapping *)
Section Snap.
Context {P I PL : Type}.
Notation edge := (@edge PL).
Notation st := (@st P I PL).
(** States that are met: edges are distinct, no two run from the same node to the same node,
    stations have an info. *)
Record Ok (s : st) : Prop := {
  ok_ids : NoDup (map eId (edges s));
  ok_new : forall e, In e (edges s) -> eId e < nextE s;
  ok_pair : forall x y, In x (edges s) -> In y (edges s) -> eFrom x = eFrom y -> eTo x = eTo y -> x = y;
  ok_ends : forall e, In e (edges s) -> eFrom e < size s /\ eTo e < size s;
  ok_info : forall n k, state s n = Station k -> k < length (infos s)
}.
(** Nodes that are reached in [s] from edge [i] and position [p], within [maxD] and without full turns *)
Definition present (s : st) (i : nat) : Prop := In i (map eId (edges s)).
Definition src (s : st) (i : nat) : nat := match find (fun e => eId e =? i) (edges s) with Some e => eFrom e | None => 0 end.
Definition dst (s : st) (i : nat) : nat := match find (fun e => eId e =? i) (edges s) with Some e => eTo e | None => 0 end.
Section Reach.
Variable hav : P -> P -> Z.
Variable plus : Z -> Z -> Z.
Variable sharpAt : P -> P -> P -> bool.
(** a full turn: at a node with more than two edges, with a small angle *)
Definition fullAt (s : st) (a n m : nat) : Prop :=
  2 < length (filter (fun e => eTo e =? n) (edges s)) + length (filter (fun e => eFrom e =? n) (edges s)) /\ sharpAt (geo s n) (geo s a) (geo s m) = true.
Definition Reached (s : st) (p : P) (maxD : Z) (i n : nat) : Prop :=
  Findable (present s) (src s) (dst s) (fun n => hav (geo s n) p) (fun e => hav (geo s (src s e)) (geo s (dst s e))) plus (fullAt s) i maxD 0 n.
End Reach.
(** [Info s n i]: node [n] is a station with info [i]. *)
Definition Info (s : st) (n : nat) (i : I) : Prop := exists k, state s n = Station k /\ nth_error (infos s) k = Some i.
(** The info of a station whose track, if it had none, may have been set. *)
Variable noTrack : I -> bool.
Variable takeTrack : I -> I -> I.
Inductive Filled : I -> I -> Prop :=
| F_same : forall i, Filled i i
| F_track : forall i j x, noTrack i = true -> Filled (takeTrack i x) j -> Filled i j.
(** [Chain e l mid]: [l] leads along edge [e] by way of the nodes [mid]. *)
Inductive Chain (pl : PL) : nat -> nat -> list edge -> list nat -> Prop :=
| Ch_one : forall e, ePl e = pl -> Chain pl (eFrom e) (eTo e) [e] []
| Ch_cons : forall e b l mid, ePl e = pl -> Chain pl (eTo e) b l mid -> Chain pl (eFrom e) b (e :: l) (eTo e :: mid).
(** What the restrictor makes of an edge: the edges that it was replaced by *)
Definition replay (T : list (nat * nat * nat)) (l : list nat) : list nat :=
  fold_left (fun l t => flat_map (fun x => if x =? fst (fst t) then [snd (fst t); snd t] else [x]) l) T l.
Variable lvl : PL -> nat.
Variable maxLvl : nat.
(** From [s] to [s'] stations were snapped. *)
Record Kept (s s' : st) : Prop := {
  kp_nodes : size s <= size s' /\ forall n, n < size s -> geo s' n = geo s n;
  (* nodes keep their station, other nodes may become one *)
  kp_state : forall n, n < size s -> state s' n = state s n \/
             ((forall k, state s n <> Station k) /\ exists k, length (infos s) <= k /\ state s' n = Station k);
  kp_new : forall n, size s <= n < size s' -> exists k, state s' n = Station k;
  kp_infos : length (infos s) <= length (infos s') /\ forall k i, nth_error (infos s) k = Some i -> exists j, nth_error (infos s') k = Some j /\ Filled i j;
  (* each edge is there or was replaced by a chain with the same payload; the restrictor was told;
     nothing else was added *)
  kp_edges : exists T L M, told s' = told s ++ T /\ length L = length (edges s) /\ length M = length (edges s) /\
             Permutation (concat L) (edges s') /\ Permutation (concat M) (seq (size s) (size s' - size s)) /\
             forall i e, nth_error (edges s) i = Some e -> exists l mid, nth_error L i = Some l /\ nth_error M i = Some mid /\
               Chain (ePl e) (eFrom e) (eTo e) l mid /\ map eId l = replay T [eId e] /\ (maxLvl < lvl (ePl e) -> l = [e])
}.
(** One candidate edge [e] was handled for a station with info number [k] (info [i]); [geom]: its position on the edge. *)
Definition PlacedAt (s s' : st) (n : nat) (i : I) : Prop :=
  size s' = size s /\ edges s' = edges s /\ told s' = told s /\ Info s' n i /\
  (forall m, m <> n -> state s' m = state s m) /\ (forall m, geo s' m = geo s m) /\ (forall k j, nth_error (infos s) k = Some j -> nth_error (infos s') k = Some j).
Definition PlacedOn (s s' : st) (e : edge) (p : P) (k : nat) : Prop :=
  size s' = S (size s) /\ geo s' (size s) = p /\ state s' (size s) = Station k /\ infos s' = infos s /\
  (forall m, m < size s -> geo s' m = geo s m /\ state s' m = state s m) /\
  exists a b, eFrom a = eFrom e /\ eTo a = size s /\ eFrom b = size s /\ eTo b = eTo e /\ ePl a = ePl e /\ ePl b = ePl e /\
    told s' = told s ++ [(eId e, eId a, eId b)] /\ Permutation (e :: edges s') (edges s ++ [a; b]).
(** At most a missing track was set. *)
Definition OnlyTrack (s s' : st) (i : I) : Prop :=
  size s' = size s /\ edges s' = edges s /\ told s' = told s /\ geo s' = geo s /\ state s' = state s /\
  (infos s' = infos s \/ exists k j, nth_error (infos s) k = Some j /\ noTrack j = true /\ nth_error (infos s') k = Some (takeTrack j i) /\
     forall q, q <> k -> nth_error (infos s') q = nth_error (infos s) q).
End Snap.
