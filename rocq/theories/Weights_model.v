(** Model of the edge cost passes of the graph builder, the routing cost function
    and the distance heuristic.
    Source: /repo/src/pfaedle/router/Weights.cpp:15-172, Weights.h:25-80,
    /repo/src/pfaedle/osm/OsmBuilder.cpp:1108-1120, 1773-1797, 1870-1883,
    /repo/src/pfaedle/config/MotConfigReader.cpp:598-624.

    Simplifications: C++ doubles are exact rationals ([Q]); edges and nodes are
    natural numbers; haversine is an arbitrary distance function; the angle test
    of Weights.cpp:136-139 and the turn restrictor are oracles. *)
From Coq Require Import List Arith ZArith QArith Qround Qminmax Bool Lia.
Import ListNotations.

Definition u32max : Z := (2 ^ 32 - 1)%Z.
Definition wrap32 (z : Z) : Z := (z mod 2 ^ 32)%Z.
Definition Zq (z : Z) : Q := inject_Z z.

Definition Qltb (a b : Q) : bool := negb (Qle_bool b a).

(** [std::round] on non-negative values: half away from zero. *)
Definition Qround (q : Q) : Z := Qfloor (q + (1 # 2)).

(** ** Edge costs, OsmBuilder.cpp *)

(** OsmBuilder.cpp:1870-1883 [costToInt].  Simplification: line 1875 converts the
    rounded value to uint32_t before line 1876 checks the range; for a value out
    of range that conversion is undefined behaviour in C++ (its result is not
    used).  [costToIntDefined] is the condition under which it is defined. *)
Definition costToIntDefined (c : Q) : bool :=
  let v := Qceiling (c * 10) in (0 <=? v)%Z && (v <=? u32max)%Z.
Definition costToInt (c : Q) : Z :=
  let v := Qceiling (c * 10) in
  if (u32max <? v)%Z then u32max else v.

(** OsmBuilder.cpp:1116-1117 [writeGeoms]: cost of an edge of length [len] on a
    level with default speed [speed]. *)
Definition geomCost (len speed : Q) : Z := costToInt (len / speed).

(** OsmBuilder.cpp:1789-1794 [writeOneWayPens] (edges against a one-way). *)
Definition oneWayCost (c : Z) (speedPen entryCost : Q) : Z :=
  costToInt (Zq c / 10 * speedPen + entryCost).

(** OsmBuilder.cpp:1776-1780 [writeNoLinePens] (edges without lines); called
    only if the factor is not 1 (OsmBuilder.cpp:163-166). *)
Definition noLinesCost (c : Z) (fac : Q) : Z := costToInt (Zq c / 10 * fac).

(** OsmBuilder.cpp:143-166: the three passes in program order. *)
Definition buildCost (len speed : Q) (againstOneWay hasLines : bool)
    (speedPen entryCost noLinesFac : Q) : Z :=
  let c0 := geomCost len speed in
  let c1 := if againstOneWay then oneWayCost c0 speedPen entryCost else c0 in
  if Qeq_bool noLinesFac 1 then c1
  else if hasLines then c1 else noLinesCost c1 noLinesFac.

(** ** Routing options used by the cost function (Misc.h:36-67) *)
Record ropts := mkOpts {
  fullTurn : Z;          (* fullTurnPunishFac *)
  turnRestr : Z;         (* turnRestrCost *)
  fName : Q;             (* lineUnmatchedPunishFact *)
  fFrom : Q;             (* lineNameFromUnmatchedPunishFact *)
  fTo : Q                (* lineNameToUnmatchedPunishFact *)
}.

(** MotConfigReader.cpp:602-622 [maxSpeedCorFac]. *)
Definition below1 (f acc : Q) : Q := if Qltb f 1 then acc * f else acc.
Definition maxSpeedCorFac (o : ropts) (noLinesFac speedPen : Q) : Q :=
  below1 speedPen (below1 noLinesFac (below1 (fTo o) (below1 (fFrom o) (below1 (fName o) 1)))).

(** RoutingAttrs.h:19-28. *)
Record simi := mkSimi { sName : bool; sFrom : bool; sTo : bool }.
Definition b2n (b : bool) : nat := if b then 1 else 0.
Definition simiCount (s : simi) : nat := (b2n (sName s) + b2n (sFrom s) + b2n (sTo s))%nat.

(** Weights.cpp:158-172 [transitLineSimi]; [sims] are the similarities of the
    lines of the edge in list order, [noAttrs] the condition of lines 160-161. *)
Fixpoint bestSimi (best : simi) (sims : list simi) : simi :=
  match sims with
  | [] => best
  | s :: t =>
      if sName s && sTo s && sFrom s then s
      else bestSimi (if (simiCount best <? simiCount s)%nat then s else best) t
  end.
Definition transitLineSimi (noAttrs : bool) (sims : list simi) : simi :=
  if noAttrs then mkSimi true true true else bestSimi (mkSimi false false false) sims.

(** Weights.cpp:82-90 (and 94-103, 107-116): one punishment factor; [None] is
    the early return of the maximum. *)
Definition scale (f : Q) (c : Z) : option Z :=
  if Qltb f 1 then Some (Qceiling (Zq c * f))
  else if Qltb 1 f then
    let a := Qround (Zq c * f) in
    if (u32max <? a)%Z then None else Some a
  else Some c.
Definition scaleUnless (similar : bool) (f : Q) (oc : option Z) : option Z :=
  match oc with
  | None => None
  | Some c => if similar then Some c else scale f c
  end.

Section CostFunc.
Variable baseCost : nat -> Z.           (* from->pl().getCost() *)
Variable lineSimis : nat -> list simi.  (* _rAttrs.simi of each line of the edge *)
Variable noAttrs : bool.                (* all routing attributes empty *)
Variable eFrom eTo : nat -> nat.
Variable turnCycle : nat -> bool.
Variable deg : nat -> nat.
Variable sharp : nat -> nat -> nat -> bool.  (* node, from, to: angle below the limit *)
Variable restricted : nat -> bool.
Variable may : nat -> nat -> nat -> bool.    (* from, to, node *)
Variable o : ropts.

(** Weights.h:34-42: [_noLineSimiPen]. *)
Definition noLineSimiPen : bool := noAttrs || Qeq_bool (fName o) 1.

(** Weights.cpp:78-117. *)
Definition lineCost (from : nat) : option Z :=
  let s := transitLineSimi noAttrs (lineSimis from) in
  scaleUnless (sTo s) (fTo o)
    (scaleUnless (sFrom s) (fFrom o)
       (scaleUnless (sName s) (fName o) (Some (baseCost from)))).

(** The mutable members [_lastFrom], [_lastC] (Weights.h:50-51). *)
Definition memo := (option nat * Z)%type.
Definition memo0 : memo := (None, 0%Z).

(** Weights.cpp:123-154: penalties with the overflow checks. *)
Definition addPen (pen c : Z) : option Z :=
  let c' := wrap32 (c + pen) in
  if (c' <=? c)%Z then None else Some c'.
Definition turnPens (c : Z) (from : nat) (tgt : option (nat * nat)) : Z :=
  match tgt with
  | None => c
  | Some (n, to) =>
      if turnCycle n then c else
      let c1 :=
        if negb (fullTurn o =? 0)%Z && (eFrom from =? eTo to) && (eTo from =? eFrom to)
        then addPen (fullTurn o) c
        else if negb (fullTurn o =? 0)%Z && (2 <? deg n) then
               if sharp n from to then addPen (fullTurn o) c else Some c
             else Some c in
      match c1 with
      | None => u32max
      | Some c1 =>
          if (0 <? turnRestr o)%Z && restricted from && negb (may from to n)
          then match addPen (turnRestr o) c1 with None => u32max | Some c2 => c2 end
          else c1
      end
  end.

(** Weights.cpp:65-155 [operator()].  [from = None] is the null pointer; [tgt] is
    the pair of the node and the next edge, both null in calls like
    [cost(e, 0, 0)]. *)
Definition costCall (m : memo) (from : option nat) (tgt : option (nat * nat)) : Z * memo :=
  match from with
  | None => (0%Z, m)
  | Some f =>
      if (baseCost f =? u32max)%Z then (u32max, m)
      else if match fst m with Some l => f =? l | None => false end
           then (turnPens (snd m) f tgt, m)
      else if negb noLineSimiPen then
             match lineCost f with
             | None => (u32max, m)
             | Some c => (turnPens c f tgt, (Some f, c))
             end
      else (turnPens (baseCost f) f tgt, m)
  end.

(** A sequence of evaluations of one cost function object. *)
Fixpoint costRun (m : memo) (calls : list (option nat * option (nat * nat))) : list Z :=
  match calls with
  | [] => []
  | (f, t) :: rest => let '(c, m') := costCall m f t in c :: costRun m' rest
  end.
End CostFunc.

(** ** Distance heuristic, Weights.cpp:15-62 *)
Section Heur.
Variable point : Type.
Variable dist : point -> point -> Q.     (* haversine *)
Variable pos : nat -> point.             (* position of the start node of an edge *)
Variable center : point.                 (* Weights.cpp:18-30, any point *)
Variable maxV : Q.

(** Weights.cpp:32-37. *)
Definition maxCentD (tos : list nat) : Q :=
  fold_left (fun acc e => let cur := dist (pos e) center in
                          if Qltb acc cur then cur else acc) tos 0 / maxV.

(** Weights.cpp:50-61. *)
Definition heurPure (tos : list nat) (a : nat) : Z :=
  let h := Qmax 0 ((dist (pos a) center / maxV - maxCentD tos) * 10) in
  if Qltb (Zq u32max) h then u32max else Qfloor h.

(** Weights.cpp:41-62 with the memo [_lastE], [_lastC]. *)
Definition heurCall (tos : list nat) (m : option nat * Z) (a : nat) : Z * (option nat * Z) :=
  if match fst m with Some l => a =? l | None => false end then (snd m, m)
  else let c := heurPure tos a in (c, (Some a, c)).
Fixpoint heurRun (tos : list nat) (m : option nat * Z) (qs : list nat) : list Z :=
  match qs with
  | [] => []
  | a :: t => let '(c, m') := heurCall tos m a in c :: heurRun tos m' t
  end.
End Heur.
