(** Model of the transition penalties and of the limit for the search between two stops.
    Source: /repo/src/pfaedle/router/Weights.cpp:174-259, Weights.h:72-161 (which functions each method uses),
    /repo/src/pfaedle/router/Router.tpp:55-62, 84-97, 107-113, 487-489,
    /repo/src/pfaedle/PfaedleMain.cpp:314-333 (choice of the method).

    Simplifications: doubles are exact rationals, with infinity and NaN where the code can reach them; a
    conversion of a value out of range to uint32_t is the outcome [None] (undefined). *)
From Coq Require Import String List Arith ZArith QArith Qround Qminmax Qabs Bool.
From Verif Require Import Weights_model.
Import ListNotations.
Open Scope nat_scope.

(** PfaedleMain.cpp:314-333; the variants without a heuristic differ in DistHeur only. *)
Inductive method := Exp | DistDiff | TimeNorm.
Definition methodOf (s : string) : option method :=
  if String.eqb s "exp" then Some Exp else if String.eqb s "distdiff" then Some DistDiff else if String.eqb s "timenorm" then Some TimeNorm else None.
(** Weights.h:78-79, 106-107, 135-136 *)
Definition allowsFast (m : method) : bool := match m with Exp => true | _ => false end.
Definition needsDist (m : method) : bool := match m with DistDiff => true | _ => false end.

(** ** Costs: [None] is infinity *)
Notation cost := (option Q).
Definition ltC (a b : cost) : bool := match a, b with Some x, Some y => Qltb x y | Some _, None => true | None, _ => false end.
Definition addC (a b : cost) : cost := match a, b with Some x, Some y => Some (x + y)%Q | _, _ => None end.

(** Weights.cpp:174-181 *)
Definition expWeight (pen : Q) (c : Z) : Q := (pen * Zq c / 10)%Q.
(** Weights.cpp:199-223 *)
Definition normWeight (pen : Q) (c : Z) (t0 : Q) : cost :=
  let t := (Zq c / 10)%Q in
  if Qltb t0 0 then None
  else let t0 := Qmax 10 t0 in
       let cNorm := ((t / t0 - 1) / 1)%Q in
       Some (cNorm * cNorm + expWeight pen c)%Q.
(** Weights.cpp:235-244 *)
Definition distWeight (pen d d0 : Q) : Q := (pen * Qabs (d - d0))%Q.
(** Weights.cpp:174-244 [TW::weight]: cost, length of the path, time between the stops, distance of the stops *)
Definition weight (m : method) (pen : Q) (c : Z) (d t0 d0 : Q) : cost :=
  match m with
  | Exp => Some (expWeight pen c)
  | TimeNorm => normWeight pen c t0
  | DistDiff => Some (distWeight pen d d0)
  end.

(** Conversion of a whole number to uint32_t, as at the returns in Weights.cpp:185, 192 *)
Definition toU32 (z : Z) : option Z := if (0 <=? z)%Z && (z <=? u32max)%Z then Some z else None.
(** std::round (Weights.cpp:185): half away from zero *)
Definition roundAway (q : Q) : Z := if Qle_bool 0 q then Qfloor (q + (1 # 2)) else Qceiling (q - (1 # 2)).
Inductive inv := Value (z : Z) | Undefined | Throws.
(** Weights.cpp:183-186, 225-231, 246-252 *)
Definition invWeight (m : method) (pen c : Q) : inv :=
  match m with
  | Exp => if Qeq_bool pen 0 then Undefined
           else match toU32 (roundAway (c / pen * 10)) with Some z => Value z | None => Undefined end
  | _ => Throws
  end.

(** ** The limit *)
Inductive dbl := Fin (q : Q) | Inf | NaN.
(** Weights.cpp:188-195, 254-259 [maxCost]; the time norm inherits it (Weights.h:101); fmax ignores NaN *)
Definition maxCost (m : method) (o : ropts) (t : dbl) : option Z :=
  match m with
  | DistDiff => Some u32max
  | _ =>
      match t with
      | Inf => None
      | NaN => toU32 (Qceiling (60 * 3 * fName o * fTo o * fFrom o * 10))
      | Fin q => toU32 (Qceiling (Qmax q 60 * 3 * fName o * fTo o * fFrom o * 10))
      end
  end.
(** Router.tpp:56-62: the greatest speed of the components of the candidates; [None]: a candidate without an edge *)
Definition maxSpeed (cands : list (option Q)) : Q :=
  fold_left (fun m c => match c with Some v => if Qltb m v then v else m | None => m end) cands 0%Q.
(** Router.tpp:91 *)
Definition minTime (hopDist v : Q) : dbl :=
  if Qeq_bool v 0 then (if Qeq_bool hopDist 0 then NaN else Inf) else Fin (hopDist / v).
(** Router.tpp:83-94 *)
Definition hopTime (depT arrT hopDist : Q) (cands : list (option Q)) : dbl :=
  let t := (arrT - depT)%Q in
  match minTime hopDist (maxSpeed cands) with
  | Fin m => if Qltb t m then Fin m else Fin t
  | Inf => Inf
  | NaN => Fin t
  end.
(** Router.tpp:96 *)
Definition limit (m : method) (o : ropts) (depT arrT hopDist : Q) (cands : list (option Q)) : option Z :=
  maxCost m o (hopTime depT arrT hopDist cands).
(** Router.tpp:107, 487-488: the fast search, which is the only one to use invWeight *)
Definition usesFast (m : method) (noFastHops : bool) : bool := negb (noFastHops || negb (allowsFast m)).
(** Router.tpp:119-130: the weight of a move in the search over the candidates; [dist]: distance of the stops of two
    trie nodes (88-89); [c], [d], [t]: cost, length and time between the candidates *)
Definition moveWeight (m : method) (pen : Q) (dist : nat -> nat -> Q) (p n : nat) (c d t : Z) : cost :=
  weight m pen c (if needsDist m then Zq d else 0%Q) (Zq t) (dist p n).
