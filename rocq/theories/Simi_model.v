(** Model of the routing attributes, of the label similarities and of the
    name normaliser.
    Source: /repo/src/pfaedle/router/RoutingAttrs.h:19-103, router/Comp.h:18-88,
    trgraph/StatInfo.cpp:26-45, trgraph/Normalizer.cpp:17-77,
    statsimi-classifier/StatsimiClassifier.cpp:19-107.

    Simplifications: std::string is Coq's [string] (bytes); its order is the
    byte-wise [String.compare] (char_traits<char> compares as unsigned char).
    Edit distances, token similarities (util, not in the checkout), the geographic
    decay factor, std::regex and its replacement are oracles.  Scores are exact
    rationals; NaN and infinity, which the quotients can yield, are explicit. *)
From Coq Require Import String Ascii List Arith NArith QArith Bool.
Import ListNotations.
Local Open Scope nat_scope.

(** * Similarity of labels *)

(** [a.compare(pos, n, s) == 0] (std::string), [pos <= a.size()] at all uses. *)
Definition cmpAt (a : string) (pos n : nat) (s : string) : bool := String.eqb (substring pos n a) s.

(** Comp.h:28-38 / 65-75: [a] begins or ends with [b], separated by a blank. *)
Definition extends (a b : string) : bool :=
  (String.length b + 1 <? String.length a) &&
  (cmpAt a 0 (String.length b + 1) (b ++ " ") ||
   cmpAt a (String.length a - (String.length b + 1)) (String.length b + 1) (" " ++ b)).

(** Comp.h:60-88 [lineSimi]. *)
Definition lineSimi (a b : string) : bool :=
  if String.eqb a b then true
  else if String.eqb a "" || String.eqb b "" then false
  else extends a b || extends b a.

(** Comp.h:19-57 [statSimi]; [ed] is util's editDist.  Simplification: the
    quotient of two integers is compared with 0.05 exactly. *)
Definition statSimi (ed : string -> string -> nat) (a b : string) : bool :=
  if String.eqb a b then true
  else if String.eqb a "" || String.eqb b "" then false
  else extends a b || extends b a ||
       (20 * ed a b <? Nat.max (String.length a) (String.length b)).

(** StatInfo.h:19-62. *)
Record statInfo := mkSI { siName : string; siAlts : list string; siTrack : string }.
(** StatInfo.cpp:26-45 [simi]; [None] is the null pointer. *)
Definition siSimi (ed : string -> string -> nat) (a : statInfo) (other : option statInfo) : bool :=
  match other with
  | None => false
  | Some b =>
      statSimi ed (siName a) (siName b) ||
      existsb (fun x => statSimi ed x (siName b) || existsb (fun y => statSimi ed x y) (siAlts b)) (siAlts a) ||
      existsb (fun y => statSimi ed (siName a) y) (siAlts b)
  end.

(** * Station name classifiers *)

(** A non-negative double: finite, infinite or NaN. *)
Inductive dbl := Fin (q : Q) | Inf | NaN.
(** Division of two integers as doubles. *)
Definition divD (n d : nat) : dbl :=
  if d =? 0 then (if n =? 0 then NaN else Inf) else Fin (inject_Z (Z.of_nat n) / inject_Z (Z.of_nat d)).
(** fmin: a NaN operand is ignored. *)
Definition fminD (a b : dbl) : dbl :=
  match a, b with
  | NaN, x => x
  | x, NaN => x
  | Inf, x => x
  | x, Inf => x
  | Fin p, Fin q => Fin (if Qle_bool p q then p else q)
  end.
(** [1 - x > t]. *)
Definition compl_gt (x : dbl) (t : Q) : bool :=
  match x with Fin q => negb (Qle_bool (1 - q) t) | _ => false end.

Section Classifiers.
Variable jacc bts : string -> string -> Q.
Variable ed ped : string -> string -> nat.
Variable pos : Type.
Variable decay : pos -> pos -> Q.   (* exp(-THRES_M * haversine) *)

Definition Qgt_bool (a b : Q) : bool := negb (Qle_bool a b).
(** StatsimiClassifier.cpp:39-42, 53-56. *)
Definition jaccSimilar (a b : string) : bool := Qgt_bool (jacc a b) (45 # 100).
(** StatsimiClassifier.cpp:24-35: the stretched Jaccard value. *)
Definition stretch (j : Q) : Q :=
  (if Qgt_bool j (1 # 2) then (1 # 2) + (j - (1 # 2)) / (2 * (1 - (1 # 2))) else j / (2 * (1 # 2)))%Q.
(** StatsimiClassifier.cpp:19-36. *)
Definition geoScore (a : string) (pa : pos) (b : string) (pb : pos) : Q :=
  ((decay pa pb + stretch (jacc a b)) / 2)%Q.
Definition geoSimilar (a : string) (pa : pos) (b : string) (pb : pos) : bool :=
  Qgt_bool (geoScore a pa b pb) (1 # 2).
(** StatsimiClassifier.cpp:67-70. *)
Definition btsSimilar (a b : string) : bool := Qgt_bool (bts a b) (85 # 100).
(** StatsimiClassifier.cpp:81-86. *)
Definition edSimilar (a b : string) : bool :=
  compl_gt (divD (ed a b) (Nat.max (String.length a) (String.length b))) (85 # 100).
(** StatsimiClassifier.cpp:97-103. *)
Definition pedSimilar (a b : string) : bool :=
  compl_gt (fminD (divD (ped a b) (String.length a)) (divD (ped b a) (String.length b))) (875 # 1000).
End Classifiers.

(** * Routing attributes *)

(** RoutingAttrs.h:32-46; the memo table is a separate argument below. *)
Record attrs := mkAttrs { shortName : string; lineFrom : string; lineTo : list string }.

(** RoutingAttrs.h:88-90 [==], 96-99 [<]. *)
Definition attrsEq (a b : attrs) : bool :=
  String.eqb (shortName a) (shortName b) && String.eqb (lineFrom a) (lineFrom b).
Definition attrsLt (a b : attrs) : bool :=
  String.ltb (lineFrom a) (lineFrom b) ||
  (String.eqb (lineFrom a) (lineFrom b) && String.ltb (shortName a) (shortName b)).

(** std::lower_bound on a vector: halving of [first, first + len); [fuel] bounds the
    number of steps by the length. *)
Fixpoint lowerBound (fuel : nat) (l : list string) (first len : nat) (v : string) : nat :=
  match fuel with
  | 0 => first
  | S f =>
      if len =? 0 then first
      else let half := len / 2 in
           match nth_error l (first + half) with
           | Some x => if String.ltb x v then lowerBound f l (first + half + 1) (len - half - 1) v
                       else lowerBound f l first half v
           | None => first
           end
  end.
(** std::vector::insert. *)
Definition insertAt (l : list string) (i : nat) (v : string) : list string := firstn i l ++ v :: skipn i l.
(** RoutingAttrs.h:80-84: the loop body of [merge]. *)
Definition mergeOne (l : list string) (v : string) : list string :=
  let i := lowerBound (List.length l) l 0 (List.length l) v in
  match nth_error l i with
  | Some x => if String.eqb x v then l else insertAt l i v
  | None => insertAt l i v
  end.
(** RoutingAttrs.h:76-85 [merge]; the assertions are preconditions. *)
Definition mergeAttrs (a b : attrs) : attrs :=
  mkAttrs (shortName a) (lineFrom a) (fold_left mergeOne (lineTo b) (lineTo a)).

(** trgraph/EdgePL.h:19-28 [TransitEdgeLine] (the colour is not read here). *)
Record line := mkLine { lFrom : string; lTo : string; lShort : string }.
(** RoutingAttrs.h:19-23 [LineSimilarity]. *)
Record lsimi := mkLS { nameSim : bool; fromSim : bool; toSim : bool }.
Section SimiCall.
Variable similar : string -> string -> bool.   (* classifier->similar *)
Variable lines : nat -> line.                  (* the line behind a pointer *)

(** RoutingAttrs.h:55-72: the computed value. *)
Definition simiCompute (a : attrs) (l : line) : lsimi :=
  mkLS (String.eqb (shortName a) "" || lineSimi (lShort l) (shortName a))
       (String.eqb (lineFrom a) "" || similar (lFrom l) (lineFrom a))
       (match lineTo a with
        | [] => true
        | _ => existsb (fun t => String.eqb t "" || similar (lTo l) t) (lineTo a)
        end).

Definition memo := list (nat * lsimi).
Fixpoint memoGet (m : memo) (p : nat) : option lsimi :=
  match m with
  | [] => None
  | (q, v) :: t => if q =? p then Some v else memoGet t p
  end.
(** RoutingAttrs.h:48-75 [simi]. *)
Definition simiCall (a : attrs) (m : memo) (p : nat) : lsimi * memo :=
  let l := lines p in
  if String.eqb (lShort l) "" && String.eqb (lTo l) "" && String.eqb (lFrom l) ""
  then (mkLS true true true, m)
  else match memoGet m p with
       | Some v => (v, m)
       | None => let v := simiCompute a l in (v, (p, v) :: m)
       end.

(** A client's calls on one attributes object: queries and merges. *)
Inductive acall := Ask (p : nat) | Merge (b : attrs).
Fixpoint runAttrs (a : attrs) (m : memo) (cs : list acall) : attrs * memo * list lsimi :=
  match cs with
  | [] => (a, m, [])
  | Ask p :: t => let '(v, m1) := simiCall a m p in
                  let '(r, vs) := runAttrs a m1 t in (r, v :: vs)
  | Merge b :: t => runAttrs (mergeAttrs a b) m t
  end.
End SimiCall.

(** * Name normaliser *)

Section Normalizer.
Variable regex : Type.
Variable compile : string -> option regex.                   (* std::regex(..), None = regex_error *)
Variable replace : regex -> string -> string -> string.      (* regex_replace with format_sed *)

(** ::tolower on one char, "C" locale. *)
Definition lowerChar (c : ascii) : ascii :=
  let n := N_of_ascii c in
  if ((65 <=? n) && (n <=? 90))%N then ascii_of_N (n + 32) else c.
Fixpoint lower (s : string) : string :=
  match s with
  | EmptyString => EmptyString
  | String c t => String (lowerChar c) (lower t)
  end.

(** Normalizer.h:43-50. *)
Record normalizer := mkNorm {
  nRules : list (regex * string);
  nOrig : list (string * string);
  nCache : list (string * string)
}.

(** Normalizer.cpp:64-77 [buildRules]; [None] = std::runtime_error. *)
Fixpoint buildRules (rules : list (string * string)) : option (list (regex * string)) :=
  match rules with
  | [] => Some []
  | (p, f) :: t =>
      match compile p with
      | None => None
      | Some re => match buildRules t with None => None | Some rs => Some ((re, f) :: rs) end
      end
  end.
(** Normalizer.cpp:17-20; Normalizer.h:28. *)
Definition newNorm (rules : list (string * string)) : option normalizer :=
  match buildRules rules with None => None | Some rs => Some (mkNorm rs rules []) end.
Definition defaultNorm : normalizer := mkNorm [] [] [].

Fixpoint cacheGet (c : list (string * string)) (s : string) : option string :=
  match c with
  | [] => None
  | (k, v) :: t => if String.eqb k s then Some v else cacheGet t s
  end.
(** Normalizer.cpp:38-57 [norm]. *)
Definition norm (n : normalizer) (s : string) : string * normalizer :=
  match cacheGet (nCache n) s with
  | Some v => (v, n)
  | None =>
      let r := lower (fold_left (fun x rule => replace (fst rule) (snd rule) x) (nRules n) s) in
      (r, mkNorm (nRules n) (nOrig n) ((s, r) :: nCache n))
  end.
(** Normalizer.cpp:60-62 [==]. *)
Definition pair_eqb (a b : string * string) : bool := String.eqb (fst a) (fst b) && String.eqb (snd a) (snd b).
Fixpoint rules_eqb (a b : list (string * string)) : bool :=
  match a, b with
  | [], [] => true
  | x :: a', y :: b' => pair_eqb x y && rules_eqb a' b'
  | _, _ => false
  end.
Definition normEq (a b : normalizer) : bool := rules_eqb (nOrig a) (nOrig b).

(** A client's operations on a set of normaliser objects (numbered in order of
    creation): construction, copy construction (Normalizer.cpp:23-27), assignment
    (30-36: pass by value and swap) and normalisation. *)
Inductive nop :=
| ONew (rules : list (string * string))
| ODefault
| OCopy (i : nat)
| OAssign (i j : nat)
| ONorm (i : nat) (s : string).
Inductive nout := Done | Thrown | NoObj | Text (s : string).
Definition setAt {A} (l : list A) (i : nat) (x : A) : list A :=
  match nth_error l i with Some _ => firstn i l ++ x :: skipn (S i) l | None => l end.
Definition stepNorm (st : list normalizer) (op : nop) : list normalizer * nout :=
  match op with
  | ONew rules => match newNorm rules with Some n => (st ++ [n], Done) | None => (st, Thrown) end
  | ODefault => (st ++ [defaultNorm], Done)
  | OCopy i => match nth_error st i with
               | Some n => (st ++ [mkNorm (nRules n) (nOrig n) (nCache n)], Done)
               | None => (st, NoObj)
               end
  | OAssign i j => match nth_error st i, nth_error st j with
                   | Some _, Some n => (setAt st i (mkNorm (nRules n) (nOrig n) (nCache n)), Done)
                   | _, _ => (st, NoObj)
                   end
  | ONorm i s => match nth_error st i with
                 | Some n => let '(r, n') := norm n s in (setAt st i n', Text r)
                 | None => (st, NoObj)
                 end
  end.
Fixpoint runNorm (st : list normalizer) (ops : list nop) : list normalizer * list nout :=
  match ops with
  | [] => (st, [])
  | op :: t => let '(st1, o) := stepNorm st op in
               let '(st2, os) := runNorm st1 t in (st2, o :: os)
  end.
End Normalizer.
