(** Model of the hop cache and of the saturating cost addition.
    Source: /repo/src/pfaedle/router/HopCache.cpp, HopCache.h and
    /repo/src/pfaedle/router/Router.tpp:608-629.

    Simplifications: edge pointers are natural numbers; [util::SparseMatrix]
    (submodule, not in the checkout) is assumed to be a map from ordered pairs to
    values with the default 0 that its template argument names (HopCache.h:37);
    it is modelled as an association list with the newest binding first. *)
From Coq Require Import List Arith ZArith NArith Bool Lia.
Import ListNotations.

Definition edge := nat.
Definition u32max : Z := (2 ^ 32 - 1)%Z.
Definition wrap32 (z : Z) : Z := (z mod 2 ^ 32)%Z.

(** HopCache.h:37 [_cache]. *)
Definition cache := list (edge * edge * Z).
Definition emptyCache : cache := [].

(** [SparseMatrix::set] / [SparseMatrix::get] with default 0. *)
Definition cset (c : cache) (a b : edge) (v : Z) : cache := (a, b, v) :: c.
Fixpoint cget (c : cache) (a b : edge) : Z :=
  match c with
  | [] => 0%Z
  | (x, y, v) :: t => if (x =? a) && (y =? b) then v else cget t a b
  end.

(** HopCache.cpp:15-17. *)
Definition setMin (c : cache) (a b : edge) (v : Z) : cache := cset c a b v.
(** HopCache.cpp:20-23. *)
Definition setEx (c : cache) (a b : edge) (v : Z) : cache := cset c a b (- (v + 1))%Z.
(** HopCache.cpp:26-28 (one source, a set of targets in any iteration order). *)
Definition setMinTos (c : cache) (a : edge) (bs : list edge) (v : Z) : cache :=
  fold_left (fun c b => cset c a b v) bs c.
(** HopCache.cpp:31-33 (a set of sources, one target). *)
Definition setMinFrs (c : cache) (as_ : list edge) (b : edge) (v : Z) : cache :=
  fold_left (fun c a => cset c a b v) as_ c.
(** HopCache.cpp:36-40; the first component is converted to uint32_t. *)
Definition get (c : cache) (a b : edge) : Z * bool :=
  let v := cget c a b in
  if (v <? 0)%Z then (wrap32 (- v - 1), true) else (wrap32 v, false).

(** Calls of a client. *)
Inductive cop :=
| SetMin (a b : edge) (v : Z)
| SetEx (a b : edge) (v : Z)
| SetMinTos (a : edge) (bs : list edge) (v : Z)
| SetMinFrs (as_ : list edge) (b : edge) (v : Z).
Definition cstep (c : cache) (o : cop) : cache :=
  match o with
  | SetMin a b v => setMin c a b v
  | SetEx a b v => setEx c a b v
  | SetMinTos a bs v => setMinTos c a bs v
  | SetMinFrs as_ b v => setMinFrs c as_ b v
  end.
Definition crun (ops : list cop) : cache := fold_left cstep ops emptyCache.

(** Router.tpp:610-618 [cacheDrop]. *)
Definition cacheDrop (c : cache) (froms : list edge) (to : edge) (maxCost : Z) : bool :=
  negb (existsb (fun fr => (fst (get c fr to) <=? maxCost)%Z) froms).

(** Router.tpp:622-629 [addNonOverflow], on 32-bit unsigned values. *)
Definition addNonOverflow (a b : Z) : Z :=
  if (a =? u32max)%Z || (b =? u32max)%Z then u32max
  else let res := wrap32 (a + b) in
       if (a <=? res)%Z && (b <=? res)%Z then res else u32max.
