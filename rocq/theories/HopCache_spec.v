(** Independent reading of the hop cache: what was last stored for a pair. *)
From Coq Require Import List ZArith.
From Verif Require Import HopCache_model.
Import ListNotations.

(** What a call says about the pair (a,b): a value and whether it is exact. *)
Definition says (a b : edge) (o : cop) (r : Z * bool) : Prop :=
  match o with
  | SetMin x y v => x = a /\ y = b /\ r = (v, false)
  | SetEx x y v => x = a /\ y = b /\ r = (v, true)
  | SetMinTos x ys v => x = a /\ In b ys /\ r = (v, false)
  | SetMinFrs xs y v => In a xs /\ y = b /\ r = (v, false)
  end.
Definition cop_val (o : cop) : Z :=
  match o with SetMin _ _ v | SetEx _ _ v | SetMinTos _ _ v | SetMinFrs _ _ v => v end.
(** [r] is what the last call about (a,b) stored; (0,false) if there was none. *)
Definition last_said (ops : list cop) (a b : edge) (r : Z * bool) : Prop :=
  (exists pre o post, ops = pre ++ o :: post /\ says a b o r /\
     forall o' r', In o' post -> ~ says a b o' r')
  \/ (r = (0%Z, false) /\ forall o r', In o ops -> ~ says a b o r').
Definition u32_cops (ops : list cop) : Prop :=
  Forall (fun o => (0 <= cop_val o <= u32max)%Z) ops.
