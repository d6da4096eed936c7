(** Property theorems for cost addition and the hop cache (C22). *)
From Coq Require Import List ZArith Lia.
From Verif Require Import HopCache_model HopCache_spec HopCache_proofs.
Import ListNotations.

(** Adding costs is exact or saturates at the "infinite" value, for all 32-bit inputs. *)
Theorem C22_add_saturates : forall a b, (0 <= a <= u32max)%Z -> (0 <= b <= u32max)%Z ->
  addNonOverflow a b = Z.min (a + b) u32max.
Proof. exact addNonOverflow_sat. Qed.
Print Assumptions C22_add_saturates.

(** After every history of stores a lookup yields exactly what was last stored
    for that ordered pair (value and kind), or (0, false) if nothing was. *)
Theorem C22_cache_returns_last_stored : forall ops a b r, u32_cops ops ->
  (get (crun ops) a b = r <-> last_said ops a b r).
Proof.
  intros ops a b r Hu. split.
  - intros <-. exact (get_last_said ops a b Hu).
  - intros H. exact (last_said_fun ops a b _ _ (get_last_said ops a b Hu) H).
Qed.
Print Assumptions C22_cache_returns_last_stored.

(** A target is skipped because of the cache iff the cached value from every
    source exceeds the bound; in particular never if one source was not stored. *)
Theorem C22_drop_needs_all_sources : forall c froms to maxCost,
  cacheDrop c froms to maxCost = true <->
  forall fr, In fr froms -> (maxCost < fst (get c fr to))%Z.
Proof. exact cacheDrop_spec. Qed.
Print Assumptions C22_drop_needs_all_sources.

Definition C22_ops : list cop :=
  [SetEx 1 2 0%Z; SetMinFrs [1; 3] 2 700%Z; SetEx 3 2 u32max; SetMinTos 4 [2; 5] 9%Z].
Example C22_example :
  u32_cops C22_ops /\ get (crun C22_ops) 3 2 = (u32max, true) /\ get (crun C22_ops) 1 2 = (700%Z, false) /\ get (crun C22_ops) 2 1 = (0%Z, false) /\ addNonOverflow 4294967290 10 = u32max.
Proof.
  split; [|repeat split; reflexivity].
  unfold u32_cops, C22_ops, u32max. repeat constructor; cbn; lia.
Qed.
