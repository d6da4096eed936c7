(** Property theorems for the OSM id set (C01-C03). *)
From Coq Require Import List Arith NArith Bool Lia Sorting.Sorted Permutation.
From Verif Require Import IdSet_model IdSet_spec IdSet_proofs.
Import ListNotations.

(** C01 + C02: every history of calls (any order, any interleaving of adds,
    exclusions and queries, any number of ids, any block size and sort buffer
    size, any hash) runs without undefined behaviour and every outcome conforms
    to [IdSet_spec.conforms]: added ids are found, ids not added are not found
    when nothing was excluded or the id itself was excluded, and mutations after
    the first query are rejected. *)
Theorem C01_idset_conforms :
  forall (B S_ : nat) (murmur : N -> N), 1 <= B -> 1 <= S_ ->
  forall ops, u64_ops ops ->
  exists s' outs, run B S_ murmur initSet ops = Some (s', outs) /\
                  conforms [] [] false ops outs.
Proof. intros B S_ murmur HB HS ops Hu. exact (run_conforms B S_ HB HS murmur ops Hu). Qed.
Print Assumptions C01_idset_conforms.

(** Direct form of C01: after [pre] (adds, exclusions) and any queries [qs], a
    query for an added id answers [true]. *)
Theorem C01_no_false_negative :
  forall (B S_ : nat) (murmur : N -> N), 1 <= B -> 1 <= S_ ->
  forall pre qs id,
  (forall o, In o pre -> match o with OpHas _ => False | _ => True end) ->
  u64_ops pre -> u64_ops (map OpHas qs) -> In (OpAdd id) pre ->
  exists s outs s', run B S_ murmur initSet (pre ++ map OpHas qs) = Some (s, outs) /\
                    step B S_ murmur s (OpHas id) = Some (s', Answer true).
Proof.
  intros B S_ murmur HB HS pre qs id H1 H2 H3 H4.
  exact (no_false_negative B S_ HB HS murmur pre qs id H1 H2 H3 H4).
Qed.
Print Assumptions C01_no_false_negative.

(** Direct form of C02 for sets without exclusions: membership is exact. *)
Theorem C02_exact_without_exclusions :
  forall (B S_ : nat) (murmur : N -> N), 1 <= B -> 1 <= S_ ->
  forall added qs id,
  u64_ops (map OpAdd added) -> u64_ops (map OpHas qs) -> (id < 2 ^ 64)%N ->
  exists s outs s' b, run B S_ murmur initSet (map OpAdd added ++ map OpHas qs) = Some (s, outs) /\
                    step B S_ murmur s (OpHas id) = Some (s', Answer b) /\
                    (b = true <-> In id added).
Proof.
  intros B S_ murmur HB HS added qs id H1 H2 H3.
  exact (exact_without_exclusions B S_ HB HS murmur added qs id H1 H2 H3).
Qed.
Print Assumptions C02_exact_without_exclusions.

(** Direct form of C02 with exclusions: an excluded id that was not added is
    reported absent. *)
Theorem C02_exact_for_excluded :
  forall (B S_ : nat) (murmur : N -> N), 1 <= B -> 1 <= S_ ->
  forall pre qs id,
  (forall o, In o pre -> match o with OpHas _ => False | _ => True end) ->
  u64_ops pre -> u64_ops (map OpHas qs) ->
  ~ In (OpAdd id) pre -> In (OpNadd id) pre ->
  exists s outs s', run B S_ murmur initSet (pre ++ map OpHas qs) = Some (s, outs) /\
                    step B S_ murmur s (OpHas id) = Some (s', Answer false).
Proof.
  intros B S_ murmur HB HS pre qs id H1 H2 H3 H4 H5.
  exact (exact_for_excluded B S_ HB HS murmur pre qs id H1 H2 H3 H4 H5).
Qed.
Print Assumptions C02_exact_for_excluded.

(** The unrestricted statement "membership is exact for every id" is false: with
    the real block sizes and the real hash (MurmurHash3, seed 469954432), after
    add 1, add 4000000000, nadd 2, the id 22397623 (never mentioned) is found. *)
Theorem C02_exact_for_all_refuted :
  exists ops id s outs s',
    u64_ops ops /\ ~ In (OpAdd id) ops /\ (id < 2 ^ 64)%N /\
    run (N.to_nat 65536) (N.to_nat 65536) murmur3 initSet ops = Some (s, outs) /\
    step (N.to_nat 65536) (N.to_nat 65536) murmur3 s (OpHas id) = Some (s', Answer true).
Proof. exact exact_for_all_refuted. Qed.
Print Assumptions C02_exact_for_all_refuted.

(** C03: after any history containing a query, the backing file is an ascending
    permutation of the added ids and the k-th block end is the last id of the
    k-th full block. *)
Theorem C03_file_sorted_complete :
  forall (B S_ : nat) (murmur : N -> N), 1 <= B -> 1 <= S_ ->
  forall ops s' outs, u64_ops ops -> (exists id, In (OpHas id) ops) ->
  run B S_ murmur initSet ops = Some (s', outs) ->
  StronglySorted N.le (file s') /\ Permutation (file s') (added_of ops) /\
  (forall k, (k + 1) * B <= length (file s') ->
     nth_error (blockEnds s') k = nth_error (file s') (k * B + (B - 1))).
Proof.
  intros B S_ murmur HB HS ops s' outs Hu Hq Hr.
  exact (file_sorted_props B S_ HB HS murmur ops s' outs Hu Hq Hr).
Qed.
Print Assumptions C03_file_sorted_complete.

(** Hypotheses are met: an out-of-order history with block size 2, sort buffer 3. *)
Example idset_example :
  u64_ops [OpAdd 9; OpAdd 4; OpNadd 7; OpAdd 11; OpAdd 4; OpAdd 2; OpHas 4; OpAdd 3; OpHas 7]%N /\
  match run 2 3 (fun x => (x * 7919)%N) initSet
    [OpAdd 9; OpAdd 4; OpNadd 7; OpAdd 11; OpAdd 4; OpAdd 2; OpHas 4; OpAdd 3; OpHas 7]%N with
  | Some (s, outs) =>
      outs = [Done; Done; Done; Done; Done; Done; Answer true; Thrown; Answer false] /\
      file s = [2; 4; 4; 9; 11]%N /\ blockEnds s = [4; 9]%N
  | None => False
  end.
Proof. split; [repeat constructor; cbn; discriminate|]. vm_compute. auto. Qed.
