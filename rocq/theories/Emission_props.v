(** C80: nearer places do not cost more. *)
From Coq Require Import Ascii String List Arith ZArith QArith Bool Lia.
From Verif Require Import HopCache_model Router_model Ecm_model Ecm_spec Ecm_props Config_model Config_spec Config_props Emission_model Emission_spec Emission_proofs.
Import ListNotations.
Open Scope nat_scope.

(** C80: what a distance costs. *)
Theorem C80_distance : forall m f d, distance_cost m f d (emWeight m f d).
Proof. exact emWeight_ok. Qed.
Print Assumptions C80_distance.

(** C80: whatever a section of the configuration says (options read as numbers that must
    not be negative are not), and whatever is around a stop: the candidates of the stop are
    computed, and of two streets the nearer one is not dearer, of two station nodes that
    match the stop's name and platform alike the nearer one is not dearer, a station whose
    name matches is not dearer than a farther one, and nothing costs less than the
    position of the stop itself.  (Costs are ordered as the numbers they come from.) *)
Theorem C80_nearer_not_dearer : forall split trim V asStr asArr asBool asInt asDouble asPos asDoubles sec c,
  (forall (v : V) y, asPos v = Some y -> (0 <= y)%Q) ->
  readSec split trim V asStr asArr asBool asInt asDouble asPos asDoubles sec = Ok c ->
  forall C lt ofQ P p0 eFr eTo deg outF outB inF inB oneWay enum edist eproj isRev (p : P) platform sts es,
  (forall a b, (a <= b)%Q -> lt (ofQ b) (ofQ a) = false) -> (forall l x, In x (enum l) <-> In x l) ->
  (forall e, (0 <= edist e)%Q) -> (forall nd, In nd sts -> (0 <= sdDist nd)%Q) ->
  exists cs : list (cand C edge P),
  stopCands c C ofQ P p0 eFr eTo deg outF outB inF inB oneWay enum edist eproj isRev p platform sts es = Some cs /\
  nearer_not_dearer lt (oSnapDist (cOsm c)) edist sts es cs.
Proof.
  intros split trim V asStr asArr asBool asInt asDouble asPos asDoubles sec c POS R C lt ofQ P p0 eFr eTo deg outF outB inF inB oneWay enum
    edist eproj isRev p platform sts es MONO EN E0 S0.
  destruct (settings_0 _ _ _ _ _ _ _ _ _ _ POS sec c R) as (A & B & D & F).
  unfold stopCands. edestruct (C34_stop_candidates C ofQ P p0 eFr eTo deg outF outB inF inB oneWay enum EN) as (cs & H & SC).
  exists cs. split; [exact H|]. eapply nearer_ok; [exact MONO| | | | | | |exact SC]; assumption.
Qed.
Print Assumptions C80_nearer_not_dearer.

Notation xSec l := (match xRead (opts l) with Ok c => c | _ => mkC (mkO [] [] [] [] [] [] [] [] [] [] [] [] [] [] (mkLR [] [] [] []) [] [] [] [] 0 0 0 0 0 0 0 [] [] 0 0 0 0 [] [] []) (mkR 0 0 0 0 0 0 0 0 0 0 0 true true true 0 "" "" "") end).
Definition xStop (c : config) := stopCands c Q (fun q => q) nat 0 (fun e => e) S (fun _ => 3) (fun n => n) (fun n => n) (fun n => n) (fun n => n)
    (fun _ => 0) (fun l => l) (fun e => inject_Z (Z.of_nat e)) (fun _ => 0%Q) (fun _ => false) 0 "" [mkStat 40 true "" [101]; mkStat 7 true "" [102]; mkStat 9 false "" [103]] [30; 12].
Notation pens c := (option_map (map (fun x => (cE _ _ _ x, Qred (cPen _ _ _ x)))) (xStop c)).
(** Two streets at 12 and 30 meters, stations at 40, 7 and (another name) 9 meters. *)
Example C80_case : pens (xSec [("routing_station_move_penalty_fac", Num (1 # 2)); ("routing_non_station_penalty", Num 4)]) =
  Some [(None, 0%Q); (Some 101, 20%Q); (Some 102, 7 # 2); (Some 103, 13 # 2); (Some 12, 10%Q); (Some 30, 19%Q)] /\
  of_street (P := nat) [mkStat 40 true "" [101]] 12 (mkCand Q edge nat (Some 12) 10%Q 0%Q 0 0%Z []) /\
  of_station (C := Q) (P := nat) 50%Q (fun e => inject_Z (Z.of_nat e)) [mkStat 40 true "" [101]; mkStat 7 true "" [102]] [30; 12] (mkStat 7 true "" [102]) (mkCand Q edge nat (Some 102) (7 # 2) 0%Q 0 0%Z []).
Proof.
  split; [vm_compute; reflexivity|]. split.
  - split; [reflexivity|]. intros nd [<- |[]] [X|[]]. discriminate X.
  - split; [right; left; reflexivity|]. exists 102. split; [reflexivity|]. split; [left; reflexivity|]. split.
    + intros nd [<- |[<- |[]]] [X|[]]; [discriminate X|reflexivity].
    + intros [[X|[X|[]]] _]; discriminate X.
Qed.

(** Expected, but false: without settings for it, the distance counts.  The factor is 0
    (Misc.h:45) and the default in MotConfigReader.cpp:506-509 is a multiple of that: a
    section that does not set it has every place in reach for nothing. *)
Theorem C80_default_counts_distance_refuted : exists c, xRead (opts []) = Ok c /\ rEmMethod (cRout c) = "exp"%string /\
  (forall d, (emWeight (rEmMethod (cRout c)) (rStatDist (cRout c)) d == 0)%Q) /\
  pens c = Some [(None, 0%Q); (Some 101, 0%Q); (Some 102, 0%Q); (Some 103, 0%Q); (Some 12, 0%Q); (Some 30, 0%Q)].
Proof.
  eexists. split; [vm_compute; reflexivity|]. split; [reflexivity|]. split; [intros d; unfold emWeight; cbn; ring|]. vm_compute. reflexivity.
Qed.
Print Assumptions C80_default_counts_distance_refuted.
