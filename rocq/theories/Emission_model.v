(** Model of what a stop's candidates cost under the settings of a section of the
    configuration.
    Source: /repo/src/pfaedle/router/ShapeBuilder.cpp:1263-1274 (emWeight), 156-280
    (getEdgCands, modelled in Ecm_model), config/MotConfigReader.cpp (Config_model).

    Simplification: numbers are rational, see Ecm_model and Config_model. *)
From Coq Require Import Ascii String List Arith QArith Bool.
From Verif Require Import HopCache_model Router_model Ecm_model Config_model.
Import ListNotations.
Open Scope nat_scope.

(** ShapeBuilder.cpp:1263-1274; [m] is emPenMethod, [f] is stationDistPenFactor. *)
Definition emWeight (m : string) (f : Q) (d : Q) : Q :=
  if String.eqb m "exp" then (d * f)%Q
  else if String.eqb m "norm" then let s := (d * f)%Q in ((1 # 2) * s * s)%Q
  else d.

(** ShapeBuilder.cpp:156-280 with the options of [c]: 168 maxStationCandDistance, 194
    useStations, 208 stationUnmatchedPen, 215 platformUnmatchedPen, 229 maxSnapDistance,
    266 nonStationPen. *)
Definition stopCands (c : config) C ofQ P p0 eFr eTo deg outF outB inF inB oneWay enum edist eproj isRev (p : P) platform sts es :=
  getEdgCands C ofQ P p0 eFr eTo deg outF outB inF inB oneWay enum
    (oCandDist (cOsm c)) (oSnapDist (cOsm c)) (rStatUnmatched (cRout c)) (rPlatform (cRout c)) (rNonStation (cRout c))
    (rUseStations (cRout c)) (emWeight (rEmMethod (cRout c)) (rStatDist (cRout c))) edist eproj isRev p platform sts es.
