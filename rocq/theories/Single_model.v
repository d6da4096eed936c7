(** Model of the shape of a single trip (option -T).
    Source: /repo/src/pfaedle/router/ShapeBuilder.cpp:314-334 (shapeL), 366-378
    (shapeify of a trip).  When it is called: Main (PfaedleMain.cpp:340-354).

    Simplifications.
    - As in Pipeline.  The statistics, log output and the colours (thrown away by shapeL)
      are left out.
    - Undefined behaviour is the outcome [None].  shapeL catches std::runtime_error only;
      nothing that is modelled throws one. *)
From Coq Require Import String List Arith ZArith NArith QArith Bool.
From Verif Require Import HopCache_model TripTrie_model Simi_model Cluster_model Router_model Hops_model Ecm_model Shapes_model Workers_model Pipeline_model.
Import ListNotations.
Open Scope nat_scope.

Section Single.
Context {pos C Pt regex : Type}.
Variable W : world pos C Pt.
Variable replace : regex -> string -> string -> string.
Notation trie := (trie pos attrs).
Notation hop := (hop edge Pt).

(** ShapeBuilder.cpp:372-374: the trie of the trip. *)
Definition singleTrie (timeEx : bool) (t : TripTrie_model.trip pos) (a : attrs) : trie :=
  fst (addTrip pos (near _ _ _ W) attrs mergeAttrs (emptySecs _ _ _ W) (emptyTrie pos attrs) t a timeEx false).
(** ShapeBuilder.cpp:375-377: routed without a hop cache; the hops of the first leaf.
    [None]: there is none ([begin()] is dereferenced at the end). *)
Definition shapeifyTrip (timeEx : bool) (t : TripTrie_model.trip pos) (a : attrs) : option (list hop) :=
  match shapeifyTrie W None (singleTrie timeEx t a) with
  | Some ((_, hops) :: _, _) => Some hops
  | _ => None
  end.
(** ShapeBuilder.cpp:314-334.  The attributes are looked up twice (373, 329); the second
    time they are only used for the colours. *)
Definition shapeL (o : copts) (st : cst regex) (t : ftrip pos) : option (list (list Pt)) :=
  match getRAttrs pos regex replace st t with
  | None => None
  | Some (a, _) =>
      match shapeifyTrip (oTimeEx o) (fTrip _ t) a with
      | None => None
      | Some hops =>
          match getGeom edge Pt Nat.eqb (geom _ _ _ W) (isRev _ _ _ W) (fromPt _ _ _ W) (toPt _ _ _ W) (len _ _ _ W)
                  (segment _ _ _ W) (simplify _ _ _ W) hops with
          | None => None
          | Some (lines, _) => Some lines
          end
      end
  end.
End Single.
