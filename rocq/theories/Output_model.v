(** Model of a run from the feed to the files: the configurations one after the other, each with
    its network, clustering, routing and shapes, all on one feed and one shape container;
    then shapes.txt and stop_times.txt are written.
    Source: /repo/src/pfaedle/PfaedleMain.cpp:256-384 (loop over the configurations), 433-443 (writing),
    router/ShapeBuilder.cpp:381-447 (shapeify), gtfs/Writer.cpp:607-689.

    Pipeline models one configuration, ShapesFile and StopTimesFile the writing with given
    shapes; here they run together.

    Simplifications: shape points are stored as bytes by any function [enc]; a shape with 2^64
    points does not fit into memory; a run whose clustering or shape workers do not get
    to their end under the given schedules has no result. *)
From Coq Require Import String List Arith NArith ZArith QArith Bool.
From Verif Require Import ShapeStore_model HopCache_model TripTrie_model Simi_model Cluster_model Router_model Workers_model Pipeline_model ShapesFile_model StopTimesFile_model.
Import ListNotations.
Open Scope nat_scope.
Open Scope list_scope.

Section Output.
Context {pos C Pt regex X : Type}.
Variable replace : regex -> string -> string -> string.
(** ShapeContainer.tpp:57-75: the bytes of a point. *)
Variable enc : Pt * Q * nat -> pt.
Notation points := (list (Pt * Q * nat)).

(** A configuration that is used (PfaedleMain.cpp:256-261): what its graph and router do, its
    options and normalizers, and how its threads are scheduled. *)
Record config := mkConf {
  cWorld : world pos C Pt; cOpts : copts; cLineN : normalizer regex; cStatN : normalizer regex; cClust : list nat; cWork : list nat
}.
(** ShapeBuilder.cpp:547-560: the points of a leaf as they are stored. *)
Definition encLeaf (l : leaf points Q) : leaf (list pt) Q := mkLeaf _ _ (lTrips _ _ l) (lType _ _ l) (map enc (lPts _ _ l)) (lDists _ _ l).
(** The feed with the shapes its trips have now (ShapeBuilder.cpp:1213-1220 [setShape]). *)
Definition refeed (f : feed pos) (trips : list (Workers_model.trip Q)) : feed pos :=
  mkFeed pos (fStops _ f) (map (fun p => mkFt pos (fTrip _ (fst p)) (tShape _ (snd p)) (fType _ (fst p)) (fRShort _ (fst p)) (fShort _ (fst p)) (fRLong _ (fst p))) (combine (fTrips _ f) trips)).
Definition ended {A} (rest : list (list A)) : bool := forallb (fun r => match r with [] => true | _ => false end) rest.
(** ShapeBuilder.cpp:381-447: what the shape workers of a configuration are to do. *)
Definition phaseOf (g : config) (f : feed pos) : option (phase Q) :=
  match clusterTrips pos (near _ _ _ (cWorld g)) (emptySecs _ _ _ (cWorld g)) regex replace (cOpts g) (mkC _ (cLineN g) (cStatN g) []) f (cClust g) with
  | None => None
  | Some (_, fo, rest) =>
      if ended rest then
        match jobsOf (cWorld g) (map (fType pos) (fTrips _ f)) fo with
        | None => None
        | Some jobs =>
            if forallb (fun l => N.ltb (N.of_nat (length (lPts _ _ l))) (2 ^ 64)) (concat jobs)
            then Some (mkPhase Q (map (map encLeaf) jobs) (oThreads (cOpts g)) (cWork g)) else None
        end
      else None
  end.
(** PfaedleMain.cpp:256-384. *)
Fixpoint runConfigs (cs : list config) (f : feed pos) (trips : list (Workers_model.trip Q)) (ids : list string) (store : list (string * list pt)) (c : cont)
    : option (list (Workers_model.trip Q) * list string * list (string * list pt) * cont) :=
  match cs with
  | [] => Some (trips, ids, store, c)
  | g :: r =>
      match phaseOf g (refeed f trips) with
      | None => None
      | Some ph =>
          match runPhases Q [ph] trips ids store c with
          | None => None
          | Some (trips', ids', store', c') => runConfigs r f trips' ids' store' c'
          end
      end
  end.
(** The whole: the parser registers the shape ids [sids] of the input; then the configurations;
    then the files are written.  [old], [rows]: shapes.txt and stop_times.txt of the input;
    [ids], [seqs]: ids and sequence numbers of the trips.  Result: the trips and both files. *)
Definition outputFiles (wa wb wd : nat) (cs : list config) (f : feed pos) (dists : nat -> list Q) (sids : list string) (old : option (list row))
    (ids : list string) (seqs : list (list N)) (rows : list (strow Q X)) : option (list (Workers_model.trip Q) * list row * list (strow Q X)) :=
  match runConfigs cs f (tripsOf (fTrips _ f) dists 0) sids [] (fold_left apply (map OReg sids) newC) with
  | None => None
  | Some (trips', _, _, c) =>
      match writeShapes wa wb wd c old with
      | None => None
      | Some (shapes, _) =>
          match writeStopTimes Q X (feedOf Q trips' ids seqs) rows with
          | None => None
          | Some rows' => Some (trips', shapes, rows')
          end
      end
  end.
End Output.
