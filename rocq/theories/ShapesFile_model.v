(** Model of a whole run from the shape ids of the input feed to the shapes.txt written:
    the workers of every configuration, one after the other, use one shape container,
    which is then written.
    Source: /repo/src/pfaedle/PfaedleMain.cpp:256-384 (loop over the configurations; a
    new ShapeBuilder for each, so that the counter of the ids starts again), 433-443
    (writing), /repo/src/pfaedle/router/ShapeBuilder.cpp:70 ([_curShpCnt] is 0 at first),
    ShapeBuilder.cpp:1160-1226 (shapeWorker), ShapeContainer.tpp, Writer.cpp:607-641.

    Workers models the threads, ShapeStore the container; here the two run together. *)
From Coq Require Import String List Arith NArith Bool.
From Verif Require Import ListAux ShapeStore_model Workers_model.
Import ListNotations.
Open Scope nat_scope.

Section ShapesFile.
Variable D : Type.
Notation leaf := (leaf (list pt) D).
Notation trip := (trip D).
Notation pc := (pc (list pt) D).
Notation shared := (shared (list pt) D).

(** The calls of the container in a step of a worker: ShapeBuilder.cpp:1218 ([remove]),
    559 ([add]). *)
Definition calls (p : pc) (s : shared) : list op :=
  match p with
  | PRem _ _ _ _ t _ _ => match nth_error (sTrips _ _ s) t with Some x => [ORemove (tShape _ x)] | None => [] end
  | PAdd _ _ id l _ _ _ => [OAdd id (lPts _ _ l)]
  | _ => []
  end.
(** The threads and the container. *)
Fixpoint runC (jobs : list (list leaf)) (sched : list nat) (ths : list pc) (s : shared) (c : cont) : option (list pc * shared * cont) :=
  match sched with
  | [] => Some (ths, s, c)
  | i :: r =>
      match nth_error ths i with
      | None => runC jobs r ths s c
      | Some p => match step _ _ jobs p s with
                  | None => None
                  | Some (p', s') => runC jobs r (upd i (fun _ => p') ths) s' (fold_left apply (calls p s) c)
                  end
      end
  end.

(** A configuration: its forests, the number of threads, how these are scheduled. *)
Record phase := mkPhase { phJobs : list (list leaf); phN : nat; phSched : list nat }.
Definition isDone (p : pc) : bool := match p with PDone _ _ => true | _ => false end.
(** The loop over the configurations; [None]: undefined behaviour, or the schedule ends
    before the threads do. *)
Fixpoint runPhases (phs : list phase) (trips : list trip) (ids : list string) (store : list (string * list pt)) (c : cont)
    : option (list trip * list string * list (string * list pt) * cont) :=
  match phs with
  | [] => Some (trips, ids, store, c)
  | ph :: r =>
      let st := start (list pt) D (phN ph) 0 ids store trips in
      match runC (phJobs ph) (phSched ph) (fst st) (snd st) c with
      | None => None
      | Some (ths, s, c') => if forallb isDone ths then runPhases r (sTrips _ _ s) (sIds _ _ s) (sStore _ _ s) c' else None
      end
  end.
(** The whole: the parser registers the id of every shape of the input ([ids]); then the
    configurations; then shapes.txt is written.  Result: the trips and the rows written. *)
Definition wholeRun (wa wb wd : nat) (phs : list phase) (trips : list trip) (ids : list string) (old : option (list row))
    : option (list trip * list row) :=
  match runPhases phs trips ids [] (fold_left apply (map OReg ids) newC) with
  | None => None
  | Some (trips', _, _, c) =>
      match writeShapes wa wb wd c old with
      | None => None
      | Some (rows, _) => Some (trips', rows)
      end
  end.
End ShapesFile.
