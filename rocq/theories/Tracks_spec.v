(** Specification for the tracks of stations (C86). *)
From Coq Require Import String List Arith NArith ZArith Bool.
From Verif Require Import OsmRead_model OsmRead_spec Attrs_model.
Import ListNotations.
Open Scope nat_scope.
Open Scope list_scope.

(** The steps of the ways, in the order of the file: the way, and the id and graph node of both
    ends; [O] has for each way its used nodes with their graph node (OsmRead_spec.GraphOf). *)
Definition steps_of (ws : list way) (O : list (list (nat * nat))) : list (way * ((nat * nat) * (nat * nat))) :=
  flat_map (fun p => map (fun s => (fst p, s)) (neighbours (snd p))) (combine ws O).
Section Tracks.
Variable trackOf : way -> string.
Variable T : list (way * ((nat * nat) * (nat * nat))).
(** From node [a] to node [b] runs track [t]: the last way with a track on this step says so. *)
Definition edge_track (a b : nat) (t : string) : Prop :=
  exists T1 s T2, T = T1 ++ s :: T2 /\ onStep a b s /\ trackOf (fst s) = t /\ t <> ""%string /\
    forall s', In s' T2 -> onStep a b s' -> trackOf (fst s') = ""%string.
(** Track [t] runs through node [n]. *)
Definition track_at (n : nat) (t : string) : Prop := exists a b, (a = n \/ b = n) /\ edge_track a b t.
(** A way with a track runs through node [n]. *)
Definition on_tracked_way (n : nat) : Prop :=
  exists s, In s T /\ (snd (fst (snd s)) = n \/ snd (snd (snd s)) = n) /\ trackOf (fst s) <> ""%string.

(** Stations without a track get one that runs through them, if there is one; nothing else
    changes. *)
Record tracks_given {P : Type} (s s' : @ngraph P statInfo) : Prop := {
  tg_size : ngSize s' = ngSize s;
  tg_orphans : orphans s' = orphans s;
  tg_pos : forall n, pPos (ngPay s' n) = pPos (ngPay s n);
  tg_other : forall n, (forall i, pState (ngPay s n) <> Station i) -> pState (ngPay s' n) = pState (ngPay s n);
  tg_station : forall n i, pState (ngPay s n) = Station i -> exists j, pState (ngPay s' n) = Station j /\
    siName j = siName i /\ siAlt j = siAlt i /\
    (siTrack i <> ""%string -> siTrack j = siTrack i) /\
    (siTrack i = ""%string -> track_at n (siTrack j) \/ siTrack j = ""%string /\ forall t, ~ track_at n t)
}.
End Tracks.
