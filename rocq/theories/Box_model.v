(** Model of the area of the OSM data that is read for a feed.
    Source: /repo/src/pfaedle/router/ShapeBuilder.cpp:656-731 (getGtfsBox),
    /repo/src/pfaedle/PfaedleMain.cpp:188-202, 218-223 (area of an extract), 276-279 (area of a
    configuration), /repo/src/pfaedle/router/Router.h:35.

    Simplifications.
    - Feed, trips and stop times are those of Cluster_model and TripTrie_model, with positions
      (longitude, latitude) in whole numbers; the index is that of BBoxIdx_model.
    - Doubles are rationals; the haversine distance is an oracle.  A speed of 0 is excluded by
      hypotheses (x / 0 is 0 here and an infinity or NaN in the code).
    - Log messages are left out. *)
From Coq Require Import String List Arith ZArith QArith Bool.
From Verif Require Import TripTrie_model Cluster_model BBoxIdx_model.
Import ListNotations.
Open Scope nat_scope.

Notation pt := (Z * Z)%type.
(** [a < b] on doubles. *)
Definition Qlt_bool (a b : Q) : bool := negb (Qle_bool b a).

Section Box.
Variable M : Z.
Variable pad : box -> box.
Variable area : box -> box -> Z.
Variable hav : pt -> pt -> Q.
Variable emptySecs : Z.          (* seconds() of an empty time, see TripTrie_model *)
Notation stime := (stime pt).
Notation ftrip := (ftrip pt).

(** Router.h:35; ShapeBuilder.cpp:672-675, 698 *)
Definition STEPS : Z := 3.
Definition INT_MAX : Z := 2147483647.
Definition BUFFER : Z := 300.
Definition secs (t : option Z) : Z := match t with Some z => z | None => emptySecs end.
Definition spos (s : stime) : pt := sPos _ (stStop _ s).

(** 677-685 (time and distance to the stop), 687-694 (from the stop) *)
Definition toTD (prev : option stime) (st : stime) : Z * Q :=
  match prev with None => (INT_MAX, 0%Q) | Some p => (secs (stArr _ st) - secs (stDep _ p), hav (spos st) (spos p))%Z end.
Definition fromTD (st : stime) (next : option stime) : Z * Q :=
  match next with None => (INT_MAX, 0%Q) | Some n => (secs (stArr _ n) - secs (stDep _ st), hav (spos st) (spos n))%Z end.
(** 696-697, 701: [req > (BUFFER + time) * 3 * STEPS] *)
Definition late (v : Q) (td : Z * Q) : bool := Qlt_bool (inject_Z ((BUFFER + fst td) * 3 * STEPS)) (snd td / v).
(** 701-720: the stop is skipped *)
Definition skipStop (v : Q) (prev : option stime) (st : stime) (next : option stime) : bool := late v (toTD prev st) && late v (fromTD st next).
(** util::geo::extendBox(point, box) *)
Definition ptBox (p : pt) : box := mkBox (fst p) (snd p) (fst p) (snd p).
(** 667-726: the box of a trip, and the hop distances (684) *)
Fixpoint tripBox (v : Q) (prev : option stime) (sts : list stime) (cur : box) (ds : list Q) : box * list Q :=
  match sts with
  | [] => (cur, ds)
  | st :: rest =>
      let ds' := match prev with None => ds | Some _ => ds ++ [snd (toTD prev st)] end in
      tripBox v (Some st) rest (if skipStop v prev st (hd_error rest) then cur else extendBox (ptBox (spos st)) cur) ds'
  end.
(** 662-664, 666: the trips that are left out; [tid = None] for an empty trip id *)
Definition boxSkips (mots : list nat) (tid : option nat) (drop : bool) (t : ftrip) : bool :=
  match tid with
  | Some k => negb (tId _ (fTrip _ t) =? k)
  | None => negb (String.eqb (fShape _ t) "") && negb drop
  end || (List.length (tSts _ (fTrip _ t)) <? 2) || negb (existsb (Nat.eqb (fType _ t)) mots).
(** 656-731 [getGtfsBox] *)
Definition gtfsBox (trips : list ftrip) (mots : list nat) (tid : option nat) (drop : bool) (v : Q) (st : idx * list Q) : idx * list Q :=
  fold_left (fun st t =>
    if boxSkips mots tid drop t then st
    else let '(b, ds) := tripBox v None (tSts _ (fTrip _ t)) (minbox M) (snd st) in (add pad area (fst st) b, ds)) trips st.

(** PfaedleMain.cpp:276-279: the area for one configuration *)
Definition cfgBox (trips : list ftrip) (mots : list nat) (tid : option nat) (drop : bool) (v : Q) (hopDists : list Q) : idx * list Q :=
  gtfsBox trips mots tid drop v (newIdx M, hopDists).
(** 187-192: the largest of the maximum speeds *)
Definition maxSpeed (vs : list Q) : Q := fold_left (fun m v => if Qlt_bool m v then v else m) vs 0%Q.
(** 196-201, 219-223: the area of an extract (hop distances are not collected) *)
Definition extractBox (feeds : list (list ftrip)) (mots : list nat) (tid : option nat) (vs : list Q) : idx :=
  fold_left (fun x trips => fst (gtfsBox trips mots tid true (maxSpeed vs) (x, []))) feeds (newIdx M).
End Box.
