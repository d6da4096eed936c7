(** Model of the trip trie.
    Source: /repo/src/pfaedle/router/TripTrie.tpp:18-204, TripTrie.h:19-70.

    Simplifications: trips and stops are records; GTFS times are [option Z]
    seconds ([None] = empty), [emptySecs] is what [seconds()] yields for an empty
    time (cppgtfs, not in the checkout); [near] stands for the test
    [util::geo::dist(..) < 1] on web-mercator positions; routing attributes are
    an abstract type with its merge; ints do not overflow.  The std::maps are
    association lists. *)
From Coq Require Import List Arith ZArith String Bool Lia.
From Verif Require Import ListAux.
Import ListNotations.

Section Trie.
Variable pos : Type.
Variable near : pos -> pos -> bool.
Variable attrs : Type.
Variable mergeA : attrs -> attrs -> attrs.
Variable emptySecs : Z.

Record stop := mkStop { sName : string; sPlat : string; sPos : pos }.
Record stime := mkSt { stStop : stop; stArr : option Z; stDep : option Z }.
Record trip := mkTrip { tId : nat; tSts : list stime }.

(** TripTrie.h:19-32 [TripTrieNd]; [nRepr = None] for the root node, whose members
    are default-initialised and never read. *)
Record node := mkNode {
  nRepr : option stop;
  nTime : Z;
  nArr : bool;
  nAcc : Z;
  nTrips : nat;
  nParent : nat;
  nChilds : list nat;
  nAttrs : option attrs
}.
(** TripTrie.h:38 [_nds(1)]. *)
Definition root : node := mkNode None 0 false 0 0 0 [] None.

(** TripTrie.h:52-54. *)
Record trie := mkTrie {
  nds : list node;
  tripNds : list (nat * nat);
  ndTrips : list (nat * list nat)
}.
(** TripTrie.h:38. *)
Definition emptyTrie : trie := mkTrie [root] [] [].

(** TripTrie.tpp:190-204 [getMatchChild]: one comparison. *)
Definition sameStop (a b : stop) : bool :=
  String.eqb (sName a) (sName b) && String.eqb (sPlat a) (sPlat b) && near (sPos a) (sPos b).
Definition matches (l : list node) (s : stop) (time : Z) (timeEx : bool) (child : nat) : bool :=
  match nth_error l child with
  | Some nd => match nRepr nd with
               | Some r => sameStop r s && (negb timeEx || (nTime nd =? time)%Z)
               | None => false
               end
  | None => false
  end.
(** 0 = no match. *)
Definition getMatchChild (l : list node) (p : nat) (s : stop) (time : Z) (timeEx : bool) : nat :=
  match nth_error l p with
  | None => 0
  | Some nd => match find (matches l s time timeEx) (nChilds nd) with
               | Some c => c
               | None => 0
               end
  end.

(** TripTrie.tpp:162-181 [insert]. *)
Definition addChild (c : nat) (nd : node) : node :=
  mkNode (nRepr nd) (nTime nd) (nArr nd) (nAcc nd) (nTrips nd) (nParent nd) (nChilds nd ++ [c]) (nAttrs nd).
Definition insertNd (l : list node) (s : stop) (a : attrs) (time : Z) (arr : bool) (p : nat) : list node * nat :=
  let n := List.length l in
  (upd p (addChild n) (l ++ [mkNode (Some s) time arr time 1 p [] (Some a)]), n).

(** TripTrie.tpp:67-70 and 89-92: the update of a matched child. *)
Definition touch (time : Z) (a : attrs) (nd : node) : node :=
  mkNode (nRepr nd) (nTime nd) (nArr nd) (nAcc nd + time) (S (nTrips nd)) (nParent nd) (nChilds nd)
    (match nAttrs nd with Some b => Some (mergeA b a) | None => None end).

(** TripTrie.tpp:61-73 (arrival) and 83-96 (departure without the check of line
    94). *)
Definition visit (l : list node) (cur : nat) (s : stop) (a : attrs) (time : Z) (arr timeEx : bool) : list node * nat :=
  let c := getMatchChild l cur s time timeEx in
  if c =? 0 then insertNd l s a time arr cur
  else (upd c (touch time a) l, c).

(** TripTrie.tpp:55-59, 77-81: elapsed time, [startSecs] if the time is empty. *)
Definition relTime (start : Z) (t : option Z) : Z :=
  match t with Some x => (x - start)%Z | None => start end.

(** TripTrie.tpp:45-98: the loop over the stop times.  [first]: stId = 0;
    [locked]: [_tripNds.size() > 0]; the node list is returned as it is when the
    function returns, [None] = return false (line 94). *)
Fixpoint addLoop (l : list node) (cur : nat) (start : Z) (a : attrs) (timeEx locked first : bool)
    (sts : list stime) : list node * option nat :=
  match sts with
  | [] => (l, Some cur)
  | st :: rest =>
      let '(l1, cur1) :=
        if first then (l, cur)
        else visit l cur (stStop st) a (relTime start (stArr st)) true timeEx in
      match rest with
      | [] => (l1, Some cur1)
      | _ :: _ =>
          let t := relTime start (stDep st) in
          if (getMatchChild l1 cur1 (stStop st) t timeEx =? 0) && first && locked then (l1, None)
          else let '(l2, cur2) := visit l1 cur1 (stStop st) a t false timeEx in
               addLoop l2 cur2 start a timeEx locked false rest
      end
  end.

(** [std::map] operations used (TripTrie.tpp:26-27, 101-102). *)
Definition mapSet (m : list (nat * nat)) (k v : nat) : list (nat * nat) :=
  (k, v) :: filter (fun kv => negb (fst kv =? k)) m.
Fixpoint listAt (m : list (nat * list nat)) (k : nat) : list nat :=
  match m with
  | [] => []
  | (k', v) :: t => if k' =? k then v else listAt t k
  end.
Fixpoint pushAt (m : list (nat * list nat)) (k v : nat) : list (nat * list nat) :=
  match m with
  | [] => [(k, [v])]
  | (k', vs) :: t => if k' =? k then (k', vs ++ [v]) :: t else (k', vs) :: pushAt t k v
  end.

(** TripTrie.tpp:39-43. *)
Definition startSecs (t : trip) : Z :=
  match tSts t with st :: _ => match stDep st with Some x => x | None => 0%Z end | [] => 0%Z end.

(** TripTrie.tpp:35-105 [add]. *)
Definition add (tr : trie) (t : trip) (a : attrs) (timeEx : bool) : trie * bool :=
  match tSts t with
  | [] => (tr, false)
  | _ =>
      match addLoop (nds tr) 0 (startSecs t) a timeEx
              (negb (List.length (tripNds tr) =? 0)) true (tSts t) with
      | (l, None) => (mkTrie l (tripNds tr) (ndTrips tr), false)
      | (l, Some n) => (mkTrie l (mapSet (tripNds tr) (tId t) n) (pushAt (ndTrips tr) n (tId t)), true)
      end
  end.

(** TripTrie.tpp:108-159 [get]; 0 = not contained. *)
Fixpoint getLoop (l : list node) (cur : nat) (start : Z) (timeEx first : bool) (sts : list stime) : nat :=
  match sts with
  | [] => cur
  | st :: rest =>
      let cur1 := if first then Some cur
                  else match getMatchChild l cur (stStop st) (relTime start (stArr st)) timeEx with
                       | 0 => None
                       | c => Some c
                       end in
      match cur1 with
      | None => 0
      | Some cur1 =>
          match rest with
          | [] => cur1
          | _ :: _ =>
              match getMatchChild l cur1 (stStop st) (relTime start (stDep st)) timeEx with
              | 0 => 0
              | c => getLoop l c start timeEx false rest
              end
          end
      end
  end.
Definition getTrip (tr : trie) (t : trip) (timeEx : bool) : nat :=
  match tSts t with
  | [] => 0
  | st :: _ =>
      getLoop (nds tr) 0 (match stDep st with Some x => x | None => emptySecs end) timeEx true (tSts t)
  end.

(** TripTrie.tpp:18-32 [addTrip]. *)
Definition addTrip (tr : trie) (t : trip) (a : attrs) (timeEx degen : bool) : trie * bool :=
  if negb degen then add tr t a timeEx
  else
    let e := getTrip tr t timeEx in
    match nth_error (nds tr) e with
    | Some nd =>
        if negb (e =? 0) && (List.length (nChilds nd) =? 0)
        then (mkTrie (nds tr) (mapSet (tripNds tr) (tId t) e) (pushAt (ndTrips tr) e (tId t)), true)
        else (tr, false)
    | None => (tr, false)
    end.

(** A client's calls. *)
Record call := mkCall { cTrip : trip; cAttrs : attrs; cTimeEx : bool; cDegen : bool }.
Fixpoint runCalls (tr : trie) (cs : list call) : trie * list bool :=
  match cs with
  | [] => (tr, [])
  | c :: t => let '(tr1, r) := addTrip tr (cTrip c) (cAttrs c) (cTimeEx c) (cDegen c) in
              let '(tr2, rs) := runCalls tr1 t in (tr2, r :: rs)
  end.
End Trie.
