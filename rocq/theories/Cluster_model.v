(** Model of the selection and clustering of trips and of the distribution of work.
    Source: /repo/src/pfaedle/router/ShapeBuilder.cpp:108-152 (buildCandCache),
    618-648 (getRAttrs), 854-901 (clusterTrips), 904-929 (clusterWorker),
    1229-1234 (edgCandWorker).

    Simplifications.
    - A trip of the feed carries what is read of it and of its route; trips and stops are
      identified by numbers instead of pointers.
    - [std::map<RoutingAttrs, ..>] is a list of entries sorted by [attrsLt]; a key is found
      by equivalence under that order.
    - One call of addTrip by a worker is one step.  Workers share only the two maps, whose
      structure they do not change; which entries they touch is part of the model.
    - [std::thread::hardware_concurrency()] is the option [oThreads].
    - Undefined behaviour and exceptions are the outcome [None]. *)
From Coq Require Import String List Arith ZArith Bool.
From Verif Require Import ListAux TripTrie_model Simi_model.
Import ListNotations.
Open Scope nat_scope.

(** ShapeBuilder.cpp:885-889, 127-131: distribution of work items; [i] is the next
    worker, [acc] their lists.  [None]: access beyond the vector. *)
Fixpoint deal {A} (n i : nat) (l : list A) (acc : list (list A)) : option (list (list A)) :=
  match l with
  | [] => Some acc
  | x :: t =>
      match nth_error acc i with
      | None => None
      | Some _ => deal n (if S i =? n then 0 else S i) t (upd i (fun q => q ++ [x]) acc)
      end
  end.

Section Cluster.
Variable pos : Type.
Variable near : pos -> pos -> bool.
Variable emptySecs : Z.
Variable regex : Type.
Variable replace : regex -> string -> string -> string.
Notation normalizer := (normalizer regex).
Notation trip := (trip pos).
Notation trie := (trie pos attrs).

(** What is read of a trip: stop times, shape id, route type, route short name, own short
    name, route long name. *)
Record ftrip := mkFt {
  fTrip : trip; fShape : string; fType : nat;
  fRShort : string; fShort : string; fRLong : string
}.
Record feed := mkFeed { fStops : list (stop pos); fTrips : list ftrip }.
(** Config: dropShapes, _mots, _motCfg.mots, transPenMethod == "timenorm", noTrie. *)
Record copts := mkOpts {
  oDrop : bool; oMots : list nat; oCfgMots : list nat; oTimeEx : bool; oNoTrie : bool; oThreads : nat
}.

(** The mutable state: both normalisers and the attributes of trips (_rAttrs). *)
Record cst := mkC { cLine : normalizer; cStat : normalizer; cTab : list (nat * attrs) }.
Fixpoint tabGet (m : list (nat * attrs)) (t : nat) : option attrs :=
  match m with
  | [] => None
  | (k, v) :: r => if k =? t then Some v else tabGet r t
  end.

(** ShapeBuilder.cpp:629, 635-640: the name with its fallbacks. *)
Definition lineName (n : normalizer) (t : ftrip) : string * normalizer :=
  let '(a, n1) := norm regex replace n (fRShort t) in
  let '(b, n2) := if String.eqb a "" then norm regex replace n1 (fShort t) else (a, n1) in
  if String.eqb b "" then norm regex replace n2 (fRLong t) else (b, n2).
(** ShapeBuilder.cpp:618-648 [getRAttrs].  [None]: front() or back() of an empty vector. *)
Definition getRAttrs (st : cst) (t : ftrip) : option (attrs * cst) :=
  match tabGet (cTab st) (tId _ (fTrip t)) with
  | Some a => Some (a, st)
  | None =>
      match tSts _ (fTrip t) with
      | [] => None
      | s0 :: rest =>
          (* lines 629-640; the calls on the two normalisers do not interfere *)
          let '(nm, ln) := lineName (cLine st) t in
          let '(fr, sn) := norm regex replace (cStat st) (sName _ (stStop _ s0)) in
          let '(to, sn2) := norm regex replace sn (sName _ (stStop _ (last rest s0))) in
          let a := mkAttrs nm fr [to] in
          Some (a, mkC ln sn2 ((tId _ (fTrip t), a) :: cTab st))
      end
  end.

(** ShapeBuilder.cpp:867-871: the trips that are left alone. *)
Definition skipped (o : copts) (t : ftrip) : bool :=
  (negb (oDrop o) && negb (String.eqb (fShape t) "")) ||
  (List.length (tSts _ (fTrip t)) <? 2) ||
  (negb (existsb (Nat.eqb (fType t)) (oMots o)) || negb (existsb (Nat.eqb (fType t)) (oCfgMots o))).

(** [trips[rAttrs].push_back(&trip)], [forest[rAttrs] = {}] (877-878). *)
Fixpoint mapPush (m : list (attrs * list trip)) (k : attrs) (t : trip) : list (attrs * list trip) :=
  match m with
  | [] => [(k, [t])]
  | (k', ts) :: r =>
      if attrsLt k k' then (k, [t]) :: m
      else if attrsLt k' k then (k', ts) :: mapPush r k t
      else (k', ts ++ [t]) :: r
  end.
Fixpoint mapClear (m : list (attrs * list trie)) (k : attrs) : list (attrs * list trie) :=
  match m with
  | [] => [(k, [])]
  | (k', ts) :: r =>
      if attrsLt k k' then (k, []) :: m
      else if attrsLt k' k then (k', ts) :: mapClear r k
      else (k', []) :: r
  end.
(** [at(k)]; [None] = std::out_of_range. *)
Fixpoint mapAt {A} (m : list (attrs * A)) (k : attrs) : option A :=
  match m with
  | [] => None
  | (k', v) :: r => if attrsLt k k' || attrsLt k' k then mapAt r k else Some v
  end.
Fixpoint mapUpd {A} (m : list (attrs * A)) (k : attrs) (f : A -> A) : list (attrs * A) :=
  match m with
  | [] => []
  | (k', v) :: r => if attrsLt k k' || attrsLt k' k then (k', v) :: mapUpd r k f else (k', f v) :: r
  end.

(** ShapeBuilder.cpp:866-879: the loop over the trips of the feed. *)
Fixpoint collect (o : copts) (st : cst) (m : list (attrs * list trip)) (f : list (attrs * list trie)) (ts : list ftrip)
    : option (cst * list (attrs * list trip) * list (attrs * list trie)) :=
  match ts with
  | [] => Some (st, m, f)
  | t :: r =>
      if skipped o t then collect o st m f r
      else match getRAttrs st t with
           | None => None
           | Some (a, st1) => collect o st1 (mapPush m a (fTrip t)) (mapClear f a) r
           end
  end.

(** ShapeBuilder.cpp:912-919: try the tries of the group in turn. *)
Fixpoint tryTries (sub : list trie) (t : trip) (a : attrs) (timeEx noTrie : bool) : list trie * bool :=
  match sub with
  | [] => ([], false)
  | tr :: r =>
      let '(tr1, ok) := addTrip pos near attrs mergeAttrs emptySecs tr t a timeEx noTrie in
      if ok then (tr1 :: r, true)
      else let '(r1, b) := tryTries r t a timeEx noTrie in (tr1 :: r1, b)
  end.
(** ShapeBuilder.cpp:910-926. *)
Definition addSub (o : copts) (a : attrs) (sub : list trie) (t : trip) : list trie :=
  let '(s1, ins) := tryTries sub t a (oTimeEx o) (oNoTrie o) in
  if ins then s1
  else s1 ++ [fst (addTrip pos near attrs mergeAttrs emptySecs (emptyTrie pos attrs) t a (oTimeEx o) false)].

(** What worker [keys] will do: ShapeBuilder.cpp:908-909. *)
Definition cstep := (attrs * trip)%type.
Fixpoint workerSteps (m : list (attrs * list trip)) (keys : list attrs) : option (list cstep) :=
  match keys with
  | [] => Some []
  | k :: r =>
      match mapAt m k, workerSteps m r with
      | Some ts, Some l => Some (map (fun t => (k, t)) ts ++ l)
      | _, _ => None
      end
  end.
Fixpoint allSteps (m : list (attrs * list trip)) (parts : list (list attrs)) : option (list (list cstep)) :=
  match parts with
  | [] => Some []
  | p :: r =>
      match workerSteps m p, allSteps m r with
      | Some l, Some ls => Some (l :: ls)
      | _, _ => None
      end
  end.

(** Workers run in any order: [sched] names the worker that makes the next step (a name
    of a finished or missing worker is ignored). *)
Fixpoint runSched (o : copts) (f : list (attrs * list trie)) (progs : list (list cstep)) (sched : list nat)
    : option (list (attrs * list trie) * list (list cstep)) :=
  match sched with
  | [] => Some (f, progs)
  | w :: r =>
      match nth_error progs w with
      | Some ((k, t) :: rest) =>
          match mapAt f k with
          | None => None
          | Some _ => runSched o (mapUpd f k (fun sub => addSub o k sub t)) (upd w (fun _ => rest) progs) r
          end
      | _ => runSched o f progs r
      end
  end.

(** ShapeBuilder.cpp:854-901 [clusterTrips]; the last component is what the workers still
    have to do under [sched]. *)
Definition clusterTrips (o : copts) (st : cst) (f : feed) (sched : list nat)
    : option (cst * list (attrs * list trie) * list (list cstep)) :=
  let st0 := mkC (cLine st) (fold_left (fun n s => snd (norm regex replace n (sName _ s))) (fStops f) (cStat st)) (cTab st) in
  match collect o st0 [] [] (fTrips f) with
  | None => None
  | Some (st1, m, fo) =>
      match deal (oThreads o) 0 (map fst m) (repeat [] (oThreads o)) with
      | None => None
      | Some parts =>
          match allSteps m parts with
          | None => None
          | Some progs =>
              match runSched o fo progs sched with
              | None => None
              | Some (fo1, rest) => Some (st1, fo1, rest)
              end
          end
      end
  end.

(** ShapeBuilder.cpp:112-120: the stops whose candidates are computed in advance; a trip
    is given by its number, [sts] looks up its stop times. *)
Definition cacheStops (sts : nat -> list (stime pos)) (fo : list (attrs * list trie)) : list (stop pos) :=
  flat_map (fun g => flat_map (fun tr => flat_map (fun l =>
    match snd l with t :: _ => map (stStop _) (sts t) | [] => [] end) (ndTrips _ _ tr)) (snd g)) fo.
End Cluster.

(** ShapeBuilder.cpp:122-148, 1229-1234: each worker fills its own cache from its stops,
    the caches are merged into the common one ([S]: stops, [V]: candidate lists).  The
    workers share nothing they write, so their order does not matter. *)
Section CandCache.
Variable S V : Type.
Variable eqS : S -> S -> bool.
Variable cands : S -> V.
Fixpoint putC (m : list (S * V)) (s : S) (v : V) : list (S * V) :=
  match m with
  | [] => [(s, v)]
  | (s', v') :: r => if eqS s' s then (s', v) :: r else (s', v') :: putC r s v
  end.
Fixpoint getC (m : list (S * V)) (s : S) : option V :=
  match m with
  | [] => None
  | (s', v) :: r => if eqS s' s then Some v else getC r s
  end.
(** ShapeBuilder.cpp:1229-1234 [edgCandWorker]. *)
Definition candWorker (stops : list S) : list (S * V) := fold_left (fun m s => putC m s (cands s)) stops [].
(** ShapeBuilder.cpp:122-148; [stops]: the set in its iteration order. *)
Definition buildCandCache (n : nat) (stops : list S) (cache : list (S * V)) : option (list (S * V)) :=
  match deal n 0 stops (repeat [] n) with
  | None => None
  | Some parts => Some (fold_left (fun m c => fold_left (fun m e => putC m (fst e) (snd e)) c m) (map candWorker parts) cache)
  end.
(** ShapeBuilder.cpp:156-158 [getEdgCands] with the cache. *)
Definition getCached (cache : list (S * V)) (s : S) : V :=
  match getC cache s with Some v => v | None => cands s end.
End CandCache.
