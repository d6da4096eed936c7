(** Model of the evaluation tool [shapevl]: the choice of the trips, the evaluation threads, the
    arguments, the report streams and the result of the program.
    Source: /repo/src/shapevl/ShapevlMain.cpp:21 and 43-297.

    Simplifications: a collector is a value of any type with an operation [addC] (Collector.cpp:28-254,
    modelled in Collect_model); the parser is an oracle giving a feed or nothing (ParserException);
    one step of a thread is one access to the atomic counter together with the reading of the feed,
    or one trip of the inner loop (the threads share nothing else but the collectors, and the ground
    truth, which is only read); [int] does not overflow; logging is left out; std::map and std::set are
    association and sorted lists; trips and routes are named by numbers. *)
From Coq Require Import Ascii String List Arith ZArith QArith Bool Lia.
From Verif Require Import ListAux TripTrie_model.
Import ListNotations.
Open Scope nat_scope.
Open Scope list_scope.

(** ** The trips that are compared *)
Section Unique.
Variable pos : Type.
Variable near : pos -> pos -> bool.

(** A trip of the ground truth with its route. *)
Record gtrip := mkG { gTrip : trip pos; gRoute : nat }.
Notation trie := (trie pos nat).
(** 72-75, 83-86: the routing attributes hold the id of the route, and the trips of a trie have one
    route; merging them is of no interest here. *)
Definition keepA (a b : nat) : nat := a.
Definition tryAdd (tr : trie) (g : gtrip) : trie * bool := addTrip pos near nat keepA 0%Z tr (gTrip g) (gRoute g) false false.
(** 69-87: the first trie of the route that accepts the trip, else a new one. *)
Fixpoint addTo (sub : list trie) (g : gtrip) : list trie :=
  match sub with
  | [] => [fst (tryAdd (emptyTrie pos nat) g)]
  | tr :: r => let '(tr', ok) := tryAdd tr g in if ok then tr' :: r else tr' :: addTo r g
  end.
(** 67-68 [forest[route]]. *)
Fixpoint addForest (f : list (nat * list trie)) (g : gtrip) : list (nat * list trie) :=
  match f with
  | [] => [(gRoute g, addTo [] g)]
  | (r, sub) :: t => if r =? gRoute g then (r, addTo sub g) :: t else (r, sub) :: addForest t g
  end.
(** 63-89 *)
Definition forest (gs : list gtrip) : list (nat * list trie) := fold_left addForest gs [].
(** 90-97: the first trip of each node and the number of trips there. *)
Definition reps (gs : list gtrip) : list (nat * nat) :=
  flat_map (fun f => flat_map (fun tr => map (fun nt => (hd 0 (snd nt), List.length (snd nt))) (ndTrips pos nat tr)) (snd f)) (forest gs).
(** 61-102 *)
Definition chosen (unique : bool) (gs : list gtrip) : list (nat * nat) :=
  if unique then reps gs else map (fun g => (tId _ (gTrip g), 1)) gs.
End Unique.

(** ** The threads *)
Section Threads.
(** A shape of an evaluated feed, a collector and its [add] for an old trip (by its id), the number
    of trips it stands for and the new shape. *)
Variable shp C : Type.
Variable addC : C -> nat -> nat -> shp -> C.
(** 109: the type of the trip's route is one of the given ones. *)
Variable motOk : nat -> bool.

(** 110-118: what a feed says of a trip: [None] = not there, [Some None] = no shape. *)
Notation feed := (nat -> option (option shp)).

Inductive thread := Idle | Work (f : nat) (ft : feed) (js : list (nat * nat)) | Done.
Record state := mkS { sCount : Z; sColls : list C; sThr : list thread; sExit : bool }.

(** 105-121: one trip. *)
Definition evalTrip (ft : feed) (c : C) (j : nat * nat) : C :=
  if motOk (fst j) then
    match ft (fst j) with
    | None => c
    | Some None => c
    | Some (Some s) => addC c (fst j) (snd j) s
    end
  else c.

(** 47-123: one step of thread [t].  [feeds]: the readable feeds; [jobs]: the trips chosen.
    The exit of line 58 ends all threads. *)
Definition step (feeds : list (option feed)) (jobs : list (nat * nat)) (t : nat) (s : state) : state :=
  if sExit s then s
  else match nth_error (sThr s) t with
  | None => s
  | Some Done => s
  | Some Idle =>
      let n := (sCount s - 1)%Z in
      if (n <? 0)%Z then mkS n (sColls s) (upd t (fun _ => Done) (sThr s)) false
      else match nth_error feeds (Z.to_nat n) with
           | Some (Some ft) => mkS n (sColls s) (upd t (fun _ => Work (Z.to_nat n) ft jobs) (sThr s)) false
           | _ => mkS n (sColls s) (sThr s) true
           end
  | Some (Work f ft []) => mkS (sCount s) (sColls s) (upd t (fun _ => Idle) (sThr s)) false
  | Some (Work f ft (j :: js)) =>
      mkS (sCount s) (upd f (fun c => evalTrip ft c j) (sColls s)) (upd t (fun _ => Work f ft js) (sThr s)) false
  end.
(** 213-227 and 245-249: the counter is the number of feeds, [k] threads. *)
Definition start (empty : C) (feeds : list (option feed)) (k : nat) : state :=
  mkS (Z.of_nat (List.length feeds)) (repeat empty (List.length feeds)) (repeat Idle k) false.
(** A schedule names the thread that moves. *)
Definition run (feeds : list (option feed)) (jobs : list (nat * nat)) (sched : list nat) (s : state) : state :=
  fold_left (fun s t => step feeds jobs t s) sched s.
(** 251: all threads have been joined. *)
Definition joined (s : state) : Prop := forall t x, nth_error (sThr s) t = Some x -> x = Done.
End Threads.
Arguments Idle {shp}.
Arguments Work {shp}.
Arguments Done {shp}.

(** ** The arguments *)
Record opts := mkO { oGround : string; oSumm : bool; oJson : bool; oUniq : bool; oAvg : bool; oSeg : option Z; oLevel : Z;
  oFull : string; oMots : string; oFeeds : list string }.
(** 134-147; [oSeg = None]: the default of 25 / M_PER_DEG. *)
Definition opts0 : opts := mkO "" false false false false None 1 "" "all" [].

(** 192 [std::set::insert]. *)
Fixpoint setIns (x : string) (l : list string) : list string :=
  match l with
  | [] => [x]
  | y :: t => if String.ltb x y then x :: l else if String.ltb y x then y :: setIns x t else l
  end.
Inductive parsed := PExit (code : nat) | POpts (o : opts).

Section Args.
(** realpath and atoi. *)
Variable realpath : string -> option string.
Variable atoi : string -> Z.

(** 149-203: [i] runs over the arguments, options with a value take the next one. *)
Fixpoint parse (o : opts) (args : list string) : parsed :=
  match args with
  | [] => POpts o
  | cur :: r =>
      if (cur =? "-h")%string || (cur =? "--help")%string then PExit 0
      else if (cur =? "-g")%string then
        match r with [] => PExit 1 | v :: r' => parse (mkO v (oSumm o) (oJson o) (oUniq o) (oAvg o) (oSeg o) (oLevel o) (oFull o) (oMots o) (oFeeds o)) r' end
      else if (cur =? "-s")%string then parse (mkO (oGround o) true (oJson o) (oUniq o) (oAvg o) (oSeg o) (oLevel o) (oFull o) (oMots o) (oFeeds o)) r
      else if (cur =? "--json")%string then parse (mkO (oGround o) (oSumm o) true (oUniq o) (oAvg o) (oSeg o) (oLevel o) (oFull o) (oMots o) (oFeeds o)) r
      else if (cur =? "--unique")%string then parse (mkO (oGround o) (oSumm o) (oJson o) true (oAvg o) (oSeg o) (oLevel o) (oFull o) (oMots o) (oFeeds o)) r
      else if (cur =? "--avg")%string then parse (mkO (oGround o) (oSumm o) (oJson o) (oUniq o) true (oSeg o) (oLevel o) (oFull o) (oMots o) (oFeeds o)) r
      else if (cur =? "--segment-length")%string then
        match r with [] => PExit 1 | v :: r' => parse (mkO (oGround o) (oSumm o) (oJson o) (oUniq o) (oAvg o) (Some (atoi v)) (oLevel o) (oFull o) (oMots o) (oFeeds o)) r' end
      else if (cur =? "-l")%string then
        match r with [] => PExit 1 | v :: r' => parse (mkO (oGround o) (oSumm o) (oJson o) (oUniq o) (oAvg o) (oSeg o) (atoi v) (oFull o) (oMots o) (oFeeds o)) r' end
      else if (cur =? "-f")%string then
        match r with [] => PExit 1 | v :: r' => parse (mkO (oGround o) (oSumm o) (oJson o) (oUniq o) (oAvg o) (oSeg o) (oLevel o) v (oMots o) (oFeeds o)) r' end
      else if (cur =? "-m")%string then
        match r with [] => PExit 1 | v :: r' => parse (mkO (oGround o) (oSumm o) (oJson o) (oUniq o) (oAvg o) (oSeg o) (oLevel o) (oFull o) v (oFeeds o)) r' end
      else match realpath cur with
           | None => PExit 1
           | Some p => parse (mkO (oGround o) (oSumm o) (oJson o) (oUniq o) (oAvg o) (oSeg o) (oLevel o) (oFull o) (oMots o) (setIns p (oFeeds o))) r
           end
  end.
End Args.

(** ** The report streams *)
(** 205-214: the vector of streams, its capacity and the number of times its elements were moved; a
    pointer is the move count at the time it was taken and the index.  Capacities double (libstdc++). *)
Record streams := mkStr { vSize : nat; vCap : nat; vGen : nat }.
Definition emplace (v : streams) : streams :=
  if vSize v =? vCap v then mkStr (S (vSize v)) (if vCap v =? 0 then 1 else 2 * vCap v) (S (vGen v))
  else mkStr (S (vSize v)) (vCap v) (vGen v).
Fixpoint open (v : streams) (n : nat) : streams * list (nat * nat) :=
  match n with
  | 0 => (v, [])
  | S n => let v1 := emplace v in let '(v2, ps) := open v1 n in (v2, (vGen v1, vSize v1 - 1) :: ps)
  end.
Definition reports (n : nat) : streams * list (nat * nat) := open (mkStr 0 0 0) n.

(** ** The statistics *)
Section Stats.
(** 259 [stats[kv.first] = ...] and 282 [getStats()[k]]: a missing key gives 0. *)
Definition stat (m : list (string * Q)) (k : string) : Q := match find (fun kv => (fst kv =? k)%string) m with Some kv => snd kv | None => 0%Q end.
Inductive output := OStats (s : list (string * Q)) | OFeeds (s : list (string * list (string * Q))) | OUndef.
(** 253-296; [res]: the feeds in order with the statistics of their collectors.  Without feeds the
    average reads [evalColls[0]]. *)
Definition json (avg : bool) (res : list (string * list (string * Q))) : output :=
  match res with
  | [(_, s)] => OStats s
  | _ =>
      if avg then
        match res with
        | [] => OUndef
        | (_, s0) :: _ => OStats (map (fun kv => (fst kv, (fold_left (fun a r => a + stat (snd r) (fst kv)) res 0) / inject_Z (Z.of_nat (List.length res)))%Q) s0)
        end
      else OFeeds res
  end.
End Stats.

(** ** The program *)
Section Main.
Variable shp C : Type.
Variable addC : Q -> C -> nat -> nat -> shp -> C.
Variable empty : C.
Variable getStats : C -> list (string * Q).
Variable pos : Type.
Variable near : pos -> pos -> bool.
Variable realpath : string -> option string.
Variable atoi : string -> Z.
(** The parser on the ground truth and on the other feeds, and the route types named by -m for a trip. *)
Variable ground : string -> option (list (gtrip pos)).
Variable parseFeed : string -> option (nat -> option (option shp)).
Variable motOk : string -> nat -> bool.

(** 147 and 175: M_PER_DEG and the segment length. *)
Variable mPerDeg : Q.
Definition segLen (o : option Z) : Q := match o with None => (25 / mPerDeg)%Q | Some n => inject_Z n end.

(** 126-297.  [RRuns]: the schedule ends before the threads have. *)
Inductive res := RExit (code : nat) | RRuns | RPrint (summary : bool) (l : list (string * C)) | RJson (o : output).
Definition main (args : list string) (k : nat) (sched : list nat) : res :=
  match parse realpath atoi opts0 args with
  | PExit n => RExit n
  | POpts o =>
      if (oGround o =? "")%string then RExit 1
      else match ground (oGround o) with
      | None => RExit 1
      | Some gs =>
          let feeds := map parseFeed (oFeeds o) in
          let s := run shp C (addC (segLen (oSeg o))) (motOk (oMots o)) feeds (chosen pos near (oUniq o) gs) sched (start shp C empty feeds k) in
          if sExit _ _ s then RExit 1
          else if forallb (fun t => match t with Done => true | _ => false end) (sThr _ _ s) then
            if oJson o then RJson (json (oAvg o) (combine (oFeeds o) (map getStats (sColls _ _ s))))
            else RPrint (oSumm o) (combine (oFeeds o) (sColls _ _ s))
          else RRuns
      end
  end.
End Main.
