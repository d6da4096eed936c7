(** Model of a run of the program.
    Source: /repo/src/pfaedle/PfaedleMain.cpp:72-83 (exit codes), 92-455 (main),
    /repo/src/pfaedle/router/Misc.h:116-147 (motISect, writeMotStops),
    /repo/src/pfaedle/router/ShapeBuilder.cpp:866-872, 418-436 (which trips get a shape).

    Simplifications.
    - The command line is the record [opts] (ConfigReader has exited or filled it).  What files
      contain and whether they can be written is the record [world]; nothing else changes the
      files during the run.
    - The run is the list of its effects [event] and the exit code.  Log messages, timings,
      graph sizes and the contents of the other outputs are left out.
    - A shape is that of the input or one computed for the [k]-th configuration; every trip
      that is selected gets one (C55, C01).
    - Route types, trip ids and paths are numbers. *)
From Coq Require Import List Arith Bool.
Import ListNotations.

Inductive shape := NoShape | Given (s : nat) | Computed (k : nat).
Record trip := mkTrip { tId : nat; tType : nat; tStops : nat; tShape : shape }.
(** MotConfig: types, statsimiMethod is one of five, transPenMethod is one of three *)
Record mcfg := mkCfg { cMots : list nat; cSimi : bool; cTrans : bool }.
Record opts := mkOpts {
  oOsm : bool;               (* an OSM file is given, -x *)
  oExtract : bool;           (* -X *)
  oQuery : bool;             (* -a: writeOverpass *)
  oRules : bool;             (* -f: writeOsmfilter *)
  oFeeds : list nat; oOut : nat; oInPlace : bool; oTrip : option nat; oMots : list nat;
  oDrop : bool; oGraph : bool; oTransit : bool; oStats : bool
}.
Record world := mkWorld {
  wCfgs : option (list mcfg);              (* None: configparser::ParseExc *)
  wFeed : nat -> option (list trip);       (* None: ParserException *)
  wOsm : nat -> bool;                      (* OSM data can be parsed for the k-th configuration *)
  wFilter : bool;                          (* filterWrite succeeds *)
  wWrite : nat -> bool                     (* the feed can be written *)
}.
Inductive event :=
| EFeed (path : nat)                       (* feed read *)
| EExtract (cfgs feeds : list nat)         (* filtered OSM data for these configurations *)
| EQuery (cfgs feeds : list nat) | ERules (cfgs : list nat)
| EOsm (k : nat) | EMatch (k : nat) (mots : list nat) | EPath (k : nat) (t : nat)
| EGraph (k : nat) | ETransit (k : nat) | EStats
| EWrite (path : nat) (ts : list trip) (ok : bool).

Definition has (l : list nat) (x : nat) : bool := existsb (Nat.eqb x) l.
(** Misc.h:116-122 *)
Definition motISect (a b : list nat) : list nat := filter (has b) a.
(** Misc.h:125-147: there is a stop *)
Definition hasStops (ts : list trip) (mots : list nat) (tid : option nat) : bool :=
  existsb (fun t => match tid with Some i => tId t =? i | None => true end && has mots (tType t) && (0 <? tStops t)) ts.
(** 204-208: [std::find_first_of(..) != end] *)
Definition shares (a b : list nat) : bool := existsb (has b) a.
Fixpoint optsFor (k : nat) (cs : list mcfg) (mots : list nat) : list nat :=
  match cs with [] => [] | c :: r => if shares (cMots c) mots then k :: optsFor (S k) r mots else optsFor (S k) r mots end.
(** shapeify: the trips without shape (all, if shapes are dropped) of the types, with two stops *)
Definition shapeOne (k : nat) (mots : list nat) (drop : bool) (t : trip) : trip :=
  if (negb drop && match tShape t with NoShape => false | _ => true end) || (tStops t <? 2) || negb (has mots (tType t)) then t
  else mkTrip (tId t) (tType t) (tStops t) (Computed k).

Section Main.
Variable W : world.
Variable o : opts.

(** 139-160: the feeds of an extract, read one after the other *)
Fixpoint readAll (ps : list nat) : list event * option (list (list trip)) :=
  match ps with
  | [] => ([], Some [])
  | p :: r =>
      match wFeed W p with
      | None => ([EFeed p], None)
      | Some f => let '(ev, rest) := readAll r in (EFeed p :: ev, match rest with Some fs => Some (f :: fs) | None => None end)
      end
  end.
(** 256-383: the configurations, one after the other.  [inl c]: the program exits with [c]. *)
Fixpoint loop (k : nat) (cs : list mcfg) (single : option trip) (ts : list trip) : list event * (nat + list trip) :=
  match cs with
  | [] => ([], inr ts)
  | c :: r =>
      let used := motISect (cMots c) (oMots o) in
      if match used with [] => true | _ => false end then loop (S k) r single ts
      else if match single with Some t => negb (has used (tType t)) | None => false end then loop (S k) r single ts
      else
        let stops := hasStops ts used (oTrip o) in
        let evO := if stops then [EOsm k] else [] in
        if stops && negb (wOsm W k) then (evO, inl 7)
        else if negb (cSimi c) then (evO, inl 1)
        else if negb (cTrans c) then (evO, inl 1)
        else
          match single with
          | Some t => (evO ++ [EPath k (tId t)] ++ (if oGraph o then [EGraph k] else []), inl 0)
          | None =>
              let ts' := map (shapeOne k used (oDrop o)) ts in
              let '(ev, res) := loop (S k) r single ts' in
              (evO ++ [EMatch k used] ++ (if oGraph o then [EGraph k] else []) ++ (if oTransit o then [ETransit k] else []) ++ ev, res)
          end
  end.

(** 100-455 [main] *)
Definition main : list event * nat :=
  match wCfgs W with
  | None => ([], 6)                                                             (* 110-116 *)
  | Some cfgs =>
      if negb (oOsm o) && negb (oQuery o) && negb (oRules o) then ([], 5)       (* 118-121 *)
      else if match cfgs with [] => true | _ => false end then ([], 9)          (* 123-127 *)
      else
        (* 131-165 *)
        let out := match oFeeds o with [p] => if oInPlace o then p else oOut o | _ => oOut o end in
        let '(ev1, feeds) :=
          match oFeeds o with
          | [p] => let '(ev, fs) := readAll [p] in (ev, match fs with Some f => inr f | None => inl 4 end)
          | ps => if oExtract o || oQuery o then let '(ev, fs) := readAll ps in (ev, match fs with Some f => inr f | None => inl 4 end)
                  else if 1 <? length ps then ([], inl 2) else ([], inr [])
          end in
        match feeds with
        | inl c => (ev1, c)
        | inr fs =>
            let first := match fs with f :: _ => f | [] => [] end in
            (* 174-185 *)
            let single :=
              match oTrip o with
              | None => inr None
              | Some i => match oFeeds o with
                          | [] => inl 1
                          | _ => match find (fun t => tId t =? i) first with Some t => inr (Some t) | None => inl 3 end
                          end
              end in
            match single with
            | inl c => (ev1, c)
            | inr st =>
                if oExtract o then (ev1 ++ [EExtract (optsFor 0 cfgs (oMots o)) (oFeeds o)], if wFilter W then 0 else 7)  (* 194-217 *)
                else if oQuery o then (ev1 ++ [EQuery (optsFor 0 cfgs (oMots o)) (oFeeds o)], 0)                         (* 218-233 *)
                else if oRules o then (ev1 ++ [ERules (optsFor 0 cfgs (oMots o))], 0)                                   (* 234-245 *)
                else match oFeeds o with
                     | [] => (ev1, 1)                                                                                    (* 246-249 *)
                     | _ =>
                         let '(ev2, res) := loop 0 cfgs st first in
                         match res with
                         | inl c => (ev1 ++ ev2, c)
                         | inr ts =>
                             let ok := wWrite W out in
                             (ev1 ++ ev2 ++ (if oStats o then [EStats] else []) ++ [EWrite out ts ok], if ok then 0 else 8)   (* 385-454 *)
                         end
                     end
            end
        end
  end.
End Main.
