(** Model of the colouring of routes.
    Source: /repo/src/pfaedle/router/ShapeBuilder.cpp:402-418 (shapeify: colours of trips
    that are not touched), 452-464 (colours of the workers are merged), 489-545
    (updateRouteColors), 1203-1212 (shapeWorker: colour of a trip), 1249-1260
    (getTextColor).  The colour of a shape is part of Shapes_model (countColors,
    bestColor).

    Simplifications.
    - Pointers to routes, trips and fares are indices into the lists of the feed; a route
      that is added goes to the end of the list.  Other attributes of routes and of fare
      rules are of the abstract types [A] and [FA].
    - The maps from routes to maps from colours to trips are association lists in order of
      insertion.  The order in which the (unordered) maps are iterated is a parameter.
    - The colour a trip was matched with is an input (per worker, in the order in which the
      worker got to the trips).
    - Outcome [None]: undefined behaviour (a dangling pointer is followed). *)
From Coq Require Import Ascii String List Arith NArith Bool.
From Verif Require Import ListAux Workers_model.
Import ListNotations.
Open Scope nat_scope.

Section Colours.
Variable A FA : Type.
(** cppgtfs NO_COLOR *)
Variable noColor : N.

Record route := mkR { rId : string; rType : nat; rCol : N; rTxt : N; rRest : A }.
(** A trip: number of stop times, shape id, route. *)
Record ctrip := mkT { cSts : nat; cShape : string; cRoute : nat }.
Record cfeed := mkF { fRoutes : list route; fTrips : list ctrip; fFares : list (list (option nat * FA)) }.
(** Options: the types asked for, the types of the configuration, --drop-shapes,
    --write-colors. *)
Record colopts := mkO { oMots : list nat; oCfg : list nat; oDrop : bool; oWrite : bool }.

(** A pointer to a trip, or to the variable of a loop that has ended (line 416). *)
Inductive tref := TGone | TTrip (u : nat).
(** ShapeBuilder.h:44-45 [RouteRefColors]. *)
Definition colmap := list (nat * list (N * list tref)).

(** [m[c].insert(m[c].end(), ts...)] *)
Fixpoint pushC (m : list (N * list tref)) (c : N) (ts : list tref) : list (N * list tref) :=
  match m with
  | [] => [(c, ts)]
  | (c', l) :: r => if (c =? c')%N then (c', l ++ ts) :: r else (c', l) :: pushC r c ts
  end.
(** [m[route][c].insert(m[route][c].end(), ts...)] *)
Fixpoint pushR (m : colmap) (r : nat) (c : N) (ts : list tref) : colmap :=
  match m with
  | [] => [(r, pushC [] c ts)]
  | (r', l) :: t => if r =? r' then (r', pushC l c ts) :: t else (r', l) :: pushR t r c ts
  end.

(** ShapeBuilder.cpp:405-418. *)
Definition keptColor (o : colopts) (routes : list route) (m : colmap) (t : ctrip) : option colmap :=
  match nth_error routes (cRoute t) with
  | None => None
  | Some r =>
      if cSts t <? 2 then Some m
      else if negb (existsb (Nat.eqb (rType r)) (oMots o)) || negb (existsb (Nat.eqb (rType r)) (oCfg o)) then Some m
      else if negb (String.eqb (cShape t) "") && negb (oDrop o) then Some (pushR m (cRoute t) (rCol r) [TGone])
      else Some m
  end.
Fixpoint keptColors (o : colopts) (routes : list route) (m : colmap) (ts : list ctrip) : option colmap :=
  match ts with
  | [] => Some m
  | t :: r => match keptColor o routes m t with Some m' => keptColors o routes m' r | None => None end
  end.

(** ShapeBuilder.cpp:1203-1212: trip [u] was matched with colour [c]. *)
Definition workerColor (o : colopts) (f : cfeed) (m : colmap) (uc : nat * N) : option colmap :=
  match nth_error (fTrips f) (fst uc) with
  | None => None
  | Some t =>
      match nth_error (fRoutes f) (cRoute t) with
      | None => None
      | Some r =>
          if oWrite o && negb (snd uc =? noColor)%N && (rCol r =? noColor)%N && (rTxt r =? noColor)%N
          then Some (pushR m (cRoute t) (snd uc) [TTrip (fst uc)])
          else Some (pushR m (cRoute t) (rCol r) [TTrip (fst uc)])
      end
  end.
Fixpoint workerColors (o : colopts) (f : cfeed) (m : colmap) (l : list (nat * N)) : option colmap :=
  match l with
  | [] => Some m
  | uc :: r => match workerColor o f m uc with Some m' => workerColors o f m' r | None => None end
  end.

(** The order in which the unordered maps are iterated. *)
Variable enumR : colmap -> colmap.
Variable enumC : list (N * list tref) -> list (N * list tref).

(** ShapeBuilder.cpp:452-460. *)
Definition mergeColors (m w : colmap) : colmap :=
  fold_left (fun m rc => fold_left (fun m cl => pushR m (fst rc) (fst cl) (snd cl)) (enumC (snd rc)) m) (enumR w) m.

(** ShapeBuilder.cpp:1249-1260 [getTextColor]: white if the square root of the mean of the
    squares of the components is below 140.  (In doubles the test is exact: the squares
    are integers below 2^18, and the quotient is 140^2 only if their sum is.) *)
Definition textColor (c : N) : N :=
  let r := N.land (N.shiftr c 16) 255 in let g := N.land (N.shiftr c 8) 255 in let b := N.land c 255 in
  if (r * r + g * g + b * b <? 3 * (140 * 140))%N then 16777215%N else 0%N.

(** ShapeBuilder.cpp:519-524: the loop; [None] if it does not end within [fuel] rounds. *)
Definition newId (id : string) (i : nat) : string := (id ++ "::" ++ toString i)%string.
Fixpoint freeRouteId (fuel : nat) (ids : list string) (id : string) (i : nat) : option string :=
  match fuel with
  | 0 => None
  | S k => if has ids (newId id i) then freeRouteId k ids id (S i) else Some (newId id i)
  end.
(** Line 535: the trips of one colour move to route [n]. *)
Fixpoint moveTrips (ts : list ctrip) (l : list tref) (n : nat) : option (list ctrip) :=
  match l with
  | [] => Some ts
  | TGone :: _ => None
  | TTrip u :: r => if u <? length ts then moveTrips (upd u (fun t => mkT (cSts t) (cShape t) n) ts) r n else None
  end.
(** Lines 505-511 and 538-542: the rules for route [r], and their copies for route [n]. *)
Definition rulesFor (fares : list (list (option nat * FA))) (r : nat) : list (list (option nat * FA)) :=
  map (filter (fun x => match fst x with Some y => y =? r | None => false end)) fares.
Fixpoint addRules (fares rules : list (list (option nat * FA))) (n : nat) : list (list (option nat * FA)) :=
  match fares, rules with
  | f :: fs, r :: rs => (f ++ map (fun x => (Some n, snd x)) r) :: addRules fs rs n
  | _, _ => fares
  end.
(** Lines 514-543. *)
Definition addRoute (f : cfeed) (ri : nat) (rules : list (list (option nat * FA))) (cl : N * list tref) : option cfeed :=
  match nth_error (fRoutes f) ri with
  | None => None
  | Some r =>
      if (fst cl =? rCol r)%N then Some f
      else match freeRouteId (S (length (fRoutes f))) (map rId (fRoutes f)) (rId r) 1 with
           | None => None
           | Some id =>
               let n := length (fRoutes f) in
               match moveTrips (fTrips f) (snd cl) n with
               | None => None
               | Some ts => Some (mkF (fRoutes f ++ [mkR id (rType r) (fst cl) (textColor (fst cl)) (rRest r)]) ts (addRules (fFares f) rules n))
               end
           end
  end.
Fixpoint addRoutes (f : cfeed) (ri : nat) (rules : list (list (option nat * FA))) (cs : list (N * list tref)) : option cfeed :=
  match cs with
  | [] => Some f
  | cl :: r => match addRoute f ri rules cl with Some f' => addRoutes f' ri rules r | None => None end
  end.
(** ShapeBuilder.cpp:489-545 [updateRouteColors]. *)
Definition updateRoute (f : cfeed) (rc : nat * list (N * list tref)) : option cfeed :=
  match nth_error (fRoutes f) (fst rc) with
  | None => None
  | Some r =>
      match snd rc with
      | [(c, _)] =>
          Some (mkF (upd (fst rc) (fun r => mkR (rId r) (rType r) c (if (c =? noColor)%N then rTxt r else textColor c) (rRest r)) (fRoutes f)) (fTrips f) (fFares f))
      | cs => addRoutes f (fst rc) (rulesFor (fFares f) (fst rc)) (enumC cs)
      end
  end.
Fixpoint updateRouteColors (f : cfeed) (m : colmap) : option cfeed :=
  match m with
  | [] => Some f
  | rc :: r => match updateRoute f rc with Some f' => updateRouteColors f' r | None => None end
  end.

(** ShapeBuilder.cpp:402-464, the colours.  [ws]: for every worker the trips it got to,
    with the colour of their shape. *)
Fixpoint mergeAll (o : colopts) (f : cfeed) (m : colmap) (ws : list (list (nat * N))) : option colmap :=
  match ws with
  | [] => Some m
  | w :: r => match workerColors o f [] w with Some x => mergeAll o f (mergeColors m x) r | None => None end
  end.
Definition colourRoutes (o : colopts) (f : cfeed) (ws : list (list (nat * N))) : option cfeed :=
  match keptColors o (fRoutes f) [] (fTrips f) with
  | None => None
  | Some m =>
      match mergeAll o f m ws with
      | None => None
      | Some m' => updateRouteColors f (enumR m')
      end
  end.
End Colours.
