(** Specification of the colouring of routes (C39). *)
From Coq Require Import Ascii String List Arith NArith QArith Bool DecimalString.
From Verif Require Import Router_model Colours_model.
Import ListNotations.
Open Scope nat_scope.

(** The text colour that goes with a colour: white on dark colours, black on others.  A
    colour is dark if the mean square of its components is below 140^2. *)
Definition text_on (w t : N) : Prop := forall hi r g b, w = (hi * 16777216 + r * 65536 + g * 256 + b)%N ->
  (r < 256)%N -> (g < 256)%N -> (b < 256)%N -> t = if (r * r + g * g + b * b <? 58800)%N then 16777215%N else 0%N.

Section Spec.
Context {A FA : Type}.
Variable noColor : N.
Variable o : colopts.
Variable f : cfeed A FA.
(** For every worker the trips it matched, with the colour of their shape. *)
Variable ws : list (list (nat * N)).
Notation routes := (fRoutes _ _ f).
Notation trips := (fTrips _ _ f).

(** A route that may be coloured: colours were asked for, and it has none. *)
Definition free (r : route A) : Prop := oWrite o = true /\ rCol _ r = noColor /\ rTxt _ r = noColor.
(** The colour wanted for a trip of route [r] matched with colour [c]. *)
Definition wants (r : route A) (c w : N) : Prop :=
  (free r /\ c <> noColor /\ w = c) \/ (~ (free r /\ c <> noColor) /\ w = rCol _ r).
Definition wanted (u ri : nat) (w : N) : Prop :=
  exists c t r, In (u, c) (concat ws) /\ nth_error trips u = Some t /\ cRoute t = ri /\ nth_error routes ri = Some r /\ wants r c w.
(** A trip that keeps the shape it has. *)
Definition keeps (t : ctrip) (r : route A) : Prop :=
  2 <= cSts t /\ In (rType _ r) (oMots o) /\ In (rType _ r) (oCfg o) /\ cShape t <> ""%string /\ oDrop o = false.
(** The colours of a route: those wanted for its trips, and its own if one of its trips
    keeps its shape. *)
Definition colour_of (ri : nat) (w : N) : Prop :=
  (exists u, wanted u ri w) \/
  (exists t r, In t trips /\ cRoute t = ri /\ nth_error routes ri = Some r /\ keeps t r /\ w = rCol _ r).
Definition single (ri : nat) (w : N) : Prop := colour_of ri w /\ forall w', colour_of ri w' -> w' = w.
(** The colours for which a route is copied. *)
Definition split (ri : nat) (w : N) : Prop :=
  colour_of ri w /\ (exists w', colour_of ri w' /\ w' <> w) /\ exists r, nth_error routes ri = Some r /\ w <> rCol _ r.
Definition repoint (n : nat) (x : option nat * FA) : option nat * FA := (Some n, snd x).

Definition rule_of (ri : nat) (x : option nat * FA) : bool := match fst x with Some y => y =? ri | None => false end.

(** The feed afterwards; [news]: route and colour for each new route. *)
Record coloured_by (news : list (nat * N)) (f' : cfeed A FA) : Prop := {
  co_news : NoDup news /\ forall ri w, In (ri, w) news <-> split ri w;
  co_count : length (fRoutes _ _ f') = length routes + length news;
  (* new routes are copies with the colour and a new id *)
  co_copies : forall k ri w r, nth_error news k = Some (ri, w) -> nth_error routes ri = Some r -> exists i txt,
    nth_error (fRoutes _ _ f') (length routes + k) =
      Some (mkR _ (rId _ r ++ "::" ++ NilEmpty.string_of_uint (Nat.to_uint i))%string (rType _ r) w txt (rRest _ r)) /\ text_on w txt;
  (* a route with one colour gets it, others stay as they are *)
  co_single : forall ri w r, nth_error routes ri = Some r -> single ri w -> exists txt,
    nth_error (fRoutes _ _ f') ri = Some (mkR _ (rId _ r) (rType _ r) w txt (rRest _ r)) /\
    (w = noColor -> txt = rTxt _ r) /\ (w <> noColor -> text_on w txt);
  co_others : forall ri r, nth_error routes ri = Some r -> (forall w, ~ single ri w) -> nth_error (fRoutes _ _ f') ri = Some r;
  co_ids : NoDup (map (rId _) (fRoutes _ _ f'));
  (* trips move to the copy for their colour, or stay *)
  co_trips : length (fTrips _ _ f') = length trips;
  co_moved : forall u ri w k t, wanted u ri w -> nth_error news k = Some (ri, w) -> nth_error trips u = Some t ->
    nth_error (fTrips _ _ f') u = Some (mkT (cSts t) (cShape t) (length routes + k));
  co_stay : forall u t, nth_error trips u = Some t -> (forall ri w, In (ri, w) news -> ~ wanted u ri w) -> nth_error (fTrips _ _ f') u = Some t;
  (* fare rules: the copies get copies of the rules of their route *)
  co_fares : length (fFares _ _ f') = length (fFares _ _ f);
  co_rules : forall j rules, nth_error (fFares _ _ f) j = Some rules ->
    nth_error (fFares _ _ f') j = Some (rules ++ flat_map (fun kn => map (repoint (length routes + fst kn)) (filter (rule_of (fst (snd kn))) rules))
                                                   (combine (seq 0 (length news)) news))
}.
(** Well-formed input: pointers lead somewhere, ids are unique, no trip is matched twice. *)
Record colour_input : Prop := {
  ci_routes : forall t, In t trips -> cRoute t < length routes;
  ci_rules : forall rules x r, In rules (fFares _ _ f) -> In x rules -> fst x = Some r -> r < length routes;
  ci_ids : NoDup (map (rId _) routes);
  ci_trips : forall u c, In (u, c) (concat ws) -> u < length trips;
  ci_once : NoDup (map fst (concat ws))
}.
End Spec.

(** * The colour of a shape *)
Section Shape.
Context {E Pt : Type}.
Variable len : E -> Q.
Variable colorsOf : E -> list N.
(** Length that counts for the colours of the edges of a hop. *)
Definition counted (h : hop E Pt) (l : list (E * Q)) : Prop :=
  match hStart _ _ h, hEnd _ _ h, rev (hEdges _ _ h) with
  | Some s, Some e, [x] => l = [(s, len s)]
  | Some s, Some e, x :: r =>
      exists a b, l = (s, a) :: map (fun m => (m, len m)) (removelast r) ++ b /\ (a == len s * (1 - hPrS _ _ h))%Q /\
        ((0 < hPrE _ _ h)%Q /\ b = [(e, len e * hPrE _ _ h)%Q] \/ (hPrE _ _ h <= 0)%Q /\ b = [])
  | _, _, _ => l = []
  end.
(** Length counted for a colour. *)
Fixpoint length_of (cs : list (E * Q)) (c : N) : Q :=
  match cs with
  | [] => 0
  | (e, l) :: r => (if in_dec N.eq_dec c (colorsOf e) then l else 0) + length_of r c
  end.
(** The colour of a shape of length [total]: the (first of the) most frequent among those
    that make up more than 90 percent of it. *)
Definition shape_colour (noColor : N) (cs : list (E * Q)) (total : Q) (c : N) : Prop :=
  (c = noColor /\ forall c' e l, In (e, l) cs -> In c' (colorsOf e) -> (length_of cs c' <= (9 # 10) * total)%Q) \/
  ((exists e l, In (e, l) cs /\ In c (colorsOf e)) /\ ((9 # 10) * total < length_of cs c)%Q /\
   forall c', (length_of cs c' < length_of cs c)%Q \/ ((length_of cs c' == length_of cs c)%Q /\ (c <= c')%N) \/ ~ exists e l, In (e, l) cs /\ In c' (colorsOf e)).
(** ... of a shape of length 0: the first that counts for any length. *)
Definition point_colour (noColor : N) (cs : list (E * Q)) (c : N) : Prop :=
  (c = noColor /\ forall c', (length_of cs c' <= 0)%Q) \/
  ((0 < length_of cs c)%Q /\ forall c', (c' < c)%N -> (length_of cs c' <= 0)%Q).
End Shape.
