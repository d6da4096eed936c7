(** The colours of routes: C39. *)
From Coq Require Import Ascii String List Arith NArith ZArith QArith Bool Permutation Lia.
From Verif Require Import ListAux Router_model Router_spec Shapes_model Shapes_spec Shapes_props Colours_model Colours_spec Colours_proofs.
Import ListNotations.
Open Scope nat_scope.

Section T.
Context {A FA : Type}.
Variable noColor : N.
Variable o : colopts.
Variable f : cfeed A FA.
Variable ws : list (list (nat * N)).

Lemma wanted_fun : colour_input f ws -> forall u ri w ri' w', wanted noColor o f ws u ri w -> wanted noColor o f ws u ri' w' -> ri = ri' /\ w = w'.
Proof. intros CI u ri w ri' w' H H'. exact (wanted_det noColor o f ws CI u ri w ri' w' H H'). Qed.
Lemma in_news_dec : forall (news : list (nat * N)) x, In x news \/ ~ In x news.
Proof. intros news x. destruct (in_dec (fun a b : nat * N => ltac:(decide equality; [apply N.eq_dec|apply Nat.eq_dec])) x news); auto. Qed.
Lemma wants_colour : colour_input f ws -> forall news f', coloured_by noColor o f ws news f' ->
  forall u ri w t r, wanted noColor o f ws u ri w -> nth_error (fTrips _ _ f) u = Some t -> nth_error (fRoutes _ _ f) ri = Some r ->
  exists x r', nth_error (fTrips _ _ f') u = Some (mkT (cSts t) (cShape t) x) /\ nth_error (fRoutes _ _ f') x = Some r' /\
    rCol _ r' = w /\ rType _ r' = rType _ r /\ rRest _ r' = rRest _ r /\ (w = rCol _ r -> x = ri /\ rId _ r' = rId _ r).
Proof.
  intros CI news f' C u ri w t r Wu Et Er. destruct (in_news_dec news (ri, w)) as [I|NI].
  - apply In_nth_error in I. destruct I as (k & Ek). destruct (co_copies _ _ _ _ _ _ C k ri w r Ek Er) as (i & txt & E & _).
    exists (length (fRoutes _ _ f) + k). eexists. split; [exact (co_moved _ _ _ _ _ _ C u ri w k t Wu Ek Et)|]. split; [exact E|]. cbn.
    split; [reflexivity|]. split; [reflexivity|]. split; [reflexivity|]. intros Z. exfalso.
    apply nth_error_In in Ek; apply (proj2 (co_news _ _ _ _ _ _ C)) in Ek; destruct Ek as (_ & _ & r2 & E2 & N2); rewrite Er in E2; injection E2 as <-; contradiction.
  - assert (St : nth_error (fTrips _ _ f') u = Some t).
    { apply (co_stay _ _ _ _ _ _ C u t Et). intros ri' w' I' Wu'. destruct (wanted_fun CI _ _ _ _ _ Wu Wu') as [-> ->]. contradiction. }
    assert (Rt : cRoute t = ri) by (destruct Wu as (c & t' & r' & _ & E' & E2 & _); congruence).
    assert (Single : (exists w0, single noColor o f ws ri w0) \/ forall w0, ~ single noColor o f ws ri w0).
    { destruct (nth_error (fRoutes _ _ f') ri) as [x|] eqn:Ex.
      - assert (D : w = rCol _ r \/ w <> rCol _ r) by (destruct (N.eq_dec w (rCol _ r)); auto). destruct D as [D|D].
        + (* does any other colour occur? *) destruct (in_news_dec (map (fun n => (fst n, 0%N)) news) (ri, 0%N)) as [J|J].
          * right. intros w0 (S1 & S2). apply in_map_iff in J. destruct J as ((i', c') & E' & J). cbn in E'. injection E' as ->. apply (proj2 (co_news _ _ _ _ _ _ C)) in J.
            destruct J as (Ca & (w' & Cw & Nw) & _). apply Nw. rewrite (S2 _ Ca), (S2 _ Cw). reflexivity.
          * left. exists w. split; [left; exists u; exact Wu|]. intros w' Cw. destruct (N.eq_dec w' w) as [|Nw]; [assumption|exfalso]. apply J. apply in_map_iff. exists (ri, w'). split; [reflexivity|].
            apply (proj2 (co_news _ _ _ _ _ _ C)). split; [exact Cw|]. split; [exists w; split; [left; exists u; exact Wu|auto]|]. exists r. split; [exact Er|congruence].
        + left. exists w. split; [left; exists u; exact Wu|]. intros w' Cw. destruct (N.eq_dec w' w) as [|Nw]; [assumption|exfalso]. apply NI. apply (proj2 (co_news _ _ _ _ _ _ C)).
          split; [left; exists u; exact Wu|]. split; [exists w'; auto|]. exists r. auto.
      - exfalso. apply nth_error_None in Ex. rewrite (co_count _ _ _ _ _ _ C) in Ex. apply nth_lt in Er. lia. }
    exists ri. assert (Et' : Some t = Some (mkT (cSts t) (cShape t) ri)) by (destruct t; cbn in Rt; subst; reflexivity). rewrite St, Et'.
    destruct Single as [(w0 & S)|S].
    + destruct (co_single _ _ _ _ _ _ C ri w0 r Er S) as (txt & E & _). eexists. split; [reflexivity|]. split; [exact E|]. cbn. split; [|auto]. symmetry. apply (proj2 S). left. exists u. exact Wu.
    + exists r. split; [reflexivity|]. split; [exact (co_others _ _ _ _ _ _ C ri r Er S)|]. split; [|auto].
      destruct (N.eq_dec w (rCol _ r)) as [|D]; [auto|exfalso].
      apply (S w). split; [left; exists u; exact Wu|]. intros w' Cw. destruct (N.eq_dec w' w) as [|Nw]; [assumption|exfalso]. apply NI. apply (proj2 (co_news _ _ _ _ _ _ C)).
      split; [left; exists u; exact Wu|]. split; [exists w'; auto|]. exists r. auto.
Qed.
Lemma not_free_colour : forall ri r, nth_error (fRoutes _ _ f) ri = Some r -> ~ free noColor o r -> forall w, colour_of noColor o f ws ri w -> w = rCol _ r.
Proof.
  intros ri r Er NF w [(u & c & t & r' & _ & _ & _ & Er' & [(F & _)|(_ & ->)])|(t & r' & _ & _ & Er' & _ & ->)]; rewrite Er in Er'; injection Er' as <-; [contradiction|reflexivity|reflexivity].
Qed.
End T.

(** C39: colouring never goes wrong, whatever the order in which maps are iterated and the
    work is distributed; routes, trips and fare rules are as specified. *)
Theorem C39_route_colours : forall (A FA : Type) noColor o (f : cfeed A FA) ws enumR enumC,
  (forall m, Permutation (enumR m) m) -> (forall m, Permutation (enumC m) m) -> colour_input f ws ->
  exists f' news, colourRoutes A FA noColor enumR enumC o f ws = Some f' /\ coloured_by noColor o f ws news f'.
Proof. intros A FA noColor o f ws enumR enumC ER EC CI. exact (colour_ok noColor o f ws enumR enumC ER EC CI). Qed.
Print Assumptions C39_route_colours.

(** C39: every matched trip ends up on a route with the colour wanted for it, that is its
    route or a copy of it; it stays on its route if this already has the colour. *)
Theorem C39_trips_get_colour : forall (A FA : Type) noColor o (f : cfeed A FA) ws enumR enumC f',
  (forall m, Permutation (enumR m) m) -> (forall m, Permutation (enumC m) m) -> colour_input f ws ->
  colourRoutes A FA noColor enumR enumC o f ws = Some f' ->
  forall u ri w t r, wanted noColor o f ws u ri w -> nth_error (fTrips _ _ f) u = Some t -> nth_error (fRoutes _ _ f) ri = Some r ->
  exists x r', nth_error (fTrips _ _ f') u = Some (mkT (cSts t) (cShape t) x) /\ nth_error (fRoutes _ _ f') x = Some r' /\
    rCol _ r' = w /\ rType _ r' = rType _ r /\ rRest _ r' = rRest _ r /\ (w = rCol _ r -> x = ri /\ rId _ r' = rId _ r).
Proof.
  intros A FA noColor o f ws enumR enumC f' ER EC CI H. destruct (colour_ok noColor o f ws enumR enumC ER EC CI) as (f2 & news & E & C). rewrite H in E. injection E as <-.
  exact (wants_colour noColor o f ws CI news f' C).
Qed.
Print Assumptions C39_trips_get_colour.

(** C39: without --write-colors, or if all routes have colours, no route is added, no
    route changes its id or colour, no trip its route, and no fare its rules. *)
Theorem C39_nothing_to_colour : forall (A FA : Type) noColor o (f : cfeed A FA) ws enumR enumC f',
  (forall m, Permutation (enumR m) m) -> (forall m, Permutation (enumC m) m) -> colour_input f ws ->
  (forall r, In r (fRoutes _ _ f) -> ~ free noColor o r) ->
  colourRoutes A FA noColor enumR enumC o f ws = Some f' ->
  fTrips _ _ f' = fTrips _ _ f /\ fFares _ _ f' = fFares _ _ f /\
  map (fun r => (rId _ r, rType _ r, rCol _ r, rRest _ r)) (fRoutes _ _ f') = map (fun r => (rId _ r, rType _ r, rCol _ r, rRest _ r)) (fRoutes _ _ f).
Proof.
  intros A FA noColor o f ws enumR enumC f' ER EC CI NF H. destruct (colour_ok noColor o f ws enumR enumC ER EC CI) as (f2 & news & E & C). rewrite H in E. injection E as <-.
  assert (NC : forall ri r, nth_error (fRoutes _ _ f) ri = Some r -> forall w, colour_of noColor o f ws ri w -> w = rCol _ r).
  { intros ri r Er. apply (not_free_colour noColor o f ws ri r Er). apply NF. eapply nth_error_In. exact Er. }
  assert (news = []) as ->.
  { destruct news as [|(ri, w) news]; [reflexivity|exfalso]. pose proof (proj1 (proj2 (co_news _ _ _ _ _ _ C) ri w) (or_introl eq_refl)) as (Ca & _ & r & Er & N). apply N. exact (NC _ _ Er _ Ca). }
  assert (EXT : forall B (l k : list B), length l = length k -> (forall i x, nth_error k i = Some x -> nth_error l i = Some x) -> l = k).
  { clear. induction l as [|a l IH]; intros [|b k] L X; try discriminate; [reflexivity|]. pose proof (X 0 b eq_refl) as X0. cbn in X0. injection X0 as ->. f_equal. apply IH; [cbn in L; lia|].
    intros i x Y. exact (X (S i) x Y). }
  split; [|split].
  - apply EXT; [exact (co_trips _ _ _ _ _ _ C)|]. intros u t Et. apply (co_stay _ _ _ _ _ _ C u t Et). intros ri w [].
  - apply EXT; [exact (co_fares _ _ _ _ _ _ C)|]. intros j rules Ej. rewrite (co_rules _ _ _ _ _ _ C j rules Ej). cbn. rewrite app_nil_r. reflexivity.
  - apply EXT; [rewrite !map_length, (co_count _ _ _ _ _ _ C); cbn; lia|]. intros i x Y. rewrite nth_error_map in Y |- *.
    destruct (nth_error (fRoutes _ _ f) i) as [r|] eqn:Er; [|discriminate]. cbn in Y. injection Y as <-.
    assert (X : exists r', nth_error (fRoutes _ _ f') i = Some r' /\ (rId _ r', rType _ r', rCol _ r', rRest _ r') = (rId _ r, rType _ r, rCol _ r, rRest _ r)).
    { assert (Ln : i < length (fRoutes _ _ f')) by (rewrite (co_count _ _ _ _ _ _ C); apply nth_lt in Er; lia).
      destruct (nth_error (fRoutes _ _ f') i) as [r'|] eqn:E'; [|apply nth_error_None in E'; lia]. exists r'. split; [reflexivity|].
      (* decidable case distinction on the colours of the route *)
      assert (Dc : (exists u c t, In (u, c) (concat ws) /\ nth_error (fTrips _ _ f) u = Some t /\ cRoute t = i) \/
                   (exists t, In t (fTrips _ _ f) /\ cRoute t = i /\ keeps o t r) \/ (forall w, ~ colour_of noColor o f ws i w)).
      { assert (X1 : forall l : list (nat * N), (exists u c t, In (u, c) l /\ nth_error (fTrips _ _ f) u = Some t /\ cRoute t = i) \/ ~ (exists u c t, In (u, c) l /\ nth_error (fTrips _ _ f) u = Some t /\ cRoute t = i)).
        { induction l as [|(u, c) l IH]; [right; intros (u & c & t & [] & _)|]. destruct IH as [(u' & c' & t' & I & Z)|IH]; [left; exists u', c', t'; split; [right; exact I|exact Z]|].
          destruct (nth_error (fTrips _ _ f) u) as [t|] eqn:Eu; [destruct (Nat.eq_dec (cRoute t) i) as [Z|Z]|].
          - left. exists u, c, t. split; [left; reflexivity|split; [exact Eu|exact Z]].
          - right. intros (u' & c' & t' & [I|I] & Z1 & Z2); [injection I as <- <-; rewrite Eu in Z1; injection Z1 as <-; contradiction|]. apply IH. exists u', c', t'. auto.
          - right. intros (u' & c' & t' & [I|I] & Z1 & Z2); [injection I as <- <-; congruence|]. apply IH. exists u', c', t'. auto. }
        assert (KD : forall t, keeps o t r \/ ~ keeps o t r).
        { intros t. unfold keeps. destruct (le_dec 2 (cSts t)); [|right; tauto]. destruct (in_dec Nat.eq_dec (rType _ r) (oMots o)); [|right; tauto].
          destruct (in_dec Nat.eq_dec (rType _ r) (oCfg o)); [|right; tauto]. destruct (string_dec (cShape t) ""); [right; tauto|]. destruct (oDrop o); [right; intros (_ & _ & _ & _ & Z); discriminate|left; tauto]. }
        assert (X2 : forall l, (exists t, In t l /\ cRoute t = i /\ keeps o t r) \/ ~ (exists t, In t l /\ cRoute t = i /\ keeps o t r)).
        { induction l as [|t l IH]; [right; intros (t & [] & _)|]. destruct IH as [(t' & I & Z)|IH]; [left; exists t'; split; [right; exact I|exact Z]|].
          destruct (Nat.eq_dec (cRoute t) i) as [Z|Z]; [destruct (KD t) as [K|K]|].
          - left. exists t. split; [left; reflexivity|split; [exact Z|exact K]].
          - right. intros (t' & [<-|I] & Z1 & Z2); [contradiction|]. apply IH. eauto.
          - right. intros (t' & [<-|I] & Z1 & Z2); [contradiction|]. apply IH. eauto. }
        destruct (X1 (concat ws)) as [Y1|Y1]; [auto|]. destruct (X2 (fTrips _ _ f)) as [Y2|Y2]; [auto|]. right. right.
        intros w [(u & c & t & r2 & I & E1 & E2 & _)|(t & r2 & I & E1 & E2 & K & _)]; [apply Y1; exists u, c, t; auto|]. apply Y2. rewrite Er in E2. injection E2 as <-. exists t. auto. }
      assert (Si : colour_of noColor o f ws i (rCol _ r) -> (rId _ r', rType _ r', rCol _ r', rRest _ r') = (rId _ r, rType _ r, rCol _ r, rRest _ r)).
      { intros Ca. assert (S : single noColor o f ws i (rCol _ r)) by (split; [exact Ca|intros w' Cw; exact (NC i r Er w' Cw)]).
        destruct (co_single _ _ _ _ _ _ C i _ r Er S) as (txt & E2 & _). rewrite E' in E2. injection E2 as ->. reflexivity. }
      destruct Dc as [(u & c & t & I & E1 & E2)|[(t & I & E1 & K)|Nn]].
      + apply Si. left. exists u, c, t, r. repeat split; auto. right. split; [|reflexivity]. intros (F & _). exact (NF r (nth_error_In _ _ Er) F).
      + apply Si. right. exists t, r. auto.
      + assert (NS : forall w, ~ single noColor o f ws i w) by (intros w S; exact (Nn w (proj1 S))).
        pose proof (co_others _ _ _ _ _ _ C i r Er NS) as E2. rewrite E' in E2. injection E2 as ->. reflexivity. }
    destruct X as (r' & E' & X). rewrite E'. cbn. congruence.
Qed.
Print Assumptions C39_nothing_to_colour.

(** C39: the colour of a shape is a colour that counts for more than 90 percent of its
    length, and the one that counts most (there is none if no colour counts that much); for a
    shape of length 0 it is the first one that counts at all. *)
Theorem C39_shape_colour : forall (E Pt : Type) eqE geom isRev fromPt toPt len segment simplify hav rndF rndD (colorsOf : E -> list N) noColor (hops : list (hop E Pt)) ps ds c,
  (forall a b, eqE a b = true <-> a = b) -> (forall e, NoDup (colorsOf e)) -> Forall (hop_ok fromPt toPt) hops ->
  getGtfsShape E Pt eqE geom isRev fromPt toPt len segment simplify hav rndF rndD colorsOf noColor hops = Some (ps, ds, c) ->
  exists counts p total n, Forall2 (counted len) (rev hops) counts /\ nth_error ps (length ps - 1) = Some (p, total, n) /\
    ((0 < total)%Q -> shape_colour colorsOf noColor (concat counts) total c) /\
    ((total == 0)%Q -> point_colour colorsOf noColor (concat counts) c).
Proof.
  intros E Pt eqE geom isRev fromPt toPt len segment simplify hav rndF rndD colorsOf noColor hops ps ds c EQ CN HO H.
  exact (shape_colour_ok eqE EQ geom isRev fromPt toPt len segment simplify hav rndF rndD colorsOf CN noColor hops ps ds c HO H).
Qed.
Print Assumptions C39_shape_colour.

(** ** Examples *)
Definition yw : N := 99999999.
Definition yr (i : string) (c t : N) (x : nat) : route nat := mkR nat i 3 c t x.
(** Route 0 has no colour: its trips are matched with red and blue, one keeps its shape.
    Route 1 has no colour, its trips are all matched with red.  Route 2 is green. *)
Definition yfeed : cfeed nat nat := mkF nat nat
  [yr "a" yw yw 7; yr "b" yw yw 8; yr "c" 65280 0 9; yr "a::1" 1 2 10]%string
  [mkT 3 "" 0; mkT 3 "" 0; mkT 3 "old" 0; mkT 2 "" 1; mkT 1 "" 1; mkT 2 "" 2]%string
  [[(Some 0, 100); (None, 101)]; [(Some 1, 102); (Some 0, 103)]].
Definition yo := mkO [3] [3] false true.
Definition yws : list (list (nat * N)) := [[(0, 16711680%N); (5, 16711680%N)]; [(1, 255%N); (3, 16711680%N)]].
Definition yrun := colourRoutes nat nat yw (fun m => m) (fun m => rev m) yo yfeed yws.
Example C39_case : colour_input yfeed yws /\
  match yrun with
  | Some f' =>
      map (fun r => (rId _ r, rCol _ r, rRest _ r)) (fRoutes _ _ f') =
        [("a", yw, 7); ("b", 16711680%N, 8); ("c", 65280%N, 9); ("a::1", 1%N, 10); ("a::2", 255%N, 7); ("a::3", 16711680%N, 7)]%string /\
      map cRoute (fTrips _ _ f') = [5; 4; 0; 1; 1; 2] /\
      fFares _ _ f' = [[(Some 0, 100); (None, 101); (Some 4, 100); (Some 5, 100)]; [(Some 1, 102); (Some 0, 103); (Some 4, 103); (Some 5, 103)]]
  | None => False
  end.
Proof.
  split; [constructor|vm_compute; auto].
  - intros t I. cbn in I. repeat (destruct I as [<-|I]; [cbn; lia|]). contradiction.
  - intros rules x r I J E. cbn in I. repeat (destruct I as [<-|I]; [cbn in J; repeat (destruct J as [<-|J]; [cbn in E; try discriminate; injection E as <-; cbn; lia|]); contradiction|]). contradiction.
  - cbn. repeat constructor; cbn; intuition discriminate.
  - intros u c I. cbn in I. repeat (destruct I as [I|I]; [injection I as <- <-; cbn; lia|]). contradiction.
  - cbn. repeat constructor; cbn; intuition discriminate.
Qed.

(** C39: the claim that without --write-colors routes are not changed is false: the text
    colour of a route with a colour is overwritten. *)
Theorem C39_text_colour_refuted : exists (f : cfeed nat nat) ws o f' r r',
  colour_input f ws /\ oWrite o = false /\ colourRoutes nat nat yw (fun m => m) (fun m => m) o f ws = Some f' /\
  nth_error (fRoutes _ _ f) 0 = Some r /\ nth_error (fRoutes _ _ f') 0 = Some r' /\ rTxt _ r' <> rTxt _ r.
Proof.
  exists (mkF nat nat [yr "c" 255 1193046 9]%string [mkT 2 "" 0]%string []), [[(0, yw)]], (mkO [3] [3] false false). do 3 eexists.
  split; [|split; [reflexivity|split; [vm_compute; reflexivity|split; [reflexivity|split; [reflexivity|discriminate]]]]].
  constructor; cbn.
  - intros t [<-|[]]. cbn. lia.
  - intros rules x r [].
  - repeat constructor. intros [].
  - intros u c [I|[]]. injection I as <- <-. lia.
  - repeat constructor. intros [].
Qed.
Print Assumptions C39_text_colour_refuted.

(** C39: the claim that trips that get no new shape keep the colour of their route is
    false: trips with a single stop are not counted when a route is recoloured. *)
Theorem C39_untouched_trip_refuted : exists (f : cfeed nat nat) ws o f' u t r r',
  colour_input f ws /\ (forall c, ~ In (u, c) (concat ws)) /\ nth_error (fTrips _ _ f) u = Some t /\ cShape t <> ""%string /\ oDrop o = false /\
  colourRoutes nat nat yw (fun m => m) (fun m => m) o f ws = Some f' /\
  nth_error (fTrips _ _ f') u = Some t /\ nth_error (fRoutes _ _ f) (cRoute t) = Some r /\ nth_error (fRoutes _ _ f') (cRoute t) = Some r' /\ rCol _ r' <> rCol _ r.
Proof.
  exists (mkF nat nat [yr "c" yw yw 9]%string [mkT 2 "" 0; mkT 1 "old" 0]%string []), [[(0, 255%N)]], (mkO [3] [3] false true). eexists. exists 1. do 3 eexists.
  split; [|split; [|split; [reflexivity|split; [|split; [reflexivity|split; [vm_compute; reflexivity|split; [reflexivity|split; [reflexivity|split; [reflexivity|discriminate]]]]]]]]].
  - constructor; cbn.
    + intros t [<-|[<-|[]]]; cbn; lia.
    + intros rules x r [].
    + repeat constructor. intros [].
    + intros u c [I|[]]. injection I as <- <-. lia.
    + repeat constructor. intros [].
  - intros c [I|[]]. discriminate.
  - discriminate.
Qed.
Print Assumptions C39_untouched_trip_refuted.

(** C39: the claim that the chosen colour belongs to edges that make up 90 percent of the
    shape is false: if a trip stops twice on an edge, the whole edge counts for each hop.
    Here the shape leads from 4 to 15; only the edge from 0 to 10 has colour 5. *)
Definition ycol (e : nat) : list N := if e =? 0 then [5%N] else [].
Definition yh1 : hop nat Q := mkHop nat Q [0] (Some 0) (Some 0) (4 # 10) (5 # 10) 0%Q 0%Q.
Definition yh2 : hop nat Q := mkHop nat Q [1; 0] (Some 0) (Some 1) (5 # 10) (5 # 10) 0%Q 0%Q.
Theorem C39_same_edge_refuted : exists hops ps ds,
  Forall (hop_ok xfrom xto) hops /\ Forall forward hops /\ chained (C:=Z) hops /\
  getGtfsShape nat Q Nat.eqb (fun _ => None) (fun _ => false) xfrom xto (fun _ => 10%Q) xseg (fun l => l) xhav Qred Qred ycol 0%N hops = Some (ps, ds, 5%N) /\
  map (fun p => fst (fst p)) ps = [4; 5; 5; 10; 10; 15]%Q /\
  (forall e, In 5%N (ycol e) -> xfrom e = 0%Q /\ xto e = 10%Q).
Proof.
  exists [yh2; yh1]. do 2 eexists. split; [|split; [|split; [|split; [vm_compute; reflexivity|split; [vm_compute; reflexivity|]]]]].
  - constructor; [|constructor; [|constructor]].
    + split; [split; vm_compute; discriminate|]. split; [split; vm_compute; discriminate|].
      intros s e X Y. injection X as <-. injection Y as <-. right. cbn. repeat split; [exists [1]; reflexivity|exists [0]; reflexivity].
    + split; [split; vm_compute; discriminate|]. split; [split; vm_compute; discriminate|].
      intros s e X Y. injection X as <-. injection Y as <-. right. cbn. repeat split; exists []; reflexivity.
  - constructor; [|constructor; [|constructor]]; intros s X Y Z; [discriminate Z|]. vm_compute. discriminate.
  - cbn. split; [|exact Logic.I]. exists (mkCand Z nat Q (Some 0) 0%Z (5 # 10) 0%Q 0%Z []). repeat split; intros; try reflexivity; discriminate.
  - intros e J. unfold ycol in J. destruct e as [|e]; [split; reflexivity|contradiction].
Qed.
Print Assumptions C39_same_edge_refuted.
