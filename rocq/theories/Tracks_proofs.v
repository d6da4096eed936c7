(** Proofs for the tracks of stations. *)
From Coq Require Import Ascii String List Arith NArith ZArith QArith Bool Lia Permutation.
From Verif Require Import ListAux OsmRead_model OsmRead_spec Attrs_model Tracks_model Tracks_spec.
From Verif Require OsmRead_proofs Build_model Build_proofs Build_spec.
Import ListNotations.
Open Scope nat_scope.
Open Scope list_scope.

(** ** The steps *)
Lemma f2_len : forall A B (R : A -> B -> Prop) l m, Forall2 R l m -> length l = length m.
Proof. induction 1; cbn; congruence. Qed.
Lemma nb_len : forall A (l : list A), length (neighbours l) = pred (length l).
Proof. induction l as [|a [|b l] IH]; [reflexivity|reflexivity|]. cbn [neighbours length]. cbn [neighbours] in IH. rewrite IH. cbn. lia. Qed.
Lemma steps_ways : forall U ws O, map (map fst) O = map U ws -> map fst (steps_of ws O) = flat_map (fun w => repeat w (pred (length (U w : list nat)))) ws.
Proof.
  intros U. induction ws as [|w ws IH]; intros [|l O] E; try discriminate; [reflexivity|]. cbn in E. injection E as E1 E2. unfold steps_of. cbn. rewrite map_app. fold (steps_of ws O). rewrite (IH O E2). f_equal.
  rewrite map_map. cbn. rewrite <- E1, map_length, <- nb_len. clear. induction (neighbours l); cbn; congruence.
Qed.
Section Read.
Variable level : list (string * string) -> nat.
Variable oneway onewayrev : list (string * string) -> bool.
Variable linesOf : nat -> list nat.
Variable trackOf : way -> string.
Variables hup has : nat -> bool.
Notation readEdges := (readEdges level oneway onewayrev linesOf hup has).
Notation wayEdges := (wayEdges level oneway onewayrev linesOf hup has).
Notation readTracks := (readTracks level oneway onewayrev linesOf trackOf hup has).
Notation cnt := (fun w => pred (length (usedNodes hup has w))).

Lemma segs_grow : forall g w, exists l, gSegs (wayEdges g w) = gSegs g ++ l.
Proof.
  intros g w. unfold OsmRead_model.wayEdges.
  assert (K : forall ids s, exists l, gSegs (fst (fold_left (wayStep level oneway onewayrev linesOf hup has w) ids s)) = gSegs (fst s) ++ l).
  { induction ids as [|id ids IH]; intros s; cbn [fold_left]; [exists []; now rewrite app_nil_r|].
    destruct (IH (wayStep level oneway onewayrev linesOf hup has w s id)) as (l & ->).
    assert (K1 : exists l1, gSegs (fst (wayStep level oneway onewayrev linesOf hup has w s id)) = gSegs (fst s) ++ l1).
    { destruct s as [g0 last]. cbn [wayStep fst]. unfold nodeFor.
      destruct (hup id); [destruct last as [[li l0]|]; cbn; eauto; exists []; now rewrite app_nil_r|].
      destruct (lookup (gNodes g0) id) as [v|]; [destruct last as [[li l0]|]; cbn; eauto; exists []; now rewrite app_nil_r|].
      destruct (has id); [destruct last as [[li l0]|]; cbn; eauto; exists []; now rewrite app_nil_r|]. exists []. cbn. now rewrite app_nil_r. }
    destruct K1 as (l1 & ->). exists (l1 ++ l). now rewrite app_assoc. }
  apply (K (wNodes w) (g, None)).
Qed.
Lemma segs_count : forall ws, length (gSegs (readEdges ws)) = length (flat_map (fun w => repeat w (cnt w)) ws).
Proof.
  intros ws. destruct (OsmRead_proofs.graph_ok level oneway onewayrev linesOf hup has ws) as (O & G).
  pose proof (f2_len _ _ _ _ _ (go_segs _ _ _ _ _ _ _ _ _ G)) as L. rewrite <- L. rewrite <- (steps_ways (usedNodes hup has) ws O (go_nodes _ _ _ _ _ _ _ _ _ G)), map_length. reflexivity.
Qed.
Definition put' (m : list (nat * string)) (x : nat * way) : list (nat * string) := if String.eqb (trackOf (snd x)) "" then m else putTrack m (fst x) (trackOf (snd x)).
Lemma combine_app : forall A B (l1 l2 : list A) (m1 m2 : list B), length l1 = length m1 -> combine (l1 ++ l2) (m1 ++ m2) = combine l1 m1 ++ combine l2 m2.
Proof. induction l1 as [|a l1 IH]; intros l2 [|b m1] m2 L; try discriminate; [reflexivity|]. cbn. f_equal. apply IH. now injection L. Qed.
Lemma zip1 : forall w l m, fold_left (fun m sg => if String.eqb (trackOf w) "" then m else putTrack m (sgEdge sg) (trackOf w)) l m = fold_left put' (combine (map sgEdge l) (repeat w (length l))) m.
Proof. intros w. induction l as [|x l IH]; intros m; [reflexivity|]. cbn. apply IH. Qed.
Lemma tracks_zip : forall ws, readTracks ws = (readEdges ws, fold_left put' (combine (map sgEdge (gSegs (readEdges ws))) (flat_map (fun w => repeat w (cnt w)) ws)) []).
Proof.
  induction ws as [|w ws IH] using rev_ind; [reflexivity|]. unfold Tracks_model.readTracks, OsmRead_model.readEdges in *. rewrite !fold_left_app. cbn [fold_left]. rewrite IH. unfold wayTracks. cbn [fst snd].
  fold (OsmRead_model.readEdges level oneway onewayrev linesOf hup has ws) in *. f_equal.
  destruct (segs_grow (readEdges ws) w) as (l & El).
  assert (C : length l = cnt w).
  { pose proof (segs_count (ws ++ [w])) as C1. pose proof (segs_count ws) as C2. unfold OsmRead_model.readEdges in C1 at 1. rewrite fold_left_app in C1. cbn [fold_left] in C1.
    fold (OsmRead_model.readEdges level oneway onewayrev linesOf hup has ws) in C1. rewrite El in C1. rewrite flat_map_app, !app_length, C2 in C1. cbn [flat_map] in C1. rewrite app_nil_r, repeat_length in C1. lia. }
  rewrite El, flat_map_app, map_app. cbn [flat_map]. rewrite app_nil_r.
  rewrite combine_app by (rewrite map_length; apply segs_count). rewrite fold_left_app.
  rewrite skipn_app, skipn_all, Nat.sub_diag. cbn [skipn app].
  rewrite <- C. apply zip1.
Qed.

(** ** The tracks of edges *)
Lemma put_in : forall m e t k u, In (k, u) (putTrack m e t) <-> (k, u) = (e, t) \/ k <> e /\ In (k, u) m.
Proof.
  intros m e t k u. unfold putTrack. rewrite in_app_iff, filter_In. cbn. destruct (Nat.eqb_spec k e) as [->|N]; cbn.
  - split; [intros [[_ X]|[X|[]]]; [discriminate|left; auto]|intros [X|[X _]]; [right; left; auto|contradiction]].
  - split; [intros [[X _]|[X|[]]]; [right; auto|injection X as <- _; contradiction]|intros [X|[_ X]]; [injection X as -> _; contradiction|left; auto]].
Qed.
Lemma put_nodup : forall m e t, NoDup (map fst m) -> NoDup (map fst (putTrack m e t)).
Proof.
  intros m e t N. unfold putTrack. rewrite map_app. cbn.
  assert (F : NoDup (map fst (filter (fun x => negb (fst x =? e)) m)) /\ ~ In e (map fst (filter (fun x => negb (fst x =? e)) m))).
  { split.
    - induction m as [|x m IH]; [constructor|]. cbn in N. inversion N; subst. cbn. destruct (negb (fst x =? e)); cbn; [|auto]. constructor; [|auto].
      intros I. apply in_map_iff in I. destruct I as (y & Ey & I). apply filter_In in I. destruct I as [I _]. apply H1. rewrite <- Ey. now apply in_map.
    - intros I. apply in_map_iff in I. destruct I as (y & <- & I). apply filter_In in I. destruct I as [_ I]. rewrite Nat.eqb_refl in I. discriminate. }
  destruct F as [F1 F2]. apply NoDup_rev in F1. rewrite <- (rev_involutive (map fst (filter (fun x => negb (fst x =? e)) m) ++ [e])). apply NoDup_rev. rewrite rev_app_distr. cbn. constructor; [|exact F1].
  rewrite <- in_rev. exact F2.
Qed.
Lemma puts_nodup : forall L m, NoDup (map fst m) -> NoDup (map fst (fold_left put' L m)).
Proof. induction L as [|x L IH]; intros m N; [exact N|]. cbn. apply IH. unfold put'. destruct (String.eqb (trackOf (snd x)) ""); [exact N|now apply put_nodup]. Qed.
Lemma puts_in : forall L e t, In (e, t) (fold_left put' L []) <->
  exists L1 w L2, L = L1 ++ (e, w) :: L2 /\ trackOf w = t /\ t <> ""%string /\ forall w', In (e, w') L2 -> trackOf w' = ""%string.
Proof.
  induction L as [|x L IH] using rev_ind; intros e t; [split; [intros []|intros (L1 & w & L2 & E & _); destruct L1; discriminate]|].
  rewrite fold_left_app. cbn [fold_left]. unfold put' at 1. destruct x as [k w0]. cbn [fst snd].
  assert (Old : forall w0 k, (exists L1 w L2, L = L1 ++ (e, w) :: L2 /\ trackOf w = t /\ t <> ""%string /\ forall w', In (e, w') L2 -> trackOf w' = ""%string) -> (k = e -> trackOf w0 = ""%string) ->
     exists L1 w L2, L ++ [(k, w0)] = L1 ++ (e, w) :: L2 /\ trackOf w = t /\ t <> ""%string /\ forall w', In (e, w') L2 -> trackOf w' = ""%string).
  { intros w1 k1 (L1 & w & L2 & -> & Et & Nt & Af) H. exists L1, w, (L2 ++ [(k1, w1)]). split; [now rewrite <- app_assoc|]. split; [exact Et|]. split; [exact Nt|].
    intros w' I. apply in_app_or in I. destruct I as [I|[I|[]]]; [auto|]. injection I as <- <-. auto. }
  assert (Back : (exists L1 w L2, L ++ [(k, w0)] = L1 ++ (e, w) :: L2 /\ trackOf w = t /\ t <> ""%string /\ forall w', In (e, w') L2 -> trackOf w' = ""%string) ->
     (k = e /\ trackOf w0 = t /\ t <> ""%string) \/ ((k = e -> trackOf w0 = ""%string) /\ exists L1 w L2, L = L1 ++ (e, w) :: L2 /\ trackOf w = t /\ t <> ""%string /\ forall w', In (e, w') L2 -> trackOf w' = ""%string)).
  { intros (L1 & w & L2 & E & Et & Nt & Af). destruct L2 as [|y L2] using rev_ind.
    - apply app_inj_tail in E. destruct E as [_ E]. injection E as -> ->. left. auto.
    - clear IHL2. rewrite app_comm_cons, app_assoc in E. apply app_inj_tail in E. destruct E as [-> <-]. right. split.
      + intros ->. apply Af. apply in_or_app. right. left. reflexivity.
      + exists L1, w, L2. split; [reflexivity|]. split; [exact Et|]. split; [exact Nt|]. intros w' I. apply Af. apply in_or_app. auto. }
  destruct (String.eqb_spec (trackOf w0) "") as [E0|E0].
  - rewrite IH. split; [intros H; apply Old; auto|]. intros H. destruct (Back H) as [(_ & X & Y)|(_ & X)]; [congruence|exact X].
  - rewrite put_in, IH. split.
    + intros [X|[N X]]; [injection X as -> ->; exists L, w0, []; split; [reflexivity|]; split; [reflexivity|]; split; [exact E0|intros w' []]|apply Old; [exact X|congruence]].
    + intros H. destruct (Back H) as [(-> & -> & _)|(N & X)]; [left; reflexivity|]. right. split; [|exact X]. intros ->. auto.
Qed.
End Read.

Lemma combine_map_fst : forall A B (l : list A) (m : list B), length l = length m -> map fst (combine l m) = l.
Proof. induction l as [|a l IH]; intros [|b m] L; try discriminate; [reflexivity|]. cbn. f_equal. apply IH. now injection L. Qed.
(** [h], [x]: any characterisation of the id sets. *)
Lemma edge_tracks : forall level oneway onewayrev linesOf trackOf hup has hup' has' ws O,
  (forall id, hup' id = hup id) -> (forall id, has' id = has id) ->
  GraphOf level oneway onewayrev linesOf hup' has' ws (readEdges level oneway onewayrev linesOf hup has ws) O ->
  exists tr, readTracks level oneway onewayrev linesOf trackOf hup has ws = (readEdges level oneway onewayrev linesOf hup has ws, tr) /\
  NoDup (map fst tr) /\
  forall i t, In (i, t) tr <-> exists e, nth_error (gEdges (readEdges level oneway onewayrev linesOf hup has ws)) i = Some e /\ edge_track trackOf (steps_of ws O) (eFrom e) (eTo e) t.
Proof.
  intros level oneway onewayrev linesOf trackOf hup has hup' has' ws O Eh Ea G. set (g := readEdges level oneway onewayrev linesOf hup has ws) in *.
  eexists. split; [apply tracks_zip|]. split; [apply puts_nodup; constructor|]. fold g. intros i t. rewrite puts_in.
  assert (EU : flat_map (fun w => repeat w (pred (length (usedNodes hup has w)))) ws = map fst (steps_of ws O)).
  { symmetry. apply (steps_ways (usedNodes hup has)). rewrite (go_nodes _ _ _ _ _ _ _ _ _ G). apply map_ext. intros w. unfold usedNodes. apply filter_ext. intros id. now rewrite Eh, Ea. }
  rewrite EU. pose proof (go_segs _ _ _ _ _ _ _ _ _ G) as F. fold (steps_of ws O) in F.
  assert (A : Forall2 (fun s x => snd x = fst s /\ exists e, nth_error (gEdges g) (fst x) = Some e /\ onStep (eFrom e) (eTo e) s) (steps_of ws O) (combine (map sgEdge (gSegs g)) (map fst (steps_of ws O)))).
  { revert F. generalize (steps_of ws O) (gSegs g). intros T L F. induction F as [|s x T L (H1 & H2 & H3 & e & He & Ef & Et) F IH]; [constructor|]. cbn. constructor; [|exact IH]. cbn.
    split; [reflexivity|]. exists e. split; [exact He|]. destruct s as [w [[a1 a2] [b1 b2]]]. cbn in *. unfold onStep. cbn. injection H2 as _ H2. injection H3 as _ H3. split; congruence. }
  clear F EU. set (L := combine (map sgEdge (gSegs g)) (map fst (steps_of ws O))) in *.
  assert (Same : forall k e e' (s : way * (nat * nat * (nat * nat))), nth_error (gEdges g) k = Some e -> nth_error (gEdges g) i = Some e' -> onStep (eFrom e) (eTo e) s -> onStep (eFrom e') (eTo e') s -> k = i).
  { intros k e e' s E1 E2 [S1 S2] [S3 S4]. pose proof (go_once _ _ _ _ _ _ _ _ _ G) as N. rewrite NoDup_nth_error in N.
    apply N; [rewrite map_length; apply nth_error_Some; congruence|]. rewrite !nth_error_map, E1, E2. cbn. congruence. }
  split.
  - intros (L1 & w & L2 & E & Et & Nt & Af). rewrite E in A. apply Forall2_app_inv_r in A. destruct A as (T1 & T' & A1 & A2 & ET). inversion A2 as [|s x T2 L2' (Ew & e & He & Hs) A3 E1 E2]; subst.
    cbn [fst snd] in *. exists e. split; [exact He|]. exists T1, s, T2. split; [exact ET|]. split; [exact Hs|]. split; [now rewrite <- Ew|]. split; [exact Nt|].
    intros s' Is' Os'. destruct (In_nth_error _ _ Is') as (q & Eq). assert (exists x, nth_error L2 q = Some x /\ snd x = fst s' /\ exists e, nth_error (gEdges g) (fst x) = Some e /\ onStep (eFrom e) (eTo e) s') as (x & Ex & Sx & e2 & He2 & Hs2).
    { clear - A3 Eq. revert q Eq. induction A3 as [|a x T L H A IH]; intros [|q] Eq; try discriminate; cbn in Eq; [injection Eq as <-; exists x; split; [reflexivity|exact H]|exact (IH q Eq)]. }
    rewrite <- Sx. apply Af. rewrite <- (Same _ _ _ _ He2 He Hs2 Os'). destruct x. exact (nth_error_In _ _ Ex).
  - intros (e & He & T1 & s & T2 & E & Hs & Et & Nt & Af). rewrite E in A. apply Forall2_app_inv_l in A. destruct A as (L1 & L' & A1 & A2 & EL). inversion A2 as [|a x T2' L2 (Ew & e2 & He2 & Hs2) A3 E1 E2]; subst.
    destruct x as [k w]. cbn [fst snd] in *. pose proof (Same _ _ _ _ He2 He Hs2 Hs) as ->. exists L1, w, L2. split; [exact EL|]. split; [now rewrite Ew|]. split; [exact Nt|].
    intros w' I. destruct (In_nth_error _ _ I) as (q & Eq). assert (exists s', nth_error T2 q = Some s' /\ w' = fst s' /\ exists e, nth_error (gEdges g) i = Some e /\ onStep (eFrom e) (eTo e) s') as (s' & Es' & -> & e3 & He3 & Hs3).
    { clear - A3 Eq. revert q Eq. induction A3 as [|a x T L H A IH]; intros [|q] Eq; try discriminate; cbn in Eq; [injection Eq as ->; exists a; split; [reflexivity|exact H]|exact (IH q Eq)]. }
    rewrite He in He3. injection He3 as <-. apply Af; [exact (nth_error_In _ _ Es')|exact Hs3].
Qed.
Lemma some_track : forall trackOf T n, on_tracked_way trackOf T n <-> exists t, track_at trackOf T n t.
Proof.
  intros trackOf T n. split.
  - intros (s & I & Hn & Nt). set (a := snd (fst (snd s))) in *. set (b := snd (snd (snd s))) in *.
    assert (K : forall T, In s T -> exists t, edge_track trackOf T a b t).
    { clear I. induction T0 as [|x T0 IH]; [intros []|]. intros I.
      assert (D : (exists t, edge_track trackOf T0 a b t) \/ forall s', In s' T0 -> onStep a b s' -> trackOf (fst s') = ""%string).
      { clear. induction T0 as [|x T0 IH]; [right; intros s' []|]. destruct IH as [(t & T1 & y & T2 & -> & H)|IH].
        - left. exists t, (x :: T1), y, T2. split; [reflexivity|exact H].
        - destruct (Nat.eq_dec (snd (fst (snd x))) a) as [E1|E1]; [|right; intros s' [<-|I] O; [destruct O; contradiction|auto]].
          destruct (Nat.eq_dec (snd (snd (snd x))) b) as [E2|E2]; [|right; intros s' [<-|I] O; [destruct O; contradiction|auto]].
          destruct (String.eqb_spec (trackOf (fst x)) "") as [E3|E3]; [right; intros s' [<-|I] O; auto|].
          left. exists (trackOf (fst x)), [], x, T0. repeat split; auto. }
      destruct D as [(t & T1 & y & T2 & -> & H)|D]; [exists t, (x :: T1), y, T2; split; [reflexivity|exact H]|].
      destruct I as [->|I]; [|exfalso; apply Nt; apply (D s I); split; reflexivity].
      exists (trackOf (fst s)), [], s, T0. split; [reflexivity|]. split; [split; reflexivity|]. split; [reflexivity|]. split; [exact Nt|exact D]. }
    destruct (K T I) as (t & H). exists t, a, b. split; [exact Hn|exact H].
  - intros (t & a & b & Hn & T1 & s & T2 & -> & [Ha Hb] & Et & Nt & _). exists s. split; [apply in_or_app; right; left; reflexivity|]. split; [rewrite Ha, Hb; exact Hn|congruence].
Qed.

(** ** Writing them *)
Section Write.
Context {P : Type}.
Notation payload := (@payload P statInfo).
Variable es : list edge.
(** Of the tracks [D] were handled. *)
Definition passes (k n : nat) : Prop := exists e, nth_error es k = Some e /\ (eFrom e = n \/ eTo e = n).
Record given (A : nat -> string -> Prop) (f f' : nat -> payload) : Prop := {
  gv_pos : forall n, pPos (f' n) = pPos (f n);
  gv_other : forall n, (forall i, pState (f n) <> Station i) -> pState (f' n) = pState (f n);
  gv_station : forall n i, pState (f n) = Station i -> exists j, pState (f' n) = Station j /\ siName j = siName i /\ siAlt j = siAlt i /\
    (siTrack i <> ""%string -> siTrack j = siTrack i) /\ (siTrack i = ""%string -> A n (siTrack j) \/ siTrack j = ""%string /\ forall t, ~ A n t)
}.
Lemma give_one : forall A f f' t m, t <> ""%string -> given A f f' -> (forall n u, A n u -> u <> ""%string) ->
  given (fun n u => A n u \/ n = m /\ u = t) f (giveTrack t f' m).
Proof.
  intros A f f' t m Nt [G1 G2 G3] NA.
  assert (Nm : forall n, n <> m -> giveTrack t f' m n = f' n).
  { intros n N. unfold giveTrack. destruct (pState (f' m)); try reflexivity. destruct (String.eqb (siTrack i) ""); [|reflexivity]. unfold setPay. now apply Nat.eqb_neq in N as ->. }
  split.
  - intros n. rewrite <- G1. destruct (Nat.eq_dec n m) as [->|N]; [|now rewrite Nm]. unfold giveTrack. destruct (pState (f' m)); try reflexivity. destruct (String.eqb (siTrack i) ""); [|reflexivity]. unfold setPay. now rewrite Nat.eqb_refl.
  - intros n H. rewrite <- (G2 n H). destruct (Nat.eq_dec n m) as [->|N]; [|now rewrite Nm]. unfold giveTrack. pose proof (G2 m H) as X. destruct (pState (f' m)) as [| | |i] eqn:Ep; try exact Ep. exfalso. apply (H i). now rewrite <- X.
  - intros n i Hi. destruct (G3 n i Hi) as (j & Hj & N1 & N2 & K & T). destruct (Nat.eq_dec n m) as [->|N].
    + unfold giveTrack. rewrite Hj. destruct (String.eqb_spec (siTrack j) "") as [E|E].
      * exists (setTrack t j). split; [unfold setPay; rewrite Nat.eqb_refl; reflexivity|]. split; [exact N1|]. split; [exact N2|]. split; [intros X; exfalso; apply X; rewrite <- (K X); exact E|]. intros _. left. right. cbn. auto.
      * exists j. split; [exact Hj|]. split; [exact N1|]. split; [exact N2|]. split; [exact K|]. intros X. destruct (T X) as [Y|[Y _]]; [left; left; exact Y|contradiction].
    + exists j. rewrite Nm by exact N. split; [exact Hj|]. split; [exact N1|]. split; [exact N2|]. split; [exact K|]. intros X. destruct (T X) as [Y|[Y Z]]; [left; left; exact Y|right]. split; [exact Y|]. intros u [H|[H _]]; [exact (Z u H)|contradiction].
Qed.
Lemma given_ext : forall A B f f', (forall n t, A n t <-> B n t) -> given A f f' -> given B f f'.
Proof.
  intros A B f f' E [G1 G2 G3]. split; [exact G1|exact G2|]. intros n i Hi. destruct (G3 n i Hi) as (j & H1 & H2 & H3 & H4 & H5). exists j. repeat (split; [assumption|]).
  intros X. destruct (H5 X) as [Y|[Y Z]]; [left; now apply E|right]. split; [exact Y|]. intros t H. apply (Z t). now apply E.
Qed.
Lemma given_tracks : forall tr f, (forall k t, In (k, t) tr -> t <> ""%string) -> given (fun n t => exists k, In (k, t) tr /\ passes k n) f (fold_left (edgeTrack es) tr f).
Proof.
  intros tr f. induction tr as [|x tr IH] using rev_ind; intros N.
  - cbn. split; auto. intros n i Hi. exists i. repeat (split; [auto|]). intros X. right. split; [exact X|]. intros t (k & [] & _).
  - assert (IH' := IH (fun k t H => N k t (in_or_app _ _ _ (or_introl H)))). clear IH. rewrite fold_left_app. cbn [fold_left]. set (f1 := fold_left (edgeTrack es) tr f) in *. destruct x as [k t].
    assert (Nt : t <> ""%string) by (apply (N k); apply in_or_app; right; left; reflexivity).
    assert (NA : forall n u, (exists k, In (k, u) tr /\ passes k n) -> u <> ""%string) by (intros n u (k' & H & _); apply (N k'); apply in_or_app; left; exact H).
    unfold edgeTrack. cbn [fst snd]. destruct (nth_error es k) as [e|] eqn:Ek.
    + pose proof (give_one _ _ _ t (eTo e) Nt IH' NA) as G1.
      assert (NA1 : forall n u, (exists k, In (k, u) tr /\ passes k n) \/ n = eTo e /\ u = t -> u <> ""%string) by (intros n u [H|[_ ->]]; [exact (NA n u H)|exact Nt]).
      pose proof (give_one _ _ _ t (eFrom e) Nt G1 NA1) as G2. revert G2. apply given_ext. intros n u. split.
      * intros [[(k' & H & Hp)|[-> ->]]|[-> ->]]; [exists k'; split; [apply in_or_app; left; exact H|exact Hp]| |]; (exists k; split; [apply in_or_app; right; left; reflexivity|exists e; auto]).
      * intros (k' & H & Hp). apply in_app_or in H. destruct H as [H|[H|[]]]; [left; left; exists k'; auto|]. injection H as <- <-. destruct Hp as (e' & Ee & [<-|<-]); rewrite Ek in Ee; injection Ee as <-; auto.
    + revert IH'. apply given_ext. intros n u. split.
      * intros (k' & H & Hp). exists k'. split; [apply in_or_app; left; exact H|exact Hp].
      * intros (k' & H & Hp). apply in_app_or in H. destruct H as [H|[H|[]]]; [exists k'; auto|]. injection H as <- <-. destruct Hp as (e & Ee & _). congruence.
Qed.
End Write.

Lemma tracks_written : forall (P : Type) trackOf T es tr tr' (s : @ngraph P statInfo),
  (forall i t, In (i, t) tr <-> exists e, nth_error es i = Some e /\ edge_track trackOf T (eFrom e) (eTo e) t) ->
  (forall a b, (exists s, In s T /\ onStep a b s) -> exists e, In e es /\ eFrom e = a /\ eTo e = b) ->
  Permutation tr' tr -> tracks_given trackOf T s (writeEdgeTracks es tr' s).
Proof.
  intros P trackOf T es tr tr' s Tr Es Pm.
  assert (Tr' : forall i t, In (i, t) tr' <-> exists e, nth_error es i = Some e /\ edge_track trackOf T (eFrom e) (eTo e) t).
  { intros i t. rewrite <- Tr. split; apply Permutation_in; [exact Pm|apply Permutation_sym; exact Pm]. }
  assert (N : forall k t, In (k, t) tr' -> t <> ""%string) by (intros k t I; apply Tr' in I; destruct I as (e & _ & _ & _ & _ & _ & _ & _ & H & _); exact H).
  assert (G : given (track_at trackOf T) (ngPay s) (fold_left (edgeTrack es) tr' (ngPay s))).
  { apply (given_ext (fun n t => exists k, In (k, t) tr' /\ passes es k n)); [|now apply given_tracks]. intros n t. split.
    - intros (k & I & e & Ee & Hn). apply Tr' in I. destruct I as (e' & Ee' & X). rewrite Ee in Ee'. injection Ee' as <-. exists (eFrom e), (eTo e). auto.
    - intros (a & b & Hn & X). destruct (Es a b) as (e & Ie & <- & <-); [destruct X as (T1 & x & T2 & -> & H & _); exists x; split; [apply in_or_app; right; left; reflexivity|exact H]|].
      destruct (In_nth_error _ _ Ie) as (k & Ek). exists k. split; [apply Tr'; exists e; auto|exists e; auto]. }
  destruct G as [G1 G2 G3]. split; auto.
Qed.

(** ** The network *)
Section Network.
Context {P : Type}.
Lemma box_link : forall E (c : @cfg P) rG n x0 r wl g nl, readFile E c rG n x0 = Some (r, wl, g, nl) -> g = rG (boxNodes E c x0) r wl.
Proof.
  intros E c rG n x0 r wl g nl. unfold readFile, boxNodes.
  destruct (readBBoxNds E (inBox c) (nohupF c) (cur (skipUntil E isNode (cur x0) (rest x0))) (rest (skipUntil E isNode (cur x0) (rest x0))) false 0 (mkBB [] [] [])) as [b x]. cbn [fst].
  intros H. repeat match type of H with match ?y with _ => _ end = Some _ => first [destruct y as [[? ?]|]; [|discriminate] | destruct y as [? ?]] end. injection H as <- <- <- <-. reflexivity.
Qed.
Lemma readFile_ext : forall E (c : @cfg P) rG rG' n x0, (forall b r ws, rG b r ws = rG' b r ws) -> readFile E c rG n x0 = readFile E c rG' n x0.
Proof.
  intros E c rG rG' n x0 H. unfold readFile.
  destruct (readBBoxNds E (inBox c) (nohupF c) (cur (skipUntil E isNode (cur x0) (rest x0))) (rest (skipUntil E isNode (cur x0) (rest x0))) false 0 (mkBB [] [] [])) as [b x].
  repeat match goal with |- match ?y with _ => _ end = match ?y with _ => _ end => first [destruct y as [[? ?]|]; [|reflexivity] | destruct y as [? ?]] end. rewrite H. reflexivity.
Qed.
Lemma filled_track : forall i j, Snap_spec.Filled noTrack takeTrack i j -> siTrack i <> ""%string -> j = i.
Proof. intros i j H N. inversion H; subst; [reflexivity|]. exfalso. unfold noTrack in *. match goal with X : String.eqb _ _ = true |- _ => apply String.eqb_eq in X; contradiction end. Qed.
Lemma filled_names : forall i j, Snap_spec.Filled noTrack takeTrack i j -> siName j = siName i /\ siAlt j = siAlt i.
Proof. intros i j H. induction H as [|i j x _ _ IH]; [auto|]. exact IH. Qed.
Lemma given_info : forall trackOf T (s s' : @ngraph P statInfo) m, tracks_given trackOf T s s' -> Build_model.hasInfo s' m = true <-> Build_model.hasInfo s m = true.
Proof.
  intros trackOf T s s' m G. rewrite !Build_proofs.hasInfo_iff. split; intros (i & Hi).
  - destruct (pState (ngPay s m)) eqn:E; try (exfalso; rewrite (tg_other _ _ _ _ G m) in Hi; rewrite E in *; [discriminate|intros; discriminate]). eauto.
  - destruct (tg_station _ _ _ _ G m i Hi) as (j & Hj & _). eauto.
Qed.
End Network.
