(** C64: a run of the program. *)
From Coq Require Import List Arith Bool Lia.
From Verif Require Import ListAux Main_model Main_spec Main_proofs.
Import ListNotations.
Local Arguments Nat.ltb : simpl never.
Local Arguments Nat.eqb : simpl never.

Ltac nxt := apply first_next; [try (intros (?H1 & ?H2); congruence); try congruence|].

Lemma used_first : forall W o cfgs single ts k c k' c', used o cfgs single k c -> used o cfgs single k' c' -> reaches W o cfgs single ts k -> reaches W o cfgs single ts k' ->
  bad_osm W o single ts k c \/ bad_method c \/ single <> None -> bad_osm W o single ts k' c' \/ bad_method c' \/ single <> None -> k = k' /\ c = c'.
Proof.
  intros W o cfgs single ts k c k' c' U U' R R' B B'.
  assert (K : k = k').
  { destruct (lt_eq_lt_dec k k') as [[L|E]|L]; [|exact E|].
    - destruct (R' k c L U) as (S & N1 & N2). tauto.
    - destruct (R k' c' L U') as (S & N1 & N2). tauto. }
  subst k'. split; [reflexivity|]. destruct U as (U & _), U' as (U' & _). congruence.
Qed.
Lemma first_feed_inj : forall W o ts ts', first_feed W o ts -> first_feed W o ts' -> ts = ts'.
Proof. intros W o ts ts' (p & r & A & B) (p' & r' & A' & B'). congruence. Qed.

(** The exit code is that of the first condition of the list that holds, and 0 if none does. *)
Theorem C64_codes : forall W o, first_of (codes W o) 0 (snd (main W o)).
Proof.
  intros W o. unfold codes. destruct (main_outcome W o) as [N|cs WC N1 N2 N3|WC OK|ev WN WE OK MODE BAD EV|WN WE OK MANY NX NQ|cfgs fs ev c WC NE OK F2 MODE REST].
  - now apply first_here.
  - nxt. apply first_here. auto.
  - nxt. nxt; [intros (A & B & C); destruct OK as [K|[K|K]]; congruence|]. now apply first_here.
  - nxt. nxt; [intros (A & B & C); destruct OK as [K|[K|K]]; congruence|]. nxt. apply first_here. auto.
  - nxt. nxt; [intros (A & B & C); destruct OK as [K|[K|K]]; congruence|]. nxt.
    nxt; [intros ([A|[A|A]] & _); [lia|congruence|congruence]|]. apply first_here. auto.
  - nxt. nxt; [intros (A & B & C); destruct OK as [K|[K|K]]; congruence|]. nxt.
    nxt. { intros (_ & p & I & B). clear - F2 I B. induction F2; [destruct I|]. destruct I as [->|I]; [congruence|auto]. }
    nxt. { intros (A & B & C). destruct MODE as [M|[M|M]]; [lia|congruence|congruence]. }
    assert (FF : forall f r, fs = f :: r -> first_feed W o f).
    { intros f r ->. inversion F2 as [|p f' l l' H1 H2 H3]; subst. exists p, l. split; [now symmetry|exact H1]. }
    inversion REST as [cfgs0 fs0 OT OF|cfgs0 fs0 i f r OT EF NONE|cfgs0 fs0 single ev0 c0 TF A REST2]; subst; clear REST.
    + apply first_here. auto.
    + nxt. { intros (_ & E). rewrite E in F2. inversion F2; subst; discriminate. }
      apply first_here. exists i, f. split; [exact OT|]. split; [eapply FF; eauto|exact NONE].
    + assert (TF' : oTrip o <> None -> exists f r, fs = f :: r) by (intros H; destruct fs as [|f r]; [destruct H; auto|eauto]).
      nxt. { intros (T & E). destruct (TF' T) as (f & r & ->). rewrite E in F2. inversion F2. }
      nxt. { intros (i & ts & T & FT & NO). destruct TF' as (f & r & ->); [congruence|]. assert (ts = f) by (eapply first_feed_inj; eauto). subst ts.
             unfold asked in A. rewrite T in A. destruct A as (t & l & r' & _ & I & E & _). cbn in E. rewrite E in NO. apply Forall_app in NO. destruct NO as (_ & NO). inversion NO; subst. congruence. }
      remember (hd [] fs) as f0 eqn:HF. rename single into s. inversion REST2 as [cfgs0 f s0 OE|cfgs0 f s0 OE OQ|cfgs0 f s0 OE OQ OR|cfgs0 f s0 PL OF|cfgs0 f s0 ev0 c0 p PL OF LP|cfgs0 f s0 ev0 ts p PL OF LP]; subst; clear REST2.
      * destruct (wFilter W) eqn:WF; [|apply first_here; auto]. nxt. apply first_here. intros (P & _). congruence.
      * nxt. apply first_here. intros (_ & P & _). congruence.
      * nxt. apply first_here. intros (_ & _ & P). congruence.
      * destruct PL as (P1 & P2 & P3). nxt. nxt; [intros H; apply H; repeat split; assumption|]. now apply first_here.
      * destruct PL as (P1 & P2 & P3). nxt. nxt; [intros H; apply H; repeat split; assumption|]. nxt.
        rewrite OF in F2. inversion F2 as [|? f' ? l' FF1 FF2]; subst. inversion FF2; subst. cbn [hd] in *. specialize (FF f' [] eq_refl).
        destruct s as [t|].
        -- assert (OT : oTrip o = Some (tId t)).
           { unfold asked in A. destruct (oTrip o) as [i|]; [|discriminate]. destruct A as (t' & l & r & E & I & _). injection E as <-. now rewrite I. }
           pose proof (loop_one W o t f' OT cfgs []) as L1. cbn [length app] in L1. rewrite LP in L1.
           destruct L1 as (k & c' & U & B & CASES); [intros j c' L; lia|].
           assert (RC : reaches W o cfgs (Some t) f' k) by (intros j c'' L U'; destruct (B j c'' L U')).
           destruct CASES as [(-> & BO & _)|[(-> & NB & BM & _)|(-> & NB & NM & _)]].
           ++ apply first_here. exists cfgs, f', (Some t), k, c'. auto 10.
           ++ nxt. { intros (cf & ts & s & k2 & c2 & X1 & X2 & X3 & X4 & X5 & X6). assert (cf = cfgs) by congruence. subst cf.
                     assert (ts = f') by (eapply first_feed_inj; eauto). subst ts. assert (s = Some t) by (eapply asked_inj; eauto). subst s.
                     destruct (used_first W o cfgs (Some t) f' k c' k2 c2) as (-> & ->); auto. }
              apply first_here. exists cfgs, f', (Some t), k, c'. auto 10.
           ++ nxt. { intros (cf & ts & s & k2 & c2 & X1 & X2 & X3 & X4 & X5 & X6). assert (cf = cfgs) by congruence. subst cf.
                     assert (ts = f') by (eapply first_feed_inj; eauto). subst ts. assert (s = Some t) by (eapply asked_inj; eauto). subst s.
                     destruct (used_first W o cfgs (Some t) f' k c' k2 c2) as (-> & ->); auto; right; right; discriminate. }
              nxt. { intros (cf & ts & s & k2 & c2 & X1 & X2 & X3 & X4 & X5 & X6). assert (cf = cfgs) by congruence. subst cf.
                     assert (ts = f') by (eapply first_feed_inj; eauto). subst ts. assert (s = Some t) by (eapply asked_inj; eauto). subst s.
                     destruct (used_first W o cfgs (Some t) f' k c' k2 c2) as (-> & ->); auto; right; right; discriminate. }
              apply first_here. exists cfgs, f', t, k, c'. auto.
        -- assert (OT : oTrip o = None). { unfold asked in A. destruct (oTrip o) as [i|]; [|reflexivity]. destruct A as (t' & l & r & E & _). discriminate. }
           pose proof (loop_all W o cfgs [] f' f' OT) as L1. cbn [length app] in L1. rewrite LP in L1.
           destruct L1 as (_ & _ & k & c' & U & R & CASES).
           { clear. induction f'; constructor; auto using becomes_nil. }
           { intros j c' L. lia. }
           destruct CASES as [(-> & BO)|(-> & NB & BM)].
           ++ apply first_here. exists cfgs, f', None, k, c'. auto 10.
           ++ nxt. { intros (cf & ts & s & k2 & c2 & X1 & X2 & X3 & X4 & X5 & X6). assert (cf = cfgs) by congruence. subst cf.
                     assert (ts = f') by (eapply first_feed_inj; eauto). subst ts. assert (s = None) by (eapply asked_inj; eauto). subst s.
                     destruct (used_first W o cfgs None f' k c' k2 c2) as (-> & ->); auto. }
              apply first_here. exists cfgs, f', None, k, c'. auto 10.
      * destruct PL as (P1 & P2 & P3). nxt. nxt; [intros H; apply H; repeat split; assumption|]. nxt.
        rewrite OF in F2. inversion F2 as [|? f' ? l' FF1 FF2]; subst. inversion FF2; subst. cbn [hd] in *. specialize (FF f' [] eq_refl).
        assert (NBAD : forall k c, used o cfgs s k c -> s = None /\ ~ bad_osm W o s f' k c /\ ~ bad_method c).
        { destruct s as [t|].
          - assert (OT : oTrip o = Some (tId t)).
            { unfold asked in A. destruct (oTrip o) as [i|]; [|discriminate]. destruct A as (t' & l & r & E & I & _). injection E as <-. now rewrite I. }
            pose proof (loop_one W o t f' OT cfgs []) as L1. cbn [length app] in L1. rewrite LP in L1.
            destruct L1 as (_ & _ & NU); [intros j c' L; lia|]. intros k c U. destruct (NU _ _ U).
          - assert (OT : oTrip o = None). { unfold asked in A. destruct (oTrip o) as [i|]; [|reflexivity]. destruct A as (t' & l & r & E & _). discriminate. }
            pose proof (loop_all W o cfgs [] f' f' OT) as L1. cbn [length app] in L1. rewrite LP in L1.
            destruct L1 as (_ & _ & _ & R & _).
            { clear. induction f'; constructor; auto using becomes_nil. }
            { intros j c' L. lia. }
            intros k c U. apply (R k c); [|exact U]. destruct U as (U & _). now apply nth_lt in U. }
        nxt. { intros (cf & ts' & s' & k2 & c2 & X1 & X2 & X3 & X4 & X5 & X6). assert (cf = cfgs) by congruence. subst cf.
               assert (ts' = f') by (eapply first_feed_inj; eauto). subst ts'. assert (s' = s) by (eapply asked_inj; eauto). subst s'. now destruct (NBAD _ _ X4) as (_ & N1 & _). }
        nxt. { intros (cf & ts' & s' & k2 & c2 & X1 & X2 & X3 & X4 & X5 & X6). assert (cf = cfgs) by congruence. subst cf.
               assert (ts' = f') by (eapply first_feed_inj; eauto). subst ts'. assert (s' = s) by (eapply asked_inj; eauto). subst s'. now destruct (NBAD _ _ X4) as (_ & _ & N1). }
        nxt. { intros (cf & ts' & t & k2 & c2 & X1 & X2 & X3 & X4). assert (cf = cfgs) by congruence. subst cf.
               assert (ts' = f') by (eapply first_feed_inj; eauto). subst ts'. assert (Some t = s) by (eapply asked_inj; eauto). subst s. destruct (NBAD _ _ X4) as (N1 & _). discriminate. }
        destruct (wWrite W (if oInPlace o then p else oOut o)) eqn:WW.
        -- nxt. { intros (q & E & X). rewrite OF in E. injection E as <-. congruence. } apply first_none.
        -- apply first_here. exists p. auto.
Qed.
Print Assumptions C64_codes.

Lemma map_feed_no : forall l, Forall (fun e => exists p, e = EFeed p) (map EFeed l).
Proof. intros l. apply Forall_forall. intros e I. apply in_map_iff in I. destruct I as (p & <- & _). eauto. Qed.
Lemma inner_no : forall ev p ts ok, Forall inner ev -> ~ In (EWrite p ts ok) ev.
Proof. intros ev p ts ok F I. rewrite Forall_forall in F. exact (F _ I). Qed.
Lemma loop_inner : forall W o cfgs s f, asked o f s -> match loop W o 0 cfgs s f with (ev, inr _) => Forall inner ev | (ev, inl _) => Forall (fun e => inner e \/ exists k t, e = EPath k t) ev end.
Proof.
  intros W o cfgs s f A. destruct s as [t|].
  - assert (OT : oTrip o = Some (tId t)).
    { unfold asked in A. destruct (oTrip o) as [i|]; [|discriminate]. destruct A as (t' & l & r & E & I & _). injection E as <-. now rewrite I. }
    pose proof (loop_one W o t f OT cfgs []) as L1. cbn [length app] in L1. destruct (loop W o 0 cfgs (Some t) f) as [ev [c|ts]].
    + destruct L1 as (k & c' & _ & _ & [(_ & _ & ->)|[(_ & _ & _ & F)|(_ & _ & _ & a & b & -> & F1 & F2)]]); [intros j c' L; lia| | |].
      * repeat constructor.
      * eapply Forall_impl; [|exact F]. intros e H. left. destruct e; try contradiction; exact Logic.I.
      * assert (Q : forall e, quiet e -> inner e \/ exists k t, e = EPath k t) by (intros e H; left; destruct e; try contradiction; exact Logic.I).
        apply Forall_app. split; [eapply Forall_impl; [exact Q|exact F1]|]. constructor; [right; eauto|eapply Forall_impl; [exact Q|exact F2]].
    + destruct L1 as (_ & -> & _); [intros j c' L; lia|constructor].
  - assert (OT : oTrip o = None). { unfold asked in A. destruct (oTrip o) as [i|]; [|reflexivity]. destruct A as (t' & l & r & E & _). discriminate. }
    pose proof (loop_all W o cfgs [] f f OT) as L1. cbn [length app] in L1. destruct (loop W o 0 cfgs None f) as [ev res].
    destruct L1 as (F & _); [clear; induction f; constructor; auto using becomes_nil|intros j c' L; lia|].
    destruct res; [eapply Forall_impl; [|exact F]; auto|exact F].
Qed.

(** The runs in which a feed is written *)
Lemma writes : forall W o p ts ok, In (EWrite p ts ok) (fst (main W o)) ->
  exists cfgs q f s ev, wCfgs W = Some cfgs /\ oFeeds o = [q] /\ wFeed W q = Some f /\ asked o f s /\ plain o /\ oOsm o = true /\ loop W o 0 cfgs s f = (ev, inr ts) /\
    p = (if oInPlace o then q else oOut o) /\ ok = wWrite W p /\ snd (main W o) = (if ok then 0 else 8) /\
    fst (main W o) = EFeed q :: ev ++ (if oStats o then [EStats] else []) ++ [EWrite p ts ok] /\ Forall inner ev.
Proof.
  intros W o p ts ok IN. destruct (main_outcome W o) as [N|cs WC N1 N2 N3|WC OK|ev WN WE OK MODE BAD EV|WN WE OK MANY NX NQ|cfgs fs ev c WC NE OK F2 MODE REST]; try (now destruct IN).
  - exfalso. rewrite Forall_forall in EV. destruct (EV _ IN) as (q & E & _). discriminate.
  - apply in_app_iff in IN. destruct IN as [IN|IN].
    { exfalso. pose proof (map_feed_no (oFeeds o)) as M. rewrite Forall_forall in M. destruct (M _ IN) as (q & E). discriminate. }
    inversion REST as [cfgs0 fs0 OT OF|cfgs0 fs0 i f r OT EF NONE|cfgs0 fs0 s ev0 c0 TF A REST2]; subst; clear REST; try (now destruct IN).
    remember (hd [] fs) as f0 eqn:HF. inversion REST2 as [cfgs0 f s0 OE|cfgs0 f s0 OE OQ|cfgs0 f s0 OE OQ OR|cfgs0 f s0 PL OF|cfgs0 f s0 ev0 c0 q PL OF LP|cfgs0 f s0 ev0 ts0 q PL OF LP]; subst; clear REST2;
      try (destruct IN as [IN|[]]; discriminate); try (now destruct IN).
    + exfalso. pose proof (loop_inner W o cfgs s _ A) as F. rewrite LP in F. rewrite Forall_forall in F. destruct (F _ IN) as [F'|(k & t & E)]; [exact F'|discriminate].
    + pose proof (loop_inner W o cfgs s _ A) as F. rewrite LP in F.
      rewrite OF in F2. inversion F2 as [|? f' ? l' FF1 FF2]; subst. inversion FF2; subst. cbn [hd] in *.
      rewrite !in_app_iff in IN. destruct IN as [IN|[IN|[IN|[]]]].
      * destruct (inner_no _ _ _ _ F IN).
      * destruct (oStats o); [destruct IN as [IN|[]]; discriminate|destruct IN].
      * injection IN as <- <- <-. exists cfgs, q, f', s, ev0. rewrite OF. cbn [map app]. destruct PL as (P1 & P2 & P3).
        assert (oOsm o = true) by (destruct OK as [K|[K|K]]; congruence). repeat (first [assumption | reflexivity | apply conj]).
Qed.

(** If a feed is written, this is the last effect and the only write.  It goes to the output
    path, or to that of the only input feed if asked to work in place.  Without -T every trip
    of the feed is there, in order: those to be matched with the shape computed for their
    type, all others as they were. *)
Theorem C64_written : forall W o p ts ok, In (EWrite p ts ok) (fst (main W o)) ->
  exists cfgs q f ev, wCfgs W = Some cfgs /\ oFeeds o = [q] /\ wFeed W q = Some f /\ plain o /\
    p = (if oInPlace o then q else oOut o) /\ (snd (main W o) = 0 <-> ok = true) /\
    fst (main W o) = ev ++ [EWrite p ts ok] /\ (forall p' ts' ok', ~ In (EWrite p' ts' ok') ev) /\
    (oTrip o = None -> Forall2 (becomes o cfgs) f ts) /\ (oTrip o <> None -> ts = f).
Proof.
  intros W o p ts ok IN. destruct (writes W o p ts ok IN) as (cfgs & q & f & s & ev & WC & OF & WF & A & PL & OS & LP & EP & EO & EC & EE & FI).
  exists cfgs, q, f, (EFeed q :: ev ++ (if oStats o then [EStats] else [])). split; [exact WC|]. split; [exact OF|]. split; [exact WF|]. split; [exact PL|]. split; [exact EP|].
  split; [rewrite EC; destruct ok; split; congruence|]. split; [rewrite EE; cbn; now rewrite <- app_assoc|]. split.
  { intros p' ts' ok' [I|I]; [discriminate|]. apply in_app_iff in I. destruct I as [I|I]; [exact (inner_no _ _ _ _ FI I)|]. destruct (oStats o); [destruct I as [I|[]]; discriminate|destruct I]. }
  split.
  - intros OT. unfold asked in A. rewrite OT in A. subst s. pose proof (loop_all W o cfgs [] f f OT) as L1. cbn [length app] in L1. rewrite LP in L1.
    destruct L1 as (_ & _ & R & _); [clear; induction f; constructor; auto using becomes_nil|intros j c' L; lia|exact R].
  - intros OT. destruct s as [t|]; [|unfold asked in A; destruct (oTrip o); [destruct A as (t & l & r & E & _); discriminate|congruence]].
    assert (OT' : oTrip o = Some (tId t)).
    { unfold asked in A. destruct (oTrip o) as [i|]; [|discriminate]. destruct A as (t' & l & r & E & I & _). injection E as <-. now rewrite I. }
    pose proof (loop_one W o t f OT' cfgs []) as L1. cbn [length app] in L1. rewrite LP in L1. destruct L1 as (-> & _); [intros j c' L; lia|reflexivity].
Qed.
Print Assumptions C64_written.

(** A plain run without -T exits with 0 iff the feed was written; all configurations for
    selected types have been matched then, and no other. *)
Theorem C64_success : forall W o, plain o -> oTrip o = None ->
  (snd (main W o) = 0 <-> exists p ts, In (EWrite p ts true) (fst (main W o))) /\
  (snd (main W o) = 0 -> exists cfgs, wCfgs W = Some cfgs /\
     forall k c, nth_error cfgs k = Some c -> ((exists m, for_type o c m) <-> exists ms, In (EMatch k ms) (fst (main W o)))).
Proof.
  intros W o PL OT.
  assert (X : snd (main W o) = 0 -> exists p ts, In (EWrite p ts true) (fst (main W o))).
  { destruct PL as (P1 & P2 & P3).
    destruct (main_outcome W o) as [N|cs WC N1 N2 N3|WC OK|ev WN WE OK MODE BAD EV|WN WE OK MANY NX NQ|cfgs fs ev c WC NE OK F2 MODE REST]; try discriminate.
    intros ->. inversion REST as [cfgs0 fs0 OT' OF|cfgs0 fs0 i f r OT' EF NONE|cfgs0 fs0 s ev0 c0 TF A REST2]; subst; clear REST.
    unfold asked in A. rewrite OT in A. subst s. remember (hd [] fs) as f0 eqn:HF. remember 0 as z eqn:HZ.
    inversion REST2 as [cfgs0 f s0 OE|cfgs0 f s0 OE OQ|cfgs0 f s0 OE OQ OR|cfgs0 f s0 PL OF|cfgs0 f s0 ev0 c0 q PL OF LP|cfgs0 f s0 ev0 ts0 q PL OF LP]; clear REST2; subst; try congruence.
    - pose proof (loop_all W o cfgs [] (hd [] fs) (hd [] fs) OT) as L1. cbn [length app] in L1. rewrite LP in L1.
      destruct L1 as (_ & _ & k & c' & U & R & [(E & _)|(E & _)]); [clear; induction (hd [] fs); constructor; auto using becomes_nil|intros j c' L; lia|discriminate|discriminate].
    - destruct (wWrite W (if oInPlace o then q else oOut o)) eqn:WW; [|discriminate]. eexists _, _. rewrite !in_app_iff. right. right. right. left. reflexivity. }
  split; [split; [exact X|]|].
  - intros (p & ts & I). destruct (C64_written W o p ts true I) as (cfgs & q & f & ev & _ & _ & _ & _ & _ & E & _). now apply E.
  - intros Z. destruct (X Z) as (p & ts & I). destruct (writes W o p ts true I) as (cfgs & q & f & s & ev & WC & OF & WF & A & _ & OS & LP & EP & EO & EC & EE & FI).
    exists cfgs. split; [exact WC|]. unfold asked in A. rewrite OT in A. subst s. pose proof (loop_all W o cfgs [] f f OT) as L1. cbn [length app] in L1. rewrite LP in L1.
    destruct L1 as (_ & M & _ & _ & R); [clear; induction f; constructor; auto using becomes_nil|intros j c' L; lia|].
    intros k c N. rewrite EE. split.
    + intros U. destruct (R k c) as (ms & IM); [lia|split; assumption|]. exists ms. right. apply in_app_iff. now left.
    + intros (ms & [IM|IM]); [discriminate|]. rewrite !in_app_iff in IM. destruct IM as [IM|[IM|[IM|[]]]]; [|destruct (oStats o); [destruct IM as [IM|[]]; discriminate|destruct IM]|discriminate].
      destruct (M k ms IM) as (_ & c' & (N' & U) & _). assert (c' = c) by congruence. now subst.
Qed.
Print Assumptions C64_success.

(** A matching run draws the graph and the transit graph of exactly the configurations that were
    matched, and the statistics, if asked to. *)
Lemma loop_outputs : forall W o cs k ts ev ts', loop W o k cs None ts = (ev, inr ts') -> forall j,
  (In (EGraph j) ev <-> oGraph o = true /\ exists ms, In (EMatch j ms) ev) /\ (In (ETransit j) ev <-> oTransit o = true /\ exists ms, In (EMatch j ms) ev) /\ ~ In EStats ev.
Proof.
  induction cs as [|c r IH]; intros k ts ev ts' L j; cbn [loop] in L.
  - injection L as <- <-. cbn. split; [|split; [|tauto]]; (split; [intros []|intros (_ & ms & [])]).
  - destruct (motISect (cMots c) (oMots o)) as [|m0 used] eqn:U; [exact (IH _ _ _ _ L j)|]. set (us := m0 :: used) in *.
    destruct (hasStops ts us (oTrip o) && negb (wOsm W k)); [discriminate|]. destruct (negb (cSimi c)); [discriminate|]. destruct (negb (cTrans c)); [discriminate|].
    destruct (loop W o (S k) r None (map (shapeOne k us (oDrop o)) ts)) as [ev0 res] eqn:L0. injection L as <- ->. destruct (IH _ _ _ _ L0 j) as (G & T & N).
    assert (M : (exists ms, In (EMatch j ms) ((if hasStops ts us (oTrip o) then [EOsm k] else []) ++ EMatch k us :: (if oGraph o then [EGraph k] else []) ++ (if oTransit o then [ETransit k] else []) ++ ev0)) <-> j = k \/ exists ms, In (EMatch j ms) ev0).
    { split.
      - intros (ms & I). rewrite in_app_iff in I. cbn [In] in I. rewrite !in_app_iff in I. destruct I as [I|[I|[I|[I|I]]]].
        + destruct (hasStops ts us (oTrip o)); [destruct I as [I|[]]; discriminate|destruct I].
        + injection I as -> _. now left.
        + destruct (oGraph o); [destruct I as [I|[]]; discriminate|destruct I].
        + destruct (oTransit o); [destruct I as [I|[]]; discriminate|destruct I].
        + right. now exists ms.
      - intros [->|(ms & I)]; [exists us|exists ms]; rewrite in_app_iff; cbn [In]; rewrite !in_app_iff; tauto. }
    cbn [app]. rewrite M. rewrite !in_app_iff. cbn [In]. rewrite !in_app_iff. rewrite G, T. clear M G T IH L0.
    destruct (hasStops ts us (oTrip o)), (oGraph o), (oTransit o); cbn [In]; (split; [split|split; [split|]]); intros H; repeat match goal with H : _ /\ _ |- _ => destruct H | H : _ \/ _ |- _ => destruct H | H : EGraph _ = EGraph _ |- _ => injection H as -> | H : ETransit _ = ETransit _ |- _ => injection H as -> end; try discriminate; try contradiction; subst; auto 8; try tauto.
Qed.
Theorem C64_outputs : forall W o, plain o -> oTrip o = None -> snd (main W o) = 0 ->
  (forall k, In (EGraph k) (fst (main W o)) <-> oGraph o = true /\ exists ms, In (EMatch k ms) (fst (main W o))) /\
  (forall k, In (ETransit k) (fst (main W o)) <-> oTransit o = true /\ exists ms, In (EMatch k ms) (fst (main W o))) /\
  (In EStats (fst (main W o)) <-> oStats o = true).
Proof.
  intros W o PL OT Z. destruct (C64_success W o PL OT) as (S & _). destruct (proj1 S Z) as (p & ts & I).
  destruct (writes W o p ts true I) as (cfgs & q & f & s & ev & WC & OF & WF & A & _ & OS & LP & EP & EO & EC & EE & FI).
  unfold asked in A. rewrite OT in A. subst s. pose proof (loop_outputs _ _ _ _ _ _ _ LP) as LO. rewrite EE.
  assert (K : forall e, match e with EFeed _ | EStats | EWrite _ _ _ => False | _ => True end -> (In e (EFeed q :: ev ++ (if oStats o then [EStats] else []) ++ [EWrite p ts true]) <-> In e ev)).
  { intros e He. cbn [In]. rewrite !in_app_iff. split; [|tauto]. intros [H|[H|[H|[H|[]]]]]; [subst; contradiction|exact H|destruct (oStats o); [destruct H as [H|[]]; subst; contradiction|destruct H]|subst; contradiction]. }
  assert (KM : forall k, (exists ms, In (EMatch k ms) (EFeed q :: ev ++ (if oStats o then [EStats] else []) ++ [EWrite p ts true])) <-> exists ms, In (EMatch k ms) ev).
  { intros k. split; intros (ms & H); exists ms; apply (K (EMatch k ms)); cbn; auto. }
  split; [|split].
  - intros k. rewrite KM, (K (EGraph k)) by exact Logic.I. apply LO.
  - intros k. rewrite KM, (K (ETransit k)) by exact Logic.I. apply LO.
  - cbn [In]. rewrite !in_app_iff. split.
    + intros [H|[H|[H|[H|[]]]]]; [discriminate|destruct (LO 0) as (_ & _ & N); contradiction|destruct (oStats o); [reflexivity|destruct H]|discriminate].
    + intros ->. right. right. left. now left.
Qed.
Print Assumptions C64_outputs.

(** -X before -a before -f: the configurations for selected types in their order, no trip is
    matched and no feed is written. *)
Theorem C64_modes : forall W o cfgs, ~ plain o -> wCfgs W = Some cfgs -> snd (main W o) = 0 ->
  exists ev ks, (forall k, In k ks <-> exists c m, nth_error cfgs k = Some c /\ for_type o c m) /\ ascending ks /\
    ev = map EFeed (oFeeds o) /\
    fst (main W o) = ev ++ [if oExtract o then EExtract ks (oFeeds o) else if oQuery o then EQuery ks (oFeeds o) else ERules ks].
Proof.
  intros W o cfgs NP WC Z. exists (map EFeed (oFeeds o)), (optsFor 0 cfgs (oMots o)). split.
  { intros k. rewrite optsFor_ok. unfold for_type. split; [intros (c & i & -> & N & m & H); cbn; exists c, m; auto|intros (c & m & N & H); exists c, k; repeat split; auto; exists m; exact H]. }
  split; [apply optsFor_asc|]. split; [reflexivity|]. revert Z.
  destruct (main_outcome W o) as [N|cs WC' N1 N2 N3|WC' OK|ev WN WE OK MODE BAD EV|WN WE OK MANY NX NQ|cfgs0 fs ev c WC' NE OK F2 MODE REST]; try discriminate.
  intros EC. assert (cfgs0 = cfgs) by congruence. subst cfgs0. revert EC.
  inversion REST as [cfgs0 fs0 OT' OF|cfgs0 fs0 i f r OT' EF NONE|cfgs0 fs0 s ev0 c0 TF A REST2]; subst; clear REST; [discriminate|discriminate|].
  remember (hd [] fs) as f0 eqn:HF.
  inversion REST2 as [cfgs0 f s0 OE|cfgs0 f s0 OE OQ|cfgs0 f s0 OE OQ OR|cfgs0 f s0 PL OF|cfgs0 f s0 ev0 c0 q PL OF LP|cfgs0 f s0 ev0 ts0 q PL OF LP]; clear REST2; subst; intros EC; try contradiction; try congruence.
  - now rewrite OE.
  - now rewrite OE, OQ.
  - now rewrite OE, OQ.
Qed.
Print Assumptions C64_modes.

(** -T: if a configuration is for the type of the trip and the run succeeds, its path is written
    with the first such configuration, once, and no feed is. *)
Theorem C64_single : forall W o cfgs p f t k c, plain o -> wCfgs W = Some cfgs -> oFeeds o = [p] -> wFeed W p = Some f -> asked o f (Some t) ->
  used o cfgs (Some t) k c -> (forall j c', j < k -> ~ used o cfgs (Some t) j c') -> snd (main W o) = 0 ->
  exists a b, fst (main W o) = a ++ EPath k (tId t) :: b /\ forall e, In e (a ++ b) -> match e with EPath _ _ | EWrite _ _ _ | EMatch _ _ => False | _ => True end.
Proof.
  intros W o cfgs p f t k c (P1 & P2 & P3) WC OF WF A U B Z. revert Z.
  destruct (main_outcome W o) as [N|cs WC' N1 N2 N3|WC' OK|ev WN WE OK MODE BAD EV|WN WE OK MANY NX NQ|cfgs0 fs ev c0 WC' NE OK F2 MODE REST]; try discriminate.
  intros EC. assert (cfgs0 = cfgs) by congruence. subst cfgs0. revert EC.
  rewrite OF in F2. inversion F2 as [|? f' ? l' FF1 FF2]; subst. inversion FF2; subst. assert (f' = f) by congruence. subst f'.
  inversion REST as [cfgs0 fs0 OT' OF'|cfgs0 fs0 i f0 r OT' EF NONE|cfgs0 fs0 s ev1 c1 TF A2 REST2]; subst; clear REST; [discriminate|discriminate|].
  cbn [hd] in *. assert (s = Some t) by (eapply asked_inj; eauto). subst s.
  assert (OT : oTrip o = Some (tId t)).
  { unfold asked in A. destruct (oTrip o) as [i|]; [|discriminate]. destruct A as (t' & l & r & E & I & _). injection E as <-. now rewrite I. }
  pose proof (loop_one W o t f OT cfgs []) as L1. cbn [length app] in L1.
  inversion REST2 as [cfgs0 f0 s0 OE|cfgs0 f0 s0 OE OQ|cfgs0 f0 s0 OE OQ OR|cfgs0 f0 s0 PL OF'|cfgs0 f0 s0 ev2 c2 q PL OF' LP|cfgs0 f0 s0 ev2 ts0 q PL OF' LP]; clear REST2; subst; intros EC; try congruence.
  - rewrite LP in L1. destruct L1 as (k' & c' & U' & B' & [(E & _)|[(E & _)|(_ & _ & _ & a & b & -> & F1 & F3)]]); [intros j c' L; lia|congruence|congruence|].
    assert (k' = k). { destruct (lt_eq_lt_dec k' k) as [[L|E]|L]; [destruct (B _ _ L U')|exact E|destruct (B' _ _ L U)]. } subst k'.
    exists (map EFeed (oFeeds o) ++ a), b. split; [now rewrite <- app_assoc|]. intros e I. rewrite !in_app_iff in I. destruct I as [[I|I]|I].
    + apply in_map_iff in I. destruct I as (x & <- & _). exact Logic.I.
    + rewrite Forall_forall in F1. specialize (F1 _ I). destruct e; try exact Logic.I; contradiction.
    + rewrite Forall_forall in F3. specialize (F3 _ I). destruct e; try exact Logic.I; contradiction.
  - rewrite LP in L1. destruct L1 as (_ & _ & NU); [intros j c' L; lia|]. destruct (NU _ _ U).
Qed.
Print Assumptions C64_single.

(** A failing run writes no feed, except that the write itself may fail (8). *)
Theorem C64_failure : forall W o, snd (main W o) <> 0 -> forall p ts ok, In (EWrite p ts ok) (fst (main W o)) -> ok = false /\ snd (main W o) = 8.
Proof.
  intros W o N p ts ok I. destruct (writes W o p ts ok I) as (cfgs & q & f & s & ev & _ & _ & _ & _ & _ & _ & _ & _ & _ & EC & _). destruct ok; [congruence|auto].
Qed.
Print Assumptions C64_failure.

(** Two configurations (types 3 and 0), a feed with a trip of each type and one of type 5; the
    second trip has a shape. *)
Definition exCfgs : list mcfg := [mkCfg [3] true true; mkCfg [0; 3] true true].
Definition exFeed : list trip := [mkTrip 10 3 4 NoShape; mkTrip 11 0 3 (Given 7); mkTrip 12 5 3 NoShape; mkTrip 13 0 2 NoShape].
Definition exW : world := mkWorld (Some exCfgs) (fun p => if p =? 1 then Some exFeed else None) (fun _ => true) true (fun p => negb (p =? 99)).
Definition exO (drop : bool) (tid : option nat) : opts := mkOpts true false false false [1] 50 false tid [0; 3; 5] drop false false true.
Example C64_example :
  main exW (exO false None) = ([EFeed 1; EOsm 0; EMatch 0 [3]; EOsm 1; EMatch 1 [0; 3]; EStats;
    EWrite 50 [mkTrip 10 3 4 (Computed 0); mkTrip 11 0 3 (Given 7); mkTrip 12 5 3 NoShape; mkTrip 13 0 2 (Computed 1)] true], 0) /\
  main exW (exO true None) = ([EFeed 1; EOsm 0; EMatch 0 [3]; EOsm 1; EMatch 1 [0; 3]; EStats;
    EWrite 50 [mkTrip 10 3 4 (Computed 1); mkTrip 11 0 3 (Computed 1); mkTrip 12 5 3 NoShape; mkTrip 13 0 2 (Computed 1)] true], 0) /\
  main exW (exO false (Some 11)) = ([EFeed 1; EOsm 1; EPath 1 11], 0) /\
  main exW (mkOpts true true true false [1; 1] 50 true None [0] false false false false) = ([EFeed 1; EFeed 1; EExtract [1] [1; 1]], 0) /\
  main exW (mkOpts true false false false [1] 99 false None [0] false false false false) =
    ([EFeed 1; EOsm 1; EMatch 1 [0]; EWrite 99 [mkTrip 10 3 4 NoShape; mkTrip 11 0 3 (Given 7); mkTrip 12 5 3 NoShape; mkTrip 13 0 2 (Computed 1)] false], 8).
Proof. repeat split; reflexivity. Qed.
Example C64_single_example : exists t, asked (exO false (Some 11)) exFeed (Some t) /\ used (exO false (Some 11)) exCfgs (Some t) 1 (mkCfg [0; 3] true true) /\ plain (exO false (Some 11)).
Proof.
  exists (mkTrip 11 0 3 (Given 7)). split; [|repeat split; cbn; auto]. cbn.
  exists (mkTrip 11 0 3 (Given 7)), [mkTrip 10 3 4 NoShape], [mkTrip 12 5 3 NoShape; mkTrip 13 0 2 NoShape]. repeat split; auto.
Qed.

(** -T with a trip whose type no configuration is for: no path is written and the run does not
    fail; the unchanged feed is written to the output path. *)
Theorem C64_single_unmatched_refuted : exists W o t f, asked o f (Some t) /\ plain o /\ snd (main W o) = 0 /\
  (forall k i, ~ In (EPath k i) (fst (main W o))) /\ In (EWrite 50 f true) (fst (main W o)).
Proof.
  exists exW, (exO false (Some 12)), (mkTrip 12 5 3 NoShape), exFeed. split.
  { exists (mkTrip 12 5 3 NoShape), [mkTrip 10 3 4 NoShape; mkTrip 11 0 3 (Given 7)], [mkTrip 13 0 2 NoShape]. split; [reflexivity|]. split; [reflexivity|]. split; [reflexivity|]. repeat constructor; discriminate. }
  split; [repeat split|]. split; [reflexivity|]. split; [|vm_compute; auto]. intros k i I. cbn in I. destruct I as [I|[I|[I|[]]]]; discriminate.
Qed.
Print Assumptions C64_single_unmatched_refuted.

(** The rules of -f do not depend on the feeds; still two feeds are refused, and an unreadable
    one is. *)
Theorem C64_rules_refuted : exists W o o', oRules o = true /\ snd (main W o) = 2 /\ snd (main W o') = 4 /\
  snd (main W (mkOpts (oOsm o) (oExtract o) (oQuery o) (oRules o) [] (oOut o) (oInPlace o) (oTrip o) (oMots o) (oDrop o) (oGraph o) (oTransit o) (oStats o))) = 0 /\
  oRules o' = true.
Proof.
  exists exW, (mkOpts false false false true [1; 1] 50 false None [0] false false false false), (mkOpts false false false true [2] 50 false None [0] false false false false).
  repeat split; reflexivity.
Qed.
Print Assumptions C64_rules_refuted.

(** -X together with -a passes the check for an OSM file although it reads one. *)
Theorem C64_extract_osm_refuted : exists W o cs fs, oOsm o = false /\ In (EExtract cs fs) (fst (main W o)).
Proof. exists exW, (mkOpts false true true false [1] 50 false None [0] false false false false), [1], [1]. split; [reflexivity|vm_compute; auto]. Qed.
Print Assumptions C64_extract_osm_refuted.
