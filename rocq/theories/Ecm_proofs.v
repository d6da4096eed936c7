(** Proofs for the candidates of stops and trie nodes. *)
From Coq Require Import String List Arith ZArith QArith Bool Lia.
From Verif Require Import ListAux HopCache_model TripTrie_model TripTrie_spec TripTrie_proofs
  Router_model Router_spec Router_proofs Hops_model Ecm_model Ecm_spec.
Import ListNotations.
Open Scope nat_scope.

Lemma Qltb_true : forall a b, Qltb a b = true -> (a < b)%Q.
Proof. intros a b H. unfold Qltb in H. destruct (Qlt_le_dec a b); [assumption|discriminate]. Qed.
Lemma Qltb_false : forall a b, Qltb a b = false -> (b <= a)%Q.
Proof. intros a b H. unfold Qltb in H. destruct (Qlt_le_dec a b); [discriminate|assumption]. Qed.

(** ** One stop *)
Section Stop.
Variable C : Type.
Variable ofQ : Q -> C.
Variable P : Type.
Variable p0 : P.
Variable eFr eTo : edge -> nat.
Variable deg : nat -> nat.
Variable outF outB inF inB : nat -> edge.
Variable oneWay : edge -> nat.
Variable enum : list edge -> list edge.
Hypothesis enum_in : forall l x, In x (enum l) <-> In x l.
Variables maxStat maxSnap statPen platPen nonStatPen : Q.
Variable useStations : bool.
Variable em : Q -> Q.
Variables edist eproj : edge -> Q.
Variable isRev : edge -> bool.
Notation deg2 := (deg2reachable eFr eTo deg outF outB inF inB oneWay).
Notation snapStep := (snapStep eFr eTo deg outF outB inF inB oneWay maxSnap edist eproj isRev).
Notation snapLoop := (snapLoop eFr eTo deg outF outB inF inB oneWay maxSnap edist eproj isRev).
Notation nextFw := (nextFw eFr eTo outF outB).
Notation nextBw := (nextBw eFr eTo inF inB).

Lemma mem_in : forall e s, mem e s = true <-> In e s.
Proof.
  intros e s. unfold mem. rewrite existsb_exists. split.
  - intros (x & I & H). apply Nat.eqb_eq in H. subst. assumption.
  - intros I. exists e. rewrite Nat.eqb_refl. auto.
Qed.

(** The forward search looks at one edge only, the backward search finds nothing. *)
Lemma fwLoop_eq : forall e s, exists r, fwLoop eFr eTo deg outF outB oneWay 3 e e s = Some r /\
  match r with
  | inl x => x = nextFw e /\ In x s /\ deg (eTo e) = 2 /\ x <> e /\ oneWay x <> 2
  | inr cur => cur = e \/ (cur = nextFw e /\ ~ In cur s)
  end /\ (In (nextFw e) s -> deg (eTo e) = 2 -> nextFw e <> e -> oneWay (nextFw e) <> 2 -> r = inl (nextFw e)).
Proof.
  intros e s. cbn [fwLoop].
  destruct (deg (eTo e) =? 2) eqn:D; [|eexists; split; [reflexivity|]; split; [left; reflexivity|]; apply Nat.eqb_neq in D; tauto].
  apply Nat.eqb_eq in D.
  destruct (nextFw e =? e) eqn:N; cbn [orb].
  { eexists; split; [reflexivity|]. split; [left; reflexivity|]. apply Nat.eqb_eq in N. tauto. }
  apply Nat.eqb_neq in N.
  destruct (oneWay (nextFw e) =? 2) eqn:O.
  { eexists; split; [reflexivity|]. split; [left; reflexivity|]. apply Nat.eqb_eq in O. tauto. }
  apply Nat.eqb_neq in O.
  destruct (mem (nextFw e) s) eqn:M.
  { eexists; split; [reflexivity|]. split; [|auto]. apply mem_in in M. auto. }
  assert (NI : ~ In (nextFw e) s) by (rewrite <- mem_in, M; discriminate).
  rewrite Nat.eqb_refl. cbn [orb].
  destruct (deg (eTo (nextFw e)) =? 2); (eexists; split; [reflexivity|]; split; [auto|tauto]).
Qed.
Lemma bwLoop_eq : forall e cur s, ~ In cur s -> exists x, bwLoop eFr eTo deg inF inB oneWay 3 e cur s = Some (inr x).
Proof.
  intros e cur s N. cbn [bwLoop].
  destruct (deg (eFr cur) =? 2); [|eauto].
  destruct ((nextBw e =? e) || (nextBw e =? cur)); [eauto|].
  destruct (oneWay (nextBw e) =? 2); [eauto|].
  destruct (mem cur s) eqn:M; [apply mem_in in M; contradiction|].
  rewrite Nat.eqb_refl, orb_true_r. destruct (deg (eFr (nextBw e)) =? 2); eauto.
Qed.
Lemma deg2_eq : forall e s, ~ In e s -> exists r, deg2 e s = Some r /\
  forall x, r = Some x <-> x = nextFw e /\ In x s /\ deg (eTo e) = 2 /\ x <> e /\ oneWay x <> 2.
Proof.
  intros e s N. unfold deg2reachable. destruct (fwLoop_eq e s) as (r & -> & H & K).
  destruct r as [x|cur].
  - eexists. split; [reflexivity|]. intros y. split; [intros X; inversion X; subst; exact H|].
    intros (-> & _). destruct H as (-> & _). reflexivity.
  - assert (NC : ~ In cur s) by (destruct H as [->|[_ X]]; assumption).
    destruct (bwLoop_eq e cur s NC) as [x ->]. eexists. split; [reflexivity|]. intros y. split; [discriminate|].
    intros (-> & I & D & Ne & O). specialize (K I D Ne O). discriminate.
Qed.

(** State of the snapping loop after the edges [done]. *)
Record inv (done : list edge) (st : snap) : Prop := {
  iv_sel : forall e, In e (sel st) -> In e done /\ (edist e <= maxSnap)%Q /\ score st e = Some (edist e) /\
    progr st e = (if isRev e then 1 - eproj e else eproj e)%Q;
  iv_cover : forall e, In e done -> (edist e <= maxSnap)%Q -> exists e', In e' (sel st) /\ (edist e' <= edist e)%Q
}.
Lemma inv_grow : forall done st e, inv done st -> (~ (edist e <= maxSnap)%Q \/ exists e', In e' (sel st) /\ (edist e' <= edist e)%Q) ->
  inv (done ++ [e]) st.
Proof.
  intros done st e [A B] H. constructor.
  - intros x I. destruct (A x I) as (X & Y). split; [apply in_or_app; auto|exact Y].
  - intros x I L. apply in_app_or in I. destruct I as [I|[<-|[]]]; [auto|]. destruct H as [H|H]; [contradiction|exact H].
Qed.
Lemma select_inv : forall done st st0 e, inv done st -> (edist e <= maxSnap)%Q ->
  (forall x, In x (sel st0) -> In x (sel st) /\ score st0 x = score st x /\ progr st0 x = progr st x) ->
  (forall x, In x (sel st) -> In x (sel st0) \/ (edist e <= edist x)%Q) ->
  inv (done ++ [e]) (select edist eproj isRev st0 e).
Proof.
  intros done st st0 e [A B] L Sub Cov. unfold select. constructor; cbn [sel score progr].
  - intros x [<-|I].
    + unfold setE. rewrite Nat.eqb_refl. split; [apply in_or_app; cbn; auto|]. auto.
    + destruct (Sub x I) as (I1 & S1 & P1). destruct (A x I1) as (X1 & X2 & X3 & X4).
      split; [apply in_or_app; auto|]. split; [exact X2|]. unfold setE.
      destruct (x =? e) eqn:E; [apply Nat.eqb_eq in E; subst; auto|]. rewrite S1, P1. auto.
  - intros x I Lx. apply in_app_or in I. destruct I as [I|[<-|[]]].
    + destruct (B x I Lx) as (y & Iy & Ly). destruct (Cov y Iy) as [K|K].
      * exists y. split; [right; exact K|exact Ly].
      * exists e. split; [left; reflexivity|]. eapply Qle_trans; eassumption.
    + exists e. split; [left; reflexivity|apply Qle_refl].
Qed.
Lemma snapStep_inv : forall done st e, inv done st -> exists st', snapStep st e = Some st' /\ inv (done ++ [e]) st'.
Proof.
  intros done st e I. unfold Ecm_model.snapStep.
  destruct (mem e (sel st)) eqn:M.
  { apply mem_in in M. eexists. split; [reflexivity|]. apply inv_grow; [exact I|]. right. exists e. split; [exact M|apply Qle_refl]. }
  assert (NI : ~ In e (sel st)) by (rewrite <- mem_in, M; discriminate).
  destruct (deg2_eq e (sel st) NI) as (r & -> & R).
  destruct (Qltb maxSnap (edist e)) eqn:L.
  { apply Qltb_true in L. eexists. split; [reflexivity|]. apply inv_grow; [exact I|]. left. apply Qlt_not_le. exact L. }
  apply Qltb_false in L.
  destruct r as [x|].
  - destruct (proj1 (R x) eq_refl) as (_ & Ix & _ & Nx & _).
    destruct (iv_sel _ _ I x Ix) as (X1 & X2 & X3 & X4). rewrite X3.
    destruct (Qltb (edist e) (edist x)) eqn:Lx.
    + apply Qltb_true in Lx. rewrite (proj2 (mem_in x (sel st)) Ix). eexists. split; [reflexivity|].
      apply select_inv with (st := st); [exact I|exact L| |].
      * cbn [sel score progr]. intros y Iy. apply filter_In in Iy. destruct Iy as [Iy Ny].
        apply negb_true_iff in Ny. unfold setE. rewrite Ny. auto.
      * cbn [sel]. intros y Iy. destruct (y =? x) eqn:E.
        -- apply Nat.eqb_eq in E. subst y. right. apply Qlt_le_weak. exact Lx.
        -- left. apply filter_In. rewrite E. auto.
    + apply Qltb_false in Lx. eexists. split; [reflexivity|]. destruct I as [A B].
      apply inv_grow; [|right; exists x; cbn; auto]. constructor; cbn [sel score progr].
      * intros y Iy. destruct (A y Iy) as (Y1 & Y2 & Y3 & Y4). repeat (split; [assumption|]). split; [|exact Y4].
        unfold setE. destruct (y =? x) eqn:E; [apply Nat.eqb_eq in E; subst; reflexivity|exact Y3].
      * exact B.
  - eexists. split; [reflexivity|]. apply select_inv with (st := st); auto.
Qed.
Lemma snapLoop_inv : forall es done st, inv done st -> exists st', snapLoop st es = Some st' /\ inv (done ++ es) st'.
Proof.
  induction es as [|e es IH]; intros done st I; cbn [Ecm_model.snapLoop].
  - rewrite app_nil_r. eauto.
  - destruct (snapStep_inv done st e I) as (st1 & -> & I1).
    destruct (IH _ _ I1) as (st2 & -> & I2). rewrite <- app_assoc in I2. eauto.
Qed.

Notation statCands := (statCands C ofQ P p0 oneWay maxStat statPen platPen em).
Lemma statCands_in : forall platform sts c, In c (statCands platform sts) <->
  exists nd e tp, In nd sts /\ (sdDist nd <= maxStat)%Q /\ In e (sdOut nd) /\ oneWay e <> 2 /\
    (platform <> "" -> sdTrack nd = platform -> tp = platPen)%string /\
    (platform = "" \/ sdTrack nd <> platform -> tp = 0%Q)%string /\
    c = mkCand C edge P (Some e) (ofQ (em (sdDist nd) + (if sdSim nd then 0 else statPen) + tp)%Q) 0%Q p0 0%Z [].
Proof.
  intros platform sts c. unfold Ecm_model.statCands. rewrite in_flat_map.
  assert (TP : forall nd : statNd, exists tp, tp = (if negb (String.eqb platform "") && negb (String.eqb (sdTrack nd) "") &&
                       String.eqb (sdTrack nd) platform then platPen else 0%Q) /\
    (platform <> "" -> sdTrack nd = platform -> tp = platPen)%string /\
    (platform = "" \/ sdTrack nd <> platform -> tp = 0%Q)%string).
  { intros nd. eexists. split; [reflexivity|].
    destruct (String.eqb_spec platform ""); destruct (String.eqb_spec (sdTrack nd) ""); destruct (String.eqb_spec (sdTrack nd) platform); cbn;
      split; intros; try congruence; try tauto. }
  split.
  - intros (nd & I & H). destruct (Qltb maxStat (sdDist nd)) eqn:L; [contradiction|]. apply Qltb_false in L.
    apply in_flat_map in H. destruct H as (e & Ie & H).
    destruct (oneWay e =? 2) eqn:O; [contradiction|]. apply Nat.eqb_neq in O. destruct H as [<-|[]].
    destruct (TP nd) as (tp & E & T1 & T2). exists nd, e, tp. rewrite <- E. repeat (split; [assumption|]). reflexivity.
  - intros (nd & e & tp & I & L & Ie & O & T1 & T2 & ->). exists nd. split; [exact I|].
    destruct (Qltb maxStat (sdDist nd)) eqn:Lb; [apply Qltb_true in Lb; apply Qlt_not_le in Lb; contradiction|].
    apply in_flat_map. exists e. split; [exact Ie|]. apply Nat.eqb_neq in O. rewrite O. left. f_equal. f_equal. f_equal.
    destruct (TP nd) as (tp' & E & T1' & T2'). rewrite <- E. destruct (string_dec platform ""); [rewrite T2', T2; auto|].
    destruct (string_dec (sdTrack nd) platform); [rewrite T1, T1'; auto|rewrite T2', T2; auto].
Qed.

Lemma getEdgCands_ok : forall p platform sts es, exists cs,
  getEdgCands C ofQ P p0 eFr eTo deg outF outB inF inB oneWay enum maxStat maxSnap statPen platPen nonStatPen useStations em
    edist eproj isRev p platform sts es = Some cs /\
  stop_cands ofQ oneWay maxStat maxSnap statPen platPen nonStatPen useStations em edist eproj isRev p platform sts es cs.
Proof.
  intros p platform sts es. unfold getEdgCands.
  destruct (snapLoop_inv es [] (mkSnap [] (fun _ => None) (fun _ => 0%Q))) as (st & -> & I).
  { constructor; cbn; intros; contradiction. }
  cbn [app] in I. eexists. split; [reflexivity|].
  set (sc := if useStations then statCands platform sts else []).
  assert (Hs : forall c, In c sc <-> useStations = true /\ In c (statCands platform sts)).
  { intros c. unfold sc. destruct useStations; cbn; intuition congruence. }
  assert (Hn : forall c, In c (snapCands C ofQ P p0 enum nonStatPen em st) <-> exists e, In e (sel st) /\
    c = mkCand C edge P (Some e) (ofQ (em (edist e) + nonStatPen)%Q) (progr st e) p0 0%Z []).
  { intros c. unfold snapCands. rewrite in_map_iff. split.
    - intros (e & <- & H). apply (proj1 (enum_in _ _)) in H. exists e. split; [exact H|]. destruct (iv_sel _ _ I e H) as (_ & _ & -> & _). reflexivity.
    - intros (e & H & ->). exists e. split; [|apply enum_in; exact H]. destruct (iv_sel _ _ I e H) as (_ & _ & -> & _). reflexivity. }
  assert (Hc : forall c, In c (sc ++ snapCands C ofQ P p0 enum nonStatPen em st) ->
    cTime _ _ _ c = 0%Z /\ cPrede _ _ _ c = [] /\ cE _ _ _ c <> None).
  { intros c H. apply in_app_or in H. destruct H as [H|H].
    - apply Hs in H. destruct H as [_ H]. apply statCands_in in H.
      destruct H as (nd & e & tp & _ & _ & _ & _ & _ & _ & ->). cbn. repeat split; discriminate.
    - apply Hn in H. destruct H as (e & _ & ->). cbn. repeat split; discriminate. }
  constructor.
  - intros c [<-|H]; [cbn; auto|]. destruct (Hc c H) as (A & B & _). auto.
  - eexists _, _. split; [reflexivity|]. cbn. repeat (split; [reflexivity|]). intros x H. apply (Hc x H).
  - intros c e [<-|H] E; [discriminate|]. apply in_app_or in H. destruct H as [H|H].
    + left. apply Hs in H. destruct H as [U H]. apply statCands_in in H.
      destruct H as (nd & e' & tp & X1 & X2 & X3 & X4 & X5 & X6 & ->). cbn in E. injection E as ->.
      exists nd. split; [repeat split; auto|]. split; [reflexivity|]. split; [reflexivity|]. eexists _, tp. cbn. split; [reflexivity|]. auto.
    + right. apply Hn in H. destruct H as (e' & X & ->). cbn in E. injection E as ->.
      destruct (iv_sel _ _ I e X) as (Y1 & Y2 & Y3 & Y4). split; [split; auto|]. repeat split. exact Y4.
  - intros nd e (U & X1 & X2 & X3 & X4). set (tp := if String.eqb platform "" then 0%Q else if String.eqb (sdTrack nd) platform then platPen else 0%Q).
    assert (T1 : (platform <> "" -> sdTrack nd = platform -> tp = platPen)%string).
    { unfold tp. intros H1 H2. apply String.eqb_neq in H1. apply String.eqb_eq in H2. rewrite H1, H2. reflexivity. }
    assert (T2 : (platform = "" \/ sdTrack nd <> platform -> tp = 0%Q)%string).
    { unfold tp. intros [H1|H1]; [apply String.eqb_eq in H1; rewrite H1; reflexivity|].
      apply String.eqb_neq in H1. rewrite H1. destruct (String.eqb platform ""); reflexivity. }
    eexists. split; [right; apply in_or_app; left; apply Hs; split; [exact U|]; apply statCands_in;
      exists nd, e, tp; repeat (split; [eassumption|]); reflexivity|].
    repeat split. eexists _, tp. cbn. split; [reflexivity|]. auto.
  - intros e [I1 L1]. destruct (iv_cover _ _ I e I1 L1) as (e' & X & Y). destruct (iv_sel _ _ I e' X) as (Y1 & Y2 & Y3 & Y4).
    exists e'. eexists. split; [right; apply in_or_app; right; apply Hn; exists e'; split; [exact X|reflexivity]|].
    split; [split; assumption|]. split; [|exact Y]. repeat split. exact Y4.
Qed.
End Stop.

(** ** All nodes of a trie *)
Section Trie.
Variable C : Type.
Variable add : C -> C -> C.
Variable ofQ : Q -> C.
Variable P : Type.
Variables pos attrs : Type.
Variable tnds : list (node pos attrs).
Notation cand := (cand C edge P).
Notation mkCand := (mkCand C edge P).
Notation node := (node pos attrs).
Variable cands : stop pos -> option (list cand).
Notation avgT := (avgT pos attrs).
Notation timePen := (timePen C ofQ).
Notation childCands := (childCands C ofQ P pos attrs tnds).
Notation candLoop := (candLoop C add ofQ P pos attrs tnds).
Notation ecmNode := (ecmNode C add ofQ P pos attrs tnds cands).
Notation ecmLoop := (ecmLoop C add ofQ P pos attrs tnds cands).
Notation getECM := (getECM C add ofQ P pos attrs tnds cands).

Definition ret (t : Z) (c : cand) : cand :=
  mkCand (cE _ _ _ c) (add (cPen _ _ _ c) (timePen t t)) (cProgr _ _ _ c) (cPoint _ _ _ c) t (cPrede _ _ _ c).
Definition dep (diff avgC : Z) (x : nat * cand) : cand :=
  let r := snd x in
  mkCand (cE _ _ _ r) (timePen (cTime _ _ _ r) avgC) (cProgr _ _ _ r) (cPoint _ _ _ r) (cTime _ _ _ r + diff)%Z
    (cPrede _ _ _ r ++ [fst x]).
Lemma depCands_eq : forall b t c diff avgC, (0 <= diff)%Z ->
  depCands C ofQ P b (timeExpand C add ofQ P c t) diff avgC = [dep diff avgC (b, ret t c)].
Proof.
  intros b t c diff avgC H. unfold depCands, timeExpand. cbn [map indexed List.length seq combine filter snd fst cTime].
  replace (t <=? t + diff)%Z with true by (symmetry; apply Z.leb_le; lia). reflexivity.
Qed.

Definition diffOf (avg : Z) (ch : node) : Z := Z.max 0 (avgT ch - avg).
Lemma childCands_eq : forall c t avg nid chs ecm own,
  nth_error ecm nid = Some own -> length ecm = length tnds -> NoDup chs -> ~ In nid chs ->
  (forall ch, In ch chs -> exists nd, nth_error tnds ch = Some nd /\ (avgT nd <= INT_MAX)%Z) ->
  exists ecm', childCands ecm nid (timeExpand C add ofQ P c t) avg chs = Some ecm' /\ length ecm' = length ecm /\
    (forall j, ~ In j chs -> nth_error ecm' j = nth_error ecm j) /\
    (forall j nd l, In j chs -> nth_error tnds j = Some nd -> nth_error ecm j = Some l ->
       nth_error ecm' j = Some (l ++ [dep (diffOf avg nd) (avgT nd) (length own, ret t c)])).
Proof.
  intros c t avg nid. induction chs as [|ch chs IH]; intros ecm own En Ll ND NI Hc; cbn [Ecm_model.childCands].
  - exists ecm. split; [reflexivity|]. split; [reflexivity|]. split; [auto|]. intros j nd l [].
  - destruct (Hc ch (or_introl eq_refl)) as (nd & Ech & A). rewrite Ech, En.
    assert (L : ch < length ecm) by (rewrite Ll; eapply nth_lt; eassumption).
    apply Z.leb_le in A. rewrite A. apply Nat.ltb_lt in L. rewrite L. cbn [andb].
    inversion ND as [|? ? NIc ND']; subst. cbn in NI.
    rewrite depCands_eq by lia.
    set (g := fun l => l ++ [dep (diffOf avg nd) (avgT nd) (length own, ret t c)]).
    destruct (IH (upd ch g ecm) own) as (ecm' & R & Ln & U & V).
    + rewrite upd_nth_ne by (intros ->; tauto). exact En.
    + rewrite upd_length. exact Ll.
    + exact ND'.
    + tauto.
    + intros x Ix. apply Hc. right. exact Ix.
    + exists ecm'. split; [exact R|]. rewrite upd_length in Ln. split; [exact Ln|]. split.
      * intros j Nj. cbn in Nj. rewrite U by tauto. apply upd_nth_ne. intros ->. tauto.
      * intros j nd' l [<-|Ij] Ej El.
        -- rewrite U by exact NIc. rewrite Ech in Ej. injection Ej as <-. rewrite (upd_nth_eq _ _ _ _ _ El). reflexivity.
        -- apply V; [exact Ij|exact Ej|]. rewrite upd_nth_ne; [exact El|]. intros ->. contradiction.
Qed.

Definition deps (avg : Z) (nd : node) (b : nat) (cs : list cand) : list cand :=
  map (dep (diffOf avg nd) (avgT nd)) (combine (seq b (length cs)) (map (ret avg) cs)).
Lemma candLoop_eq : forall nid avg chs cs ecm own,
  nth_error ecm nid = Some own -> length ecm = length tnds -> NoDup chs -> ~ In nid chs ->
  (avg <= INT_MAX)%Z ->
  (forall ch, In ch chs -> exists nd, nth_error tnds ch = Some nd /\ (avgT nd <= INT_MAX)%Z) ->
  exists ecm', candLoop ecm nid avg chs cs = Some ecm' /\ length ecm' = length ecm /\
    nth_error ecm' nid = Some (own ++ map (ret avg) cs) /\
    (forall j, j <> nid -> (nid = 1 \/ ~ In j chs) -> nth_error ecm' j = nth_error ecm j) /\
    (forall j nd l, nid <> 1 -> In j chs -> nth_error tnds j = Some nd -> nth_error ecm j = Some l ->
       nth_error ecm' j = Some (l ++ deps avg nd (length own) cs)).
Proof.
  intros nid avg chs. induction cs as [|c cs IH]; intros ecm own En Ll ND NI A Hc; cbn [Ecm_model.candLoop].
  - exists ecm. rewrite app_nil_r. split; [reflexivity|]. split; [reflexivity|]. split; [exact En|]. split; [auto|].
    intros j nd l _ _ _ El. cbn. rewrite app_nil_r. exact El.
  - pose proof A as A'. apply Z.leb_le in A'. rewrite A'.
    destruct (childCands_eq c avg avg nid (if nid =? 1 then [] else chs) ecm own En Ll) as (ecm1 & R & Ln & U & V).
    { destruct (nid =? 1); [constructor|exact ND]. }
    { destruct (nid =? 1); [auto|exact NI]. }
    { destruct (nid =? 1); [intros ? []|exact Hc]. }
    rewrite R.
    assert (En1 : nth_error ecm1 nid = Some own).
    { rewrite U; [exact En|]. destruct (nid =? 1); [auto|exact NI]. }
    destruct (IH (upd nid (fun l => l ++ timeExpand C add ofQ P c avg) ecm1) (own ++ [ret avg c])) as (ecm' & R' & Ln' & N' & U' & V').
    + rewrite (upd_nth_eq _ _ _ _ _ En1). reflexivity.
    + rewrite upd_length. congruence.
    + exact ND.
    + exact NI.
    + exact A.
    + exact Hc.
    + exists ecm'. split; [exact R'|]. rewrite upd_length in Ln'. split; [congruence|].
      split; [rewrite N'; rewrite <- app_assoc; reflexivity|]. split.
      * intros j Nj Hj. rewrite U' by assumption. rewrite upd_nth_ne by exact Nj. apply U.
        destruct (nid =? 1) eqn:E1; [auto|]. apply Nat.eqb_neq in E1. destruct Hj; [contradiction|assumption].
      * intros j nd l N1 Ij Ej El. assert (Nj : j <> nid) by (intros ->; contradiction).
        rewrite (V' j nd (l ++ [dep (diffOf avg nd) (avgT nd) (length own, ret avg c)]) N1 Ij Ej).
        -- rewrite app_length. cbn [List.length]. rewrite <- app_assoc. unfold deps. cbn [List.length seq map combine app].
           rewrite Nat.add_1_r. reflexivity.
        -- rewrite upd_nth_ne by exact Nj. apply V; auto. apply Nat.eqb_neq in N1. rewrite N1. exact Ij.
Qed.

(** *** Closed form *)
Hypothesis T : tree tnds.
Hypothesis ReprOk : forall n nd, nth_error tnds n = Some nd -> n <> 0 -> exists s cs, nRepr _ _ nd = Some s /\ cands s = Some cs.
Hypothesis AvgOk : forall n nd, nth_error tnds n = Some nd -> (avgT nd <= INT_MAX)%Z.

Definition csOf (nd : node) : list cand :=
  match nRepr _ _ nd with Some s => match cands s with Some cs => cs | None => [] end | None => [] end.
(** Is node [n] filled by its parent? *)
Definition byParent (n : nat) (nd : node) : bool := negb (n =? 1) && negb (nArr _ _ nd).
Definition fin (n : nat) (nd : node) : list cand :=
  if byParent n nd then
    match nth_error tnds (nParent _ _ nd) with
    | Some pn => deps (avgT pn) nd 0 (csOf pn)
    | None => []
    end
  else map (ret (avgT nd)) (csOf nd).

Lemma byParent_parent : forall n nd, nth_error tnds n = Some nd -> n <> 0 -> byParent n nd = true ->
  exists pn, nth_error tnds (nParent _ _ nd) = Some pn /\ nArr _ _ pn = true /\ In n (nChilds _ _ pn) /\
    nParent _ _ nd <> 0 /\ nParent _ _ nd <> 1 /\ nParent _ _ nd < n.
Proof.
  intros n nd E N0 B. unfold byParent in B. apply andb_true_iff in B. destruct B as [B1 B2].
  apply negb_true_iff in B1, B2. apply Nat.eqb_neq in B1.
  destruct (tr_parent _ T n nd E N0) as (L & pn & Ep & Ic & A).
  assert (P0 : nParent _ _ nd <> 0).
  { intros X. rewrite X in Ep. destruct (tr_one _ T pn Ep) as [Y|Y]; rewrite Y in Ic; [contradiction|]. destruct Ic as [Z|[]]. congruence. }
  pose proof P0 as P0'. apply Nat.eqb_neq in P0'. rewrite P0', B2 in A. symmetry in A. apply negb_false_iff in A.
  exists pn. repeat (split; [assumption|]). split; [|exact L].
  intros X. rewrite X in Ep. destruct (tr_parent _ T 1 pn Ep) as (L1 & q & _ & _ & A1); [discriminate|].
  assert (Z : nParent _ _ pn = 0) by lia. rewrite Z in A1. cbn in A1. congruence.
Qed.
Lemma child_dep : forall n nd ch ndc, nth_error tnds n = Some nd -> n <> 0 -> n <> 1 -> nArr _ _ nd = true -> In ch (nChilds _ _ nd) ->
  nth_error tnds ch = Some ndc -> byParent ch ndc = true /\ nParent _ _ ndc = n /\ ch <> 0 /\ n < ch.
Proof.
  intros n nd ch ndc E N0 N1 A I Ec. destruct (tr_child _ T n nd ch E I) as (C0 & x & Ex & Px). rewrite Ec in Ex. injection Ex as <-.
  destruct (tr_parent _ T ch ndc Ec C0) as (L & pn & Ep & _ & Ac). rewrite Px in *. rewrite E in Ep. injection Ep as <-.
  apply Nat.eqb_neq in N0. rewrite N0, A in Ac. cbn in Ac. split; [|auto]. unfold byParent. rewrite Ac.
  replace (ch =? 1) with false; [reflexivity|]. symmetry. apply Nat.eqb_neq. apply Nat.eqb_neq in N0. lia.
Qed.

(** After the nodes below [k]. *)
Definition upto (k : nat) (ecm : list (list cand)) : Prop :=
  length ecm = length tnds /\
  forall n nd, nth_error tnds n = Some nd ->
    nth_error ecm n = Some (if (n =? 0) then [] else
                            if (if byParent n nd then nParent _ _ nd else n) <? k then fin n nd else []).
Lemma ecmNode_upto : forall k ecm, k <> 0 -> k < length tnds -> upto k ecm ->
  exists ecm', ecmNode ecm k = Some ecm' /\ upto (S k) ecm'.
Proof.
  intros k ecm K0 Lk [Ll U]. destruct (nth_ex _ _ _ Lk) as (nd & E). unfold Ecm_model.ecmNode. rewrite E.
  change (negb (k =? 1) && negb (nArr pos attrs nd)) with (byParent k nd).
  destruct (byParent k nd) eqn:B.
  - exists ecm. split; [reflexivity|]. split; [exact Ll|]. intros n ndn En. rewrite (U n ndn En). f_equal.
    destruct (n =? 0) eqn:N0; [reflexivity|]. apply Nat.eqb_neq in N0.
    set (q := if byParent n ndn then nParent _ _ ndn else n).
    assert (Q : q <> k).
    { unfold q. destruct (byParent n ndn) eqn:Bn; [|intros ->; rewrite E in En; injection En as <-; congruence].
      intros X. destruct (byParent_parent n ndn En N0 Bn) as (pn & Ep & Ap & _). rewrite X, E in Ep. injection Ep as <-.
      unfold byParent in B. rewrite Ap in B. rewrite andb_false_r in B. discriminate. }
    replace (q <? S k) with (q <? k); [reflexivity|]. apply eq_true_iff_eq. rewrite !Nat.ltb_lt. lia.
  - destruct (ReprOk k nd E K0) as (s & cs & Rs & Cs). rewrite Rs, Cs.
    assert (Ek : nth_error ecm k = Some []).
    { rewrite (U k nd E). apply Nat.eqb_neq in K0. rewrite K0, B, Nat.ltb_irrefl. reflexivity. }
    assert (NI : ~ In k (nChilds _ _ nd)).
    { intros X. destruct (tr_child _ T k nd k E X) as (_ & x & Ex & Px). rewrite E in Ex. injection Ex as <-.
      destruct (tr_parent _ T k nd E K0) as (L & _). lia. }
    destruct (candLoop_eq k (avgT nd) (nChilds _ _ nd) cs ecm [] Ek Ll (tr_nodup _ T k nd E) NI (AvgOk _ _ E)) as (ecm' & R & Ln & N & V & W).
    { intros ch Ic. destruct (tr_child _ T k nd ch E Ic) as (_ & x & Ex & _). exists x. split; [exact Ex|exact (AvgOk _ _ Ex)]. }
    exists ecm'. split; [exact R|]. split; [congruence|]. intros n ndn En.
    destruct (n =? 0) eqn:N0.
    { apply Nat.eqb_eq in N0. subst n. rewrite V; [rewrite (U 0 ndn En); reflexivity|lia|].
      right. intros X. destruct (tr_child _ T k nd 0 E X) as (X0 & _). congruence. }
    apply Nat.eqb_neq in N0.
    destruct (Nat.eq_dec n k) as [->|Nk].
    { rewrite E in En. injection En as <-. rewrite B, N. replace (k <? S k) with true by (symmetry; apply Nat.ltb_lt; lia).
      unfold fin. rewrite B. unfold csOf. rewrite Rs, Cs. reflexivity. }
    destruct (byParent n ndn) eqn:Bn.
    + destruct (Nat.eq_dec (nParent _ _ ndn) k) as [Pk|Pk].
      * destruct (byParent_parent n ndn En N0 Bn) as (pn & Ep & Ap & Ic & _ & P1 & _). rewrite Pk in *. rewrite E in Ep. injection Ep as <-.
        replace (k <? S k) with true by (symmetry; apply Nat.ltb_lt; lia).
        rewrite (W n ndn [] P1 Ic En); [|rewrite (U n ndn En); apply Nat.eqb_neq in N0; rewrite N0, Bn, Pk, Nat.ltb_irrefl; reflexivity].
        unfold fin. rewrite Bn, Pk, E. unfold csOf. rewrite Rs, Cs. reflexivity.
      * replace (nParent _ _ ndn <? S k) with (nParent _ _ ndn <? k) by (apply eq_true_iff_eq; rewrite !Nat.ltb_lt; lia).
        rewrite V; [rewrite (U n ndn En); apply Nat.eqb_neq in N0; rewrite N0, Bn; reflexivity|exact Nk|].
        right. intros X. destruct (tr_child _ T k nd n E X) as (_ & x & Ex & Px). rewrite En in Ex. injection Ex as <-. congruence.
    + replace (n <? S k) with (n <? k) by (apply eq_true_iff_eq; rewrite !Nat.ltb_lt; lia).
      rewrite V; [rewrite (U n ndn En); apply Nat.eqb_neq in N0; rewrite N0, Bn; reflexivity|exact Nk|].
      destruct (Nat.eq_dec k 1) as [->|K1]; [left; reflexivity|]. right. intros X.
      assert (Ak : nArr _ _ nd = true).
      { unfold byParent in B. apply Nat.eqb_neq in K1. rewrite K1 in B. cbn in B. apply negb_false_iff in B. exact B. }
      destruct (child_dep k nd n ndn E K0 K1 Ak X En) as (Y & _). congruence.
Qed.
Lemma ecmLoop_upto : forall m k ecm, k <> 0 -> k + m = length tnds -> upto k ecm ->
  exists ecm', ecmLoop ecm (seq k m) = Some ecm' /\ upto (length tnds) ecm'.
Proof.
  induction m as [|m IH]; intros k ecm K0 L U; cbn [seq Ecm_model.ecmLoop].
  - rewrite Nat.add_0_r in L. subst k. eauto.
  - destruct (ecmNode_upto k ecm K0) as (ecm1 & -> & U1); [lia|exact U|]. apply (IH (S k)); [lia|lia|exact U1].
Qed.
Lemma getECM_closed : exists ecm, getECM = Some ecm /\ length ecm = length tnds /\ nth_error ecm 0 = Some [] /\
  forall n nd, n <> 0 -> nth_error tnds n = Some nd -> nth_error ecm n = Some (fin n nd).
Proof.
  assert (L1 : 1 <= length tnds) by (destruct (tr_root _ T) as (r & E & _); apply nth_lt in E; lia).
  destruct (ecmLoop_upto (length tnds - 1) 1 (repeat [] (length tnds))) as (ecm & R & Ll & U); [lia|lia| |].
  - split; [apply repeat_length|]. intros n nd E. pose proof (nth_lt _ _ _ _ E) as Ln.
    assert (X : nth_error (repeat (@nil cand) (length tnds)) n = Some []).
    { rewrite nth_error_nth' with (d := []) by (rewrite repeat_length; exact Ln). rewrite nth_repeat. reflexivity. }
    rewrite X. f_equal. destruct (n =? 0) eqn:N0; [reflexivity|]. apply Nat.eqb_neq in N0.
    destruct (byParent n nd) eqn:B.
    + destruct (byParent_parent n nd E N0 B) as (_ & _ & _ & _ & P0 & _). replace (nParent _ _ nd <? 1) with false; [reflexivity|].
      symmetry. apply Nat.ltb_ge. lia.
    + replace (n <? 1) with false; [reflexivity|]. symmetry. apply Nat.ltb_ge. lia.
  - exists ecm. split; [exact R|]. split; [exact Ll|].
    split; [destruct (tr_root _ T) as (r & E & _); rewrite (U 0 r E); reflexivity|]. intros n nd N0 E. rewrite (U n nd E). pose proof (nth_lt _ _ _ _ E) as Ln.
    pose proof N0 as N0'. apply Nat.eqb_neq in N0'. rewrite N0'. f_equal.
    replace ((if byParent n nd then nParent _ _ nd else n) <? length tnds) with true; [reflexivity|].
    symmetry. apply Nat.ltb_lt. destruct (byParent n nd) eqn:B; [|exact Ln].
    destruct (byParent_parent n nd E N0 B) as (_ & _ & _ & _ & _ & _ & X). lia.
Qed.

(** *** The specification *)
Hypothesis AccOk : forall n nd, nth_error tnds n = Some nd -> (0 <= nAcc _ _ nd <= INT_MAX)%Z.
Hypothesis Fresh : forall s cs c, cands s = Some cs -> In c cs -> cPrede _ _ _ c = [].
Lemma avgT_mean : forall nd : node, (0 <= nAcc _ _ nd <= INT_MAX)%Z -> mean_time nd (avgT nd) /\ (0 <= avgT nd <= INT_MAX)%Z.
Proof.
  intros nd H. unfold Ecm_model.avgT, mean_time, INT_MAX in *. destruct (nTrips _ _ nd) as [|k] eqn:N.
  - split; [split; [reflexivity|congruence]|lia].
  - rewrite Z.mod_small by (split; [lia|]; eapply Z.le_lt_trans; [apply H|]; reflexivity).
    set (m := Z.of_nat (S k)). assert (Hm : (0 < m)%Z) by (unfold m; lia).
    pose proof (Z.mul_div_le (nAcc _ _ nd) m Hm) as A1. pose proof (Z.mul_succ_div_gt (nAcc _ _ nd) m Hm) as A2.
    pose proof (Z.div_pos (nAcc _ _ nd) m ltac:(lia) Hm) as A3.
    split; [split; [discriminate|intros _; lia]|]. split; [exact A3|].
    apply Z.le_trans with (nAcc _ _ nd); [|lia]. apply Z.div_le_upper_bound; [exact Hm|]. nia.
Qed.
Lemma ret_arrival : forall t c, cPrede _ _ _ c = [] -> arrival ofQ add t c (ret t c).
Proof.
  intros t c H. split; [repeat split|]. split; [reflexivity|]. split; [exact H|].
  eexists. split; [|cbn [ret cPen]; unfold Ecm_model.timePen; reflexivity]. rewrite Z.sub_diag. reflexivity.
Qed.
Lemma dep_departure : forall t nd i c, cPrede _ _ _ c = [] ->
  departure ofQ t (avgT nd) i (ret t c) (dep (diffOf t nd) (avgT nd) (i, ret t c)).
Proof.
  intros t nd i c H. split; [repeat split|]. split; [cbn; unfold diffOf; lia|]. split; [cbn; rewrite H; reflexivity|].
  eexists. split; [|cbn [dep cPen snd cTime ret]; unfold Ecm_model.timePen; reflexivity].
  destruct (Z.abs_eq_or_opp (t - avgT nd)) as [X|X]; rewrite X; [reflexivity|]. rewrite inject_Z_opp. field.
Qed.
Lemma getECM_ok : exists ecm, getECM = Some ecm /\ trie_cands ofQ add tnds cands ecm.
Proof.
  destruct getECM_closed as (ecm & R & Ll & R0 & F). exists ecm. split; [exact R|]. constructor; [exact Ll|exact R0| |].
  - intros n nd N0 E H. destruct (ReprOk n nd E N0) as (s & cs & Rs & Cs). exists s, cs, (fin n nd), (avgT nd).
    split; [auto|]. split; [auto|]. split; [auto|]. split; [exact (proj1 (avgT_mean _ (AccOk _ _ E)))|]. unfold fin.
    replace (byParent n nd) with false.
    + unfold csOf. rewrite Rs, Cs. assert (X : forall c, In c cs -> cPrede _ _ _ c = []) by eauto. clear - X.
      induction cs as [|c cs IH]; cbn; constructor; [apply ret_arrival; apply X; left; reflexivity|]. apply IH. intros y Iy. apply X. right. exact Iy.
    + unfold byParent. destruct H as [->| ->]; [reflexivity|]. rewrite andb_false_r. reflexivity.
  - intros n nd pn N1 E A Ep.
    assert (B : byParent n nd = true).
    { unfold byParent. rewrite A. replace (n =? 1) with false; [reflexivity|]. symmetry. apply Nat.eqb_neq. lia. }
    destruct (byParent_parent n nd E ltac:(lia) B) as (pn' & Ep' & Ap & _ & P0 & P1 & _). rewrite Ep in Ep'. injection Ep' as <-.
    destruct (ReprOk _ pn Ep P0) as (s & cs & Rs & Cs).
    assert (Bp : byParent (nParent _ _ nd) pn = false) by (unfold byParent; rewrite Ap, andb_false_r; reflexivity).
    exists (fin (nParent _ _ nd) pn), (fin n nd), (avgT pn), (avgT nd).
    split; [apply F; auto|]. split; [apply F; auto; lia|]. split; [exact (proj1 (avgT_mean _ (AccOk _ _ Ep)))|]. split; [exact (proj1 (avgT_mean _ (AccOk _ _ E)))|].
    unfold fin. rewrite B, Bp, Ep. unfold csOf, deps. rewrite Rs, Cs. rewrite !map_length, combine_length, seq_length, map_length, Nat.min_id.
    split; [reflexivity|]. intros i x y Ex Ey.
    rewrite nth_error_map in Ex. destruct (nth_error (combine _ _) i) as [[j r]|] eqn:Ec; [|discriminate]. cbn in Ex. injection Ex as <-.
    assert (X : j = i /\ nth_error (map (ret (avgT pn)) cs) i = Some r).
    { clear - Ec. assert (G : forall (l : list cand) b i, nth_error (combine (seq b (length l)) l) i = Some (j, r) -> j = b + i /\ nth_error l i = Some r).
      { induction l as [|c l IH]; intros b [|i'] H; cbn in H; try discriminate.
        - injection H as <- <-. split; [lia|reflexivity].
        - destruct (IH _ _ H) as [-> H']. split; [lia|exact H']. }
      apply (G _ 0 i). rewrite map_length. exact Ec. }
    destruct X as [-> Er]. rewrite Ey in Er. injection Er as ->.
    rewrite nth_error_map in Ey. destruct (nth_error cs i) as [c|] eqn:Ci; [|discriminate]. cbn in Ey. injection Ey as <-.
    apply dep_departure. apply (Fresh s cs c Cs). eapply nth_error_In; eassumption.
Qed.
End Trie.

(** ** What the router needs *)
Section Needs.
Context {C P pos attrs : Type}.
Variable lt : C -> C -> bool.
Variable add : C -> C -> C.
Variable inf : C.
Variable ofQ : Q -> C.
Variable ofZ : Z -> C.
Variable tnds : list (node pos attrs).
Notation cand := (cand C edge P).
Notation cE := (cE C edge P).
Notation cPen := (cPen C edge P).
Notation cPrede := (cPrede C edge P).
Variable cands : stop pos -> option (list cand).
Variable ecm : list (list cand).
Hypothesis T : tree tnds.
Hypothesis TC : trie_cands ofQ add tnds cands ecm.
Hypothesis Null : forall s cs, cands s = Some cs -> exists c rest, cs = c :: rest /\ cE c = None.

Lemma kind : forall n p, parent tnds n p -> exists nd pn, nth_error tnds n = Some nd /\ nth_error tnds p = Some pn /\ nParent _ _ nd = p /\
  nArr _ _ nd = negb (nArr _ _ pn) /\ (stays tnds p n <-> nArr _ _ pn = true) /\ 1 < n.
Proof.
  intros n p (nd & E & Pn & N0 & P0). destruct (tr_parent _ T n nd E N0) as (L & pn & Ep & _ & A). rewrite Pn in *.
  pose proof P0 as P0'. apply Nat.eqb_neq in P0'. rewrite P0' in A. exists nd, pn. repeat (split; [assumption|]). split; [|lia].
  split.
  - intros (a & b & Ea & Eb & X & Y). congruence.
  - intros X. exists pn, nd. repeat (split; [assumption|]). rewrite A, X. reflexivity.
Qed.
Lemma dep_lists : forall n p, parent tnds n p -> stays tnds p n -> exists ys xs t d, nth_error ecm p = Some ys /\ nth_error ecm n = Some xs /\
  length xs = length ys /\ forall i x y, nth_error xs i = Some x -> nth_error ys i = Some y -> departure ofQ t d i y x.
Proof.
  intros n p Pn Sy. destruct (kind n p Pn) as (nd & pn & E & Ep & Pp & A & S & L). apply S in Sy. rewrite Sy in A.
  rewrite <- Pp in Ep. destruct (tc_dep _ _ _ _ _ TC n nd pn L E A Ep) as (ys & xs & t & d & Y & X & _ & _ & Ll & D).
  rewrite Pp in Y. exists ys, xs, t, d. auto.
Qed.
(** First departures and arrivals have candidates of their stop. *)
Lemma arr_lists : forall n nd, n <> 0 -> nth_error tnds n = Some nd -> n = 1 \/ nArr _ _ nd = true ->
  exists s cs xs t, nRepr _ _ nd = Some s /\ cands s = Some cs /\ nth_error ecm n = Some xs /\ Forall2 (arrival ofQ add t) cs xs.
Proof.
  intros n nd N0 E H. destruct (tc_arr _ _ _ _ _ TC n nd N0 E H) as (s & cs & xs & t & X1 & X2 & X3 & _ & X4). eauto 10.
Qed.
Lemma node_cases : forall n nd, n <> 0 -> nth_error tnds n = Some nd ->
  (n = 1 \/ nArr _ _ nd = true) \/ (exists p, parent tnds n p /\ stays tnds p n).
Proof.
  intros n nd N0 E. destruct (Nat.eq_dec n 1); [auto|]. destruct (nArr _ _ nd) eqn:A; [auto|]. right.
  destruct (tr_parent _ T n nd E N0) as (L & pn & Ep & Ic & Ac).
  assert (P0 : nParent _ _ nd <> 0).
  { intros X. rewrite X in Ep. destruct (tr_one _ T pn Ep) as [Y|Y]; rewrite Y in Ic; [contradiction|]. destruct Ic as [Z|[]]. congruence. }
  exists (nParent _ _ nd). assert (Pr : parent tnds n (nParent _ _ nd)) by (exists nd; auto). split; [exact Pr|].
  pose proof P0 as P0'. apply Nat.eqb_neq in P0'. rewrite P0', A in Ac. exists pn, nd. repeat (split; [assumption|]). split; [|assumption].
  symmetry in Ac. apply negb_false_iff in Ac. exact Ac.
Qed.
Lemma Forall2_nth_l : forall A B (R : A -> B -> Prop) l m i y, Forall2 R l m -> nth_error m i = Some y -> exists x, nth_error l i = Some x /\ R x y.
Proof.
  intros A B R l m i y F. revert i. induction F; intros [|i] X; cbn in *; try discriminate; eauto. injection X as <-. eauto.
Qed.
Lemma parent_arr : forall n p, parent tnds n p -> stays tnds p n -> exists pn, nth_error tnds p = Some pn /\ nArr _ _ pn = true /\ p <> 0.
Proof.
  intros n p Pn Sy. destruct (kind n p Pn) as (nd & pn & E & Ep & Pp & A & S & L). apply S in Sy.
  destruct Pn as (? & _ & _ & _ & P0). eauto.
Qed.

Lemma needs_ok : forall R : Prop, R -> ecm_ok tnds ecm R.
Proof.
  intros R HR. constructor; [| | |exact HR].
  - intros n L _. rewrite <- (tc_length _ _ _ _ _ TC) in L. exact (nth_ex _ _ _ L).
  - intros n cs L N0 Ec ->. destruct (nth_ex _ _ _ L) as (nd & E).
    assert (Arr : forall m ndm, m <> 0 -> nth_error tnds m = Some ndm -> m = 1 \/ nArr _ _ ndm = true -> nth_error ecm m <> Some []).
    { intros m ndm M0 Em H X. destruct (arr_lists m ndm M0 Em H) as (s & cs & xs & t & _ & Cs & Ex & F).
      rewrite X in Ex. injection Ex as <-. destruct (Null s cs Cs) as (c & rest & -> & _). inversion F. }
    destruct (node_cases n nd N0 E) as [H|(p & Pn & Sy)]; [exact (Arr n nd N0 E H Ec)|].
    destruct (dep_lists n p Pn Sy) as (ys & xs & t & d & Y & X & Ll & _). rewrite Ec in X. injection X as <-.
    destruct ys; [|discriminate]. destruct (parent_arr n p Pn Sy) as (pn & Ep & Ap & P0). exact (Arr p pn P0 Ep (or_intror Ap) Y).
  - intros p n i x f Pn Sy (cs & Ec & Ex) If. destruct (dep_lists n p Pn Sy) as (ys & xs & t & d & Y & X & Ll & D).
    rewrite Ec in X. injection X as ->. pose proof (nth_lt _ _ _ _ Ex) as Li. rewrite Ll in Li. destruct (nth_ex _ _ _ Li) as (y & Ey).
    destruct (D i x y Ex Ey) as (_ & _ & Pr & _). rewrite Pr in If. destruct If as [<-|[]]. exists y, ys. auto.
Qed.
Hypothesis Fin : forall s cs c, cands s = Some cs -> In c cs -> lt (cPen c) inf = true.
Hypothesis FinQ : forall q, lt (ofQ q) inf = true.
Hypothesis FinZ : forall z, lt (ofZ z) inf = true.
Hypothesis FinA : forall a b, lt a inf = true -> lt b inf = true -> lt (add a b) inf = true.
Lemma needs_live : ecm_live lt add inf ofZ tnds ecm.
Proof.
  constructor; [| | |exact FinA|exact FinZ].
  - intros n i x (cs & Ec & Ex). pose proof (nth_lt _ _ _ _ Ec) as L. rewrite (tc_length _ _ _ _ _ TC) in L. destruct (nth_ex _ _ _ L) as (nd & E).
    destruct (Nat.eq_dec n 0) as [->|N0]; [rewrite (tc_root _ _ _ _ _ TC) in Ec; injection Ec as <-; destruct i; discriminate|].
    destruct (node_cases n nd N0 E) as [H|(p & Pn & Sy)].
    + destruct (arr_lists n nd N0 E H) as (s & cs' & xs & t & _ & Cs & X & F). rewrite Ec in X. injection X as <-.
      destruct (Forall2_nth_l _ _ _ _ _ _ _ F Ex) as (c & Ic & _ & _ & _ & z & _ & ->). apply FinA; [|apply FinQ].
      eapply Fin; [exact Cs|]. eapply nth_error_In; exact Ic.
    + destruct (dep_lists n p Pn Sy) as (ys & xs & t & d & Y & X & Ll & D).
      rewrite Ec in X. injection X as ->. pose proof (nth_lt _ _ _ _ Ex) as Li. rewrite Ll in Li. destruct (nth_ex _ _ _ Li) as (y & Ey).
      destruct (D i x y Ex Ey) as (_ & _ & _ & z & _ & ->). apply FinQ.
  - intros p n Pn NS. destruct (kind n p Pn) as (nd & pn & E & Ep & Pp & A & S & L).
    assert (An : nArr _ _ nd = true) by (rewrite A; destruct (nArr _ _ pn); [exfalso; apply NS; apply S; reflexivity|reflexivity]).
    destruct (arr_lists n nd ltac:(lia) E (or_intror An)) as (s & cs & xs & t & _ & Cs & X & F).
    destruct (Null s cs Cs) as (c & rest & -> & Nc). inversion F as [|? x ? xs' Ax _]; subst. exists x. split; [exists (x :: xs'); auto|].
    destruct Ax as ((Q & _) & _). rewrite Q. exact Nc.
  - intros p n f y Pn Sy (cs & Ec & Ey). destruct (dep_lists n p Pn Sy) as (ys & xs & t & d & Y & X & Ll & D).
    rewrite Ec in Y. injection Y as ->. pose proof (nth_lt _ _ _ _ Ey) as Li. rewrite <- Ll in Li. destruct (nth_ex _ _ _ Li) as (x & Ex).
    destruct (D f x y Ex Ey) as (_ & _ & Pr & _). exists f, x. split; [exists xs; auto|]. rewrite Pr. left. reflexivity.
Qed.
Lemma needs_aligned : aligned tnds ecm.
Proof.
  intros p n i x f y Pn Sy (cs & Ec & Ex) If (cs' & Ec' & Ey). destruct (dep_lists n p Pn Sy) as (ys & xs & t & d & Y & X & Ll & D).
  rewrite Ec in X. injection X as ->. rewrite Ec' in Y. injection Y as ->.
  pose proof (nth_lt _ _ _ _ Ex) as Li. rewrite Ll in Li. destruct (nth_ex _ _ _ Li) as (y' & Ey').
  destruct (D i x y' Ex Ey') as (SP & _ & Pr & _). rewrite Pr in If. destruct If as [<-|[]]. rewrite Ey in Ey'. injection Ey' as <-. exact SP.
Qed.

(** ** Hops join candidates of consecutive stops *)
Variable near : pos -> pos -> bool.
Lemma arr_cand_stop : forall n nd i x, n <> 0 -> nth_error tnds n = Some nd -> n = 1 \/ nArr _ _ nd = true -> cand_at ecm n i x ->
  exists s cs c, nRepr _ _ nd = Some s /\ cands s = Some cs /\ In c cs /\ same_place x c.
Proof.
  intros n nd i x N0 E H (l & El & Ex). destruct (arr_lists n nd N0 E H) as (s & cs & xs & t & Rs & Cs & X & F). rewrite El in X. injection X as <-.
  destruct (Forall2_nth_l _ _ _ _ _ _ _ F Ex) as (c & Ic & SP & _). exists s, cs, c. repeat (split; [assumption|]). split; [|exact SP].
  eapply nth_error_In; exact Ic.
Qed.
Lemma dep_cand_stop : forall n p pn i x, parent tnds n p -> stays tnds p n -> nth_error tnds p = Some pn -> cand_at ecm n i x ->
  exists s cs c, nRepr _ _ pn = Some s /\ cands s = Some cs /\ In c cs /\ same_place x c.
Proof.
  intros n p pn i x Pn Sy Ep (l & El & Ex). destruct (dep_lists n p Pn Sy) as (ys & xs & t & d & Y & X & Ll & D).
  rewrite El in X. injection X as ->. pose proof (nth_lt _ _ _ _ Ex) as Li. rewrite Ll in Li. destruct (nth_ex _ _ _ Li) as (y & Ey).
  destruct (D i x y Ex Ey) as ((S1 & S2 & S3) & _). destruct (parent_arr n p Pn Sy) as (pn' & Ep' & Ap & P0). rewrite Ep in Ep'. injection Ep' as <-.
  destruct (arr_cand_stop p pn i y P0 Ep (or_intror Ap)) as (s & cs & c & Rs & Cs & Ic & (Q1 & Q2 & Q3)); [exists ys; auto|].
  exists s, cs, c. repeat (split; [assumption|]). split; [congruence|]. split; congruence.
Qed.
Lemma starts_same : forall h x c, same_place x c -> starts_at (E:=edge) (P:=P) h x -> starts_at (C:=C) h c.
Proof. intros h x c (A & B & D) H. unfold starts_at in *. rewrite A, B, D in H. exact H. Qed.
Lemma ends_same : forall h x c, same_place x c -> ends_at (E:=edge) (P:=P) h x -> ends_at (C:=C) h c.
Proof. intros h x c (A & B & D) H. unfold ends_at in *. rewrite A, B, D in H. exact H. Qed.

Lemma later_snoc : forall start sts (l s : stime pos), later_keys start ((sts ++ [l]) ++ [s]) =
  later_keys start (sts ++ [l]) ++ [mkKey false (stStop _ l) (relTime start (stDep _ l)); mkKey true (stStop _ s) (relTime start (stArr _ s))].
Proof.
  intros start. induction sts as [|a sts IH]; intros l s; [reflexivity|].
  assert (X : forall q, q = (sts ++ [l]) ++ [s] -> later_keys start (a :: q) =
    mkKey true (stStop _ a) (relTime start (stArr _ a)) :: mkKey false (stStop _ a) (relTime start (stDep _ a)) :: later_keys start q).
  { intros q ->. cbn [later_keys]. destruct ((sts ++ [l]) ++ [s]) eqn:Y; [destruct (sts ++ [l]); discriminate|reflexivity]. }
  cbn [app]. rewrite (X _ eq_refl), IH. destruct (sts ++ [l]) eqn:Y; [destruct sts; discriminate|]. reflexivity.
Qed.
Lemma trip_snoc : forall start sts (l s : stime pos), sts <> [] -> trip_keys start ((sts ++ [l]) ++ [s]) =
  trip_keys start (sts ++ [l]) ++ [mkKey false (stStop _ l) (relTime start (stDep _ l)); mkKey true (stStop _ s) (relTime start (stArr _ s))].
Proof.
  intros start [|a sts] l s H; [contradiction|]. cbn [app]. unfold trip_keys.
  pose proof (later_snoc start sts l s) as X.
  destruct ((sts ++ [l]) ++ [s]) eqn:Y; [destruct (sts ++ [l]); discriminate|].
  destruct (sts ++ [l]) eqn:Z; [destruct sts; discriminate|]. rewrite X. reflexivity.
Qed.
Lemma spells_app : forall tex ks1 ks2 cur path, spells near tnds tex cur path (ks1 ++ ks2) ->
  exists p1 p2, path = p1 ++ p2 /\ spells near tnds tex cur p1 ks1 /\ spells near tnds tex (last p1 cur) p2 ks2.
Proof.
  intros tex. induction ks1 as [|k ks1 IH]; intros ks2 cur path H.
  - exists [], path. split; [reflexivity|]. split; [constructor|exact H].
  - cbn in H. inversion H as [|? n nd r p ? ? En Pn N0 Rn SS A Tm S]; subst. destruct (IH _ _ _ S) as (p1 & p2 & -> & S1 & S2).
    exists (n :: p1), p2. split; [reflexivity|]. split; [econstructor; eauto|]. 
    rewrite Router_proofs.last_cons. exact S2.
Qed.

Variable startCost : nat -> edge -> Z.
Variable spath : nat -> edge -> edge -> Z -> Z * list edge.
Notation yields := (yields startCost spath tnds ecm).
Lemma yields_hop : forall log n p is hs, parent tnds n p -> ~ stays tnds p n -> yields log n is hs ->
  exists i f is' h hs' x y, hs = h :: hs' /\ yields log p (f :: is') hs' /\ cand_at ecm p f x /\ cand_at ecm n i y /\
    starts_at h x /\ ends_at h y.
Proof.
  intros log n p is hs Pn NS Y. inversion Y as [n' i (nd & E & P0 & _)|n' p' i f is' hs' Pn' Sy Yp|n' p' i f is' hs' x y h Pn' NS' Yp Cx Cy Hh]; subst.
  - destruct Pn as (nd' & E' & P' & _ & N). rewrite E in E'. injection E' as <-. congruence.
  - pose proof (parent_unique _ _ _ _ _ _ Pn Pn') as <-. contradiction.
  - pose proof (parent_unique _ _ _ _ _ _ Pn Pn') as <-. destruct (is_hop_ends _ _ _ _ _ _ _ _ _ _ _ _ Hh) as [He Hs]. eauto 15.
Qed.
Lemma yields_stay : forall log n p is hs, parent tnds n p -> stays tnds p n -> yields log n is hs -> exists is', yields log p is' hs.
Proof.
  intros log n p is hs Pn Sy Y. inversion Y as [n' i (nd & E & P0 & _)|n' p' i f is' hs' Pn' Sy' Yp|n' p' i f is' hs' x y h Pn' NS' Yp Cx Cy Hh]; subst.
  - destruct Pn as (nd' & E' & P' & _ & N). rewrite E in E'. injection E' as <-. congruence.
  - pose proof (parent_unique _ _ _ _ _ _ Pn Pn') as <-. eauto.
  - pose proof (parent_unique _ _ _ _ _ _ Pn Pn') as <-. contradiction.
Qed.
Lemma serves_snoc : forall ss a b hs h, serves cands near (ss ++ [a]) hs -> joins cands near a b h ->
  serves (C:=C) cands near ((ss ++ [a]) ++ [b]) (hs ++ [h]).
Proof.
  intros ss a b hs h [L S] J. rewrite app_length in L. cbn in L. split; [rewrite !app_length; cbn; lia|].
  intros k x E. apply nth_snoc_inv in E. destruct E as [E|[-> ->]].
  - destruct (S k x E) as (u & v & U & V & X). exists u, v. split; [apply nth_snoc_some; exact U|]. split; [apply nth_snoc_some; exact V|exact X].
  - exists a, b. assert (Q : length hs = length ss) by lia. rewrite Q. split; [apply nth_snoc_some; apply nth_snoc_eq|].
    split; [|exact J]. replace (Datatypes.S (length ss)) with (length (ss ++ [a])) by (rewrite app_length; cbn; lia). apply nth_snoc_eq.
Qed.
Lemma root_child : forall n nd, n <> 0 -> nth_error tnds n = Some nd -> nParent _ _ nd = 0 -> n = 1.
Proof.
  intros n nd N0 E P0. destruct (tr_parent _ T n nd E N0) as (_ & pn & Ep & Ic & _). rewrite P0 in Ep.
  destruct (tr_one _ T pn Ep) as [X|X]; rewrite X in Ic; [contradiction|]. destruct Ic as [X'|[]]; auto.
Qed.
Lemma yields_serves : forall log start tex sts s path is hs, sts <> [] ->
  spells near tnds tex 0 path (trip_keys start (sts ++ [s])) -> yields log (last path 0) is hs ->
  serves cands near (map (stStop _) (sts ++ [s])) (rev hs).
Proof.
  intros log start tex sts. induction sts as [|l sts' IH] using rev_ind; intros s path is hs NE Sp Y; [contradiction|]. clear NE.
  assert (Step : forall d a nda is hs (Q : cand -> Prop), nth_error tnds d <> None -> nth_error tnds a = Some nda -> nParent _ _ nda = d -> d <> 0 -> a <> 0 ->
    nArr _ _ nda = true -> (exists r, nRepr _ _ nda = Some r /\ same_stop near r (stStop _ s)) ->
    yields log a is hs -> (forall i x, cand_at ecm d i x -> exists r cs c, same_stop near r (stStop _ l) /\ cands r = Some cs /\ In c cs /\ same_place x c) ->
    exists f is' h hs', hs = h :: hs' /\ yields log d (f :: is') hs' /\ joins cands near (stStop _ l) (stStop _ s) h).
  { intros d a nda is0 hs0 _ Ed Ea Pa D0 A0 Aa (r & Rr & SS) Y0 Hd.
    assert (Pr : parent tnds a d) by (exists nda; auto).
    assert (NS : ~ stays tnds d a) by (intros (u & v & _ & V & _ & W); congruence).
    destruct (yields_hop _ _ _ _ _ Pr NS Y0) as (i & f & is' & h & hs' & x & y & -> & Yd & Cx & Cy & Hs & He).
    exists f, is', h, hs'. split; [reflexivity|]. split; [exact Yd|].
    destruct (Hd _ _ Cx) as (r1 & cs1 & c1 & S1 & C1 & I1 & P1).
    destruct (arr_cand_stop a nda i y A0 Ea (or_intror Aa) Cy) as (r2 & cs2 & c2 & R2 & C2 & I2 & P2). rewrite Rr in R2. injection R2 as <-.
    exists r1, r, cs1, cs2, c1, c2. repeat (split; [assumption|]). split; [exact (starts_same _ _ _ P1 Hs)|exact (ends_same _ _ _ P2 He)]. }
  destruct sts' as [|s0 sts''].
  - cbn in Sp. inversion Sp as [|? d ndd rd pd ? ? Ed Pd D0 Rd SSd Ad _ Sp1]; subst.
    inversion Sp1 as [|? a nda ra pa ? ? Ea Pa A0 Ra SSa Aa _ Sp2]; subst. inversion Sp2; subst. cbn [last] in Y.
    cbn [kArr kStop] in *.
    destruct (Step (nParent _ _ nda) a nda is hs (fun _ => True)) as (f & is' & h & hs' & -> & Yd & J); eauto; [congruence| |].
    + intros i x Cx. pose proof (root_child _ _ D0 Ed Pd) as D1.
      destruct (arr_cand_stop _ ndd i x D0 Ed (or_introl D1) Cx) as (r1 & cs1 & c1 & R1 & C1 & I1 & P1). rewrite Rd in R1. injection R1 as <-. eauto 8.
    + inversion Yd as [n' i' Fn|n' p' i' f' is'' hs'' Pn' Sy' Yp|n' p' i' f' is'' hs'' x y h' Pn' NS' Yp Cx Cy Hh]; subst.
      * cbn. split; [reflexivity|]. intros [|k] h' E; cbn in E; [injection E as <-|destruct k; discriminate]. eexists _, _. split; [reflexivity|]. split; [reflexivity|]. exact J.
      * destruct Pn' as (u & U & V & _ & W). rewrite Ed in U. injection U as <-. congruence.
      * destruct Pn' as (u & U & V & _ & W). rewrite Ed in U. injection U as <-. congruence.
  - set (sts' := s0 :: sts'') in *. rewrite trip_snoc in Sp by discriminate.
    destruct (spells_app _ _ _ _ _ Sp) as (p1 & p2 & -> & S1 & S2).
    inversion S2 as [|? d ndd rd pd ? ? Ed Pd D0 Rd SSd Ad _ Sp1]; subst.
    inversion Sp1 as [|? a nda ra pa ? ? Ea Pa A0 Ra SSa Aa _ Sp2]; subst. inversion Sp2; subst.
    replace (last (p1 ++ [nParent pos attrs nda; a]) 0) with a in Y.
    2:{ change [nParent pos attrs nda; a] with ([nParent pos attrs nda] ++ [a]). rewrite app_assoc. symmetry. apply last_snoc. }
    cbn [kArr kStop] in *.
    (* the arrival before the departure *)
    destruct (exists_last (l := p1)) as (p1' & b & ->).
    { intros ->. apply spells_length in S1. rewrite trip_length, app_length in S1. cbn in S1. lia. }
    rewrite last_snoc in *.
    assert (B : exists ndb rb, nth_error tnds b = Some ndb /\ nArr _ _ ndb = true /\ b <> 0 /\ nRepr _ _ ndb = Some rb /\ same_stop near rb (stStop _ l)).
    { destruct (exists_last (l := sts')) as (q & z & Eq); [discriminate|]. 
      assert (K : exists ks, trip_keys start (sts' ++ [l]) = ks ++ [mkKey true (stStop _ l) (relTime start (stArr _ l))]).
      { rewrite Eq. destruct q as [|q0 q].
        - cbn. eexists [_]. reflexivity.
        - rewrite trip_snoc by discriminate. eexists (_ ++ [_]). rewrite <- app_assoc. reflexivity. }
      destruct K as (ks & K). rewrite K in S1. destruct (spells_app _ _ _ _ _ S1) as (u & v & Euv & _ & S3).
      inversion S3 as [|? b' ndb rb pb ? ? Eb Pb B0 Rb SSb Ab _ S4]; subst. inversion S4; subst. apply app_inj_tail in Euv. destruct Euv as [_ <-].
      exists ndb, rb. auto. }
    destruct B as (ndb & rb & Eb & Ab & B0 & Rb & SSb).
    assert (Pr : parent tnds (nParent _ _ nda) b) by (exists ndd; auto).
    assert (Sy : stays tnds b (nParent _ _ nda)) by (exists ndb, ndd; auto).
    destruct (Step (nParent _ _ nda) a nda is hs (fun _ => True)) as (f & is' & h & hs' & -> & Yd & J); eauto; [congruence| |].
    + intros i x Cx. destruct (dep_cand_stop _ _ ndb i x Pr Sy Eb Cx) as (r1 & cs1 & c1 & R1 & C1 & I1 & P1). rewrite Rb in R1. injection R1 as <-. eauto 8.
    + destruct (yields_stay _ _ _ _ _ Pr Sy Yd) as (is1 & Yb).
      assert (IH' := IH l (p1' ++ [b]) is1 hs' ltac:(discriminate) S1). rewrite last_snoc in IH'. specialize (IH' Yb).
      rewrite !map_app in *. cbn [map rev] in *. apply serves_snoc; [exact IH'|exact J].
Qed.
End Needs.

(** ** The hop engines answer about existing candidates *)
Lemma indexed_in : forall A (l : list A) x, In x (indexed l) -> nth_error l (fst x) = Some (snd x).
Proof.
  intros A l x. unfold indexed.
  assert (G : forall (l : list A) b, In x (combine (seq b (length l)) l) -> b <= fst x /\ nth_error l (fst x - b) = Some (snd x)).
  { clear l. induction l as [|a l IH]; intros b H; [contradiction|]. cbn in H. destruct H as [<-|H].
    - cbn. rewrite Nat.sub_diag. auto.
    - destruct (IH _ H) as [L E]. split; [lia|]. replace (fst x - b) with (S (fst x - S b)) by lia. exact E. }
  intros H. destruct (G l 0 H) as [_ E]. rewrite Nat.sub_0_r in E. exact E.
Qed.
Lemma hops_range : forall enum ecost len compF compT search needDist hc froms tos lim a,
  In a (fst (hops enum ecost len compF compT search needDist hc froms tos lim)) -> aFr a < length froms /\ aTo a < length tos.
Proof.
  intros enum ecost len compF compT search needDist hc froms tos lim a H. unfold hops in H.
  destruct (rows _ _ _ _ _ _ _ _ _) as [m hc']. cbn [fst] in H. unfold entries in H.
  apply in_concat in H. destruct H as (l & Hl & H). apply in_map_iff in Hl. destruct Hl as (f & <- & If).
  apply in_concat in H. destruct H as (l & Hl & H). apply in_map_iff in Hl. destruct Hl as (t & <- & It).
  apply indexed_in in If, It. unfold entry in H.
  destruct (fst (snd f)); [|contradiction]. destruct (fst (snd t)); [|contradiction].
  destruct (lookup m e e0) as [c d]. destruct (_ <=? c)%Z; [contradiction|]. destruct (partial _ _ _ _ _ _); [|contradiction].
  destruct (Qltb _ _); [|contradiction]. destruct H as [<-|[]]. cbn. split; eapply nth_lt; eassumption.
Qed.
Lemma hopsFast_range : forall enum ecost compF searchN hc froms tos lim a,
  In a (fst (hopsFast enum ecost compF searchN hc froms tos lim)) -> aFr a < length froms /\ aTo a < length tos.
Proof.
  intros enum ecost compF searchN hc froms tos lim a H. unfold hopsFast in H.
  destruct (edgesOf enum (map fst (filter (liveFr compF tos) froms))) as [|e0 eFrs]; [contradiction|].
  match type of H with context [match ?X with [] => _ | _ :: _ => _ end] => destruct X as [|e1 eTos]; [contradiction|] end.
  cbn [fst] in H. apply in_concat in H. destruct H as (l & Hl & H). apply in_map_iff in Hl. destruct Hl as ((et & ef & c2) & <- & _).
  destruct (_ <=? c2)%Z; [contradiction|]. destruct (_ <=? _)%Z; [contradiction|].
  apply in_concat in H. destruct H as (l & Hl & H). apply in_map_iff in Hl. destruct Hl as (f & <- & If).
  apply in_concat in H. destruct H as (l & Hl & H). apply in_map_iff in Hl. destruct Hl as (t & <- & It).
  apply indexed_in in If, It.
  destruct (fst (fst (snd f))); [|contradiction]. destruct (fst (snd t)); [|contradiction].
  destruct (_ && _); [|contradiction]. destruct (partial _ _ _ _ _ _); [|contradiction].
  destruct (Qltb _ _); [|contradiction]. destruct H as [<-|[]]. cbn. split; eapply nth_lt; eassumption.
Qed.
Section Engine.
Context {C P pos attrs : Type}.
Variable tnds : list (node pos attrs).
Variable ecm : list (list (cand C edge P)).
Variable invWeight : C -> option Z.
Variable enum : list edge -> list edge.
Variable ecost : nat -> edge -> Z.
Variable len : edge -> Q.
Variable compF compT : edge -> nat.
Variable search : nat -> edge -> list edge -> Z -> edge -> Z * list edge.
Variable searchN : nat -> list edge -> list edge -> (edge -> Z) -> Z -> Z -> list (edge * (edge * Z)).
Variable needDist allowsFast noFastHops : bool.
Lemma engine_range : length ecm = length tnds ->
  in_range tnds ecm (askHops ecm invWeight enum ecost len compF compT search searchN needDist allowsFast noFastHops) (fun _ => True).
Proof.
  intros Ll s p n cs l a _ Pn _ Lc Ia.
  assert (Ltn : n < length ecm) by (destruct Pn as (nd & E & _); apply nth_lt in E; lia).
  destruct (nth_ex _ _ _ Ltn) as (tos & Et).
  assert (R : aFr a < length (nth p ecm []) /\ aTo a < length (nth n ecm [])).
  { unfold askHops in Ia. destruct (noFastHops || negb allowsFast).
    - apply hops_range in Ia. rewrite !map_length in Ia. exact Ia.
    - apply hopsFast_range in Ia. pose proof (combine_length (map asP (nth p ecm [])) (map invWeight cs)) as X.
      rewrite !map_length in X, Ia. unfold fcand, pcand in *. lia. }
  assert (G : forall m k, k < length (nth m ecm []) -> exists x, cand_at ecm m k x).
  { intros m k H. destruct (nth_error ecm m) as [c|] eqn:E.
    - rewrite (nth_error_nth _ _ _ E) in H. destruct (nth_ex _ _ _ H) as (x & Ex). exists x, c. auto.
    - apply nth_error_None in E. rewrite nth_overflow in H by exact E. cbn in H. lia. }
  destruct R. auto.
Qed.
End Engine.

(** ** Facts about built tries *)
Section Built.
Context {pos attrs : Type}.
Variable near : pos -> pos -> bool.
Hypothesis near_refl : forall p, near p p = true.
Variable mergeA : attrs -> attrs -> attrs.
Variable emptySecs : Z.
Notation node := (node pos attrs).
Notation runCalls := (runCalls pos near attrs mergeA emptySecs).

Definition repr_ok (l : list node) : Prop := forall n nd, nth_error l n = Some nd -> n <> 0 -> nRepr _ _ nd <> None.
Lemma visit_repr : forall l cur s a t arr tex, repr_ok l -> 0 < length l ->
  repr_ok (fst (visit pos near attrs mergeA l cur s a t arr tex)) /\ 0 < length (fst (visit pos near attrs mergeA l cur s a t arr tex)).
Proof.
  intros l cur s a t arr tex H L. unfold visit. destruct (_ =? 0).
  - cbn [insertNd fst]. rewrite upd_length, app_length. split; [|lia]. intros n nd E N0. rewrite upd_nth in E.
    assert (G : forall x, nth_error (l ++ [mkNode pos attrs (Some s) t arr t 1 cur [] (Some a)]) n = Some x -> nRepr _ _ x <> None).
    { intros x Ex. apply nth_snoc_inv in Ex. destruct Ex as [Ex|[_ ->]]; [exact (H n x Ex N0)|discriminate]. }
    destruct (n =? cur); [|exact (G _ E)]. destruct (nth_error _ n) as [x|] eqn:Ex; [|discriminate]. cbn in E. injection E as <-. exact (G x eq_refl).
  - cbn [fst]. rewrite upd_length. split; [|exact L]. intros n nd E N0. rewrite upd_nth in E.
    destruct (n =? _); [|exact (H _ _ E N0)]. destruct (nth_error l n) as [x|] eqn:Ex; [|discriminate]. cbn in E. injection E as <-. exact (H n x Ex N0).
Qed.
Lemma addLoop_repr : forall sts l cur start a tex locked first, repr_ok l -> 0 < length l ->
  repr_ok (fst (addLoop pos near attrs mergeA l cur start a tex locked first sts)) /\
  0 < length (fst (addLoop pos near attrs mergeA l cur start a tex locked first sts)).
Proof.
  induction sts as [|st rest IH]; intros l cur start a tex locked first H L; cbn [addLoop]; [auto|].
  set (v := if first then (l, cur) else visit pos near attrs mergeA l cur (stStop _ st) a (relTime start (stArr _ st)) true tex).
  assert (V : repr_ok (fst v) /\ 0 < length (fst v)) by (unfold v; destruct first; [auto|apply visit_repr; auto]).
  destruct v as [l1 cur1]. cbn [fst] in V. destruct rest as [|st2 rest]; [exact V|].
  destruct (_ && _ && _); [exact V|].
  destruct (visit_repr l1 cur1 (stStop _ st) a (relTime start (stDep _ st)) false tex (proj1 V) (proj2 V)) as [W1 W2].
  destruct (visit _ _ _ _ l1 cur1 _ _ _ _ _) as [l2 cur2]. cbn [fst] in *. apply IH; auto.
Qed.
Lemma addTrip_built : forall tr t a tex dg, repr_ok (nds _ _ tr) -> 0 < length (nds _ _ tr) -> (forall n l, In (n, l) (ndTrips _ _ tr) -> l <> []) ->
  let tr' := fst (addTrip pos near attrs mergeA emptySecs tr t a tex dg) in
  repr_ok (nds _ _ tr') /\ 0 < length (nds _ _ tr') /\ (forall n l, In (n, l) (ndTrips _ _ tr') -> l <> []).
Proof.
  intros tr t a tex dg H L K. assert (PK : forall k v n l, In (n, l) (pushAt (ndTrips _ _ tr) k v) -> l <> []).
  { intros k v. generalize (ndTrips _ _ tr) K. clear. induction l as [|[k' vs] m IH]; intros H n l I; cbn in I.
    - destruct I as [I|[]]. injection I as <- <-. discriminate.
    - destruct (k' =? k); cbn in I.
      + destruct I as [I|I]; [injection I as <- <-; destruct vs; discriminate|]. apply (H n l). right. exact I.
      + destruct I as [I|I]; [apply (H n l); left; exact I|]. apply (IH ltac:(intros; eapply H; right; eassumption) n l I). }
  unfold addTrip. destruct dg; cbn [negb].
  - destruct (nth_error (nds _ _ tr) _); [|cbn; auto]. destruct (_ && _); cbn; auto.
    split; [exact H|]. split; [exact L|]. apply PK.
  - unfold TripTrie_model.add. destruct (tSts _ t) as [|st sts] eqn:Es; [cbn; auto|]. rewrite <- Es.
    pose proof (addLoop_repr (tSts _ t) (nds _ _ tr) 0 (startSecs _ t) a tex (negb (length (tripNds _ _ tr) =? 0)) true H L) as [A B].
    destruct (addLoop _ _ _ _ _ _ _ _ _ _ _ _) as [l [n|]]; cbn [fst] in *; cbn; auto. split; [exact A|]. split; [exact B|]. apply PK.
Qed.
Lemma runCalls_built : forall cs tr, repr_ok (nds _ _ tr) -> 0 < length (nds _ _ tr) -> (forall n l, In (n, l) (ndTrips _ _ tr) -> l <> []) ->
  let tr' := fst (runCalls tr cs) in repr_ok (nds _ _ tr') /\ (forall n l, In (n, l) (ndTrips _ _ tr') -> l <> []).
Proof.
  induction cs as [|c cs IH]; intros tr H L K; cbn [TripTrie_model.runCalls]; [cbn; auto|].
  pose proof (addTrip_built tr (cTrip _ _ c) (cAttrs _ _ c) (cTimeEx _ _ c) (cDegen _ _ c) H L K) as (A & B & D).
  destruct (addTrip _ _ _ _ _ tr _ _ _ _) as [tr1 r]. cbn [fst] in *. specialize (IH tr1 A B D).
  destruct (TripTrie_model.runCalls _ _ _ _ _ tr1 cs) as [tr2 rs]. exact IH.
Qed.
Lemma built_repr : forall cs tr rs, runCalls (emptyTrie pos attrs) cs = (tr, rs) -> repr_ok (nds _ _ tr).
Proof.
  intros cs tr rs H. pose proof (runCalls_built cs (emptyTrie pos attrs)) as X. rewrite H in X. apply X; cbn.
  - intros [|n] nd E N0; [congruence|]. destruct n; discriminate.
  - lia.
  - intros n l [].
Qed.
(** The nodes with trips are the last nodes of the paths of accepted trips. *)
Lemma listAt_first : forall m n l, In (n, l) m -> (forall k v, In (k, v) m -> v <> []) -> listAt m n <> [].
Proof.
  induction m as [|[k v] m IH]; intros n l I H; [contradiction|]. cbn [listAt]. destruct (k =? n) eqn:E.
  - eapply H. left. reflexivity.
  - destruct I as [I|I]; [injection I as -> _; rewrite Nat.eqb_refl in E; discriminate|]. eapply IH; [exact I|]. intros. eapply H. right. eassumption.
Qed.
Lemma listAt_key : forall m n, listAt m n <> [] -> In n (map fst m).
Proof.
  induction m as [|[k v] m IH]; intros n H; [contradiction|]. cbn [listAt] in H. cbn. destruct (k =? n) eqn:E; [apply Nat.eqb_eq in E; auto|auto].
Qed.
Lemma placed_in : forall cs (ps : list (option (list nat))) n, length ps = length cs ->
  (placed_at n cs ps <> [] <-> exists i c p, nth_error cs i = Some (c : call pos attrs) /\ nth_error ps i = Some (Some p) /\ last p 0 = n).
Proof.
  induction cs as [|c cs IH]; intros ps n L; destruct ps as [|[p|] ps]; try discriminate.
  - cbn. split; [congruence|]. intros ([|i] & c & p & E & _); discriminate.
  - injection L as L. cbn [placed_at]. specialize (IH ps n L). destruct (last p 0 =? n) eqn:E.
    + apply Nat.eqb_eq in E. split; [|discriminate]. intros _. exists 0, c, p. auto.
    + cbn [app]. rewrite IH. split.
      * intros (i & c' & p' & X). exists (S i), c', p'. exact X.
      * intros ([|i] & c' & p' & X & Y & Z); [|exists i, c', p'; auto]. cbn in Y. injection Y as <-. apply Nat.eqb_neq in E. contradiction.
  - injection L as L. cbn [placed_at]. rewrite (IH ps n L). split.
    + intros (i & c' & p' & X). exists (S i), c', p'. exact X.
    + intros ([|i] & c' & p' & X & Y & Z); [discriminate|exists i, c', p'; auto].
Qed.
Lemma built_leaves : forall cs tr rs ps, runCalls (emptyTrie pos attrs) cs = (tr, rs) -> length ps = length cs ->
  (forall n, listAt (ndTrips _ _ tr) n = placed_at n cs ps) ->
  forall n, In n (map fst (ndTrips _ _ tr)) <-> exists i c p, nth_error cs i = Some c /\ nth_error ps i = Some (Some p) /\ last p 0 = n.
Proof.
  intros cs tr rs ps H L P n. rewrite <- (placed_in cs ps n L), <- P. split.
  - intros I. apply in_map_iff in I. destruct I as ((k & v) & E & I). cbn in E. subst k. eapply listAt_first; [exact I|].
    pose proof (runCalls_built cs (emptyTrie pos attrs)) as X. rewrite H in X. apply X; cbn.
    + intros [|m] nd E N0; [congruence|]. destruct m; discriminate.
    + lia.
    + intros ? ? [].
  - apply listAt_key.
Qed.
(** Mean times are bounded by the times. *)
Lemma time_bound : forall M n p (ks : list (key (pos:=pos))), (0 <= M)%Z -> (forall k, In k ks -> 0 <= kTime k <= M)%Z -> (0 <= time_at n p ks <= M)%Z.
Proof.
  intros M n. induction p as [|m p IH]; intros [|k ks] HM H; cbn; try lia. destruct (n =? m); [apply H; left; reflexivity|].
  apply IH; [exact HM|]. intros x I. apply H. right. exact I.
Qed.
Lemma sum_bound : forall M n (cs : list (call pos attrs)) ps, (0 <= M)%Z ->
  (forall c k, In c cs -> In k (call_keys emptySecs c) -> 0 <= kTime k <= M)%Z ->
  (0 <= sum_times emptySecs n cs ps <= Z.of_nat (length cs) * M)%Z.
Proof.
  intros M n. induction cs as [|c cs IH]; intros ps HM H; [cbn; lia|].
  assert (H' : forall c0 k, In c0 cs -> In k (call_keys emptySecs c0) -> (0 <= kTime k <= M)%Z) by (intros c0 k I; apply H; right; exact I).
  destruct ps as [|[p|] ps]; cbn [sum_times List.length]; rewrite Nat2Z.inj_succ, Z.mul_succ_l; pose proof (Zle_0_nat (length cs)).
  - nia.
  - specialize (IH ps HM H'). pose proof (time_bound M n p (call_keys emptySecs c) HM (fun k => H c k (or_introl eq_refl))).
    destruct (negb (cDegen _ _ c)); lia.
  - specialize (IH ps HM H'). lia.
Qed.
End Built.
