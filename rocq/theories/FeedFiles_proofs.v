(** Proofs about the files of a feed (C89). *)
From Coq Require Import Ascii String List Arith NArith Bool Lia.
From Verif Require Import ShapeStore_model Workers_model StopTimesFile_model Writing_model Writing_spec FeedFiles_model FeedFiles_spec.
Import ListNotations.
Open Scope nat_scope.
Open Scope list_scope.

(** ** Archives *)
Section Archive.
Context {B Feed : Type}.
Variable render : Feed -> string -> option (list B) -> option (list B).
Variable hf hp : Feed -> bool.
Variable src : string.
Lemma key_eq : forall a b : key, keyEqb a b = true <-> a = b.
Proof.
  intros (a1, a2) (b1, b2). unfold keyEqb. cbn. rewrite andb_true_iff, !String.eqb_eq. split; [intros (-> & ->); reflexivity|intros E; injection E as -> ->; auto].
Qed.
Lemma look_unpacked : forall dir es (fs0 : files B) k, (forall f c, In (f, c) es -> k <> (dir, f)) -> unpacked dir es fs0 k = fs0 k.
Proof.
  intros dir es fs0 k H. unfold unpacked, look. cbn [entries]. induction es as [|(f, c) es IH]; [reflexivity|]. cbn [map app find fst snd].
  destruct (keyEqb (dir, f) k) eqn:E; [apply key_eq in E; exfalso; apply (H f c); [now left|now symmetry]|]. apply IH. intros f' c' J. apply (H f' c'). now right.
Qed.
Lemma look_member : forall dir es (fs0 : files B) f c, NoDup (map fst es) -> In (f, c) es -> unpacked dir es fs0 (dir, f) = Some c.
Proof.
  intros dir es fs0 f c Nd J. unfold unpacked, look. cbn [entries]. induction es as [|(g, d) es IH]; [destruct J|]. cbn [map app find fst snd]. cbn in Nd. apply NoDup_cons_iff in Nd. destruct Nd as (N & Nd).
  destruct (keyEqb (dir, g) (dir, f)) eqn:E.
  - apply key_eq in E. injection E as ->. destruct J as [J|J]; [injection J as ->; reflexivity|]. exfalso. apply N. apply (in_map fst) in J. exact J.
  - destruct J as [J|J]; [injection J as -> ->; rewrite (proj2 (key_eq _ _) eq_refl) in E; discriminate|]. now apply IH.
Qed.
Lemma members_in : forall m (fs0 : files B) a es, members render hf hp src m fs0 a es -> NoDup a ->
  NoDup (map fst es) /\ (forall f c, In (f, c) es -> In f a /\ wanted hf hp src m fs0 f /\ contents render src m fs0 f c) /\
  (forall f, In f a -> wanted hf hp src m fs0 f -> exists c, In (f, c) es).
Proof.
  intros m fs0 a es H. induction H as [|f c a es W C H IH|f a es W H IH]; intros Nd; [cbn; split; [constructor|split; [tauto|tauto]]| |]; apply NoDup_cons_iff in Nd; destruct Nd as (N & Nd); destruct (IH Nd) as (I1 & I2 & I3).
  - split; [cbn; constructor; [|exact I1]; intros J; apply in_map_iff in J; destruct J as ((g, d) & E & J); cbn in E; subst; apply I2 in J; tauto|]. split.
    + intros g d [E|J]; [injection E as <- <-; split; [now left|auto]|]. apply I2 in J. split; [right|]; tauto.
    + intros g [<-|J] Wg; [exists c; now left|]. destruct (I3 g J Wg) as (d & K). exists d. now right.
  - split; [exact I1|]. split; [intros g d J; apply I2 in J; split; [right|]; tauto|]. intros g [<-|J] Wg; [contradiction|auto].
Qed.
Lemma unpacked_changed : forall m (fs0 : files B) es dir, members render hf hp src m fs0 feed_files es ->
  changed dir None fs0 (unpacked dir es fs0) (new_files render hf hp src dir m fs0 feed_files) None /\ all_rendered render hf hp src m fs0 feed_files.
Proof.
  intros m fs0 es dir H. apply members_in in H; [|repeat constructor; cbn; intuition discriminate]. destruct H as (Nd & I2 & I3). split; [split; [|split; [|discriminate]]|].
  - intros k c (f & J & W & -> & C). destruct (I3 f J W) as (d & K). rewrite (look_member _ _ _ _ _ Nd K). apply I2 in K. destruct K as (_ & _ & K). unfold contents in K, C. congruence.
  - intros k Nk _. apply look_unpacked. intros f c J ->. apply (Nk c). exists f. apply I2 in J. intuition.
  - intros f J W. destruct (I3 f J W) as (c & K). exists c. now apply I2.
Qed.
End Archive.

Section Proofs.
Context {D X V R TX I : Type}.
Notation line := (line D X V R TX I).
Notation mem := (mem D R TX I).
Notation files := (files line).

Lemma parse_copy : forall (l : list line) vs, parse D X V R TX I (asCopy D X V R TX I) l = Some vs -> map LCopy vs = l.
Proof.
  induction l as [|x l IH]; intros vs H; cbn in H; [injection H as <-; reflexivity|].
  destruct x; try discriminate. cbn in H. destruct (parse _ _ _ _ _ _ _ l) as [t|]; [|discriminate]. injection H as <-. cbn. f_equal. auto.
Qed.
Lemma parse_shape : forall l : list row, parse D X V R TX I (asShape D X V R TX I) (map LShape l) = Some l.
Proof. induction l as [|x l IH]; [reflexivity|]. cbn. rewrite IH. reflexivity. Qed.
Lemma parse_time : forall l : list (strow D X), parse D X V R TX I (asTime D X V R TX I) (map LTime l) = Some l.
Proof. induction l as [|x l IH]; [reflexivity|]. cbn. rewrite IH. reflexivity. Qed.
Lemma copy_same : forall (s : option (list line)) c, copyFile D X V R TX I s = Some c -> s = Some c.
Proof.
  intros [l|] c H; cbn in H; [|discriminate]. destruct (parse _ _ _ _ _ _ _ l) as [vs|] eqn:E; [|discriminate]. injection H as <-. f_equal. symmetry. now apply parse_copy.
Qed.
Lemma trips_written : forall (ts : list (mtrip D TX)) (o : list line) b,
  fold_left (fun o t => (fst o ++ [LTrip (mId t) (mShape t) (mRest t)], if 0 <? mFreqs t then true else snd o)) ts (o, b) =
  (o ++ map (fun t => LTrip (mId t) (mShape t) (mRest t)) ts, b || existsb (fun t => 0 <? mFreqs t) ts).
Proof.
  induction ts as [|t ts IH]; intros o b; cbn [fold_left map existsb fst snd]; [now rewrite app_nil_r, orb_false_r|].
  rewrite IH, <- app_assoc. f_equal. destruct (0 <? mFreqs t), b; reflexivity.
Qed.
Lemma freqs_iff : forall m : mem, hasFreqs D X V R TX I m = true <-> exists t, In t (mTrips m) /\ mFreqs t <> 0.
Proof.
  intros m. unfold hasFreqs, writeTrips. rewrite trips_written. cbn [snd orb]. rewrite existsb_exists. split; intros (t & J & H); exists t; (split; [exact J|]); [apply Nat.ltb_lt in H; lia|apply Nat.ltb_lt; lia].
Qed.
Lemma publisher_iff : forall m : mem, hasPublisher D R TX I m = true <-> mName m <> ""%string /\ mUrl m <> ""%string.
Proof.
  intros m. unfold hasPublisher. rewrite andb_true_iff, !negb_true_iff, !String.eqb_neq. tauto.
Qed.
Lemma forall2_map : forall {A B} (g : A -> B) l, Forall2 (fun a b => b = g a) l (map g l).
Proof. induction l; cbn; constructor; auto. Qed.

Section Disk.
Variable wa wb wd : nat.
Variable src tgt : string.
Notation render := (render D X V R TX I wa wb wd).
Notation hasFreqs := (hasFreqs D X V R TX I).
Notation hasPublisher := (hasPublisher D R TX I).
Notation new m fs0 := (new_files render hasFreqs hasPublisher src tgt m fs0 feed_files).
Notation rendered m fs0 := (all_rendered render hasFreqs hasPublisher src m fs0 feed_files).

Lemma file_new : forall (m : mem) (fs0 fs : files) f, changed tgt None fs0 fs (new m fs0) None -> rendered m fs0 ->
  In f feed_files -> wanted hasFreqs hasPublisher src m fs0 f -> exists c, render m f (fs0 (src, f)) = Some c /\ fs (tgt, f) = Some c.
Proof.
  intros m fs0 fs f (Ch & _) Al J W. destruct (Al f J W) as (c & Hc). exists c. split; [exact Hc|]. apply Ch. exists f. auto.
Qed.
Lemma file_old : forall (m : mem) (fs0 fs : files) f, changed tgt None fs0 fs (new m fs0) None ->
  ~ wanted hasFreqs hasPublisher src m fs0 f -> fs (tgt, f) = fs0 (tgt, f).
Proof.
  intros m fs0 fs f (_ & Ch & _) W. apply Ch; [|discriminate]. intros c (g & _ & W' & E & _). injection E as <-. auto.
Qed.
Lemma written_ok : forall (m : mem) (fs0 fs : files), changed tgt None fs0 fs (new m fs0) None -> rendered m fs0 -> on_disk src tgt m fs0 fs.
Proof.
  intros m fs0 fs Ch Al. pose proof (fun f => file_new m fs0 fs f Ch Al) as Nw. pose proof (fun f => file_old m fs0 fs f Ch) as Ol.
  constructor.
  - intros f J. destruct (Nw f) as (c & Hc & Hf); [cbn in J |- *; intuition|left; cbn in J |- *; intuition|].
    assert (E : copyFile D X V R TX I (fs0 (src, f)) = Some c) by (cbn in J; destruct J as [<-|[<-|[]]]; exact Hc).
    apply copy_same in E. rewrite E, Hf. split; [discriminate|reflexivity].
  - intros f J. split; intros H.
    + destruct (Nw f) as (c & Hc & Hf); [cbn in J |- *; intuition|right; left; split; [exact J|exact H]|].
      assert (E : copyFile D X V R TX I (fs0 (src, f)) = Some c) by (cbn in J; decompose [or] J; subst; try tauto; exact Hc).
      apply copy_same in E. congruence.
    + apply Ol. intros [A|[[_ A]|[(A & _)|(A & _)]]]; [|congruence|subst; cbn in J; intuition discriminate|subst; cbn in J; intuition discriminate].
      cbn in J, A. decompose [or] J; subst; try tauto; intuition discriminate.
  - intros f ->. split.
    + intros H Fq. apply freqs_iff in Fq. destruct (Nw "frequencies.txt"%string) as (c & Hc & Hf); [cbn; tauto|right; right; left; auto|].
      apply copy_same in Hc. congruence.
    + intros H. apply Ol. intros [A|[[A _]|[(_ & A & B)|(A & _)]]]; [cbn in A; intuition discriminate|cbn in A; intuition discriminate| |discriminate].
      apply freqs_iff in A. destruct A as (t & J & N). destruct H as [H|H]; [congruence|apply N, H, J].
  - destruct (Nw "routes.txt"%string) as (c & Hc & Hf); [cbn; tauto|left; cbn; tauto|]. cbn in Hc. injection Hc as <-. eexists. split; [exact Hf|]. apply forall2_map.
  - destruct (Nw "trips.txt"%string) as (c & Hc & Hf); [cbn; tauto|left; cbn; tauto|]. unfold FeedFiles_model.render in Hc. cbn [String.eqb Ascii.eqb Bool.eqb] in Hc. injection Hc as <-. eexists. split; [exact Hf|].
    unfold writeTrips. rewrite trips_written. apply forall2_map.
  - split.
    + intros A B. destruct (Nw "feed_info.txt"%string) as (c & Hc & Hf); [cbn; tauto|right; right; right; split; [reflexivity|now apply publisher_iff]|]. cbn in Hc. injection Hc as <-. exact Hf.
    + intros H. apply Ol. intros [A|[[A _]|[(A & _)|(_ & A)]]]; [cbn in A; intuition discriminate|cbn in A; intuition discriminate|discriminate|]. apply publisher_iff in A. tauto.
  - destruct (Nw "attributions.txt"%string) as (c & Hc & Hf); [cbn; tauto|left; cbn; tauto|]. cbn in Hc. injection Hc as <-. exact Hf.
  - intros k H. destruct Ch as (_ & Ch & _). apply Ch; [|discriminate]. intros c (g & J & _ & -> & _). cbn in H. tauto.
Qed.
Lemma shapes_stops : forall (m : mem) (fs0 fs : files) old rows, changed tgt None fs0 fs (new m fs0) None -> rendered m fs0 ->
  fs0 (src, "shapes.txt"%string) = option_map (map LShape) old -> fs0 (src, "stop_times.txt"%string) = Some (map LTime rows) ->
  exists shapes c' rows', writeShapes wa wb wd (mCont m) old = Some (shapes, c') /\ writeStopTimes D X (map (fun t => (mId t, mSts t)) (mTrips m)) rows = Some rows' /\
    fs (tgt, "shapes.txt"%string) = Some (map LShape shapes) /\ fs (tgt, "stop_times.txt"%string) = Some (map LTime rows').
Proof.
  intros m fs0 fs old rows Ch Al Es Et. pose proof (fun f => file_new m fs0 fs f Ch Al) as Nw.
  destruct (Nw "shapes.txt"%string) as (c & Hc & Hf); [cbn; tauto|left; cbn; tauto|]. unfold FeedFiles_model.render in Hc. cbn [String.eqb Ascii.eqb Bool.eqb] in Hc. rewrite Es in Hc. unfold shapesFile in Hc.
  destruct (Nw "stop_times.txt"%string) as (d & Hd & Hg); [cbn; tauto|left; cbn; tauto|]. unfold FeedFiles_model.render in Hd. cbn [String.eqb Ascii.eqb Bool.eqb] in Hd. rewrite Et in Hd. unfold stopTimesFile in Hd. rewrite parse_time in Hd.
  assert (Q : match option_map (map LShape) old with None => Some None | Some l => match parse D X V R TX I (asShape D X V R TX I) l with None => None | Some rows => Some (Some rows) end end = Some old).
  { destruct old as [o|]; cbn [option_map]; [rewrite parse_shape|]; reflexivity. }
  rewrite Q in Hc. destruct (writeShapes wa wb wd (mCont m) old) as [(shapes, c')|] eqn:E1; [|discriminate]. destruct (writeStopTimes D X _ rows) as [rows'|] eqn:E2; [|discriminate].
  injection Hc as <-. injection Hd as <-. exists shapes, c', rows'. auto.
Qed.

Lemma parse_lines : forall l : list line, (forall x, In x l -> exists v, x = LCopy v) -> exists vs, parse D X V R TX I (asCopy D X V R TX I) l = Some vs.
Proof.
  induction l as [|x l IH]; intros H; [eexists; reflexivity|]. destruct (H x (or_introl eq_refl)) as (v & ->). destruct IH as (vs & E); [intros y J; apply H; now right|]. cbn. rewrite E. eexists. reflexivity.
Qed.
Lemma rendered_ok : forall (m : mem) (fs0 : files) old rows shapes c' rows', readable src fs0 old rows ->
  writeShapes wa wb wd (mCont m) old = Some (shapes, c') -> writeStopTimes D X (map (fun t => (mId t, mSts t)) (mTrips m)) rows = Some rows' -> rendered m fs0.
Proof.
  intros m fs0 old rows shapes c' rows' Rd Ws Wt f J W. unfold contents.
  assert (Cp : forall g, In g ["agency.txt"; "stops.txt"; "calendar.txt"; "calendar_dates.txt"; "transfers.txt"; "fare_attributes.txt"; "fare_rules.txt"; "pathways.txt"; "levels.txt"; "frequencies.txt"]%string ->
    fs0 (src, g) <> None -> exists c, copyFile D X V R TX I (fs0 (src, g)) = Some c).
  { intros g K N. destruct (fs0 (src, g)) as [l|] eqn:E; [|congruence]. destruct (parse_lines l) as (vs & P); [intros x Q; exact (rd_lines _ _ _ _ Rd g l x K E Q)|]. cbn. rewrite P. eexists. reflexivity. }
  assert (St : exists c, shapesFile D X V R TX I wa wb wd m (fs0 (src, "shapes.txt"%string)) = Some c).
  { rewrite (rd_shapes _ _ _ _ Rd). unfold shapesFile. destruct old as [o|]; cbn [option_map]; [rewrite parse_shape|]; rewrite Ws; eexists; reflexivity. }
  assert (Tt : exists c, stopTimesFile D X V R TX I m (fs0 (src, "stop_times.txt"%string)) = Some c).
  { rewrite (rd_times _ _ _ _ Rd). unfold stopTimesFile. rewrite parse_time, Wt. eexists. reflexivity. }
  assert (Cs : forall g, In g always_written \/ g = "feed_info.txt"%string -> In g ["agency.txt"; "stops.txt"]%string \/ exists c, render m g (fs0 (src, g)) = Some c).
  { intros g [K|K]; [|subst; right; eexists; reflexivity]. cbn in K. decompose [or] K; subst; try tauto; first [left; cbn; tauto|right; exact St|right; exact Tt|right; eexists; reflexivity]. }
  assert (Rc : forall g, In g ["agency.txt"; "stops.txt"; "calendar.txt"; "calendar_dates.txt"; "transfers.txt"; "fare_attributes.txt"; "fare_rules.txt"; "pathways.txt"; "levels.txt"; "frequencies.txt"]%string ->
    render m g (fs0 (src, g)) = copyFile D X V R TX I (fs0 (src, g))) by (intros g K; cbn in K; decompose [or] K; subst; try tauto; reflexivity).
  assert (Go : forall g, In g ["agency.txt"; "stops.txt"; "calendar.txt"; "calendar_dates.txt"; "transfers.txt"; "fare_attributes.txt"; "fare_rules.txt"; "pathways.txt"; "levels.txt"; "frequencies.txt"]%string ->
    fs0 (src, g) <> None -> exists c, render m g (fs0 (src, g)) = Some c) by (intros g K N; rewrite (Rc g K); apply Cp; assumption).
  destruct W as [W|[[W N]|[(-> & _ & N)|(-> & _)]]].
  - destruct (Cs f (or_introl W)) as [K|K]; [|exact K]. apply Go; [cbn in K |- *; tauto|]. now apply (rd_required _ _ _ _ Rd).
  - apply Go; [cbn in W |- *; tauto|exact N].
  - apply Go; [cbn; tauto|exact N].
  - eexists. reflexivity.
Qed.
End Disk.

Lemma feed_memory : forall (m : mem) ids seqs trips' c, in_memory m ids seqs trips' c -> map (fun t => (mId t, mSts t)) (mTrips m) = feedOf D trips' ids seqs.
Proof.
  intros m ids seqs trips' c [_ L1 L2 L3 E]. unfold feedOf. revert ids seqs trips' L1 L2 L3 E. generalize (mTrips m). clear.
  induction l as [|t l IH]; intros [|i ids] [|n seqs] [|x trips'] L1 L2 L3 E; try discriminate; [reflexivity|].
  cbn. f_equal; [destruct (E 0 t i n x eq_refl eq_refl eq_refl eq_refl) as (-> & _ & ->); reflexivity|].
  apply IH; [cbn in *; lia..|]. intros u. exact (E (S u)).
Qed.
End Proofs.
