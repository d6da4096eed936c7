(** Proofs about the cost of distances (C80). *)
From Coq Require Import Ascii String List Arith ZArith QArith Bool Lia Lqa.
From Verif Require Import HopCache_model Router_model Ecm_model Ecm_spec Ecm_proofs Ecm_props Config_model Config_spec Config_proofs Config_props Emission_model Emission_spec.
Import ListNotations.
Open Scope nat_scope.

Lemma emWeight_ok : forall m f d, distance_cost m f d (emWeight m f d).
Proof.
  intros m f d. unfold emWeight. split.
  - intros ->. cbn. ring.
  - intros ->. cbn. field.
  - intros A B. apply String.eqb_neq in A, B. rewrite A, B. reflexivity.
Qed.

Lemma emWeight_mono : forall m f a b, (0 <= f -> 0 <= a -> a <= b -> emWeight m f a <= emWeight m f b)%Q.
Proof.
  intros m f a b F A L. unfold emWeight. destruct (String.eqb m "exp"); [|destruct (String.eqb m "norm")]; cbv zeta.
  - apply Qmult_le_compat_r; assumption.
  - assert (X : (0 <= a * f)%Q) by (apply Qmult_le_0_compat; assumption).
    assert (Y : (a * f <= b * f)%Q) by (apply Qmult_le_compat_r; assumption). nra.
  - exact L.
Qed.
Lemma emWeight_0 : forall m f a, (0 <= f -> 0 <= a -> 0 <= emWeight m f a)%Q.
Proof.
  intros m f a F A. unfold emWeight. destruct (String.eqb m "exp"); [|destruct (String.eqb m "norm")]; cbv zeta; [|nra|exact A].
  apply Qmult_le_0_compat; assumption.
Qed.

Section Settings.
Variables (split : string -> ascii -> list string) (trim : string -> string) (V : Type) (asStr : V -> string) (asArr : V -> ascii -> list string)
  (asBool : V -> option bool) (asInt : V -> option Z) (asDouble asPos : V -> option Q) (asDoubles : V -> ascii -> option (list Q)).
Hypothesis POS : forall v y, asPos v = Some y -> (0 <= y)%Q.
Variable sec : string -> option V.

Lemma speed_0 : forall i x, i < 8 -> SpeedOf V asPos sec i x -> (0 <= x)%Q.
Proof.
  intros i x L (y & E & [v z A B D|A [(v & f & S1 & S2 & S3 & S4)|(S1 & S2)]]); rewrite E; apply Qmult_le_0_compat; try (vm_compute; discriminate).
  - rewrite D. eauto.
  - rewrite S4. apply POS in S2. apply Qle_shift_div_l; [|ring_simplify; vm_compute; discriminate].
    apply Qle_lteq in S2. destruct S2 as [S2|S2]; [exact S2|]. elim S3. rewrite <- S2. reflexivity.
  - rewrite S2. do 8 (destruct i as [|i]; [vm_compute; discriminate|]). lia.
Qed.
Lemma scaled_0 : forall a b s x, (0 <= s)%Q -> Scaled V asPos sec a b s x -> (0 <= x)%Q.
Proof.
  intros a b s x L [v z A B D|A (y & E & [v z A2 B2 D2|A2 E2])].
  - rewrite D. eauto.
  - rewrite E, D2. apply Qmult_le_0_compat; [eauto|]. unfold Qdiv. apply Qmult_le_0_compat; [vm_compute; discriminate|]. apply Qinv_le_0_compat. exact L.
  - rewrite E, E2. ring_simplify. apply Qle_refl.
Qed.

Lemma settings_0 : forall c, readSec split trim V asStr asArr asBool asInt asDouble asPos asDoubles sec = Ok c ->
  (0 <= rStatDist (cRout c) /\ 0 <= rNonStation (cRout c) /\ 0 <= rStatUnmatched (cRout c) /\ 0 <= rPlatform (cRout c))%Q.
Proof.
  intros c H. destruct (C49_section _ _ _ _ _ _ _ _ _ _ sec c POS H) as [O R].
  set (s0 := nth 0 (oLevelSpeed (cOsm c)) 0%Q) in *.
  assert (S0 : (0 <= s0)%Q).
  { destruct (os_speed _ _ _ _ _ _ _ _ _ _ O) as [L F]. apply (speed_0 0); [lia|]. apply F. unfold s0. destruct (oLevelSpeed (cOsm c)); [discriminate L|reflexivity]. }
  destruct R as [_ _ _ _ _ _ RP RD RN RU _ _ _ _ _ _ _ _].
  apply scaled_0 in RP, RD, RN; try exact S0. repeat split; try assumption.
  destruct RU as [v z A B D|A D]; rewrite D; [eauto|]. unfold Qdiv. apply Qmult_le_0_compat; [exact RN|]. vm_compute. discriminate.
Qed.
End Settings.

Section Stop.
Variables (C P : Type) (lt : C -> C -> bool) (ofQ : Q -> C).
Hypothesis MONO : forall a b, (a <= b)%Q -> lt (ofQ b) (ofQ a) = false.
Variable oneWay : edge -> nat.
Variables maxStat maxSnap statPen platPen nonStatPen : Q.
Variables (useStations : bool) (m : string) (fac : Q) (edist eproj : edge -> Q) (isRev : edge -> bool) (p : P) (platform : string) (sts : list statNd) (es : list edge).
Hypothesis F0 : (0 <= fac)%Q.
Hypothesis SP0 : (0 <= statPen)%Q.
Hypothesis PP0 : (0 <= platPen)%Q.
Hypothesis NP0 : (0 <= nonStatPen)%Q.
Hypothesis ED0 : forall e, (0 <= edist e)%Q.
Hypothesis SD0 : forall nd, In nd sts -> (0 <= sdDist nd)%Q.

Lemma nearer_ok : forall cs : list (cand C edge P),
  stop_cands ofQ oneWay maxStat maxSnap statPen platPen nonStatPen useStations (emWeight m fac) edist eproj isRev p platform sts es cs ->
  nearer_not_dearer lt maxSnap edist sts es cs.
Proof.
  intros cs SC.
  assert (ST : forall c e, In c cs -> of_street sts e c -> cPen _ _ _ c = ofQ (emWeight m fac (edist e) + nonStatPen)%Q).
  { intros c e I (E & N). destruct (sc_sound _ _ _ _ _ _ _ _ _ _ _ _ _ _ _ _ _ SC c e I E) as [(nd & (_ & A & _ & B & _) & _)|(_ & (_ & A & _))]; [elim (N nd A B)|exact A]. }
  assert (SN : forall c nd, In c cs -> of_station maxSnap edist sts es nd c -> station_cand ofQ statPen platPen (emWeight m fac) platform nd (match cE _ _ _ c with Some e => e | None => 0 end) c).
  { intros c nd I (_ & e & E & O & U & N). rewrite E. destruct (sc_sound _ _ _ _ _ _ _ _ _ _ _ _ _ _ _ _ _ SC c e I E) as [(nd' & (_ & A & _ & B & _) & S1)|(A & _)].
    - rewrite <- (U nd' A B). exact S1.
    - elim N. exact A. }
  assert (TP : forall nd (tp : Q), (platform <> "" -> sdTrack nd = platform -> tp = platPen)%string -> (platform = "" \/ sdTrack nd <> platform -> tp = 0%Q)%string ->
    tp = (if String.eqb platform "" then 0 else if String.eqb (sdTrack nd) platform then platPen else 0)%Q).
  { intros nd tp A B. destruct (String.eqb_spec platform "") as [->|N]; [apply B; auto|]. destruct (String.eqb_spec (sdTrack nd) platform) as [E|E]; auto. }
  assert (PEN : forall c, In c cs -> exists q, (0 <= q)%Q /\ cPen _ _ _ c = ofQ q).
  { intros c I. destruct (cE _ _ _ c) as [e|] eqn:E.
    - destruct (sc_sound _ _ _ _ _ _ _ _ _ _ _ _ _ _ _ _ _ SC c e I E) as [(nd & (_ & A & _) & (_ & _ & np & tp & D & N & T1 & T2))|(_ & (_ & A & _))].
      + exists (emWeight m fac (sdDist nd) + np + tp)%Q. split; [|exact D].
        pose proof (emWeight_0 m fac (sdDist nd) F0 (SD0 nd A)). assert (0 <= np)%Q by (subst np; destruct (sdSim nd); [apply Qle_refl|exact SP0]).
        assert (0 <= tp)%Q. { rewrite (TP nd tp T1 T2). destruct (String.eqb platform ""); [apply Qle_refl|]. destruct (String.eqb (sdTrack nd) platform); [exact PP0|apply Qle_refl]. }
        lra.
      + exists (emWeight m fac (edist e) + nonStatPen)%Q. split; [|exact A]. pose proof (emWeight_0 m fac (edist e) F0 (ED0 e)). lra.
    - destruct (sc_null _ _ _ _ _ _ _ _ _ _ _ _ _ _ _ _ _ SC) as (c0 & rest & -> & _ & Pn & _ & N). destruct I as [<- |I]; [|elim (N c I E)].
      exists 0%Q. split; [apply Qle_refl|exact Pn]. }
  split; unfold not_dearer.
  - intros a b e f Ia Ib Sa Sb L. rewrite (ST a e Ia Sa), (ST b f Ib Sb). apply MONO. apply Qplus_le_compat; [|apply Qle_refl].
    apply emWeight_mono; auto.
  - intros a b n k Ia Ib Sa Sb E1 E2 L. destruct (SN a n Ia Sa) as (_ & _ & np & tp & -> & N & T1 & T2). destruct (SN b k Ib Sb) as (_ & _ & np' & tp' & -> & N' & T1' & T2').
    apply MONO. rewrite (TP n tp T1 T2), (TP k tp' T1' T2'), E2. subst np np'. rewrite E1. apply Qplus_le_compat; [|apply Qle_refl]. apply Qplus_le_compat; [|apply Qle_refl].
    apply emWeight_mono; auto. apply SD0. exact (proj1 Sa).
  - intros a b n k Ia Ib Sa Sb E1 E2 L. destruct (SN a n Ia Sa) as (_ & _ & np & tp & -> & N & T1 & T2). destruct (SN b k Ib Sb) as (_ & _ & np' & tp' & -> & N' & T1' & T2').
    apply MONO. rewrite (TP n tp T1 T2), (TP k tp' T1' T2'), E2. subst np np'. rewrite E1. apply Qplus_le_compat; [|apply Qle_refl].
    apply Qplus_le_compat; [|destruct (sdSim k); [apply Qle_refl|exact SP0]].
    apply emWeight_mono; auto. apply SD0. exact (proj1 Sa).
  - intros a b Ia Ib E. destruct (sc_null _ _ _ _ _ _ _ _ _ _ _ _ _ _ _ _ _ SC) as (c0 & rest & -> & _ & Pn & _ & N). destruct Ia as [<- |I]; [|elim (N a I E)].
    destruct (PEN b Ib) as (q & Q0 & ->). rewrite Pn. apply MONO. exact Q0.
Qed.
End Stop.
