(** Proofs about colours, names and lines. *)
From Coq Require Import Ascii String List Arith NArith Bool Lia.
From Verif Require OsmGraph_proofs.
From Verif Require Import ListAux OsmFilter_model Attrs_model Attrs_spec.
Import ListNotations.
Open Scope list_scope.
Open Scope nat_scope.
Local Arguments Nat.eqb : simpl never.
Local Arguments Nat.ltb : simpl never.
Local Arguments Nat.leb : simpl never.
Local Arguments String.eqb : simpl never.

(** ** Colours *)
Definition okC (c : ascii) : bool := isdigit c || isAF c.
Lemma hex_ok : forall c, okC (toupper c) = true -> Hex c (digitVal (toupper c)).
Proof. intros [[] [] [] [] [] [] [] []]; vm_compute; intros H; try discriminate; auto. Qed.
Lemma get_lt : forall s n c, get n s = Some c -> n < String.length s.
Proof. induction s as [|a s IH]; intros [|n] c H; cbn in *; try discriminate; [lia|]. apply IH in H. lia. Qed.
Lemma hex_val : forall c v, Hex c v -> okC (toupper c) = true /\ digitVal (toupper c) = v /\ (v < 16)%N.
Proof.
  intros c v H. assert (Hlt : N.to_nat v < 16) by (destruct H as [H | H]; apply get_lt in H; exact H).
  rewrite <- (N2Nat.id v). unfold Hex in H. rewrite <- (N2Nat.id v) in H. rewrite Nat2N.id in H. set (n := N.to_nat v) in *. clearbody n. clear v.
  do 16 (destruct n as [|n]; [destruct H as [H | H]; vm_compute in H; injection H as <-; repeat split|]). exfalso. lia.
Qed.
Lemma hex_not : forall c, NotHex c <-> okC (toupper c) = false.
Proof.
  intros c. split.
  - intros H. destruct (okC (toupper c)) eqn:E; [|reflexivity]. exfalso. exact (H _ (hex_ok c E)).
  - intros H v Hv. apply hex_val in Hv. destruct Hv as (Hv & _). congruence.
Qed.
Lemma toupper_lower : forall c, toupper (lower c) = toupper c.
Proof. intros [[] [] [] [] [] [] [] []]; vm_compute; reflexivity. Qed.
Lemma lower_toupper : forall c, lower (toupper c) = lower c.
Proof. intros [[] [] [] [] [] [] [] []]; vm_compute; reflexivity. Qed.
Lemma toupper_hash : forall c, toupper c = "#"%char <-> c = "#"%char.
Proof. intros [[] [] [] [] [] [] [] []]; vm_compute; split; intros H; try discriminate; reflexivity. Qed.
Lemma toupper_all : forall s, map toupper (list_ascii_of_string (lowerAll s)) = map toupper (list_ascii_of_string s).
Proof. induction s as [|c s IH]; [reflexivity|]. cbn [lowerAll list_ascii_of_string map]. rewrite toupper_lower, IH. reflexivity. Qed.
Lemma lower_all : forall s, lowerAll (string_of_list_ascii (map toupper (list_ascii_of_string s))) = lowerAll s.
Proof. induction s as [|c s IH]; [reflexivity|]. cbn [lowerAll list_ascii_of_string map string_of_list_ascii]. rewrite lower_toupper, IH. reflexivity. Qed.
Lemma list_length_string : forall s, length (list_ascii_of_string s) = String.length s.
Proof. induction s as [|c s IH]; [reflexivity|]. cbn. rewrite IH. reflexivity. Qed.

Section Colour.
Variable NOC : N.
Notation parse := (parseHexColor NOC).
Lemma parse_hex6 : forall c1 c2 c3 c4 c5 c6 v1 v2 v3 v4 v5 v6, Hex c1 v1 -> Hex c2 v2 -> Hex c3 v3 -> Hex c4 v4 -> Hex c5 v5 -> Hex c6 v6 ->
  parse (String "#" (String c1 (String c2 (String c3 (String c4 (String c5 (String c6 EmptyString))))))) = rgb (v1 * 16 + v2) (v3 * 16 + v4) (v5 * 16 + v6).
Proof.
  intros c1 c2 c3 c4 c5 c6 v1 v2 v3 v4 v5 v6 H1 H2 H3 H4 H5 H6. apply hex_val in H1, H2, H3, H4, H5, H6.
  destruct H1 as (O1 & <- & _), H2 as (O2 & <- & _), H3 as (O3 & <- & _), H4 as (O4 & <- & _), H5 as (O5 & <- & _), H6 as (O6 & <- & _).
  unfold parseHexColor. cbn [list_ascii_of_string map]. change (toupper "#") with "#"%char. cbv beta iota zeta. cbn [forallb]. unfold okC in *. rewrite O1, O2, O3, O4, O5, O6. cbn [andb].
  unfold stoul16, rgb. cbn [fold_left]. lia.
Qed.
Lemma parse_hex3 : forall c1 c2 c3 v1 v2 v3, Hex c1 v1 -> Hex c2 v2 -> Hex c3 v3 ->
  parse (String "#" (String c1 (String c2 (String c3 EmptyString)))) = rgb (v1 * 16 + v1) (v2 * 16 + v2) (v3 * 16 + v3).
Proof.
  intros c1 c2 c3 v1 v2 v3 H1 H2 H3. apply hex_val in H1, H2, H3. destruct H1 as (O1 & <- & _), H2 as (O2 & <- & _), H3 as (O3 & <- & _).
  unfold parseHexColor. cbn [list_ascii_of_string map]. change (toupper "#") with "#"%char. cbv beta iota zeta. cbn [forallb]. unfold okC in *. rewrite O1, O2, O3. cbn [andb].
  unfold stoul16, rgb. cbn [fold_left]. lia.
Qed.
Lemma parse_up : forall s, parse (lowerAll s) = parse s.
Proof. intros s. unfold parseHexColor. rewrite toupper_all. reflexivity. Qed.
Lemma parse_name : forall s n v, In (n, v) htmlNames -> lowerAll s = n -> parse s = v.
Proof. intros s n v H <-. rewrite <- parse_up. revert H. generalize (lowerAll s). clear s. intros s H. repeat (destruct H as [H | H]; [injection H as <- <-; reflexivity|]). destruct H. Qed.
Lemma parse_bad : forall s c, String.length (String "#" s) = 7 \/ String.length (String "#" s) = 4 -> In c (list_ascii_of_string s) -> NotHex c -> parse (String "#" s) = NOC.
Proof.
  intros s c Hl Hin Hn. apply hex_not in Hn. cbn [String.length] in Hl. rewrite <- list_length_string in Hl.
  assert (Hb : forallb (fun c => isdigit c || isAF c) (map toupper (list_ascii_of_string s)) = false).
  { apply not_true_iff_false. rewrite forallb_forall. intros H. specialize (H (toupper c) (in_map toupper _ _ Hin)). unfold okC in Hn. congruence. }
  unfold parseHexColor. cbn [list_ascii_of_string map]. change (toupper "#") with "#"%char. destruct (list_ascii_of_string s) as [|a1 [|a2 [|a3 [|a4 [|a5 [|a6 [|a7 l]]]]]]]; cbn [length] in Hl; try lia; cbn [map] in *; cbv beta iota zeta; rewrite Hb; reflexivity.
Qed.
Lemma named_none : forall s, (forall v, ~ In (lowerAll s, v) htmlNames) -> named names (string_of_list_ascii (map toupper (list_ascii_of_string s))) = 0%N.
Proof.
  intros s H. pose proof (lower_all s) as Hl. revert Hl. generalize (string_of_list_ascii (map toupper (list_ascii_of_string s))). intros u Hu.
  assert (Hn : forall n v, In (n, v) names -> String.eqb u n = false).
  { intros n v Hin. apply String.eqb_neq. intros ->. apply (H v). rewrite <- Hu. repeat (destruct Hin as [Hin | Hin]; [injection Hin as <- <-; vm_compute; tauto|]). destruct Hin. }
  clear Hu H. induction names as [|(n & v) l IH]; [reflexivity|]. cbn [named]. rewrite (Hn n v (or_introl eq_refl)). apply IH. intros n' v' Hin. apply (Hn n' v'). right. exact Hin.
Qed.
Lemma parse_other : forall s, (forall v, ~ In (lowerAll s, v) htmlNames) -> (forall r, s = String "#" r -> String.length s <> 7 /\ String.length s <> 4) -> parse s = 0%N.
Proof.
  intros s H Hh. pose proof (named_none s H) as Hn. unfold parseHexColor. destruct s as [|c s]; [reflexivity|]. destruct (Ascii.eqb_spec c "#"%char) as [-> | Hc].
  - destruct (Hh s eq_refl) as (H7 & H4). cbn [String.length] in H7, H4. rewrite <- list_length_string in H7, H4. revert Hn. cbn [list_ascii_of_string map]. change (toupper "#") with "#"%char.
    destruct (list_ascii_of_string s) as [|a1 [|a2 [|a3 [|a4 [|a5 [|a6 [|a7 l]]]]]]]; cbn [length map] in *; try lia; intros Hn; exact Hn.
  - revert Hn. cbn [list_ascii_of_string map]. set (d := toupper c). assert (Hd : d <> "#"%char) by (intros E; apply Hc, toupper_hash; exact E). clearbody d.
    destruct d as [[] [] [] [] [] [] [] []]; try (intros Hn; exact Hn). exfalso. apply Hd. reflexivity.
Qed.
Lemma notName : forall r v, ~ In (lowerAll (String "#" r), v) htmlNames.
Proof. intros r v Hv. cbn [lowerAll] in Hv. change (lower "#") with "#"%char in Hv. repeat (destruct Hv as [Hv | Hv]; [discriminate|]). destruct Hv. Qed.
Lemma parsed_sound : forall s c, Parsed NOC s c -> parse s = c.
Proof.
  intros s c H. destruct H.
  - apply parse_hex6; assumption.
  - apply parse_hex3; assumption.
  - eapply parse_name; [eassumption | reflexivity].
  - eapply parse_bad; [|eassumption | assumption]. cbn [String.length]. lia.
  - apply parse_other; [assumption|]. intros r ->. destruct (H0 r eq_refl). cbn [String.length]. lia.
Qed.
Lemma hex_dec : forall c, (exists v, Hex c v) \/ NotHex c.
Proof. intros c. destruct (okC (toupper c)) eqn:E; [left; exists (digitVal (toupper c)); apply hex_ok; exact E | right; apply hex_not; exact E]. Qed.
Lemma parsed_total : forall s, exists c, Parsed NOC s c.
Proof.
  intros s. destruct (Ascii.eqb_spec (match s with String c _ => c | EmptyString => " "%char end) "#"%char) as [Hs | Hs].
  - destruct s as [|c r]; [discriminate|]. subst c. destruct (Nat.eq_dec (String.length r) 6) as [H6 | H6]; [|destruct (Nat.eq_dec (String.length r) 3) as [H3 | H3]].
    + destruct r as [|c1 [|c2 [|c3 [|c4 [|c5 [|c6 [|c7 r]]]]]]]; cbn [String.length] in H6; try discriminate.
      destruct (hex_dec c1) as [(v1 & V1) | V]; [|exists NOC; eapply K_bad; [left; reflexivity | | exact V]; cbn; tauto].
      destruct (hex_dec c2) as [(v2 & V2) | V]; [|exists NOC; eapply K_bad; [left; reflexivity | | exact V]; cbn; tauto].
      destruct (hex_dec c3) as [(v3 & V3) | V]; [|exists NOC; eapply K_bad; [left; reflexivity | | exact V]; cbn; tauto].
      destruct (hex_dec c4) as [(v4 & V4) | V]; [|exists NOC; eapply K_bad; [left; reflexivity | | exact V]; cbn; tauto].
      destruct (hex_dec c5) as [(v5 & V5) | V]; [|exists NOC; eapply K_bad; [left; reflexivity | | exact V]; cbn; tauto].
      destruct (hex_dec c6) as [(v6 & V6) | V]; [|exists NOC; eapply K_bad; [left; reflexivity | | exact V]; cbn; tauto].
      eexists. eapply K_hex6; eassumption.
    + destruct r as [|c1 [|c2 [|c3 [|c4 r]]]]; cbn [String.length] in H3; try discriminate.
      destruct (hex_dec c1) as [(v1 & V1) | V]; [|exists NOC; eapply K_bad; [right; reflexivity | | exact V]; cbn; tauto].
      destruct (hex_dec c2) as [(v2 & V2) | V]; [|exists NOC; eapply K_bad; [right; reflexivity | | exact V]; cbn; tauto].
      destruct (hex_dec c3) as [(v3 & V3) | V]; [|exists NOC; eapply K_bad; [right; reflexivity | | exact V]; cbn; tauto].
      eexists. eapply K_hex3; eassumption.
    + exists 0%N. apply K_other; [intros v; apply notName | intros r' E; injection E as <-; tauto].
  - destruct (in_dec string_dec (lowerAll s) (map fst htmlNames)) as [Hn | Hn].
    + apply in_map_iff in Hn. destruct Hn as ((n & v) & E & Hin). cbn [fst] in E. subst n. exists v. apply K_name. exact Hin.
    + exists 0%N. apply K_other; [intros v Hv; apply Hn; apply (in_map fst) in Hv; exact Hv|]. intros r ->. exfalso. apply Hs. reflexivity.
Qed.
Lemma parse_iff : forall s c, parse s = c <-> Parsed NOC s c.
Proof. intros s c. split; [|apply parsed_sound]. intros <-. destruct (parsed_total s) as (c & Hc). rewrite (parsed_sound s c Hc). exact Hc. Qed.
(** the colour of a tag is always some colour *)
Lemma rgb_le : forall c1 c2 c3 c4 c5 c6 v1 v2 v3 v4 v5 v6, Hex c1 v1 -> Hex c2 v2 -> Hex c3 v3 -> Hex c4 v4 -> Hex c5 v5 -> Hex c6 v6 -> (rgb (v1 * 16 + v2) (v3 * 16 + v4) (v5 * 16 + v6) <= 16777215)%N.
Proof. intros c1 c2 c3 c4 c5 c6 v1 v2 v3 v4 v5 v6 H1 H2 H3 H4 H5 H6. apply hex_val in H1, H2, H3, H4, H5, H6. unfold rgb. lia. Qed.
Lemma parse_noc : forall s, (16777215 < NOC)%N -> parse s = NOC -> parse (String "#" s) = 0%N.
Proof.
  intros s Hbig H. apply parse_iff in H. apply parsed_sound. remember NOC as m eqn:Em in H at 2. destruct H as [c1 c2 c3 c4 c5 c6 v1 v2 v3 v4 v5 v6 H1 H2 H3 H4 H5 H6 | c1 c2 c3 v1 v2 v3 H1 H2 H3 | s v H | s c H H1 H2 | s H1 H2].
  - pose proof (rgb_le _ _ _ _ _ _ _ _ _ _ _ _ H1 H2 H3 H4 H5 H6). lia.
  - pose proof (rgb_le _ _ _ _ _ _ _ _ _ _ _ _ H1 H1 H2 H2 H3 H3). lia.
  - exfalso. subst v. assert (Hall : forall n w, In (n, w) htmlNames -> (w <= 16777215)%N) by (intros n w Hin; repeat (destruct Hin as [Hin | Hin]; [injection Hin as <- <-; vm_compute; discriminate|]); destruct Hin). specialize (Hall _ _ H). lia.
  - apply K_other; [intros v; apply notName|]. intros r E. injection E as <-. cbn [String.length]. lia.
  - lia.
Qed.
End Colour.

(** ** Attributes *)
Lemma attr_In : forall a k v, tags a -> attr a k = Some v <-> In (k, v) a.
Proof.
  induction a as [|(k' & v') a IH]; intros k v Ht; [split; [discriminate | intros []]|]. unfold tags in Ht. cbn [map fst] in Ht. inversion Ht as [|? ? Hn Ht']; subst. cbn [attr]. destruct (String.eqb_spec k' k) as [-> | Hne].
  - split; [intros H; injection H as ->; left; reflexivity|]. intros [H | H]; [injection H as ->; reflexivity|]. exfalso. apply Hn. apply (in_map fst) in H. exact H.
  - rewrite (IH k v Ht'). split; [intros H; right; exact H|]. intros [H | H]; [injection H as -> ->; contradiction | exact H].
Qed.
Lemma attr_none : forall a k, attr a k = None <-> ~ In k (map fst a).
Proof.
  induction a as [|(k' & v') a IH]; intros k; [split; [intros _ [] | reflexivity]|]. cbn [attr map fst In]. destruct (String.eqb_spec k' k) as [-> | Hne].
  - split; [discriminate | intros H; exfalso; apply H; left; reflexivity].
  - rewrite IH. tauto.
Qed.
Lemma containedOne_ok : forall a r, tags a -> containedOne a (dKey r, dVal r) = true <-> matches a r.
Proof.
  intros a r. induction a as [|(k & v) a IH]; intros Ht; [split; [discriminate | intros (v & [] & _)]|]. unfold tags in Ht. cbn [map fst] in Ht. inversion Ht as [|? ? Hn Ht']; subst. cbn [containedOne fst snd]. destruct (String.eqb_spec k (dKey r)) as [-> | Hne].
  - unfold valMatches, matches. cbn [snd andb]. destruct (String.eqb_spec (dVal r) "*") as [E | E].
    + split; [intros _; exists v; split; [left; reflexivity | left; exact E] | reflexivity].
    + rewrite String.eqb_eq. split; [intros ->; exists (dVal r); split; [left; reflexivity | right; reflexivity]|]. intros (w & [H | H] & [Hw | Hw]); try contradiction.
      * injection H as ->. exact Hw.
      * exfalso. apply Hn. apply (in_map fst) in H. exact H.
  - rewrite (IH Ht'). unfold matches. split; intros (w & H & Hw); exists w; (split; [|exact Hw]); [right; exact H|]. destruct H as [H | H]; [injection H as -> ->; contradiction | exact H].
Qed.
Definition allTags (rels : list attrmap) : Prop := forall a, In a rels -> tags a.
Lemma relAttr_ok : forall rels r ids, allTags rels -> dKey r <> ""%string -> known rels ids ->
  exists v, relAttr rels r ids = Some v /\
    ((exists l i l' a, ids = l ++ i :: l' /\ nth_error rels i = Some a /\ matches a r /\ In (dAttr r, v) a /\ (forall j b, In j l -> nth_error rels j = Some b -> matches b r -> ~ In (dAttr r) (map fst b))) \/
     (v = ""%string /\ forall j b, In j ids -> nth_error rels j = Some b -> matches b r -> ~ In (dAttr r) (map fst b))).
Proof.
  intros rels r ids Ht Hk. induction ids as [|i ids IH]; intros Hin; [exists ""%string; split; [reflexivity|]; right; split; [reflexivity | intros j b []]|].
  destruct (nth_ex _ rels i (Hin i (or_introl eq_refl))) as (a & Ha). cbn [relAttr]. rewrite Ha. assert (Hta : tags a) by (apply Ht, (nth_error_In _ _ Ha)).
  destruct IH as (v & Hv & Hc); [intros j Hj; apply Hin; right; exact Hj|].
  assert (Hnext : (matches a r -> ~ In (dAttr r) (map fst a)) -> exists v, relAttr rels r ids = Some v /\
    ((exists l i0 l' a, i :: ids = l ++ i0 :: l' /\ nth_error rels i0 = Some a /\ matches a r /\ In (dAttr r, v) a /\ (forall j b, In j l -> nth_error rels j = Some b -> matches b r -> ~ In (dAttr r) (map fst b))) \/
     (v = ""%string /\ forall j b, In j (i :: ids) -> nth_error rels j = Some b -> matches b r -> ~ In (dAttr r) (map fst b)))).
  { intros Hno. exists v. split; [exact Hv|]. destruct Hc as [(l & i0 & l' & b & -> & H1 & H2 & H3 & H4) | (-> & H4)].
    - left. exists (i :: l), i0, l', b. split; [reflexivity|]. split; [exact H1|]. split; [exact H2|]. split; [exact H3|]. intros j c [<- | Hj] Hc; [rewrite Ha in Hc; injection Hc as <-; exact Hno | apply (H4 j c Hj Hc)].
    - right. split; [reflexivity|]. intros j c [<- | Hj] Hc; [rewrite Ha in Hc; injection Hc as <-; exact Hno | apply (H4 j c Hj Hc)]. }
  destruct (containedOne a (dKey r, dVal r)) eqn:Ec.
  - apply (containedOne_ok a r Hta) in Ec. destruct (attr a (dAttr r)) as [w|] eqn:Ea.
    + apply (attr_In a _ _ Hta) in Ea. exists w. split; [reflexivity|]. left. exists [], i, ids, a. split; [reflexivity|]. split; [exact Ha|]. split; [exact Ec|]. split; [exact Ea | intros j b []].
    + apply Hnext. intros _. apply attr_none. exact Ea.
  - apply Hnext. intros Hm. apply (containedOne_ok a r Hta) in Hm. congruence.
Qed.
Lemma getAttr_ok : forall rels ids am r, allTags rels -> tags am -> known rels ids ->
  exists v, getAttr rels ids am r = Some v /\ (Given rels ids am r v \/ (v = ""%string /\ forall w, ~ Given rels ids am r w)).
Proof.
  intros rels ids am r Ht Ha Hk. unfold getAttr. destruct (String.eqb_spec (dKey r) "") as [E | E].
  - eexists. split; [reflexivity|]. destruct (attr am (dAttr r)) as [v|] eqn:Ea.
    + left. apply G_own; [exact E | apply (attr_In am _ _ Ha); exact Ea].
    + right. split; [reflexivity|]. intros w Hg. apply attr_none in Ea. inversion Hg as [v H1 H2 | v l i l' a H1]; subst; [|contradiction]. apply Ea. apply (in_map fst) in H2. exact H2.
  - destruct (relAttr_ok rels r ids Ht E Hk) as (v & -> & Hc). exists v. split; [reflexivity|]. destruct Hc as [(l & i & l' & a & H0 & H1 & H2 & H3 & H4) | (-> & H)].
    + left. eapply G_rel; eassumption.
    + right. split; [reflexivity|]. intros w Hg. inversion Hg as [w' H1 | w' l i l' a H1 H2 H3 H4 H5 H6]; subst; [contradiction|]. apply (H i a); [apply in_elt | exact H3 | exact H4 | apply (in_map fst) in H5; exact H5].
Qed.
Lemma isEmpty_ok : forall s, isEmpty s = true <-> s = ""%string.
Proof. intros s. apply String.eqb_eq. Qed.
Lemma matchRanked_ok : forall norm rels ids am l, norm ""%string = ""%string -> allTags rels -> tags am -> known rels ids -> exists ns, matchRanked norm rels ids am l = Some ns /\ Names norm rels ids am l ns.
Proof.
  intros norm rels ids am l Hn Ht Ha Hk. induction l as [|r l (ns & IH & HN)]; [exists []; split; [reflexivity | constructor]|]. cbn [matchRanked]. destruct (getAttr_ok rels ids am r Ht Ha Hk) as (v & -> & Hv). rewrite IH. eexists. split; [reflexivity|].
  destruct Hv as [Hv | (-> & Hv)].
  - destruct (isEmpty (norm v)) eqn:E; [apply isEmpty_ok in E; apply N_empty with v; assumption|]. apply N_some; [exact Hv | intros H; apply isEmpty_ok in H; congruence | exact HN].
  - rewrite Hn. cbn [isEmpty]. apply N_none; assumption.
Qed.
Lemma firstMatch_hd : forall norm rels ids am l ns, matchRanked norm rels ids am l = Some ns -> firstMatch norm rels ids am l = Some (hd ""%string ns).
Proof.
  intros norm rels ids am l. induction l as [|r l IH]; intros ns H; [injection H as <-; reflexivity|]. cbn [matchRanked firstMatch] in *. destruct (getAttr rels ids am r) as [v|]; [|discriminate]. destruct (matchRanked norm rels ids am l) as [vs|]; [|discriminate]. injection H as <-.
  destruct (isEmpty (norm v)); [apply IH; reflexivity | reflexivity].
Qed.
Lemma Given_fun : forall rels ids am r v w, allTags rels -> tags am -> known rels ids -> Given rels ids am r v -> Given rels ids am r w -> v = w.
Proof.
  intros rels ids am r v w Ht Ha Hk Hv Hw. inversion Hv as [v' V1 V2 | v' l i l' a V1 V2 V3 V4 V5 V6]; subst; inversion Hw as [w' W1 W2 | w' m j m' b W1 W2 W3 W4 W5 W6]; subst; try contradiction.
  - apply (attr_In am _ _ Ha) in V2, W2. congruence.
  - assert (Hij : i = j /\ l = m).
    { clear Hv Hw Hk. revert m W2 W6. induction l as [|x l IH]; intros m W2 W6; destruct m as [|y m].
      - injection W2 as -> _. tauto.
      - injection W2 as -> _. exfalso. apply (W6 y a (or_introl eq_refl) V3 V4). apply (in_map fst) in V5. exact V5.
      - injection W2 as -> _. exfalso. apply (V6 j b (or_introl eq_refl) W3 W4). apply (in_map fst) in W5. exact W5.
      - injection W2 as -> W2. destruct (IH (fun q c Hq => V6 q c (or_intror Hq)) m W2 (fun q c Hq => W6 q c (or_intror Hq))) as (-> & ->). tauto. }
    destruct Hij as (<- & <-). rewrite V3 in W3. injection W3 as <-. assert (Hta : tags a) by (apply Ht, (nth_error_In _ _ V3)). apply (attr_In a _ _ Hta) in V5, W5. congruence.
Qed.
Lemma Names_fun : forall norm rels ids am l, allTags rels -> tags am -> known rels ids -> forall n m, Names norm rels ids am l n -> Names norm rels ids am l m -> n = m.
Proof.
  intros norm rels ids am l Ht Ha Hk. induction l as [|r l IH]; intros n m Hn Hm; [inversion Hn; inversion Hm; reflexivity|].
  inversion Hn as [|? ? v1 n1 G1 E1 N1 | ? ? v1 n1 G1 E1 N1 | ? ? n1 G1 N1]; subst; inversion Hm as [|? ? v2 n2 G2 E2 N2 | ? ? v2 n2 G2 E2 N2 | ? ? n2 G2 N2]; subst;
    try (exfalso; eapply G1; eassumption); try (exfalso; eapply G2; eassumption); try (rewrite (IH _ _ N1 N2)); try (pose proof (Given_fun rels ids am r v1 v2 Ht Ha Hk G1 G2); subst v2); try congruence; try reflexivity.
Qed.

(** Only the kept tags matter. *)
Lemma attr_filter : forall (f : string -> bool) a k, f k = true -> attr (filter (fun kv => f (fst kv)) a) k = attr a k.
Proof.
  intros f a k Hk. induction a as [|(k' & v) a IH]; [reflexivity|]. cbn [filter fst attr]. destruct (String.eqb_spec k' k) as [-> | Hne].
  - rewrite Hk. cbn [attr]. rewrite String.eqb_refl. reflexivity.
  - destruct (f k'); [|exact IH]. cbn [attr]. destruct (String.eqb_spec k' k); [contradiction | exact IH].
Qed.
Lemma containedOne_filter : forall (f : string -> bool) a kv, f (fst kv) = true -> containedOne (filter (fun kv => f (fst kv)) a) kv = containedOne a kv.
Proof.
  intros f a kv Hk. induction a as [|(k' & v) a IH]; [reflexivity|]. cbn [filter fst containedOne]. destruct (String.eqb_spec k' (fst kv)) as [-> | Hne].
  - rewrite Hk. cbn [containedOne]. rewrite String.eqb_refl. reflexivity.
  - destruct (f k'); [|exact IH]. cbn [containedOne]. destruct (String.eqb_spec k' (fst kv)); [contradiction | exact IH].
Qed.
Lemma relAttr_filter : forall (f : string -> bool) rels r ids, f (dKey r) = true -> f (dAttr r) = true -> relAttr (map (filter (fun kv => f (fst kv))) rels) r ids = relAttr rels r ids.
Proof.
  intros f rels r ids H1 H2. induction ids as [|i ids IH]; [reflexivity|]. cbn [relAttr]. rewrite nth_error_map. destruct (nth_error rels i) as [a|]; [|reflexivity]. cbn [option_map]. rewrite containedOne_filter by exact H1. rewrite attr_filter by exact H2. rewrite IH. reflexivity.
Qed.
Definition inKeys (o : opts) (j : nat) (k : string) : bool := existsb (String.eqb k) (keptKeys (oFilter o) (extraKeys o) j).
Lemma inKeys_extra : forall o j k, In k (extraKeys o j) -> inKeys o j k = true.
Proof. intros o j k H. unfold inKeys. apply existsb_exists. exists k. split; [|apply String.eqb_refl]. unfold keptKeys. rewrite !in_app_iff. right. right. right. exact H. Qed.
Lemma own_In : forall l r, In r l -> dKey r = ""%string -> In (dAttr r) (own l).
Proof. intros l r H Hk. unfold own. apply in_map, filter_In. split; [exact H | apply isEmpty_ok; exact Hk]. Qed.
Lemma ofRels_In : forall l r, In r l -> dKey r <> ""%string -> In (dKey r) (ofRels l) /\ In (dAttr r) (ofRels l).
Proof.
  intros l r H Hk. unfold ofRels. split; apply in_flat_map; exists r; (split; [exact H|]); destruct (isEmpty (dKey r)) eqn:E; try (apply isEmpty_ok in E; contradiction); cbn [In]; tauto.
Qed.
Lemma getAttr_read : forall o j rels ids am r l, In r l -> (forall k, In k (own l) -> In k (extraKeys o j)) -> (forall k, In k (ofRels l) -> In k (extraKeys o 2)) ->
  getAttr (map (readTags o 2) rels) ids (readTags o j am) r = getAttr rels ids am r.
Proof.
  intros o j rels ids am r l Hr Ho Hrel. unfold getAttr. destruct (String.eqb_spec (dKey r) "") as [E | E].
  - unfold readTags, readAttrs. rewrite (attr_filter (inKeys o j)); [reflexivity|]. apply inKeys_extra, Ho, own_In; assumption.
  - destruct (ofRels_In l r Hr E) as (H1 & H2). apply (relAttr_filter (inKeys o 2)); apply inKeys_extra, Hrel; assumption.
Qed.
Lemma firstMatch_read : forall norm o j rels ids am l, (forall k, In k (own l) -> In k (extraKeys o j)) -> (forall k, In k (ofRels l) -> In k (extraKeys o 2)) ->
  firstMatch norm (map (readTags o 2) rels) ids (readTags o j am) l = firstMatch norm rels ids am l.
Proof.
  intros norm o j rels ids am l Ho Hr. assert (H : forall m, (forall r, In r m -> In r l) -> firstMatch norm (map (readTags o 2) rels) ids (readTags o j am) m = firstMatch norm rels ids am m); [|apply H; tauto].
  induction m as [|r m IH]; intros Hm; [reflexivity|]. cbn [firstMatch]. rewrite (getAttr_read o j rels ids am r l (Hm r (or_introl eq_refl)) Ho Hr), IH by (intros x Hx; apply Hm; right; exact Hx). reflexivity.
Qed.
Lemma matchRanked_read : forall norm o j rels ids am l, (forall k, In k (own l) -> In k (extraKeys o j)) -> (forall k, In k (ofRels l) -> In k (extraKeys o 2)) ->
  matchRanked norm (map (readTags o 2) rels) ids (readTags o j am) l = matchRanked norm rels ids am l.
Proof.
  intros norm o j rels ids am l Ho Hr. assert (H : forall m, (forall r, In r m -> In r l) -> matchRanked norm (map (readTags o 2) rels) ids (readTags o j am) m = matchRanked norm rels ids am m); [|apply H; tauto].
  induction m as [|r m IH]; intros Hm; [reflexivity|]. cbn [matchRanked]. rewrite (getAttr_read o j rels ids am r l (Hm r (or_introl eq_refl)) Ho Hr), IH by (intros x Hx; apply Hm; right; exact Hx). reflexivity.
Qed.
Lemma statInfo_read : forall sn tn o rels ids am, getStatInfo sn tn o (map (readTags o 2) rels) ids (readTags o 0 am) = getStatInfo sn tn o rels ids am.
Proof.
  intros sn tn o rels ids am. unfold getStatInfo. rewrite matchRanked_read, firstMatch_read; [reflexivity| | | |]; intros k Hk; cbn [extraKeys]; rewrite !in_app_iff; tauto.
Qed.
Lemma wayTrack_read : forall tn o rels ids am, wayTrack tn o (map (readTags o 2) rels) ids (readTags o 1 am) = wayTrack tn o rels ids am.
Proof. intros tn o rels ids am. unfold wayTrack. apply firstMatch_read; intros k Hk; cbn [extraKeys]; [exact Hk | rewrite !in_app_iff; tauto]. Qed.

(** ** Lines *)
Section Lines.
Variable NOC : N.
Variable statNorm lineNorm decode : string -> string.
Variable o : opts.
Notation readLine := (readLine NOC statNorm lineNorm decode o).
Lemma scan_none : forall (norm : string -> string) (rel : attrmap) r v found, ~ In r (map fst rel) ->
  fold_left (fun (x : string * bool) kv => if String.eqb (fst kv) r then let n := norm (snd kv) in (n, if isEmpty n then snd x else true) else x) rel (v, found) = (v, found).
Proof.
  intros norm rel r. induction rel as [|(k & w) rel IH]; intros v found H; [reflexivity|]. cbn [fold_left fst]. destruct (String.eqb_spec k r) as [-> | Hne]; [exfalso; apply H; left; reflexivity|]. apply IH. intros Hi. apply H. right. exact Hi.
Qed.
Lemma scan_ok : forall norm rel r v, tags rel -> (exists w, In (r, w) rel /\ scan norm rel r v = (norm w, negb (isEmpty (norm w)))) \/ (~ In r (map fst rel) /\ scan norm rel r v = (v, false)).
Proof.
  intros norm rel r v Ht. unfold scan. revert v. induction rel as [|(k & w) rel IH]; intros v; [right; split; [intros [] | reflexivity]|]. unfold tags in Ht. cbn [map fst] in Ht. inversion Ht as [|? ? Hn Ht']; subst. cbn [fold_left fst snd]. destruct (String.eqb_spec k r) as [-> | Hne].
  - left. exists w. split; [left; reflexivity|]. cbv zeta. rewrite scan_none by exact Hn. destruct (isEmpty (norm w)); reflexivity.
  - destruct (IH Ht' v) as [(u & Hu & E) | (Hu & E)]; [left; exists u; split; [right; exact Hu | exact E] | right; split; [|exact E]]. cbn [map fst]. intros [H | H]; [contradiction | exact (Hu H)].
Qed.
Lemma tags_fun : forall rel k v w, tags rel -> In (k, v) rel -> In (k, w) rel -> v = w.
Proof. intros rel k v w Ht Hv Hw. apply (attr_In rel _ _ Ht) in Hv, Hw. congruence. Qed.
Lemma lineAttr_ok : forall norm rel rules, tags rel -> First norm rel rules (lineAttr norm rel rules ""%string).
Proof.
  intros norm rel rules Ht. induction rules as [|r rules IH]; [constructor|]. cbn [lineAttr]. destruct (scan_ok norm rel r ""%string Ht) as [(w & Hw & ->) | (Hw & ->)].
  - destruct (isEmpty (norm w)) eqn:E; cbn [negb].
    + apply isEmpty_ok in E. rewrite E. apply F_next; [|exact IH]. intros u Hu. rewrite (tags_fun rel r u w Ht Hu Hw). exact E.
    + apply F_hit; [exact Hw | intros H; apply isEmpty_ok in H; congruence].
  - apply F_next; [|exact IH]. intros u Hu. exfalso. apply Hw. apply (in_map fst) in Hu. exact Hu.
Qed.
Lemma First_fun : forall norm rel rules v w, tags rel -> First norm rel rules v -> First norm rel rules w -> v = w.
Proof.
  intros norm rel rules v w Ht H. revert w. induction H as [|k t v Hin Hne | k t v Hall H IH]; intros w Hw; inversion Hw as [|k' t' w' Hin' Hne' | k' t' w' Hall' H']; subst.
  - reflexivity.
  - rewrite (tags_fun rel k v w' Ht Hin Hin'). reflexivity.
  - exfalso. apply Hne, Hall'. exact Hin.
  - exfalso. apply Hne', Hall. exact Hin'.
  - apply IH. exact H'.
Qed.
Lemma LineNames_fun : forall rel n m, tags rel -> LineNames statNorm lineNorm o rel n -> LineNames statNorm lineNorm o rel m -> n = m.
Proof.
  intros rel ((a1 & a2) & a3) ((b1 & b2) & b3) Ht (H1 & H2 & H3) (H4 & H5 & H6). cbn [fst snd] in *. rewrite (First_fun _ _ _ _ _ Ht H1 H4), (First_fun _ _ _ _ _ Ht H2 H5), (First_fun _ _ _ _ _ Ht H3 H6). reflexivity.
Qed.
Lemma readLine_names : forall rel, tags rel -> LineNames statNorm lineNorm o rel (namesOf (readLine rel)).
Proof. intros rel Ht. unfold LineNames, namesOf, Attrs_model.readLine. cbn [fst snd lFrom lTo lShort]. repeat split; apply lineAttr_ok; exact Ht. Qed.
Hypothesis Hbig : (16777215 < NOC)%N.
Lemma colorOf_ok : forall v, colorOf NOC decode v <> NOC /\ exists c, Parsed NOC (decode v) c /\ colorOf NOC decode v = if (c =? NOC)%N then 0%N else c.
Proof.
  intros v. unfold colorOf. destruct (parsed_total NOC (decode v)) as (c & Hc). pose proof (parsed_sound NOC _ _ Hc) as Hp. rewrite Hp. destruct (N.eqb_spec c NOC) as [E | E].
  - rewrite (parse_noc NOC _ Hbig (eq_trans Hp E)). split; [lia|]. exists c. split; [exact Hc|]. rewrite E, N.eqb_refl. reflexivity.
  - split; [exact E|]. exists c. split; [exact Hc|]. destruct (N.eqb_spec c NOC); [contradiction | reflexivity].
Qed.
Lemma scanColor_none : forall (rel : attrmap) r x, ~ In r (map fst rel) ->
  fold_left (fun (x : N * bool) kv => if String.eqb (fst kv) r then let n := colorOf NOC decode (snd kv) in if (n =? NOC)%N then x else (n, true) else x) rel x = x.
Proof.
  intros rel r. induction rel as [|(k & w) rel IH]; intros x H; [reflexivity|]. cbn [fold_left fst]. destruct (String.eqb_spec k r) as [-> | Hne]; [exfalso; apply H; left; reflexivity|]. apply IH. intros Hi. apply H. right. exact Hi.
Qed.
Lemma scanColor_ok : forall rel r c, tags rel -> (exists w, In (r, w) rel /\ scanColor NOC decode rel r c = (colorOf NOC decode w, true)) \/ (~ In r (map fst rel) /\ scanColor NOC decode rel r c = (c, false)).
Proof.
  intros rel r c Ht. unfold scanColor. induction rel as [|(k & w) rel IH]; [right; split; [intros [] | reflexivity]|]. unfold tags in Ht. cbn [map fst] in Ht. inversion Ht as [|? ? Hn Ht']; subst. cbn [fold_left fst snd]. destruct (String.eqb_spec k r) as [-> | Hne].
  - left. exists w. split; [left; reflexivity|]. cbv zeta. rewrite scanColor_none by exact Hn. destruct (N.eqb_spec (colorOf NOC decode w) NOC) as [E | E]; [exfalso; exact (proj1 (colorOf_ok w) E) | reflexivity].
  - destruct (IH Ht') as [(u & Hu & E) | (Hu & E)]; [left; exists u; split; [right; exact Hu | exact E] | right; split; [|exact E]]. cbn [map fst]. intros [H | H]; [contradiction | exact (Hu H)].
Qed.
Lemma lineColor_ok : forall rel rules, tags rel -> Colour NOC decode rel rules (lineColor NOC decode rel rules NOC).
Proof.
  intros rel rules Ht. induction rules as [|r rules IH]; [constructor|]. cbn [lineColor]. destruct (scanColor_ok rel r NOC Ht) as [(w & Hw & ->) | (Hw & ->)].
  - destruct (proj2 (colorOf_ok w)) as (c & Hc & ->). apply C_hit with w; assumption.
  - apply C_next; assumption.
Qed.

(** *** The builder *)
Variable rels : list attrmap.
Hypothesis Ht : allTags rels.
Lemma sameLine_ok : forall a b, sameLine a b = true <-> namesOf a = namesOf b.
Proof.
  intros [a1 a2 a3 a4] [b1 b2 b3 b4]. unfold sameLine, namesOf. cbn [lFrom lTo lShort]. rewrite !andb_true_iff, !String.eqb_eq. split; [intros ((-> & ->) & ->); reflexivity | intros H; injection H as -> -> ->; tauto].
Qed.
Record Good (hist : list nat) (b : builder) : Prop := {
  g_lines : forall x p, In (x, p) (bLines b) -> nth_error (bAll b) p = Some x;
  g_all : forall p x, nth_error (bAll b) p = Some x -> In (x, p) (bLines b);
  g_rels : forall i p, findRel (bRels b) i = Some p -> exists rel l, nth_error rels i = Some rel /\ nth_error (bAll b) p = Some l /\ LineNames statNorm lineNorm o rel (namesOf l) /\ namesOf l <> noNames;
  g_hist : forall i rel n, In i hist -> nth_error rels i = Some rel -> LineNames statNorm lineNorm o rel n -> n <> noNames -> exists l, In l (bAll b) /\ namesOf l = n;
  g_ok : LinesOk NOC statNorm lineNorm decode o rels hist (bAll b)
}.
Lemma Good_empty : Good [] empty.
Proof. constructor; cbn; [intros x p [] | intros [|p] x H; discriminate | intros i p H; discriminate | intros i rel n []|]. constructor; cbn; [constructor | intros l [] | intros l []]. Qed.
Lemma from_snoc : forall hist i (l : line), (exists before j after rel, hist = before ++ j :: after /\ nth_error rels j = Some rel /\
    LineNames statNorm lineNorm o rel (namesOf l) /\ Colour NOC decode rel (oLineColor o) (lColor l) /\
    forall j rel', In j before -> nth_error rels j = Some rel' -> ~ LineNames statNorm lineNorm o rel' (namesOf l)) ->
  exists before j after rel, hist ++ [i] = before ++ j :: after /\ nth_error rels j = Some rel /\
    LineNames statNorm lineNorm o rel (namesOf l) /\ Colour NOC decode rel (oLineColor o) (lColor l) /\
    forall j rel', In j before -> nth_error rels j = Some rel' -> ~ LineNames statNorm lineNorm o rel' (namesOf l).
Proof. intros hist i l (before & j & after & rel & -> & H). exists before, j, (after ++ [i]), rel. split; [|exact H]. rewrite <- app_assoc. reflexivity. Qed.
Lemma Good_same : forall hist b i rels' rel l, Good hist b -> nth_error rels i = Some rel -> LineNames statNorm lineNorm o rel (namesOf l) -> (namesOf l <> noNames -> In l (bAll b)) ->
  (forall j p, findRel rels' j = Some p -> exists rel l, nth_error rels j = Some rel /\ nth_error (bAll b) p = Some l /\ LineNames statNorm lineNorm o rel (namesOf l) /\ namesOf l <> noNames) ->
  Good (hist ++ [i]) (mkB (bAll b) (bLines b) rels').
Proof.
  intros hist b i rels' rel l HG Hrel Hn Hl Hr. destruct (g_ok hist b HG) as [O1 O2 O3]. constructor; cbn [bAll bLines bRels]; [apply (g_lines hist b HG) | apply (g_all hist b HG) | exact Hr | |].
  - intros j rel' n Hj Hrel' Hn' Hne. apply in_app_iff in Hj. destruct Hj as [Hj | [<- | []]]; [exact (g_hist hist b HG j rel' n Hj Hrel' Hn' Hne)|]. assert (rel' = rel) by congruence. subst rel'.
    assert (E : n = namesOf l) by (apply (LineNames_fun rel); [apply (Ht rel), (nth_error_In _ _ Hrel) | assumption | assumption]). subst n. exists l. split; [apply Hl; exact Hne | reflexivity].
  - constructor; [exact O1 | exact O2|]. intros y Hy. apply from_snoc, O3. exact Hy.
Qed.
Lemma findLine_some : forall l x p, findLine l x = Some p -> exists y, In (y, p) l /\ namesOf y = namesOf x.
Proof. induction l as [|(y & q) l IH]; intros x p H; [discriminate|]. cbn [findLine] in H. destruct (sameLine y x) eqn:E; [injection H as <-; apply sameLine_ok in E; exists y; split; [left; reflexivity | exact E]|]. destruct (IH x p H) as (z & Hz & Hn). exists z. split; [right; exact Hz | exact Hn]. Qed.
Lemma findLine_none : forall l x, findLine l x = None -> forall y p, In (y, p) l -> namesOf y <> namesOf x.
Proof. induction l as [|(z & q) l IH]; intros x H y p Hin; [destruct Hin|]. cbn [findLine] in H. destruct (sameLine z x) eqn:E; [discriminate|]. destruct Hin as [Hin | Hin]; [injection Hin as -> ->; rewrite <- sameLine_ok; congruence | exact (IH x H y p Hin)]. Qed.
Lemma noNames_ok : forall l, isEmpty (lShort l) && isEmpty (lFrom l) && isEmpty (lTo l) = true <-> namesOf l = noNames.
Proof.
  intros [f t s c]. unfold namesOf, noNames. cbn [lFrom lTo lShort]. rewrite !andb_true_iff, !isEmpty_ok. split; [intros ((-> & ->) & ->); reflexivity | intros H; injection H as -> -> ->; tauto].
Qed.
Notation getLine := (getLine NOC statNorm lineNorm decode o rels).
Notation getLines := (getLines NOC statNorm lineNorm decode o rels).
Notation getAll := (getAll NOC statNorm lineNorm decode o rels).
Definition grown (b b' : builder) : Prop := exists l, bAll b' = bAll b ++ l.
Lemma grown_nth : forall b b' p x, grown b b' -> nth_error (bAll b) p = Some x -> nth_error (bAll b') p = Some x.
Proof. intros b b' p x (l & ->) H. rewrite nth_error_app1; [exact H | apply (nth_lt _ _ _ _ H)]. Qed.
Lemma getLine_ok : forall hist b i, Good hist b -> i < length rels -> exists b' r, getLine b i = Some (b', r) /\ Good (hist ++ [i]) b' /\ grown b b' /\
  exists rel, nth_error rels i = Some rel /\ match r with
    | None => LineNames statNorm lineNorm o rel noNames
    | Some p => exists l, nth_error (bAll b') p = Some l /\ LineNames statNorm lineNorm o rel (namesOf l) /\ namesOf l <> noNames
    end.
Proof.
  intros hist b i HG Hi. unfold Attrs_model.getLine. destruct (findRel (bRels b) i) as [p|] eqn:Er.
  { exists b, (Some p). destruct (g_rels hist b HG i p Er) as (rel & l & H1 & H2 & H3 & H4). split; [reflexivity|]. split; [|split; [exists []; rewrite app_nil_r; reflexivity | exists rel; split; [exact H1|]; exists l; tauto]].
    destruct b as [ba bl br]. apply (Good_same hist (mkB ba bl br) i br rel l HG H1 H3); [intros _; exact (nth_error_In _ _ H2) | exact (g_rels hist _ HG)]. }
  destruct (nth_ex _ rels i Hi) as (rel & Hrel). rewrite Hrel. cbv zeta. pose proof (Ht rel (nth_error_In _ _ Hrel)) as Htr. pose proof (readLine_names rel Htr) as Hn. set (el := readLine rel) in *.
  destruct (isEmpty (lShort el) && isEmpty (lFrom el) && isEmpty (lTo el)) eqn:Ee.
  { apply noNames_ok in Ee. exists b, None. split; [reflexivity|]. split; [|split; [exists []; rewrite app_nil_r; reflexivity | exists rel; split; [reflexivity|]; rewrite <- Ee; exact Hn]].
    destruct b as [ba bl br]. apply (Good_same hist (mkB ba bl br) i br rel el HG Hrel Hn); [intros H; contradiction | exact (g_rels hist _ HG)]. }
  assert (Hne : namesOf el <> noNames) by (rewrite <- noNames_ok; congruence).
  destruct (findLine (bLines b) el) as [p|] eqn:Ef.
  - apply findLine_some in Ef. destruct Ef as (y & Hy & Hyn). apply (g_lines hist b HG) in Hy. eexists _, (Some p). split; [reflexivity|]. split; [|split; [exists []; rewrite app_nil_r; reflexivity | exists rel; split; [reflexivity|]; exists y; rewrite Hyn; cbn [bAll]; tauto]].
    apply (Good_same hist b i _ rel y HG Hrel); [rewrite Hyn; exact Hn | intros _; exact (nth_error_In _ _ Hy)|]. intros j q Hq. cbn [findRel] in Hq. destruct (Nat.eqb_spec i j) as [<- | Hij]; [|apply (g_rels hist b HG j q Hq)]. injection Hq as <-. exists rel, y. rewrite Hyn. tauto.
  - pose proof (findLine_none _ _ Ef) as Hnone. eexists _, (Some (length (bAll b))). split; [reflexivity|].
    assert (Hlast : nth_error (bAll b ++ [el]) (length (bAll b)) = Some el) by (rewrite nth_error_app2 by lia; rewrite Nat.sub_diag; reflexivity).
    split; [|split; [exists [el]; reflexivity | exists rel; split; [reflexivity|]; exists el; cbn [bAll]; tauto]].
    destruct (g_ok hist b HG) as [O1 O2 O3].
    assert (Hnew : forall y, In y (bAll b) -> namesOf y <> namesOf el) by (intros y Hy; apply In_nth_error in Hy; destruct Hy as (q & Hq); apply (g_all hist b HG) in Hq; exact (Hnone y q Hq)).
    constructor; cbn [bAll bLines bRels].
    + intros x p [Hx | Hx]; [injection Hx as <- <-; exact Hlast|]. apply (g_lines hist b HG) in Hx. apply nth_snoc_some. exact Hx.
    + intros p x Hx. destruct (Nat.eq_dec p (length (bAll b))) as [-> | Hp]; [left; rewrite Hlast in Hx; injection Hx as <-; reflexivity|]. right. apply (g_all hist b HG). pose proof (nth_lt _ _ _ _ Hx) as Hl. rewrite app_length in Hl. cbn [length] in Hl. rewrite nth_error_app1 in Hx by lia. exact Hx.
    + intros j q Hq. cbn [findRel] in Hq. destruct (Nat.eqb_spec i j) as [<- | Hij].
      * injection Hq as <-. exists rel, el. tauto.
      * destruct (g_rels hist b HG j q Hq) as (rel' & l & H1 & H2 & H3 & H4). exists rel', l. split; [exact H1|]. split; [apply nth_snoc_some; exact H2 | tauto].
    + intros j rel' n Hj Hrel' Hn' Hne'. apply in_app_iff in Hj. destruct Hj as [Hj | [<- | []]].
      * destruct (g_hist hist b HG j rel' n Hj Hrel' Hn' Hne') as (l & Hl & E). exists l. split; [apply in_or_app; left; exact Hl | exact E].
      * assert (rel' = rel) by congruence. subst rel'. exists el. split; [apply in_or_app; right; left; reflexivity|]. apply (LineNames_fun rel); assumption.
    + constructor.
      * rewrite map_app. cbn [map]. apply OsmGraph_proofs.NoDup_snoc; [exact O1|]. intros Hin. apply in_map_iff in Hin. destruct Hin as (y & Hyn & Hy). exact (Hnew y Hy Hyn).
      * intros l Hl. apply in_app_iff in Hl. destruct Hl as [Hl | [<- | []]]; [apply O2; exact Hl | exact Hne].
      * intros l Hl. apply in_app_iff in Hl. destruct Hl as [Hl | [<- | []]]; [apply from_snoc, O3; exact Hl|]. exists hist, i, [], rel. split; [reflexivity|]. split; [exact Hrel|]. split; [exact Hn|]. split; [apply lineColor_ok; exact Htr|].
        intros j rel' Hj Hrel' Hn'. destruct (g_hist hist b HG j rel' _ Hj Hrel' Hn' Hne) as (y & Hy & E). exact (Hnew y Hy E).
Qed.
Lemma LinesOf_grown : forall b b' ids ps, grown b b' -> LinesOf statNorm lineNorm o rels (bAll b) ids ps -> LinesOf statNorm lineNorm o rels (bAll b') ids ps.
Proof.
  intros b b' ids ps Hg H. induction H as [| i rel ids ps H1 H2 H IH | i rel l p ids ps H1 H2 H3 H4 H IH].
  - constructor.
  - apply LO_skip with rel; assumption.
  - apply LO_line with rel l; try assumption. apply (grown_nth b b'); assumption.
Qed.
Lemma grown_trans : forall a b c, grown a b -> grown b c -> grown a c.
Proof. intros a b c (l & Hl) (m & Hm). exists (l ++ m). rewrite Hm, Hl, app_assoc. reflexivity. Qed.
Lemma getLines_ok : forall ids hist b, Good hist b -> known rels ids -> exists b' ps, getLines b ids = Some (b', ps) /\ Good (hist ++ ids) b' /\ grown b b' /\ LinesOf statNorm lineNorm o rels (bAll b') ids ps.
Proof.
  induction ids as [|i ids IH]; intros hist b HG Hk; [exists b, []; split; [reflexivity|]; split; [rewrite app_nil_r; exact HG|]; split; [exists []; rewrite app_nil_r; reflexivity | constructor]|].
  cbn [Attrs_model.getLines]. destruct (getLine_ok hist b i HG (Hk i (or_introl eq_refl))) as (b1 & r & -> & HG1 & Hg1 & rel & Hrel & Hr). destruct (IH (hist ++ [i]) b1 HG1 (fun j Hj => Hk j (or_intror Hj))) as (b2 & ps & -> & HG2 & Hg2 & HL).
  exists b2. eexists. split; [reflexivity|]. split; [rewrite <- app_assoc in HG2; exact HG2|]. split; [eapply grown_trans; eassumption|]. destruct r as [p|].
  - destruct Hr as (l & H1 & H2 & H3). apply LO_line with rel l; try assumption. apply (grown_nth b1 b2); assumption.
  - apply LO_skip with rel; assumption.
Qed.
Lemma getAll_ok : forall ways hist b, Good hist b -> (forall w, In w ways -> known rels w) -> exists b' res, getAll b ways = Some (b', res) /\ Good (hist ++ concat ways) b' /\ grown b b' /\ Forall2 (LinesOf statNorm lineNorm o rels (bAll b')) ways res.
Proof.
  induction ways as [|w ways IH]; intros hist b HG Hk; [exists b, []; split; [reflexivity|]; split; [cbn [concat]; rewrite app_nil_r; exact HG|]; split; [exists []; rewrite app_nil_r; reflexivity | constructor]|].
  cbn [Attrs_model.getAll]. destruct (getLines_ok w hist b HG (Hk w (or_introl eq_refl))) as (b1 & ps & -> & HG1 & Hg1 & HL1). destruct (IH (hist ++ w) b1 HG1 (fun j Hj => Hk j (or_intror Hj))) as (b2 & res & -> & HG2 & Hg2 & HL2).
  exists b2. eexists. split; [reflexivity|]. split; [cbn [concat]; rewrite <- app_assoc in HG2; exact HG2|]. split; [eapply grown_trans; eassumption|]. constructor; [apply (LinesOf_grown b1 b2); assumption | exact HL2].
Qed.
End Lines.
Lemma lineAttr_read : forall norm o rel rules v, (forall k, In k rules -> In k (extraKeys o 2)) -> lineAttr norm (readTags o 2 rel) rules v = lineAttr norm rel rules v.
Proof.
  intros norm o rel rules v H. revert v. induction rules as [|r rules IH]; intros v; [reflexivity|]. cbn [lineAttr].
  assert (Hs : scan norm (readTags o 2 rel) r v = scan norm rel r v).
  { unfold scan. generalize (v, false). assert (Hr : inKeys o 2 r = true) by (apply inKeys_extra, H; left; reflexivity). change (readTags o 2 rel) with (filter (fun kv => inKeys o 2 (fst kv)) rel). clear IH; induction rel as [|(k & w) rel IHr]; intros x; [reflexivity|].
    cbn [filter fst fold_left]. destruct (String.eqb_spec k r) as [-> | Hne].
    - rewrite Hr. cbn [fold_left fst snd]. rewrite String.eqb_refl. apply IHr.
    - destruct (inKeys o 2 k); [cbn [fold_left fst]; destruct (String.eqb_spec k r); [contradiction | apply IHr] | apply IHr]. }
  rewrite Hs. destruct (scan norm rel r v) as (v' & found). destruct found; [reflexivity|]. apply IH. intros k Hk. apply H. right. exact Hk.
Qed.
Lemma lineColor_read : forall NOC decode o rel rules c, (forall k, In k rules -> In k (extraKeys o 2)) -> lineColor NOC decode (readTags o 2 rel) rules c = lineColor NOC decode rel rules c.
Proof.
  intros NOC decode o rel rules c H. revert c. induction rules as [|r rules IH]; intros c; [reflexivity|]. cbn [lineColor].
  assert (Hs : scanColor NOC decode (readTags o 2 rel) r c = scanColor NOC decode rel r c).
  { unfold scanColor. generalize (c, false). assert (Hr : inKeys o 2 r = true) by (apply inKeys_extra, H; left; reflexivity). change (readTags o 2 rel) with (filter (fun kv => inKeys o 2 (fst kv)) rel). clear IH; induction rel as [|(k & w) rel IHr]; intros x; [reflexivity|].
    cbn [filter fst fold_left]. destruct (String.eqb_spec k r) as [-> | Hne].
    - rewrite Hr. cbn [fold_left fst snd]. rewrite String.eqb_refl. apply IHr.
    - destruct (inKeys o 2 k); [cbn [fold_left fst]; destruct (String.eqb_spec k r); [contradiction | apply IHr] | apply IHr]. }
  rewrite Hs. destruct (scanColor NOC decode rel r c) as (c' & found). destruct found; [reflexivity|]. apply IH. intros k Hk. apply H. right. exact Hk.
Qed.
Lemma readLine_read : forall NOC sn ln decode o rel, readLine NOC sn ln decode o (readTags o 2 rel) = readLine NOC sn ln decode o rel.
Proof.
  intros NOC sn ln decode o rel. unfold readLine. rewrite !lineAttr_read, lineColor_read; [reflexivity| | | |]; intros k Hk; cbn [extraKeys]; rewrite !in_app_iff; tauto.
Qed.
Lemma getAll_read : forall NOC sn ln decode o rels ways b, getAll NOC sn ln decode o (map (readTags o 2) rels) b ways = getAll NOC sn ln decode o rels b ways.
Proof.
  intros NOC sn ln decode o rels.
  assert (H1 : forall b i, getLine NOC sn ln decode o (map (readTags o 2) rels) b i = getLine NOC sn ln decode o rels b i).
  { intros b i. unfold getLine. rewrite nth_error_map. destruct (nth_error rels i) as [rel|]; [|reflexivity]. cbn [option_map]. rewrite readLine_read. reflexivity. }
  assert (H2 : forall ids b, getLines NOC sn ln decode o (map (readTags o 2) rels) b ids = getLines NOC sn ln decode o rels b ids).
  { induction ids as [|i ids IH]; intros b; [reflexivity|]. cbn [getLines]. rewrite H1. destruct (getLine NOC sn ln decode o rels b i) as [[b1 r]|]; [|reflexivity]. rewrite IH. reflexivity. }
  induction ways as [|w ways IH]; intros b; [reflexivity|]. cbn [getAll]. rewrite H2. destruct (getLines NOC sn ln decode o rels b w) as [[b1 r]|]; [|reflexivity]. rewrite IH. reflexivity.
Qed.
