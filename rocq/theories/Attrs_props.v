(** C51, C52, C60: colours, names and lines of OSM entities. *)
From Coq Require Import Ascii String List Arith NArith Bool Lia.
From Verif Require Import OsmFilter_model Attrs_model Attrs_spec Attrs_proofs.
Import ListNotations.
Open Scope list_scope.
Open Scope nat_scope.

(** ** C51: colours *)
(** Every string is read as exactly what the table says; the table gives each string one value. *)
Theorem C51_parsed : forall NOC s c, parseHexColor NOC s = c <-> Parsed NOC s c.
Proof. exact parse_iff. Qed.
Print Assumptions C51_parsed.
Theorem C51_one_colour : forall NOC s, exists c, Parsed NOC s c /\ forall d, Parsed NOC s d -> d = c.
Proof.
  intros NOC s. exists (parseHexColor NOC s). split; [apply parse_iff; reflexivity|]. intros d Hd. apply parse_iff in Hd. symmetry. exact Hd.
Qed.
Print Assumptions C51_one_colour.
(** Upper or lower case makes no difference. *)
Theorem C51_case : forall NOC s t, lowerAll s = lowerAll t -> parseHexColor NOC s = parseHexColor NOC t.
Proof. intros NOC s t H. rewrite <- (parse_up NOC s), <- (parse_up NOC t), H. reflexivity. Qed.
Print Assumptions C51_case.
(** A colour found fits in three bytes. *)
Theorem C51_three_bytes : forall NOC s, parseHexColor NOC s = NOC \/ (parseHexColor NOC s < 16777216)%N.
Proof.
  intros NOC s. destruct (proj1 (parse_iff NOC s _) eq_refl) as [c1 c2 c3 c4 c5 c6 v1 v2 v3 v4 v5 v6 H1 H2 H3 H4 H5 H6 | c1 c2 c3 v1 v2 v3 H1 H2 H3 | s v H | s c H H1 H2 | s H1 H2].
  - right. pose proof (rgb_le _ _ _ _ _ _ _ _ _ _ _ _ H1 H2 H3 H4 H5 H6). lia.
  - right. pose proof (rgb_le _ _ _ _ _ _ _ _ _ _ _ _ H1 H1 H2 H2 H3 H3). lia.
  - right. repeat (destruct H as [H | H]; [injection H as _ <-; vm_compute; reflexivity|]). destruct H.
  - left. reflexivity.
  - right. lia.
Qed.
Print Assumptions C51_three_bytes.
(** "A string that is no colour gives no colour" is false: without the #, or with a name that HTML 4 does not know, it is black. *)
Theorem C51_malformed_refuted : forall NOC, parseHexColor NOC "FF0000" = 0%N /\ parseHexColor NOC "orange" = 0%N /\ parseHexColor NOC "" = 0%N /\ parseHexColor NOC "#FFFFF" = 0%N.
Proof. intros NOC. repeat split; vm_compute; reflexivity. Qed.
Print Assumptions C51_malformed_refuted.
Example C51_ex : parseHexColor 99999999 "#Fa0" = 16755200%N /\ parseHexColor 99999999 "#0a0B0c" = 658188%N /\ parseHexColor 99999999 "ReD" = 16711680%N /\ parseHexColor 99999999 "#GGGGGG" = 99999999%N.
Proof. repeat split; vm_compute; reflexivity. Qed.
Example C51_case_ex : lowerAll "#aBcDeF" = lowerAll "#AbCdEf".
Proof. vm_compute. reflexivity. Qed.
(** The colour of a line: of the first colour tag that is there. NOC is a constant of cppgtfs, which is not in the checkout; assumed to be above three bytes. *)
Theorem C51_line_colour : forall NOC decode rel keys, (16777215 < NOC)%N -> tags rel -> Colour NOC decode rel keys (lineColor NOC decode rel keys NOC).
Proof. intros NOC decode rel keys H. apply lineColor_ok. exact H. Qed.
Print Assumptions C51_line_colour.
(** A malformed colour tag hides the well-formed one that follows it. *)
Theorem C51_next_tag_refuted : exists NOC decode rel keys, (16777215 < NOC)%N /\ tags rel /\ In ("colour", "#FF0000")%string rel /\ In "colour"%string keys /\
  lineColor NOC decode rel keys NOC = 0%N.
Proof.
  exists 4294967295%N, (fun s => s), [("color", "#XYZXYZ"); ("colour", "#FF0000")]%string, ["color"; "colour"]%string. split; [vm_compute; reflexivity|].
  split; [repeat constructor; cbn; intuition discriminate|]. split; [right; left; reflexivity|]. split; [right; left; reflexivity|]. vm_compute. reflexivity.
Qed.
Print Assumptions C51_next_tag_refuted.
Example C51_line_colour_ex : exists rel keys, tags rel /\ lineColor 4294967295 (fun s => s) rel keys 4294967295 = 16711680%N.
Proof. exists [("ref", "1"); ("colour", "red")]%string, ["color"; "colour"]%string. split; [repeat constructor; cbn; intuition discriminate | vm_compute; reflexivity]. Qed.

(** ** C52: names *)
(** All names of a station: the values the rules give, in the order of the rules; the first is its name. *)
Theorem C52_names : forall norm rels ids am rules, norm ""%string = ""%string -> (forall a, In a rels -> tags a) -> tags am -> known rels ids ->
  exists ns, matchRanked norm rels ids am rules = Some ns /\ Names norm rels ids am rules ns /\ (forall ms, Names norm rels ids am rules ms -> ms = ns) /\
             firstMatch norm rels ids am rules = Some (hd ""%string ns).
Proof.
  intros norm rels ids am rules H0 Hr Ha Hk. destruct (matchRanked_ok norm rels ids am rules H0 Hr Ha Hk) as (ns & H1 & H2). exists ns. split; [exact H1|]. split; [exact H2|]. split; [|apply firstMatch_hd; exact H1].
  intros ms Hm. exact (Names_fun norm rels ids am rules Hr Ha Hk ms ns Hm H2).
Qed.
Print Assumptions C52_names.
(** The station of a node: there is one exactly if a rule gives a name; its track is the first one given. *)
Theorem C52_station : forall statNorm trackNorm o rels ids am, statNorm ""%string = ""%string -> trackNorm ""%string = ""%string -> (forall a, In a rels -> tags a) -> tags am -> known rels ids ->
  exists ns ts, Names statNorm rels ids am (oName o) ns /\ Names trackNorm rels ids am (oPlatform o) ts /\
    getStatInfo statNorm trackNorm o rels ids am = Some (match ns with [] => None | n :: alt => Some (mkStat n alt (hd ""%string ts)) end).
Proof.
  intros sn tn o rels ids am H0 H1 Hr Ha Hk. destruct (matchRanked_ok sn rels ids am (oName o) H0 Hr Ha Hk) as (ns & N1 & N2). destruct (matchRanked_ok tn rels ids am (oPlatform o) H1 Hr Ha Hk) as (ts & T1 & T2).
  exists ns, ts. split; [exact N2|]. split; [exact T2|]. unfold getStatInfo. rewrite N1, (firstMatch_hd tn rels ids am _ ts T1). destruct ns; reflexivity.
Qed.
Print Assumptions C52_station.
Theorem C52_way_track : forall trackNorm o rels ids am, trackNorm ""%string = ""%string -> (forall a, In a rels -> tags a) -> tags am -> known rels ids ->
  exists ts, Names trackNorm rels ids am (oEdgePlatform o) ts /\ wayTrack trackNorm o rels ids am = Some (hd ""%string ts).
Proof.
  intros tn o rels ids am H1 Hr Ha Hk. destruct (matchRanked_ok tn rels ids am (oEdgePlatform o) H1 Hr Ha Hk) as (ts & T1 & T2). exists ts. split; [exact T2|]. apply firstMatch_hd. exact T1.
Qed.
Print Assumptions C52_way_track.
(** What a rule gives is one value. *)
Theorem C52_one_value : forall rels ids am r v w, (forall a, In a rels -> tags a) -> tags am -> known rels ids -> Given rels ids am r v -> Given rels ids am r w -> v = w.
Proof. exact Given_fun. Qed.
Print Assumptions C52_one_value.
(** The tags kept while reading suffice: the result is that of all the tags in the file. *)
Theorem C52_reading : forall statNorm trackNorm o rels ids am,
  getStatInfo statNorm trackNorm o (map (readTags o 2) rels) ids (readTags o 0 am) = getStatInfo statNorm trackNorm o rels ids am /\
  wayTrack trackNorm o (map (readTags o 2) rels) ids (readTags o 1 am) = wayTrack trackNorm o rels ids am.
Proof. intros sn tn o rels ids am. split; [apply statInfo_read | apply wayTrack_read]. Qed.
Print Assumptions C52_reading.
(** Without [norm "" = ""] every node is a station. *)
Theorem C52_normaliser_refuted : exists norm rels ids am r, (forall v, ~ Given rels ids am r v) /\ matchRanked norm rels ids am [r] = Some ["x"%string].
Proof.
  exists (fun _ => "x"%string), [], [], [], (mkDeep "name" "" ""). split; [|reflexivity]. intros v H. destruct H as [v _ [] | v l i l' a Hk _ _ _ _ _]. apply Hk. reflexivity.
Qed.
Print Assumptions C52_normaliser_refuted.
Definition exRels : list attrmap := [[("type", "stop_area"); ("name", "Area")]; [("type", "route"); ("name", "Line 1")]; [("type", "stop_area"); ("name", "Other")]]%string.
Definition exAm : attrmap := [("uic_name", "Uic"); ("name", "Main"); ("ref", "2")]%string.
Definition exFilt : filt := mkFilt [] [] [] [] [] [] [] [] [] [] [] [] [].
Definition exOpts : opts := mkOpts exFilt [mkDeep "name" "" ""; mkDeep "name" "type" "stop_area"; mkDeep "alt" "" ""; mkDeep "uic_name" "" ""] [mkDeep "local_ref" "" ""; mkDeep "ref" "" ""] [] [mkDeep "ref" "" ""]
  ["ref"; "name"]%string ["from"]%string ["to"]%string ["colour"]%string.
Example C52_ex : (forall a, In a exRels -> tags a) /\ tags exAm /\ known exRels [1; 2; 0] /\
  getStatInfo (fun s => s) (fun s => s) exOpts exRels [1; 2; 0] exAm = Some (Some (mkStat "Main" ["Other"; "Uic"]%string "2")).
Proof.
  split; [intros a [<- | [<- | [<- | []]]]; repeat constructor; cbn; intuition discriminate|]. split; [repeat constructor; cbn; intuition discriminate|]. split; [|vm_compute; reflexivity].
  intros i [<- | [<- | [<- | []]]]; cbn; lia.
Qed.

(** ** C60: lines *)
(** All ways of a file: each gets, for every relation with names it is in, the one line with these names; its colour is that of the first such relation. *)
Theorem C60_lines : forall NOC statNorm lineNorm decode o rels ways, (16777215 < NOC)%N -> (forall a, In a rels -> tags a) -> (forall w, In w ways -> known rels w) ->
  exists b res, getAll NOC statNorm lineNorm decode o rels empty ways = Some (b, res) /\
    Forall2 (LinesOf statNorm lineNorm o rels (bAll b)) ways res /\ LinesOk NOC statNorm lineNorm decode o rels (concat ways) (bAll b).
Proof.
  intros NOC sn ln decode o rels ways Hbig Ht Hk.
  destruct (getAll_ok NOC sn ln decode o Hbig rels Ht ways [] empty (Good_empty NOC sn ln decode o rels) Hk) as (b & res & H1 & H2 & H3 & H4).
  exists b, res. split; [exact H1|]. split; [exact H4|]. exact (g_ok _ _ _ _ _ _ _ _ H2).
Qed.
Print Assumptions C60_lines.
(** Two relations get the same line exactly if they have the same names. *)
Theorem C60_shared : forall NOC statNorm lineNorm decode o rels ids all i j ri rj p q, LinesOk NOC statNorm lineNorm decode o rels ids all -> (forall a, In a rels -> tags a) ->
  nth_error rels i = Some ri -> nth_error rels j = Some rj -> LinesOf statNorm lineNorm o rels all [i] [p] -> LinesOf statNorm lineNorm o rels all [j] [q] ->
  p = q <-> (forall n, LineNames statNorm lineNorm o ri n <-> LineNames statNorm lineNorm o rj n).
Proof.
  intros NOC sn ln decode o rels ids all i j ri rj p q Hok Ht Hi Hj Hp Hq.
  inversion Hp as [|? ? ? ? ? ? H|i' ri' l p' ids' ps' A1 A2 A3 A4 A5]; subst; [inversion H|]. inversion Hq as [|? ? ? ? ? ? H|j' rj' m q' ids'' ps'' B1 B2 B3 B4 B5]; subst; [inversion H|].
  assert (ri' = ri) by congruence. assert (rj' = rj) by congruence. subst ri' rj'. pose proof (Ht ri (nth_error_In _ _ Hi)) as Ti. pose proof (Ht rj (nth_error_In _ _ Hj)) as Tj. split.
  - intros <-. assert (l = m) by congruence. subst m. intros n. split; intros Hn; [rewrite (LineNames_fun sn ln o ri n (namesOf l) Ti Hn A2) | rewrite (LineNames_fun sn ln o rj n (namesOf l) Tj Hn B2)]; assumption.
  - intros H. apply H in A2. pose proof (LineNames_fun sn ln o rj _ _ Tj A2 B2) as E. apply (proj1 (NoDup_nth_error _) (lo_once _ _ _ _ _ _ _ _ Hok)).
    + rewrite map_length. apply nth_error_Some. rewrite A4. discriminate.
    + rewrite !nth_error_map, A4, B4. cbn [option_map]. rewrite E. reflexivity.
Qed.
Print Assumptions C60_shared.
(** The tags kept while reading suffice. *)
Theorem C60_reading : forall NOC statNorm lineNorm decode o rels ways b, getAll NOC statNorm lineNorm decode o (map (readTags o 2) rels) b ways = getAll NOC statNorm lineNorm decode o rels b ways.
Proof. exact getAll_read. Qed.
Print Assumptions C60_reading.
Definition lineRels : list attrmap := [[("ref", "1"); ("colour", "red")]; [("colour", "#0F0"); ("ref", "1")]; [("type", "route")]; [("ref", "2"); ("from", "A"); ("to", "B")]]%string.
Definition noc : N := 4294967295%N.
Notation exAll := (getAll noc (fun s : string => s) (fun s => s) (fun s => s) exOpts lineRels empty).
(** "A line has the colour of its relation" is false: the second relation of the same names gets the first's colour, and which is first depends on the order of the ways. *)
Theorem C60_colour_refuted : exists b b', exAll [[0]; [1]] = Some (b, [[0]; [0]]) /\ map lColor (bAll b) = [16711680%N] /\ exAll [[1]; [0]] = Some (b', [[0]; [0]]) /\ map lColor (bAll b') = [65280%N].
Proof. eexists _, _. split; [vm_compute; reflexivity|]. split; [vm_compute; reflexivity|]. split; vm_compute; reflexivity. Qed.
Print Assumptions C60_colour_refuted.
Example C60_ex : (forall a, In a lineRels -> tags a) /\ (forall w, In w [[3; 2; 0]; []; [1; 3]] -> known lineRels w) /\
  exists b, exAll [[3; 2; 0]; []; [1; 3]] = Some (b, [[0; 1]; []; [1; 0]]) /\ map lShort (bAll b) = ["2"; "1"]%string.
Proof.
  split; [intros a [<- | [<- | [<- | [<- | []]]]]; repeat constructor; cbn; intuition discriminate|]. split; [|eexists; split; vm_compute; reflexivity].
  intros w Hw i Hi. destruct Hw as [<- | [<- | [<- | []]]]; cbn in Hi; cbn; intuition lia.
Qed.
