(** Proofs about the command line. *)
From Coq Require Import Ascii String List Arith QArith Bool Lia Sorted.
From Verif Require Import ListAux Args_model Args_spec.
Import ListNotations.
Open Scope nat_scope.
Open Scope list_scope.

(** ** Tables *)
Definition code (k : key) : ascii :=
  match k with
  | Output => "o" | Input => "i" | CfgFile => "c" | OsmFile => "x" | DropShapes => "D" | Mots => "m" | GridSize => "g"
  | BoxPadding => "b" | Overpass => "a" | Osmfilter => "f" | OsmOut => "X" | TripId => "T" | WriteGraph => num 1 | WriteTrgraph => num 4
  | DbgPath => "d" | Version => "v" | Help => "h" | Inplace => num 9 | NoFastHops => num 10 | NoAStar => num 11 | NoTrie => num 12
  | WriteColors => num 13 | Stats => num 14 | NoHopCache => num 15 | Noise => num 16 | Warn => "W" | KeepFields => "F"
  | PrintOpts => "p" | Param => "P"
  end%char.
Definition allKeys : list key :=
  [Output; Input; CfgFile; OsmFile; DropShapes; Mots; GridSize; BoxPadding; Overpass; Osmfilter; OsmOut; TripId;
   WriteGraph; WriteTrgraph; DbgPath; Version; Help; Inplace; NoFastHops; NoAStar; NoTrie; WriteColors; Stats;
   NoHopCache; Noise; Warn; KeepFields; PrintOpts; Param].
Lemma allKeys_all k : In k allKeys.
Proof. destruct k; cbn; tauto. Qed.
Definition keyOf (c : ascii) : option key := find (fun k => Ascii.eqb (code k) c) allKeys.
Lemma keyOf_code k : keyOf (code k) = Some k.
Proof. destruct k; vm_compute; reflexivity. Qed.
Lemma code_inj k k' : code k = code k' -> k = k'.
Proof. intros E. pose proof (keyOf_code k) as A. rewrite E, keyOf_code in A. congruence. Qed.
Lemma short_code k c : short k = Some c -> code k = c.
Proof. destruct k; cbn; congruence. Qed.
Lemma short_inj k k' c : short k = Some c -> short k' = Some c -> k = k'.
Proof. intros A B. apply code_inj. rewrite (short_code _ _ A), (short_code _ _ B). reflexivity. Qed.
Lemma letter_short k c : short k = Some c -> letter c = Some (valued k).
Proof. destruct k; cbn; intros E; inversion E; vm_compute; reflexivity. Qed.
Lemma letter_none c : (forall k, short k <> Some c) -> letter c = None.
Proof.
  intros H. unfold letter. destruct (isColon c) eqn:E; [reflexivity|].
  unfold optstring. cbn [letterIn].
  repeat match goal with |- context [Ascii.eqb c ?d] => destruct (Ascii.eqb_spec c d) as [->|]; [ first
    [ discriminate E
    | exfalso; first [ apply (H Output); reflexivity | apply (H Help); reflexivity | apply (H Version); reflexivity | apply (H Input); reflexivity | apply (H CfgFile); reflexivity
    | apply (H OsmFile); reflexivity | apply (H DropShapes); reflexivity | apply (H Mots); reflexivity | apply (H GridSize); reflexivity | apply (H OsmOut); reflexivity
    | apply (H TripId); reflexivity | apply (H DbgPath); reflexivity | apply (H PrintOpts); reflexivity | apply (H Param); reflexivity | apply (H KeepFields); reflexivity
    | apply (H Warn); reflexivity | apply (H BoxPadding); reflexivity ] ] | ] end.
  reflexivity.
Qed.
Lemma short_dec c : (exists k, short k = Some c) \/ (forall k, short k <> Some c).
Proof.
  destruct (existsb (fun k => match short k with Some d => Ascii.eqb d c | None => false end) allKeys) eqn:E.
  - left. apply existsb_exists in E. destruct E as (k & _ & E). exists k. destruct (short k) as [d|]; [|discriminate].
    apply Ascii.eqb_eq in E. congruence.
  - right. intros k A. apply Bool.not_true_iff_false in E. apply E, existsb_exists. exists k. split; [apply allKeys_all|].
    rewrite A. apply Ascii.eqb_refl.
Qed.

Lemma ops_key n a c : In (n, a, c) ops -> exists k, long k = Some n /\ longValued k = a /\ code k = c.
Proof.
  intros H. cbn in H.
  repeat (destruct H as [H|H]; [inversion H; subst; clear H; match goal with |- exists k, _ /\ _ /\ code k = ?c => exists (match keyOf c with Some k => k | None => Output end) end; vm_compute; split; [reflexivity|split; reflexivity]|]).
  destruct H.
Qed.
Lemma key_ops k n : long k = Some n -> In (n, longValued k, code k) ops.
Proof. destruct k; cbn; intros E; inversion E; subst; vm_compute; tauto. Qed.
Lemma long_inj k k' n : long k = Some n -> long k' = Some n -> k = k'.
Proof. destruct k; cbn; intros E; inversion E; subst; destruct k'; cbn; intros F; inversion F; reflexivity. Qed.

Lemma prefix_iff n l : String.prefix n l = true <-> exists t, l = (n ++ t)%string.
Proof.
  revert l. induction n as [|c n IH]; intros l; [destruct l|]; cbn [String.prefix].
  - split; [intros _; exists ""%string; reflexivity|reflexivity].
  - split; [intros _; eexists; reflexivity|reflexivity].
  - destruct l as [|d l]; [split; [discriminate|intros (t & E); discriminate]|].
    change (String.prefix (String c n) (String d l)) with (if ascii_dec c d then String.prefix n l else false).
    destruct (ascii_dec c d) as [->|E].
    + rewrite IH. split; intros (t & E); exists t; [rewrite E; reflexivity|inversion E; reflexivity].
    + split; [discriminate|intros (t & F); inversion F; congruence].
Qed.
Lemma app_nil_s s : (s ++ "")%string = s.
Proof. induction s as [|c s IH]; cbn; [reflexivity|f_equal; exact IH]. Qed.

Lemma lookup_names n k : names n k -> lookup n = Some (longValued k, code k).
Proof.
  unfold lookup. intros H.
  destruct (find (fun x => String.eqb (opName x) n) ops) as [[[m a] c]|] eqn:F.
  - apply find_some in F. destruct F as [I E]. unfold opName in E. cbn in E. apply String.eqb_eq in E. subst m.
    destruct (ops_key _ _ _ I) as (k' & L & <- & <-).
    assert (k' = k) as ->; [|reflexivity].
    destruct H as [H|[_ U]]; [exact (long_inj _ _ _ L H)|]. apply (U k' ""%string). rewrite app_nil_s. exact L.
  - destruct H as [H|[(t & E) U]].
    + exfalso. pose proof (key_ops _ _ H) as I. pose proof (find_none _ _ F _ I) as J. unfold opName in J. cbn in J. rewrite String.eqb_refl in J. discriminate.
    + pose proof (key_ops _ _ E) as I.
      assert (forall x, In x (filter (fun x => String.prefix n (opName x)) ops) -> x = ((n ++ t)%string, longValued k, code k)) as A.
      { intros [[m a] c] J. apply filter_In in J. destruct J as [J P]. unfold opName in P. cbn in P. apply prefix_iff in P. destruct P as (t' & ->).
        destruct (ops_key _ _ _ J) as (k' & L & <- & <-). pose proof (U _ _ L) as ->. rewrite E in L. inversion L. reflexivity. }
      assert (In ((n ++ t)%string, longValued k, code k) (filter (fun x => String.prefix n (opName x)) ops)) as B.
      { apply filter_In. split; [exact I|]. unfold opName. cbn. apply prefix_iff. exists t. reflexivity. }
      assert (NoDup (filter (fun x => String.prefix n (opName x)) ops)) as C.
      { apply NoDup_filter. clear.
        assert (NoDup (map (fun x => snd x) ops)) as H.
        { vm_compute. repeat (constructor; [cbn; intuition discriminate|]). constructor. }
        exact (NoDup_map_inv _ _ H). }
      destruct (filter (fun x => String.prefix n (opName x)) ops) as [|x [|y r]]; [destruct B| |].
      * rewrite (A x (or_introl eq_refl)). reflexivity.
      * exfalso. pose proof (A x (or_introl eq_refl)) as ->. pose proof (A y (or_intror (or_introl eq_refl))) as ->.
        inversion C as [|? ? C1 C2]. apply C1. left. reflexivity.
Qed.
Lemma lookup_some n a c : lookup n = Some (a, c) -> exists k, names n k /\ longValued k = a /\ code k = c.
Proof.
  unfold lookup. intros H.
  destruct (find (fun x => String.eqb (opName x) n) ops) as [[[m a'] c']|] eqn:F.
  - inversion H; subst. apply find_some in F. destruct F as [I E]. unfold opName in E. cbn in E. apply String.eqb_eq in E. subst m.
    destruct (ops_key _ _ _ I) as (k & L & A & B). exists k. split; [left; exact L|auto].
  - destruct (filter (fun x => String.prefix n (opName x)) ops) as [|[[m a'] c'] [|y r]] eqn:G; try discriminate. inversion H; subst.
    assert (In (m, a, c) (filter (fun x => String.prefix n (opName x)) ops)) as I by (rewrite G; left; reflexivity).
    apply filter_In in I. destruct I as [I P]. unfold opName in P. cbn in P. apply prefix_iff in P. destruct P as (t & ->).
    destruct (ops_key _ _ _ I) as (k & L & A & B). exists k. split; [right; split; [exists t; exact L|]|auto].
    intros k' t' L'. pose proof (key_ops _ _ L') as I'.
    assert (In ((n ++ t')%string, longValued k', code k') (filter (fun x => String.prefix n (opName x)) ops)) as J.
    { apply filter_In. split; [exact I'|]. unfold opName. cbn. apply prefix_iff. exists t'. reflexivity. }
    rewrite G in J. destruct J as [J|[]]. apply code_inj. congruence.
Qed.
Lemma lookup_none n : (forall k, ~ names n k) -> lookup n = None.
Proof.
  intros H. destruct (lookup n) as [[a c]|] eqn:E; [|reflexivity]. destruct (lookup_some _ _ _ E) as (k & A & _). destruct (H k A).
Qed.
Lemma names_nonempty n k : names n k -> n <> ""%string.
Proof.
  intros [H|[(t & E) U]] ->; [destruct k; discriminate|].
  assert (Output = Input) as X; [|discriminate].
  rewrite (U Output "output"%string eq_refl). symmetry. apply (U Input "input"%string eq_refl).
Qed.

(** ** Reading *)
Definition op (u : key * string) : reply := Opt (code (fst u)) (snd u).
Definition pre (l : list reply) (ps : list string) (x : list reply * list string) : list reply * list string := (l ++ fst x, ps ++ snd x).
(** The rest of the reading, in the middle of an argument. *)
Definition mid (s : string) (r : list string) : list reply * list string :=
  let '(l, e) := letters s in
  if stop l then (l, [])
  else match e with
       | None => pre l [] (scan r)
       | Some d => match r with [] => (l ++ [Missing], []) | x :: r' => pre (l ++ [Opt d x]) [] (scan r') end
       end.
Lemma mid_empty r : mid "" r = scan r.
Proof. unfold mid. cbn. destruct (scan r). reflexivity. Qed.
Lemma pre_nil x : pre [] [] x = x. Proof. destruct x; reflexivity. Qed.
Lemma pre_pre l ps l' ps' x : pre l ps (pre l' ps' x) = pre (l ++ l') (ps ++ ps') x.
Proof. unfold pre. cbn. rewrite !app_assoc. reflexivity. Qed.

Lemma classify_long n : n <> ""%string -> classify ("--" ++ n) = Long n.
Proof. destruct n as [|c r]; [congruence|]. intros _. reflexivity. Qed.
Lemma classify_short c s : c <> "-"%char -> classify (String "-" (String c s)) = Short (String c s).
Proof. intros H. cbn. destruct (Ascii.eqb_spec c "-"%char); [congruence|reflexivity]. Qed.
Lemma classify_plain a : plain a -> classify a = Plain.
Proof.
  intros [->|H]; [reflexivity|]. destruct a as [|c [|d r]]; try reflexivity. cbn.
  destruct (Ascii.eqb_spec c "-"%char) as [->|]; [destruct (H _ eq_refl)|reflexivity].
Qed.
Lemma nameVal_none n : ~ has_char "=" n -> nameVal n = (n, None).
Proof.
  induction n as [|c r IH]; intros H; [reflexivity|]. cbn in H. cbn [nameVal].
  destruct (Ascii.eqb_spec c "="%char) as [->|E]; [tauto|]. rewrite IH by tauto. reflexivity.
Qed.
Lemma nameVal_some n v : ~ has_char "=" n -> nameVal (n ++ "=" ++ v) = (n, Some v).
Proof.
  induction n as [|c r IH]; intros H; [reflexivity|]. cbn in H. cbn [append nameVal].
  destruct (Ascii.eqb_spec c "="%char) as [->|E]; [tauto|]. cbn [append] in IH. rewrite IH by tauto. reflexivity.
Qed.
Lemma nameVal_inv s n v : nameVal s = (n, v) -> ~ has_char "=" n /\ s = match v with Some x => (n ++ "=" ++ x)%string | None => n end.
Proof.
  revert n v. induction s as [|c r IH]; intros n v H; cbn in H.
  - inversion H. subst. split; [cbn; tauto|reflexivity].
  - destruct (Ascii.eqb_spec c "="%char) as [->|E]; [inversion H; subst; split; [cbn; tauto|reflexivity]|].
    destruct (nameVal r) as [m w]. inversion H; subst. destruct (IH m v eq_refl) as [A B]. split; [cbn; intros [X|X]; [congruence|tauto]|].
    rewrite B. destruct v; reflexivity.
Qed.

Lemma scan_long k n r : ~ has_char "=" n -> names n k ->
  scan (("--" ++ n)%string :: r) =
  (if longValued k then match r with [] => ([Missing], []) | x :: r' => pre [Opt (code k) x] [] (scan r') end
   else pre [Opt (code k) ""] [] (scan r)).
Proof.
  intros E N. cbn [scan]. rewrite (classify_long _ (names_nonempty _ _ N)), (nameVal_none _ E), (lookup_names _ _ N).
  destruct (longValued k); [destruct r as [|x r']; [reflexivity|destruct (scan r'); reflexivity]|destruct (scan r); reflexivity].
Qed.
Lemma scan_long_eq k n v r : ~ has_char "=" n -> names n k ->
  scan (("--" ++ n ++ "=" ++ v)%string :: r) = if longValued k then pre [Opt (code k) v] [] (scan r) else ([Unknown], []).
Proof.
  intros E N. cbn [scan]. rewrite classify_long.
  - rewrite (nameVal_some _ _ E), (lookup_names _ _ N). destruct (longValued k); [destruct (scan r)|]; reflexivity.
  - pose proof (names_nonempty _ _ N). destruct n; [congruence|discriminate].
Qed.

Lemma takes_mid s r us ps s' r' : takes s r us ps s' r' -> mid s r = pre (map op us) ps (mid s' r').
Proof.
  destruct 1 as [c s r C|k c s r K V|k c s r K V N|k c v r K V|k n r E N V|k n v r E N V|k n v r E N V|a r P].
  - rewrite pre_nil, mid_empty. cbn [scan]. rewrite (classify_short _ _ C). unfold mid.
    destruct (letters (String c s)) as [l e]. destruct (stop l); [reflexivity|].
    destruct e as [d|]; [destruct r as [|x r']; [reflexivity|]|]; [destruct (scan r')|destruct (scan r)]; unfold pre; cbn; [rewrite <- app_assoc|]; reflexivity.
  - unfold mid. cbn [letters]. rewrite (letter_short _ _ K), V, <- (short_code _ _ K). destruct (letters s) as [l e]. cbn [stop existsb orb].
    fold (stop l). destruct (stop l); [reflexivity|]. destruct e as [d|]; [destruct r as [|x r']|]; reflexivity.
  - rewrite mid_empty. unfold mid. cbn [letters]. rewrite (letter_short _ _ K), V, <- (short_code _ _ K). destruct s; [congruence|]. reflexivity.
  - rewrite mid_empty. unfold mid. cbn [letters]. rewrite (letter_short _ _ K), V, <- (short_code _ _ K). reflexivity.
  - rewrite !mid_empty, (scan_long k n r E N), V. reflexivity.
  - rewrite !mid_empty, (scan_long_eq k n v r E N), V. reflexivity.
  - rewrite !mid_empty, (scan_long k n _ E N), V. reflexivity.
  - rewrite !mid_empty. cbn [scan]. rewrite (classify_plain _ P). destruct (scan r). reflexivity.
Qed.
Lemma path_mid s r us ps s' r' : path s r us ps s' r' -> mid s r = pre (map op us) ps (mid s' r').
Proof.
  induction 1 as [|s r us ps s1 r1 us' ps' s2 r2 T P IH]; [symmetry; apply pre_nil|].
  rewrite (takes_mid _ _ _ _ _ _ T), IH, pre_pre, map_app. reflexivity.
Qed.
Lemma missing_mid s r : missing s r -> mid s r = ([Missing], []).
Proof.
  destruct 1 as [k c K V|k n E N V].
  - unfold mid. cbn [letters]. rewrite (letter_short _ _ K), V. reflexivity.
  - rewrite mid_empty, (scan_long k n _ E N), V. reflexivity.
Qed.
Lemma unknown_mid s r : unknown s r -> mid s r = ([Unknown], []).
Proof.
  destruct 1 as [c s r H|n r E N H|n v r E H|k n v r E N V].
  - unfold mid. cbn [letters]. rewrite (letter_none _ H). reflexivity.
  - rewrite mid_empty. cbn [scan]. rewrite (classify_long _ N), (nameVal_none _ E), (lookup_none _ H). reflexivity.
  - rewrite mid_empty. cbn [scan]. rewrite classify_long by (destruct n; discriminate). rewrite (nameVal_some _ _ E), (lookup_none _ H). reflexivity.
  - rewrite mid_empty, (scan_long_eq k n v r E N), V. reflexivity.
Qed.
Lemma line_scan args us ps : line args us ps -> scan args = (map op us, ps).
Proof.
  intros [us' ps' P|us' ps' r P]; rewrite <- mid_empty, (path_mid _ _ _ _ _ _ P), mid_empty; cbn; unfold pre; cbn; rewrite !app_nil_r; reflexivity.
Qed.

(** ** Progress *)
Definition size (s : string) (r : list string) : nat := String.length s + list_sum (map (fun a => 2 + String.length a) r).
Lemma size_cons s a r : size s (a :: r) = size s r + 2 + String.length a.
Proof. unfold size, list_sum. cbn [map fold_right]. lia. Qed.
Lemma size_char c s r : size (String c s) r = size s r + 1.
Proof. unfold size. cbn [String.length]. lia. Qed.
Lemma size_app c r : size c r = String.length c + size "" r.
Proof. reflexivity. Qed.
Lemma len_app a b : String.length (a ++ b) = String.length a + String.length b.
Proof. induction a as [|c a IH]; cbn; [reflexivity|rewrite IH; reflexivity]. Qed.
Inductive done : string -> list string -> Prop := dn_end : done "" [] | dn_dashes : forall r, done "" ("--"%string :: r).
Ltac sz := unfold size, list_sum; cbn [map fold_right String.length append]; lia.
Lemma progress s r : done s r \/ missing s r \/ unknown s r \/
  exists us ps s' r', takes s r us ps s' r' /\ size s' r' < size s r.
Proof.
  destruct s as [|c s].
  - destruct r as [|a r]; [left; constructor|].
    destruct a as [|c [|d t]].
    + right; right; right. exists [], [""%string], ""%string, r. split; [apply tk_plain; right; discriminate|sz].
    + right; right; right. exists [], [String c ""], ""%string, r. split; [apply tk_plain|sz].
      destruct (ascii_dec c "-"%char) as [->|E]; [left; reflexivity|right; intros x X; inversion X; congruence].
    + destruct (ascii_dec c "-"%char) as [->|E].
      2:{ right; right; right. eexists [], [_], ""%string, r. split; [apply tk_plain; right; intros x X; inversion X; congruence|sz]. }
      destruct (ascii_dec d "-"%char) as [->|E].
      2:{ right; right; right. exists [], [], (String d t), r. split; [apply tk_letters; exact E|sz]. }
      destruct t as [|e t]; [left; constructor|].
      destruct (nameVal (String e t)) as [n v] eqn:NV. destruct (nameVal_inv _ _ _ NV) as [E S].
      change (String "-" (String "-" (String e t))) with ("--" ++ String e t)%string.
      rewrite S. destruct (lookup n) as [[a c]|] eqn:L.
      * destruct (lookup_some _ _ _ L) as (k & N & A & C). destruct v as [v|].
        -- destruct a.
           ++ right; right; right. exists [(k, v)], [], ""%string, r. split; [apply (tk_long_eq k n v r E N A)|]. sz.
           ++ right; right; left. exact (un_flag_eq k n v r E N A).
        -- destruct a.
           ++ destruct r as [|x r]; [right; left; exact (ms_long k n E N A)|].
              right; right; right. exists [(k, x)], [], ""%string, r. split; [apply (tk_long_next k n x r E N A)|]. sz.
           ++ right; right; right. exists [(k, ""%string)], [], ""%string, r. split; [apply (tk_long k n r E N A)|]. sz.
      * right; right; left.
        assert (forall k, ~ names n k) as H by (intros k N; rewrite (lookup_names _ _ N) in L; discriminate).
        destruct v as [v|]; [exact (un_long_eq n v r E H)|].
        apply un_long; [exact E| |exact H]. rewrite <- S. discriminate.
  - destruct (short_dec c) as [[k K]|H]; [|right; right; left; exact (un_short c s r H)].
    destruct (valued k) eqn:V.
    + destruct s as [|d s].
      * destruct r as [|x r]; [right; left; exact (ms_short k c K V)|]. right; right; right.
        exists [(k, x)], [], ""%string, r. split; [exact (tk_next k c x r K V)|sz].
      * right; right; right. exists [(k, String d s)], [], ""%string, r. split; [apply tk_glued; [exact K|exact V|discriminate]|sz].
    + right; right; right. exists [(k, ""%string)], [], s, r. split; [exact (tk_flag k c s r K V)|sz].
Qed.
Lemma reaches s r : exists us ps s' r', path s r us ps s' r' /\ (done s' r' \/ missing s' r' \/ unknown s' r').
Proof.
  remember (size s r) as n eqn:E. revert s r E. induction n as [n IH] using lt_wf_ind. intros s r ->.
  destruct (progress s r) as [D|[D|[D|(us & ps & s1 & r1 & T & L)]]].
  - exists [], [], s, r. split; [constructor|auto].
  - exists [], [], s, r. split; [constructor|auto].
  - exists [], [], s, r. split; [constructor|auto].
  - destruct (IH _ L s1 r1 eq_refl) as (us' & ps' & s2 & r2 & P & D). exists (us ++ us'), (ps ++ ps'), s2, r2.
    split; [exact (pa_step _ _ _ _ _ _ _ _ _ _ T P)|exact D].
Qed.
Lemma done_line args us ps s r : path "" args us ps s r -> done s r -> exists ps', line args us ps'.
Proof. intros P D. destruct D as [|r']; [exists ps; exact (ln_all args us ps P)|exists (ps ++ r'); exact (ln_dashes args us ps r' P)]. Qed.

Lemma takes_app s r us ps s' r' t : takes s r us ps s' r' -> takes s (r ++ t) us ps s' (r' ++ t).
Proof. destruct 1; cbn; econstructor; eauto. Qed.
Lemma path_app s r us ps s' r' t : path s r us ps s' r' -> path s (r ++ t) us ps s' (r' ++ t).
Proof. induction 1 as [|s r us ps s1 r1 us' ps' s2 r2 T P IH]; [constructor|]. exact (pa_step _ _ _ _ _ _ _ _ _ _ (takes_app _ _ _ _ _ _ t T) IH). Qed.
Lemma scan_app a us ps t : path "" a us ps "" [] -> scan (a ++ t) = pre (map op us) ps (scan t).
Proof. intros P. pose proof (path_mid _ _ _ _ _ _ (path_app _ _ _ _ _ _ t P)) as H. rewrite !mid_empty in H. exact H. Qed.

Lemma takes_one s r us ps s' r' : takes s r us ps s' r' -> us = [] \/ exists u, us = [u] /\ ps = [].
Proof. destruct 1; eauto. Qed.
Lemma path_split s r us ps s' r' us1 u us2 : path s r us ps s' r' -> us = us1 ++ u :: us2 ->
  exists ps1 s1 r1 s2 r2, path s r us1 ps1 s1 r1 /\ takes s1 r1 [u] [] s2 r2.
Proof.
  intros P. revert us1. induction P as [|s r us ps s1 r1 us' ps' s2 r2 T P IH]; intros us1 E; [destruct us1; discriminate|].
  destruct (takes_one _ _ _ _ _ _ T) as [->|(v & -> & ->)].
  - destruct (IH us1 E) as (q & a & b & c & d & A & B). exists (ps ++ q), a, b, c, d. split; [|exact B].
    exact (pa_step _ _ _ _ _ _ _ _ _ _ T A).
  - destruct us1 as [|w us1]; cbn in E; inversion E; subst.
    + exists [], s, r, s1, r1. split; [constructor|exact T].
    + destruct (IH us1 eq_refl) as (q & a & b & c & d & A & B). exists q, a, b, c, d. split; [|exact B].
      exact (pa_step _ _ _ _ _ _ _ _ _ _ T A).
Qed.

(** ** Meaning *)
Section Meaning.
Variable atof : string -> Q.
Variable mPerDeg : Q.
Variable split : string -> ascii -> list string.
Variable trim : string -> string.
Variable typesOf : string -> list nat.
Notation set := (set atof mPerDeg).
Notation loop := (loop atof mPerDeg).
Notation read := (read atof mPerDeg split trim typesOf).
Notation meant := (meant atof mPerDeg split trim typesOf).

Lemma last_cons {A} (x : A) l d : last (x :: l) d = last l x.
Proof. revert x d. induction l as [|y l IH]; intros x d; [reflexivity|]. change (last (x :: y :: l) d) with (last (y :: l) d). rewrite !(IH y). reflexivity. Qed.
Lemma values_cons k v us j : values j ((k, v) :: us) = if key_dec k j then v :: values j us else values j us.
Proof. unfold values. cbn. destruct (key_dec k j); reflexivity. Qed.
Lemma present_cons k v us j : present j ((k, v) :: us) <-> k = j \/ present j us.
Proof.
  split.
  - intros (w & [E|I]); [inversion E; auto|right; exists w; exact I].
  - intros [->|(w & I)]; [exists v; left; reflexivity|exists w; right; exact I].
Qed.

(** The state after some options, from the state before. *)
Record from (k0 : cfg) (us : list (key * string)) (c : cfg) : Prop := {
  fr_out : kOut c = last (values Output us) (kOut k0);
  fr_osm : kOsm c = last (values OsmFile us) (kOsm k0);
  fr_osmout : kOsmOut c = last (values OsmOut us) (kOsmOut k0);
  fr_trip : kTrip c = last (values TripId us) (kTrip k0);
  fr_dbg : kDbg c = last (values DbgPath us) (kDbg k0);
  fr_param : kParam c = (kParam k0 ++ String.concat "" (map (fun v => String (ascii_of_nat 10) v) (values Param us)))%string;
  fr_feeds : kFeeds c = kFeeds k0 ++ values Input us;
  fr_configs : kConfigs c = kConfigs k0 ++ values CfgFile us;
  fr_motstr : kMotStr c = last (values Mots us) (kMotStr k0);
  fr_mots : kMots c = kMots k0;
  fr_grid : kGrid c = lastNum GridSize us (fun v => atof v / mPerDeg)%Q (kGrid k0);
  fr_pad : kPad c = lastNum BoxPadding us atof (kPad k0);
  fr_noise : kNoise c = lastNum Noise us atof (kNoise k0);
  fr_drop : kDrop c = true <-> kDrop k0 = true \/ present DropShapes us;
  fr_graph : kGraph c = true <-> kGraph k0 = true \/ present WriteGraph us;
  fr_trgraph : kTrGraph c = true <-> kTrGraph k0 = true \/ present WriteTrgraph us;
  fr_overpass : kOverpass c = true <-> kOverpass k0 = true \/ present Overpass us;
  fr_osmfilter : kOsmfilter c = true <-> kOsmfilter k0 = true \/ present Osmfilter us;
  fr_inplace : kInPlace c = true <-> kInPlace k0 = true \/ present Inplace us;
  fr_colors : kColors c = true <-> kColors k0 = true \/ present WriteColors us;
  fr_fasthops : kNoFastHops c = true <-> kNoFastHops k0 = true \/ present NoFastHops us;
  fr_astar : kNoAStar c = true <-> kNoAStar k0 = true \/ present NoAStar us;
  fr_trie : kNoTrie c = true <-> kNoTrie k0 = true \/ present NoTrie us;
  fr_cache : kNoHopCache c = true <-> kNoHopCache k0 = true \/ present NoHopCache us;
  fr_stats : kStats c = true <-> kStats k0 = true \/ present Stats us;
  fr_fields : kFields c = true <-> kFields k0 = true \/ present KeepFields us;
  fr_print : kPrint c = true <-> kPrint k0 = true \/ present PrintOpts us;
  fr_verbose : kVerbose c = 1 /\ present Warn us \/ kVerbose c = kVerbose k0 /\ ~ present Warn us
}.
Lemma sapp_assoc (a b c : string) : (a ++ (b ++ c))%string = ((a ++ b) ++ c)%string.
Proof. induction a as [|x a IH]; cbn; [reflexivity|rewrite IH; reflexivity]. Qed.
Lemma concat_cons a l : String.concat "" (a :: l) = (a ++ String.concat "" l)%string.
Proof. destruct l; cbn; [symmetry; apply app_nil_s|reflexivity]. Qed.

Definition step (k : cfg) (u : key * string) : cfg := match set k (code (fst u)) (snd u) with inr k' => k' | inl _ => k end.
Lemma set_step k u : fst u <> Help -> fst u <> Version -> set k (code (fst u)) (snd u) = inr (step k u).
Proof. destruct k, u as [[] v]; cbn [fst snd]; intros A B; try reflexivity; congruence. Qed.
Ltac step_field := let k := fresh in let v := fresh in intros k [[] v]; destruct k; reflexivity.
Lemma lastG {A} (f : cfg -> A) (J : key) (g : string -> A) :
  (forall k u, f (step k u) = if key_dec (fst u) J then g (snd u) else f k) ->
  forall us k, f (fold_left step us k) = last (map g (values J us)) (f k).
Proof.
  intros H us. induction us as [|[j v] us IH]; intros k; [reflexivity|]. cbn [fold_left]. rewrite IH, H, values_cons. cbn [fst snd].
  destruct (key_dec j J); [|reflexivity]. cbn [map]. rewrite last_cons. reflexivity.
Qed.
Lemma snocG (f : cfg -> list string) (J : key) :
  (forall k u, f (step k u) = if key_dec (fst u) J then f k ++ [snd u] else f k) ->
  forall us k, f (fold_left step us k) = f k ++ values J us.
Proof.
  intros H us. induction us as [|[j v] us IH]; intros k; [cbn; rewrite app_nil_r; reflexivity|]. cbn [fold_left]. rewrite IH, H, values_cons. cbn [fst snd].
  destruct (key_dec j J); [|reflexivity]. rewrite <- app_assoc. reflexivity.
Qed.
Lemma flagG (f : cfg -> bool) (J : key) :
  (forall k u, f (step k u) = if key_dec (fst u) J then true else f k) ->
  forall us k, f (fold_left step us k) = true <-> f k = true \/ present J us.
Proof.
  intros H us. induction us as [|[j v] us IH]; intros k; cbn [fold_left].
  - split; [auto|intros [E|(v & [])]; exact E].
  - rewrite IH, H, present_cons. cbn [fst]. destruct (key_dec j J) as [->|N]; intuition auto.
Qed.
Lemma map_id_values J us : map (fun v : string => v) (values J us) = values J us.
Proof. apply map_id. Qed.
Lemma from_fold k us : from k us (fold_left step us k).
Proof.
  constructor; unfold lastNum.
  - rewrite <- (map_id_values Output). apply (lastG kOut). step_field.
  - rewrite <- (map_id_values OsmFile). apply (lastG kOsm). step_field.
  - rewrite <- (map_id_values OsmOut). apply (lastG kOsmOut). step_field.
  - rewrite <- (map_id_values TripId). apply (lastG kTrip). step_field.
  - rewrite <- (map_id_values DbgPath). apply (lastG kDbg). step_field.
  - revert k. induction us as [|[j v] us IH]; intros k; [cbn; symmetry; apply app_nil_s|]. cbn [fold_left]. rewrite IH, values_cons.
    assert (kParam (step k (j, v)) = if key_dec j Param then (kParam k ++ String (ascii_of_nat 10) v)%string else kParam k) as ->
      by (destruct j, k; reflexivity).
    destruct (key_dec j Param); [|reflexivity]. cbn [map]. rewrite concat_cons, sapp_assoc. reflexivity.
  - apply (snocG kFeeds). step_field.
  - apply (snocG kConfigs). step_field.
  - rewrite <- (map_id_values Mots). apply (lastG kMotStr). step_field.
  - revert k. induction us as [|[j v] us IH]; intros k; [reflexivity|]. cbn [fold_left]. rewrite IH. destruct j, k; reflexivity.
  - apply (lastG kGrid). step_field.
  - apply (lastG kPad). step_field.
  - apply (lastG kNoise). step_field.
  - apply (flagG kDrop). step_field.
  - apply (flagG kGraph). step_field.
  - apply (flagG kTrGraph). step_field.
  - apply (flagG kOverpass). step_field.
  - apply (flagG kOsmfilter). step_field.
  - apply (flagG kInPlace). step_field.
  - apply (flagG kColors). step_field.
  - apply (flagG kNoFastHops). step_field.
  - apply (flagG kNoAStar). step_field.
  - apply (flagG kNoTrie). step_field.
  - apply (flagG kNoHopCache). step_field.
  - apply (flagG kStats). step_field.
  - apply (flagG kFields). step_field.
  - apply (flagG kPrint). step_field.
  - revert k. induction us as [|[j v] us IH]; intros k; cbn [fold_left].
    + right. split; [reflexivity|]. intros (v & []).
    + assert (kVerbose (step k (j, v)) = if key_dec j Warn then 1 else kVerbose k) as E by (destruct j, k; reflexivity).
      rewrite present_cons. destruct (IH (step k (j, v))) as [[A B]|[A B]]; [left; auto|]. rewrite E in A.
      destruct (key_dec j Warn) as [->|N]; [left; auto|right; split; [exact A|tauto]].
Qed.
Lemma loop_fold us : forall k l, quiet us -> loop k (map op us ++ l) = loop (fold_left step us k) l.
Proof.
  induction us as [|u us IH]; intros k l H; [reflexivity|].
  assert (quiet us) as H' by (intros j w I; apply (H j w); right; exact I).
  destruct (H (fst u) (snd u)) as [A B]; [left; destruct u; reflexivity|].
  cbn [fold_left]. rewrite <- (IH _ l H').
  cbn [map app]. unfold op at 1. cbn [Args_model.loop]. rewrite (set_step _ _ A B). reflexivity.
Qed.

(** ** Modes *)
Lemma insert_in x l m : In m (insert x l) <-> m = x \/ In m l.
Proof.
  induction l as [|y r IH].
  - cbn. intuition auto.
  - cbn [insert]. destruct (x <? y); [cbn [In]; intuition auto|]. destruct (x =? y) eqn:E.
    + apply Nat.eqb_eq in E. subst y. cbn [In]. intuition auto.
    + cbn [In]. rewrite IH. intuition auto.
Qed.
Lemma insert_sorted x l : StronglySorted lt l -> StronglySorted lt (insert x l).
Proof.
  induction l as [|y r IH]; intros S; cbn [insert]; [repeat constructor|]. inversion S as [|? ? S1 S2]; subst.
  destruct (x <? y) eqn:E.
  - apply Nat.ltb_lt in E. constructor; [exact S|]. constructor; [exact E|]. eapply Forall_impl; [|exact S2]. cbn. lia.
  - apply Nat.ltb_ge in E. destruct (Nat.eqb_spec x y) as [->|N]; [exact S|]. constructor; [apply IH; exact S1|].
    apply Forall_forall. intros m M. apply insert_in in M. destruct M as [->|M]; [lia|]. rewrite Forall_forall in S2. exact (S2 m M).
Qed.
Definition addAll (ts : list nat) (s : list nat) : list nat := fold_left (fun s m => insert m s) ts s.
Lemma addAll_in ts : forall s m, In m (addAll ts s) <-> In m s \/ In m ts.
Proof.
  induction ts as [|t ts IH]; intros s m; cbn; [tauto|]. unfold addAll in IH. rewrite IH, insert_in. intuition auto.
Qed.
Lemma addAll_sorted ts : forall s, StronglySorted lt s -> StronglySorted lt (addAll ts s).
Proof. induction ts as [|t ts IH]; intros s S; cbn; [exact S|]. apply IH, insert_sorted, S. Qed.
Definition addPieces (l : list string) (s : list nat) : list nat := fold_left (fun s p => addAll (typesOf (trim p)) s) l s.
Lemma addPieces_in l : forall s m, In m (addPieces l s) <-> In m s \/ exists p, In p l /\ In m (typesOf (trim p)).
Proof.
  induction l as [|p l IH]; intros s m; cbn; [split; [auto|intros [H|(p & [] & _)]; exact H]|]. unfold addPieces in IH. rewrite IH, addAll_in.
  split.
  - intros [[H|H]|(q & A & B)]; [auto|right; exists p; auto|right; exists q; auto].
  - intros [H|(q & [->|A] & B)]; [auto|auto|right; exists q; auto].
Qed.
Lemma addPieces_sorted l : forall s, StronglySorted lt s -> StronglySorted lt (addPieces l s).
Proof. induction l as [|p l IH]; intros s S; cbn; [exact S|]. apply IH, addAll_sorted, S. Qed.

Definition finish (k : cfg) (ps : list string) : cfg :=
  mkCfg (kDbg k) (kTrip k) (kOut k) (kOsmOut k) (kOsm k) (kParam k) (kFeeds k ++ ps) (kConfigs k)
    (addPieces (split (kMotStr k) ","%char) (kMots k))
    (kDrop k) (kGraph k) (kTrGraph k) (kOverpass k) (kOsmfilter k) (kInPlace k) (kColors k) (kNoFastHops k) (kNoAStar k) (kNoTrie k) (kNoHopCache k)
    (kStats k) (kFields k) (kGrid k) (kPad k) (kNoise k) (kVerbose k) (kMotStr k) (kPrint k).
Lemma read_scan args : read args = match loop (cfg0 mPerDeg) (fst (scan args)) with Exit o c => Exit o c | Config k => Config (finish k (snd (scan args))) end.
Proof. unfold Args_model.read. destruct (scan args) as [l ps]. cbn [fst snd]. destruct (loop (cfg0 mPerDeg) l) as [o c|[]]; reflexivity. Qed.
Lemma or_false (b : bool) (P : Prop) : (b = true <-> false = true \/ P) -> (b = true <-> P).
Proof. intros H. rewrite H. split; [intros [A|A]; [discriminate|exact A]|auto]. Qed.
Lemma finish_meant us ps : meant us ps (finish (fold_left step us (cfg0 mPerDeg)) ps).
Proof.
  destruct (from_fold (cfg0 mPerDeg) us).
  set (k := fold_left step us (cfg0 mPerDeg)) in *.
  cbn [cfg0 kDbg kTrip kOut kOsmOut kOsm kParam kFeeds kConfigs kMots kDrop kGraph kTrGraph kOverpass kOsmfilter kInPlace kColors kNoFastHops kNoAStar kNoTrie kNoHopCache kStats kFields kGrid kPad kNoise kVerbose kMotStr kPrint append app] in *.
  constructor; unfold finish;
  cbn [kDbg kTrip kOut kOsmOut kOsm kParam kFeeds kConfigs kMots kDrop kGraph kTrGraph kOverpass kOsmfilter kInPlace kColors kNoFastHops kNoAStar kNoTrie kNoHopCache kStats kFields kGrid kPad kNoise kVerbose kMotStr kPrint];
  try assumption; try (apply or_false; assumption).
  - rewrite fr_feeds0. reflexivity.
  - intros m. rewrite addPieces_in, fr_mots0, fr_motstr0. split; [intros [[]|A]; exact A|intros A; right; exact A].
  - apply addPieces_sorted. rewrite fr_mots0. constructor.
Qed.
Lemma read_line args us ps : line args us ps -> quiet us -> read args = Config (finish (fold_left step us (cfg0 mPerDeg)) ps).
Proof.
  intros L Q. rewrite read_scan, (line_scan _ _ _ L). cbn [fst snd]. rewrite <- (app_nil_r (map op us)), (loop_fold _ _ _ Q). reflexivity.
Qed.
Lemma read_missing args us ps s r : path "" args us ps s r -> quiet us -> missing s r -> read args = Exit SaysMissing 1.
Proof.
  intros P Q M. rewrite read_scan, <- (mid_empty args), (path_mid _ _ _ _ _ _ P), (missing_mid _ _ M). cbn [fst snd pre]. rewrite (loop_fold _ _ _ Q). reflexivity.
Qed.
Lemma read_unknown args us ps s r : path "" args us ps s r -> quiet us -> unknown s r -> read args = Exit SaysUnknown 1.
Proof.
  intros P Q M. rewrite read_scan, <- (mid_empty args), (path_mid _ _ _ _ _ _ P), (unknown_mid _ _ M). cbn [fst snd pre]. rewrite (loop_fold _ _ _ Q). reflexivity.
Qed.
Lemma read_help args us ps s r v s' r' : path "" args us ps s r -> quiet us -> takes s r [(Help, v)] [] s' r' -> read args = Exit PrintsHelp 0.
Proof.
  intros P Q T. rewrite read_scan, <- (mid_empty args), (path_mid _ _ _ _ _ _ P), (takes_mid _ _ _ _ _ _ T). cbn [fst snd pre]. rewrite (loop_fold _ _ _ Q).
  cbn [map app op fst snd code]. destruct (fold_left step us (cfg0 mPerDeg)). reflexivity.
Qed.
Lemma read_version args us ps s r v s' r' : path "" args us ps s r -> quiet us -> takes s r [(Version, v)] [] s' r' -> read args = Exit PrintsVersion 0.
Proof.
  intros P Q T. rewrite read_scan, <- (mid_empty args), (path_mid _ _ _ _ _ _ P), (takes_mid _ _ _ _ _ _ T). cbn [fst snd pre]. rewrite (loop_fold _ _ _ Q).
  cbn [map app op fst snd code]. destruct (fold_left step us (cfg0 mPerDeg)). reflexivity.
Qed.

(** The first loud option. *)
Lemma quiet_dec us : quiet us \/ exists us1 k v us2, us = us1 ++ (k, v) :: us2 /\ quiet us1 /\ (k = Help \/ k = Version).
Proof.
  induction us as [|[k v] us IH]; [left; intros k v []|].
  destruct (key_dec k Help) as [->|A]; [right; exists [], Help, v, us; split; [reflexivity|split; [intros k' v' []|auto]]|].
  destruct (key_dec k Version) as [->|B]; [right; exists [], Version, v, us; split; [reflexivity|split; [intros k' v' []|auto]]|].
  destruct IH as [Q|(us1 & k' & v' & us2 & -> & Q & H)].
  - left. intros k' v' [E|I]; [inversion E; subst; auto|exact (Q k' v' I)].
  - right. exists ((k, v) :: us1), k', v', us2. split; [reflexivity|split; [|exact H]].
    intros k1 v1 [E|I]; [inversion E; subst; auto|exact (Q k1 v1 I)].
Qed.
(** Every command line is of one of the five kinds. *)
Lemma kinds args :
  (exists us ps, line args us ps /\ quiet us) \/
  (exists us ps s r, path "" args us ps s r /\ quiet us /\ missing s r) \/
  (exists us ps s r, path "" args us ps s r /\ quiet us /\ unknown s r) \/
  (exists us ps s r v s' r', path "" args us ps s r /\ quiet us /\ takes s r [(Help, v)] [] s' r') \/
  (exists us ps s r v s' r', path "" args us ps s r /\ quiet us /\ takes s r [(Version, v)] [] s' r').
Proof.
  destruct (reaches "" args) as (us & ps & s & r & P & D).
  destruct (quiet_dec us) as [Q|(us1 & k & v & us2 & E & Q & [->| ->])].
  - destruct D as [D|[D|D]].
    + destruct (done_line _ _ _ _ _ P D) as (ps' & L). left. exists us, ps'. auto.
    + right; left. exists us, ps, s, r. auto.
    + right; right; left. exists us, ps, s, r. auto.
  - destruct (path_split _ _ _ _ _ _ _ _ _ P E) as (ps1 & s1 & r1 & s2 & r2 & A & B).
    right; right; right; left. exists us1, ps1, s1, r1, v, s2, r2. auto.
  - destruct (path_split _ _ _ _ _ _ _ _ _ P E) as (ps1 & s1 & r1 & s2 & r2 & A & B).
    right; right; right; right. exists us1, ps1, s1, r1, v, s2, r2. auto.
Qed.

Lemma lt_ext (l : list nat) : forall l', StronglySorted lt l -> StronglySorted lt l' -> (forall m, In m l <-> In m l') -> l = l'.
Proof.
  induction l as [|x l IH]; intros [|y l'] S S' H.
  - reflexivity.
  - destruct (proj2 (H y) (or_introl eq_refl)).
  - destruct (proj1 (H x) (or_introl eq_refl)).
  - inversion S as [|? ? S1 S2]; inversion S' as [|? ? S1' S2']; subst. rewrite Forall_forall in S2, S2'.
    assert (x = y) as ->.
    { destruct (proj1 (H x) (or_introl eq_refl)) as [E|I]; [auto|]. destruct (proj2 (H y) (or_introl eq_refl)) as [E|J]; [auto|].
      pose proof (S2' _ I). pose proof (S2 _ J). lia. }
    f_equal. apply IH; [exact S1|exact S1'|]. intros m. split; intros M.
    + destruct (proj1 (H m) (or_intror M)) as [->|I]; [pose proof (S2 _ M); lia|exact I].
    + destruct (proj2 (H m) (or_intror M)) as [->|I]; [pose proof (S2' _ M); lia|exact I].
Qed.
Lemma present_values k us : present k us <-> values k us <> [].
Proof.
  unfold present, values. split.
  - intros (v & I) E. assert (In v (map snd (filter (fun u => if key_dec (fst u) k then true else false) us))) as J.
    { apply in_map_iff. exists (k, v). split; [reflexivity|]. apply filter_In. split; [exact I|]. cbn. destruct (key_dec k k); congruence. }
    rewrite E in J. destruct J.
  - destruct (filter _ us) as [|[j v] l] eqn:E; [intros H; destruct (H eq_refl)|]. intros _. exists v.
    assert (In (j, v) (filter (fun u => if key_dec (fst u) k then true else false) us)) as I by (rewrite E; left; reflexivity).
    apply filter_In in I. destruct I as [I F]. cbn in F. destruct (key_dec j k) as [->|]; [exact I|discriminate].
Qed.
Lemma bool_ext (a b : bool) P Q : (a = true <-> P) -> (b = true <-> Q) -> (P <-> Q) -> a = b.
Proof. destruct a, b; intros A B C; try reflexivity; [symmetry; apply B, C, A; reflexivity|apply A, C, B; reflexivity]. Qed.
Lemma warn_ext (a b : nat) (P Q : Prop) : a = 1 /\ P \/ a = 0 /\ ~ P -> b = 1 /\ Q \/ b = 0 /\ ~ Q -> (P <-> Q) -> a = b.
Proof. intros [[-> A]|[-> A]] [[-> B]|[-> B]] C; try reflexivity; tauto. Qed.
Lemma meant_unique us us' ps c c' : meant us ps c -> meant us' ps c' -> (forall k, values k us = values k us') -> c = c'.
Proof.
  intros M M' V.
  assert (forall k, present k us <-> present k us') as PV by (intros k; rewrite !present_values, V; reflexivity).
  destruct M as [a_out a_osm a_osmout a_trip a_dbg a_param a_feeds a_configs a_motstr a_mots a_sorted a_grid a_pad a_noise a_drop a_graph a_trgraph a_overpass a_osmfilter a_inplace a_colors a_fasthops a_astar a_trie a_cache a_stats a_fields a_print a_verbose], M' as [b_out b_osm b_osmout b_trip b_dbg b_param b_feeds b_configs b_motstr b_mots b_sorted b_grid b_pad b_noise b_drop b_graph b_trgraph b_overpass b_osmfilter b_inplace b_colors b_fasthops b_astar b_trie b_cache b_stats b_fields b_print b_verbose].
  rewrite <- !V in *. unfold lastNum in *. rewrite <- !V in *.
  destruct c as [x1 x2 x3 x4 x5 x6 x7 x8 x9 x10 x11 x12 x13 x14 x15 x16 x17 x18 x19 x20 x21 x22 x23 x24 x25 x26 x27 x28],
           c' as [y1 y2 y3 y4 y5 y6 y7 y8 y9 y10 y11 y12 y13 y14 y15 y16 y17 y18 y19 y20 y21 y22 y23 y24 y25 y26 y27 y28].
  cbn [kDbg kTrip kOut kOsmOut kOsm kParam kFeeds kConfigs kMots kDrop kGraph kTrGraph kOverpass kOsmfilter kInPlace kColors kNoFastHops kNoAStar kNoTrie kNoHopCache kStats kFields kGrid kPad kNoise kVerbose kMotStr kPrint] in *.
  assert (x1 = y1) as E1 by exact (eq_trans a_dbg (eq_sym b_dbg)).
  assert (x2 = y2) as E2 by exact (eq_trans a_trip (eq_sym b_trip)).
  assert (x3 = y3) as E3 by exact (eq_trans a_out (eq_sym b_out)).
  assert (x4 = y4) as E4 by exact (eq_trans a_osmout (eq_sym b_osmout)).
  assert (x5 = y5) as E5 by exact (eq_trans a_osm (eq_sym b_osm)).
  assert (x6 = y6) as E6 by exact (eq_trans a_param (eq_sym b_param)).
  assert (x7 = y7) as E7 by exact (eq_trans a_feeds (eq_sym b_feeds)).
  assert (x8 = y8) as E8 by exact (eq_trans a_configs (eq_sym b_configs)).
  assert (x9 = y9) as E9 by (apply (lt_ext _ _ a_sorted b_sorted); intros m; rewrite a_mots, b_mots; reflexivity).
  assert (x10 = y10) as E10 by exact (bool_ext _ _ _ _ a_drop b_drop (PV _)).
  assert (x11 = y11) as E11 by exact (bool_ext _ _ _ _ a_graph b_graph (PV _)).
  assert (x12 = y12) as E12 by exact (bool_ext _ _ _ _ a_trgraph b_trgraph (PV _)).
  assert (x13 = y13) as E13 by exact (bool_ext _ _ _ _ a_overpass b_overpass (PV _)).
  assert (x14 = y14) as E14 by exact (bool_ext _ _ _ _ a_osmfilter b_osmfilter (PV _)).
  assert (x15 = y15) as E15 by exact (bool_ext _ _ _ _ a_inplace b_inplace (PV _)).
  assert (x16 = y16) as E16 by exact (bool_ext _ _ _ _ a_colors b_colors (PV _)).
  assert (x17 = y17) as E17 by exact (bool_ext _ _ _ _ a_fasthops b_fasthops (PV _)).
  assert (x18 = y18) as E18 by exact (bool_ext _ _ _ _ a_astar b_astar (PV _)).
  assert (x19 = y19) as E19 by exact (bool_ext _ _ _ _ a_trie b_trie (PV _)).
  assert (x20 = y20) as E20 by exact (bool_ext _ _ _ _ a_cache b_cache (PV _)).
  assert (x21 = y21) as E21 by exact (bool_ext _ _ _ _ a_stats b_stats (PV _)).
  assert (x22 = y22) as E22 by exact (bool_ext _ _ _ _ a_fields b_fields (PV _)).
  assert (x23 = y23) as E23 by exact (eq_trans a_grid (eq_sym b_grid)).
  assert (x24 = y24) as E24 by exact (eq_trans a_pad (eq_sym b_pad)).
  assert (x25 = y25) as E25 by exact (eq_trans a_noise (eq_sym b_noise)).
  assert (x26 = y26) as E26 by exact (warn_ext _ _ _ _ a_verbose b_verbose (PV Warn)).
  assert (x27 = y27) as E27 by exact (eq_trans a_motstr (eq_sym b_motstr)).
  assert (x28 = y28) as E28 by exact (bool_ext _ _ _ _ a_print b_print (PV _)).
  clear - E1 E2 E3 E4 E5 E6 E7 E8 E9 E10 E11 E12 E13 E14 E15 E16 E17 E18 E19 E20 E21 E22 E23 E24 E25 E26 E27 E28. subst. reflexivity.
Qed.
End Meaning.
