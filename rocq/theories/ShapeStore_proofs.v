(** Proofs for the shape storage and shapes.txt (C40, C41). *)
From Coq Require Import Ascii String List Arith NArith Bool Lia.
From Verif Require Import ListAux ShapeStore_model ShapeStore_spec.
Import ListNotations.
Open Scope nat_scope.

(** ** Encoding *)
Lemma encN_length : forall k n, length (encN k n) = k.
Proof. induction k; cbn; intros; f_equal; auto. Qed.
Lemma decN_encN : forall k n, (n < 256 ^ N.of_nat k)%N -> decN (encN k n) = n.
Proof.
  induction k as [|k IH]; intros n L.
  - cbn in *. lia.
  - cbn [encN decN]. rewrite N_ascii_embedding by (apply N.mod_lt; lia). rewrite IH.
    + rewrite N.add_comm. symmetry. apply N.div_mod'.
    + apply N.div_lt_upper_bound; [lia|]. rewrite Nat2N.inj_succ, N.pow_succ_r' in L. lia.
Qed.

(** ** Registration *)
Lemma existsb_eqb : forall l x, existsb (String.eqb x) l = true <-> In x l.
Proof.
  intros l x. rewrite existsb_exists. split.
  - intros (y & Y & E). apply String.eqb_eq in E. now subst.
  - intros I. exists x. split; [exact I | apply String.eqb_refl].
Qed.
Lemma has_In : forall c x, has c x = true <-> In x (cIds c).
Proof. intros. apply existsb_eqb. Qed.

Lemma registered_snoc : forall h o id, registered (h ++ [o]) id <-> registers o id \/ (o <> ORemove id /\ registered h id).
Proof.
  intros h o id. split.
  - intros (h1 & o' & h2 & E & R & Nr). destruct h2 as [|y h2] using rev_ind.
    + apply app_inj_tail in E as [-> ->]. now left.
    + clear IHh2. rewrite app_comm_cons, app_assoc in E. apply app_inj_tail in E as [-> ->]. right. split.
      * intros ->. apply Nr, in_or_app. right. now left.
      * exists h1, o', h2. repeat split; auto. intros X. apply Nr, in_or_app. now left.
  - intros [R|(Ne & h1 & o' & h2 & -> & R & Nr)].
    + exists h, o, []. repeat split; auto.
    + exists h1, o', (h2 ++ [o]). rewrite <- app_assoc. repeat split; auto.
      intros X. apply in_app_or in X as [X|[X|[]]]; auto.
Qed.
Lemma not_registered_nil : forall id, ~ registered [] id.
Proof. intros id (h1 & o & h2 & E & _). now destruct h1. Qed.

Section Store.
Variable wa wb wd : nat.
Hypothesis W : 0 < wa + wb + wd.

Definition okPt (p : pt) : Prop := length (pLat p) = wa /\ length (pLng p) = wb /\ length (pDist p) = wd.
Definition okRec (e : string * list pt) : Prop :=
  plain (fst e) /\ snd e <> [] /\ (N.of_nat (length (snd e)) < 2 ^ 64)%N /\ forall p, In p (snd e) -> okPt p.
Definition encAll (l : list (string * list pt)) : list byte := flat_map (fun e => encShape (fst e) (snd e)) l.

(** ** What the container holds *)
(** [rep c ids l]: the ids [ids] are registered, the shapes [l] are stored. *)
Record rep (c : cont) (P : string -> Prop) (l : list (string * list pt)) : Prop := {
  rp_ids : forall x, In x (cIds c) <-> P x;
  rp_bytes : cOut c ++ cBuf c = encAll l;
  rp_good : cGood c = true
}.
Lemma encShape_ne : forall id ps, encShape id ps <> [].
Proof. intros id ps. unfold encShape. destruct (list_ascii_of_string id); discriminate. Qed.
Lemma rep_new : rep newC (fun _ => False) [].
Proof. split; cbn; tauto. Qed.
Lemma rep_add : forall c P l id ps, rep c P l -> ~ P id -> rep (addShape c id ps) (fun x => x = id \/ P x) (l ++ [(id, ps)]).
Proof.
  intros c P l id ps R NP. unfold addShape.
  destruct (has c id) eqn:Eh; [apply has_In in Eh; apply R in Eh; contradiction|].
  assert (B : cOut c ++ (cBuf c ++ encShape id ps) = encAll (l ++ [(id, ps)])).
  { unfold encAll. rewrite flat_map_app. cbn [flat_map fst snd]. rewrite app_nil_r, app_assoc. f_equal. apply R. }
  assert (I : forall x, In x (id :: cIds c) <-> x = id \/ P x).
  { intros x. cbn. rewrite (rp_ids _ _ _ R). intuition. }
  cbv zeta. cbn [cPut cLast cIds cOut cBuf cGood].
  destruct (_ <? _)%N.
  - unfold flushBuf. cbn [cPut cLast cIds cOut cBuf cGood]. rewrite (rp_good _ _ _ R). split; cbn [cPut cLast cIds cOut cBuf cGood].
    + exact I.
    + now rewrite app_nil_r.
    + destruct (cBuf c ++ encShape id ps) eqn:E; [|reflexivity].
      apply app_eq_nil in E as [_ E]. now apply encShape_ne in E.
  - split; cbn [cPut cLast cIds cOut cBuf cGood]; [exact I | exact B | apply R].
Qed.
Lemma rep_known : forall c P l id ps, rep c P l -> P id -> rep (addShape c id ps) P l.
Proof.
  intros c P l id ps R HP. unfold addShape. apply R in HP. apply has_In in HP. now rewrite HP.
Qed.
Lemma rep_reg : forall c P l id, rep c P l -> rep (addId c id) (fun x => x = id \/ P x) l.
Proof.
  intros c P l id R. split; cbn.
  - intros x. destruct (has c id) eqn:E.
    + rewrite (rp_ids _ _ _ R). split; [auto|]. intros [->|X]; auto. apply has_In in E. now apply R.
    + cbn. rewrite (rp_ids _ _ _ R). intuition.
  - apply R.
  - apply R.
Qed.
Lemma rep_remove : forall c P l id, rep c P l -> rep (remove c id) (fun x => x <> id /\ P x) l.
Proof.
  intros c P l id R. split; cbn.
  - intros x. rewrite filter_In, negb_true_iff, (rp_ids _ _ _ R), String.eqb_neq. intuition.
  - apply R.
  - apply R.
Qed.
Lemma rep_iff : forall c P Q l, (forall x, P x <-> Q x) -> rep c P l -> rep c Q l.
Proof. intros c P Q l E R. split; [intros x; rewrite <- E; apply R | apply R | apply R]. Qed.

Lemma run_rep : forall h, exists l, rep (fold_left apply h newC) (registered h) l /\ added h l /\
  (Forall (storable wa wb wd) h -> Forall okRec l).
Proof.
  induction h as [|o h (l & R & A & F)] using rev_ind.
  - exists []. repeat split; try constructor; cbn; try tauto.
    intros X. now apply not_registered_nil in X.
  - rewrite fold_left_app. cbn [fold_left]. destruct o as [id ps|id|id]; cbn [apply].
    + assert (D : registered h id \/ ~ registered h id).
      { destruct (has (fold_left apply h newC) id) eqn:E.
        - left. apply has_In in E. now apply R.
        - right. intros X. apply R in X. apply has_In in X. congruence. }
      destruct D as [D|D].
      * exists l. split; [|split].
        -- apply (rep_iff _ (registered h)); [|now apply rep_known].
           intros x. rewrite registered_snoc. cbn. split; [intros X; right; split; [discriminate|exact X]|intros [<-|[_ X]]; auto].
        -- now apply added_known.
        -- intros X. apply Forall_app in X as [X _]. auto.
      * exists (l ++ [(id, ps)]). split; [|split].
        -- apply (rep_iff _ (fun x => x = id \/ registered h x)); [|now apply rep_add].
           intros x. rewrite registered_snoc. cbn. split; [intros [->|X]; [now left|right; split; [discriminate|exact X]]|intros [<-|[_ X]]; auto].
        -- now apply added_new.
        -- intros X. apply Forall_app in X as [X Y]. apply Forall_app. split; [auto|].
           inversion Y as [|? ? S _]; subst. constructor; [exact S|constructor].
    + exists l. split; [|split].
      * apply (rep_iff _ (fun x => x = id \/ registered h x)); [|now apply rep_reg].
        intros x. rewrite registered_snoc. cbn. split; [intros [->|X]; [now left|right; split; [discriminate|exact X]]|intros [<-|[_ X]]; auto].
      * now apply added_reg.
      * intros X. apply Forall_app in X as [X _]. auto.
    + exists l. split; [|split].
      * apply (rep_iff _ (fun x => x <> id /\ registered h x)); [|now apply rep_remove].
        intros x. rewrite registered_snoc. cbn. split; [intros [X Y]; right; split; [congruence|exact Y]|intros [[]|[X Y]]; split; [congruence|exact Y]].
      * now apply added_remove.
      * intros X. apply Forall_app in X as [X _]. auto.
Qed.

(** ** Reading *)
Definition numFrom (cur : string) (k : N) (ps : list pt) : list row :=
  map (fun ip => mkRow cur (k + N.of_nat (fst ip)) (snd ip)) (combine (seq 1 (length ps)) ps).
Lemma numFrom_cons : forall cur k p ps, numFrom cur k (p :: ps) = mkRow cur (k + 1) p :: numFrom cur (k + 1) ps.
Proof.
  intros. unfold numFrom. cbn [length seq combine map fst snd]. f_equal.
  rewrite <- seq_shift.
  assert (G : forall l (b : list pt), combine (map S l) b = map (fun ip => (S (fst ip), snd ip)) (combine l b)).
  { induction l as [|x l IH]; intros [|y b]; cbn; auto. now rewrite IH. }
  rewrite G, map_map. apply map_ext. intros [i q]. cbn [fst snd]. f_equal. lia.
Qed.
Lemma rows_of_num : forall id ps, rows_of (id, ps) = numFrom id 0 ps.
Proof. intros. unfold rows_of, numFrom. reflexivity. Qed.

Record sees (rows : list row) (r : rd) : Prop := {
  se_ex : exists cur k ps recs,
    rGood r = true /\ rIn r = flat_map encPt ps ++ encAll recs /\
    (ps = [] -> rPtr r = 0%N) /\
    (ps <> [] -> rPtr r = k /\ k <> 0%N /\ rMax r = (k + N.of_nat (length ps))%N /\ rCur r = cur) /\
    Forall okPt ps /\ Forall okRec recs /\
    rows = numFrom cur k ps ++ flat_map rows_of recs }.

Lemma readN_app : forall k a rest p m cur,
  length a = k -> readN k (mkRd (a ++ rest) p m cur true) = (a, mkRd rest p m cur true).
Proof.
  intros k a rest p m cur <-. unfold readN. cbn [rGood rIn rPtr rMax rCur].
  rewrite firstn_app, firstn_all, Nat.sub_diag, firstn_O, app_nil_r, skipn_app, skipn_all, Nat.sub_diag. cbn [skipn app].
  f_equal. f_equal. apply Nat.leb_le. rewrite app_length. lia.
Qed.

Lemma isSpace_plain : forall b, ~ In (N_of_ascii b) [32; 9; 10; 11; 12; 13]%N -> isSpace b = false.
Proof.
  intros b H. unfold isSpace. destruct (_ || _)%bool eqn:E; [|reflexivity]. exfalso. apply H.
  apply orb_true_iff in E as [E|E]; [apply N.eqb_eq in E; cbn; auto|].
  apply andb_true_iff in E as [A B]. apply N.leb_le in A. apply N.leb_le in B. cbn. lia.
Qed.
Lemma word_plain : forall w rest, (forall b, In b w -> isSpace b = false) -> word (w ++ " "%char :: rest) = (w, " "%char :: rest).
Proof.
  induction w as [|b w IH]; intros rest H; [reflexivity|]. cbn [app word].
  rewrite (H b) by now left. rewrite IH by (intros x X; apply H; now right). reflexivity.
Qed.
Lemma header_ok : forall id n rest m cur, plain id -> (n < 2 ^ 64)%N ->
  readN 8 (ignore1 (readWord (mkRd (list_ascii_of_string id ++ [" "%char] ++ encN 8 n ++ rest) 0 m cur true)))
  = (encN 8 n, mkRd rest 0 m id true).
Proof.
  intros id n rest m cur [Ne Pl] L. unfold readWord. cbn [rGood rIn rPtr rMax rCur].
  assert (S : skipWs (list_ascii_of_string id ++ [" "%char] ++ encN 8 n ++ rest) = list_ascii_of_string id ++ [" "%char] ++ encN 8 n ++ rest).
  { destruct id as [|b id]; [congruence|]. cbn [list_ascii_of_string app skipWs]. rewrite isSpace_plain; [reflexivity|]. apply Pl. now left. }
  rewrite S.
  assert (Wd : word (list_ascii_of_string id ++ [" "%char] ++ encN 8 n ++ rest) = (list_ascii_of_string id, " "%char :: encN 8 n ++ rest)).
  { cbn [app]. apply word_plain. intros b B. apply isSpace_plain. now apply Pl. }
  destruct (list_ascii_of_string id ++ [" "%char] ++ encN 8 n ++ rest) as [|b l] eqn:E.
  { destruct (list_ascii_of_string id); discriminate. }
  cbv iota beta. rewrite Wd. unfold ignore1. cbn [rGood rIn rPtr rMax rCur negb].
  rewrite string_of_list_ascii_of_string. apply readN_app, encN_length.
Qed.

(** Reading one point where one is due. *)
Lemma point_ok : forall p rest k m cur, okPt p ->
  (let '(la, r2) := readN wa (mkRd (encPt p ++ rest) k m cur true) in
   let '(lo, r3) := readN wb r2 in
   let '(di, r4) := readN wd r3 in (mkPt la lo di, r4)) = (p, mkRd rest k m cur true).
Proof.
  intros [a b d] rest k m cur (A & B & D). cbn [pLat pLng pDist] in *. unfold encPt. cbn [pLat pLng pDist].
  rewrite <- !app_assoc. rewrite (readN_app wa a) by auto. rewrite (readN_app wb b) by auto. now rewrite (readN_app wd d) by auto.
Qed.

(** One round of the loop, once the header is dealt with. *)
Lemma round_pt : forall p ps recs k cur, okPt p -> Forall okPt ps -> Forall okRec recs ->
  exists r', sees (numFrom cur (k + 1) ps ++ flat_map rows_of recs) r' /\
    forall f c, (let '(la, r2) := readN wa (mkRd (encPt p ++ flat_map encPt ps ++ encAll recs) k (k + 1 + N.of_nat (length ps)) cur true) in
          let '(lo, r3) := readN wb r2 in
          let '(di, r4) := readN wd r3 in
          let x := mkRow (rCur r4) (rPtr r4 + 1) (mkPt la lo di) in
          let r5 := mkRd (rIn r4) (if (rPtr r4 + 1 =? rMax r4)%N then 0 else rPtr r4 + 1) (rMax r4) (rCur r4) (rGood r4) in
          if negb (rGood r5) then Some (None, r5)
          else if has c (wId x) then Some (Some x, r5) else nextStoragePt wa wb wd f c r5)
     = if has c cur then Some (Some (mkRow cur (k + 1) p), r') else nextStoragePt wa wb wd f c r'.
Proof.
  intros p ps recs k cur Op Ops Or.
  exists (mkRd (flat_map encPt ps ++ encAll recs) (if (k + 1 =? k + 1 + N.of_nat (length ps))%N then 0 else k + 1) (k + 1 + N.of_nat (length ps)) cur true).
  split.
  - constructor. exists cur, (k + 1)%N, ps, recs. cbn [rGood rIn rPtr rMax rCur].
    split; [reflexivity|]. split; [reflexivity|]. split.
    { intros ->. cbn [length]. rewrite N.add_0_r, N.eqb_refl. reflexivity. }
    split.
    { intros Ne. destruct (N.eqb_spec (k + 1) (k + 1 + N.of_nat (length ps))).
      - destruct ps; [congruence|]. cbn [length] in e. lia.
      - repeat split; auto. lia. }
    auto.
  - intros f c.
    pose proof (point_ok p (flat_map encPt ps ++ encAll recs) k (k + 1 + N.of_nat (length ps)) cur Op) as Q.
    destruct (readN wa _) as [la r2]. destruct (readN wb r2) as [lo r3]. destruct (readN wd r3) as [di r4].
    injection Q as Qp Qr. rewrite Qp, Qr. cbn [rGood rIn rPtr rMax rCur wId negb]. reflexivity.
Qed.

Lemma round_ok : forall x rows r, sees (x :: rows) r ->
  exists r', sees rows r' /\ forall f c,
    nextStoragePt wa wb wd (S f) c r = if has c (wId x) then Some (Some x, r') else nextStoragePt wa wb wd f c r'.
Proof.
  intros x rows [inp ptr mx cu gd] [(cur & k & ps & recs & G & I & Z & Nz & Op & Or & E)].
  cbn [rGood rIn rPtr rMax rCur] in *. subst gd inp.
  destruct ps as [|p ps].
  - rewrite (Z eq_refl) in *. clear Nz Z. cbn [app flat_map] in *.
    destruct recs as [|[id ps] recs]; [discriminate|].
    inversion Or as [|? ? Oe Or']; subst. destruct Oe as (Pl & Ne & Lt & Op'). cbn [fst snd] in *.
    destruct ps as [|p ps]; [congruence|]. clear Ne.
    cbn [flat_map] in E. rewrite rows_of_num, numFrom_cons in E. cbn [app numFrom map combine seq length] in E.
    injection E as Ex Er. subst x.
    assert (Op1 : okPt p) by (apply Op'; now left).
    assert (Op2 : Forall okPt ps) by (apply Forall_forall; intros q Q; apply Op'; now right).
    destruct (round_pt p ps recs 0 id Op1 Op2 Or') as (r' & S' & F).
    exists r'. split; [now rewrite Er|]. intros f c. cbn [nextStoragePt rGood negb rPtr].
    rewrite N.eqb_refl.
    assert (Eq : encAll ((id, p :: ps) :: recs) = list_ascii_of_string id ++ [" "%char] ++ encN 8 (N.of_nat (length (p :: ps))) ++ encPt p ++ flat_map encPt ps ++ encAll recs).
    { unfold encAll. cbn [flat_map fst snd]. unfold encShape at 1. cbn [flat_map]. now rewrite <- !app_assoc. }
    rewrite Eq.
    rewrite (header_ok id (N.of_nat (length (p :: ps))) (encPt p ++ flat_map encPt ps ++ encAll recs) mx cu Pl Lt).
    cbn [rGood rIn rPtr rMax rCur negb].
    rewrite decN_encN by (change (256 ^ N.of_nat 8)%N with (2 ^ 64)%N; exact Lt).
    cbn [wId]. refine (eq_trans _ (F f c)). replace (N.of_nat (length (p :: ps))) with (0 + 1 + N.of_nat (length ps))%N by (cbn [length]; lia).
    reflexivity.
  - destruct (Nz ltac:(discriminate)) as (-> & K & -> & ->). clear Nz Z.
    rewrite numFrom_cons in E. cbn [app] in E. injection E as Ex Er. subst x.
    inversion Op as [|? ? Op1 Op2]; subst.
    destruct (round_pt p ps recs k cur Op1 Op2 Or) as (r' & S' & F).
    exists r'. split; [exact S'|]. intros f c. cbn [nextStoragePt rGood negb rPtr].
    apply N.eqb_neq in K. rewrite K. cbn [rGood negb wId flat_map]. rewrite <- app_assoc. rewrite <- (F f c).
    replace (k + N.of_nat (length (p :: ps)))%N with (k + 1 + N.of_nat (length ps))%N by (cbn [length]; lia).
    reflexivity.
Qed.
Lemma round_end : forall r, sees [] r -> exists r', rGood r' = false /\ forall f c, nextStoragePt wa wb wd (S f) c r = Some (None, r').
Proof.
  intros [inp ptr mx cu gd] [(cur & k & ps & recs & G & I & Z & Nz & Op & Or & E)].
  cbn [rGood rIn rPtr rMax rCur] in *. subst gd inp.
  symmetry in E. apply app_eq_nil in E as [E1 E2].
  destruct ps as [|p ps]; [|rewrite numFrom_cons in E1; discriminate].
  destruct recs as [|[id ps] recs].
  - rewrite (Z eq_refl). exists (mkRd [] 0 mx cu false). split; [reflexivity|]. intros f c. reflexivity.
  - exfalso. inversion Or as [|? ? (_ & Ne & _) _]; subst. cbn [fst snd] in Ne.
    cbn [flat_map] in E2. apply app_eq_nil in E2 as [E2 _]. rewrite rows_of_num in E2.
    destruct ps; [congruence|]. rewrite numFrom_cons in E2. discriminate.
Qed.

Lemma next_ok : forall c rows f r, sees rows r -> length rows < f ->
  match filter (fun x => has c (wId x)) rows with
  | [] => exists r', rGood r' = false /\ nextStoragePt wa wb wd f c r = Some (None, r')
  | x :: more => exists r' rows', sees rows' r' /\ length rows' < length rows /\
      more = filter (fun x => has c (wId x)) rows' /\ nextStoragePt wa wb wd f c r = Some (Some x, r')
  end.
Proof.
  intros c. induction rows as [|x rows IH]; intros f r S L.
  - cbn. destruct f as [|f]; [inversion L|]. destruct (round_end r S) as (r' & G & H). eauto.
  - destruct f as [|f]; [inversion L|]. cbn [length] in L.
    destruct (round_ok x rows r S) as (r' & S' & H). cbn [filter]. rewrite H.
    destruct (has c (wId x)).
    + exists r', rows. split; [exact S'|]. split; [cbn; lia|]. auto.
    + specialize (IH f r' S' ltac:(lia)). destruct (filter _ rows).
      * exact IH.
      * destruct IH as (r2 & rows' & A & B & C & D). exists r2, rows'. split; [exact A|]. split; [cbn; lia|]. auto.
Qed.
Lemma drain_ok : forall c f rows r, sees rows r -> length rows < f ->
  exists r', rGood r' = false /\ drain wa wb wd f c r = Some (filter (fun x => has c (wId x)) rows, r').
Proof.
  intros c. induction f as [|f IH]; intros rows r S L; [inversion L|].
  cbn [drain]. pose proof (next_ok c rows (Datatypes.S f) r S L) as H.
  destruct (filter _ rows) as [|x more].
  - destruct H as (r' & G & H). rewrite H. eauto.
  - destruct H as (r' & rows' & S' & L' & -> & H). rewrite H.
    destruct (IH rows' r' S' ltac:(lia)) as (r2 & G2 & H2). rewrite H2. eauto.
Qed.

Lemma rows_length : forall l, Forall okRec l -> length (flat_map rows_of l) <= length (encAll l).
Proof.
  induction l as [|[id ps] l IH]; intros F; [reflexivity|]. inversion F as [|? ? Oe F']; subst.
  cbn [flat_map encAll]. rewrite !app_length. fold (encAll l). apply Nat.add_le_mono; [|now apply IH].
  unfold rows_of. rewrite map_length, combine_length, seq_length, Nat.min_id.
  unfold encShape. rewrite !app_length. destruct Oe as (_ & _ & _ & O). cbn [fst snd] in *.
  assert (G : length ps <= length (flat_map encPt ps)).
  { clear - O W. induction ps as [|p ps IH]; [reflexivity|]. cbn [flat_map length]. rewrite app_length.
    destruct (O p (or_introl eq_refl)) as (A & B & D). unfold encPt at 1. rewrite !app_length.
    specialize (IH (fun q Q => O q (or_intror Q))). lia. }
  lia.
Qed.
Lemma iterate_rep : forall c P l, rep c P l -> Forall okRec l ->
  exists c', iterate wa wb wd c = Some (filter (fun x => has c (wId x)) (flat_map rows_of l), c') /\
    cIds c' = cIds c /\ cOut c' = encAll l /\ cBuf c' = [] /\ cGood c' = false.
Proof.
  intros c P l R F. unfold iterate, openC.
  assert (B : cOut (flushBuf c) = encAll l /\ cBuf (flushBuf c) = [] /\ cIds (flushBuf c) = cIds c).
  { unfold flushBuf. rewrite (rp_good _ _ _ R). cbn. split; [apply R|auto]. }
  destruct B as (B1 & B2 & B3). cbn [rIn]. rewrite B1.
  destruct (drain_ok (flushBuf c) (S (length (encAll l))) (flat_map rows_of l) (mkRd (encAll l) 0 0 "" true)) as (r' & G & H).
  { constructor. exists ""%string, 0%N, [], l. cbn. repeat split; auto; congruence. }
  { apply rows_length in F. lia. }
  rewrite H. rewrite (filter_ext (fun x => has (flushBuf c) (wId x)) (fun x => has c (wId x))).
  2:{ intros x. unfold has. now rewrite B3. }
  eexists. split; [reflexivity|]. cbn. auto.
Qed.
(** Iterating again. *)
Lemma iterate_again : forall c l, cOut c = encAll l -> cBuf c = [] -> cGood c = false -> Forall okRec l ->
  exists c', iterate wa wb wd c = Some (filter (fun x => has c (wId x)) (flat_map rows_of l), c') /\
    cIds c' = cIds c /\ cOut c' = encAll l /\ cBuf c' = [] /\ cGood c' = false.
Proof.
  intros c l O B G F. unfold iterate, openC. unfold flushBuf. rewrite G. cbn [rIn]. rewrite O.
  destruct (drain_ok c (S (length (encAll l))) (flat_map rows_of l) (mkRd (encAll l) 0 0 "" true)) as (r' & G' & H).
  { constructor. exists ""%string, 0%N, [], l. cbn. repeat split; auto; congruence. }
  { apply rows_length in F. lia. }
  rewrite H. eexists. split; [reflexivity|]. cbn. auto.
Qed.

Lemma keeping_filter : forall {A} (P : A -> Prop) f l, (forall x, f x = true <-> P x) -> keeping P l (filter f l).
Proof.
  intros A P f l H. induction l as [|x l IH]; cbn; [constructor|].
  destruct (f x) eqn:E; constructor; auto; [now apply H|]. intros X. apply H in X. congruence.
Qed.
Lemma rows_of_id : forall e x, In x (rows_of e) -> wId x = fst e.
Proof. intros e x H. apply in_map_iff in H as (? & <- & _). reflexivity. Qed.
Lemma filter_all : forall {A} (f : A -> bool) l, (forall x, In x l -> f x = true) -> filter f l = l.
Proof. induction l as [|x l IH]; intros H; cbn; [reflexivity|]. rewrite (H x) by now left. f_equal. apply IH. intros; apply H; now right. Qed.
Lemma filter_none : forall {A} (f : A -> bool) l, (forall x, In x l -> f x = false) -> filter f l = [].
Proof. induction l as [|x l IH]; intros H; cbn; [reflexivity|]. rewrite (H x) by now left. apply IH. intros; apply H; now right. Qed.
Lemma filter_rows : forall (g : string -> bool) l,
  filter (fun x => g (wId x)) (flat_map rows_of l) = flat_map rows_of (filter (fun e => g (fst e)) l).
Proof.
  intros g. induction l as [|e l IH]; [reflexivity|]. cbn [flat_map filter]. rewrite filter_app, IH.
  destruct (g (fst e)) eqn:E.
  - cbn [flat_map]. f_equal. apply filter_all. intros x X. apply rows_of_id in X. congruence.
  - rewrite filter_none; [reflexivity|]. intros x X. apply rows_of_id in X. congruence.
Qed.

Lemma added_inv : forall h l, added h l -> match rev h with
  | [] => l = []
  | OAdd id ps :: h' => exists l0, added (rev h') l0 /\
      ((~ registered (rev h') id /\ l = l0 ++ [(id, ps)]) \/ (registered (rev h') id /\ l = l0))
  | _ :: h' => added (rev h') l
  end.
Proof. intros h l A. destruct A; rewrite ?rev_app_distr; cbn; rewrite ?rev_involutive; eauto. Qed.
Lemma added_fun : forall h l l', added h l -> added h l' -> l = l'.
Proof.
  induction h as [|o h IH] using rev_ind; intros l l' A A'; apply added_inv in A; apply added_inv in A';
    rewrite ?rev_app_distr in A, A'; cbn in A, A'; rewrite ?rev_involutive in A, A'.
  - congruence.
  - destruct o as [id ps|id|id]; eauto.
    destruct A as (a & Aa & A). destruct A' as (b & Bb & B). assert (a = b) by eauto. subst b.
    destruct A as [[A ->]|[A ->]], B as [[B ->]|[B ->]]; auto; contradiction.
Qed.

Lemma storage_ok : forall h l, Forall (storable wa wb wd) h -> added h l ->
  exists c' l', iterate wa wb wd (fold_left apply h newC) = Some (flat_map rows_of l', c') /\
    keeping (fun e => registered h (fst e)) l l' /\
    exists c'', iterate wa wb wd c' = Some (flat_map rows_of l', c'').
Proof.
  intros h l F A. destruct (run_rep h) as (l0 & R & A0 & F0). specialize (F0 F).
  assert (E : l = l0) by (eapply added_fun; eauto).
  subst l0.
  destruct (iterate_rep _ _ _ R F0) as (c' & I & C1 & C2 & C3 & C4).
  rewrite (filter_rows (has (fold_left apply h newC))) in I.
  exists c'. eexists. split; [exact I|]. split.
  - apply keeping_filter. intros [id ps]. cbn [fst]. rewrite has_In. apply R.
  - destruct (iterate_again c' l C2 C3 C4 F0) as (c'' & I' & _).
    rewrite (filter_rows (has c')) in I'. exists c''. rewrite I'. f_equal. f_equal. f_equal. apply filter_ext.
    intros e. unfold has. now rewrite C1.
Qed.

(** ** shapes.txt *)
Lemma copyRows_ok : forall c rows cur skip,
  (forall x, In x rows -> wId x <> ""%string) ->
  (cur = ""%string \/ has c cur = true) -> (skip = ""%string \/ has c skip = false) ->
  copyRows c rows cur skip = filter (fun x => has c (wId x)) rows.
Proof.
  intros c. induction rows as [|x rows IH]; intros cur skip E C K; [reflexivity|].
  assert (E' : forall y, In y rows -> wId y <> ""%string) by (intros y Y; apply E; now right).
  specialize (E x (or_introl eq_refl)). cbn [copyRows filter].
  destruct (String.eqb_spec (wId x) skip) as [Es|_].
  { destruct K as [->|K]; [contradiction|]. rewrite Es, K. apply IH; auto. }
  destruct (String.eqb_spec (wId x) cur) as [Ec|_].
  { destruct C as [->|C]; [contradiction|]. rewrite Ec, C. f_equal. apply IH; auto. }
  destruct (has c (wId x)) eqn:H; [f_equal|]; apply IH; auto.
Qed.

Definition given (old : option (list row)) : list row := match old with Some rows => rows | None => [] end.
Lemma writeShapes_ok : forall h l old, Forall (storable wa wb wd) h -> added h l ->
  (forall x, In x (given old) -> wId x <> ""%string) ->
  exists kept l' c', writeShapes wa wb wd (fold_left apply h newC) old = Some (kept ++ flat_map rows_of l', c') /\
    keeping (fun x => registered h (wId x)) (given old) kept /\
    keeping (fun e => registered h (fst e)) l l'.
Proof.
  intros h l old F A E. destruct (storage_ok h l F A) as (c' & l' & I & K & _).
  destruct (run_rep h) as (l0 & R & _ & _).
  exists (filter (fun x => has (fold_left apply h newC) (wId x)) (given old)), l', c'. unfold writeShapes. rewrite I.
  split; [|split].
  - destruct old as [rows|]; [|reflexivity]. cbn [given] in *. rewrite copyRows_ok; auto.
  - apply keeping_filter. intros x. rewrite has_In. apply R.
  - exact K.
Qed.

(** Ids that are used once. *)
Lemma never_again_app : forall h o, never_again (h ++ [o]) -> never_again h.
Proof. intros h o Na h1 id ps h2 E. apply (Na h1 id ps (h2 ++ [o])). rewrite E, <- app_assoc. reflexivity. Qed.
Lemma once_only : forall h l, added h l -> never_again h ->
  NoDup (map fst l) /\ (forall id ps, In (OAdd id ps) h <-> In (id, ps) l).
Proof.
  assert (Reg : forall h id, registered h id -> exists o, In o h /\ registers o id).
  { intros h id (h1 & o & h2 & -> & R & _). exists o. split; [apply in_elt|exact R]. }
  induction 1 as [|h l id ps A IH N|h l id ps A IH R|h l id A IH|h l id A IH]; intros Na.
  - split; [constructor|]. cbn. tauto.
  - destruct (IH (never_again_app _ _ Na)) as [Nd Eq].
    pose proof (fun o I => proj2 (Na h id ps [] eq_refl o I)) as F. split.
    + rewrite map_app. cbn [map fst]. apply NoDup_rev in Nd. apply (NoDup_Add (a := id) (l := map fst l)).
      { rewrite <- (app_nil_r (map fst l)) at 1. apply Add_app. }
      split; [rewrite <- (rev_involutive (map fst l)); apply NoDup_rev, Nd|].
      intros I. apply in_map_iff in I as ((i & q) & E & I). cbn in E. subst i. apply Eq in I. apply (F _ I). reflexivity.
    + intros i q. rewrite !in_app_iff, Eq. cbn. split; intros [X|[X|[]]]; auto; right; left; congruence.
  - exfalso. destruct (Reg _ _ R) as (o & I & Ro). exact (proj2 (Na h id ps [] eq_refl o I) Ro).
  - destruct (IH (never_again_app _ _ Na)) as [Nd Eq]. split; [exact Nd|].
    intros i q. rewrite <- Eq, in_app_iff. cbn. split; [intros [X|[X|[]]]; [exact X|discriminate]|auto].
  - destruct (IH (never_again_app _ _ Na)) as [Nd Eq]. split; [exact Nd|].
    intros i q. rewrite <- Eq, in_app_iff. cbn. split; [intros [X|[X|[]]]; [exact X|discriminate]|auto].
Qed.
Lemma keeping_In : forall {A} (P : A -> Prop) l l' x, keeping P l l' -> In x l -> P x -> In x l'.
Proof. induction 1; cbn; intros I Px; [exact I| |]; destruct I as [<-|I]; auto; contradiction. Qed.
Lemma keeping_incl : forall {A} (P : A -> Prop) l l', keeping P l l' -> incl l' l.
Proof. induction 1; intros y Y; [exact Y| |right; auto]. destruct Y as [<-|Y]; [now left|right; auto]. Qed.
Lemma keeping_map_NoDup : forall {A B} (f : A -> B) (P : A -> Prop) l l', keeping P l l' -> NoDup (map f l) -> NoDup (map f l').
Proof.
  induction 1 as [|x l l' Px K IH|x l l' Px K IH]; cbn; intros Nd; auto; inversion Nd as [|? ? N1 N2]; subst; auto.
  constructor; auto. intros I. apply N1. apply in_map_iff in I as (y & <- & I). apply in_map. eapply keeping_incl; eauto.
Qed.
Lemma filter_one : forall id ps (l : list (string * list pt)), NoDup (map fst l) -> In (id, ps) l ->
  filter (fun e => String.eqb (fst e) id) l = [(id, ps)].
Proof.
  intros id ps. induction l as [|[i q] l IH]; intros Nd I; [destruct I|]. cbn [map fst] in Nd. inversion Nd as [|? ? N1 N2]; subst.
  cbn [filter fst]. destruct I as [E|I].
  - injection E as -> ->. rewrite String.eqb_refl. f_equal. apply filter_none. intros (i', q') X. cbn [fst].
    apply String.eqb_neq. intros ->. apply N1. change id with (fst (id, q')). now apply in_map.
  - destruct (String.eqb_spec i id) as [->|_]; [|auto]. exfalso. apply N1. change id with (fst (id, ps)). now apply in_map.
Qed.
Lemma each_ok : forall h id ps, Forall (storable wa wb wd) h -> never_again h -> In (OAdd id ps) h ->
  exists rows c', iterate wa wb wd (fold_left apply h newC) = Some (rows, c') /\
    (registered h id -> with_id id rows = rows_of (id, ps)) /\ (~ registered h id -> with_id id rows = []).
Proof.
  intros h id ps F Na I. destruct (run_rep h) as (l & _ & A & _).
  destruct (storage_ok h l F A) as (c' & l' & It & K & _). exists (flat_map rows_of l'), c'. split; [exact It|].
  destruct (once_only h l A Na) as [Nd Eq]. unfold with_id. rewrite (filter_rows (fun i => String.eqb i id)). split; intros R.
  - rewrite (filter_one id ps); [cbn; apply app_nil_r| |].
    + eapply keeping_map_NoDup; eauto.
    + apply (keeping_In _ _ _ _ K); [now apply Eq|exact R].
  - rewrite filter_none; [reflexivity|]. intros (i, q) X. cbn [fst]. apply String.eqb_neq. intros ->.
    clear - K R X. induction K; cbn in X; auto. destruct X as [->|X]; [contradiction|auto].
Qed.
End Store.
