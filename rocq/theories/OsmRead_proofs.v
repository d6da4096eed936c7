(** Proofs about the reading of an OSM file. *)
From Coq Require Import Ascii String List Arith NArith Bool Lia.
From Verif Require Import ListAux OsmRead_model OsmRead_spec.
Import ListNotations.
Open Scope nat_scope.
Local Arguments Nat.eqb : simpl never.
Local Arguments Nat.ltb : simpl never.

Lemma mem_In : forall x l, mem x l = true <-> In x l.
Proof.
  intros x l. unfold mem. rewrite existsb_exists. split.
  - intros (y & Hy & H). apply Nat.eqb_eq in H. congruence.
  - intros H. exists x. split; [exact H | apply Nat.eqb_refl].
Qed.
Lemma mem_notIn : forall x l, mem x l = false <-> ~ In x l.
Proof. intros x l. rewrite <- mem_In. destruct (mem x l); split; intros H; try congruence. Qed.

(** ** A reader in general *)
Section Reader.
Context {P : Type}.
Notation tok := (@tok P).
Notation tag := (@tag P).
Notation xml := (@xml P).
Variable E : nat.
Variables (A S : Type) (new : tag -> option A) (child : A -> tok -> A) (none : A) (idz : A -> bool) (out : A -> A).
Variable keep : S -> A -> bool.
Variable grow : S -> A -> S.

Fixpoint nextG (s : S) (c : tok) (r : list tok) (a : A) : A * xml :=
  let go (a : A) :=
    let a := child a c in
    match r with [] => (if keep s a then out a else none, atEof E c) | t :: r' => nextG s t r' a end in
  if top c
  then if keep s a then (out a, mkXml c r)
       else match new (tg c) with Some a0 => go a0 | None => (none, mkXml c r) end
  else go a.
Definition after (readG : nat -> S -> xml -> option (list A * S * xml)) (n : nat) (s : S) (p : A * xml) : option (list A * S * xml) :=
  let (a, x') := p in
  if idz a then Some ([], s, x') else match readG n (grow s a) x' with None => None | Some (l, s', x'') => Some (a :: l, s', x'') end.
Fixpoint readG (n : nat) (s : S) (x : xml) : option (list A * S * xml) :=
  match n with
  | O => None
  | Datatypes.S n => after readG n s (nextG s (cur x) (rest x) none)
  end.
Definition start (e : elem) : A := match new (head e) with Some a => a | None => none end.
Definition val (e : elem) : A := fold_left child (body e) (start e).
Fixpoint selS (s : S) (es : list elem) : list A * S :=
  match es with
  | [] => ([], s)
  | e :: r => if keep s (val e) then let (l, s') := selS (grow s (out (val e))) r in (out (val e) :: l, s') else selS s r
  end.

Hypothesis H_none : forall s, keep s none = false.
Hypothesis H_idnone : idz none = true.
Hypothesis H_idkeep : forall s a, keep s a = true -> idz (out a) = false.
Hypothesis H_child2 : forall a t, lvl t = 2 -> child a t = a.
Hypothesis H_childnone : forall t, child none t = none.
Hypothesis H_inner : forall t, inner t -> new (tg t) = None.

Definition kind (e : elem) : Prop := new (head e) <> None /\ Forall inner (body e).

Lemma inner_nottop : forall t : tok, inner t -> top t = false.
Proof. intros t (H & _). unfold top. apply orb_false_iff. split; apply Nat.eqb_neq; lia. Qed.

(** Reading the rest of an element when something follows. *)
Lemma body_run : forall b s a t tl, Forall inner b ->
  match b with c :: r => nextG s c (r ++ t :: tl) a | [] => nextG s t tl a end = nextG s t tl (fold_left child b a).
Proof.
  induction b as [|c b IH]; intros s a t tl Hb; [reflexivity|].
  inversion Hb as [|? ? Hc Hb' ]; subst. cbn [fold_left].
  specialize (IH s (child a c) t tl Hb').
  destruct b as [|c' b']; cbn [app] in *; cbn [nextG]; rewrite (inner_nottop c Hc); exact IH.
Qed.
(** Reading the rest of an element at the end of the file. *)
Lemma body_end : forall b c s a, Forall inner (c :: b) ->
  nextG s c b a = (if keep s (fold_left child (c :: b) a) then out (fold_left child (c :: b) a) else none, atEof E (last (c :: b) c)).
Proof.
  induction b as [|c' b IH]; intros c s a Hb; inversion Hb as [|? ? Hc Hb']; subst.
  - cbn [nextG fold_left last]. rewrite (inner_nottop c Hc). reflexivity.
  - cbn [nextG]. rewrite (inner_nottop c Hc). rewrite (IH c' s (child a c) Hb'). cbn [fold_left].
    f_equal. f_equal. cbn [last]. destruct b as [|c2 b2]; [reflexivity|].
    assert (Hl : forall (l : list tok) d d', l <> [] -> last l d = last l d').
    { intros l. induction l as [|y l IHl]; intros d d' Hne; [congruence|]. destruct l as [|z l]; [reflexivity|]. cbn [last] in *. apply IHl. discriminate. }
    apply Hl. discriminate.
Qed.

Variable tail : list tok.
Hypothesis H_tail : match tail with [] => True | t :: _ => top t = true /\ new (tg t) = None end.

Lemma text_cons : forall (e : elem) es, text (e :: es) ++ tail = mkTok 2 (head e) :: body e ++ (text es ++ tail).
Proof. intros e es. unfold text. cbn [flat_map tokens app]. rewrite <- app_assoc. reflexivity. Qed.

(** What follows starts with a top token. *)
Lemma follow_top : forall es t tl, Forall kind es -> text es ++ tail = t :: tl -> top t = true.
Proof.
  intros es t tl Hk H. destruct es as [|e es].
  - cbn in H. rewrite H in H_tail. tauto.
  - rewrite text_cons in H. injection H as <- _. reflexivity.
Qed.

Lemma readG_eof : forall n s x, rest x = [] -> new (tg (cur x)) = None -> readG (Datatypes.S n) s x = Some ([], s, if top (cur x) then x else atEof E (cur x)).
Proof.
  intros n s [c r] Hr Hn. cbn [rest cur] in *. subst r. cbn [readG nextG cur rest]. rewrite H_none, Hn, H_childnone, H_none.
  destruct (top c); cbn [after]; rewrite H_idnone; reflexivity.
Qed.

Lemma readG_ok : forall es n s c r a, Forall kind es -> c :: r = text es ++ tail -> keep s a = false -> length es < n ->
  (tail = [] -> forall s e, In e es -> keep s (val e) = true -> body e <> []) ->
  exists x, after readG (pred n) s (nextG s c r a) = Some (fst (selS s es), snd (selS s es), x) /\
            match tail with [] => True | t :: tl => x = mkXml t tl end.
Proof.
  induction es as [|e es IH]; intros n s c r a Hk Heq Ha Hn Hend.
  - cbn [text flat_map app] in Heq. rewrite <- Heq in H_tail. destruct H_tail as (Ht & Hnew).
    exists (mkXml c r). split; [|rewrite <- Heq; reflexivity].
    destruct r; cbn [nextG]; rewrite Ht, Ha, Hnew; cbn [after selS fst snd]; rewrite H_idnone; reflexivity.
  - inversion Hk as [|? ? (Hnew & Hb) Hk']; subst. rewrite text_cons in Heq. injection Heq as -> ->.
    destruct n as [|n]; [cbn in Hn; lia|]. cbn [pred].
    assert (Hstart : new (head e) = Some (start e)).
    { unfold start. destruct (new (head e)); congruence. }
    assert (Hfirst : nextG s (mkTok 2 (head e)) (body e ++ text es ++ tail) a =
              match body e ++ text es ++ tail with [] => (if keep s (start e) then out (start e) else none, atEof E (mkTok 2 (head e)))
              | t :: r' => nextG s t r' (start e) end).
    { destruct (body e ++ text es ++ tail) as [|t r']; cbn [nextG]; replace (top (mkTok 2 (head e))) with true by reflexivity;
        cbn [tg]; rewrite Ha, Hstart, H_child2 by reflexivity; reflexivity. }
    rewrite Hfirst. clear Hfirst.
    cbn [selS].
    destruct (text es ++ tail) as [|t tl] eqn:Hrest.
    + (* the end of the file *)
      assert (Hes : es = []). { destruct es as [|e' es']; [reflexivity|]. rewrite text_cons in Hrest. discriminate. }
      subst es. cbn in Hrest. 
      assert (Htl : tail = []) by exact Hrest.
      rewrite app_nil_r.
      assert (Hres : exists x, (match body e with [] => (if keep s (start e) then out (start e) else none, atEof E (mkTok 2 (head e)))
                        | t :: r' => nextG s t r' (start e) end) = (if keep s (val e) then out (val e) else none, x) /\
                        rest x = [] /\ (body e <> [] -> new (tg (cur x)) = None)).
      { destruct (body e) as [|b0 b] eqn:Hbe.
        - exists (atEof E (mkTok 2 (head e))). unfold val. rewrite Hbe. cbn [fold_left]. repeat split. congruence.
        - exists (atEof E (last (b0 :: b) b0)). rewrite (body_end b b0 s (start e) Hb). unfold val. rewrite Hbe. repeat split.
          intros _. cbn [atEof cur tg]. apply H_inner. rewrite Forall_forall in Hb. apply Hb.
          clear. destruct (exists_last (l := b0 :: b)) as (l' & y & Hy); [discriminate|]. rewrite Hy, last_last. apply in_or_app. right. left. reflexivity. }
      destruct Hres as (x & -> & Hxr & Hxn). rewrite Htl.
      destruct (keep s (val e)) eqn:Hkeep.
      * cbn [after]. rewrite (H_idkeep _ _ Hkeep). 
        assert (Hne : body e <> []) by (apply (Hend Htl s e); [left; reflexivity | exact Hkeep]).
        destruct n as [|n]; [cbn in Hn; lia|].
        rewrite (readG_eof n _ x Hxr (Hxn Hne)). cbn [selS fst snd]. eexists. split; [reflexivity | exact Logic.I].
      * cbn [after selS fst snd]. rewrite H_idnone. eexists. split; [reflexivity | exact Logic.I].
    + (* something follows *)
      assert (Hrun : match body e ++ t :: tl with [] => (if keep s (start e) then out (start e) else none, atEof E (mkTok 2 (head e)))
              | t :: r' => nextG s t r' (start e) end = nextG s t tl (val e)).
      { unfold val. rewrite <- (body_run (body e) s (start e) t tl Hb). destruct (body e); reflexivity. }
      rewrite Hrun. clear Hrun.
      assert (Htop : top t = true) by (apply (follow_top es t tl Hk' Hrest)).
      assert (Hend' : tail = [] -> forall s e0, In e0 es -> keep s (val e0) = true -> body e0 <> []).
      { intros Htl s0 e0 H0. apply Hend; [exact Htl | right; exact H0]. }
      destruct (keep s (val e)) eqn:Hkeep.
      * assert (Hn1 : nextG s t tl (val e) = (out (val e), mkXml t tl)). { destruct tl; cbn [nextG]; rewrite Htop, Hkeep; reflexivity. }
        rewrite Hn1. cbn [after]. rewrite (H_idkeep _ _ Hkeep).
        destruct n as [|n]; [cbn in Hn; lia|]. cbn [readG cur rest].
        destruct (IH (Datatypes.S n) (grow s (out (val e))) t tl none Hk' eq_refl (H_none _)) as (x & Hx & Hxt); [cbn in Hn; lia | exact Hend'|].
        cbn [pred] in Hx. rewrite Hx. destruct (selS (grow s (out (val e))) es) as [l s']. cbn [fst snd]. exists x. split; [reflexivity | exact Hxt].
      * destruct (IH (Datatypes.S n) s t tl (val e) Hk' eq_refl Hkeep) as (x & Hx & Hxt); [cbn in Hn; lia | exact Hend'|].
        cbn [pred] in Hx. exists x. split; [exact Hx | exact Hxt].
Qed.

(** One call: the first element that is kept. *)
Lemma nextG_first : forall es1 s e es2 c r a, Forall kind (es1 ++ e :: es2) -> (forall e', In e' es1 -> keep s (val e') = false) -> keep s (val e) = true ->
  c :: r = text (es1 ++ e :: es2) ++ tail -> keep s a = false ->
  exists x, nextG s c r a = (out (val e), x) /\
    match text es2 ++ tail with [] => rest x = [] /\ (body e <> [] -> exists t, In t (body e) /\ tg (cur x) = tg t) | t :: tl => x = mkXml t tl end.
Proof.
  induction es1 as [|e1 es1 IH]; intros s e es2 c r a Hk H1 He Heq Ha.
  - cbn [app] in *. inversion Hk as [|? ? (Hnew & Hb) Hk']; subst. rewrite text_cons in Heq. injection Heq as -> ->.
    assert (Hstart : new (head e) = Some (start e)). { unfold start. destruct (new (head e)); congruence. }
    assert (Hfirst : nextG s (mkTok 2 (head e)) (body e ++ text es2 ++ tail) a =
              match body e ++ text es2 ++ tail with [] => (if keep s (start e) then out (start e) else none, atEof E (mkTok 2 (head e)))
              | t :: r' => nextG s t r' (start e) end).
    { destruct (body e ++ text es2 ++ tail) as [|t r']; cbn [nextG]; replace (top (mkTok 2 (head e))) with true by reflexivity;
        cbn [tg]; rewrite Ha, Hstart, H_child2 by reflexivity; reflexivity. }
    rewrite Hfirst. clear Hfirst.
    destruct (text es2 ++ tail) as [|t tl] eqn:Hrest.
    + rewrite app_nil_r. destruct (body e) as [|b0 b] eqn:Hbe.
      * assert (Hv : val e = start e) by (unfold val; rewrite Hbe; reflexivity). rewrite Hv in *. rewrite He. eexists. split; [reflexivity|]. split; [reflexivity | congruence].
      * rewrite (body_end b b0 s (start e) Hb). assert (Hv : val e = fold_left child (b0 :: b) (start e)) by (unfold val; rewrite Hbe; reflexivity).
        rewrite <- Hv, He. eexists. split; [reflexivity|]. split; [reflexivity|]. intros _. exists (last (b0 :: b) b0). split; [|reflexivity].
        destruct (exists_last (l := b0 :: b)) as (l' & y & Hy); [discriminate|]. rewrite Hy, last_last. apply in_or_app. right. left. reflexivity.
    + assert (Hrun : match body e ++ t :: tl with [] => (if keep s (start e) then out (start e) else none, atEof E (mkTok 2 (head e)))
              | t :: r' => nextG s t r' (start e) end = nextG s t tl (val e)).
      { unfold val. rewrite <- (body_run (body e) s (start e) t tl Hb). destruct (body e); reflexivity. }
      rewrite Hrun. clear Hrun. assert (Htop : top t = true) by (apply (follow_top es2 t tl Hk' Hrest)).
      exists (mkXml t tl). split; [|reflexivity]. destruct tl; cbn [nextG]; rewrite Htop, He; reflexivity.
  - cbn [app] in *. inversion Hk as [|? ? (Hnew & Hb) Hk']; subst. rewrite text_cons in Heq. injection Heq as -> ->.
    assert (Hstart : new (head e1) = Some (start e1)). { unfold start. destruct (new (head e1)); congruence. }
    destruct (text (es1 ++ e :: es2) ++ tail) as [|t tl] eqn:Hrest.
    { exfalso. destruct es1; cbn [app] in Hrest; rewrite text_cons in Hrest; discriminate. }
    destruct (IH s e es2 t tl (val e1) Hk' (fun e' He' => H1 e' (or_intror He')) He (eq_sym Hrest) (H1 e1 (or_introl eq_refl))) as (x & Hx & Hxt).
    exists x. split; [|exact Hxt]. rewrite <- Hx. unfold val. rewrite <- (body_run (body e1) s (start e1) t tl Hb).
    destruct (body e1) as [|b0 b]; cbn [app nextG]; replace (top (mkTok 2 (head e1))) with true by reflexivity; cbn [tg]; rewrite Ha, Hstart, H_child2 by reflexivity; reflexivity.
Qed.

(** The loop from a place in the file. *)
Lemma readG_all : forall es n s c r, Forall kind es -> c :: r = text es ++ tail -> length es < n ->
  (tail = [] -> forall s e, In e es -> keep s (val e) = true -> body e <> []) ->
  exists x, readG n s (mkXml c r) = Some (fst (selS s es), snd (selS s es), x) /\ match tail with [] => True | t :: tl => x = mkXml t tl end.
Proof.
  intros es n s c r Hk Heq Hn Hend. destruct n as [|n]; [lia|]. cbn [readG cur rest].
  exact (readG_ok es (Datatypes.S n) s c r none Hk Heq (H_none s) Hn Hend).
Qed.
End Reader.

(** Selecting by a fixed condition. *)
Lemma selS_const : forall P A S (new : @tag P -> option A) child none out (keep : S -> A -> bool) grow W (vl : elem -> A),
  (forall s a, grow s a = s) -> forall s,
  (forall e, keep s (val A new child none e) = true <-> W e) ->
  (forall e, W e -> out (val A new child none e) = vl e) ->
  forall es, exists l, selS A S new child none out keep grow s es = (l, s) /\ Picked W vl es l.
Proof.
  intros P A S new child none out keep grow W vl Hg s HW Hv. induction es as [|e es (l & IH & Hp)]; [exists []; split; [reflexivity | constructor]|].
  cbn [selS]. destruct (keep s (val A new child none e)) eqn:He.
  - rewrite Hg, IH. exists (vl e :: l). apply HW in He. rewrite (Hv e He). split; [reflexivity | constructor; assumption].
  - exists l. split; [exact IH | constructor; [rewrite <- HW; congruence | exact Hp]].
Qed.

(** ** The content of elements *)
Lemma lastOnes_snoc : forall l k v, lastOnes (l ++ [(k, v)]) = put (lastOnes l) k v.
Proof.
  unfold put. induction l as [|[k1 v1] l IH]; intros k v; [reflexivity|].
  cbn [app lastOnes]. rewrite existsb_app. cbn [existsb fst]. rewrite orb_false_r.
  destruct (existsb (fun x => String.eqb (fst x) k1) l) eqn:Hl; cbn [orb]; [apply IH|].
  rewrite (String.eqb_sym k k1). destruct (String.eqb k1 k) eqn:Hk; cbn [filter fst]; rewrite Hk; cbn [negb]; rewrite IH; reflexivity.
Qed.

Section Content.
Context {P : Type}.
Notation elem := (@elem P).
Notation tok := (@tok P).
Variable keys : string -> bool.

Lemma children_snoc : forall h (b : list tok) t, children (mkElem h (b ++ [t])) = children (mkElem h b) ++ (if lvl t =? 3 then [tg t] else []).
Proof. intros h b t. unfold children. cbn [body]. rewrite filter_app, map_app. cbn [filter]. destruct (lvl t =? 3); reflexivity. Qed.
Lemma way_content : forall h id (b : list tok), id <> 0 ->
  fold_left (wayChild keys) b (mkWay id [] []) = mkWay id (refs (mkElem h b)) (tags keys (mkElem h b)).
Proof.
  intros h id b Hid. induction b as [|t b IH] using rev_ind; [reflexivity|].
  rewrite fold_left_app, IH. cbn [fold_left]. unfold wayChild at 1. cbn [wId wNodes wAttrs].
  unfold tags, needed, refs. rewrite !children_snoc, !flat_map_app. apply Nat.eqb_neq in Hid. rewrite Hid. cbn [negb andb].
  destruct (lvl t =? 3); [|cbn [flat_map]; rewrite !app_nil_r; reflexivity].
  destruct (tg t) eqn:Ht; cbn [flat_map app]; rewrite ?app_nil_r; try reflexivity.
  destruct (keys k); rewrite ?app_nil_r; [|reflexivity]. rewrite lastOnes_snoc. reflexivity.
Qed.
Lemma node_content : forall h id p (b : list tok), id <> 0 ->
  fold_left (nodeChild keys) b (mkNode id p []) = mkNode id p (tags keys (mkElem h b)).
Proof.
  intros h id p b Hid. induction b as [|t b IH] using rev_ind; [reflexivity|].
  rewrite fold_left_app, IH. cbn [fold_left]. unfold nodeChild at 1. cbn [nId nPos nAttrs].
  unfold tags, needed. rewrite !children_snoc, !flat_map_app. apply Nat.eqb_neq in Hid. rewrite Hid. cbn [negb andb].
  destruct (lvl t =? 3); [|cbn [flat_map]; rewrite !app_nil_r; reflexivity].
  destruct (tg t) eqn:Ht; cbn [flat_map app]; rewrite ?app_nil_r; try reflexivity.
  destruct (keys k); rewrite ?app_nil_r; [|reflexivity]. rewrite lastOnes_snoc. reflexivity.
Qed.
Lemma rel_content : forall h id (b : list tok), id <> 0 ->
  fold_left (relChild keys) b (mkRel id [] [] [] 0) = mkRel id (nodeMembers (mkElem h b)) (wayMembers (mkElem h b)) (tags keys (mkElem h b)) 0.
Proof.
  intros h id b Hid. induction b as [|t b IH] using rev_ind; [reflexivity|].
  rewrite fold_left_app, IH. cbn [fold_left]. unfold relChild at 1. cbn [rId rNodes rWays rAttrs rKeep].
  unfold tags, needed, nodeMembers, wayMembers. rewrite !children_snoc, !flat_map_app. apply Nat.eqb_neq in Hid. rewrite Hid. cbn [negb]. rewrite andb_true_r.
  destruct (lvl t =? 3); [|cbn [flat_map]; rewrite !app_nil_r; reflexivity].
  destruct (tg t) eqn:Ht; cbn [flat_map app]; rewrite ?app_nil_r; try reflexivity.
  - destruct (keys k); rewrite ?app_nil_r; [|reflexivity]. rewrite lastOnes_snoc. reflexivity.
  - destruct t0; rewrite ?app_nil_r; reflexivity.
Qed.
(* an element without id stays without *)
Lemma way_zero : forall (b : list tok), fold_left (wayChild keys) b (mkWay 0 [] []) = mkWay 0 [] [].
Proof. induction b as [|t b IH]; [reflexivity | exact IH]. Qed.
Lemma node_zero : forall p (b : list tok), fold_left (nodeChild keys) b (mkNode 0 p []) = mkNode 0 p [].
Proof. intros p. induction b as [|t b IH]; [reflexivity | exact IH]. Qed.
Lemma rel_zero : forall (b : list tok), fold_left (relChild keys) b (mkRel 0 [] [] [] 0) = mkRel 0 [] [] [] 0.
Proof. induction b as [|t b IH]; [reflexivity|]. cbn [fold_left]. unfold relChild at 2. cbn [rId]. rewrite andb_false_r. exact IH. Qed.
End Content.

(** ** The three readers *)
Section Three.
Context {P : Type}.
Notation elem := (@elem P).
Notation tok := (@tok P).
Notation tag := (@tag P).
Variable E : nat.

Definition newWay (t : tag) : option way := match t with TWay id => Some (mkWay id [] []) | _ => None end.
Definition newNode (t : tag) : option (@node P) := match t with TNode id p => Some (mkNode id (Some p) []) | _ => None end.
Definition newRel (t : tag) : option rel := match t with TRel id => Some (mkRel id [] [] [] 0) | _ => None end.

Lemma nextWay_G : forall keys keep r c w,
  nextWay E keys keep c r w = nextG E way unit newWay (wayChild keys) noWay (fun w => w) (fun _ => keep) tt c r w.
Proof.
  intros keys keep. induction r as [|t r IH]; intros c w; cbn [nextWay nextG].
  - destruct (top c), (keep w), (tg c); reflexivity.
  - destruct (top c), (keep w), (tg c); rewrite ?IH; reflexivity.
Qed.
Lemma nextNode_G : forall (S : Type) keys (keep : S -> @node P -> bool) s r c w,
  nextNode E keys (keep s) c r w = nextG E node S newNode (nodeChild keys) noNode (fun w => w) keep s c r w.
Proof.
  intros S keys keep s. induction r as [|t r IH]; intros c w; cbn [nextNode nextG].
  - destruct (top c), (keep s w), (tg c); reflexivity.
  - destruct (top c), (keep s w), (tg c); rewrite ?IH; reflexivity.
Qed.
Lemma nextRel_G : forall keys kR dR r c w,
  nextRel E keys kR dR c r w = nextG E rel unit newRel (relChild keys) noRel (flagged kR) (fun _ => keepRel kR dR) tt c r w.
Proof.
  intros keys kR dR. induction r as [|t r IH]; intros c w; cbn [nextRel nextG].
  - destruct (top c), (keepRel kR dR w), (tg c); reflexivity.
  - destruct (top c), (keepRel kR dR w), (tg c); rewrite ?IH; reflexivity.
Qed.

Lemma readWays_G : forall keys keep n x,
  readWays E keys keep n x =
  match readG E way unit newWay (wayChild keys) noWay (fun w => wId w =? 0) (fun w => w) (fun _ => keep) (fun s _ => s) n tt x with
  | None => None | Some (l, _, x') => Some (l, x') end.
Proof.
  intros keys keep. induction n as [|n IH]; intros x; [reflexivity|].
  cbn [readWays readG]. rewrite <- nextWay_G. destruct (nextWay E keys keep (cur x) (rest x) noWay) as [w x'].
  cbn [after]. destruct (wId w =? 0); [reflexivity|]. rewrite IH.
  destruct (readG E way unit newWay (wayChild keys) noWay (fun w => wId w =? 0) (fun w => w) (fun _ => keep) (fun s _ => s) n tt x') as [[[l s] x'']|]; reflexivity.
Qed.
Lemma readRelList_G : forall keys kR dR n x,
  readRelList E keys kR dR n x =
  match readG E rel unit newRel (relChild keys) noRel (fun w => rId w =? 0) (flagged kR) (fun _ => keepRel kR dR) (fun s _ => s) n tt x with
  | None => None | Some (l, _, x') => Some (l, x') end.
Proof.
  intros keys kR dR. induction n as [|n IH]; intros x; [reflexivity|].
  cbn [readRelList readG]. rewrite <- nextRel_G. destruct (nextRel E keys kR dR (cur x) (rest x) noRel) as [w x'].
  cbn [after]. destruct (rId w =? 0); [reflexivity|]. rewrite IH.
  destruct (readG E rel unit newRel (relChild keys) noRel (fun w => rId w =? 0) (flagged kR) (fun _ => keepRel kR dR) (fun s _ => s) n tt x') as [[[l s] x'']|]; reflexivity.
Qed.
Definition growN (grow : bool) (known : list nat) (n : @node P) : list nat := if grow then nId n :: known else known.
Lemma readNds_G : forall keys grow keep n known x,
  readNds E keys grow keep n known x =
  readG E node (list nat) newNode (nodeChild keys) noNode (fun w => nId w =? 0) (fun w => w) keep (growN grow) n known x.
Proof.
  intros keys grow keep. induction n as [|n IH]; intros known x; [reflexivity|].
  cbn [readNds readG]. rewrite <- nextNode_G. destruct (nextNode E keys (keep known) (cur x) (rest x) noNode) as [w x'].
  cbn [after]. destruct (nId w =? 0); [reflexivity|]. rewrite IH. reflexivity.
Qed.

(* what a following token must be *)
Definition follows (new : tag -> bool) (tail : list tok) : Prop := match tail with [] => True | t :: _ => top t = true /\ new (tg t) = false end.

Lemma readWays_all : forall keys keep ws tail n c r, (forall w, wId w = 0 -> keep w = false) -> (forall w, length (wNodes w) < 2 -> keep w = false) ->
  Forall wayElem ws -> match tail with [] => True | t :: _ => top t = true /\ newWay (tg t) = None end ->
  c :: r = text ws ++ tail -> length ws < n ->
  exists l x, readWays E keys keep n (mkXml c r) = Some (l, x) /\
    (tail <> [] -> exists t tl, tail = t :: tl /\ x = mkXml t tl) /\
    (forall W vl, (forall e, In e ws -> keep (val way newWay (wayChild keys) noWay e) = true <-> W e) ->
       (forall e, In e ws -> W e -> val way newWay (wayChild keys) noWay e = vl e) -> Picked W vl ws l).
Proof.
  intros keys keep ws tail n c r Hz Hlen Hws Htail Heq Hn.
  destruct (readG_all E way unit newWay (wayChild keys) noWay (fun w => wId w =? 0) (fun w => w) (fun _ => keep) (fun s _ => s)) with (tail := tail) (es := ws) (n := n) (s := tt) (c := c) (r := r) as (x & Hx & Hxt).
  - intros _. apply Hz. reflexivity.
  - reflexivity.
  - intros _ a Ha. apply Nat.eqb_neq. intros H. rewrite Hz in Ha by exact H. discriminate.
  - intros a t Ht. unfold wayChild. rewrite Ht. cbn. rewrite andb_false_r. reflexivity.
  - reflexivity.
  - intros t (_ & Ht). unfold newWay. destruct (tg t); congruence || tauto.
  - exact Htail.
  - revert Hws. apply Forall_impl. intros e ((id & He) & Hb). split; [rewrite He; discriminate | exact Hb].
  - exact Heq.
  - exact Hn.
  - intros _ _ e He Hk Hb. rewrite Hlen in Hk; [discriminate|]. unfold val. rewrite Hb. cbn [fold_left]. unfold start, newWay.
    destruct (head e); cbn; lia.
  - exists (fst (selS way unit newWay (wayChild keys) noWay (fun w => w) (fun _ => keep) (fun s _ => s) tt ws)), x.
    split; [rewrite readWays_G, Hx; reflexivity|]. split.
    + intros Ht. destruct tail as [|t tl]; [congruence|]. exists t, tl. split; [reflexivity | exact Hxt].
    + intros W vl HW Hv. clear - HW Hv. induction ws as [|e ws IH]; [constructor|].
      cbn [selS]. destruct (keep (val way newWay (wayChild keys) noWay e)) eqn:He.
      * destruct (selS way unit newWay (wayChild keys) noWay (fun w => w) (fun _ => keep) (fun s _ => s) tt ws) as [l s] eqn:Hs. cbn [fst] in *.
        apply HW in He; [|left; reflexivity]. rewrite (Hv e (or_introl eq_refl) He). constructor; [exact He|].
        apply IH; intros e0 H0; [apply HW | apply Hv]; right; exact H0.
      * constructor; [rewrite <- HW; [congruence | left; reflexivity]|]. apply IH; intros e0 H0; [apply HW | apply Hv]; right; exact H0.
Qed.
Lemma readRelList_all : forall keys kR dR rs tail n c r,
  Forall relElem rs -> match tail with [] => True | t :: _ => top t = true /\ newRel (tg t) = None end ->
  c :: r = text rs ++ tail -> length rs < n ->
  exists l x, readRelList E keys kR dR n (mkXml c r) = Some (l, x) /\
    (forall W vl, (forall e, In e rs -> keepRel kR dR (val rel newRel (relChild keys) noRel e) = true <-> W e) ->
       (forall e, In e rs -> W e -> flagged kR (val rel newRel (relChild keys) noRel e) = vl e) -> Picked W vl rs l).
Proof.
  intros keys kR dR rs tail n c r Hws Htail Heq Hn.
  destruct (readG_all E rel unit newRel (relChild keys) noRel (fun w => rId w =? 0) (flagged kR) (fun _ => keepRel kR dR) (fun s _ => s)) with (tail := tail) (es := rs) (n := n) (s := tt) (c := c) (r := r) as (x & Hx & Hxt).
  - intros _. reflexivity.
  - reflexivity.
  - intros _ a Ha. unfold keepRel in Ha. apply andb_prop in Ha. destruct Ha as (Ha & _). apply andb_prop in Ha. destruct Ha as (Ha & _). apply andb_prop in Ha. destruct Ha as (Ha & _).
    cbn [flagged rId]. destruct (rId a =? 0); [discriminate | reflexivity].
  - intros a t Ht. unfold relChild. rewrite Ht. reflexivity.
  - intros t. unfold relChild. cbn [noRel rId]. rewrite andb_false_r. reflexivity.
  - intros t (_ & Ht). unfold newRel. destruct (tg t); congruence || tauto.
  - exact Htail.
  - revert Hws. apply Forall_impl. intros e ((id & He) & Hb). split; [rewrite He; discriminate | exact Hb].
  - exact Heq.
  - exact Hn.
  - intros _ _ e He Hk Hb. unfold val in Hk. rewrite Hb in Hk. cbn [fold_left] in Hk. unfold start, newRel in Hk.
    destruct (head e); unfold keepRel in Hk; cbn in Hk; try discriminate. rewrite andb_false_r in Hk. discriminate.
  - exists (fst (selS rel unit newRel (relChild keys) noRel (flagged kR) (fun _ => keepRel kR dR) (fun s _ => s) tt rs)), x.
    split; [rewrite readRelList_G, Hx; reflexivity|].
    intros W vl HW Hv. clear - HW Hv. induction rs as [|e ws IH]; [constructor|].
    cbn [selS]. destruct (keepRel kR dR (val rel newRel (relChild keys) noRel e)) eqn:He.
    + destruct (selS rel unit newRel (relChild keys) noRel (flagged kR) (fun _ => keepRel kR dR) (fun s _ => s) tt ws) as [l s] eqn:Hs. cbn [fst] in *.
      apply HW in He; [|left; reflexivity]. rewrite (Hv e (or_introl eq_refl) He). constructor; [exact He|].
      apply IH; intros e0 H0; [apply HW | apply Hv]; right; exact H0.
    + constructor; [rewrite <- HW; [congruence | left; reflexivity]|]. apply IH; intros e0 H0; [apply HW | apply Hv]; right; exact H0.
Qed.
Lemma readNds_all : forall keys grow keep ns tail n known c r,
  (forall s w, nId w = 0 -> keep s w = false) -> tail <> [] ->
  Forall nodeElem ns -> match tail with [] => True | t :: _ => top t = true /\ newNode (tg t) = None end ->
  c :: r = text ns ++ tail -> length ns < n ->
  exists x, readNds E keys grow keep n known (mkXml c r) =
     Some (selS node (list nat) newNode (nodeChild keys) noNode (fun w => w) keep (growN grow) known ns, x) /\
     exists t tl, tail = t :: tl /\ x = mkXml t tl.
Proof.
  intros keys grow keep ns tail n known c r Hz Hne Hws Htail Heq Hn.
  destruct (readG_all E node (list nat) newNode (nodeChild keys) noNode (fun w => nId w =? 0) (fun w => w) keep (growN grow)) with (tail := tail) (es := ns) (n := n) (s := known) (c := c) (r := r) as (x & Hx & Hxt).
  - intros s. apply Hz. reflexivity.
  - reflexivity.
  - intros s a Ha. apply Nat.eqb_neq. intros H. rewrite Hz in Ha by exact H. discriminate.
  - intros a t Ht. unfold nodeChild. rewrite Ht. cbn. rewrite andb_false_r. reflexivity.
  - reflexivity.
  - intros t (_ & Ht). unfold newNode. destruct (tg t); congruence || tauto.
  - exact Htail.
  - revert Hws. apply Forall_impl. intros e ((id & p & He) & Hb). split; [rewrite He; discriminate | exact Hb].
  - exact Heq.
  - exact Hn.
  - intros Ht. congruence.
  - exists x. split; [rewrite readNds_G, Hx; destruct (selS _ _ _ _ _ _ _ _ _ _); reflexivity|].
    destruct tail as [|t tl]; [congruence|]. exists t, tl. split; [reflexivity | exact Hxt].
Qed.
End Three.

(** ** Looking for a tag; the nodes in the box *)
Section Passes.
Context {P : Type}.
Notation elem := (@elem P).
Notation tok := (@tok P).
Notation tag := (@tag P).
Variable E : nat.

Lemma skip_found : forall isS (pre : list tok) c0 t tl, (forall x, In x pre -> isS (tg x) = false) -> isS (tg t) = true ->
  skipUntil E isS c0 (pre ++ t :: tl) = mkXml t tl.
Proof.
  intros isS. induction pre as [|x pre IH]; intros c0 t tl Hp Ht; cbn [app skipUntil].
  - rewrite Ht. reflexivity.
  - rewrite (Hp x (or_introl eq_refl)). apply IH; [|exact Ht]. intros y Hy. apply Hp. right. exact Hy.
Qed.
Lemma skip_none : forall isS (pre : list tok) c0, (forall x, In x pre -> isS (tg x) = false) ->
  exists c, skipUntil E isS c0 pre = atEof E c /\ (c = c0 \/ In c pre).
Proof.
  intros isS. induction pre as [|x pre IH]; intros c0 Hp; cbn [skipUntil].
  - exists c0. split; [reflexivity | left; reflexivity].
  - rewrite (Hp x (or_introl eq_refl)). destruct (IH x) as (c & Hc & Hi); [intros y Hy; apply Hp; right; exact Hy|].
    exists c. split; [exact Hc|]. right. cbn [In]. destruct Hi as [-> | Hi]; [left; reflexivity | right; exact Hi].
Qed.

Variable inBox : P -> bool.
Variable nohup : string -> string -> bool.
Notation RB := (readBBoxNds E inBox nohup).

Lemma bb_body : forall b s id t tl, Forall inner b -> exists s',
  match b with c :: r => RB c (r ++ t :: tl) true id s | [] => RB t tl true id s end = RB t tl true id s' /\ bIn s' = bIn s /\ bOut s' = bOut s /\
  forall i, In i (bNohup s') <-> In i (bNohup s) \/ (i = id /\ id <> 0 /\ exists k v, In (TTag k v) (map tg (filter (fun t => lvl t =? 3) b)) /\ nohup k v = true).
Proof.
  induction b as [|c b IH]; intros s id t tl Hb.
  - exists s. split; [reflexivity|]. split; [reflexivity|]. split; [reflexivity|]. intros i. split; [tauto|]. intros [H | (_ & _ & k & v & [] & _)]. exact H.
  - inversion Hb as [|? ? Hc Hb']; subst. destruct Hc as (Hl & _).
    assert (Hl2 : (lvl c =? 2) = false) by (apply Nat.eqb_neq; lia).
    set (s1 := match tg c with
           | TTag k v => if true && (lvl c =? 3) && negb (id =? 0) && nohup k v then mkBB (bIn s) (bOut s) (bNohup s ++ [id]) else s
           | _ => s end).
    destruct (IH s1 id t tl Hb') as (s' & Hr & Hi & Ho & Hh). exists s'.
    assert (H1 : bIn s1 = bIn s /\ bOut s1 = bOut s).
    { unfold s1. destruct (tg c); try (split; reflexivity). destruct (true && (lvl c =? 3) && negb (id =? 0) && nohup k v); split; reflexivity. }
    split; [|split; [rewrite Hi; apply H1 | split; [rewrite Ho; apply H1|]]].
    + rewrite <- Hr. destruct b as [|c' b']; cbn [app readBBoxNds]; rewrite Hl2; reflexivity.
    + intros i. rewrite Hh. cbn [filter]. unfold s1. clear.
      destruct (lvl c =? 3); cbn [map In andb].
      * destruct (tg c) eqn:Ht; try (split; [intros [H | (H1 & H2 & k & v & H3 & H4)]; [tauto | right; split; [exact H1|]; split; [exact H2|]; exists k, v; tauto]
          | intros [H | (H1 & H2 & k & v & [H3 | H3] & H4)]; [tauto | discriminate H3 | right; split; [exact H1|]; split; [exact H2|]; exists k, v; tauto]]; fail).
        destruct (id =? 0) eqn:Hid; cbn [negb andb].
        { apply Nat.eqb_eq in Hid. split; intros [H | (H1 & H2 & _)]; try tauto. }
        apply Nat.eqb_neq in Hid. destruct (nohup k v) eqn:Hn; cbn [bNohup].
        { rewrite in_app_iff. cbn [In]. split.
          - intros [[H | [H | []]] | (H1 & H2 & k0 & v0 & H3 & H4)]; [tauto | right; split; [congruence|]; split; [exact Hid|]; exists k, v; split; [left; reflexivity | exact Hn]
              | right; split; [exact H1|]; split; [exact H2|]; exists k0, v0; tauto].
          - intros [H | (H1 & H2 & _)]; [tauto | left; right; left; congruence]. }
        split.
        { intros [H | (H1 & H2 & k0 & v0 & H3 & H4)]; [tauto | right; split; [exact H1|]; split; [exact H2|]; exists k0, v0; tauto]. }
        { intros [H | (H1 & H2 & k0 & v0 & [H3 | H3] & H4)]; [tauto | congruence | right; split; [exact H1|]; split; [exact H2|]; exists k0, v0; tauto]. }
      * destruct (tg c); tauto.
Qed.

Lemma bb_all : forall ns s blk id c r t tl, Forall nodeElem ns -> lvl t = 2 -> isNode (tg t) = false -> (ns = [] -> blk = true) ->
  c :: r = text ns ++ t :: tl -> exists s', RB c r blk id s = (s', mkXml t tl) /\
  (forall i, In i (bIn s') <-> In i (bIn s) \/ exists e p, In e ns /\ head e = TNode i p /\ inBox p = true) /\
  (forall i, In i (bOut s') <-> In i (bOut s) \/ exists e p, In e ns /\ head e = TNode i p /\ inBox p = false) /\
  (forall i, In i (bNohup s') <-> In i (bNohup s) \/ (i <> 0 /\ exists e, In e ns /\ idOf e = i /\ exists k v, In (TTag k v) (children e) /\ nohup k v = true)).
Proof.
  induction ns as [|e ns IH]; intros s blk id c r t tl Hns Ht Hn Hblk Heq.
  - cbn in Heq. injection Heq as -> ->. rewrite (Hblk eq_refl). exists s.
    split; [|repeat split; intros H; try tauto; destruct H as [H | H]; try exact H; destruct H as (? & ? & [] & _) || destruct H as (_ & ? & [] & _)].
    destruct tl; cbn [readBBoxNds]; rewrite Ht; change (2 =? 2) with true; change (2 =? 3) with false; cbn [negb andb];
      destruct (tg t); try discriminate Hn; reflexivity.
  - inversion Hns as [|? ? (Hh & Hb) Hns']; subst. destruct Hh as (i0 & p & Hh).
    rewrite text_cons in Heq. injection Heq as -> ->.
    set (s1 := if inBox p then mkBB (bIn s ++ [i0]) (bOut s) (bNohup s) else mkBB (bIn s) (bOut s ++ [i0]) (bNohup s)).
    destruct (text ns ++ t :: tl) as [|t1 tl1] eqn:Hrest; [destruct (text ns); discriminate|].
    destruct (bb_body (body e) s1 i0 t1 tl1 Hb) as (s2 & Hr & Hi & Ho & Hhup).
    assert (Hstep : RB (mkTok 2 (head e)) (body e ++ t1 :: tl1) blk id s = RB t1 tl1 true i0 s2).
    { rewrite <- Hr. destruct (body e) as [|b0 b]; cbn [app readBBoxNds lvl tg]; change (2 =? 2) with true; rewrite Hh; reflexivity. }
    rewrite Hstep.
    destruct (IH s2 true i0 t1 tl1 t tl Hns' Ht Hn (fun _ => eq_refl) (eq_sym Hrest)) as (s' & Hs & Hs1 & Hs2 & Hs3).
    exists s'. split; [exact Hs|].
    assert (Hid : idOf e = i0) by (unfold idOf; rewrite Hh; reflexivity).
    split; [|split].
    + intros i. rewrite Hs1, Hi. unfold s1. split.
      * intros [H | (e' & p' & H1 & H2 & H3)]; [|right; exists e', p'; cbn [In]; tauto].
        destruct (inBox p) eqn:Hp; cbn [bIn] in H; [|tauto]. apply in_app_or in H. destruct H as [H | [<- | []]]; [tauto|].
        right. exists e, p. cbn [In]. tauto.
      * intros [H | (e' & p' & [<- | H1] & H2 & H3)].
        -- left. destruct (inBox p); cbn [bIn]; [apply in_or_app; left|]; exact H.
        -- rewrite Hh in H2. injection H2 as <- <-. rewrite H3. left. cbn [bIn]. apply in_or_app. right. left. reflexivity.
        -- right. exists e', p'. tauto.
    + intros i. rewrite Hs2, Ho. unfold s1. split.
      * intros [H | (e' & p' & H1 & H2 & H3)]; [|right; exists e', p'; cbn [In]; tauto].
        destruct (inBox p) eqn:Hp; cbn [bOut] in H; [tauto|]. apply in_app_or in H. destruct H as [H | [<- | []]]; [tauto|].
        right. exists e, p. cbn [In]. tauto.
      * intros [H | (e' & p' & [<- | H1] & H2 & H3)].
        -- left. destruct (inBox p); cbn [bOut]; [|apply in_or_app; left]; exact H.
        -- rewrite Hh in H2. injection H2 as <- <-. rewrite H3. left. cbn [bOut]. apply in_or_app. right. left. reflexivity.
        -- right. exists e', p'. tauto.
    + intros i. rewrite Hs3, Hhup.
      assert (Hs1n : bNohup s1 = bNohup s) by (unfold s1; destruct (inBox p); reflexivity). rewrite Hs1n.
      split.
      * intros [[H | (-> & H2 & H3)] | (H1 & e' & H2 & H3)]; [tauto | right | right; split; [exact H1|]; exists e'; cbn [In]; tauto].
        split; [exact H2|]. exists e. split; [left; reflexivity|]. split; [exact Hid | exact H3].
      * intros [H | (H1 & e' & [<- | H2] & H3 & H4)]; [tauto | left; right | right; split; [exact H1|]; exists e'; tauto].
        rewrite Hid in H3. subst i. split; [reflexivity|]. split; [exact H1 | exact H4].
Qed.
End Passes.

(** ** The relations *)
Lemma land2 : forall x : N, (N.land x 2 =? 0)%N = negb (N.testbit x 1).
Proof.
  intros x. destruct (N.testbit x 1) eqn:H; cbn [negb].
  - apply N.eqb_neq. intros H0. assert (H1 : N.testbit (N.land x 2) 1 = false) by (rewrite H0; reflexivity).
    rewrite N.land_spec, H in H1. discriminate.
  - apply N.eqb_eq. apply N.bits_inj. intros n. rewrite N.land_spec, N.bits_0.
    destruct (N.eq_dec n 1) as [-> | Hn]; [rewrite H; reflexivity|].
    replace (N.testbit 2 n) with false; [apply andb_false_r|]. symmetry. change 2%N with (2 ^ 1)%N. rewrite N.pow2_bits_eqb. apply N.eqb_neq. congruence.
Qed.

Section Relations.
Variable posR negR : list (string * string) -> bool.
Notation addR := (addRel posR negR).

Lemma addRels_inv : forall rl s, let s' := fold_left addR rl s in
  relAttrs s' = relAttrs s ++ map rAttrs rl /\ rests s' = rests s ++ flat_map (readRestr posR negR) rl /\
  (forall i, In i (flat s') <-> In i (flat s) \/ exists k r, nth_error rl k = Some r /\ i = length (relAttrs s) + k /\ N.testbit (rKeep r) 1 = true) /\
  (forall id i, In (id, i) (nodeRels s') <-> In (id, i) (nodeRels s) \/ exists k r, nth_error rl k = Some r /\ i = length (relAttrs s) + k /\ In id (map fst (rNodes r))) /\
  (forall id i, In (id, i) (wayRels s') <-> In (id, i) (wayRels s) \/ exists k r, nth_error rl k = Some r /\ i = length (relAttrs s) + k /\ In id (map fst (rWays r))).
Proof.
  induction rl as [|r rl IH]; intros s; cbn [fold_left].
  - rewrite !app_nil_r. repeat split; intros H; try tauto; destruct H as [H | (k & r & H & _)]; try exact H; destruct k; discriminate.
  - destruct (IH (addR s r)) as (H1 & H2 & H3 & H4 & H5).
    assert (Hlen : length (relAttrs (addR s r)) = Datatypes.S (length (relAttrs s))) by (cbn [addRel relAttrs]; rewrite app_length; cbn; lia).
    rewrite Hlen in H3, H4, H5.
    assert (Hshift : forall (Q : rel -> Prop) i, (Q r /\ i = length (relAttrs s)) \/ (exists k r0, nth_error rl k = Some r0 /\ i = Datatypes.S (length (relAttrs s)) + k /\ Q r0) <->
             exists k r0, nth_error (r :: rl) k = Some r0 /\ i = length (relAttrs s) + k /\ Q r0).
    { intros Q i. split.
      - intros [(Hq & ->) | (k & r0 & Hk & -> & Hq)]; [exists 0, r; cbn; repeat split; [lia | exact Hq] | exists (Datatypes.S k), r0; cbn; repeat split; [exact Hk | lia | exact Hq]].
      - intros (k & r0 & Hk & -> & Hq). destruct k as [|k]; cbn in Hk; [injection Hk as <-; left; split; [exact Hq | lia]|].
        right. exists k, r0. repeat split; [exact Hk | lia | exact Hq]. }
    split; [rewrite H1; cbn [addRel relAttrs map]; rewrite <- app_assoc; reflexivity|].
    split; [rewrite H2; cbn [addRel rests flat_map]; rewrite <- app_assoc; reflexivity|].
    split; [|split].
    + intros i. rewrite H3, <- (Hshift (fun r => N.testbit (rKeep r) 1 = true)). cbn [addRel flat]. rewrite land2.
      destruct (N.testbit (rKeep r) 1); cbn [negb]; [rewrite in_app_iff; cbn [In] | ]; intuition congruence.
    + intros id i. rewrite H4, <- (Hshift (fun r => In id (map fst (rNodes r)))). cbn [addRel nodeRels]. rewrite in_app_iff.
      assert (Hm : In (id, i) (map (fun m : nat * string => (fst m, length (relAttrs s))) (rNodes r)) <-> In id (map fst (rNodes r)) /\ i = length (relAttrs s)).
      { rewrite !in_map_iff. split; [intros (m & Hm & Hi); injection Hm as <- <-; split; [exists m; tauto | reflexivity] | intros ((m & <- & Hi) & ->); exists m; tauto]. }
      rewrite Hm. tauto.
    + intros id i. rewrite H5, <- (Hshift (fun r => In id (map fst (rWays r)))). cbn [addRel wayRels]. rewrite in_app_iff.
      assert (Hm : In (id, i) (map (fun m : nat * string => (fst m, length (relAttrs s))) (rWays r)) <-> In id (map fst (rWays r)) /\ i = length (relAttrs s)).
      { rewrite !in_map_iff. split; [intros (m & Hm & Hi); injection Hm as <- <-; split; [exists m; tauto | reflexivity] | intros ((m & <- & Hi) & ->); exists m; tauto]. }
      rewrite Hm. tauto.
Qed.

Lemma relsOf_In : forall m id i, In i (relsOf m id) <-> In (id, i) m.
Proof.
  intros m id i. unfold relsOf. rewrite in_map_iff. split.
  - intros ([a b] & <- & H). apply filter_In in H. destruct H as (H & Ha). cbn [fst snd] in *. apply Nat.eqb_eq in Ha. congruence.
  - intros H. exists (id, i). split; [reflexivity|]. apply filter_In. split; [exact H | apply Nat.eqb_refl].
Qed.
Definition relsFrom (rl : list rel) : rels := fold_left addR rl (mkRels [] [] [] [] []).
Lemma relKeep_ways : forall rl id, relKeep id (wayRels (relsFrom rl)) (flat (relsFrom rl)) = true <->
  exists r, In r rl /\ N.testbit (rKeep r) 1 = false /\ In id (map fst (rWays r)).
Proof.
  intros rl id. destruct (addRels_inv rl (mkRels [] [] [] [] [])) as (_ & _ & Hf & _ & Hw). cbn [relAttrs length flat nodeRels wayRels plus In] in *.
  unfold relKeep. rewrite existsb_exists. split.
  - intros (i & Hi & Hn). apply relsOf_In in Hi. apply Hw in Hi. destruct Hi as [[] | (k & r & Hk & -> & Hr)].
    exists r. split; [apply nth_error_In in Hk; exact Hk|]. split; [|exact Hr].
    destruct (N.testbit (rKeep r) 1) eqn:Ht; [|reflexivity]. exfalso.
    apply negb_true_iff in Hn. apply mem_notIn in Hn. apply Hn. apply Hf. right. exists k, r. tauto.
  - intros (r & Hr & Ht & Hid). apply In_nth_error in Hr. destruct Hr as (k & Hk). exists k.
    split; [apply relsOf_In; apply Hw; right; exists k, r; tauto|].
    apply negb_true_iff. apply mem_notIn. intros H. apply Hf in H. destruct H as [[] | (k' & r' & Hk' & -> & Ht')]. congruence.
Qed.
Lemma relKeep_nodes : forall rl id, relKeep id (nodeRels (relsFrom rl)) (flat (relsFrom rl)) = true <->
  exists r, In r rl /\ N.testbit (rKeep r) 1 = false /\ In id (map fst (rNodes r)).
Proof.
  intros rl id. destruct (addRels_inv rl (mkRels [] [] [] [] [])) as (_ & _ & Hf & Hw & _). cbn [relAttrs length flat nodeRels wayRels plus In] in *.
  unfold relKeep. rewrite existsb_exists. split.
  - intros (i & Hi & Hn). apply relsOf_In in Hi. apply Hw in Hi. destruct Hi as [[] | (k & r & Hk & -> & Hr)].
    exists r. split; [apply nth_error_In in Hk; exact Hk|]. split; [|exact Hr].
    destruct (N.testbit (rKeep r) 1) eqn:Ht; [|reflexivity]. exfalso.
    apply negb_true_iff in Hn. apply mem_notIn in Hn. apply Hn. apply Hf. right. exists k, r. tauto.
  - intros (r & Hr & Ht & Hid). apply In_nth_error in Hr. destruct Hr as (k & Hk). exists k.
    split; [apply relsOf_In; apply Hw; right; exists k, r; tauto|].
    apply negb_true_iff. apply mem_notIn. intros H. apply Hf in H. destruct H as [[] | (k' & r' & Hk' & -> & Ht')]. congruence.
Qed.
End Relations.

Lemma Picked_In : forall A B (W : B -> Prop) (vl : B -> A) es l, Picked W vl es l -> forall a, In a l <-> exists e, In e es /\ W e /\ vl e = a.
Proof.
  intros A B W vl es l H. induction H as [|e es l HW H IH | e es l HW H IH]; intros a.
  - split; [intros [] | intros (e & [] & _)].
  - cbn [In]. rewrite IH. split.
    + intros [<- | (e' & H1 & H2)]; [exists e; tauto | exists e'; tauto].
    + intros (e' & [<- | H1] & H2 & H3); [left; exact H3 | right; exists e'; tauto].
  - rewrite IH. cbn [In]. split; [intros (e' & H1); exists e'; tauto | intros (e' & [<- | H1] & H2 & H3); [tauto | exists e'; tauto]].
Qed.
Lemma Picked_fun : forall A B (W : B -> Prop) (vl : B -> A) es l l', Picked W vl es l -> Picked W vl es l' -> l = l'.
Proof.
  intros A B W vl es l l' H. revert l'. induction H as [|e es l HW H IH | e es l HW H IH]; intros l' H'; inversion H'; subst; try tauto.
  f_equal. apply IH. assumption. apply IH. assumption.
Qed.
Lemma Picked_ext : forall A B (W W' : B -> Prop) (vl vl' : B -> A) es l, (forall e, W e <-> W' e) -> (forall e, vl e = vl' e) -> Picked W vl es l -> Picked W' vl' es l.
Proof.
  intros A B W W' vl vl' es l HW Hv H. induction H as [|e es l H1 H IH | e es l H1 H IH].
  - apply P_nil.
  - rewrite Hv. apply P_take; [apply HW; exact H1 | exact IH].
  - apply P_skip; [rewrite <- HW; exact H1 | exact IH].
Qed.

(** ** The passes *)
Section File.
Context {P : Type}.
Notation elem := (@elem P).
Notation tok := (@tok P).
Notation tag := (@tag P).
Variable E : nat.
Variable c : @cfg P.
Variable ns ws rs : list elem.
Hypothesis Hns : Forall nodeElem ns.
Hypothesis Hws : Forall wayElem ws.
Hypothesis Hrs : Forall relElem rs.

Definition bbOk (b : bb) : Prop :=
  (forall i, In i (bIn b) <-> exists e p, In e ns /\ head e = TNode i p /\ inBox c p = true) /\
  (forall i, In i (bOut b) <-> exists e p, In e ns /\ head e = TNode i p /\ inBox c p = false) /\
  (forall i, In i (bNohup b) <-> (i <> 0 /\ exists e, In e ns /\ idOf e = i /\ exists k v, In (TTag k v) (children e) /\ nohupF c k v = true)).

Lemma hasBox_ok : forall b, bbOk b -> forall id, hasBox c b id = true <-> InBox c ns id.
Proof.
  intros b (H1 & H2 & _) id. unfold hasBox, idHas, InBox. destruct (mem id (bIn b)) eqn:Hi.
  - apply mem_In in Hi. apply H1 in Hi. tauto.
  - apply mem_notIn in Hi. rewrite H1 in Hi. destruct (mem id (bOut b)) eqn:Ho.
    + apply mem_In in Ho. apply H2 in Ho. destruct Ho as (e & p & He & Hh & _). split; [discriminate|].
      intros [H | (H & _)]; [tauto|]. exfalso. apply (H e He). unfold idOf. rewrite Hh. reflexivity.
    + apply mem_notIn in Ho. rewrite H2 in Ho. split; [|tauto]. intros H. right. split; [|exact H].
      intros e He Hid. rewrite Forall_forall in Hns. destruct (Hns e He) as ((i & p & Hh) & _).
      assert (i = id) by (unfold idOf in Hid; rewrite Hh in Hid; exact Hid). subst i.
      destruct (inBox c p) eqn:Hp; [apply Hi | apply Ho]; exists e, p; tauto.
Qed.
Lemma hasHup_ok : forall b, bbOk b -> forall id, hasHup c b id = true <-> NoHup c ns id.
Proof.
  intros b (_ & _ & H3) id. unfold hasHup, idHas, NoHup, hupNode. destruct (mem id (bNohup b)) eqn:Hi.
  - apply mem_In in Hi. apply H3 in Hi. tauto.
  - apply mem_notIn in Hi. rewrite H3 in Hi. cbn [mem existsb]. tauto.
Qed.

Lemma keepRel_ok : forall e, In e rs -> keepRel (keepR c) (dropR c) (val rel newRel (relChild (keysR c)) noRel e) = true <-> RelWanted c e.
Proof.
  intros e He. rewrite Forall_forall in Hrs. destruct (Hrs e He) as ((id & Hh) & _).
  unfold val, start, RelWanted, idOf. rewrite Hh. cbn [newRel].
  destruct (Nat.eq_dec id 0) as [-> | Hid].
  - rewrite rel_zero. cbn. split; [discriminate | tauto].
  - rewrite (rel_content (keysR c) (head e) id (body e) Hid). destruct e as [h b]. cbn [head body] in *.
    unfold keepRel. cbn [rId rAttrs]. rewrite !andb_true_iff, !negb_true_iff, Nat.eqb_neq, N.eqb_neq, N.eqb_eq, Nat.eqb_neq, length_zero_iff_nil. tauto.
Qed.
Lemma relVal_ok : forall e, In e rs -> RelWanted c e -> flagged (keepR c) (val rel newRel (relChild (keysR c)) noRel e) = relVal c e.
Proof.
  intros e He (Hid & _). rewrite Forall_forall in Hrs. destruct (Hrs e He) as ((id & Hh) & _).
  unfold val, start, relVal, idOf in *. rewrite Hh in *. cbn [newRel].
  rewrite (rel_content (keysR c) (head e) id (body e) Hid). destruct e as [h b]. reflexivity.
Qed.

Section Kept.
Variable b : bb.
Variable rl : list rel.
Hypothesis Hb : bbOk b.
Hypothesis Hrl : Picked (RelWanted c) (relVal c) rs rl.
Notation R := (relsFrom (posR c) (negR c) rl).

Lemma down_ways : forall id, relKeep id (wayRels R) (flat R) = true <-> exists r, In r rs /\ Downward c r /\ In id (map fst (wayMembers r)).
Proof.
  intros id. rewrite relKeep_ways. split.
  - intros (r & Hr & Ht & Hi). apply (Picked_In _ _ _ _ _ _ Hrl) in Hr. destruct Hr as (e & He & HW & <-). exists e. split; [exact He|]. split; [split; [exact HW | exact Ht] | exact Hi].
  - intros (e & He & (HW & Ht) & Hi). exists (relVal c e). split; [apply (Picked_In _ _ _ _ _ _ Hrl); exists e; tauto|]. split; [exact Ht | exact Hi].
Qed.
Lemma down_nodes : forall id, relKeep id (nodeRels R) (flat R) = true <-> exists r, In r rs /\ Downward c r /\ In id (map fst (nodeMembers r)).
Proof.
  intros id. rewrite relKeep_nodes. split.
  - intros (r & Hr & Ht & Hi). apply (Picked_In _ _ _ _ _ _ Hrl) in Hr. destruct Hr as (e & He & HW & <-). exists e. split; [exact He|]. split; [split; [exact HW | exact Ht] | exact Hi].
  - intros (e & He & (HW & Ht) & Hi). exists (relVal c e). split; [apply (Picked_In _ _ _ _ _ _ Hrl); exists e; tauto|]. split; [exact Ht | exact Hi].
Qed.
Lemma keepWay_ok : forall e, In e ws -> keepWayOf c b R (val way newWay (wayChild (keysW c)) noWay e) = true <-> WayWanted c ns rs e.
Proof.
  intros e He. rewrite Forall_forall in Hws. destruct (Hws e He) as ((id & Hh) & _).
  unfold val, start, WayWanted, idOf, keepWayOf, keepWay. rewrite Hh. cbn [newWay].
  destruct (Nat.eq_dec id 0) as [-> | Hid].
  - rewrite way_zero. cbn. split; [discriminate | tauto].
  - rewrite (way_content (keysW c) (head e) id (body e) Hid). destruct e as [h bd]. cbn [head body] in *. cbn [wId wNodes wAttrs].
    rewrite <- down_ways.
    assert (Hex : existsb (hasBox c b) (refs (mkElem h bd)) = true <-> exists id0, In id0 (refs (mkElem h bd)) /\ InBox c ns id0).
    { rewrite existsb_exists. split; intros (i & H1 & H2); exists i; (split; [exact H1|]); apply (hasBox_ok b Hb); exact H2. }
    match goal with |- (if ?x then _ else _) = true <-> _ => destruct x eqn:Hx end.
    + rewrite Hex. rewrite !andb_true_iff, !negb_true_iff, orb_true_iff, Nat.eqb_neq, Nat.ltb_lt in Hx. split; [|tauto]. intros H.
      split; [exact Hid|]. split; [lia|]. tauto.
    + split; [discriminate|]. intros (H1 & H2 & H3 & H4 & H5). exfalso. apply not_true_iff_false in Hx. apply Hx.
      rewrite !andb_true_iff, !negb_true_iff, orb_true_iff, Nat.eqb_neq, Nat.ltb_lt. split; [split; [split; [exact H1 | lia] | exact H3] | exact H4].
Qed.
Lemma wayVal_ok : forall e, In e ws -> WayWanted c ns rs e -> val way newWay (wayChild (keysW c)) noWay e = wayVal c e.
Proof.
  intros e He (Hid & _). rewrite Forall_forall in Hws. destruct (Hws e He) as ((id & Hh) & _).
  unfold val, start, wayVal, idOf in *. rewrite Hh in *. cbn [newWay].
  rewrite (way_content (keysW c) (head e) id (body e) Hid). destruct e as [h bd]. reflexivity.
Qed.
Lemma keepNode_ok : forall mult known e, In e ns ->
  keepNodeOf c b R mult known (val node newNode (nodeChild (keysN c)) noNode e) = true <->
  NodeWanted c ns rs (fun id => In id known) (fun id => mult id = true) e.
Proof.
  intros mult known e He. destruct (proj1 (Forall_forall _ _) Hns e He) as ((id & p & Hh) & _).
  unfold val, start, NodeWanted, keepNodeOf, keepNode, idOf. rewrite Hh. cbn [newNode].
  destruct (Nat.eq_dec id 0) as [-> | Hid].
  - rewrite node_zero. cbn. split; [discriminate | tauto].
  - rewrite (node_content (keysN c) (head e) id (Some p) (body e) Hid). destruct e as [h bd]. cbn [head body] in *. cbn [nId nAttrs].
    rewrite !andb_true_iff, !orb_true_iff, !negb_true_iff, mem_In, Nat.eqb_neq, down_nodes, (hasBox_ok b Hb). tauto.
Qed.
Lemma nodeVal_ok : forall e, In e ns -> idOf e <> 0 -> val node newNode (nodeChild (keysN c)) noNode e = nodeVal c e.
Proof.
  intros e He Hid. rewrite Forall_forall in Hns. destruct (Hns e He) as ((id & p & Hh) & _).
  unfold val, start, nodeVal, idOf, posOf in *. rewrite Hh in *. cbn [newNode].
  rewrite (node_content (keysN c) (head e) id (Some p) (body e) Hid). destruct e as [h bd]. reflexivity.
Qed.

Lemma nodes_plain : forall mult known, exists nl,
  selS node (list nat) newNode (nodeChild (keysN c)) noNode (fun w => w) (keepNodeOf c b R mult) (growN false) known ns = (nl, known) /\
  Picked (NodeWanted c ns rs (fun id => In id known) (fun id => mult id = true)) (nodeVal c) ns nl.
Proof.
  intros mult known. assert (H : forall es, incl es ns -> exists nl,
    selS node (list nat) newNode (nodeChild (keysN c)) noNode (fun w => w) (keepNodeOf c b R mult) (growN false) known es = (nl, known) /\
    Picked (NodeWanted c ns rs (fun id => In id known) (fun id => mult id = true)) (nodeVal c) es nl).
  { induction es as [|e es IH]; intros Hin; [exists []; split; [reflexivity | constructor]|].
    destruct (IH (fun x Hx => Hin x (or_intror Hx))) as (nl & Hs & Hp). cbn [selS].
    assert (He : In e ns) by (apply Hin; left; reflexivity).
    destruct (keepNodeOf c b R mult known (val node newNode (nodeChild (keysN c)) noNode e)) eqn:Hk.
    - cbn [growN]. rewrite Hs. apply (keepNode_ok mult known e He) in Hk. rewrite (nodeVal_ok e He (proj1 Hk)).
      exists (nodeVal c e :: nl). split; [reflexivity | constructor; assumption].
    - exists nl. split; [exact Hs|]. constructor; [rewrite <- (keepNode_ok mult known e He); congruence | exact Hp]. }
  apply (H ns). apply incl_refl.
Qed.
End Kept.

Lemma text_way_first : ws <> [] -> exists t tl, text ws = t :: tl /\ lvl t = 2 /\ (exists id, tg t = TWay id) /\ (forall x, In x (t :: tl) -> isRel (tg x) = false).
Proof.
  intros Hne. destruct ws as [|e es]; [congruence|]. unfold text. cbn [flat_map tokens app].
  exists (mkTok 2 (head e)), (body e ++ flat_map tokens es). split; [reflexivity|]. split; [reflexivity|].
  inversion Hws as [|? ? ((id & Hh) & Hbd) Hes]; subst. split; [exists id; exact Hh|].
  assert (Hi : forall x : tok, inner x -> isRel (tg x) = false). { intros x (_ & H). destruct (tg x); try reflexivity. destruct H. }
  intros x [<- | Hx]; [cbn [tg]; rewrite Hh; reflexivity|].
  apply in_app_or in Hx. rewrite Forall_forall in Hbd. destruct Hx as [Hx | Hx]; [apply Hi, Hbd, Hx|].
  apply in_flat_map in Hx. destruct Hx as (e' & He' & Hx). rewrite Forall_forall in Hes. destruct (Hes e' He') as ((id' & Hh') & Hb').
  unfold tokens in Hx. destruct Hx as [<- | Hx]; [cbn [tg]; rewrite Hh'; reflexivity|]. rewrite Forall_forall in Hb'. apply Hi, Hb', Hx.
Qed.

Lemma read_rels : forall n (x : xml), length rs < n ->
  match text rs with [] => rest x = [] | t :: tl => x = mkXml t tl end ->
  exists rl x', readRelList E (keysR c) (keepR c) (dropR c) n x = Some (rl, x') /\ Picked (RelWanted c) (relVal c) rs rl.
Proof.
  intros n x Hn Hx. destruct (text rs) as [|t tl] eqn:Ht.
  - assert (H0 : rs = []) by (destruct rs as [|e es]; [reflexivity | discriminate]). rewrite H0 in *.
    destruct n as [|n]; [lia|]. destruct x as [cu re]. cbn [rest cur] in Hx. subst re.
    assert (Hnx : exists x', nextRel E (keysR c) (keepR c) (dropR c) cu [] noRel = (noRel, x')).
    { cbn [nextRel]. assert (Hkn : keepRel (keepR c) (dropR c) noRel = false) by reflexivity. rewrite Hkn.
      destruct (top cu) eqn:Htop.
      { destruct (tg cu); try (eexists; reflexivity).
        assert (Hl : (lvl cu =? 3) = false). { unfold top in Htop. apply orb_prop in Htop. apply Nat.eqb_neq. destruct Htop as [H | H]; apply Nat.eqb_eq in H; lia. }
        unfold relChild. rewrite Hl. cbn [andb]. unfold keepRel. cbn [rId rAttrs length]. change (0 =? 0) with true. cbn [negb]. rewrite andb_false_r. cbn [andb]. eexists. reflexivity. }
      assert (Hcn : relChild (keysR c) noRel cu = noRel) by (unfold relChild; cbn [noRel rId]; rewrite andb_false_r; reflexivity).
      rewrite Hcn, Hkn. eexists. reflexivity. }
    destruct Hnx as (x' & Hnx). cbn [readRelList cur rest]. rewrite Hnx. exists [], x'. split; [reflexivity | constructor].
  - subst x. destruct (readRelList_all E (keysR c) (keepR c) (dropR c) rs [] n t tl Hrs Logic.I) as (l & x & Hr & Hp); [rewrite app_nil_r; congruence | exact Hn|].
    exists l, x. split; [exact Hr|]. apply Hp; [apply keepRel_ok | apply relVal_ok].
Qed.

Variable pre : list tok.
Hypothesis Hpre : Forall noNodes pre.
Hypothesis Hns0 : ns <> [].
Hypothesis Hws0 : ws <> [].
Notation file := (pre ++ text ns ++ text ws ++ text rs).

Lemma skip_rels : forall (t0 : tok) mid, (forall x, In x mid -> isRel (tg x) = false) -> isRel (tg t0) = false ->
  match text rs with [] => rest (skipUntil E isRel t0 (mid ++ text rs)) = [] /\ isRel (tg (cur (skipUntil E isRel t0 (mid ++ text rs)))) = false
                | t :: tl => skipUntil E isRel t0 (mid ++ text rs) = mkXml t tl end.
Proof.
  intros t0 mid Hm H0. destruct (text rs) as [|t tl] eqn:Ht.
  - rewrite app_nil_r. destruct (skip_none E isRel mid t0 Hm) as (cc & -> & Hc). cbn [atEof rest cur tg]. split; [reflexivity|].
    destruct Hc as [-> | Hc]; [exact H0 | apply Hm; exact Hc].
  - apply skip_found; [exact Hm|]. destruct rs as [|e es]; [discriminate|]. injection Ht as <- _.
    inversion Hrs as [|? ? ((id & Hh) & _) _]; subst. cbn [tg]. rewrite Hh. reflexivity.
Qed.

(** The passes that are shared by reading and filtering. *)
Lemma passes : forall n c0, length ws < n -> length rs < n -> exists nc nr wc wr b rl wl x1 x2,
  skipUntil E isNode c0 file = mkXml nc nr /\ nc :: nr = text ns ++ text ws ++ text rs /\ wc :: wr = text ws ++ text rs /\
  readBBoxNds E (inBox c) (nohupF c) nc nr false 0 (mkBB [] [] []) = (b, mkXml wc wr) /\ bbOk b /\
  readRelList E (keysR c) (keepR c) (dropR c) n (skipUntil E isRel wc wr) = Some (rl, x1) /\ Picked (RelWanted c) (relVal c) rs rl /\
  readWays E (keysW c) (keepWayOf c b (relsFrom (posR c) (negR c) rl)) n (mkXml wc wr) = Some (wl, x2) /\ Picked (WayWanted c ns rs) (wayVal c) ws wl.
Proof.
  intros n c0 Hn1 Hn2.
  destruct (text_way_first Hws0) as (wc & wr0 & Htw & Hlw & (wid & Hwt) & Hwrel).
  assert (Hn0 : exists nc nr, nc :: nr = text ns ++ text ws ++ text rs /\ isNode (tg nc) = true).
  { destruct ns as [|e es]; [congruence|]. exists (mkTok 2 (head e)), (body e ++ text es ++ text ws ++ text rs). split.
    - rewrite text_cons. reflexivity.
    - inversion Hns as [|? ? ((id & p & Hh) & _) _]; subst. cbn [tg]. rewrite Hh. reflexivity. }
  destruct Hn0 as (nc & nr & Hnc & Hisn).
  destruct (bb_all E (inBox c) (nohupF c) ns (mkBB [] [] []) false 0 nc nr wc (wr0 ++ text rs) Hns Hlw) as (b & Hb & Hb1 & Hb2 & Hb3).
  { rewrite Hwt. reflexivity. }
  { congruence. }
  { rewrite Hnc, Htw. reflexivity. }
  cbn [bIn bOut bNohup In] in Hb1, Hb2, Hb3.
  assert (Hbb : bbOk b). { split; [intros i; rewrite Hb1; tauto|]. split; [intros i; rewrite Hb2; tauto | intros i; rewrite Hb3; tauto]. }
  destruct (read_rels n (skipUntil E isRel wc (wr0 ++ text rs)) Hn2) as (rl & x1 & Hr & Hp).
  { assert (Hs := skip_rels wc wr0 (fun x Hx => Hwrel x (or_intror Hx)) (Hwrel wc (or_introl eq_refl))).
    destruct (text rs) as [|t tl]; [apply Hs | exact Hs]. }
  destruct (readWays_all E (keysW c) (keepWayOf c b (relsFrom (posR c) (negR c) rl)) ws (text rs) n wc (wr0 ++ text rs)) as (wl & x2 & Hw & _ & Hwp).
  - intros w Hw. unfold keepWayOf, keepWay. rewrite Hw. reflexivity.
  - intros w Hw. unfold keepWayOf, keepWay. replace (1 <? length (wNodes w)) with false; [rewrite andb_false_r; reflexivity|]. symmetry. apply Nat.ltb_ge. lia.
  - exact Hws.
  - destruct rs as [|e es]; [exact Logic.I|]. cbn [text flat_map tokens app]. split; [reflexivity|].
    inversion Hrs as [|? ? ((id & Hh) & _) _]; subst. cbn [tg]. rewrite Hh. reflexivity.
  - rewrite Htw. reflexivity.
  - exact Hn1.
  - exists nc, nr, wc, (wr0 ++ text rs), b, rl, wl, x1, x2.
    split; [rewrite <- Hnc; apply skip_found; [|exact Hisn]; intros x Hx; rewrite Forall_forall in Hpre; specialize (Hpre x Hx); unfold noNodes in Hpre; destruct (tg x); tauto|].
    split; [exact Hnc|]. split; [rewrite Htw; reflexivity|]. split; [exact Hb|]. split; [exact Hbb|]. split; [exact Hr|]. split; [exact Hp|].
    split; [exact Hw|]. apply Hwp; [intros e He; apply keepWay_ok; assumption | intros e He HW; apply wayVal_ok; assumption].
Qed.

Lemma relsFrom_ok : forall rl, RelsOk rl (relsFrom (posR c) (negR c) rl) /\ rests (relsFrom (posR c) (negR c) rl) = flat_map (readRestr (posR c) (negR c)) rl.
Proof.
  intros rl. destruct (addRels_inv (posR c) (negR c) rl (mkRels [] [] [] [] [])) as (H1 & H2 & H3 & H4 & H5).
  cbn [relAttrs length flat nodeRels wayRels rests app plus In] in *. split; [|exact H2].
  split; [exact H1| | |].
  - intros i. rewrite H3. split; [intros [[] | (k & r & Hk & -> & H)]; exists r; tauto | intros (r & Hk & H); right; exists i, r; tauto].
  - intros id i. rewrite H4. split; [intros [[] | (k & r & Hk & -> & H)]; exists r; tauto | intros (r & Hk & H); right; exists i, r; tauto].
  - intros id i. rewrite H5. split; [intros [[] | (k & r & Hk & -> & H)]; exists r; tauto | intros (r & Hk & H); right; exists i, r; tauto].
Qed.

Lemma top2 : forall t : tok, lvl t = 2 -> top t = true.
Proof. intros t H. unfold top. rewrite H. reflexivity. Qed.

Lemma file_read : forall n c0 rG, length ns < n -> length ws < n -> length rs < n -> exists b r rl wl nl,
  readFile E c rG n (mkXml c0 file) = Some (r, wl, rG b r wl, nl) /\ RelsOk rl r /\ rests r = flat_map (readRestr (posR c) (negR c)) rl /\
  Picked (RelWanted c) (relVal c) rs rl /\ Picked (WayWanted c ns rs) (wayVal c) ws wl /\
  Picked (NodeWanted c ns rs (fun id => In id (map fst (gNodes (rG b r wl)))) (fun id => In id (map fst (gMult (rG b r wl))))) (nodeVal c) ns nl /\
  (forall id, hasBox c b id = true <-> InBox c ns id) /\ (forall id, hasHup c b id = true <-> NoHup c ns id).
Proof.
  intros n c0 rG Hn1 Hn2 Hn3.
  destruct (passes n c0 Hn2 Hn3) as (nc & nr & wc & wr & b & rl & wl & x1 & x2 & Hs & Hnc & Hwc & Hb & Hbb & Hr & Hrp & Hw & Hwp).
  set (r := relsFrom (posR c) (negR c) rl). set (g := rG b r wl).
  destruct (nodes_plain b rl Hbb Hrp (fun id => mem id (map fst (gMult g))) (map fst (gNodes g))) as (nl & Hsel & Hnp).
  destruct (readNds_all E (keysN c) false (keepNodeOf c b r (fun id => mem id (map fst (gMult g)))) ns (text ws ++ text rs) n (map fst (gNodes g)) nc nr) as (x3 & Hnds & _).
  - intros s w Hw0. unfold keepNodeOf, keepNode. rewrite Hw0. reflexivity.
  - rewrite <- Hwc. discriminate.
  - exact Hns.
  - rewrite <- Hwc. destruct (text_way_first Hws0) as (wc' & wr' & Htw & Hl & (id & Ht) & _). rewrite Htw in Hwc. injection Hwc as -> ->.
    split; [apply top2; exact Hl | rewrite Ht; reflexivity].
  - exact Hnc.
  - exact Hn1.
  - exists b, r, rl, wl, nl. destruct (relsFrom_ok rl) as (Hro & Hre). fold r in Hro, Hre, Hsel.
    split; [|split; [exact Hro|]; split; [exact Hre|]; split; [exact Hrp|]; split; [exact Hwp|]; split;
      [|split; [apply hasBox_ok; exact Hbb | apply hasHup_ok; exact Hbb]]].
    + unfold readFile. cbn [cur rest]. rewrite Hs. cbn [cur rest]. rewrite Hb. cbn [cur rest]. unfold readRels. rewrite Hr.
      fold (relsFrom (posR c) (negR c) rl). fold r. fold r in Hw. rewrite Hw. fold g. rewrite Hnds, Hsel. reflexivity.
    + clear - Hnp. assert (Himp : forall e, NodeWanted c ns rs (fun id => In id (map fst (gNodes g))) (fun id => mem id (map fst (gMult g)) = true) e <->
         NodeWanted c ns rs (fun id => In id (map fst (gNodes g))) (fun id => In id (map fst (gMult g))) e).
      { intros e. unfold NodeWanted. rewrite mem_In. tauto. }
      exact (Picked_ext _ _ _ _ _ _ _ _ Himp (fun _ => eq_refl) Hnp).
Qed.
End File.

(** ** Filtering a file *)
Section Filter.
Context {P : Type}.
Notation elem := (@elem P).
Notation tok := (@tok P).
Notation tag := (@tag P).
Notation xml := (@xml P).
Variable E : nat.

Definition newWid (wid : nat) (t : tag) : option way := match t with TWay id => Some (if id =? wid then mkWay id [] [] else noWay) | _ => None end.
Lemma nextWid_G : forall keys wid r c w, (wId w = 0 -> w = noWay) ->
  nextWayWithId E keys wid c r w = nextG E way unit (newWid wid) (wayChild keys) noWay (fun w => w) (fun _ w => negb (wId w =? 0)) tt c r w.
Proof.
  intros keys wid.
  assert (Hch : forall w t, (wId w = 0 -> w = noWay) -> wId (wayChild keys w t) = 0 -> wayChild (P := P) keys w t = noWay).
  { intros w t Hw. unfold wayChild. destruct (negb (wId w =? 0) && (lvl t =? 3)) eqn:Hc; [|exact Hw].
    apply andb_prop in Hc. destruct Hc as (Hc & _). apply negb_true_iff, Nat.eqb_neq in Hc.
    destruct (tg t); cbn [wId]; try (intros; congruence). destruct (keys k); cbn [wId]; intros; congruence. }
  assert (Hhd : forall id, wId (if id =? wid then mkWay id [] [] else noWay) = 0 -> (if id =? wid then mkWay id [] [] else noWay) = noWay).
  { intros id. destruct (id =? wid); [|reflexivity]. cbn [wId]. intros ->. reflexivity. }
  induction r as [|t r IH]; intros c w Hw; cbn [nextWayWithId nextG].
  - destruct (top c); [|reflexivity]. destruct (wId w =? 0) eqn:Hz; cbn [negb]; [|reflexivity].
    apply Nat.eqb_eq in Hz. rewrite (Hw Hz) in *. cbn [noWay wNodes wAttrs]. destruct (tg c); reflexivity.
  - destruct (top c).
    + destruct (wId w =? 0) eqn:Hz; cbn [negb]; [|reflexivity]. apply Nat.eqb_eq in Hz. rewrite (Hw Hz) in *. cbn [noWay wNodes wAttrs].
      destruct (tg c); try reflexivity. cbn [newWid]. rewrite IH; [reflexivity|]. apply Hch. apply Hhd.
    + rewrite IH; [reflexivity|]. apply Hch. exact Hw.
Qed.

Lemma next_id : forall keys (es1 : list elem) (e : elem) es2 (tail : list tok) c r, Forall wayElem (es1 ++ e :: es2) -> idOf e <> 0 -> (forall e', In e' es1 -> idOf e' <> idOf e) ->
  match tail with [] => True | t :: _ => top t = true /\ newWay (tg t) = None end ->
  c :: r = text (es1 ++ e :: es2) ++ tail ->
  exists x : xml, nextWayWithId E keys (idOf e) c r noWay = (mkWay (idOf e) (refs e) (tags keys e), x) /\
    match text es2 ++ tail with [] => rest x = [] /\ (body e <> [] -> isRel (tg (cur x)) = false) | t :: tl => x = mkXml t tl end.
Proof.
  intros keys es1 e es2 tail c r Hk Hid H1 Htail Heq. rewrite nextWid_G by reflexivity.
  assert (Hval : forall e', wayElem e' -> val way (newWid (idOf e)) (wayChild keys) noWay e' = if idOf e' =? idOf e then mkWay (idOf e') (refs e') (tags keys e') else noWay).
  { intros e' ((id & Hh) & _). unfold val, start, newWid. rewrite Hh. assert (Hi : idOf e' = id) by (unfold idOf; rewrite Hh; reflexivity). rewrite Hi.
    destruct (id =? idOf e) eqn:Hq.
    - apply Nat.eqb_eq in Hq. rewrite (way_content keys (head e') id (body e')) by congruence. destruct e' as [h b]. reflexivity.
    - unfold noWay. apply way_zero. }
  assert (He : wayElem e). { rewrite Forall_forall in Hk. apply Hk. apply in_or_app. right. left. reflexivity. }
  destruct (nextG_first E way unit (newWid (idOf e)) (wayChild keys) noWay (fun w => w) (fun _ w => negb (wId w =? 0))) with (tail := tail) (es1 := es1) (s := tt) (e := e) (es2 := es2) (c := c) (r := r) (a := noWay) as (x & Hx & Hxt).
  - intros a t Ht. unfold wayChild. rewrite Ht. cbn. rewrite andb_false_r. reflexivity.
  - destruct tail as [|t tl]; [exact Logic.I|]. destruct Htail as (H2 & H3). split; [exact H2|]. unfold newWay in H3. unfold newWid. destruct (tg t); congruence.
  - revert Hk. apply Forall_impl. intros e' ((id & He') & Hb). split; [rewrite He'; discriminate | exact Hb].
  - intros e' He'. rewrite Hval; [|rewrite Forall_forall in Hk; apply Hk; apply in_or_app; left; exact He'].
    apply H1 in He'. apply Nat.eqb_neq in He'. rewrite He'. reflexivity.
  - rewrite (Hval e He), Nat.eqb_refl. cbn [wId]. apply negb_true_iff, Nat.eqb_neq. exact Hid.
  - exact Heq.
  - reflexivity.
  - rewrite (Hval e He), Nat.eqb_refl in Hx. exists x. split; [exact Hx|].
    destruct (text es2 ++ tail) as [|t tl]; [|exact Hxt]. destruct Hxt as (Hr & Ht). split; [exact Hr|]. intros Hb. destruct (Ht Hb) as (t & Hin & ->).
    destruct He as (_ & Hbd). rewrite Forall_forall in Hbd. specialize (Hbd t Hin). destruct Hbd as (_ & Hbd). destruct (tg t); try reflexivity. destruct Hbd.
Qed.

Section Ways.
Variable c : @cfg P.
Variable W : elem -> Prop.
Variable tail : list tok.
Hypothesis H_tail : match tail with [] => True | t :: _ => top t = true /\ newWay (tg t) = None end.
Hypothesis H_W : forall e, W e -> idOf e <> 0 /\ body e <> [].

Definition At (x : xml) (toks : list tok) : Prop := match toks with [] => rest x = [] /\ isRel (tg (cur x)) = false | t :: tl => x = mkXml t tl end.

Lemma write_ways : forall ws wl, Picked W (wayVal c) ws wl -> forall sk x, Forall wayElem (sk ++ ws) -> NoDup (map idOf (sk ++ ws)) -> Forall (fun e => ~ W e) sk ->
  At x (text (sk ++ ws) ++ tail) ->
  exists x2 dn sk2, readWriteWays E (keysW c) (map wId wl) x = Some (map OWay wl, x2) /\ At x2 (text sk2 ++ tail) /\
    sk ++ ws = dn ++ sk2 /\ Forall (fun e => ~ W e) sk2 /\ (dn = [] \/ exists d e, dn = d ++ [e] /\ W e).
Proof.
  intros ws wl H. induction H as [|e es l HW H IH | e es l HW H IH]; intros sk x Hk Hnd Hsk Hx.
  - exists x, [], sk. rewrite app_nil_r in *. repeat split; try assumption. left. reflexivity.
  - destruct (H_W e HW) as (Hid & Hbd).
    destruct (text (sk ++ e :: es) ++ tail) as [|t tl] eqn:Ht.
    { exfalso. destruct sk; cbn [app] in Ht; rewrite text_cons in Ht; discriminate. }
    cbn [At] in Hx. subst x. cbn [map]. unfold wayVal at 1. cbn [wId readWriteWays cur rest].
    destruct (next_id (keysW c) sk e es tail t tl Hk Hid) as (x1 & Hn & Hx1).
    + intros e' He' Heq. rewrite map_app in Hnd. cbn [map] in Hnd. apply NoDup_remove_2 in Hnd. apply Hnd. apply in_or_app. left. rewrite <- Heq. apply in_map. exact He'.
    + exact H_tail.
    + symmetry. exact Ht.
    + rewrite Hn. cbn [wId]. apply Nat.eqb_neq in Hid. rewrite Hid.
      assert (Hk' : Forall wayElem ([] ++ es)). { cbn [app]. apply Forall_app in Hk. destruct Hk as (_ & Hk). inversion Hk; assumption. }
      assert (Hnd' : NoDup (map idOf ([] ++ es))). { cbn [app]. rewrite map_app in Hnd. cbn [map] in Hnd. apply NoDup_remove_1 in Hnd. clear - Hnd. induction (map idOf sk) as [|y l IHl]; [exact Hnd | inversion Hnd; apply IHl; assumption]. }
      destruct (IH [] x1 Hk' Hnd' (Forall_nil _)) as (x2 & dn & sk2 & Hr & Hat & Hsp & Hn2 & Hd).
      { cbn [app]. unfold At. destruct (text es ++ tail) as [|t' tl']; [destruct Hx1 as (Hx1 & Hx2); split; [exact Hx1 | apply Hx2; exact Hbd] | exact Hx1]. }
      rewrite Hr. exists x2, (sk ++ e :: dn), sk2. split; [reflexivity|]. split; [exact Hat|].
      split; [cbn [app] in Hsp; rewrite Hsp, <- app_assoc; reflexivity|]. split; [exact Hn2|].
      right. destruct Hd as [-> | (d & e' & -> & He')]; [exists sk, e; tauto|].
      exists (sk ++ e :: d), e'. rewrite <- app_assoc. split; [reflexivity | exact He'].
  - destruct (IH (sk ++ [e]) x) as (x2 & dn & sk2 & Hr & Hat & Hsp & Hn2 & Hd).
    + rewrite <- app_assoc. exact Hk.
    + rewrite <- app_assoc. exact Hnd.
    + apply Forall_app. split; [exact Hsk|]. constructor; [exact HW | constructor].
    + rewrite <- app_assoc. exact Hx.
    + exists x2, dn, sk2. rewrite <- app_assoc in Hsp. repeat split; assumption.
Qed.
End Ways.

Lemma Picked_filter : forall A (f : A -> bool) (Q : A -> Prop) l, (forall a, f a = true <-> Q a) -> Picked Q (fun a => a) l (filter f l).
Proof.
  intros A f Q l H. induction l as [|a l IH]; [apply P_nil|]. cbn [filter]. destruct (f a) eqn:Ha.
  - apply P_take with (val := fun a => a); [apply H; exact Ha | exact IH].
  - apply P_skip; [rewrite <- H; congruence | exact IH].
Qed.
Lemma write_rels : forall (c : @cfg P) wids known (Kn : nat -> Prop), (forall i, In i known <-> Kn i) -> forall rs rl, Picked (RelWanted c) (relVal c) rs rl ->
  Written c Kn (fun i => In i wids) rs (flat_map (writeRel wids known) rl).
Proof.
  intros c wids known Kn HK rs rl H. induction H as [|e es l HW H IH | e es l HW H IH]; [apply W_nil| |apply W_skip; [left; exact HW | exact IH]].
  cbn [flat_map]. unfold writeRel at 1. cbn [relVal rId rNodes rWays rAttrs].
  set (nm := filter (fun m => mem (fst m) known) (nodeMembers e)). set (wm := filter (fun m => mem (fst m) wids) (wayMembers e)).
  assert (Hnm : Picked (fun m => Kn (fst m)) (fun m => m) (nodeMembers e) nm). { apply Picked_filter. intros m. rewrite mem_In. apply HK. }
  assert (Hwm : Picked (fun m => In (fst m) wids) (fun m => m) (wayMembers e) wm). { apply Picked_filter. intros m. apply mem_In. }
  destruct nm as [|m nm'] eqn:En; [destruct wm as [|m' wm'] eqn:Ew|].
  - cbn [app]. apply W_skip; [right|exact IH]. split; intros m Hm HQ.
    + assert (Hin : In m (filter (fun m => mem (fst m) known) (nodeMembers e))) by (apply filter_In; split; [exact Hm | apply mem_In, HK, HQ]). unfold nm in En. rewrite En in Hin. destruct Hin.
    + assert (Hin : In m (filter (fun m => mem (fst m) wids) (wayMembers e))) by (apply filter_In; split; [exact Hm | apply mem_In, HQ]). unfold wm in Ew. rewrite Ew in Hin. destruct Hin.
  - cbn [app]. apply W_take; try assumption. right. discriminate.
  - cbn [app]. apply W_take; try assumption. left. discriminate.
Qed.

Lemma nodes_grow : forall (c : @cfg P) ns rs b rl, Forall nodeElem ns -> bbOk c ns b -> Picked (RelWanted c) (relVal c) rs rl -> NoDup (map idOf ns) ->
  forall K0, exists nl known,
  selS node (list nat) newNode (nodeChild (keysN c)) noNode (fun w => w) (keepNodeOf c b (relsFrom (posR c) (negR c) rl) (fun _ => false)) (growN true) K0 ns = (nl, known) /\
  Picked (NodeWanted c ns rs (fun id => In id K0) (fun _ => False)) (nodeVal c) ns nl /\
  forall i, In i known <-> In i K0 \/ In i (map nId nl).
Proof.
  intros c ns rs b rl Hns Hbb Hrl Hnd K0.
  assert (H : forall es ad K, incl es ns -> NoDup (map idOf es) -> (forall i, In i K <-> In i K0 \/ In i ad) -> (forall e, In e es -> ~ In (idOf e) ad) -> exists nl known,
    selS node (list nat) newNode (nodeChild (keysN c)) noNode (fun w => w) (keepNodeOf c b (relsFrom (posR c) (negR c) rl) (fun _ => false)) (growN true) K es = (nl, known) /\
    Picked (NodeWanted c ns rs (fun id => In id K0) (fun _ => False)) (nodeVal c) es nl /\
    forall i, In i known <-> In i K0 \/ In i ad \/ In i (map nId nl)).
  { induction es as [|e es IH]; intros ad K Hin Hnde HK Had.
    - exists [], K. split; [reflexivity|]. split; [apply P_nil|]. intros i. rewrite HK. cbn. tauto.
    - cbn [map] in Hnde. inversion Hnde as [|? ? Hni Hnde']; subst. assert (He : In e ns) by (apply Hin; left; reflexivity).
      assert (Hiff : keepNodeOf c b (relsFrom (posR c) (negR c) rl) (fun _ => false) K (val node newNode (nodeChild (keysN c)) noNode e) = true <->
                     NodeWanted c ns rs (fun id => In id K0) (fun _ => False) e).
      { rewrite (keepNode_ok E c ns rs Hns b rl Hbb Hrl (fun _ => false) K e He). unfold NodeWanted. rewrite HK. specialize (Had e (or_introl eq_refl)). intuition congruence. }
      cbn [selS]. destruct (keepNodeOf c b (relsFrom (posR c) (negR c) rl) (fun _ => false) K (val node newNode (nodeChild (keysN c)) noNode e)) eqn:Hk.
      + assert (HW := proj1 Hiff eq_refl). rewrite (nodeVal_ok c ns Hns e He (proj1 HW)).
        cbn [growN]. destruct (IH (idOf e :: ad) (nId (nodeVal c e) :: K)) as (nl & known & Hs & Hp & Hkn).
        * intros x Hx. apply Hin. right. exact Hx.
        * exact Hnde'.
        * intros i. cbn [nodeVal nId In]. rewrite HK. tauto.
        * intros e' He' [Heq | Ha]; [|apply (Had e' (or_intror He')); exact Ha]. apply Hni. rewrite Heq. apply in_map. exact He'.
        * rewrite Hs. exists (nodeVal c e :: nl), known. split; [reflexivity|]. split; [apply P_take; assumption|].
          intros i. rewrite Hkn. cbn [map In nodeVal nId]. tauto.
      + destruct (IH ad K) as (nl & known & Hs & Hp & Hkn); try assumption.
        * intros x Hx. apply Hin. right. exact Hx.
        * intros e' He'. apply Had. right. exact He'.
        * exists nl, known. split; [exact Hs|]. split; [apply P_skip; [rewrite <- Hiff; discriminate | exact Hp] | exact Hkn]. }
  destruct (H ns [] K0 (incl_refl _) Hnd) as (nl & known & Hs & Hp & Hk).
  - intros i. cbn. tauto.
  - intros e _ [].
  - exists nl, known. split; [exact Hs|]. split; [exact Hp|]. intros i. rewrite Hk. cbn. tauto.
Qed.

(** The relations that the last pass sees. *)

Lemma file_filtered : forall (c : @cfg P) ns ws rs pre n c0, Forall nodeElem ns -> Forall wayElem ws -> Forall relElem rs -> Forall noNodes pre -> ns <> [] -> ws <> [] ->
  length ns < n -> length ws < n -> length rs < n -> NoDup (map idOf ns) -> NoDup (map idOf ws) ->
  exists nl wl ro rs', filterWrite E c n (mkXml c0 (pre ++ text ns ++ text ws ++ text rs)) = Some (map ONode nl ++ map OWay wl ++ ro) /\
  Picked (WayWanted c ns rs) (wayVal c) ws wl /\
  Picked (NodeWanted c ns rs (fun id => In id (flat_map wNodes wl)) (fun _ => False)) (nodeVal c) ns nl /\
  Written c (fun i => In i (flat_map wNodes wl) \/ In i (map nId nl)) (fun i => In i (map wId wl)) rs' ro /\
  ((~ LastWanted (WayWanted c ns rs) ws /\ rs' = rs) \/ (LastWanted (WayWanted c ns rs) ws /\ rs' = tl rs)).
Proof.
  intros c ns ws rs pre n c0 Hns Hws Hrs Hpre Hns0 Hws0 Hn1 Hn2 Hn3 Hnd1 Hnd2.
  destruct (passes E c ns ws rs Hns Hws Hrs pre Hpre Hns0 Hws0 n c0 Hn2 Hn3) as (nc & nr & wc & wr & b & rl & wl & x1 & x2 & Hs & Hnc & Hwc & Hb & Hbb & Hr & Hrp & Hw & Hwp).
  destruct (nodes_grow c ns rs b rl Hns Hbb Hrp Hnd1 (flat_map wNodes wl)) as (nl & known & Hsel & Hnp & Hkn).
  destruct (readNds_all E (keysN c) true (keepNodeOf c b (relsFrom (posR c) (negR c) rl) (fun _ => false)) ns (text ws ++ text rs) n (flat_map wNodes wl) nc nr) as (x3 & Hnds & t0 & tl0 & Ht0 & Hx3).
  { intros s w Hw0. unfold keepNodeOf, keepNode. rewrite Hw0. reflexivity. }
  { rewrite <- Hwc. discriminate. }
  { exact Hns. }
  { rewrite <- Hwc. destruct (text_way_first ws Hws Hws0) as (wc' & wr' & Htw & Hl & (id & Ht) & _). rewrite Htw in Hwc. injection Hwc as -> ->.
    split; [apply top2; exact Hl | rewrite Ht; reflexivity]. }
  { exact Hnc. }
  { exact Hn1. }
  rewrite Hsel in Hnds.
  destruct (write_ways c (WayWanted c ns rs) (text rs)) with (ws := ws) (wl := wl) (sk := @nil elem) (x := x3) as (x4 & dn & sk2 & Hww & Hat & Hsp & Hun & Hdn).
  { destruct rs as [|e es]; [exact Logic.I|]. cbn [text flat_map tokens app]. split; [reflexivity|].
    inversion Hrs as [|? ? ((id & Hh) & _) _]; subst. cbn [tg]. rewrite Hh. reflexivity. }
  { intros e (H1 & H2 & _). split; [exact H1|]. intros H3. unfold refs, children in H2. rewrite H3 in H2. cbn in H2. lia. }
  { exact Hwp. }
  { exact Hws. }
  { exact Hnd2. }
  { constructor. }
  { cbn [app]. rewrite Ht0. exact Hx3. }
  cbn [app] in Hsp.
  assert (Hrels : exists rs', (length rs' < n) /\ Forall relElem rs' /\
     match text rs' with [] => rest (skipUntil E isRel (cur x4) (rest x4)) = [] | t :: tl => skipUntil E isRel (cur x4) (rest x4) = mkXml t tl end /\
     ((~ LastWanted (WayWanted c ns rs) ws /\ rs' = rs) \/ (LastWanted (WayWanted c ns rs) ws /\ rs' = tl rs))).
  { assert (Hend : forall isS (l : list tok) c1, (forall x, In x l -> isS (tg x) = false) -> rest (skipUntil E isS c1 l) = []).
    { intros isS l c1 Hl. destruct (skip_none E isS l c1 Hl) as (cc & -> & _). reflexivity. }
    destruct sk2 as [|s0 sk2'].
    - (* the last way was written *)
      rewrite app_nil_r in Hsp. assert (HL : LastWanted (WayWanted c ns rs) ws).
      { destruct Hdn as [-> | Hd]; [congruence|]. rewrite Hsp. exact Hd. }
      cbn [text flat_map app] in Hat. exists (tl rs). split; [destruct rs; cbn in *; lia|].
      split; [destruct rs; [constructor | inversion Hrs; assumption]|]. split; [|right; split; [exact HL | reflexivity]].
      destruct rs as [|r0 rs0].
      + cbn [text flat_map At] in Hat. destruct Hat as (Hr4 & Hc4). cbn [tl text flat_map]. rewrite Hr4. reflexivity.
      + cbn [text flat_map tokens app At] in Hat. rewrite Hat. cbn [cur rest tl]. fold (text rs0).
        assert (Hin : forall x, In x (body r0) -> isRel (tg x) = false).
        { inversion Hrs as [|? ? (_ & Hbd) _]; subst. intros x Hx. rewrite Forall_forall in Hbd. specialize (Hbd x Hx). destruct Hbd as (_ & Hbd). destruct (tg x); try reflexivity. destruct Hbd. }
        destruct (text rs0) as [|t tl1] eqn:Htx; [rewrite app_nil_r; apply Hend; exact Hin|].
        apply skip_found; [exact Hin|]. destruct rs0 as [|r1 rs1]; [discriminate|]. injection Htx as <- _.
        inversion Hrs as [|? ? _ Hrs']; subst. inversion Hrs' as [|? ? ((id & Hh) & _) _]; subst. cbn [tg]. rewrite Hh. reflexivity.
    - (* ways were left *)
      assert (Hsk : Forall wayElem (s0 :: sk2')). { rewrite Hsp in Hws. apply Forall_app in Hws. apply Hws. }
      exists rs. split; [exact Hn3|]. split; [exact Hrs|]. split.
      + destruct (text_way_first (s0 :: sk2') Hsk ltac:(discriminate)) as (t & tl & Htt & _ & _ & Hnr).
        rewrite Htt in Hat. cbn [app At] in Hat. rewrite Hat. cbn [cur rest].
        assert (Hsr := skip_rels E rs Hrs t tl (fun x Hx => Hnr x (or_intror Hx)) (Hnr t (or_introl eq_refl))).
        destruct (text rs) as [|t1 tl1]; [apply Hsr | exact Hsr].
      + left. split; [|reflexivity]. intros (d & e & He & HW). rewrite Forall_forall in Hun.
        apply (Hun e); [|exact HW]. rewrite He in Hsp.
        destruct (exists_last (l := s0 :: sk2')) as (l' & y & Hy); [discriminate|]. rewrite Hy in Hsp |- *.
        rewrite app_assoc in Hsp. apply app_inj_tail in Hsp. destruct Hsp as (_ & ->). apply in_or_app. right. left. reflexivity. }
  destruct Hrels as (rs' & Hn4 & Hrs' & Hx5 & Hcase).
  destruct (read_rels E c rs' Hrs' n _ Hn4 Hx5) as (rl' & x6 & Hr6 & Hp6).
  exists nl, wl, (flat_map (writeRel (map wId wl) known) rl'), rs'.
  split; [|split; [exact Hwp|]; split; [exact Hnp|]; split; [apply write_rels; assumption | exact Hcase]].
  unfold filterWrite. cbn [cur rest]. rewrite Hs. cbn [cur rest]. rewrite Hb. cbn [cur rest]. unfold readRels. rewrite Hr.
  fold (relsFrom (posR c) (negR c) rl). rewrite Hw, Hnds, Hww, Hr6. reflexivity.
Qed.
End Filter.

(** ** Restrictions *)
Section Restr.
Variable posR negR : list (string * string) -> bool.

Definition one (x : nat) (l : list (nat * string)) : option nat := match l with [] => Some x | [m] => if x =? 0 then Some (fst m) else None | _ => None end.
Lemma fromTo_one : forall ws f t, (forall m, In m ws -> fst m <> 0) ->
  fromTo ws f t = match one f (filter (fun m => String.eqb (snd m) "from") ws), one t (filter (fun m => String.eqb (snd m) "to") ws) with Some a, Some b => Some (a, b) | _, _ => None end.
Proof.
  induction ws as [|[w role] ws IH]; intros f t Hm; [reflexivity|].
  assert (Hw : w <> 0) by (apply (Hm (w, role)); left; reflexivity). apply Nat.eqb_neq in Hw.
  assert (Hm' : forall m, In m ws -> fst m <> 0) by (intros m H; apply Hm; right; exact H).
  cbn [fromTo filter snd]. destruct (String.eqb role "from") eqn:Hf.
  - apply String.eqb_eq in Hf. subst role. change (String.eqb "from" "to") with false. cbn [andb].
    destruct (f =? 0) eqn:Hz; cbn [negb andb].
    + rewrite (IH w t Hm'). unfold one at 1 3. rewrite Hw, Hz. destruct (filter (fun m => String.eqb (snd m) "from") ws) as [|? [|? ?]]; reflexivity.
    + unfold one at 1. rewrite Hz. destruct (filter (fun m => String.eqb (snd m) "from") ws); reflexivity.
  - cbn [andb]. destruct (String.eqb role "to") eqn:Ht; cbn [andb].
    + destruct (t =? 0) eqn:Hz; cbn [negb].
      * rewrite (IH f w Hm'). destruct (one f (filter (fun m => String.eqb (snd m) "from") ws)); [|reflexivity].
        unfold one. rewrite Hw, Hz. destruct (filter (fun m => String.eqb (snd m) "to") ws) as [|? [|? ?]]; reflexivity.
      * destruct (one f (filter (fun m => String.eqb (snd m) "from") ws)); [|reflexivity]. unfold one. rewrite Hz. destruct (filter (fun m => String.eqb (snd m) "to") ws); reflexivity.
    + apply IH. exact Hm'.
Qed.
Lemma firstVia_ok : forall ns, firstVia ns = match filter (fun m => String.eqb (snd m) "via") ns with [] => 0 | m :: _ => fst m end.
Proof. induction ns as [|[n role] ns IH]; [reflexivity|]. cbn [firstVia filter snd]. destruct (String.eqb role "via"); [reflexivity | exact IH]. Qed.
Lemma getAttr_In : forall a k v, NoDup (map fst a) -> getAttr a k = Some v <-> In (k, v) a.
Proof.
  induction a as [|[k1 v1] a IH]; intros k v Hnd; [split; [discriminate | intros []]|].
  cbn [map fst] in Hnd. inversion Hnd as [|? ? Hni Hnd']; subst. cbn [getAttr In]. destruct (String.eqb k1 k) eqn:Hk.
  - apply String.eqb_eq in Hk. subst k1. split; [intros H; left; congruence|]. intros [H | H]; [congruence|]. exfalso. apply Hni. apply (in_map fst) in H. exact H.
  - apply String.eqb_neq in Hk. rewrite (IH k v Hnd'). split; [tauto|]. intros [H | H]; [congruence | exact H].
Qed.
Lemma role_filter : forall ro (l : list (nat * string)) m r, filter (fun m => String.eqb (snd m) ro) l = m :: r -> m = (fst m, ro).
Proof.
  intros ro l m r H. assert (Hin : In m (filter (fun m => String.eqb (snd m) ro) l)) by (rewrite H; left; reflexivity).
  apply filter_In in Hin. destruct Hin as (_ & Hr). apply String.eqb_eq in Hr. destruct m as [a b]. cbn [fst snd] in *. congruence.
Qed.

Lemma restr_rule : forall r pos via f t, NoDup (map fst (rAttrs r)) -> (forall m, In m (rWays r) -> fst m <> 0) ->
  In (pos, via, f, t) (readRestr posR negR r) <-> Rule posR negR r pos via f t.
Proof.
  intros r pos via f t Hnd Hm. unfold readRestr, Rule. rewrite <- (getAttr_In (rAttrs r) "type" "restriction" Hnd).
  destruct (getAttr (rAttrs r) "type") as [ty|]; [|split; [intros [] | intros (H & _); discriminate]].
  destruct (String.eqb ty "restriction") eqn:Hty; cbn [negb].
  2: { split; [intros []|]. intros (H & _). injection H as ->. discriminate. }
  apply String.eqb_eq in Hty. subst ty.
  destruct (negb (posR (rAttrs r)) && negb (negR (rAttrs r))) eqn:Hpn.
  { split; [intros []|]. intros (_ & _ & _ & _ & _ & _ & _ & H). apply andb_prop in Hpn. rewrite !negb_true_iff in Hpn. destruct pos; intuition congruence. }
  rewrite (fromTo_one (rWays r) 0 0 Hm), firstVia_ok.
  destruct (filter (fun m => String.eqb (snd m) "from") (rWays r)) as [|mf [|mf2 F]] eqn:HF; cbn [one].
  - destruct (filter (fun m => String.eqb (snd m) "to") (rWays r)) as [|mt [|mt2 T]]; cbn [one];
      (split; [change (0 =? 0) with true; cbn [negb andb]; intros [] | intros (_ & H & _); discriminate]).
  - change (0 =? 0) with true. rewrite (role_filter _ _ _ _ HF) in *. cbn [fst].
    assert (Hf0 : fst mf <> 0). { apply Hm. assert (Hin : In mf (filter (fun m => String.eqb (snd m) "from") (rWays r))) by (rewrite HF, (role_filter _ _ _ _ HF); left; reflexivity). apply filter_In in Hin. apply Hin. }
    destruct (filter (fun m => String.eqb (snd m) "to") (rWays r)) as [|mt [|mt2 T]] eqn:HT; cbn [one].
    + cbn [Nat.eqb negb]. rewrite andb_false_r. split; [intros [] | intros (_ & _ & H & _); discriminate].
    + change (0 =? 0) with true. rewrite (role_filter _ _ _ _ HT) in *. cbn [fst].
      assert (Ht0 : fst mt <> 0). { apply Hm. assert (Hin : In mt (filter (fun m => String.eqb (snd m) "to") (rWays r))) by (rewrite HT, (role_filter _ _ _ _ HT); left; reflexivity). apply filter_In in Hin. apply Hin. }
      apply Nat.eqb_neq in Hf0 as Hf0'. apply Nat.eqb_neq in Ht0 as Ht0'. rewrite Hf0', Ht0'. cbn [negb andb].
      destruct (filter (fun m => String.eqb (snd m) "via") (rNodes r)) as [|mv V] eqn:HV.
      { split; [intros [] | intros (_ & _ & _ & (r' & H) & _); discriminate]. }
      rewrite (role_filter _ _ _ _ HV) in *. cbn [fst]. destruct (fst mv =? 0) eqn:Hv0; cbn [negb].
      { apply Nat.eqb_eq in Hv0. split; [intros []|]. intros (_ & _ & _ & (r' & H) & _ & _ & H1 & _). injection H as H _. congruence. }
      apply Nat.eqb_neq in Hv0.
      assert (Hall : forall p, In (pos, via, f, t) [(p, fst mv, fst mf, fst mt)] <-> pos = p /\ via = fst mv /\ f = fst mf /\ t = fst mt).
      { intros p. cbn [In]. split; [intros [H | []]; injection H; intros; subst; tauto | intros (-> & -> & -> & ->); left; reflexivity]. }
      destruct (posR (rAttrs r)) eqn:Hp.
      * rewrite Hall. split.
        -- intros (-> & -> & -> & ->). repeat split; try assumption. exists V. reflexivity.
        -- intros (_ & H1 & H2 & (r' & H3) & _ & _ & _ & H4). destruct pos; [|intuition congruence]. injection H1 as H1. injection H2 as H2. injection H3 as H3 _. subst. tauto.
      * cbn [negb andb] in Hpn. destruct (negR (rAttrs r)) eqn:Hn; [|discriminate]. rewrite Hall. split.
        -- intros (-> & -> & -> & ->). repeat split; try assumption. exists V. reflexivity.
        -- intros (_ & H1 & H2 & (r' & H3) & _ & _ & _ & H4). destruct pos; [discriminate|]. injection H1 as H1. injection H2 as H2. injection H3 as H3 _. subst. tauto.
    + split; [intros []|]. intros (_ & _ & H & _). discriminate.
  - split; [intros []|]. intros (_ & H & _). discriminate.
Qed.
Lemma restr_one : forall r, length (readRestr posR negR r) <= 1.
Proof.
  intros r. unfold readRestr. destruct (getAttr (rAttrs r) "type"); [|cbn; lia]. destruct (negb (String.eqb s "restriction")); [cbn; lia|].
  destruct (negb (posR (rAttrs r)) && negb (negR (rAttrs r))); [cbn; lia|]. destruct (fromTo (rWays r) 0 0) as [[f t]|]; [|cbn; lia].
  destruct (negb (f =? 0) && negb (t =? 0) && negb (firstVia (rNodes r) =? 0)); [|cbn; lia]. destruct (posR (rAttrs r)); [cbn; lia|]. destruct (negR (rAttrs r)); cbn; lia.
Qed.
End Restr.
Lemma lastOnes_keys : forall l k, In k (map fst (lastOnes l)) -> In k (map fst l).
Proof.
  induction l as [|[k1 v1] l IH]; intros k H; [exact H|]. cbn [lastOnes] in H. cbn [map fst In]. destruct (existsb (fun x => String.eqb (fst x) k1) l); [right; apply IH; exact H|].
  cbn [map fst In] in H. destruct H as [H | H]; [left; exact H | right; apply IH; exact H].
Qed.
Lemma tags_unique : forall P keys (e : @elem P), NoDup (map fst (tags keys e)).
Proof.
  intros P keys e. unfold tags. induction (needed keys e) as [|[k v] l IH]; [constructor|]. cbn [lastOnes].
  destruct (existsb (fun x => String.eqb (fst x) k) l) eqn:Hx; [exact IH|]. cbn [map fst]. constructor; [|exact IH].
  intros H. apply lastOnes_keys in H. apply in_map_iff in H. destruct H as ([k' v'] & Hk & Hin). cbn [fst] in Hk. subst k'.
  assert (Ht : existsb (fun x => String.eqb (fst x) k) l = true) by (apply existsb_exists; exists (k, v'); split; [exact Hin | apply String.eqb_refl]). congruence.
Qed.

(** ** The graph *)
Section GraphP.
Variable level : list (string * string) -> nat.
Variable oneway onewayrev : list (string * string) -> bool.
Variable linesOf : nat -> list nat.
Variable hup has : nat -> bool.
Notation step := (way * ((nat * nat) * (nat * nat)))%type.
Notation setE := (setEdge level oneway onewayrev linesOf).
Notation pairs := (map (fun e => (eFrom e, eTo e))).

Record NI (O : list (nat * nat)) (g : graph) : Prop := {
  ni_used : forall id v, In (id, v) O -> hup id || has id = true;
  ni_shared : forall i j id v id' v', nth_error O i = Some (id, v) -> nth_error O j = Some (id', v') -> i <> j -> (v = v' <-> id = id' /\ hup id = false);
  ni_size : forall v, v < gSize g <-> In v (map snd O);
  ni_known : forall id v, In (id, v) (gNodes g) <-> In (id, v) O /\ hup id = false;
  ni_many : forall id v, In (id, v) (gMult g) <-> In (id, v) O /\ hup id = true
}.
Record EI (T : list step) (g : graph) : Prop := {
  ei_once : NoDup (pairs (gEdges g));
  ei_edge : forall a b, In (a, b) (pairs (gEdges g)) <-> exists s, In s T /\ onStep a b s;
  ei_attrs : forall e, In e (gEdges g) -> EdgeOk level oneway onewayrev linesOf T e;
  ei_segs : Forall2 (fun s t => sgWay t = wId (fst s) /\ (sgLastId t, sgLast t) = fst (snd s) /\ (sgId t, sgN t) = snd (snd s) /\
                               exists e, nth_error (gEdges g) (sgEdge t) = Some e /\ eFrom e = sgLast t /\ eTo e = sgN t) T (gSegs g)
}.
Lemma lookup_In : forall m k v, lookup m k = Some v -> In (k, v) m.
Proof.
  intros m k v. unfold lookup. destruct (find (fun x => fst x =? k) m) as [[a b]|] eqn:Hf; [|discriminate]. intros H. injection H as <-.
  apply find_some in Hf. destruct Hf as (Hin & Hk). apply Nat.eqb_eq in Hk. cbn [fst snd] in *. congruence.
Qed.
Lemma lookup_None : forall m k v, lookup m k = None -> ~ In (k, v) m.
Proof.
  intros m k v. unfold lookup. destruct (find (fun x => fst x =? k) m) eqn:Hf; [discriminate|]. intros _ Hin.
  apply (find_none _ _ Hf) in Hin. cbn [fst] in Hin. rewrite Nat.eqb_refl in Hin. discriminate.
Qed.
Lemma nth_snoc_cases : forall A (l : list A) x i y, nth_error (l ++ [x]) i = Some y -> nth_error l i = Some y \/ (i = length l /\ x = y).
Proof.
  intros A l x i y H. destruct (Nat.lt_ge_cases i (length l)) as [Hl | Hl].
  - left. rewrite nth_error_app1 in H by exact Hl. exact H.
  - rewrite nth_error_app2 in H by exact Hl. destruct (i - length l) as [|k] eqn:Hk; cbn in H; [right; split; [lia | congruence]|]. destruct k; discriminate.
Qed.

(* a new graph node *)
Lemma NI_new : forall O g nid g', NI O g -> hup nid || has nid = true -> (hup nid = false -> forall v, ~ In (nid, v) (gNodes g)) ->
  gSize g' = S (gSize g) ->
  gNodes g' = (if hup nid then gNodes g else gNodes g ++ [(nid, gSize g)]) -> gMult g' = (if hup nid then gMult g ++ [(nid, gSize g)] else gMult g) ->
  NI (O ++ [(nid, gSize g)]) g'.
Proof.
  intros O g nid g' [Hu Hs Hz Hk Hm] Huse Hfresh Hsz Hkn Hmu.
  assert (Hlt : forall id v, In (id, v) O -> v < gSize g). { intros id v H. apply Hz. apply (in_map snd) in H. exact H. }
  split.
  - intros id v H. apply in_app_or in H. destruct H as [H | [H | []]]; [apply (Hu id v H) | injection H as <- _; exact Huse].
  - assert (Hcross : forall i id v, nth_error O i = Some (id, v) -> (v = gSize g <-> id = nid /\ hup id = false)).
    { intros i id v H. apply nth_error_In in H. split.
      - intros ->. apply Hlt in H. lia.
      - intros (-> & Hh). exfalso. apply (Hfresh Hh v). apply Hk. tauto. }
    intros i j id v id' v' H1 H2 Hne. apply nth_snoc_cases in H1. apply nth_snoc_cases in H2.
    destruct H1 as [H1 | (-> & H1)], H2 as [H2 | (-> & H2)].
    + apply (Hs i j id v id' v' H1 H2 Hne).
    + injection H2 as <- <-. apply (Hcross i id v H1).
    + injection H1 as <- <-. assert (Hc := Hcross j id' v' H2). split.
      * intros Hv. symmetry in Hv. apply Hc in Hv. destruct Hv as (Hv1 & Hv2). split; congruence.
      * intros (Hv1 & Hv2). symmetry. apply Hc. split; congruence.
    + congruence.
  - intros v. rewrite Hsz, map_app, in_app_iff. cbn [map snd In]. rewrite <- Hz. split; [|intros [H | [H | []]]; lia].
    intros H. destruct (Nat.eq_dec v (gSize g)); [right; left; congruence | left; lia].
  - intros id v. rewrite Hkn, in_app_iff. cbn [In]. destruct (hup nid) eqn:Hh.
    + rewrite Hk. split; [tauto|]. intros ([H | [H | []]] & Hf); [tauto|]. injection H as <- _. congruence.
    + rewrite in_app_iff, Hk. cbn [In]. split; [intros [H | [H | []]]; [tauto | injection H as <- <-; tauto] | intros ([H | [H | []]] & Hf); [tauto | right; left; exact H]].
  - intros id v. rewrite Hmu, in_app_iff. cbn [In]. destruct (hup nid) eqn:Hh.
    + rewrite in_app_iff, Hm. cbn [In]. split; [intros [H | [H | []]]; [tauto | injection H as <- <-; tauto] | intros ([H | [H | []]] & Hf); [tauto | right; left; exact H]].
    + rewrite Hm. split; [tauto|]. intros ([H | [H | []]] & Hf); [tauto|]. injection H as <- _. congruence.
Qed.
Lemma nodeFor_ok : forall O g nid, NI O g ->
  match nodeFor hup has g nid with
  | Some (n, g') => hup nid || has nid = true /\ NI (O ++ [(nid, n)]) g' /\ gEdges g' = gEdges g /\ gSegs g' = gSegs g
  | None => hup nid || has nid = false
  end.
Proof.
  intros O g nid HN. unfold nodeFor. destruct (hup nid) eqn:Hh.
  - split; [reflexivity|]. split; [|split; reflexivity]. apply (NI_new O g nid); [exact HN | rewrite Hh; reflexivity | congruence | reflexivity | rewrite Hh; reflexivity | rewrite Hh; reflexivity].
  - destruct (lookup (gNodes g) nid) as [n|] eqn:Hl.
    + apply lookup_In in Hl. destruct HN as [Hu Hs Hz Hk Hm]. assert (HO := proj1 (Hk _ _) Hl). destruct HO as (HO & _).
      split; [rewrite <- Hh; apply (Hu nid n HO)|]. split; [|split; reflexivity].
      apply In_nth_error in HO as Hix. destruct Hix as (k & Hix).
      assert (Hcross : forall i id v, nth_error O i = Some (id, v) -> (v = n <-> id = nid /\ hup id = false)).
      { intros i id v H. destruct (Nat.eq_dec i k) as [-> | Hne]; [rewrite Hix in H; injection H as <- <-; tauto | apply (Hs i k id v nid n H Hix Hne)]. }
      split.
      * intros id v H. apply in_app_or in H. destruct H as [H | [H | []]]; [apply (Hu id v H) | injection H as <- _; apply (Hu nid n HO)].
      * intros i j id v id' v' H1 H2 Hne. apply nth_snoc_cases in H1. apply nth_snoc_cases in H2.
        destruct H1 as [H1 | (-> & H1)], H2 as [H2 | (-> & H2)].
        -- apply (Hs i j id v id' v' H1 H2 Hne).
        -- injection H2 as <- <-. apply (Hcross i id v H1).
        -- injection H1 as <- <-. assert (Hc := Hcross j id' v' H2). split.
           ++ intros Hv. symmetry in Hv. apply Hc in Hv. destruct Hv as (Hv1 & Hv2). split; congruence.
           ++ intros (Hv1 & Hv2). symmetry. apply Hc. split; congruence.
        -- congruence.
      * intros v. rewrite Hz, map_app, in_app_iff. cbn [map snd In]. split; [tauto|]. intros [H | [<- | []]]; [exact H|]. apply (in_map snd) in HO. exact HO.
      * intros id v. rewrite Hk, in_app_iff. cbn [In]. split; [tauto|]. intros ([H | [H | []]] & Hf); [tauto|]. injection H as <- <-. tauto.
      * intros id v. rewrite Hm, in_app_iff. cbn [In]. split; [tauto|]. intros ([H | [H | []]] & Hf); [tauto|]. injection H as <- <-. congruence.
    + destruct (has nid) eqn:Hhas; [|reflexivity]. split; [reflexivity|]. split; [|split; reflexivity].
      apply (NI_new O g nid); [exact HN | rewrite Hhas; apply orb_true_r | intros _ v; apply lookup_None; exact Hl | reflexivity | rewrite Hh; reflexivity | rewrite Hh; reflexivity].
Qed.

(* edges *)
Lemma findEdge_some : forall es a b i k, findEdge es a b i = Some k -> exists j e, k = i + j /\ nth_error es j = Some e /\ eFrom e = a /\ eTo e = b.
Proof.
  induction es as [|e es IH]; intros a b i k H; [discriminate|]. cbn [findEdge] in H. destruct ((eFrom e =? a) && (eTo e =? b)) eqn:He.
  - injection H as <-. apply andb_prop in He. rewrite !Nat.eqb_eq in He. exists 0, e. split; [lia|]. split; [reflexivity | exact He].
  - destruct (IH a b (S i) k H) as (j & e' & -> & Hj & He'). exists (S j), e'. split; [lia|]. split; [exact Hj | exact He'].
Qed.
Lemma findEdge_none : forall es a b i, findEdge es a b i = None -> ~ In (a, b) (pairs es).
Proof.
  induction es as [|e es IH]; intros a b i H Hin; [destruct Hin|]. cbn [findEdge] in H. destruct ((eFrom e =? a) && (eTo e =? b)) eqn:He; [discriminate|].
  destruct Hin as [Hin | Hin]; [|apply (IH a b (S i) H Hin)]. injection Hin as <- <-. rewrite !Nat.eqb_refl in He. discriminate.
Qed.
Lemma updEdge_nth : forall es i f k, nth_error (updEdge es i f) k = match nth_error es k with Some e => Some (if k =? i then f e else e) | None => None end.
Proof.
  induction es as [|e es IH]; intros i f k; [destruct i, k; reflexivity|].
  destruct i as [|i], k as [|k]; cbn [updEdge nth_error]; try reflexivity.
  - destruct (nth_error es k); reflexivity.
  - rewrite IH. destruct (nth_error es k); [|reflexivity]. change (S k =? S i) with (k =? i). reflexivity.
Qed.
Lemma updEdge_pairs : forall w es i, pairs (updEdge es i (setE w)) = pairs es.
Proof. intros w. induction es as [|e es IH]; intros i; [destruct i; reflexivity|]. destruct i as [|i]; cbn [updEdge map]; [reflexivity|]. rewrite IH. reflexivity. Qed.
Lemma addLines_In : forall ls acc l, In l (fold_left addLine ls acc) <-> In l acc \/ In l ls.
Proof.
  induction ls as [|x ls IH]; intros acc l; cbn [fold_left In]; [tauto|]. rewrite IH. unfold addLine.
  destruct (mem x acc) eqn:Hx; [apply mem_In in Hx; intuition congruence|]. rewrite in_app_iff. cbn [In]. tauto.
Qed.

(* an edge that the step does not concern *)
Lemma EdgeOk_other : forall T s e, EdgeOk level oneway onewayrev linesOf T e -> ~ onStep (eFrom e) (eTo e) s -> EdgeOk level oneway onewayrev linesOf (T ++ [s]) e.
Proof.
  intros T s e [H1 H2 H3 H4] Hn. split.
  - destruct H1 as (x & Hx & Ho). exists x. split; [apply in_or_app; left; exact Hx | exact Ho].
  - intros l. rewrite H2. split; intros (x & Hx & Ho & Hl); exists x; (split; [|split; [exact Ho | exact Hl]]); [apply in_or_app; left; exact Hx|].
    apply in_app_or in Hx. destruct Hx as [Hx | [<- | []]]; [exact Hx | tauto].
  - destruct H3 as (T1 & x & T2 & -> & Ho & Hl & Hv). exists T1, x, (T2 ++ [s]). rewrite <- app_assoc. split; [reflexivity|]. split; [exact Ho|]. split; [|exact Hv].
    intros y Hy. apply in_app_or in Hy. destruct Hy as [Hy | [<- | []]]; [apply Hl; exact Hy | exact Hn].
  - destruct H4 as [(H4 & H5) | (T1 & x & T2 & -> & Ho & Hd & Hl & Hv)].
    + left. split; [exact H4|]. intros y Hy Hoy. apply in_app_or in Hy. destruct Hy as [Hy | [<- | []]]; [apply H5; assumption | tauto].
    + right. exists T1, x, (T2 ++ [s]). rewrite <- app_assoc. split; [reflexivity|]. split; [exact Ho|]. split; [exact Hd|]. split; [|exact Hv].
      intros y Hy Hoy. apply in_app_or in Hy. destruct Hy as [Hy | [<- | []]]; [apply Hl; assumption | tauto].
Qed.
(* the edge of the step *)
Lemma EdgeOk_step : forall T w p q e, EdgeOk level oneway onewayrev linesOf T e \/ (eLines e = [] /\ eOneWay e = 0 /\ forall s, In s T -> ~ onStep (eFrom e) (eTo e) s) ->
  eFrom e = snd p -> eTo e = snd q -> EdgeOk level oneway onewayrev linesOf (T ++ [(w, (p, q))]) (setE w e).
Proof.
  intros T w p q e H Hp Hq. set (s := (w, (p, q)) : step). assert (Hs : onStep (eFrom e) (eTo e) s) by (split; cbn [s fst snd]; congruence).
  assert (Hin : In s (T ++ [s])) by (apply in_or_app; right; left; reflexivity).
  split; cbn [setEdge eFrom eTo eLines eLvl eOneWay].
  - exists s. tauto.
  - intros l. rewrite addLines_In. split.
    + intros [Hl | Hl]; [|exists s; tauto]. destruct H as [[_ H2 _ _] | (H0 & _)]; [|rewrite H0 in Hl; destruct Hl].
      apply H2 in Hl. destruct Hl as (x & Hx & Ho & Hl). exists x. split; [apply in_or_app; left; exact Hx | tauto].
    + intros (x & Hx & Ho & Hl). apply in_app_or in Hx. destruct Hx as [Hx | [<- | []]]; [|right; exact Hl].
      destruct H as [[_ H2 _ _] | (_ & _ & H0)]; [left; apply H2; exists x; tauto | exfalso; apply (H0 x Hx Ho)].
  - exists T, s, []. split; [reflexivity|]. split; [exact Hs|]. split; [intros x [] | reflexivity].
  - destruct (onewayrev (wAttrs w)) eqn:Hr; [|destruct (oneway (wAttrs w)) eqn:Ho].
    + right. exists T, s, []. split; [reflexivity|]. split; [exact Hs|]. split; [right; exact Hr|]. split; [intros x [] | left; split; [exact Hr | reflexivity]].
    + right. exists T, s, []. split; [reflexivity|]. split; [exact Hs|]. split; [left; exact Ho|]. split; [intros x [] | right; split; [exact Hr | reflexivity]].
    + assert (Hnd : ~ directed oneway onewayrev (fst s)) by (intros [Hd | Hd]; cbn [s fst] in Hd; congruence).
      destruct H as [[_ _ _ H4] | (_ & H0 & H1)].
      * destruct H4 as [(H4 & H5) | (T1 & x & T2 & -> & Hox & Hd & Hl & Hv)].
        -- left. split; [exact H4|]. intros y Hy Hoy. apply in_app_or in Hy. destruct Hy as [Hy | [<- | []]]; [apply H5; assumption | exact Hnd].
        -- right. exists T1, x, (T2 ++ [s]). rewrite <- app_assoc. split; [reflexivity|]. split; [exact Hox|]. split; [exact Hd|]. split; [|exact Hv].
           intros y Hy Hoy. apply in_app_or in Hy. destruct Hy as [Hy | [<- | []]]; [apply Hl; assumption | exact Hnd].
      * left. split; [exact H0|]. intros y Hy Hoy. apply in_app_or in Hy. destruct Hy as [Hy | [<- | []]]; [exfalso; apply (H1 y Hy Hoy) | exact Hnd].
Qed.

Lemma Forall2_imp : forall A B (Q R : A -> B -> Prop) l l', (forall a b, Q a b -> R a b) -> Forall2 Q l l' -> Forall2 R l l'.
Proof. intros A B Q R l l' H HF. induction HF; constructor; [apply H; assumption | assumption]. Qed.
Lemma NoDup_pairs_inj : forall es i j e e', NoDup (pairs es) -> nth_error es i = Some e -> nth_error es j = Some e' -> eFrom e = eFrom e' -> eTo e = eTo e' -> i = j.
Proof.
  intros es i j e e' Hnd Hi Hj Hf Ht. apply (proj1 (NoDup_nth_error (pairs es)) Hnd).
  - rewrite map_length. apply nth_error_Some. congruence.
  - rewrite (map_nth_error _ _ _ Hi), (map_nth_error _ _ _ Hj). congruence.
Qed.

Lemma addEdge_ok : forall T g w lid l nid n, EI T g -> EI (T ++ [(w, ((lid, l), (nid, n)))]) (addEdge level oneway onewayrev linesOf w g lid l nid n) .
Proof.
  intros T g w lid l nid n [H1 H2 H3 H4]. set (s := (w, ((lid, l), (nid, n))) : step).
  assert (Hst : forall a b, (exists x, In x (T ++ [s]) /\ onStep a b x) <-> (exists x, In x T /\ onStep a b x) \/ (a = l /\ b = n)).
  { intros a b. split.
    - intros (x & Hx & Ho). apply in_app_or in Hx. destruct Hx as [Hx | [<- | []]]; [left; exists x; tauto|]. right. destruct Ho as (Ha & Hb). cbn [s fst snd] in *. split; congruence.
    - intros [(x & Hx & Ho) | (-> & ->)]; [exists x; split; [apply in_or_app; left; exact Hx | exact Ho]|]. exists s. split; [apply in_or_app; right; left; reflexivity | split; reflexivity]. }
  unfold addEdge. destruct (findEdge (gEdges g) l n 0) as [i|] eqn:Hf.
  - apply findEdge_some in Hf. destruct Hf as (j & e & Hij & Hj & Hef & Het). cbn [plus] in Hij. subst i.
    assert (Hpl : In (l, n) (pairs (gEdges g))). { apply nth_error_In in Hj. apply in_map_iff. exists e. split; [congruence | exact Hj]. }
    split; cbn [gEdges gSegs].
    + rewrite updEdge_pairs. exact H1.
    + intros a b. rewrite updEdge_pairs, H2, Hst. split; [tauto|]. intros [H | (-> & ->)]; [exact H | apply H2; exact Hpl].
    + intros e' He'. apply In_nth_error in He'. destruct He' as (k & Hk). rewrite updEdge_nth in Hk. destruct (nth_error (gEdges g) k) as [e0|] eqn:Hk0; [|discriminate].
      injection Hk as <-. destruct (k =? j) eqn:Hkj.
      * apply Nat.eqb_eq in Hkj. subst k. rewrite Hj in Hk0. injection Hk0 as <-. apply EdgeOk_step; [left; apply H3; apply nth_error_In in Hj; exact Hj | exact Hef | exact Het].
      * apply Nat.eqb_neq in Hkj. apply EdgeOk_other; [apply H3; apply nth_error_In in Hk0; exact Hk0|]. intros (Ha & Hb). cbn [s fst snd] in Ha, Hb. apply Hkj.
        apply (NoDup_pairs_inj (gEdges g) k j e0 e H1 Hk0 Hj); congruence.
    + assert (Hkeep : forall k e0, nth_error (gEdges g) k = Some e0 -> exists e1, nth_error (updEdge (gEdges g) j (setE w)) k = Some e1 /\ eFrom e1 = eFrom e0 /\ eTo e1 = eTo e0).
      { intros k e0 Hk. rewrite updEdge_nth, Hk. eexists. split; [reflexivity|]. destruct (k =? j); split; reflexivity. }
      apply Forall2_app.
      * revert H4. apply Forall2_imp. intros x t (Ha & Hb & Hc & e0 & He0 & Hf0 & Ht0). destruct (Hkeep _ _ He0) as (e1 & He1 & Hf1 & Ht1).
        split; [exact Ha|]. split; [exact Hb|]. split; [exact Hc|]. exists e1. split; [exact He1|]. split; congruence.
      * constructor; [|constructor]. cbn [sgWay sgLastId sgLast sgId sgN sgEdge s fst snd]. repeat split. destruct (Hkeep _ _ Hj) as (e1 & He1 & Hf1 & Ht1). exists e1. split; [exact He1|]. split; congruence.
  - apply findEdge_none in Hf. set (e := mkEdge l n [] 0 0).
    assert (Hpairs : pairs (gEdges g ++ [e]) = pairs (gEdges g) ++ [(l, n)]) by (rewrite map_app; reflexivity).
    split; cbn [gEdges gSegs].
    + rewrite updEdge_pairs, Hpairs. clear - H1 Hf. induction (pairs (gEdges g)) as [|x r IH]; cbn [app]; [constructor; [intros [] | constructor]|].
      inversion H1 as [|? ? Hx Hr]; subst. constructor; [|apply IH; [exact Hr | intros H; apply Hf; right; exact H]].
      intros H. apply in_app_or in H. destruct H as [H | [H | []]]; [tauto|]. apply Hf. left. congruence.
    + intros a b. rewrite updEdge_pairs, Hpairs, in_app_iff, H2, Hst. cbn [In]. split; [intros [H | [H | []]]; [tauto | injection H as <- <-; tauto] | intros [H | (-> & ->)]; tauto].
    + intros e' He'. apply In_nth_error in He'. destruct He' as (k & Hk). rewrite updEdge_nth in Hk. destruct (nth_error (gEdges g ++ [e]) k) as [e0|] eqn:Hk0; [|discriminate].
      injection Hk as <-. apply nth_snoc_cases in Hk0. destruct Hk0 as [Hk0 | (-> & <-)].
      * assert (Hlt : k < length (gEdges g)) by (apply nth_error_Some; congruence). destruct (k =? length (gEdges g)) eqn:Hkj; [apply Nat.eqb_eq in Hkj; lia|].
        apply EdgeOk_other; [apply H3; apply nth_error_In in Hk0; exact Hk0|]. intros (Ha & Hb). cbn [s fst snd] in Ha, Hb. apply Hf.
        apply nth_error_In in Hk0. apply in_map_iff. exists e0. split; [congruence | exact Hk0].
      * rewrite Nat.eqb_refl. apply EdgeOk_step; [right | reflexivity | reflexivity]. split; [reflexivity|]. split; [reflexivity|].
        intros x Hx Ho. apply Hf. apply H2. exists x. split; [exact Hx | exact Ho].
    + assert (Hkeep : forall k e0, nth_error (gEdges g ++ [e]) k = Some e0 -> exists e1, nth_error (updEdge (gEdges g ++ [e]) (length (gEdges g)) (setE w)) k = Some e1 /\ eFrom e1 = eFrom e0 /\ eTo e1 = eTo e0).
      { intros k e0 Hk. rewrite updEdge_nth, Hk. eexists. split; [reflexivity|]. destruct (k =? length (gEdges g)); split; reflexivity. }
      apply Forall2_app.
      * revert H4. apply Forall2_imp. intros x t (Ha & Hb & Hc & e0 & He0 & Hf0 & Ht0).
        assert (He0' : nth_error (gEdges g ++ [e]) (sgEdge t) = Some e0) by (rewrite nth_error_app1; [exact He0 | apply nth_error_Some; congruence]).
        destruct (Hkeep _ _ He0') as (e1 & He1 & Hf1 & Ht1).
        split; [exact Ha|]. split; [exact Hb|]. split; [exact Hc|]. exists e1. split; [exact He1|]. split; congruence.
      * constructor; [|constructor]. cbn [sgWay sgLastId sgLast sgId sgN sgEdge s fst snd]. repeat split.
        assert (He0' : nth_error (gEdges g ++ [e]) (length (gEdges g)) = Some e) by (rewrite nth_error_app2, Nat.sub_diag by lia; reflexivity).
        destruct (Hkeep _ _ He0') as (e1 & He1 & Hf1 & Ht1). exists e1. split; [exact He1|]. split; [rewrite Hf1 | rewrite Ht1]; reflexivity.
Qed.

Definition lastOf {A : Type} (l : list A) : option A := match rev l with [] => None | x :: _ => Some x end.
Lemma neighbours_snoc : forall A (l : list A) x, neighbours (l ++ [x]) = neighbours l ++ match lastOf l with Some y => [(y, x)] | None => [] end.
Proof.
  intros A l x. induction l as [|a l IH]; [reflexivity|]. destruct l as [|b l]; [reflexivity|].
  change (neighbours ((a :: b :: l) ++ [x])) with ((a, b) :: neighbours ((b :: l) ++ [x])). rewrite IH.
  change (neighbours (a :: b :: l)) with ((a, b) :: neighbours (b :: l)). cbn [app]. f_equal. f_equal.
  unfold lastOf. cbn [rev]. destruct (rev l ++ [b]) as [|y r] eqn:Hr; [destruct (rev l); discriminate|]. reflexivity.
Qed.
Lemma lastOf_snoc : forall A (l : list A) x, lastOf (l ++ [x]) = Some x.
Proof. intros A l x. unfold lastOf. rewrite rev_app_distr. reflexivity. Qed.

Lemma NI_ext : forall O g g', NI O g -> gSize g' = gSize g -> gNodes g' = gNodes g -> gMult g' = gMult g -> NI O g'.
Proof. intros O g g' [H1 H2 H3 H4 H5] E1 E2 E3. split; try assumption; rewrite ?E1, ?E2, ?E3; assumption. Qed.
Lemma EI_ext : forall T g g', EI T g -> gEdges g' = gEdges g -> gSegs g' = gSegs g -> EI T g'.
Proof. intros T g g' [H1 H2 H3 H4] E1 E2. split; rewrite ?E1, ?E2; assumption. Qed.

Lemma way_fold : forall w ids O T g Ow, NI (O ++ Ow) g -> EI (T ++ map (fun s => (w, s)) (neighbours Ow)) g ->
  exists Ow', map fst Ow' = map fst Ow ++ filter (fun id => hup id || has id) ids /\
    let g' := fst (fold_left (wayStep level oneway onewayrev linesOf hup has w) ids (g, lastOf Ow)) in
    NI (O ++ Ow') g' /\ EI (T ++ map (fun s => (w, s)) (neighbours Ow')) g'.
Proof.
  intros w. induction ids as [|nid ids IH]; intros O T g Ow HN HE.
  - exists Ow. cbn [filter fold_left fst]. rewrite app_nil_r. tauto.
  - cbn [fold_left].
    assert (Hst : wayStep level oneway onewayrev linesOf hup has w (g, lastOf Ow) nid = match nodeFor hup has g nid with
      | None => (g, lastOf Ow)
      | Some (n, g) => (match lastOf Ow with Some (lastId, l) => addEdge level oneway onewayrev linesOf w g lastId l nid n | None => g end, Some (nid, n)) end) by reflexivity.
    rewrite Hst. clear Hst. assert (Hn := nodeFor_ok (O ++ Ow) g nid HN). destruct (nodeFor hup has g nid) as [[n g1]|].
    + destruct Hn as (Hu & HN1 & Heq & Hsg). cbn [filter]. rewrite Hu.
      assert (HE1 : EI (T ++ map (fun s => (w, s)) (neighbours Ow)) g1) by (apply (EI_ext _ g); assumption).
      destruct (IH O T (match lastOf Ow with Some (lid, l) => addEdge level oneway onewayrev linesOf w g1 lid l nid n | None => g1 end) (Ow ++ [(nid, n)])) as (Ow' & Hm & HN' & HE').
      * rewrite app_assoc. destruct (lastOf Ow) as [[lid l]|]; [|exact HN1]. apply (NI_ext _ g1); [exact HN1 | reflexivity | reflexivity | reflexivity].
      * rewrite neighbours_snoc, map_app, app_assoc. destruct (lastOf Ow) as [[lid l]|]; [cbn [map]; apply addEdge_ok; exact HE1 | cbn [map]; rewrite app_nil_r; exact HE1].
      * exists Ow'. split; [rewrite Hm, map_app, <- app_assoc; reflexivity|]. rewrite lastOf_snoc in HN', HE'. split; [exact HN' | exact HE'].
    + cbn [filter]. rewrite Hn. apply IH; assumption.
Qed.

Lemma ways_fold : forall ws O0 T0 g, NI O0 g -> EI T0 g -> exists O, map (map fst) O = map (usedNodes hup has) ws /\
  let g' := fold_left (wayEdges level oneway onewayrev linesOf hup has) ws g in
  NI (O0 ++ concat O) g' /\ EI (T0 ++ flat_map (fun p => map (fun s => (fst p, s)) (neighbours (snd p))) (combine ws O)) g'.
Proof.
  induction ws as [|w ws IH]; intros O0 T0 g HN HE.
  - exists []. cbn. rewrite !app_nil_r. tauto.
  - cbn [fold_left].
    change (wayEdges level oneway onewayrev linesOf hup has g w) with (fst (fold_left (wayStep level oneway onewayrev linesOf hup has w) (wNodes w) (g, None))).
    destruct (way_fold w (wNodes w) O0 T0 g []) as (Ow & Hm & HN1 & HE1); [rewrite app_nil_r; exact HN | cbn [neighbours map]; rewrite app_nil_r; exact HE|].
    cbn [map app] in Hm. change (lastOf (@nil (nat * nat))) with (@None (nat * nat)) in HN1, HE1.
    destruct (IH _ _ _ HN1 HE1) as (O & HmO & HN2 & HE2). exists (Ow :: O). split; [cbn [map]; rewrite HmO; f_equal; exact Hm|].
    cbn [concat combine flat_map fst snd]. rewrite !app_assoc. split; [exact HN2 | exact HE2].
Qed.

Lemma neighbours_map : forall A B (f : A -> B) l, neighbours (map f l) = map (fun p => (f (fst p), f (snd p))) (neighbours l).
Proof. intros A B f. induction l as [|a l IH]; [reflexivity|]. destruct l as [|b l]; [reflexivity|]. cbn [map neighbours] in *. rewrite IH. reflexivity. Qed.

Lemma graph_ok : forall ws, exists O, GraphOf level oneway onewayrev linesOf hup has ws (readEdges level oneway onewayrev linesOf hup has ws) O.
Proof.
  intros ws. destruct (ways_fold ws [] [] emptyGraph) as (O & Hm & [Hu Hs Hz Hk Hmu] & [H1 H2 H3 H4]).
  - split.
    + intros id v [].
    + intros i j id v id' v' H. destruct i; discriminate.
    + intros v. cbn. split; [lia | intros []].
    + intros id v. cbn. tauto.
    + intros id v. cbn. tauto.
  - split; [constructor | | intros e [] | constructor]. intros a b. cbn. split; [intros [] | intros (s & [] & _)].
  - cbn [app] in *. exists O. fold (readEdges level oneway onewayrev linesOf hup has ws) in *. split; try assumption.
    intros a b. rewrite H2. split.
    + intros (s & Hin & Ho). apply in_flat_map in Hin. destruct Hin as ((w & l) & Hwl & Hin). cbn [fst snd] in Hin. apply in_map_iff in Hin. destruct Hin as (p & <- & Hp).
      exists l. split; [apply in_combine_r in Hwl; exact Hwl|]. rewrite neighbours_map. apply in_map_iff. exists p. split; [|exact Hp].
      destruct Ho as (Ha & Hb). cbn [fst snd] in Ha, Hb. congruence.
    + intros (l & Hl & Hin). rewrite neighbours_map in Hin. apply in_map_iff in Hin. destruct Hin as (p & Hp & Hin).
      assert (Hw : exists w, In (w, l) (combine ws O)).
      { clear - Hm Hl. revert O Hm Hl. induction ws as [|w ws IH]; intros [|o O] Hm Hl; try discriminate; [destruct Hl|]. cbn [map] in Hm. injection Hm as _ Hm.
        destruct Hl as [<- | Hl]; [exists w; left; reflexivity|]. destruct (IH O Hm Hl) as (w' & Hw'). exists w'. right. exact Hw'. }
      destruct Hw as (w & Hw). exists (w, p). split; [|split; cbn [fst snd]; congruence]. apply in_flat_map. exists (w, l). split; [exact Hw|]. cbn [fst snd]. apply in_map. exact Hin.
Qed.
End GraphP.

(** ** The nodes *)
Section NodesP.
Context {P SI : Type}.
Notation node := (@node P).
Variable statInfo : nat -> list (string * string) -> option SI.
Variable station blocker turnCycle : list (string * string) -> bool.
Variable level : list (string * string) -> nat.
Variable oneway onewayrev : list (string * string) -> bool.
Variable linesOf : nat -> list nat.
Variable hup has : nat -> bool.
Variable ws : list way.
Variable g : graph.
Variable O : list (list (nat * nat)).
Hypothesis HG : GraphOf level oneway onewayrev linesOf hup has ws g O.
Notation fillN := (fill statInfo station blocker turnCycle).
Notation stepN := (readNode statInfo station blocker turnCycle g).

Lemma same_id : forall id id' v, In (id, v) (concat O) -> In (id', v) (concat O) -> id = id'.
Proof.
  intros id id' v H1 H2. destruct HG as [_ Hs _ _ _ _ _ _ _].
  apply In_nth_error in H1. destruct H1 as (i & Hi). apply In_nth_error in H2. destruct H2 as (j & Hj).
  destruct (Nat.eq_dec i j) as [-> | Hne]; [congruence|]. apply (Hs i j id v id' v Hi Hj Hne). reflexivity.
Qed.
Lemma v_lt : forall id v, In (id, v) (concat O) -> v < gSize g.
Proof. intros id v H. destruct HG as [_ _ Hz _ _ _ _ _ _]. apply Hz. apply (in_map snd) in H. exact H. Qed.
Lemma setPay_other : forall (f : nat -> @payload P SI) n p x, x <> n -> setPay f n p x = f x.
Proof. intros f n p x H. unfold setPay. apply Nat.eqb_neq in H. rewrite H. reflexivity. Qed.
Lemma setPay_same : forall (f : nat -> @payload P SI) n p, setPay f n p n = p.
Proof. intros f n p. unfold setPay. rewrite Nat.eqb_refl. reflexivity. Qed.
Lemma fill_twice : forall nd : node, fillN nd (fillN nd (mkPay None Plain)) = fillN nd (mkPay None Plain).
Proof.
  intros nd. unfold fill. cbn [pState]. f_equal. destruct (station (nAttrs nd)); [destruct (statInfo (nId nd) (nAttrs nd)); reflexivity|].
  destruct (blocker (nAttrs nd)); [reflexivity|]. destruct (turnCycle (nAttrs nd)); reflexivity.
Qed.
Lemma setAll : forall (nd : node) l (f : nat -> @payload P SI) x,
  (forall y, In y l -> f y = mkPay None Plain \/ f y = fillN nd (mkPay None Plain)) ->
  fold_left (fun f n => setPay f n (fillN nd (f n))) l f x = if mem x l then fillN nd (mkPay None Plain) else f x.
Proof.
  intros nd. induction l as [|y l IH]; intros f x Hd; [reflexivity|]. cbn [fold_left].
  assert (Hy : fillN nd (f y) = fillN nd (mkPay None Plain)). { destruct (Hd y (or_introl eq_refl)) as [-> | ->]; [reflexivity | apply fill_twice]. }
  rewrite Hy. rewrite IH.
  - unfold mem. cbn [existsb]. fold (mem x l). destruct (mem x l); [rewrite orb_true_r; reflexivity|]. rewrite orb_false_r. unfold setPay. destruct (x =? y); reflexivity.
  - intros z Hz. unfold setPay. destruct (z =? y); [right; reflexivity|]. apply Hd. right. exact Hz.
Qed.
Lemma fill_state : forall nd : node, StateOf statInfo station blocker turnCycle (nId nd) (nAttrs nd) (pState (fillN nd (mkPay None Plain))).
Proof.
  intros nd. unfold fill. cbn [pState]. destruct (station (nAttrs nd)) eqn:H1.
  - destruct (statInfo (nId nd) (nAttrs nd)) eqn:H2; [apply SO_station; assumption | apply SO_null; assumption].
  - destruct (blocker (nAttrs nd)) eqn:H2; [apply SO_blocker; assumption|]. destruct (turnCycle (nAttrs nd)) eqn:H3; [apply SO_turn; assumption | apply SO_plain; assumption].
Qed.

(* what the nodes read so far have set *)
Record PI (nl : list node) (xs : list node) (s : @ngraph P SI) : Prop := {
  pi_read : forall nd v, In nd nl -> In (nId nd, v) (concat O) -> ngPay s v = fillN nd (mkPay None Plain);
  pi_unread : forall id v, In (id, v) (concat O) -> (forall nd, In nd nl -> nId nd <> id) -> ngPay s v = mkPay None Plain;
  pi_xs : Picked (fun nd => ~ In (nId nd) (map fst (concat O)) /\ station (nAttrs nd) = true) (fun nd => nd) nl xs;
  pi_size : ngSize s = gSize g + length xs;
  pi_extra : forall i nd, nth_error xs i = Some nd -> ngPay s (gSize g + i) = fillN nd (mkPay None Plain) /\ (In (gSize g + i) (orphans s) <-> statInfo (nId nd) (nAttrs nd) <> None);
  pi_orph : forall k, In k (orphans s) -> gSize g <= k < ngSize s
}.
Lemma Picked_snoc : forall (W : node -> Prop) l l' x, Picked W (fun n => n) l l' ->
  (W x -> Picked W (fun n => n) (l ++ [x]) (l' ++ [x])) /\ (~ W x -> Picked W (fun n => n) (l ++ [x]) l').
Proof.
  intros W l l' x H. induction H as [|e es r HW H IH | e es r HW H IH]; cbn [app].
  - split; intros Hx; [apply P_take with (val := fun n : node => n); [exact Hx | apply P_nil] | apply P_skip; [exact Hx | apply P_nil]].
  - split; intros Hx; apply P_take with (val := fun n : node => n); try exact HW; apply IH; exact Hx.
  - split; intros Hx; (apply P_skip; [exact HW|]); apply IH; exact Hx.
Qed.
(* nodes in the middle of no way *)
Lemma used_split : forall id, In id (map fst (concat O)) <-> (exists v, In (id, v) (gNodes g)) \/ (exists v, In (id, v) (gMult g)).
Proof.
  intros id. destruct HG as [_ _ _ Hk Hm _ _ _ _]. split.
  - intros H. apply in_map_iff in H. destruct H as ([i v] & Hi & Hin). cbn [fst] in Hi. subst i. destruct (hup id) eqn:Hh; [right; exists v; apply Hm | left; exists v; apply Hk]; tauto.
  - intros [(v & H) | (v & H)]; [apply Hk in H | apply Hm in H]; destruct H as (H & _); apply (in_map fst) in H; exact H.
Qed.

Lemma step_ok : forall nl xs s nd, PI nl xs s -> ~ In (nId nd) (map nId nl) ->
  exists xs', PI (nl ++ [nd]) xs' (stepN s nd).
Proof.
  intros nl xs s nd [H1 H2 H3 H4 H5 H6] Hnew. assert (Hun := used_split (nId nd)).
  assert (Hfresh : forall v, In (nId nd, v) (concat O) -> ngPay s v = mkPay None Plain).
  { intros v Hv. apply (H2 (nId nd) v Hv). intros nd' Hin Heq. apply Hnew. rewrite <- Heq. apply in_map. exact Hin. }
  (* setting the nodes of this id, and nothing else *)
  assert (Hset : forall f, (forall v, In (nId nd, v) (concat O) -> f v = fillN nd (mkPay None Plain)) -> (forall v, ~ In (nId nd, v) (concat O) -> f v = ngPay s v) ->
            (exists v, In (nId nd, v) (concat O)) -> PI (nl ++ [nd]) xs (mkNG (ngSize s) f (orphans s))).
  { intros f Hf1 Hf2 (v0 & Hv0). split; cbn [ngPay ngSize orphans].
    - intros nd' v Hin Hv. apply in_app_or in Hin. destruct Hin as [Hin | [<- | []]]; [|apply Hf1; exact Hv].
      rewrite Hf2; [apply H1; assumption|]. intros Hv'. apply Hnew. rewrite (same_id _ _ _ Hv' Hv). apply in_map. exact Hin.
    - intros id v Hv Hno. rewrite Hf2; [apply (H2 id v Hv); intros nd' Hin; apply Hno; apply in_or_app; left; exact Hin|].
      intros Hv'. apply (Hno nd); [apply in_or_app; right; left; reflexivity | apply (same_id _ _ _ Hv' Hv)].
    - apply (Picked_snoc _ _ _ nd H3). intros (Hn & _). apply Hn. apply (in_map fst) in Hv0. exact Hv0.
    - exact H4.
    - intros i nd' Hi. rewrite Hf2; [apply H5; exact Hi|]. intros Hv. apply v_lt in Hv. lia.
    - exact H6. }
  unfold readNode. destruct (lookup (gNodes g) (nId nd)) as [n|] eqn:Hl.
  - apply lookup_In in Hl. assert (HnO : In (nId nd, n) (concat O)) by (destruct HG as [_ _ _ Hk _ _ _ _ _]; apply Hk in Hl; tauto).
    assert (Hhup : hup (nId nd) = false) by (destruct HG as [_ _ _ Hk _ _ _ _ _]; apply Hk in Hl; tauto).
    exists xs. apply Hset.
    + intros v Hv. assert (v = n).
      { destruct HG as [_ Hs _ _ _ _ _ _ _]. apply In_nth_error in Hv. destruct Hv as (i & Hi). apply In_nth_error in HnO. destruct HnO as (j & Hj).
        destruct (Nat.eq_dec i j) as [-> | Hne]; [congruence|]. apply (Hs i j _ _ _ _ Hi Hj Hne). tauto. }
      subst v. rewrite setPay_same, (Hfresh n HnO). reflexivity.
    + intros v Hv. apply setPay_other. intros ->. tauto.
    + exists n. exact HnO.
  - destruct (map snd (filter (fun x => fst x =? nId nd) (gMult g))) as [|n0 rest0] eqn:Hmu.
    + (* on no way *)
      assert (Hno : ~ In (nId nd) (map fst (concat O))).
      { rewrite Hun. intros [(v & Hv) | (v & Hv)]; [apply (lookup_None _ _ v Hl Hv)|].
        assert (Hin : In v (map snd (filter (fun x => fst x =? nId nd) (gMult g)))). { apply in_map_iff. exists (nId nd, v). split; [reflexivity|]. apply filter_In. split; [exact Hv | apply Nat.eqb_refl]. }
        rewrite Hmu in Hin. destruct Hin. }
      assert (HnoO : forall v, ~ In (nId nd, v) (concat O)). { intros v Hv. apply Hno. apply (in_map fst) in Hv. exact Hv. }
      destruct (station (nAttrs nd)) eqn:Hst.
      * exists (xs ++ [nd]). split; cbn [ngPay ngSize orphans].
        -- intros nd' v Hin Hv. assert (Hvl := v_lt _ _ Hv). rewrite setPay_other by lia. apply in_app_or in Hin. destruct Hin as [Hin | [<- | []]]; [apply H1; assumption | exfalso; apply (HnoO v Hv)].
        -- intros id v Hv Hno'. assert (Hvl := v_lt _ _ Hv). rewrite setPay_other by lia. apply (H2 id v Hv). intros nd' Hin. apply Hno'. apply in_or_app. left. exact Hin.
        -- apply (Picked_snoc _ _ _ nd H3). tauto.
        -- rewrite H4, app_length. cbn. lia.
        -- intros i nd' Hi. apply nth_snoc_cases in Hi. destruct Hi as [Hi | (-> & <-)].
           ++ assert (Hlt : i < length xs) by (apply nth_error_Some; congruence). rewrite setPay_other by lia. destruct (H5 i nd' Hi) as (H51 & H52). split; [exact H51|].
              rewrite <- H52. destruct (statInfo (nId nd) (nAttrs nd)); [|tauto]. rewrite in_app_iff. cbn [In]. split; [intros [H | [H | []]]; [exact H | lia] | tauto].
           ++ rewrite <- H4, setPay_same. split; [unfold fill; cbn [pState]; rewrite Hst; reflexivity|].
              destruct (statInfo (nId nd) (nAttrs nd)) eqn:Hsi.
              ** split; [intros _; discriminate | intros _; apply in_or_app; right; left; reflexivity].
              ** split; [|congruence]. intros Hin. apply H6 in Hin. lia.
        -- intros k Hk. destruct (statInfo (nId nd) (nAttrs nd)).
           ++ apply in_app_or in Hk. destruct Hk as [Hk | [<- | []]]; [apply H6 in Hk; lia | lia].
           ++ apply H6 in Hk. lia.
      * exists xs. split; try assumption.
        -- intros nd' v Hin Hv. apply in_app_or in Hin. destruct Hin as [Hin | [<- | []]]; [apply H1; assumption | exfalso; apply (HnoO v Hv)].
        -- intros id v Hv Hno'. apply (H2 id v Hv). intros nd' Hin. apply Hno'. apply in_or_app. left. exact Hin.
        -- apply (Picked_snoc _ _ _ nd H3). intros (_ & Hs'). congruence.
    + rewrite <- Hmu. assert (Hne : exists v0, In v0 (map snd (filter (fun x => fst x =? nId nd) (gMult g)))) by (exists n0; rewrite Hmu; left; reflexivity). clear Hmu n0 rest0.
      set (vs := map snd (filter (fun x => fst x =? nId nd) (gMult g))).
      assert (Hvs : forall v, In v vs <-> In (nId nd, v) (concat O)).
      { intros v. unfold vs. rewrite in_map_iff. destruct HG as [_ _ _ Hk Hm _ _ _ _]. split.
        - intros ([i v'] & Hv & Hin). cbn [snd] in Hv. subst v'. apply filter_In in Hin. destruct Hin as (Hin & Hi). cbn [fst] in Hi. apply Nat.eqb_eq in Hi. subst i. apply Hm in Hin. tauto.
        - intros Hv. exists (nId nd, v). split; [reflexivity|]. apply filter_In. cbn [fst]. split; [|apply Nat.eqb_refl]. apply Hm. split; [exact Hv|].
          destruct (hup (nId nd)) eqn:Hh; [reflexivity|]. exfalso. apply (lookup_None _ _ v Hl). apply Hk. tauto. }
      assert (Hall : forall x, fold_left (fun f n => setPay f n (fillN nd (f n))) vs (ngPay s) x = if mem x vs then fillN nd (mkPay None Plain) else ngPay s x).
      { intros x. apply setAll. intros y Hy. left. apply Hfresh. apply Hvs. exact Hy. }
      exists xs. apply Hset.
      * intros v Hv. rewrite Hall. apply Hvs in Hv. apply mem_In in Hv. rewrite Hv. reflexivity.
      * intros v Hv. rewrite Hall. rewrite <- Hvs in Hv. apply mem_notIn in Hv. rewrite Hv. reflexivity.
      * destruct Hne as (v0 & Hv0). exists v0. apply Hvs. exact Hv0.
Qed.
Lemma nodes_ok : forall nl : list node, NoDup (map nId nl) -> NodesOk statInfo station blocker turnCycle g O nl (readNodes statInfo station blocker turnCycle g nl).
Proof.
  intros nl Hnd.
  assert (H : forall l l0 xs s, NoDup (map nId (l0 ++ l)) -> PI l0 xs s -> exists xs', PI (l0 ++ l) xs' (fold_left stepN l s)).
  { induction l as [|nd l IH]; intros l0 xs s Hn HP; [exists xs; rewrite app_nil_r; exact HP|]. cbn [fold_left].
    destruct (step_ok l0 xs s nd HP) as (xs' & HP').
    - rewrite map_app in Hn. cbn [map] in Hn. apply NoDup_remove_2 in Hn. intros Hin. apply Hn. apply in_or_app. left. exact Hin.
    - destruct (IH (l0 ++ [nd]) xs' (stepN s nd)) as (xs2 & HP2); [rewrite <- app_assoc; exact Hn | exact HP'|]. exists xs2. rewrite <- app_assoc in HP2. exact HP2. }
  destruct (H nl [] [] (mkNG (gSize g) (fun _ => mkPay None Plain) [])) as (xs & [H1 H2 H3 H4 H5 H6]).
  - exact Hnd.
  - split; cbn [ngPay ngSize orphans].
    + intros nd v [].
    + reflexivity.
    + apply P_nil.
    + cbn. lia.
    + intros i nd Hi. destruct i; discriminate.
    + intros k [].
  - cbn [app] in *. split.
    + intros id v nd Hv Hin <-. unfold readNodes. rewrite (H1 nd v Hin Hv). split; [reflexivity | apply fill_state].
    + exact H2.
    + exists xs. split; [exact H3|]. split; [exact H4|]. intros i nd Hi. destruct (H5 i nd Hi) as (H51 & H52). unfold readNodes. rewrite H51. split; [reflexivity|]. split; [apply fill_state | exact H52].
    + exact H6.
Qed.
End NodesP.

(** ** All together *)
Lemma Picked_NoDup : forall A B K (W : B -> Prop) (vl : B -> A) (k : A -> K) (k' : B -> K) es l, (forall e, k (vl e) = k' e) -> Picked W vl es l -> NoDup (map k' es) -> NoDup (map k l).
Proof.
  intros A B K W vl k k' es l Hk H. induction H as [|e es l HW H IH | e es l HW H IH]; intros Hnd; [constructor| |inversion Hnd; apply IH; assumption].
  cbn [map] in *. inversion Hnd as [|? ? Hni Hnd']; subst. constructor; [|apply IH; exact Hnd'].
  intros Hin. apply Hni. rewrite Hk in Hin. apply in_map_iff in Hin. destruct Hin as (a & Ha & Hin). apply (Picked_In _ _ _ _ _ _ H) in Hin. destruct Hin as (e' & He' & _ & <-). rewrite Hk in Ha. rewrite <- Ha. apply in_map. exact He'.
Qed.
Section All.
Context {P SI : Type}.
Notation elem := (@elem P).
Notation tok := (@tok P).

Lemma file_graph : forall E (c : @cfg P) ns ws rs (pre : list tok) n c0 level oneway onewayrev linesOf (statInfo : nat -> list (string * string) -> option SI) station blocker turnCycle,
  Forall nodeElem ns -> Forall wayElem ws -> Forall relElem rs -> Forall noNodes pre -> ns <> [] -> ws <> [] ->
  length ns < n -> length ws < n -> length rs < n -> NoDup (map idOf ns) ->
  exists r wl g nl O hup has,
    readFile E c (fun b r ws => readEdges level oneway onewayrev (linesOf r) (hasHup c b) (hasBox c b) ws) n (mkXml c0 (pre ++ text ns ++ text ws ++ text rs)) = Some (r, wl, g, nl) /\
    (forall id, hup id = true <-> NoHup c ns id) /\ (forall id, has id = true <-> InBox c ns id) /\
    Picked (WayWanted c ns rs) (wayVal c) ws wl /\
    GraphOf level oneway onewayrev (linesOf r) hup has wl g O /\
    NodesOk statInfo station blocker turnCycle g O nl (readNodes statInfo station blocker turnCycle g nl) /\
    forall id v e, In (id, v) (concat O) -> In e ns -> idOf e = id -> id <> 0 -> ~ NoHup c ns id \/ InBox c ns id ->
      pPos (ngPay (readNodes statInfo station blocker turnCycle g nl) v) = posOf e.
Proof.
  intros E c ns ws rs pre n c0 level oneway onewayrev linesOf statInfo station blocker turnCycle Hns Hws Hrs Hpre Hns0 Hws0 Hn1 Hn2 Hn3 Hnd.
  destruct (file_read E c ns ws rs Hns Hws Hrs pre Hpre Hns0 Hws0 n c0 (fun b r ws => readEdges level oneway onewayrev (linesOf r) (hasHup c b) (hasBox c b) ws) Hn1 Hn2 Hn3)
    as (b & r & rl & wl & nl & Hread & _ & _ & _ & Hwp & Hnp & Hbox & Hhup).
  set (g := readEdges level oneway onewayrev (linesOf r) (hasHup c b) (hasBox c b) wl) in *.
  destruct (graph_ok level oneway onewayrev (linesOf r) (hasHup c b) (hasBox c b) wl) as (O & HG). fold g in HG.
  assert (HN : NodesOk statInfo station blocker turnCycle g O nl (readNodes statInfo station blocker turnCycle g nl)).
  { apply (nodes_ok statInfo station blocker turnCycle level oneway onewayrev (linesOf r) (hasHup c b) (hasBox c b) wl g O HG). apply (Picked_NoDup _ _ _ _ (nodeVal c) nId idOf ns nl (fun e => eq_refl) Hnp Hnd). }
  exists r, wl, g, nl, O, (hasHup c b), (hasBox c b).
  split; [exact Hread|]. split; [exact Hhup|]. split; [exact Hbox|]. split; [exact Hwp|]. split; [exact HG|]. split; [exact HN|].
  intros id v e Hv He Hid H0 Hok. assert (Hin : In (nodeVal c e) nl).
  { apply (Picked_In _ _ _ _ _ _ Hnp). exists e. split; [exact He|]. split; [|reflexivity]. split; [congruence|]. rewrite Hid.
    destruct (hasHup c b id) eqn:Hh.
    - right. assert (HNH := proj1 (Hhup id) Hh). destruct Hok as [Hok | Hok]; [tauto|]. split; [exact Hok|]. left.
      assert (Hm : In (id, v) (gMult g)) by (apply (go_many _ _ _ _ _ _ _ _ _ HG); tauto). apply (in_map fst) in Hm. exact Hm.
    - left. assert (Hm : In (id, v) (gNodes g)) by (apply (go_known _ _ _ _ _ _ _ _ _ HG); tauto). apply (in_map fst) in Hm. exact Hm. }
  destruct (nk_read _ _ _ _ _ _ _ _ HN id v (nodeVal c e) Hv Hin Hid) as (Hp & _). exact Hp.
Qed.

Lemma Written_In : forall (c : @cfg P) known ways rs ro, Written c known ways rs ro -> forall o, In o ro -> exists e nm wm, In e rs /\ RelWanted c e /\ o = ORel (idOf e) nm wm (tags (keysR c) e) /\
  Picked (fun m => known (fst m)) (fun m => m) (nodeMembers e) nm /\ Picked (fun m => ways (fst m)) (fun m => m) (wayMembers e) wm /\ (nm <> [] \/ wm <> []).
Proof.
  intros c known ways rs ro H. induction H as [|e es l nm wm HW Hn Hw Hne H IH | e es l Hs H IH]; intros o Ho; [destruct Ho | |].
  - destruct Ho as [<- | Ho]; [exists e, nm, wm; split; [left; reflexivity|]; split; [exact HW|]; split; [reflexivity|]; split; [exact Hn|]; split; [exact Hw | exact Hne]|].
    destruct (IH o Ho) as (e' & nm' & wm' & He' & Hr). exists e', nm', wm'. split; [right; exact He' | exact Hr].
  - destruct (IH o Ho) as (e' & nm' & wm' & He' & Hr). exists e', nm', wm'. split; [right; exact He' | exact Hr].
Qed.
Lemma closed : forall E (c : @cfg P) ns ws rs (pre : list tok) n c0, Forall nodeElem ns -> Forall wayElem ws -> Forall relElem rs -> Forall noNodes pre -> ns <> [] -> ws <> [] ->
  length ns < n -> length ws < n -> length rs < n -> NoDup (map idOf ns) -> NoDup (map idOf ws) ->
  exists os, filterWrite E c n (mkXml c0 (pre ++ text ns ++ text ws ++ text rs)) = Some os /\
  (forall w id e, In (OWay w) os -> In id (wNodes w) -> In e ns -> idOf e = id -> id <> 0 -> exists nd, In (ONode nd) os /\ nId nd = id /\ nPos nd = posOf e) /\
  (forall id nm wm a, In (ORel id nm wm a) os -> (nm <> [] \/ wm <> []) /\
     (forall m, In m wm -> exists w, In (OWay w) os /\ wId w = fst m) /\
     (forall m, In m nm -> (exists nd, In (ONode nd) os /\ nId nd = fst m) \/ (exists w, In (OWay w) os /\ In (fst m) (wNodes w)))).
Proof.
  intros E c ns ws rs pre n c0 Hns Hws Hrs Hpre Hns0 Hws0 Hn1 Hn2 Hn3 Hnd1 Hnd2.
  destruct (file_filtered E c ns ws rs pre n c0 Hns Hws Hrs Hpre Hns0 Hws0 Hn1 Hn2 Hn3 Hnd1 Hnd2) as (nl & wl & ro & rs' & Hf & Hwp & Hnp & Hro & _).
  exists (map ONode nl ++ map OWay wl ++ ro). split; [exact Hf|].
  assert (HinW : forall w, In (OWay w) (map ONode nl ++ map OWay wl ++ ro) <-> In w wl).
  { intros w. rewrite !in_app_iff, !in_map_iff. split; [intros [(x & Hx & _) | [(x & Hx & Hin) | H]]|intros H; right; left; exists w; tauto].
    - discriminate.
    - congruence.
    - destruct (Written_In _ _ _ _ _ Hro _ H) as (e & nm & wm & _ & _ & Hx & _). discriminate. }
  assert (HinN : forall x, In x nl -> In (ONode x) (map ONode nl ++ map OWay wl ++ ro)). { intros x Hx. apply in_or_app. left. apply in_map. exact Hx. }
  split.
  - intros w id e Hw Hid He Hide H0. apply HinW in Hw. exists (nodeVal c e). split; [|split; [exact Hide | reflexivity]]. apply HinN.
    apply (Picked_In _ _ _ _ _ _ Hnp). exists e. split; [exact He|]. split; [|reflexivity]. split; [congruence|]. left. rewrite Hide. apply in_flat_map. exists w. tauto.
  - intros id nm wm a Ho.
    assert (Ho' : In (ORel id nm wm a) ro).
    { rewrite !in_app_iff, !in_map_iff in Ho. destruct Ho as [(x & Hx & _) | [(x & Hx & _) | Ho]]; [discriminate | discriminate | exact Ho]. }
    destruct (Written_In _ _ _ _ _ Hro _ Ho') as (e & nm' & wm' & _ & _ & Hx & Hnm & Hwm & Hne). injection Hx as -> <- <- ->.
    split; [exact Hne|]. split.
    + intros m Hm. apply (Picked_In _ _ _ _ _ _ Hwm) in Hm. destruct Hm as (m' & _ & Hm & <-). apply in_map_iff in Hm. destruct Hm as (w & Hw & Hin). exists w. split; [apply HinW; exact Hin | exact Hw].
    + intros m Hm. apply (Picked_In _ _ _ _ _ _ Hnm) in Hm. destruct Hm as (m' & _ & Hm & <-). destruct Hm as [Hm | Hm].
      * right. apply in_flat_map in Hm. destruct Hm as (w & Hw & Hin). exists w. split; [apply HinW; exact Hw | exact Hin].
      * left. apply in_map_iff in Hm. destruct Hm as (x & Hx & Hin). exists x. split; [apply HinN; exact Hin | exact Hx].
Qed.
Lemma Written_all : forall (c : @cfg P) known ways rs ro, Written c known ways rs ro -> forall e, In e rs -> RelWanted c e ->
  (exists m, In m (nodeMembers e) /\ known (fst m)) \/ (exists m, In m (wayMembers e) /\ ways (fst m)) ->
  exists nm wm, In (ORel (idOf e) nm wm (tags (keysR c) e)) ro /\ Picked (fun m => known (fst m)) (fun m => m) (nodeMembers e) nm /\ Picked (fun m => ways (fst m)) (fun m => m) (wayMembers e) wm.
Proof.
  intros c known ways rs ro H. induction H as [|e es l nm wm HW Hn Hw Hne H IH | e es l Hs H IH]; intros e' He HW' Hm; [destruct He | |].
  - destruct He as [<- | He]; [exists nm, wm; split; [left; reflexivity|]; tauto|]. destruct (IH e' He HW' Hm) as (nm' & wm' & Hin & Hr). exists nm', wm'. split; [right; exact Hin | exact Hr].
  - destruct He as [<- | He].
    + exfalso. destruct Hs as [Hs | (Hs1 & Hs2)]; [tauto|]. destruct Hm as [(m & Hm & Hk) | (m & Hm & Hk)]; [exact (Hs1 m Hm Hk) | exact (Hs2 m Hm Hk)].
    + exact (IH e' He HW' Hm).
Qed.
Lemma all_relations : forall E (c : @cfg P) ns ws rs pre n c0,
  Forall nodeElem ns -> Forall wayElem ws -> Forall relElem rs -> Forall noNodes pre -> ns <> [] -> ws <> [] ->
  length ns < n -> length ws < n -> length rs < n -> NoDup (map idOf ns) -> NoDup (map idOf ws) ->
  exists os, filterWrite E c n (mkXml c0 (pre ++ text ns ++ text ws ++ text rs)) = Some os /\
  forall e, In e rs -> RelWanted c e -> ~ LastWanted (WayWanted c ns rs) ws \/ In e (tl rs) ->
    (exists m w, In m (wayMembers e) /\ In (OWay w) os /\ wId w = fst m) \/ (exists m nd, In m (nodeMembers e) /\ In (ONode nd) os /\ nId nd = fst m) ->
    exists nm wm, In (ORel (idOf e) nm wm (tags (keysR c) e)) os /\
      (forall m w, In m (wayMembers e) -> In (OWay w) os -> wId w = fst m -> In m wm) /\
      (forall m nd, In m (nodeMembers e) -> In (ONode nd) os -> nId nd = fst m -> In m nm).
Proof.
  intros E c ns ws rs pre n c0 Hns Hws Hrs Hpre Hns0 Hws0 Hn1 Hn2 Hn3 Hnd1 Hnd2.
  destruct (file_filtered E c ns ws rs pre n c0 Hns Hws Hrs Hpre Hns0 Hws0 Hn1 Hn2 Hn3 Hnd1 Hnd2) as (nl & wl & ro & rs' & Hf & Hwp & Hnp & Hro & Hl).
  exists (map ONode nl ++ map OWay wl ++ ro). split; [exact Hf|].
  assert (HinW : forall w, In (OWay w) (map ONode nl ++ map OWay wl ++ ro) -> In w wl).
  { intros w. rewrite !in_app_iff, !in_map_iff. intros [(x & Hx & _) | [(x & Hx & Hin) | H]]; [discriminate | congruence |].
    destruct (Written_In _ _ _ _ _ Hro _ H) as (e & nm & wm & _ & _ & Hx & _). discriminate. }
  assert (HinN : forall x, In (ONode x) (map ONode nl ++ map OWay wl ++ ro) -> In x nl).
  { intros w. rewrite !in_app_iff, !in_map_iff. intros [(x & Hx & Hin) | [(x & Hx & Hin) | H]]; [congruence | discriminate |].
    destruct (Written_In _ _ _ _ _ Hro _ H) as (e & nm & wm & _ & _ & Hx & _). discriminate. }
  intros e He HW HL Hm.
  assert (He' : In e rs'). { destruct Hl as [(_ & ->) | (H & ->)]; [exact He|]. destruct HL as [HL | HL]; [tauto | exact HL]. }
  destruct (Written_all _ _ _ _ _ Hro e He' HW) as (nm & wm & Hin & Hnm & Hwm).
  - destruct Hm as [(m & w & Hm & Hw & Hid) | (m & nd & Hm & Hw & Hid)].
    + right. exists m. split; [exact Hm|]. apply in_map_iff. exists w. split; [exact Hid | apply HinW; exact Hw].
    + left. exists m. split; [exact Hm|]. right. apply in_map_iff. exists nd. split; [exact Hid | apply HinN; exact Hw].
  - exists nm, wm. split; [apply in_or_app; right; apply in_or_app; right; exact Hin|]. split.
    + intros m w Hm' Hw Hid. apply (Picked_In _ _ _ _ _ _ Hwm). exists m. split; [exact Hm'|]. split; [|reflexivity]. apply in_map_iff. exists w. split; [exact Hid | apply HinW; exact Hw].
    + intros m nd Hm' Hw Hid. apply (Picked_In _ _ _ _ _ _ Hnm). exists m. split; [exact Hm'|]. split; [|reflexivity]. right. apply in_map_iff. exists nd. split; [exact Hid | apply HinN; exact Hw].
Qed.
End All.
