(** C40, C41: the shape storage and shapes.txt. *)
From Coq Require Import Ascii String List Arith NArith Bool Lia.
From Verif Require Import ShapeStore_model ShapeStore_spec ShapeStore_proofs.
Import ListNotations.
Open Scope nat_scope.

(** C40: after any sequence of calls, iterating yields the points of the shapes added
    whose id is registered, shape by shape in the order of addition, numbered from one,
    with the same bits; and so does iterating again. *)
Theorem C40_round_trip : forall wa wb wd, 0 < wa + wb + wd -> forall h, Forall (storable wa wb wd) h ->
  exists l l' c' c'', added h l /\ keeping (fun e => registered h (fst e)) l l' /\
    iterate wa wb wd (fold_left apply h newC) = Some (flat_map rows_of l', c') /\
    iterate wa wb wd c' = Some (flat_map rows_of l', c'').
Proof.
  intros wa wb wd W h F. destruct (run_rep wa wb wd h) as (l & _ & A & _).
  destruct (storage_ok wa wb wd W h l F A) as (c' & l' & I & K & c'' & I2). exists l, l', c', c''. auto.
Qed.
Print Assumptions C40_round_trip.

(** C40: if no id is used again, the rows of a shape are its points if it is still
    registered, and none otherwise. *)
Theorem C40_each_shape : forall wa wb wd, 0 < wa + wb + wd -> forall h id ps,
  Forall (storable wa wb wd) h -> never_again h -> In (OAdd id ps) h ->
  exists rows c', iterate wa wb wd (fold_left apply h newC) = Some (rows, c') /\
    (registered h id -> with_id id rows = rows_of (id, ps)) /\ (~ registered h id -> with_id id rows = []).
Proof. exact each_ok. Qed.
Print Assumptions C40_each_shape.

(** C40: [has] tells the registered ids. *)
Theorem C40_has : forall h id, has (fold_left apply h newC) id = true <-> registered h id.
Proof. intros h id. destruct (run_rep 0 0 0 h) as (l & R & _). rewrite has_In. apply R. Qed.
Print Assumptions C40_has.

(** C41: shapes.txt consists of the rows of the input with a registered id, in order, and
    the points of the new shapes that are registered. *)
Theorem C41_shapes_file : forall wa wb wd, 0 < wa + wb + wd -> forall h old, Forall (storable wa wb wd) h ->
  (forall rows x, old = Some rows -> In x rows -> wId x <> ""%string) ->
  exists l l' kept c', added h l /\ keeping (fun e => registered h (fst e)) l l' /\
    keeping (fun x => registered h (wId x)) (match old with Some rows => rows | None => [] end) kept /\
    writeShapes wa wb wd (fold_left apply h newC) old = Some (kept ++ flat_map rows_of l', c').
Proof.
  intros wa wb wd W h old F E. destruct (run_rep wa wb wd h) as (l & _ & A & _).
  destruct (writeShapes_ok wa wb wd W h l old F A) as (kept & l' & c' & H1 & H2 & H3).
  { destruct old as [rows|]; cbn [given]; [intros x X; exact (E rows x eq_refl X)|intros x []]. }
  exists l, l', kept, c'. auto.
Qed.
Print Assumptions C41_shapes_file.

(** ** A concrete case: coordinates that look like white space, removals *)
Fixpoint nab (past h : list op) : bool :=
  match h with
  | [] => true
  | o :: r =>
      (match o with
       | OAdd id _ => forallb (fun o' => match o' with OAdd i _ | OReg i | ORemove i => negb (String.eqb i id) end) past
       | _ => true
       end) && nab (o :: past) r
  end.
Lemma nab_ok : forall h, nab [] h = true -> never_again h.
Proof.
  assert (G : forall h past, nab past h = true -> forall h1 id ps h2, h = h1 ++ OAdd id ps :: h2 ->
    forall o, In o past \/ In o h1 -> o <> ORemove id /\ ~ registers o id).
  { induction h as [|x h IH]; intros past H h1 id ps h2 E o I; [now destruct h1|].
    cbn [nab] in H. apply andb_true_iff in H as [H1 H2]. destruct h1 as [|y h1]; cbn in E; injection E as -> ->.
    - destruct I as [I|[]]. rewrite forallb_forall in H1. specialize (H1 o I).
      destruct o as [i q|i|i]; apply negb_true_iff, String.eqb_neq in H1; cbn; split; try discriminate; try tauto. congruence.
    - apply (IH (y :: past) H2 h1 id ps h2 eq_refl). cbn. cbn in I. tauto. }
  intros h H h1 id ps h2 E o I. apply (G h [] H h1 id ps h2 E o). auto.
Qed.
Definition b1 (n : N) : list ascii := [ascii_of_N n].
Definition p1 (n : N) : pt := mkPt (b1 n) (b1 (n + 1)) (b1 32).
Definition h1 : list op := [OReg "o"; OAdd "a" [p1 32; p1 33]; OAdd "bc" [p1 10]; OAdd "d" [p1 255]; ORemove "bc"; ORemove "o"]%string.
Example C40_case : Forall (storable 1 1 1) h1 /\ never_again h1 /\
  (exists c, iterate 1 1 1 (fold_left apply h1 newC) = Some ([mkRow "a" 1 (p1 32); mkRow "a" 2 (p1 33); mkRow "d" 1 (p1 255)]%string, c)) /\
  (exists c, writeShapes 1 1 1 (fold_left apply (OReg "q" :: h1) newC)
     (Some [mkRow "o" 1 (p1 1); mkRow "q" 1 (p1 2); mkRow "q" 2 (p1 3); mkRow "x" 1 (p1 4); mkRow "q" 3 (p1 3)]%string) =
     Some ([mkRow "q" 1 (p1 2); mkRow "q" 2 (p1 3); mkRow "q" 3 (p1 3); mkRow "a" 1 (p1 32); mkRow "a" 2 (p1 33); mkRow "d" 1 (p1 255)]%string, c)).
Proof.
  assert (Pl : forall s, forallb (fun b => negb (isSpace b)) (list_ascii_of_string s) = true -> s <> ""%string -> plain s).
  { intros s H N. split; [exact N|]. intros b B X. rewrite forallb_forall in H. specialize (H b B). unfold isSpace in H.
    cbn in X. repeat destruct X as [X|X]; try (rewrite <- X in H; discriminate H). exact X. }
  split; [|split; [|split]].
  - unfold h1. repeat constructor; try (apply Pl; [reflexivity|discriminate]); try discriminate;
      cbn in H; intuition (subst; reflexivity).
  - apply nab_ok. reflexivity.
  - eexists. vm_compute. reflexivity.
  - eexists. vm_compute. reflexivity.
Qed.

(** ** Findings: the conditions are needed *)
(** C40: a shape added under a removed id is stored beside the removed one. *)
Theorem C40_readded_id_refuted : exists h id ps, Forall (storable 1 1 1) h /\ registered h id /\ In (OAdd id ps) h /\
  (forall i ps', In (OAdd i ps') h -> length ps' = 1) /\
  exists rows c, iterate 1 1 1 (fold_left apply h newC) = Some (rows, c) /\ length (with_id id rows) = 2.
Proof.
  exists [OAdd "x" [p1 10]; ORemove "x"; OAdd "x" [p1 12]]%string, "x"%string, [p1 12].
  split; [|split; [|split; [|split]]].
  - repeat constructor; try discriminate; cbn in *; intuition (subst; try discriminate; try reflexivity; vm_compute in *; intuition discriminate).
  - exists [OAdd "x" [p1 10]; ORemove "x"]%string, (OAdd "x" [p1 12])%string, []. cbn. auto.
  - cbn. auto.
  - cbn. intros i ps' [E|[E|[E|[]]]]; try discriminate E; injection E as <- <-; reflexivity.
  - eexists _, _. split; [vm_compute; reflexivity|reflexivity].
Qed.
Print Assumptions C40_readded_id_refuted.
(** C40: an id with a blank makes every later shape unreadable. *)
Theorem C40_blank_id_refuted : exists h id ps, registered h id /\ never_again h /\ In (OAdd id ps) h /\ ps <> [] /\ plain id /\
  exists c, iterate 1 1 1 (fold_left apply h newC) = Some ([], c).
Proof.
  exists [OAdd "x y" [p1 10]; OAdd "z" [p1 11]]%string, "z"%string, [p1 11]. split; [|split; [|split; [|split; [|split]]]].
  - exists [OAdd "x y" [p1 10]]%string, (OAdd "z" [p1 11])%string, []. cbn. auto.
  - apply nab_ok. reflexivity.
  - cbn. auto.
  - discriminate.
  - split; [discriminate|]. cbn. intros b [<-|[]]. vm_compute. intuition discriminate.
  - eexists. vm_compute. reflexivity.
Qed.
Print Assumptions C40_blank_id_refuted.
(** C40: a shape without points swallows the next one. *)
Theorem C40_no_points_refuted : exists h id ps, registered h id /\ never_again h /\ In (OAdd id ps) h /\ ps <> [] /\
  (forall i q, In (OAdd i q) h -> plain i) /\
  exists rows c, iterate 1 1 1 (fold_left apply h newC) = Some (rows, c) /\ with_id id rows = [].
Proof.
  exists [OAdd "a" []; OAdd "bc" [p1 10]]%string, "bc"%string, [p1 10]. split; [|split; [|split; [|split; [|split]]]].
  - exists [OAdd "a" []]%string, (OAdd "bc" [p1 10])%string, []. cbn. auto.
  - apply nab_ok. reflexivity.
  - cbn. auto.
  - discriminate.
  - cbn. intros i q [E|[E|[]]]; injection E as <- _; (split; [discriminate|]); cbn; intros b; intuition (subst; vm_compute in *; intuition discriminate).
  - eexists _, _. split; [vm_compute; reflexivity|reflexivity].
Qed.
Print Assumptions C40_no_points_refuted.
(** C40: a shape added after the storage was read once is not found when it is read again. *)
Theorem C40_add_after_reading_refuted : exists h rows c o, Forall (storable 1 1 1) (h ++ [o]) /\
  iterate 1 1 1 (fold_left apply h newC) = Some (rows, c) /\ registered (h ++ [o]) "z" /\ o = OAdd "z" [p1 11] /\
  exists c', iterate 1 1 1 (apply c o) = Some (rows, c') /\ with_id "z" rows = [].
Proof.
  exists [OAdd "x" [p1 10]]%string. eexists _, _, _. split; [|split; [vm_compute; reflexivity|split; [|split; [reflexivity|]]]].
  - repeat constructor; try discriminate; cbn in *; intuition (subst; try discriminate; try reflexivity; vm_compute in *; intuition discriminate).
  - exists [OAdd "x" [p1 10]]%string, (OAdd "z" [p1 11])%string, []. cbn. auto.
  - eexists. split; [vm_compute; reflexivity|reflexivity].
Qed.
Print Assumptions C40_add_after_reading_refuted.
(** C41: rows with an empty shape id are dropped or kept depending on the rows before. *)
Theorem C41_empty_id_refuted : exists h x y rows1 rows2 c1 c2, wId x = ""%string /\ ~ registered h "" /\ ~ registered h (wId y) /\
  writeShapes 1 1 1 (fold_left apply h newC) (Some [x; y]) = Some (rows1, c1) /\ rows1 = [] /\
  writeShapes 1 1 1 (fold_left apply h newC) (Some [y; x]) = Some (rows2, c2) /\ rows2 = [x].
Proof.
  exists [], (mkRow "" 1 (p1 1)), (mkRow "y" 1 (p1 1)). eexists _, _, _, _. split; [reflexivity|].
  split; [apply not_registered_nil|]. split; [apply not_registered_nil|].
  split; [vm_compute; reflexivity|]. split; [reflexivity|]. split; [vm_compute; reflexivity|reflexivity].
Qed.
Print Assumptions C41_empty_id_refuted.
