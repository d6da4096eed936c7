(** Proofs about the evaluation tool. *)
From Coq Require Import Ascii String List Arith ZArith QArith Bool Lia Sorted Permutation.
From Verif Require Import ListAux StrAux TripTrie_model TripTrie_spec Shapevl_model Shapevl_spec.
Import ListNotations.
Open Scope nat_scope.
Open Scope list_scope.
Local Arguments Nat.eqb : simpl never.
Local Arguments Z.ltb : simpl never.
Local Arguments Z.sub : simpl never.

(** ** Threads *)
Section T.
Context {shp C : Type}.
Variable addC : C -> nat -> nat -> shp -> C.
Variable motOk : nat -> bool.
Notation feed := (nat -> option (option shp)).
Notation state := (state shp C).
Notation step := (step shp C addC motOk).
Notation run := (run shp C addC motOk).
Notation evalTrip := (evalTrip shp C addC motOk).
Notation sThr := (sThr shp C).
Notation sColls := (sColls shp C).
Notation sCount := (sCount shp C).
Notation sExit := (sExit shp C).

Lemma given_app : forall empty l c t n s, given addC empty l c -> given addC empty (l ++ [(t, n, s)]) (addC c t n s).
Proof. intros. constructor. assumption. Qed.
Lemma fold_given : forall (ft : feed) empty js l0 c0, given addC empty l0 c0 ->
  exists l, compared motOk ft js l /\ given addC empty (l0 ++ l) (fold_left (evalTrip ft) js c0).
Proof.
  intros ft empty. induction js as [|[t n] js IH]; intros l0 c0 G; cbn [fold_left].
  - exists []. split; [constructor|]. rewrite app_nil_r. exact G.
  - unfold Shapevl_model.evalTrip at 2. cbn [fst snd].
    assert (No : motOk t = false \/ ft t = None \/ ft t = Some None -> exists l, compared motOk ft ((t, n) :: js) l /\ given addC empty (l0 ++ l) (fold_left (evalTrip ft) js c0)).
    { intros H. destruct (IH l0 c0 G) as (l & A & B). exists l. split; [apply cm_no; assumption|exact B]. }
    destruct (motOk t) eqn:M; [|auto]. destruct (ft t) as [[s|]|] eqn:E; [|auto|auto].
    destruct (IH (l0 ++ [(t, n, s)]) (addC c0 t n s) (gv_snoc _ _ _ _ _ _ _ G)) as (l & A & B).
    exists ((t, n, s) :: l). split; [apply cm_yes; assumption|]. rewrite <- app_assoc in B. exact B.
Qed.
Lemma evaluated_fold : forall (ft : feed) empty js, evaluated addC motOk empty js ft (fold_left (evalTrip ft) js empty).
Proof. intros ft empty js. destruct (fold_given ft empty js [] empty (gv_nil _ _)) as (l & A & B). exists l. auto. Qed.

Variable feeds : list (option feed).
Variable jobs : list (nat * nat).
Variable empty : C.
Record inv (s : state) : Prop := {
  i_len : List.length (sColls s) = List.length feeds;
  i_cnt : (sCount s <= Z.of_nat (List.length feeds))%Z;
  i_work : forall t f ft js, nth_error (sThr s) t = Some (Work f ft js) -> nth_error feeds f = Some (Some ft) /\ (sCount s <= Z.of_nat f)%Z /\
    exists dn, jobs = dn ++ js /\ nth_error (sColls s) f = Some (fold_left (evalTrip ft) dn empty);
  i_one : forall t u f ft js gt ks, nth_error (sThr s) t = Some (Work f ft js) -> nth_error (sThr s) u = Some (Work f gt ks) -> t = u;
  i_todo : forall f, f < List.length feeds -> (Z.of_nat f < sCount s)%Z -> nth_error (sColls s) f = Some empty;
  i_done : sExit s = false -> forall f, f < List.length feeds -> (sCount s <= Z.of_nat f)%Z -> (forall t ft js, nth_error (sThr s) t <> Some (Work f ft js)) ->
    exists ft, nth_error feeds f = Some (Some ft) /\ nth_error (sColls s) f = Some (fold_left (evalTrip ft) jobs empty);
  i_stop : forall t, nth_error (sThr s) t = Some Done -> (sCount s < 0)%Z;
  i_exit : sExit s = true -> In None feeds
}.
Lemma nth_repeat' : forall A (x : A) n i, i < n -> nth_error (repeat x n) i = Some x.
Proof. induction n as [|n IH]; intros [|i] L; cbn; try lia; auto. apply IH. lia. Qed.
Lemma nth_repeat_inv : forall A (x : A) n i y, nth_error (repeat x n) i = Some y -> y = x.
Proof. intros A x n i y H. apply nth_error_In in H. apply repeat_spec in H. exact H. Qed.
Lemma inv_start : forall k, inv (start shp C empty feeds k).
Proof.
  intros k. constructor; cbn [start Shapevl_model.sColls Shapevl_model.sCount Shapevl_model.sThr Shapevl_model.sExit].
  - apply repeat_length.
  - lia.
  - intros t f ft js E. apply nth_repeat_inv in E. discriminate.
  - intros t u f ft js gt ks E. apply nth_repeat_inv in E. discriminate.
  - intros f L _. apply nth_repeat'. exact L.
  - intros _ f L Q. lia.
  - intros t E. apply nth_repeat_inv in E. discriminate.
  - discriminate.
Qed.
Lemma upd_case : forall A (l : list A) t x y u z, nth_error l t = Some y -> nth_error (upd t (fun _ => x) l) u = Some z -> (u = t /\ z = x) \/ (u <> t /\ nth_error l u = Some z).
Proof.
  intros A l t x y u z E H. rewrite upd_nth in H. destruct (u =? t) eqn:U.
  - apply Nat.eqb_eq in U. subst u. rewrite E in H. cbn in H. inversion H. auto.
  - apply Nat.eqb_neq in U. auto.
Qed.
Lemma inv_step : forall s t, inv s -> inv (step feeds jobs t s).
Proof.
  intros s t H. unfold Shapevl_model.step. destruct (sExit s) eqn:X; [exact H|].
  destruct (nth_error (sThr s) t) as [th|] eqn:E; [|exact H]. pose proof H as H0. destruct H as [IL IC IW I1 IT ID IS IX].
  destruct th as [|f ft [|j js]|]; [| | |exact H0].
  - destruct (sCount s - 1 <? 0)%Z eqn:Q.
    + apply Z.ltb_lt in Q. constructor; cbn [Shapevl_model.sColls Shapevl_model.sCount Shapevl_model.sThr Shapevl_model.sExit].
      * exact IL.
      * lia.
      * intros u f ft js F. destruct (upd_case _ _ _ _ _ _ _ E F) as [[_ Y]|[N F']]; [discriminate|]. destruct (IW _ _ _ _ F') as (A & B & D). split; [exact A|]. split; [lia|exact D].
      * intros u v f ft js gt ks F G. destruct (upd_case _ _ _ _ _ _ _ E F) as [[_ Y]|[N F']]; [discriminate|]. destruct (upd_case _ _ _ _ _ _ _ E G) as [[_ Y]|[N' G']]; [discriminate|]. exact (I1 _ _ _ _ _ _ _ F' G').
      * intros f L B. apply IT; [exact L|lia].
      * intros _ f L B NW. apply (ID X f L); [lia|]. intros u gt ks F. destruct (Nat.eq_dec u t) as [->|N]; [rewrite E in F; discriminate|]. apply (NW u gt ks). rewrite upd_nth_ne by exact N. exact F.
      * intros; lia.
      * discriminate.
    + apply Z.ltb_ge in Q. set (n := (sCount s - 1)%Z) in *. assert (Ln : Z.to_nat n < List.length feeds) by lia.
      assert (Exit : forall o, nth_error feeds (Z.to_nat n) = Some None -> o = true -> inv (mkS shp C n (sColls s) (sThr s) o)).
      { intros o EN ->. constructor; cbn [Shapevl_model.sColls Shapevl_model.sCount Shapevl_model.sThr Shapevl_model.sExit].
        - exact IL. - lia.
        - intros u f ft js F. destruct (IW _ _ _ _ F) as (A & B & D). split; [exact A|]. split; [lia|exact D].
        - exact I1.
        - intros f L B. apply IT; [exact L|lia].
        - discriminate.
        - intros u F. specialize (IS u F). lia.
        - intros _. eapply nth_error_In. exact EN. }
      destruct (nth_error feeds (Z.to_nat n)) as [[ft|]|] eqn:EN; [|apply Exit; reflexivity|apply nth_error_None in EN; lia]. clear Exit.
      assert (Fresh : forall u gt ks, nth_error (sThr s) u = Some (Work (Z.to_nat n) gt ks) -> False).
      { intros u gt ks F. destruct (IW _ _ _ _ F) as (_ & B & _). lia. }
      constructor; cbn [Shapevl_model.sColls Shapevl_model.sCount Shapevl_model.sThr Shapevl_model.sExit].
      * exact IL.
      * lia.
      * intros u f gt js F. destruct (upd_case _ _ _ _ _ _ _ E F) as [[_ Y]|[N F']].
        -- inversion Y; subst. split; [exact EN|]. split; [lia|]. exists []. split; [reflexivity|]. cbn. apply IT; lia.
        -- destruct (IW _ _ _ _ F') as (A & B & D). split; [exact A|]. split; [lia|exact D].
      * intros u v f gt js ht ks F G. destruct (upd_case _ _ _ _ _ _ _ E F) as [[Eu Y]|[N F']]; destruct (upd_case _ _ _ _ _ _ _ E G) as [[Ev Z]|[N' G']].
        -- congruence.
        -- inversion Y; subst. exfalso. exact (Fresh _ _ _ G').
        -- inversion Z; subst. exfalso. exact (Fresh _ _ _ F').
        -- exact (I1 _ _ _ _ _ _ _ F' G').
      * intros f L B. apply IT; [exact L|lia].
      * intros _ f L B NW. assert (f <> Z.to_nat n). { intros ->. apply (NW t ft jobs). rewrite (upd_nth_eq _ _ _ _ _ E). reflexivity. }
        apply (ID X f L); [lia|]. intros u gt ks F. destruct (Nat.eq_dec u t) as [->|N]; [rewrite E in F; discriminate|]. apply (NW u gt ks). rewrite upd_nth_ne by exact N. exact F.
      * intros u F. destruct (upd_case _ _ _ _ _ _ _ E F) as [[_ Y]|[N F']]; [discriminate|]. specialize (IS u F'). lia.
      * discriminate.
  - destruct (IW _ _ _ _ E) as (A & B & (dn & D1 & D2)). rewrite app_nil_r in D1. subst dn.
    constructor; cbn [Shapevl_model.sColls Shapevl_model.sCount Shapevl_model.sThr Shapevl_model.sExit].
    + exact IL.
    + exact IC.
    + intros u f' gt js F. destruct (upd_case _ _ _ _ _ _ _ E F) as [[_ Y]|[N F']]; [discriminate|]. exact (IW _ _ _ _ F').
    + intros u v f' gt js ht ks F G. destruct (upd_case _ _ _ _ _ _ _ E F) as [[_ Y]|[N F']]; [discriminate|]. destruct (upd_case _ _ _ _ _ _ _ E G) as [[_ Y]|[N' G']]; [discriminate|]. exact (I1 _ _ _ _ _ _ _ F' G').
    + exact IT.
    + intros _ f' L B' NW. destruct (Nat.eq_dec f' f) as [->|N]; [exists ft; auto|].
      apply (ID X f' L B'). intros u gt ks F. destruct (Nat.eq_dec u t) as [->|Nu]; [rewrite E in F; congruence|]. apply (NW u gt ks). rewrite upd_nth_ne by exact Nu. exact F.
    + intros u F. destruct (upd_case _ _ _ _ _ _ _ E F) as [[_ Y]|[N F']]; [discriminate|]. exact (IS u F').
    + discriminate.
  - destruct (IW _ _ _ _ E) as (A & B & (dn & D1 & D2)).
    constructor; cbn [Shapevl_model.sColls Shapevl_model.sCount Shapevl_model.sThr Shapevl_model.sExit].
    + rewrite upd_length. exact IL.
    + exact IC.
    + intros u f' gt ks F. destruct (upd_case _ _ _ _ _ _ _ E F) as [[_ Y]|[N F']].
      * inversion Y; subst f' gt ks. split; [exact A|]. split; [exact B|]. exists (dn ++ [j]). split; [rewrite <- app_assoc; exact D1|].
        rewrite (upd_nth_eq _ _ _ _ _ D2), fold_left_app. reflexivity.
      * destruct (IW _ _ _ _ F') as (A' & B' & D'). split; [exact A'|]. split; [exact B'|]. rewrite upd_nth_ne; [exact D'|].
        intros ->. apply N. exact (I1 _ _ _ _ _ _ _ F' E).
    + intros u v f' gt ks ht ls F G. destruct (upd_case _ _ _ _ _ _ _ E F) as [[Eu Y]|[N F']]; destruct (upd_case _ _ _ _ _ _ _ E G) as [[Ev Z]|[N' G']].
      * congruence.
      * inversion Y; subst. exact (I1 _ _ _ _ _ _ _ E G').
      * inversion Z; subst. exact (I1 _ _ _ _ _ _ _ F' E).
      * exact (I1 _ _ _ _ _ _ _ F' G').
    + intros f' L B'. rewrite upd_nth_ne; [exact (IT f' L B')|]. intros ->. lia.
    + intros _ f' L B' NW. destruct (Nat.eq_dec f' f) as [->|N]; [exfalso; apply (NW t ft js); rewrite (upd_nth_eq _ _ _ _ _ E); reflexivity|].
      rewrite upd_nth_ne by exact N. apply (ID X f' L B'). intros u gt ks F. destruct (Nat.eq_dec u t) as [->|Nu]; [rewrite E in F; congruence|]. apply (NW u gt ks). rewrite upd_nth_ne by exact Nu. exact F.
    + intros u F. destruct (upd_case _ _ _ _ _ _ _ E F) as [[_ Y]|[N F']]; [discriminate|]. exact (IS u F').
    + discriminate.
Qed.
Lemma inv_run : forall sched s, inv s -> inv (run feeds jobs sched s).
Proof. induction sched as [|t sched IH]; intros s H; [exact H|]. cbn. apply IH. apply inv_step. exact H. Qed.
Lemma thr_len : forall sched s, List.length (sThr (run feeds jobs sched s)) = List.length (sThr s).
Proof.
  induction sched as [|t sched IH]; intros s; [reflexivity|]. cbn. change (fold_left (fun s t => step feeds jobs t s) sched (step feeds jobs t s)) with (run feeds jobs sched (step feeds jobs t s)). rewrite IH.
  unfold Shapevl_model.step. destruct (sExit s); [reflexivity|]. destruct (nth_error (sThr s) t) as [[|f ft [|j js]|]|]; try reflexivity; [|cbn; apply upd_length|cbn; apply upd_length].
  destruct (sCount s - 1 <? 0)%Z; [cbn; apply upd_length|]. destruct (nth_error feeds _) as [[ft|]|]; cbn; try reflexivity. apply upd_length.
Qed.

(** *** Termination *)
Definition wt (x : thread shp) : nat := match x with Idle => 1 | Work _ _ js => 2 + List.length js | Done => 0 end.
Definition mu (s : state) : nat := Z.to_nat (sCount s) * (2 + List.length jobs) + list_sum (map wt (sThr s)).
Lemma sum_upd : forall (l : list (thread shp)) t x y, nth_error l t = Some y -> list_sum (map wt (upd t (fun _ => x) l)) + wt y = list_sum (map wt l) + wt x.
Proof.
  induction l as [|z l IH]; intros [|t] x y E; try discriminate; cbn in *.
  - inversion E; subst. lia.
  - specialize (IH t x y E). unfold list_sum in *. lia.
Qed.
Lemma step_mu : forall s t, sExit s = false -> sExit (step feeds jobs t s) = false ->
  (forall x, nth_error (sThr s) t = Some x -> x <> Done -> mu (step feeds jobs t s) + 1 = mu s) /\
  (nth_error (sThr s) t = Some Done \/ nth_error (sThr s) t = None -> step feeds jobs t s = s).
Proof.
  intros s t X X'. split.
  - intros x E ND. revert X'. unfold Shapevl_model.step, mu. rewrite X, E. destruct x as [|f ft [|j js]|]; [| | |contradiction].
    + destruct (sCount s - 1 <? 0)%Z eqn:Q.
      * intros _. cbn [Shapevl_model.sCount Shapevl_model.sThr]. pose proof (sum_upd (sThr s) t Done Idle E) as P. cbn [wt] in P. apply Z.ltb_lt in Q.
        replace (Z.to_nat (sCount s - 1)) with 0 by lia. replace (Z.to_nat (sCount s)) with 0 by lia. lia.
      * destruct (nth_error feeds _) as [[ft|]|]; cbn [Shapevl_model.sCount Shapevl_model.sThr Shapevl_model.sExit]; try discriminate. intros _.
        match goal with |- context [Work ?a ?b ?c] => pose proof (sum_upd (sThr s) t (Work a b c) Idle E) as P end. cbn [wt] in P. apply Z.ltb_ge in Q.
        replace (Z.to_nat (sCount s)) with (S (Z.to_nat (sCount s - 1))) by lia. cbn [Nat.mul]. lia.
    + intros _. cbn [Shapevl_model.sCount Shapevl_model.sThr]. pose proof (sum_upd (sThr s) t Idle _ E) as P. cbn [wt List.length] in P. lia.
    + intros _. cbn [Shapevl_model.sCount Shapevl_model.sThr]. pose proof (sum_upd (sThr s) t (Work f ft js) _ E) as P. cbn [wt List.length] in P. lia.
  - intros [E|E]; unfold Shapevl_model.step; rewrite X, E; reflexivity.
Qed.
Lemma run_cons : forall t sched s, run feeds jobs (t :: sched) s = run feeds jobs sched (step feeds jobs t s).
Proof. reflexivity. Qed.
Lemma exit_stays : forall sched s, sExit s = true -> run feeds jobs sched s = s.
Proof. induction sched as [|t sched IH]; intros s E; [reflexivity|]. rewrite run_cons. unfold Shapevl_model.step. rewrite E. apply IH. exact E. Qed.
Lemma done_stays : forall sched s t, nth_error (sThr s) t = Some Done -> nth_error (sThr (run feeds jobs sched s)) t = Some Done.
Proof.
  induction sched as [|u sched IH]; intros s t E; [exact E|]. rewrite run_cons. apply IH. unfold Shapevl_model.step.
  destruct (sExit s); [exact E|]. destruct (Nat.eq_dec u t) as [->|N]; [rewrite E; exact E|].
  destruct (nth_error (sThr s) u) as [[|f ft [|j js]|]|]; try exact E; [|cbn; rewrite upd_nth_ne by auto; exact E|cbn; rewrite upd_nth_ne by auto; exact E].
  destruct (sCount s - 1 <? 0)%Z; [cbn; rewrite upd_nth_ne by auto; exact E|]. destruct (nth_error feeds _) as [[ft|]|]; cbn; try exact E. rewrite upd_nth_ne by auto. exact E.
Qed.
Lemma run_mu : forall sched s t x, sExit (run feeds jobs sched s) = false -> nth_error (sThr (run feeds jobs sched s)) t = Some x -> x <> Done ->
  mu (run feeds jobs sched s) + count_occ Nat.eq_dec sched t <= mu s.
Proof.
  induction sched as [|u sched IH]; intros s t x X E ND; [cbn; lia|]. rewrite run_cons in *. cbn [count_occ].
  assert (X0 : sExit s = false). { destruct (sExit s) eqn:Y; [|reflexivity]. unfold Shapevl_model.step in X. rewrite Y in X. rewrite (exit_stays sched s Y) in X. congruence. }
  assert (X1 : sExit (step feeds jobs u s) = false). { destruct (sExit (step feeds jobs u s)) eqn:Y; [|reflexivity]. rewrite (exit_stays sched _ Y) in X. congruence. }
  specialize (IH _ t x X E ND). destruct (step_mu s u X0 X1) as [Q1 Q2].
  destruct (nth_error (sThr s) u) as [y|] eqn:Eu.
  - destruct y as [|f ft js|].
    + specialize (Q1 _ eq_refl). assert (Q : mu (step feeds jobs u s) + 1 = mu s) by (apply Q1; discriminate). destruct (Nat.eq_dec u t); lia.
    + specialize (Q1 _ eq_refl). assert (Q : mu (step feeds jobs u s) + 1 = mu s) by (apply Q1; discriminate). destruct (Nat.eq_dec u t); lia.
    + rewrite (Q2 (or_introl eq_refl)) in *. destruct (Nat.eq_dec u t) as [->|]; [|lia]. rewrite (done_stays sched s t Eu) in E. congruence.
  - rewrite (Q2 (or_intror eq_refl)) in *. destruct (Nat.eq_dec u t) as [->|]; [|lia].
    apply nth_error_None in Eu. apply nth_lt in E. rewrite thr_len in E. lia.
Qed.
Lemma wt_start : forall k, list_sum (map wt (repeat (@Idle shp) k)) = k.
Proof. induction k as [|k IH]; [reflexivity|]. cbn in *. unfold list_sum in IH. lia. Qed.
Lemma ends : forall k sched, (forall t, t < k -> List.length feeds * (2 + List.length jobs) + k <= count_occ Nat.eq_dec sched t) ->
  sExit (run feeds jobs sched (start shp C empty feeds k)) = true \/ joined shp C (run feeds jobs sched (start shp C empty feeds k)).
Proof.
  intros k sched F. destruct (sExit (run feeds jobs sched (start shp C empty feeds k))) eqn:X; [left; reflexivity|]. right.
  intros t x E. assert (L : t < k). { apply nth_lt in E. rewrite thr_len in E. cbn in E. rewrite repeat_length in E. exact E. }
  assert (D : x = Done \/ x <> Done) by (destruct x; [right; discriminate|right; discriminate|left; reflexivity]). destruct D as [D|ND]; [exact D|]. exfalso.
  pose proof (run_mu _ _ _ _ X E ND) as M. specialize (F t L). unfold mu at 2 in M. cbn [start Shapevl_model.sCount Shapevl_model.sThr] in M. rewrite wt_start, Nat2Z.id in M.
  assert (P : 1 <= mu (run feeds jobs sched (start shp C empty feeds k))).
  { unfold mu. assert (W : 1 <= wt x) by (destruct x; cbn; try lia; contradiction). apply nth_error_In in E. apply (in_map wt) in E.
    assert (Q : forall l n, In n l -> n <= list_sum l). { induction l as [|m l IH]; intros n J; [destruct J|]. cbn. destruct J as [->|J]; [lia|]. specialize (IH n J). unfold list_sum in IH. lia. }
    specialize (Q _ _ E). lia. }
  lia.
Qed.
Lemma joined_done : forall k s, inv s -> 0 < k -> List.length (sThr s) = k -> joined shp C s -> sExit s = false ->
  Forall2 (fun o c => exists ft, o = Some ft /\ c = fold_left (evalTrip ft) jobs empty) feeds (sColls s).
Proof.
  intros k s H K L J X. destruct (nth_ex _ (sThr s) 0) as (x & E0); [lia|]. pose proof (J _ _ E0). subst x. pose proof (i_stop _ H _ E0) as Neg.
  assert (A : forall f, f < List.length feeds -> exists ft, nth_error feeds f = Some (Some ft) /\ nth_error (sColls s) f = Some (fold_left (evalTrip ft) jobs empty)).
  { intros f Lf. apply (i_done _ H X f Lf); [lia|]. intros t ft js E. specialize (J _ _ E). discriminate. }
  pose proof (i_len _ H) as LL. clear - A LL. revert LL A. generalize (sColls s). generalize feeds. induction feeds0 as [|o l IH]; intros [|c m] LL A; try discriminate; constructor.
  - destruct (A 0) as (ft & E1 & E2); [cbn; lia|]. cbn in E1, E2. exists ft. split; congruence.
  - apply IH; [cbn in LL; lia|]. intros f Lf. apply (A (S f)). cbn. lia.
Qed.
End T.

(** ** Arguments *)
Section A.
Variable realpath : string -> option string.
Variable atoi : string -> Z.
Definition appl (o : opts) (i : item) : opts :=
  match i with
  | Flag a => if (a =? "-s")%string then mkO (oGround o) true (oJson o) (oUniq o) (oAvg o) (oSeg o) (oLevel o) (oFull o) (oMots o) (oFeeds o)
              else if (a =? "--json")%string then mkO (oGround o) (oSumm o) true (oUniq o) (oAvg o) (oSeg o) (oLevel o) (oFull o) (oMots o) (oFeeds o)
              else if (a =? "--unique")%string then mkO (oGround o) (oSumm o) (oJson o) true (oAvg o) (oSeg o) (oLevel o) (oFull o) (oMots o) (oFeeds o)
              else mkO (oGround o) (oSumm o) (oJson o) (oUniq o) true (oSeg o) (oLevel o) (oFull o) (oMots o) (oFeeds o)
  | Val a v => if (a =? "-g")%string then mkO v (oSumm o) (oJson o) (oUniq o) (oAvg o) (oSeg o) (oLevel o) (oFull o) (oMots o) (oFeeds o)
               else if (a =? "--segment-length")%string then mkO (oGround o) (oSumm o) (oJson o) (oUniq o) (oAvg o) (Some (atoi v)) (oLevel o) (oFull o) (oMots o) (oFeeds o)
               else if (a =? "-l")%string then mkO (oGround o) (oSumm o) (oJson o) (oUniq o) (oAvg o) (oSeg o) (atoi v) (oFull o) (oMots o) (oFeeds o)
               else if (a =? "-f")%string then mkO (oGround o) (oSumm o) (oJson o) (oUniq o) (oAvg o) (oSeg o) (oLevel o) v (oMots o) (oFeeds o)
               else mkO (oGround o) (oSumm o) (oJson o) (oUniq o) (oAvg o) (oSeg o) (oLevel o) (oFull o) v (oFeeds o)
  | Path p => mkO (oGround o) (oSumm o) (oJson o) (oUniq o) (oAvg o) (oSeg o) (oLevel o) (oFull o) (oMots o) (setIns p (oFeeds o))
  end.
Definition fin (e : ending) (o : opts) : parsed := match e with All => POpts o | Help => PExit 0 | _ => PExit 1 end.
Ltac members H := unfold helps, flags, valued in H; cbn [In] in H; repeat (destruct H as [<-|H]); try destruct H.
Lemma parse_path : forall a r o, ~ In a (helps ++ flags ++ valued) -> parse realpath atoi o (a :: r) =
  match realpath a with None => PExit 1 | Some p => parse realpath atoi (appl o (Path p)) r end.
Proof.
  intros a r o N. cbn [parse appl].
  assert (Q : forall b, In b (helps ++ flags ++ valued) -> (a =? b)%string = false).
  { intros b J. destruct (String.eqb_spec a b) as [->|]; [contradiction|reflexivity]. }
  rewrite !Q by (cbn; tauto). reflexivity.
Qed.
Lemma parse_reads : forall args l e, reads realpath args l e -> forall o, parse realpath atoi o args = fin e (fold_left appl l o).
Proof.
  intros args l e H. induction H as [|a r J|a r l e J H IH|a v r l e J H IH|a J|a p r l e J E H IH|a r J E]; intros o.
  - reflexivity.
  - members J; reflexivity.
  - cbn [fold_left]. rewrite <- IH. members J; reflexivity.
  - cbn [fold_left]. rewrite <- IH. members J; reflexivity.
  - members J; reflexivity.
  - cbn [fold_left]. rewrite parse_path by exact J. rewrite E, IH. reflexivity.
  - rewrite parse_path by exact J. rewrite E. reflexivity.
Qed.
Lemma reads_ex : forall n args, List.length args <= n -> exists l e, reads realpath args l e.
Proof.
  induction n as [|n IH]; intros args L.
  - destruct args; [|cbn in L; lia]. exists [], All. constructor.
  - destruct args as [|a r]; [exists [], All; constructor|]. cbn in L.
    destruct (in_dec string_dec a (helps ++ flags ++ valued)) as [J|J].
    + apply in_app_or in J. destruct J as [J|J]; [exists [], Help; constructor; exact J|]. apply in_app_or in J. destruct J as [J|J].
      * destruct (IH r) as (l & e & H); [lia|]. exists (Flag a :: l), e. constructor; assumption.
      * destruct r as [|v r]; [exists [], (NoValue a); constructor; exact J|]. cbn in L. destruct (IH r) as (l & e & H); [lia|]. exists (Val a v :: l), e. constructor; assumption.
    + destruct (realpath a) as [p|] eqn:E.
      * destruct (IH r) as (l & e & H); [lia|]. exists (Path p :: l), e. apply rd_path; assumption.
      * exists [], (BadPath a). apply rd_bad; assumption.
Qed.
Lemma disj : forall a, (In a helps -> In a flags -> False) /\ (In a helps -> In a valued -> False) /\ (In a flags -> In a valued -> False).
Proof. intros a. repeat split; intros J K; members J; cbn in K; intuition discriminate. Qed.
Lemma reads_fun : forall args l e, reads realpath args l e -> forall l' e', reads realpath args l' e' -> l' = l /\ e' = e.
Proof.
  assert (D := disj).
  assert (K : forall a, ~ In a (helps ++ flags ++ valued) -> ~ In a helps /\ ~ In a flags /\ ~ In a valued) by (intros a; rewrite !in_app_iff; tauto).
  intros args l e H. induction H as [|a r J|a r l e J H IH|a v r l e J H IH|a J|a p r l e J E H IH|a r J E]; intros l' e' H'; inversion H'; subst;
    try (split; reflexivity); try (destruct (D a) as (D1 & D2 & D3); exfalso; eauto; fail);
    try (exfalso; match goal with X : ~ In ?x (helps ++ _) |- _ => destruct (K x X) as (? & ? & ?); contradiction end);
    try congruence.
  - match goal with X : reads _ r _ _ |- _ => destruct (IH _ _ X) as [-> ->]; auto end.
  - match goal with X : reads _ r _ _ |- _ => destruct (IH _ _ X) as [-> ->]; auto end.
  - match goal with X : reads _ r _ _ |- _ => destruct (IH _ _ X) as [-> ->] end. split; congruence.
Qed.
Lemma setIns_in : forall x l y, In y (setIns x l) <-> y = x \/ In y l.
Proof.
  induction l as [|z l IH]; intros y; cbn [setIns]; [cbn; intuition|].
  destruct (String.ltb x z) eqn:E1; [cbn; intuition|]. destruct (String.ltb z x) eqn:E2; cbn [In].
  - rewrite IH. intuition.
  - destruct (ltb_total x z) as [T|[T|T]]; [congruence| |congruence]. subst z. intuition.
Qed.
Notation asc := (StronglySorted (fun a b => String.ltb a b = true)).
Lemma setIns_sorted : forall x l, asc l -> asc (setIns x l).
Proof.
  intros x l S. induction S as [|z l S IH F]; cbn [setIns]; [repeat constructor|]. rewrite Forall_forall in F.
  destruct (String.ltb x z) eqn:E1.
  - constructor; [constructor; [exact S|rewrite Forall_forall; exact F]|]. constructor; [exact E1|]. rewrite Forall_forall. intros y J. exact (ltb_trans _ _ _ E1 (F y J)).
  - destruct (String.ltb z x) eqn:E2; [|constructor; [exact S|rewrite Forall_forall; exact F]].
    constructor; [exact IH|]. rewrite Forall_forall. intros y J. apply setIns_in in J. destruct J as [->|J]; [exact E2|exact (F y J)].
Qed.
(** The last value of an option, computed from the back. *)
Lemma last_snoc_same : forall a l v, last_value a (l ++ [Val a v]) (Some v).
Proof. intros a l v. apply lv_last. intros v' []. Qed.
Lemma last_snoc_other : forall a l i x, (forall v, i <> Val a v) -> last_value a l x -> last_value a (l ++ [i]) x.
Proof.
  intros a l i x N H. destruct H as [l H|l1 v l2 H].
  - apply lv_none. intros v J. apply in_app_or in J. destruct J as [J|[J|[]]]; [exact (H v J)|exact (N v J)].
  - rewrite <- app_assoc. cbn. apply lv_last. intros v' J. apply in_app_or in J. destruct J as [J|[J|[]]]; [exact (H v' J)|exact (N v' J)].
Qed.
Definition well (i : item) : Prop := match i with Flag a => In a flags | Val a _ => In a valued | Path _ => True end.
Lemma reads_well : forall args l e, reads realpath args l e -> Forall well l.
Proof. intros args l e H. induction H; try constructor; auto. exact I. Qed.
Lemma flag_snoc : forall f (l : list item) (i : item) b, (b = true <-> In (Flag f) l) -> i <> Flag f -> (b = true <-> In (Flag f) (l ++ [i])).
Proof. intros f l i b H N. rewrite H, in_app_iff. cbn. intuition. Qed.
Lemma flag_snoc_same : forall f (l : list item), true = true <-> In (Flag f) (l ++ [Flag f]).
Proof. intros. rewrite in_app_iff. cbn. intuition. Qed.
Lemma path_snoc : forall (S : list string) (l : list item) (i : item), (forall p, In p S <-> In (Path p) l) -> (forall p, i <> Path p) -> (forall p, In p S <-> In (Path p) (l ++ [i])).
Proof. intros S l i H N p. rewrite H, in_app_iff. cbn. specialize (N p). intuition. Qed.
Lemma val_keep : forall a l i (P : option string -> Prop), (forall v, i <> Val a v) -> (exists x, last_value a l x /\ P x) -> exists x, last_value a (l ++ [i]) x /\ P x.
Proof. intros a l i P N (x & H & Q). exists x. split; [apply last_snoc_other; assumption|exact Q]. Qed.
Lemma fold_meant : forall l, Forall well l -> meant atoi l (fold_left appl l opts0).
Proof.
  induction l as [|i l IH] using rev_ind; intros W.
  - constructor; cbn; try (intuition; fail); try (exists None; split; [apply lv_none; intros v []|reflexivity]); try (split; [discriminate|intros []]). constructor.
  - apply Forall_app in W. destruct W as [W Wi]. inversion Wi as [|? ? Wi' _]; subst. specialize (IH W). rewrite fold_left_app. cbn [fold_left].
    set (o := fold_left appl l opts0) in *. clearbody o. destruct IH as [M1 M2 M3 M4 M5 M6 M7 M8 M9 M10 M11].
    destruct i as [a|a v|p]; cbn [well] in Wi'.
    + assert (NV : forall b v, Flag a <> Val b v) by (intros; discriminate).
      members Wi'; constructor; cbn [appl String.eqb Ascii.eqb Bool.eqb oGround oSumm oJson oUniq oAvg oSeg oLevel oFull oMots oFeeds];
        first [apply val_keep; [intros; discriminate|assumption] | apply flag_snoc_same | apply flag_snoc; [assumption|discriminate] | apply path_snoc; [assumption|discriminate] | assumption].
    + members Wi'; constructor; cbn [appl String.eqb Ascii.eqb Bool.eqb oGround oSumm oJson oUniq oAvg oSeg oLevel oFull oMots oFeeds];
        first [apply val_keep; [intros; discriminate|assumption] | exists (Some v); split; [apply last_snoc_same|reflexivity] | apply flag_snoc; [assumption|discriminate] | apply path_snoc; [assumption|discriminate] | assumption].
    + constructor; cbn [appl oGround oSumm oJson oUniq oAvg oSeg oLevel oFull oMots oFeeds];
        first [apply val_keep; [intros; discriminate|assumption] | apply flag_snoc; [assumption|discriminate] | idtac].
      * intros q. rewrite setIns_in, M10, in_app_iff. cbn. intuition congruence.
      * apply setIns_sorted. exact M11.
Qed.
End A.

(** ** Report streams *)
Lemma open_gen : forall n v, vSize v <= vCap v -> let '(v2, ps) := open v n in
  vGen v <= vGen v2 /\ vSize v2 <= vCap v2 /\ (vCap v < vSize v + n -> vGen v < vGen v2) /\ List.length ps = n.
Proof.
  induction n as [|n IH]; intros v L; cbn [open].
  - repeat split; try lia; auto.
  - assert (L1 : vSize (emplace v) <= vCap (emplace v)). { unfold emplace. destruct (vSize v =? vCap v) eqn:E; cbn; [|apply Nat.eqb_neq in E; lia]. apply Nat.eqb_eq in E. destruct (vCap v =? 0) eqn:Z; [apply Nat.eqb_eq in Z; lia|apply Nat.eqb_neq in Z; lia]. }
    specialize (IH (emplace v) L1). destruct (open (emplace v) n) as [v2 ps]. destruct IH as (A & B & D & E).
    assert (G : vGen v <= vGen (emplace v) /\ (vSize v = vCap v -> vGen v < vGen (emplace v)) /\ (vSize v <> vCap v -> vCap (emplace v) = vCap v /\ vSize (emplace v) = S (vSize v))).
    { unfold emplace. destruct (vSize v =? vCap v) eqn:Q; cbn; [apply Nat.eqb_eq in Q|apply Nat.eqb_neq in Q]; repeat split; try lia; contradiction. }
    destruct G as (G1 & G2 & G3). split; [lia|]. split; [exact B|]. split; [|cbn; lia].
    intros Q. destruct (Nat.eq_dec (vSize v) (vCap v)) as [X|X]; [specialize (G2 X); lia|]. destruct (G3 X) as [Y1 Y2]. assert (vGen (emplace v) < vGen v2) by (apply D; lia). lia.
Qed.
