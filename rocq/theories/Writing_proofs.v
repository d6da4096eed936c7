From Coq Require Import Ascii String List Arith NArith Bool Lia.
From Verif Require Import ListAux Writing_model Writing_spec.
Import ListNotations.
Open Scope nat_scope.

Section Proofs.
Context {B Feed : Type}.
Variable render : Feed -> string -> option (list B) -> option (list B).
Variable hasFreqs hasPublisher : Feed -> bool.
Variable tmpName : files B -> string -> string.
Variable pack : list (string * list B) -> list B.
Variable src tgt : string.
Variable zipName : option string.
Hypothesis Fresh : fresh_names tgt tmpName zipName.
Variable m : Feed.
Variable fs0 : files B.
Notation step := (step B Feed render tmpName pack src tgt zipName m).
Notation run := (run B Feed render tmpName pack src tgt zipName m).
Notation init := (init B Feed hasFreqs hasPublisher m).
Notation tasks := (tasks Feed hasFreqs hasPublisher m).
Notation wanted := (wanted hasFreqs hasPublisher src m fs0).
Notation contents := (contents render src m fs0).
Notation members := (members render hasFreqs hasPublisher src m fs0).
Notation new_files := (new_files render hasFreqs hasPublisher src tgt m fs0).
Notation all_rendered := (all_rendered render hasFreqs hasPublisher src m fs0).
Definition changed (fs : files B) (new : key -> list B -> Prop) (left : option string) : Prop := Writing_spec.changed tgt zipName fs0 fs new left.

Lemma keyEqb_spec : forall a b, keyEqb a b = true <-> a = b.
Proof.
  intros [a a'] [b b']. unfold keyEqb. cbn. rewrite andb_true_iff, !String.eqb_eq. split; [intros (-> & ->); auto|].
  intros E. injection E; auto.
Qed.
Lemma keyEqb_refl : forall k, keyEqb k k = true.
Proof. intros. now apply keyEqb_spec. Qed.
Lemma find_filter : forall (l : list (key * list B)) k k', k <> k' ->
  find (fun e => keyEqb (fst e) k') (filter (fun e => negb (keyEqb (fst e) k)) l) = find (fun e => keyEqb (fst e) k') l.
Proof.
  induction l as [|[x c] l IH]; cbn; intros k k' Ne; [easy|]. destruct (keyEqb x k) eqn:E; cbn.
  - apply keyEqb_spec in E. subst x. destruct (keyEqb k k') eqn:E'; [apply keyEqb_spec in E'; contradiction|auto].
  - destruct (keyEqb x k'); auto.
Qed.
Lemma find_gone : forall (l : list (key * list B)) k, find (fun e => keyEqb (fst e) k) (filter (fun e => negb (keyEqb (fst e) k)) l) = None.
Proof. induction l as [|[x c] l IH]; cbn; intros k; [easy|]. destruct (keyEqb x k) eqn:E; cbn; [auto|]. now rewrite E. Qed.
Lemma setF_eq : forall (fs : files B) k c, setF B fs k c k = c.
Proof.
  intros fs k [c|]; unfold look, setF; cbn.
  - now rewrite keyEqb_refl.
  - now rewrite find_gone.
Qed.
Lemma setF_ne : forall (fs : files B) k c k', k <> k' -> setF B fs k c k' = fs k'.
Proof.
  intros fs k c k' Ne. unfold look, setF. destruct c as [c|]; cbn.
  - destruct (keyEqb k k') eqn:E; [apply keyEqb_spec in E; contradiction|]. now rewrite find_filter.
  - now rewrite find_filter.
Qed.

Lemma names : map tName tasks = feed_files.
Proof. reflexivity. Qed.
Lemma names_nodup : NoDup feed_files.
Proof. unfold feed_files. repeat constructor; cbn; intuition discriminate. Qed.

Definition wantedT (t : task) : bool := tIf t && (negb (tIfSource t) || match fs0 (src, tName t) with Some _ => true | None => false end).
Lemma wantedT_iff : forall t, In t tasks -> (wantedT t = true <-> wanted (tName t)).
Proof.
  assert (Src : forall f, match fs0 (src, f) with Some _ => true | None => false end = true <-> fs0 (src, f) <> None).
  { intros f. destruct (fs0 (src, f)); split; intros; try easy; congruence. }
  intros t I. unfold wantedT, Writing_spec.wanted. rewrite andb_true_iff, orb_true_iff, Src.
  cbn in I. repeat (destruct I as [<-|I]; [cbn; intuition (try discriminate; auto)|]). destruct I.
Qed.

Lemma members_app : forall a es b es', members a es -> members b es' -> members (a ++ b) (es ++ es').
Proof. induction 1; cbn; intros; [auto|apply mb_in; auto|apply mb_out; auto]. Qed.

Definition isZip : bool := match zipName with Some _ => true | None => false end.
(** files new after the tasks [a] *)
Definition vis (a : list task) : key -> list B -> Prop := if isZip then no_files else new_files (map tName a).
Definition zips (a : list task) (es : list (string * list B)) : Prop := if isZip then members (map tName a) es else es = [].
Definition tmp_ok (tmp : string) : Prop := ~ In tmp feed_files /\ zipName <> Some tmp.

Definition good (s : wstate B) : Prop :=
  match wPc B s with
  | WTasks _ ts => exists a, tasks = a ++ ts /\ changed (wFs B s) (vis a) None /\ zips a (wZip B s) /\ all_rendered (map tName a)
  | WPut _ t tmp rest bad ts => bad = false /\ exists a pre, tasks = a ++ t :: ts /\ changed (wFs B s) (vis a) (Some tmp) /\ zips a (wZip B s) /\
      all_rendered (map tName a) /\ wantedT t = true /\ tmp_ok tmp /\ contents (tName t) (pre ++ rest) /\ wFs B s (tgt, tmp) = Some pre
  | WMove _ t tmp ts => exists a c, tasks = a ++ t :: ts /\ changed (wFs B s) (vis a) (Some tmp) /\ zips a (wZip B s) /\
      all_rendered (map tName a) /\ wantedT t = true /\ tmp_ok tmp /\ contents (tName t) c /\ wFs B s (tgt, tmp) = Some c
  | WZip _ tmp rest bad => bad = false /\ isZip = true /\ changed (wFs B s) no_files (Some tmp) /\ members feed_files (wZip B s) /\ tmp_ok tmp /\
      exists pre, pack (wZip B s) = pre ++ rest /\ wFs B s (tgt, tmp) = Some pre
  | WZipMove _ tmp => isZip = true /\ changed (wFs B s) no_files (Some tmp) /\ members feed_files (wZip B s) /\ tmp_ok tmp /\ wFs B s (tgt, tmp) = Some (pack (wZip B s))
  | WDone _ => match zipName with
               | None => changed (wFs B s) (new_files feed_files) None /\ all_rendered feed_files
               | Some z => exists es, members feed_files es /\ changed (wFs B s) (only_file (tgt, z) (pack es)) None
               end
  | WThrown _ => exists a b left, tasks = a ++ b /\ changed (wFs B s) (vis a) left /\ all_rendered (map tName a)
  end.

Lemma vis_tmp : forall a tmp c b, tasks = a ++ b -> tmp_ok tmp -> ~ vis a (tgt, tmp) c.
Proof.
  intros a tmp c b E (No & _). unfold vis. destruct isZip; [easy|]. intros (f & I & _ & Ek & _). injection Ek; intros ->.
  apply No. rewrite <- names, E, map_app. apply in_or_app. auto.
Qed.

(** a fresh temporary file is created *)
Lemma create : forall fs (new : key -> list B -> Prop) tmp, changed fs new None -> fs (tgt, tmp) = None -> (forall c, ~ new (tgt, tmp) c) ->
  tmp_ok tmp -> changed (setF B fs (tgt, tmp) (Some [])) new (Some tmp).
Proof.
  intros fs new tmp (H1 & H2 & _) Nn No To. split; [|split].
  - intros k c N. rewrite setF_ne; [auto|]. intros <-. now apply No in N.
  - intros k N L. specialize (L tmp eq_refl). rewrite setF_ne by congruence. apply H2; [auto|discriminate].
  - intros t E. injection E; intros <-. split; [|exact To]. rewrite <- Nn. symmetry. apply H2; [auto|discriminate].
Qed.
Lemma append_ok : forall fs (new : key -> list B -> Prop) tmp b pre, changed fs new (Some tmp) -> fs (tgt, tmp) = Some pre -> (forall c, ~ new (tgt, tmp) c) ->
  changed (appendF B fs (tgt, tmp) b) new (Some tmp) /\ appendF B fs (tgt, tmp) b (tgt, tmp) = Some (pre ++ [b]).
Proof.
  intros fs new tmp b pre (H1 & H2 & H3) E No. unfold appendF. rewrite E. split; [split; [|split]|apply setF_eq].
  - intros k c N. rewrite setF_ne; [auto|]. intros <-. now apply No in N.
  - intros k N L. specialize (L tmp eq_refl) as L'. rewrite setF_ne by congruence. auto.
  - auto.
Qed.
(** it is removed *)
Lemma unlink_ok : forall fs (new : key -> list B -> Prop) tmp, changed fs new (Some tmp) -> (forall c, ~ new (tgt, tmp) c) ->
  changed (setF B fs (tgt, tmp) None) new None.
Proof.
  intros fs new tmp (H1 & H2 & H3) No. split; [|split; [|easy]].
  - intros k c N. rewrite setF_ne; [auto|]. intros <-. now apply No in N.
  - intros k N _. destruct (keyEqb (tgt, tmp) k) eqn:E.
    + apply keyEqb_spec in E. subst. rewrite setF_eq. symmetry. now apply H3.
    + assert ((tgt, tmp) <> k) by (intros Q; apply keyEqb_spec in Q; congruence). rewrite setF_ne by auto. apply H2; [auto|]. intros t Et. congruence.
Qed.
(** it is renamed to [f], which is new with its contents *)
Lemma rename_ok : forall fs (new new' : key -> list B -> Prop) tmp f c, changed fs new (Some tmp) -> fs (tgt, tmp) = Some c -> f <> tmp ->
  (forall c, ~ new (tgt, tmp) c) ->
  (forall k d, new' k d <-> (new k d /\ k <> (tgt, f)) \/ (k = (tgt, f) /\ d = c)) ->
  changed (renameF B fs (tgt, tmp) (tgt, f)) new' None.
Proof.
  intros fs new new' tmp f c (H1 & H2 & H3) E Ne No Q. unfold renameF. split; [|split; [|easy]].
  - intros k d N. apply Q in N. destruct N as [(N & Nf)|(-> & ->)].
    + rewrite setF_ne; [|intros <-; now apply No in N]. rewrite setF_ne by congruence. auto.
    + rewrite setF_ne by congruence. now rewrite setF_eq.
  - intros k N _.
    assert (Nf : k <> (tgt, f)). { intros ->. apply (N c). apply Q. auto. }
    assert (Nk : forall d, ~ new k d). { intros d I. apply (N d). apply Q. auto. }
    destruct (keyEqb (tgt, tmp) k) eqn:Ek.
    + apply keyEqb_spec in Ek. subst. rewrite setF_eq. symmetry. now apply H3.
    + assert ((tgt, tmp) <> k) by (intros Z; apply keyEqb_spec in Z; congruence). rewrite !setF_ne by congruence. apply H2; [auto|]. congruence.
Qed.

Lemma snoc_tasks : forall (a : list task) t ts, a ++ t :: ts = (a ++ [t]) ++ ts.
Proof. intros. now rewrite <- app_assoc. Qed.
Lemma name_new : forall a t ts, tasks = a ++ t :: ts -> ~ In (tName t) (map tName a).
Proof.
  intros a t ts E I. pose proof names_nodup as N. rewrite <- names, E, map_app in N. cbn in N. apply NoDup_remove_2 in N.
  apply N. apply in_or_app. auto.
Qed.
Lemma in_tasks : forall a t ts, tasks = a ++ t :: ts -> In t tasks.
Proof. intros a t ts ->. apply in_elt. Qed.
Lemma name_feed : forall a t ts, tasks = a ++ t :: ts -> In (tName t) feed_files.
Proof. intros a t ts E. rewrite <- names. apply in_map. eapply in_tasks; eauto. Qed.

(** the source file of the next task is as it was *)
Lemma src_same : forall a t ts fs, tasks = a ++ t :: ts -> changed fs (vis a) None -> fs (src, tName t) = fs0 (src, tName t).
Proof.
  intros a t ts fs E (_ & H2 & _). apply H2; [|discriminate]. intros c V. unfold vis in V. destruct isZip; [exact V|].
  destruct V as (f & I & _ & Ek & _). injection Ek; intros <- _. now apply name_new in E.
Qed.
Lemma rendered_snoc : forall a t, all_rendered (map tName a) -> (wanted (tName t) -> exists c, contents (tName t) c) -> all_rendered (map tName (a ++ [t])).
Proof.
  intros a t H Ht f I. rewrite map_app, in_app_iff in I. cbn in I. destruct I as [I|[<-|[]]]; auto.
Qed.
Lemma zips_snoc : forall a t es es', zips a es -> (if isZip then members [tName t] es' else es' = []) -> zips (a ++ [t]) (es ++ es').
Proof. intros a t es es' Z H. unfold zips in *. destruct isZip; [rewrite map_app; apply members_app; auto|now subst]. Qed.
(** a task that is not wanted changes nothing *)
Lemma vis_skip : forall a t k c, ~ wanted (tName t) -> (vis (a ++ [t]) k c <-> vis a k c).
Proof.
  intros a t k c No. unfold vis. destruct isZip; [reflexivity|]. unfold Writing_spec.new_files. split; intros (f & I & W & R); exists f.
  - rewrite map_app, in_app_iff in I. cbn in I. destruct I as [I|[<-|[]]]; [auto|contradiction].
  - rewrite map_app, in_app_iff. auto.
Qed.
Lemma changed_ext : forall fs (new new' : key -> list B -> Prop) left, (forall k c, new k c <-> new' k c) -> changed fs new left -> changed fs new' left.
Proof.
  intros fs new new' left Q (H1 & H2 & H3). split; [|split; [|exact H3]].
  - intros k c N. apply H1. now apply Q.
  - intros k N L. apply H2; [|exact L]. intros c I. apply (N c). now apply Q.
Qed.

Lemma good_step : forall o s, wOk o = true -> good s -> good (step o s).
Proof.
  intros o [fs pc z] W G. unfold Writing_model.step. destruct pc as [ts|t tmp rest bad ts|t tmp ts|tmp rest bad|tmp| |]; cbn [wPc wFs wZip] in *.
  - destruct G as (a & Et & Ch & Z & Ar). cbn [wFs wZip] in *. destruct ts as [|t ts].
    + rewrite app_nil_r in Et. subst a. rewrite names in Ar. unfold good, vis, zips, isZip in *. rewrite names in *.
      destruct zipName as [zn|] eqn:Ez; cbn [wPc wFs wZip].
      * destruct (Fresh fs zn) as (F1 & F2 & F3). split; [auto|]. split; [auto|]. split; [apply create; auto; split; [auto|now rewrite Ez]|]. split; [auto|]. split; [split; [auto|now rewrite Ez]|].
        exists []. split; [auto|apply setF_eq].
      * auto.
    + assert (Es : fs (src, tName t) = fs0 (src, tName t)) by (eapply src_same; eauto). rewrite Es.
      assert (WT : wantedT t = true <-> wanted (tName t)) by (apply wantedT_iff; eapply in_tasks; eauto).
      fold (wantedT t). destruct (wantedT t) eqn:Ew.
      * destruct (cOk o); cbn [wPc wFs wZip].
        -- destruct (Fresh fs (tName t)) as (F1 & F2 & F3).
           assert (To : tmp_ok (tmpName fs (tName t))) by (split; auto).
           assert (Cr : changed (setF B fs (tgt, tmpName fs (tName t)) (Some [])) (vis a) (Some (tmpName fs (tName t)))).
           { apply create; auto. intros c. eapply vis_tmp; eauto. }
           destruct (render m (tName t) (fs0 (src, tName t))) as [c|] eqn:R.
           ++ cbn. split; [auto|]. exists a, []. repeat (split; [now auto|]). apply setF_eq.
           ++ cbn. exists a, (t :: ts), (Some (tmpName fs (tName t))). auto.
        -- cbn. exists a, (t :: ts), None. auto.
      * cbn. exists (a ++ [t]). rewrite <- snoc_tasks. split; [auto|]. assert (Nw : ~ wanted (tName t)) by (intros X; apply WT in X; discriminate).
        split; [|split].
        -- eapply changed_ext; [|exact Ch]. intros k c. now rewrite vis_skip.
        -- rewrite <- (app_nil_r z). apply zips_snoc; [auto|]. destruct isZip; [|auto]. apply mb_out; [auto|constructor].
        -- apply rendered_snoc; [auto|]. easy.
  - destruct G as (-> & a & pre & Et & Ch & Z & Ar & Ew & To & C & Ef). cbn [wFs wZip] in *. destruct rest as [|b rest].
    + cbn. rewrite app_nil_r in C. exists a, pre. auto 10.
    + rewrite W. cbn.
      destruct (append_ok fs (vis a) tmp b pre Ch Ef) as (Ch' & Ef').
      { intros c. eapply vis_tmp; eauto. }
      split; [auto|]. exists a, (pre ++ [b]). rewrite <- app_assoc. cbn. auto 10.
  - destruct G as (a & c & Et & Ch & Z & Ar & Ew & To & C & Ef). cbn [wFs wZip] in *.
    assert (Nv : forall c, ~ vis a (tgt, tmp) c) by (intros c0; eapply vis_tmp; eauto).
    assert (WT : wanted (tName t)) by (apply wantedT_iff; [eapply in_tasks; eauto|auto]).
    assert (Ar' : all_rendered (map tName (a ++ [t]))) by (apply rendered_snoc; eauto).
    destruct (cOk o).
    + destruct zipName as [zn|] eqn:Ez.
      * unfold good. cbn [wPc wFs wZip]. exists (a ++ [t]). rewrite <- snoc_tasks. split; [auto|]. split; [|split; [|auto]].
        -- assert (Iz : isZip = true) by (unfold isZip; now rewrite Ez). unfold vis in *. rewrite Iz in *. apply unlink_ok; auto.
        -- rewrite Ef. apply zips_snoc; [auto|]. unfold isZip. rewrite Ez. apply mb_in; [auto|auto|constructor].
      * unfold good. cbn [wPc wFs wZip]. exists (a ++ [t]). rewrite <- snoc_tasks. split; [auto|]. split; [|split; [|auto]].
        -- apply (rename_ok fs (vis a) _ tmp (tName t) c); auto.
           { intros <-. destruct To as (No & _). apply No. eapply name_feed; eauto. }
           intros k d. unfold vis, isZip. rewrite Ez. unfold Writing_spec.new_files. split.
           ++ intros (f & I & Wf & -> & Cf). rewrite map_app, in_app_iff in I. cbn in I. destruct I as [I|[<-|[]]].
              ** left. split; [exists f; auto|]. intros Ek. injection Ek; intros ->. now apply name_new in Et.
              ** right. split; [auto|]. unfold Writing_spec.contents in *. congruence.
           ++ intros [((f & I & Wf & -> & Cf) & Nk)|(-> & ->)].
              ** exists f. rewrite map_app, in_app_iff. auto.
              ** exists (tName t). rewrite map_app, in_app_iff. cbn. auto 10.
        -- rewrite <- (app_nil_r z). apply zips_snoc; [auto|]. unfold isZip. now rewrite Ez.
    + cbn. exists a, (t :: ts), (Some tmp). auto.
  - destruct G as (-> & Iz & Ch & Mb & To & pre & Ep & Ef). cbn [wFs wZip] in *. destruct rest as [|b rest].
    + cbn. rewrite app_nil_r in Ep. rewrite Ep. auto 10.
    + rewrite W. cbn. destruct (append_ok fs no_files tmp b pre Ch Ef) as (Ch' & Ef'); [easy|].
      split; [auto|]. split; [auto|]. split; [auto|]. split; [auto|]. split; [auto|]. exists (pre ++ [b]). rewrite <- app_assoc. auto.
  - destruct G as (Iz & Ch & Mb & To & Ef). cbn [wFs wZip] in *. unfold isZip in Iz. destruct zipName as [zn|] eqn:Ez; [|discriminate].
    destruct (cOk o).
    + unfold good. cbn [wPc wFs wZip]. rewrite Ez. exists z. split; [auto|]. apply (rename_ok fs no_files _ tmp zn (pack z)); auto.
      * destruct To as (_ & N). congruence.
      * intros k d. unfold only_file, no_files. tauto.
    + unfold good. cbn [wPc wFs wZip]. exists tasks, [], (Some tmp). rewrite app_nil_r. split; [auto|]. split.
      * unfold vis, isZip. now rewrite Ez.
      * rewrite names. intros f I Wf. clear - Mb I Wf. induction Mb; [easy| |]; (destruct I as [<-|I]; [|auto]); [eauto|contradiction].
  - exact G.
  - exact G.
Qed.

Lemma good_run : forall os s, no_write_error os -> good s -> good (run os s).
Proof.
  induction os as [|o os IH]; cbn; intros s W G; [auto|]. apply IH; [intros x I; apply W; cbn; auto|]. apply good_step; [apply W; cbn; auto|auto].
Qed.
Lemma good_init : good (init fs0).
Proof.
  exists []. split; [reflexivity|]. split; [|split].
  - split; [|split].
    + intros k c V. unfold vis in V. destruct isZip; [destruct V|]. destruct V as (f & [] & _).
    + auto.
    + discriminate.
  - unfold zips. cbn. destruct isZip; [constructor|auto].
  - intros f [].
Qed.

Lemma map_split : forall a b, tasks = a ++ b -> feed_files = map tName a ++ map tName b.
Proof. intros a b E. now rewrite <- names, E, map_app. Qed.

(** ** directory *)
Lemma dir_crash : zipName = None -> forall os, no_write_error os ->
  exists a b left, feed_files = a ++ b /\ changed (wFs B (run os (init fs0))) (new_files a) left /\ all_rendered a.
Proof.
  intros Ez os W. pose proof (good_run os _ W good_init) as G. set (s := run os (init fs0)) in *. clearbody s.
  unfold good, vis, isZip in G. rewrite Ez in G. destruct (wPc B s).
  - destruct G as (a & E & Ch & _ & Ar). exists (map tName a), (map tName ts), None. split; [now apply map_split|auto].
  - destruct G as (_ & a & pre & E & Ch & _ & Ar & _). exists (map tName a), (map tName (t :: ts)), (Some tmp). split; [now apply map_split|auto].
  - destruct G as (a & c & E & Ch & _ & Ar & _). exists (map tName a), (map tName (t :: ts)), (Some tmp). split; [now apply map_split|auto].
  - destruct G as (_ & G & _). discriminate.
  - destruct G as (G & _). discriminate.
  - exists feed_files, [], None. rewrite app_nil_r. tauto.
  - destruct G as (a & b & left & E & Ch & Ar). exists (map tName a), (map tName b), left. split; [now apply map_split|auto].
Qed.
Lemma dir_done : zipName = None -> forall os, no_write_error os -> wPc B (run os (init fs0)) = WDone B ->
  changed (wFs B (run os (init fs0))) (new_files feed_files) None /\ all_rendered feed_files.
Proof.
  intros Ez os W E. pose proof (good_run os _ W good_init) as G. set (s := run os (init fs0)) in *. clearbody s.
  unfold good in G. now rewrite E, Ez in G.
Qed.

(** ** archive *)
Lemma zip_crash : forall zn, zipName = Some zn -> forall os, no_write_error os ->
  let s := run os (init fs0) in
  (exists left, changed (wFs B s) no_files left) \/
  (wPc B s = WDone B /\ exists es, members feed_files es /\ changed (wFs B s) (only_file (tgt, zn) (pack es)) None).
Proof.
  intros zn Ez os W s. pose proof (good_run os _ W good_init) as G. fold s in G. clearbody s. unfold good, vis, isZip in G. rewrite Ez in G.
  destruct (wPc B s).
  - left. destruct G as (a & E & Ch & _). eauto.
  - left. destruct G as (_ & a & pre & E & Ch & _). eauto.
  - left. destruct G as (a & c & E & Ch & _). eauto.
  - left. destruct G as (_ & _ & Ch & _). eauto.
  - left. destruct G as (_ & Ch & _). eauto.
  - right. auto.
  - left. destruct G as (a & b & left & E & Ch & _). eauto.
Qed.
Lemma zip_done : forall zn, zipName = Some zn -> forall os, no_write_error os -> wPc B (run os (init fs0)) = WDone B ->
  exists es, members feed_files es /\ changed (wFs B (run os (init fs0))) (only_file (tgt, zn) (pack es)) None.
Proof.
  intros zn Ez os W E. pose proof (good_run os _ W good_init) as G. set (s := run os (init fs0)) in *. clearbody s.
  unfold good in G. now rewrite E, Ez in G.
Qed.

(** ** if nothing fails, the writer gets to the end *)
Definition okay : outcome := mkOut true true.
Lemma run_app : forall os os' s, run (os ++ os') s = run os' (run os s).
Proof. induction os; cbn; auto. Qed.
Lemma put_ends : forall rest fs z t tmp ts, exists n fs', run (repeat okay n) (mkW B fs (WPut B t tmp rest false ts) z) = mkW B fs' (WMove B t tmp ts) z.
Proof.
  induction rest as [|b rest IH]; intros fs z t tmp ts.
  - exists 1, fs. reflexivity.
  - destruct (IH (appendF B fs (tgt, tmp) b) z t tmp ts) as (n & fs' & E). exists (S n), fs'. cbn. exact E.
Qed.
Lemma zip_ends : forall rest fs z tmp, exists n fs', run (repeat okay n) (mkW B fs (WZip B tmp rest false) z) = mkW B fs' (WZipMove B tmp) z.
Proof.
  induction rest as [|b rest IH]; intros fs z tmp.
  - exists 1, fs. reflexivity.
  - destruct (IH (appendF B fs (tgt, tmp) b) z tmp) as (n & fs' & E). exists (S n), fs'. cbn. exact E.
Qed.
Lemma repeat_app : forall (A : Type) (x : A) n k, repeat x (n + k) = repeat x n ++ repeat x k.
Proof. induction n; cbn; intros; [auto|now rewrite IHn]. Qed.
Lemma no_err : forall n, no_write_error (repeat okay n).
Proof. intros n o I. apply repeat_spec in I. now subst. Qed.

Lemma tasks_end : all_rendered feed_files ->
  forall ts s, wPc B s = WTasks B ts -> good s -> exists n, wPc B (run (repeat okay n) s) = WDone B.
Proof.
  intros Ar. induction ts as [|t ts IH]; intros s Ep G.
  - destruct s as [fs pc z]. cbn in Ep. subst pc.
    assert (Q : (exists zn, zipName = Some zn) \/ zipName = None) by (destruct zipName; eauto). destruct Q as [(zn & Ez) | Ez].
    + destruct (zip_ends (pack z) (setF B fs (tgt, tmpName fs zn) (Some [])) z (tmpName fs zn)) as (n & fs' & E).
      exists (1 + (n + 1)). rewrite repeat_app, run_app, repeat_app, run_app.
      assert (E1 : run (repeat okay 1) (mkW B fs (WTasks B []) z) = mkW B (setF B fs (tgt, tmpName fs zn) (Some [])) (WZip B (tmpName fs zn) (pack z) false) z).
      { cbn. now rewrite Ez. }
      rewrite E1, E. cbn. now rewrite Ez.
    + exists 1. cbn. now rewrite Ez.
  - assert (G1 : good (step okay s)) by (apply good_step; auto).
    assert (Et : exists a, tasks = a ++ t :: ts /\ wFs B s (src, tName t) = fs0 (src, tName t)).
    { unfold good in G. rewrite Ep in G. destruct G as (a & E & Ch & _). exists a. split; [auto|]. eapply src_same; eauto. }
    destruct Et as (a & Et & Es).
    assert (WT : wantedT t = true <-> wanted (tName t)) by (apply wantedT_iff; eapply in_tasks; eauto).
    destruct s as [fs pc z]. cbn [wPc wFs] in *. subst pc.
    unfold Writing_model.step in G1. cbn [wPc wFs wZip] in G1. rewrite Es in G1. fold (wantedT t) in G1. destruct (wantedT t) eqn:Ew.
    + destruct (Ar (tName t)) as (c & C); [eapply name_feed; eauto|now apply WT|]. unfold Writing_spec.contents in C. rewrite C in G1. cbn [cOk okay] in G1.
      destruct (put_ends c (setF B fs (tgt, tmpName fs (tName t)) (Some [])) z t (tmpName fs (tName t)) ts) as (n & fs' & E).
      set (s2 := step okay (mkW B fs' (WMove B t (tmpName fs (tName t)) ts) z)).
      assert (G2 : good s2). { apply good_step; [auto|]. rewrite <- E. apply good_run; [apply no_err|auto]. }
      assert (E2 : wPc B s2 = WTasks B ts). { unfold s2. cbn. destruct zipName; reflexivity. }
      destruct (IH s2 E2 G2) as (k & Ek). exists (1 + (n + (1 + k))). rewrite repeat_app, run_app, repeat_app, run_app, repeat_app, run_app.
      assert (E1 : run (repeat okay 1) (mkW B fs (WTasks B (t :: ts)) z) = mkW B (setF B fs (tgt, tmpName fs (tName t)) (Some [])) (WPut B t (tmpName fs (tName t)) c false ts) z).
      { cbn [repeat Writing_model.run]. unfold Writing_model.step. cbn [wPc wFs wZip]. rewrite Es. fold (wantedT t). rewrite Ew, C. reflexivity. }
      rewrite E1, E. exact Ek.
    + destruct (IH (mkW B fs (WTasks B ts) z) eq_refl G1) as (k & Ek). exists (1 + k). rewrite repeat_app, run_app.
      assert (E1 : run (repeat okay 1) (mkW B fs (WTasks B (t :: ts)) z) = mkW B fs (WTasks B ts) z).
      { cbn [repeat Writing_model.run]. unfold Writing_model.step. cbn [wPc wFs wZip]. rewrite Es. fold (wantedT t). rewrite Ew. reflexivity. }
      now rewrite E1.
Qed.
Lemma writer_ends : all_rendered feed_files -> exists n, wPc B (run (repeat okay n) (init fs0)) = WDone B.
Proof. intros Ar. apply (tasks_end Ar tasks (init fs0) eq_refl good_init). Qed.
End Proofs.
