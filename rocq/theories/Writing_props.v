(** C43: the files on disk while the output is written. *)
From Coq Require Import Ascii String List Arith NArith Bool Lia.
From Verif Require Import ListAux StrAux Colours_model Colours_spec Colours_props Writing_model Writing_spec Writing_proofs.
Import ListNotations.
Open Scope nat_scope.

(** C43, output to a directory, also in place: whenever the process dies, or an open,
    rename or the parser fails, the disk is as at the start, except that the first so many
    files of the feed are new and complete, with contents computed from the source as it
    was at the start, and that there may be one temporary file. *)
Theorem C43_directory : forall (B Feed : Type) render hasFreqs hasPublisher tmpName pack src tgt (m : Feed) (fs0 : files B),
  fresh_names tgt tmpName None ->
  forall os, no_write_error os ->
  exists a b left, feed_files = a ++ b /\
    changed tgt None fs0 (wFs _ (run _ _ render tmpName pack src tgt None m os (init _ _ hasFreqs hasPublisher m fs0)))
      (new_files render hasFreqs hasPublisher src tgt m fs0 a) left /\
    all_rendered render hasFreqs hasPublisher src m fs0 a.
Proof. intros. apply (dir_crash render hasFreqs hasPublisher tmpName pack src tgt None); auto. Qed.
Print Assumptions C43_directory.


(** C43: every file of the feed is the old one or the new one, never a part. *)
Theorem C43_each_file_whole : forall (B Feed : Type) render hasFreqs hasPublisher tmpName pack src tgt (m : Feed) (fs0 : files B),
  fresh_names tgt tmpName None ->
  forall os, no_write_error os -> forall f, In f feed_files ->
  let fs := wFs _ (run _ _ render tmpName pack src tgt None m os (init _ _ hasFreqs hasPublisher m fs0)) in
  fs (tgt, f) = fs0 (tgt, f) \/ exists c, render m f (fs0 (src, f)) = Some c /\ fs (tgt, f) = Some c.
Proof.
  intros B Feed render hf hp tmpName pack src tgt m fs0 Fr os W f If fs.
  destruct (C43_directory B Feed render hf hp tmpName pack src tgt m fs0 Fr os W) as (a & b & left & E & Ch & Ar). fold fs in Ch.
  assert (D : (In f a /\ wanted hf hp src m fs0 f) \/ ~ (In f a /\ wanted hf hp src m fs0 f)).
  { destruct (in_dec string_dec f a) as [I|N]; [|tauto].
    assert (Wd : wanted hf hp src m fs0 f \/ ~ wanted hf hp src m fs0 f); [|tauto].
    rewrite <- (names hf hp m) in If. apply in_map_iff in If. destruct If as (t & <- & It).
    rewrite <- (wantedT_iff render hf hp src m fs0 t It). destruct (wantedT src fs0 t); auto. }
  destruct Ch as (H1 & H2 & H3). destruct D as [(I & Wf)|N].
  - right. destruct (Ar f I Wf) as (c & C). exists c. split; [exact C|]. apply H1. exists f. auto.
  - left. apply H2.
    + intros c (g & Ig & Wg & Ek & _). injection Ek; intros <-. tauto.
    + intros tmp El Ek. injection Ek; intros <-. destruct (H3 f El) as (_ & X & _). contradiction.
Qed.
Print Assumptions C43_each_file_whole.

(** C43: a source in another directory is never touched. *)
Theorem C43_source_untouched : forall (B Feed : Type) render hasFreqs hasPublisher tmpName pack src tgt zipName (m : Feed) (fs0 : files B),
  fresh_names tgt tmpName zipName -> src <> tgt ->
  forall os, no_write_error os -> forall f,
  wFs _ (run _ _ render tmpName pack src tgt zipName m os (init _ _ hasFreqs hasPublisher m fs0)) (src, f) = fs0 (src, f).
Proof.
  intros B Feed render hf hp tmpName pack src tgt zipName m fs0 Fr Ne os W f. destruct zipName as [z|].
  - destruct (zip_crash render hf hp tmpName pack src tgt (Some z) Fr m fs0 z eq_refl os W) as [(left & _ & H & _)|(_ & es & _ & _ & H & _)].
    + apply H; [intros c []|]. intros. congruence.
    + apply H; [intros c (E & _)|]; intros; congruence.
  - destruct (dir_crash render hf hp tmpName pack src tgt None Fr m fs0 eq_refl os W) as (a & b & left & _ & (_ & H & _) & _).
    apply H; [intros c (g & _ & _ & E & _)|intros]; congruence.
Qed.
Print Assumptions C43_source_untouched.

(** C43: after a success all files of the feed that are wanted are new and there is no
    temporary file; nothing else changed. *)
Theorem C43_directory_done : forall (B Feed : Type) render hasFreqs hasPublisher tmpName pack src tgt (m : Feed) (fs0 : files B),
  fresh_names tgt tmpName None ->
  forall os, no_write_error os ->
  let s := run _ _ render tmpName pack src tgt None m os (init _ _ hasFreqs hasPublisher m fs0) in
  wPc _ s = WDone _ ->
  changed tgt None fs0 (wFs _ s) (new_files render hasFreqs hasPublisher src tgt m fs0 feed_files) None /\
  all_rendered render hasFreqs hasPublisher src m fs0 feed_files.
Proof. intros B Feed render hf hp tmpName pack src tgt m fs0 Fr os W s E. apply (dir_done render hf hp tmpName pack src tgt None Fr m fs0 eq_refl os W E). Qed.
Print Assumptions C43_directory_done.

(** C43: if no operation fails and every file can be computed, the writer succeeds. *)
Theorem C43_writer_ends : forall (B Feed : Type) render hasFreqs hasPublisher tmpName pack src tgt zipName (m : Feed) (fs0 : files B),
  fresh_names tgt tmpName zipName -> all_rendered render hasFreqs hasPublisher src m fs0 feed_files ->
  exists n, wPc _ (run _ _ render tmpName pack src tgt zipName m (repeat (mkOut true true) n) (init _ _ hasFreqs hasPublisher m fs0)) = WDone _.
Proof. intros. now apply writer_ends. Qed.
Print Assumptions C43_writer_ends.

(** C43, output to an archive: whenever the process dies, or something fails, everything
    is as at the start except for at most one temporary file, or the archive is new, with
    all files of the feed, complete. *)
Theorem C43_archive : forall (B Feed : Type) render hasFreqs hasPublisher tmpName pack src tgt z (m : Feed) (fs0 : files B),
  fresh_names tgt tmpName (Some z) ->
  forall os, no_write_error os ->
  let s := run _ _ render tmpName pack src tgt (Some z) m os (init _ _ hasFreqs hasPublisher m fs0) in
  (wPc _ s <> WDone _ -> exists left, changed tgt (Some z) fs0 (wFs _ s) no_files left) /\
  (wPc _ s = WDone _ -> exists es, members render hasFreqs hasPublisher src m fs0 feed_files es /\
    changed tgt (Some z) fs0 (wFs _ s) (only_file (tgt, z) (pack es)) None).
Proof.
  intros B Feed render hf hp tmpName pack src tgt z m fs0 Fr os W s. split; intros E.
  - destruct (zip_crash render hf hp tmpName pack src tgt (Some z) Fr m fs0 z eq_refl os W) as [H|(D & _)]; [exact H|contradiction].
  - exact (zip_done render hf hp tmpName pack src tgt (Some z) Fr m fs0 z eq_refl os W E).
Qed.
Print Assumptions C43_archive.

(** ** A concrete case *)
(** A name longer than all that exist. *)
Fixpoint xs (n : nat) : string := match n with 0 => EmptyString | S k => String "x" (xs k) end.
Definition longest (l : list nat) : nat := fold_right max 0 l.
Definition ktmp (fs : files string) (f : string) : string :=
  (".pfaedle-tmp-" ++ f ++ xs (longest (map (fun e => String.length (snd (fst e))) (entries _ fs))))%string.
Lemma xs_length : forall n, String.length (xs n) = n.
Proof. induction n; cbn; auto. Qed.
Lemma longest_le : forall l n, In n l -> n <= longest l.
Proof. induction l as [|x l IHl]; intros n I; [easy|]. change (longest (x :: l)) with (Nat.max x (longest l)). destruct I as [->|I]; [lia|]. specialize (IHl n I). lia. Qed.
Lemma look_some : forall (B : Type) (fs : files B) k c, fs k = Some c -> In (k, c) (entries _ fs).
Proof.
  intros B fs k c E. unfold look in E. destruct (find _ _) as [[k' c']|] eqn:F; [|discriminate]. injection E; intros <-.
  apply find_some in F. destruct F as (I & F). cbn in F. unfold keyEqb in F. apply andb_true_iff in F. destruct F as (F1 & F2).
  apply String.eqb_eq in F1. apply String.eqb_eq in F2. destruct k', k. cbn in *. now subst.
Qed.
Lemma ktmp_fresh : forall tgt z, z = None \/ z = Some "out.zip"%string -> fresh_names tgt ktmp z.
Proof.
  intros tgt z Hz fs f. split; [|split].
  - destruct (fs (tgt, ktmp fs f)) as [c|] eqn:E; [|reflexivity]. exfalso. apply look_some in E.
    apply (in_map (fun e => String.length (snd (fst e)))) in E. cbn [fst snd] in E. apply longest_le in E.
    unfold ktmp in E. rewrite !str_app_length, xs_length in E. cbn [String.length] in E. lia.
  - unfold ktmp, feed_files. cbn. intuition discriminate.
  - destruct Hz as [-> | ->]; [discriminate|]. unfold ktmp. cbn. congruence.
Qed.

(** A feed in memory: the shape id of its trip; the files in place in "d". *)
Definition kmem (m f : string) : list string :=
  if String.eqb f "trips.txt" then [m] else [f ++ " of " ++ m]%string.
Definition kmix (m f : string) (rs : list string) : list string :=
  if String.eqb f "shapes.txt" then [m] else rs ++ [m].
Definition krender : string -> string -> option (list string) -> option (list string) :=
  renderF string string kmem kmix string (fun _ rs => rs) (fun _ c => Some c).
Definition kfs0 : files string := mkFiles _
  [(("d", "agency.txt"), ["A"]); (("d", "stops.txt"), ["S1"; "S2"]); (("d", "routes.txt"), ["R"]); (("d", "calendar.txt"), ["C"]);
   (("d", "shapes.txt"), ["old"]); (("d", "trips.txt"), ["old"]); (("d", "stop_times.txt"), ["T1"; "T2"]); (("d", "notes.txt"), ["N"])]%string.
Definition krun (src : string) (z : option string) (os : list outcome) : wstate string :=
  run string string krender ktmp (fun es => concat (map (fun e => fst e :: snd e) es)) src "d"%string z "new"%string os
    (init string string (fun _ => false) (fun _ => true) "new"%string kfs0).
Definition kok : list outcome := repeat (mkOut true true) 80.
Example C43_case :
  fresh_names "d"%string ktmp None /\ fresh_names "d"%string ktmp (Some "out.zip"%string) /\ no_write_error kok /\
  all_rendered krender (fun _ => false) (fun _ => true) "d"%string "new"%string kfs0 feed_files /\
  (* in place *)
  wPc _ (krun "d"%string None kok) = WDone _ /\
  map (fun f => wFs _ (krun "d"%string None kok) ("d"%string, f)) ["agency.txt"; "stops.txt"; "routes.txt"; "calendar.txt"; "transfers.txt"; "shapes.txt"; "trips.txt"; "stop_times.txt"; "feed_info.txt"; "notes.txt"]%string
    = [Some ["A"]; Some ["S1"; "S2"]; Some ["routes.txt of new"]; Some ["C"]; None; Some ["new"]; Some ["new"]; Some ["T1"; "T2"; "new"]; Some ["feed_info.txt of new"]; Some ["N"]]%string /\
  (* archive *)
  wPc _ (krun "d"%string (Some "out.zip"%string) kok) = WDone _ /\
  wFs _ (krun "d"%string (Some "out.zip"%string) kok) ("d", "out.zip")%string = Some (["agency.txt"; "A"; "stops.txt"; "S1"; "S2"; "routes.txt"; "routes.txt of new"; "calendar.txt"; "C"; "shapes.txt"; "new";
     "trips.txt"; "new"; "stop_times.txt"; "T1"; "T2"; "new"; "feed_info.txt"; "feed_info.txt of new"; "attributions.txt"; "attributions.txt of new"])%string.
Proof.
  split; [apply ktmp_fresh; auto|]. split; [apply ktmp_fresh; auto|]. split; [intros o I; apply repeat_spec in I; now subst|].
  split; [|vm_compute; auto].
  intros f I W. unfold contents. cbn in I. repeat (destruct I as [<-|I]; [first [vm_compute; eexists; reflexivity | exfalso; vm_compute in W; intuition (try discriminate; congruence)]|]). destruct I.
Qed.

(** ** Findings *)
(** C43: the files of a directory are not replaced together.  After a crash trips.txt can
    be the old one while shapes.txt is the new one: its trip refers to a shape that is not
    there. *)
Theorem C43_mixed_feed_refuted : exists os, no_write_error os /\
  let fs := wFs _ (krun "d"%string None os) in
  kfs0 ("d", "shapes.txt")%string = Some ["old"%string] /\ kfs0 ("d", "trips.txt")%string = Some ["old"%string] /\
  fs ("d", "shapes.txt")%string = Some ["new"%string] /\ fs ("d", "trips.txt")%string = Some ["old"%string].
Proof.
  exists (repeat (mkOut true true) 30). split; [intros o I; apply repeat_spec in I; now subst|]. vm_compute. auto.
Qed.
Print Assumptions C43_mixed_feed_refuted.

(** C43: errors in writing (say, a full disk) are not noticed: the run succeeds and a file
    of which a part is missing replaces the old one. *)
Theorem C43_write_error_refuted : exists os f, wPc _ (krun "d"%string None os) = WDone _ /\
  In f feed_files /\ wFs _ (krun "d"%string None os) ("d"%string, f) <> kfs0 ("d"%string, f) /\
  forall c, krender "new"%string f (kfs0 ("d"%string, f)) = Some c -> wFs _ (krun "d"%string None os) ("d"%string, f) <> Some c.
Proof.
  exists (repeat (mkOut true true) 6 ++ [mkOut true false] ++ repeat (mkOut true true) 80), "stops.txt"%string. vm_compute. intuition (try discriminate). congruence.
Qed.
Print Assumptions C43_write_error_refuted.

(** C39: updateRouteColors gives a route that it splits off the fare rules of its original,
    but fare_rules.txt is copied from the source: the new rules are not written.  Files
    here: rows of fare and route id. *)
Definition fareRows (f : cfeed nat nat) : list (nat * option string) :=
  flat_map (fun jr => map (fun x => (fst jr, match fst x with Some r => match nth_error (fRoutes _ _ f) r with Some y => Some (rId _ y) | None => None end | None => None end)) (snd jr))
    (combine (seq 0 (length (fFares _ _ f))) (fFares _ _ f)).
Theorem C39_fare_rules_refuted : exists f f', colour_input yfeed yws /\ f = yfeed /\ yrun = Some f' /\
  exists u t t' r r' j, nth_error (fTrips _ _ f) u = Some t /\ nth_error (fRoutes _ _ f) (cRoute t) = Some r /\ In (j, Some (rId _ r)) (fareRows f) /\
    nth_error (fTrips _ _ f') u = Some t' /\ nth_error (fRoutes _ _ f') (cRoute t') = Some r' /\ In (j, Some (rId _ r')) (fareRows f') /\
    forall memRows mixRows, exists rows,
      renderF (nat * option string) (cfeed nat nat) memRows mixRows _ (fun _ rs => rs) (fun _ c => Some c) f' "fare_rules.txt"%string (Some (fareRows f)) = Some rows /\
      forall j, ~ In (j, Some (rId _ r')) rows.
Proof.
  destruct C39_case as (CI & _). destruct yrun as [f'|] eqn:E; [|now vm_compute in E]. exists yfeed, f'.
  split; [exact CI|]. split; [reflexivity|]. split; [reflexivity|].
  exists 0. do 4 eexists. exists 0. split; [reflexivity|]. split; [reflexivity|]. split; [vm_compute; auto|].
  vm_compute in E. injection E; intros <-. split; [reflexivity|]. split; [reflexivity|]. split; [vm_compute; tauto|].
  intros mem mix. eexists. split; [reflexivity|]. intros j. vm_compute. intuition discriminate.
Qed.
Print Assumptions C39_fare_rules_refuted.
