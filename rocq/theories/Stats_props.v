(** C88: the statistics of a run. *)
From Coq Require Import Ascii String List Arith QArith Bool Lia.
From Verif Require Import ListAux TripTrie_model Simi_model Cluster_model Cluster_spec Stats_model Labels_spec Stats_spec Stats_proofs.
From Verif Require Main_model Labels_model Labels_proofs Labels_props Cluster_props.
Import ListNotations.
Open Scope nat_scope.
Open Scope list_scope.

(** C88: for a configuration that matches its trips, the number of trips is that of the selected trips of the
    feed; there is a trie for every line name and origin, every trie has a leaf, and every leaf a trip;
    without tries every trie has one leaf. *)
Theorem C88_matched : forall (pos : Type) near emptySecs lineN statN o (ts : list (ftrip pos)) fo time iters sel,
  clustered near emptySecs lineN statN o ts fo -> NoDup (map (fun t => tId _ (fTrip _ t)) ts) ->
  (forall t, sel t = true <-> selected o t) ->
  let s := shapeifyStats fo time iters in
  totNumTrips s = length (filter sel ts) /\ length fo <= numTries s /\ numTries s <= numTrieLeafs s /\ numTrieLeafs s <= totNumTrips s /\
  (oNoTrie o = true -> numTries s = numTrieLeafs s) /\ solveTime s = time /\ dijkstraIters s = iters.
Proof.
  intros pos near emptySecs lineN statN o ts fo time iters sel C ND Sel s. destruct (shapeify_sums fo time iters) as (T & N & L & Tm & It). fold s in T, N, L, Tm, It.
  split; [rewrite T; apply (one_list _ sel ts (fun t => tId _ (fTrip _ t))); [apply (cl_once _ _ _ _ _ _ _ C)|exact ND|]; intros i; rewrite (proj2 (cl_once _ _ _ _ _ _ _ C)); split; intros (t & I & S & E); exists t; (split; [exact I|split; [now apply Sel|exact E]])|].
  rewrite T, N, L. unfold listed, sum.
  assert (U : forall k tries, In (k, tries) fo -> tries <> [] /\ (forall tr, In tr tries -> ndTrips _ _ tr <> [] /\ filled tr)).
  { intros k tries I. split; [destruct tries as [|tr l]; [exact (proj1 (cl_used _ _ _ _ _ _ _ C k [] (emptyTrie pos attrs) I))|discriminate]|]. intros tr J. split; [exact (proj2 (cl_used _ _ _ _ _ _ _ C k tries tr I) J)|].
    destruct (cl_built _ _ _ _ _ _ _ C k tries tr I J) as (cs & rs & R & _). apply (run_filled near emptySecs cs (emptyTrie pos attrs) tr rs); [constructor|exact R]. }
  assert (V : oNoTrie o = true -> forall k tries tr, In (k, tries) fo -> In tr tries -> length (ndTrips _ _ tr) = 1) by (intros H; exact (cl_single _ _ _ _ _ _ _ C H)).
  clear - U V Tm It. cut (length fo <= fold_right Nat.add 0 (map (fun g => length (snd g)) fo) /\
    fold_right Nat.add 0 (map (fun g => length (snd g)) fo) <= fold_right Nat.add 0 (map (fun g => fold_right Nat.add 0 (map (fun tr => length (ndTrips _ _ tr)) (snd g))) fo) /\
    fold_right Nat.add 0 (map (fun g => fold_right Nat.add 0 (map (fun tr => length (ndTrips _ _ tr)) (snd g))) fo) <= length (flat_map (fun g => flat_map (fun tr => flat_map snd (ndTrips _ _ tr)) (snd g)) fo) /\
    (oNoTrie o = true -> fold_right Nat.add 0 (map (fun g => length (snd g)) fo) = fold_right Nat.add 0 (map (fun g => fold_right Nat.add 0 (map (fun tr => length (ndTrips _ _ tr)) (snd g))) fo))); [tauto|].
  clear Tm It. induction fo as [|(k, tries) fo IH]; [cbn; auto|]. destruct IH as (I1 & I2 & I3 & I4); [intros k' t' I; apply (U k'); now right|intros H k' t' tr I; apply (V H k' t'); now right|].
  destruct (U k tries) as (Ne & Ft); [now left|]. assert (V' : oNoTrie o = true -> forall tr, In tr tries -> length (ndTrips _ _ tr) = 1) by (intros H tr J; apply (V H k tries); [now left|exact J]).
  cbn [map fold_right flat_map snd length]. rewrite app_length.
  assert (X : length tries <= fold_right Nat.add 0 (map (fun tr => length (ndTrips _ _ tr)) tries) /\ fold_right Nat.add 0 (map (fun tr => length (ndTrips _ _ tr)) tries) <= length (flat_map (fun tr => flat_map snd (ndTrips _ _ tr)) tries) /\
    (oNoTrie o = true -> length tries = fold_right Nat.add 0 (map (fun tr => length (ndTrips _ _ tr)) tries))).
  { clear - Ft V'. induction tries as [|tr l IH]; [cbn; auto|]. destruct IH as (J1 & J2 & J3); [intros t I; apply Ft; now right|intros H t I; apply (V' H); now right|].
    destruct (Ft tr) as (N1 & F1); [now left|]. apply filled_leaves in F1. cbn [map fold_right flat_map length]. rewrite app_length.
    assert (1 <= length (ndTrips _ _ tr)) by (destruct (ndTrips _ _ tr); [congruence|cbn; lia]). split; [lia|]. split; [lia|]. intros Hn. rewrite (V' Hn tr) by (now left). rewrite <- (J3 Hn). reflexivity. }
  destruct X as (X1 & X2 & X3). destruct tries as [|tr l]; [congruence|]. cbn [length] in *. split; [lia|]. split; [lia|]. split; [lia|]. intros H. rewrite (I4 H), <- (X3 H). reflexivity.
Qed.
Print Assumptions C88_matched.

(** C88: the totals are sums over the configurations that are used: tries, leaves, steps of the searches, time,
    edges; the average is that of all hops, and there is none without hops. *)
Theorem C88_totals : forall typesOf typeStr work cmd cfgs tries leaves iters times es hops,
  each work cmd cfgs 0 (fun r => numTries (rStats r)) tries -> each work cmd cfgs 0 (fun r => numTrieLeafs (rStats r)) leaves ->
  each work cmd cfgs 0 (fun r => dijkstraIters (rStats r)) iters -> each work cmd cfgs 0%Q (fun r => solveTime (rStats r)) times ->
  each work cmd cfgs 0 edges es -> each work cmd cfgs [] rHops hops ->
  let j := statistics typesOf typeStr work cmd cfgs in
  jTries j = sum tries /\ jLeafs j = sum leaves /\ jIters j = sum iters /\ (jTime j == sumQ times)%Q /\ jEdges j = sum es /\
  (concat hops = [] -> jAvg j = None) /\
  (concat hops <> [] -> exists a, jAvg j = Some a /\ (a * inject_Z (Z.of_nat (length (concat hops))) == sumQ (concat hops))%Q).
Proof.
  intros typesOf typeStr work cmd cfgs tries leaves iters times es hops E1 E2 E3 E4 E5 E6 j. unfold j, statistics. rewrite run_steps.
  pose proof (fold_stats (steps typesOf typeStr work cmd (length cfgs) 0 cfgs) acc0) as F. cbn zeta in F.
  set (a := fold_left _ _ acc0) in *. destruct F as (F1 & F2 & F3 & F4 & F5 & F6). cbn in F1, F2, F3, F5, F6.
  rewrite (each_sum typesOf typeStr work cmd cfgs (fun r => numTries (rStats r)) tries (length cfgs) E1) in F1. rewrite (each_sum typesOf typeStr work cmd cfgs (fun r => numTrieLeafs (rStats r)) leaves (length cfgs) E2) in F2.
  rewrite (each_sum typesOf typeStr work cmd cfgs (fun r => dijkstraIters (rStats r)) iters (length cfgs) E3) in F3. rewrite (each_sumQ typesOf typeStr work cmd cfgs (fun r => solveTime (rStats r)) times (length cfgs) E4) in F4.
  rewrite (each_concat typesOf typeStr work cmd cfgs _ rHops hops (length cfgs) E6) in F5. rewrite (each_sum typesOf typeStr work cmd cfgs edges es (length cfgs) E5) in F6.
  assert (K : forall l x y, snd (fold_left (fun s (gd : string * (nat * nat)) => (fst s + fst (snd gd), snd s + snd (snd gd))) l (x, y)) = y + snds l).
  { unfold snds, sum. induction l as [|g l IH]; intros x y; cbn; [lia|]. rewrite IH. lia. }
  specialize (K (aDims a) 0 0). destruct (fold_left (fun s (gd : string * (nat * nat)) => (fst s + fst (snd gd), snd s + snd (snd gd))) (aDims a) (0, 0)) as [nd ed]. cbn in K.
  cbn [jTries jLeafs jIters jTime jEdges jAvg]. split; [exact F1|]. split; [exact F2|]. split; [exact F3|]. split; [rewrite F4; cbn [solveTime acc0 aStats stats0]; ring|]. split; [lia|].
  rewrite F5. split; [intros ->; reflexivity|]. intros Nh. destruct (concat hops) as [|h hs] eqn:Hh; [congruence|]. set (l := h :: hs) in *.
  assert (Ln : (length l =? 0) = false) by reflexivity. rewrite Ln. eexists. split; [reflexivity|].
  assert (Sm : forall m x, (fold_left Qplus m x == x + sumQ m)%Q). { unfold sumQ. induction m as [|y m IH]; intros x; cbn [fold_left fold_right]; [ring|]. rewrite IH. ring. }
  rewrite Sm. field. unfold l. cbn [length]. intros X. unfold Qeq, inject_Z in X. cbn in X. discriminate.
Qed.
Print Assumptions C88_totals.

(** C88: if no two configurations are used for the same types, the number of nodes is the sum too, and there is one
    entry for every configuration that is used, labelled with its types if there are several configurations. *)
Theorem C88_graphs : forall typesOf typeStr, (forall n, NoDup (typesOf n)) -> good_names Labels_model.names typeStr ->
  forall work cmd cfgs ns, (forall mots, In mots cfgs -> NoDup mots) -> told_apart cmd cfgs -> each work cmd cfgs 0 nodes ns ->
  let j := statistics typesOf typeStr work cmd cfgs in
  jNodes j = sum ns /\ NoDup (map fst (jDims j)) /\
  (forall k, is_used cmd cfgs k -> exists label, In (label, (nodes (work k), edges (work k))) (jDims j) /\
     (length cfgs = 1 -> label = ""%string) /\
     (1 < length cfgs -> exists families single, label = dashed (families ++ map typeStr single) /\ incl families Labels_model.names /\
        forall t, uses cmd cfgs k t <-> (exists n, In n families /\ In t (typesOf n)) \/ In t single)) /\
  (forall label d, In (label, d) (jDims j) -> exists k, is_used cmd cfgs k /\ d = (nodes (work k), edges (work k))).
Proof.
  intros typesOf typeStr Nd G work cmd cfgs ns Nds T E j. unfold j, statistics. rewrite run_steps.
  pose proof (labels_nodup typesOf typeStr work cmd cfgs Nd G Nds T) as Nl.
  pose proof (fold_dims (steps typesOf typeStr work cmd (length cfgs) 0 cfgs) acc0 Nl) as D. cbn [aDims acc0 app] in D. set (a := fold_left _ _ acc0) in *.
  assert (K : forall l x y, fst (fold_left (fun s (gd : string * (nat * nat)) => (fst s + fst (snd gd), snd s + snd (snd gd))) l (x, y)) = x + fsts l).
  { unfold fsts, sum. induction l as [|g l IH]; intros x y; cbn; [lia|]. rewrite IH. lia. }
  specialize (K (aDims a) 0 0). destruct (fold_left (fun s (gd : string * (nat * nat)) => (fst s + fst (snd gd), snd s + snd (snd gd))) (aDims a) (0, 0)) as [nd ed]. cbn in K.
  cbn [jNodes jDims]. split; [rewrite K, D; unfold fsts; rewrite map_map; exact (each_sum typesOf typeStr work cmd cfgs nodes ns (length cfgs) E)|].
  rewrite D. split; [rewrite map_map; cbn [fst]; exact Nl|]. split.
  - intros k U. destruct (nth_error cfgs k) as [mots|] eqn:Nk; [|destruct U as (t & m & X & _); congruence].
    assert (Nm : Main_model.motISect mots cmd <> []) by now apply (Labels_proofs.used_some typeStr cmd cfgs k mots Nk).
    pose proof (steps_at typesOf typeStr work cmd (length cfgs) cfgs 0 k mots Nk Nm) as I. eexists. split.
    { apply in_map_iff. eexists. split; [|exact I]. cbn [fst snd Nat.add]. reflexivity. }
    split; [intros ->; reflexivity|]. intros Ln. apply Nat.ltb_lt in Ln. rewrite Ln.
    destruct (Labels_proofs.label_says typesOf typeStr Nd G _ (Labels_proofs.isect_nodup _ cmd (Nds _ (nth_error_In _ _ Nk)))) as (fs & ss & El & If & _ & P & _).
    exists fs, ss. split; [exact El|]. split; [exact If|]. intros u. rewrite <- P, Labels_proofs.isect_in. split.
    + intros (m & E' & A' & B'). rewrite Nk in E'. injection E' as <-. auto.
    + intros [A' B']. exists mots. auto.
  - intros label d I. apply in_map_iff in I. destruct I as (s & Es & I). apply steps_in in I. destruct I as (i & m & Ei & Nm & ->). cbn [fst snd Nat.add] in Es. injection Es as _ <-. exists i. split; [|reflexivity].
    apply (Labels_proofs.used_some typeStr cmd cfgs i m Ei). exact Nm.
Qed.
Print Assumptions C88_graphs.

(** Two configurations used for the same types share an entry: it has the nodes of the last and the edges of both. *)
Definition zWork (k : nat) : crun :=
  match k with
  | 0 => mkRun [1; 2; 0] [3%Q] (mkStats 4 1 2 1%Q 7)
  | 1 => mkRun [2; 2] [5%Q; 1%Q] (mkStats 2 2 2 2%Q 5)
  | _ => mkRun [9] [100%Q] (mkStats 9 9 9 9%Q 9)
  end.
Theorem C88_nodes_refuted : forall typeStr, exists work cmd cfgs ns es, (forall mots, In mots cfgs -> NoDup mots) /\ each work cmd cfgs 0 nodes ns /\ each work cmd cfgs 0 edges es /\
  jNodes (statistics Labels_props.exTypes typeStr work cmd cfgs) < sum ns /\ jEdges (statistics Labels_props.exTypes typeStr work cmd cfgs) = sum es /\ length (jDims (statistics Labels_props.exTypes typeStr work cmd cfgs)) = 1.
Proof.
  intros typeStr. exists zWork, [0], [[0]; [0; 900]], [3; 2], [3; 4].
  split; [intros m [<-|[<-|[]]]; repeat constructor; cbn; intuition discriminate|].
  assert (U : forall k, k < 2 -> is_used [0] [[0]; [0; 900]] k) by (intros [|[|k]] L; [exists 0, [0]; cbn; auto|exists 0, [0; 900]; cbn; auto|lia]).
  split; [|split].
  - split; [reflexivity|]. intros [|[|[|k]]] x N; cbn in N; try discriminate; injection N as <-; (split; [reflexivity|intros X; exfalso; apply X, U; lia]).
  - split; [reflexivity|]. intros [|[|[|k]]] x N; cbn in N; try discriminate; injection N as <-; (split; [reflexivity|intros X; exfalso; apply X, U; lia]).
  - unfold statistics. cbn [length runFrom]. change (Main_model.motISect [0] [0]) with [0]. change (Main_model.motISect [0; 900] [0]) with [0]. cbn [length Nat.eqb Nat.ltb Nat.leb].
    generalize (Labels_model.fileNameMotStr Labels_props.exTypes typeStr [0]). intros s.
    cbn. rewrite String.eqb_refl. cbn. rewrite ?String.eqb_refl. cbn. rewrite ?String.eqb_refl. cbn. rewrite ?String.eqb_refl. cbn. rewrite ?String.eqb_refl. cbn. rewrite ?String.eqb_refl. cbn. rewrite ?String.eqb_refl. cbn. split; [lia|]. split; reflexivity.
Qed.
Print Assumptions C88_nodes_refuted.

(** A run with three configurations, for trams, for nothing selected, and for buses. *)
Definition zRun : report := statistics Labels_props.exTypes Labels_props.unary (fun k => zWork (Nat.div2 k)) [0; 3] [[0]; [7]; [3]].
Example C88_run : zRun = mkReport [("t"%string, (3, 3)); ("xxxt"%string, (2, 4))] 5 7 (Some (9 # 3)) 3 4 12 3%Q.
Proof. vm_compute. reflexivity. Qed.
Example C88_sample : (forall mots, In mots [[0]; [7]; [3]] -> NoDup mots) /\ told_apart [0; 3] [[0]; [7]; [3]] /\
  each (fun k => zWork (Nat.div2 k)) [0; 3] [[0]; [7]; [3]] 0 nodes [3; 0; 2] /\ each (fun k => zWork (Nat.div2 k)) [0; 3] [[0]; [7]; [3]] [] rHops [[3%Q]; []; [5%Q; 1%Q]].
Proof.
  split; [intros m [<-|[<-|[<-|[]]]]; repeat constructor; cbn; tauto|].
  assert (U0 : uses [0; 3] [[0]; [7]; [3]] 0 0) by (exists [0]; cbn; auto). assert (U2 : uses [0; 3] [[0]; [7]; [3]] 2 3) by (exists [3]; cbn; auto).
  assert (U1 : forall t, ~ uses [0; 3] [[0]; [7]; [3]] 1 t) by (intros t (m & E & A & B); injection E as <-; cbn in A, B; intuition congruence).
  split.
  - intros i j (t & m & E & A & B) (t' & m' & E' & A' & B') S. destruct i as [|[|[|i]]]; cbn in E; try (destruct i; discriminate).
    + destruct j as [|[|[|j]]]; cbn in E'; try (destruct j; discriminate); [reflexivity|exfalso; apply (U1 t'); exists m'; auto|]. apply S in U0. destruct U0 as (x & Ex & Ax & _). injection Ex as <-. cbn in Ax. intuition discriminate.
    + exfalso. apply (U1 t). exists m. auto.
    + destruct j as [|[|[|j]]]; cbn in E'; try (destruct j; discriminate); [|exfalso; apply (U1 t'); exists m'; auto|reflexivity]. apply S in U2. destruct U2 as (x & Ex & Ax & _). injection Ex as <-. cbn in Ax. intuition discriminate.
  - split; (split; [reflexivity|]; intros [|[|[|k]]] x N; cbn in N; [| | |destruct k; discriminate]; injection N as <-; (split; [intros (t & Ut); try reflexivity; exfalso; exact (U1 t Ut)|intros X; try reflexivity; exfalso; apply X; eexists; eassumption])).
Qed.
(** The clustering of the example of C55 has 3 tries with 5 leaves for its 5 trips. *)
Example C88_clustered : match Cluster_props.xrun Cluster_props.xo [0; 0; 1; 1; 1; 1; 0] with
  | Some (_, fo, _) => shapeifyStats fo 8%Q 99 = mkStats 5 3 5 8%Q 99
  | None => False
  end.
Proof. vm_compute. reflexivity. Qed.
