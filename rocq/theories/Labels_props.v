(** C75: the graphs a run outputs. *)
From Coq Require Import Ascii String List Arith Bool Lia.
From Verif Require Import StrAux Main_model Labels_model Labels_spec Labels_proofs.
Import ListNotations.
Open Scope string_scope.
Open Scope list_scope.
Open Scope nat_scope.

(** C75: the label of a set of types names the families of which all types are in the set,
    and then the single types that are in none of them; it stands for exactly these types. *)
Theorem C75_label : forall typesOf typeStr, (forall n, NoDup (typesOf n)) -> good_names names typeStr -> forall mots, NoDup mots ->
  exists families single, fileNameMotStr typesOf typeStr mots = dashed (families ++ map typeStr single) /\ incl families names /\ NoDup single /\
  (forall t, In t mots <-> (exists n, In n families /\ In t (typesOf n)) \/ In t single) /\
  (forall t n, In t single -> In n families -> ~ In t (typesOf n)) /\
  (forall n, In n names -> ~ In n families -> ~ incl (typesOf n) single).
Proof. intros typesOf typeStr Nd G mots N. now apply label_says. Qed.
Print Assumptions C75_label.

(** C75: after a run with --write-trgraph there is, for every configuration that is used, a
    file with its transit graph, unless a later one is used for the same types; its name
    says which types these are (if there are several configurations); and every other file
    is the transit graph of a configuration that is used. *)
Theorem C75_trgraph_files : forall typesOf typeStr, (forall n, NoDup (typesOf n)) -> good_names names typeStr ->
  forall wg cmd cfgs, (forall mots, In mots cfgs -> NoDup mots) ->
  (forall k, (exists t, uses cmd cfgs k t) -> (forall j, k < j -> ~ same_types cmd cfgs k j) ->
     exists label, holds (writes typesOf typeStr wg true cmd cfgs) ("trgraph-" ++ label ++ ".json")%string k /\
       (length cfgs = 1 -> label = ""%string) /\
       (1 < length cfgs -> exists families single, label = dashed (families ++ map typeStr single) /\ incl families names /\
          forall t, uses cmd cfgs k t <-> (exists n, In n families /\ In t (typesOf n)) \/ In t single)) /\
  (forall f c, holds (writes typesOf typeStr wg true cmd cfgs) f c -> f = "graph.json"%string \/ exists t, uses cmd cfgs c t).
Proof.
  intros typesOf typeStr Nd G wg cmd cfgs Nds. split.
  - intros k U D. destruct U as (t & mots & E & A & B). exists (if Nat.ltb 1 (length cfgs) then fileNameMotStr typesOf typeStr (motISect mots cmd) else ""%string).
    split; [exact (trgraph_kept typesOf typeStr Nd G wg cmd cfgs Nds k mots E (ex_intro _ t (ex_intro _ mots (conj E (conj A B)))) D)|].
    split; [intros ->; reflexivity|]. intros L. apply Nat.ltb_lt in L. rewrite L.
    destruct (label_says typesOf typeStr Nd G _ (isect_nodup _ cmd (Nds _ (nth_error_In _ _ E)))) as (fs & ss & El & If & _ & P & _).
    exists fs, ss. split; [exact El|]. split; [exact If|]. intros u. rewrite <- P, isect_in. split.
    + intros (m & E' & A' & B'). rewrite E in E'. injection E' as <-. auto.
    + intros [A' B']. exists mots. auto.
  - intros f c H. apply trgraph_only in H. destruct H as [H|(mots & _ & U & _)]; auto.
Qed.
Print Assumptions C75_trgraph_files.

(** C75: with --write-graph there is one file, and it holds the network of the last
    configuration that is used ... *)
Theorem C75_graph_file : forall typesOf typeStr wt cmd cfgs k, (exists t, uses cmd cfgs k t) ->
  (holds (writes typesOf typeStr true wt cmd cfgs) "graph.json" k <-> forall j, k < j -> ~ exists t, uses cmd cfgs j t).
Proof. intros. now apply graph_last. Qed.
Print Assumptions C75_graph_file.
(** ... so that not every network is output: with a configuration for trams (type 0) and one for buses
    (type 3) the network for trams is lost. *)
Definition exTypes (n : string) : list nat := if String.eqb n "tram" then [0; 900] else if String.eqb n "bus" then [3; 700; 702] else [1000].
Fixpoint unary (n : nat) : string := match n with 0 => "t"%string | S k => String "x"%char (unary k) end.
Theorem C75_networks_kept_refuted : forall typeStr, exists cmd cfgs k, (exists t, uses cmd cfgs k t) /\
  (forall i j, i < 2 -> j < 2 -> i <> j -> ~ exists t, uses cmd cfgs i t /\ uses cmd cfgs j t) /\
  forall f, ~ holds (writes exTypes typeStr true false cmd cfgs) f k.
Proof.
  intros typeStr. exists [0; 3], [[0]; [3]], 0. split; [exists 0, [0]; cbn; auto|]. split.
  - intros i j Hi Hj Hn (t & (m & E & A & _) & (m' & E' & A' & _)). destruct i as [|[|i]]; destruct j as [|[|j]]; cbn in E, E'; try lia; injection E as <-; injection E' as <-; cbn in A, A'; intuition congruence.
  - intros f (pre & post & W & F). cbn in W. destruct pre as [|x pre]; cbn in W.
    + injection W as <- <-. apply (F 1). now left.
    + injection W as _ W. destruct pre as [|y pre]; [discriminate|]. injection W as _ W. now destruct pre.
Qed.
Print Assumptions C75_networks_kept_refuted.

(** Without the last condition of [good_names] two sets can have the same label: if the
    library calls a type like the family it belongs to, the family and the type alone. *)
Theorem C75_same_label_refuted : exists typeStr a b, NoDup a /\ NoDup b /\ (forall t u, typeStr t = typeStr u -> t = u) /\
  fileNameMotStr exTypes typeStr a = fileNameMotStr exTypes typeStr b /\ ~ (forall t, In t a <-> In t b).
Proof.
  exists (fun t => if t =? 3 then "bus"%string else unary t), [3], [3; 700; 702].
  split; [repeat constructor; cbn; intuition lia|]. split; [repeat constructor; cbn; intuition lia|].
  assert (U : forall n m, unary n = unary m -> n = m). { induction n as [|n IH]; intros [|m] H; try discriminate; [reflexivity|]. cbn in H. injection H as H. f_equal. auto. }
  assert (B : forall n, unary n <> "bus"%string) by (intros [|n]; discriminate). split.
  - intros t u. destruct (Nat.eqb_spec t 3) as [->|Ht], (Nat.eqb_spec u 3) as [->|Hu]; auto; intros H; [symmetry in H|]; now apply B in H.
  - split; [vm_compute; reflexivity|]. intros H. specialize (H 700). destruct (proj2 H ltac:(cbn; auto)) as [X|[]]. lia.
Qed.
Print Assumptions C75_same_label_refuted.

(** Trams and one of the types of buses. *)
Example exNames : good_names names unary.
Proof.
  constructor.
  - induction t as [|t IH]; intros [|u] H; try discriminate; [reflexivity|]. cbn in H. injection H as H. f_equal. auto.
  - intros [|t]; discriminate.
  - induction t as [|t IH]; cbn; [intuition discriminate|]. intros [H|H]; [discriminate|now apply IH].
  - intros t H. cbn in H. destruct t as [|[|t]]; cbn in H; intuition discriminate.
Qed.
Definition exTypes2 (n : string) : list nat := if String.eqb n "tram" then [0; 4] else if String.eqb n "bus" then [3; 5; 6] else [9].
Example C75_example : (forall n, NoDup (exTypes2 n)) /\
  fileNameMotStr exTypes2 unary [0; 3; 4; 5] = "tram-xxxt-xxxxxt"%string /\
  writes exTypes2 unary true true [0; 3; 4] [[0; 4]; [7]; [3; 5; 6]] =
    [("graph.json", 0); ("trgraph-tram.json", 0); ("graph.json", 2); ("trgraph-xxxt.json", 2)]%string /\
  holds (writes exTypes2 unary true true [0; 3; 4] [[0; 4]; [7]; [3; 5; 6]]) "trgraph-tram.json" 0.
Proof.
  split; [intros n; unfold exTypes2; destruct (String.eqb n "tram"); [|destruct (String.eqb n "bus")]; repeat constructor; cbn; intuition lia|].
  split; [vm_compute; reflexivity|]. split; [vm_compute; reflexivity|].
  exists [("graph.json"%string, 0)], [("graph.json"%string, 2); ("trgraph-xxxt.json"%string, 2)]. split; [vm_compute; reflexivity|].
  intros c [H|[H|[]]]; discriminate.
Qed.
