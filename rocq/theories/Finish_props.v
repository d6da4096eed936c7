(** C72: the network the router gets. *)
From Coq Require Import List Arith NArith ZArith QArith Bool Lia Lqa.
From Verif Require Import OsmGraph_model OsmGraph_spec OsmGraph_proofs OsmGraph_props Weights_spec Finish_model Finish_spec Finish_proofs.
Import ListNotations.
Open Scope nat_scope.

(** C72: for every graph read from OSM the passes succeed, and the network they leave has
    every edge in both directions, each made of a chain of OSM edges with its line and its
    cost, and nothing of the OSM graph is lost.  [cns]: any order of the nodes. *)
Theorem C72_network : forall (P : Type) (pos : nat -> P) station turn len simplify speed corFac fl sp ec nl,
  (forall l, (0 <= len l)%Q) -> (forall l, (0 < speed l)%Q) -> (0 < sp)%Q -> (0 <= ec)%Q -> (0 < nl)%Q ->
  (forall a m b, exists m', simplify (a :: m ++ [b]) = a :: m' ++ [b]) -> rounding fl ->
  forall g cns, simple g -> graph_ok g -> (forall e, In e (edges g) -> ends_fit pos e) -> (forall e, In e (edges g) -> rev_ (ePl e) = false) ->
  exists r, finish P pos station turn len simplify speed corFac fl sp ec nl g cns = Some r /\
    finished pos station turn len simplify speed sp ec nl g (net r).
Proof.
  intros P pos station turn len simplify speed corFac fl sp ec nl L0 V0 Sp Ec Nl En Rd g cns S Ok Fit Rv.
  destruct (net_ok pos station turn len simplify speed corFac fl sp ec nl g cns S Ok Fit Rv Rd) as (r & E & Er & _). exists r. split; [exact E|]. rewrite Er.
  now apply finished_ok.
Qed.
Print Assumptions C72_network.

(** C72: what can be driven in the network without entering a one-way street in the wrong
    direction is what the OSM graph allows. *)
Theorem C72_forward : forall (P : Type) (pos : nat -> P) station turn len simplify speed corFac fl sp ec nl, rounding fl ->
  forall g cns, simple g -> graph_ok g -> (forall e, In e (edges g) -> ends_fit pos e) -> (forall e, In e (edges g) -> rev_ (ePl e) = false) ->
  codes_ok g -> codes_agree g -> pairs_agree g ->
  exists r, finish P pos station turn len simplify speed corFac fl sp ec nl g cns = Some r /\
    forall u v, In u (nodes (net r)) -> In v (nodes (net r)) -> (reach g u v <-> forward (net r) u v).
Proof.
  intros P pos station turn len simplify speed corFac fl sp ec nl Rd g cns S Ok Fit Rv Ck Ca Pa.
  destruct (net_ok pos station turn len simplify speed corFac fl sp ec nl g cns S Ok Fit Rv Rd) as (r & E & Er & _). exists r. split; [exact E|]. rewrite Er.
  intros u v. now apply reach_forward.
Qed.
Print Assumptions C72_forward.

(** C72: nodes have the same component exactly if they are connected in the OSM graph, and
    the recorded speed of a component is the greatest of its OSM edges. *)
Theorem C72_areas : forall (P : Type) (pos : nat -> P) station turn len simplify speed corFac fl sp ec nl, rounding fl ->
  forall g cns, simple g -> graph_ok g -> (forall e, In e (edges g) -> ends_fit pos e) -> (forall e, In e (edges g) -> rev_ (ePl e) = false) ->
  exists r, finish P pos station turn len simplify speed corFac fl sp ec nl g cns = Some r /\
    areas (fun l => speed l / corFac)%Q fl g (net r) (compOf (comps r)) (maxs r) (num r).
Proof.
  intros P pos station turn len simplify speed corFac fl sp ec nl Rd g cns S Ok Fit Rv.
  destruct (net_ok pos station turn len simplify speed corFac fl sp ec nl g cns S Ok Fit Rv Rd) as (r & E & Er & A). exists r. split; [exact E|]. rewrite Er. exact A.
Qed.
Print Assumptions C72_areas.

(** A two-way street 1 - 0 that is mapped from 1 to 0, and a street from 0 to 1 that is
    one-way against its orientation. *)
Definition exC : graph nat := mkG [0; 1] [mkE 0 1 (exP 2 0 None); mkE 1 0 (exP 0 0 None)].
Definition exLen (l : list nat) : Q := inject_Z (Z.of_nat (length l)).
Definition exFinish (st : nat -> bool) (g : graph nat) cns := finish nat (fun n => n) st (fun _ => false) exLen (fun l => l) (fun _ => 10%Q) 1%Q (fun x => x) 2%Q 5%Q 1%Q g cns.
(** C72_forward without agreeing pairs is false: from 0 to 1 one can drive along the two-way
    street, but in the network only the edge against the one-way street leads there. *)
Theorem C72_forward_refuted : exists (g : graph nat) r, simple g /\ graph_ok g /\ codes_ok g /\ codes_agree g /\
  exFinish (fun _ => true) g [] = Some r /\ In 0 (nodes (net r)) /\ In 1 (nodes (net r)) /\ reach g 0 1 /\ ~ forward (net r) 0 1.
Proof.
  exists exC. eexists. split; [unfold simple; cbn; repeat constructor; cbn; intuition congruence|].
  split; [constructor; [repeat constructor; cbn; intuition congruence|intros e [<-|[<-|[]]]; cbn; auto]|].
  split; [intros e [<-|[<-|[]]]; cbn; lia|].
  split. { intros n a b (Ia & Ib & _) Oa Ob. cbn in Ia, Ib. destruct Ia as [<-|[<-|[]]], Ib as [<-|[<-|[]]]; cbn in *; congruence. }
  split; [vm_compute; reflexivity|]. cbn [net nodes]. split; [now left|]. split; [right; now left|]. split.
  - apply (re_step _ _ 0); [constructor|]. exists (mkE 1 0 (exP 0 0 None)). cbn. split; [auto|]. right. split; [auto|split; [auto|lia]].
  - intros F. assert (K : forall w, forward (net (match exFinish (fun _ => true) exC [] with Some r => r | None => mkNet exC [] [] [] 0 end)) 0 w -> w = 0).
    { intros w Fw. induction Fw as [|v w e Fw IH I Ef Et O]; [reflexivity|]. subst v. vm_compute in I. destruct I as [<-|[<-|[<-|[<-|[]]]]]; cbn in *; congruence. }
    specialize (K 1). vm_compute in K. specialize (K F). discriminate.
Qed.
Print Assumptions C72_forward_refuted.

(** The network of the graph of C14: 3 is a station with two edges. *)
Example exG_ok : graph_ok exG.
Proof. constructor; [cbn; repeat constructor; cbn; intuition congruence|]. intros e I. cbn in I. repeat (destruct I as [<-|I]; [cbn; intuition|]). easy. Qed.
Example exG_norev : forall e, In e (edges exG) -> rev_ (ePl e) = false.
Proof. intros e I. cbn in I. repeat (destruct I as [<-|I]; [reflexivity|]). easy. Qed.
Example exG_pairs : pairs_agree exG.
Proof.
  intros e e' I I' F T N O. cbn in I. repeat (destruct I as [<-|I]; [cbn in O; discriminate|]). easy.
Qed.
Example C72_example : exists r, exFinish exSt exG exNs = Some r /\ finished (fun n => n) exSt (fun _ => false) exLen (fun l => l) (fun _ => 10%Q) 2%Q 5%Q 1%Q exG (net r) /\
  (forall u v, In u (nodes (net r)) -> In v (nodes (net r)) -> (reach exG u v <-> forward (net r) u v)) /\
  nodes (net r) = [0; 3; 6] /\ map (fun e => (from e, to e, cost (ePl e))) (edges (net r)) = [(6, 0, 2%N); (0, 3, 9%N); (3, 6, 6%N); (3, 0, 9%N); (6, 3, 62%N); (0, 6, 54%N)] /\ num r = 1.
Proof.
  destruct (C72_network nat (fun n => n) exSt (fun _ => false) exLen (fun l => l) (fun _ => 10%Q) 1%Q (fun x => x) 2%Q 5%Q 1%Q) with (g := exG) (cns := exNs) as (r & E & F);
    try exact exG_simple; try exact exG_ok; try exact exG_fit; try exact exG_norev; try exact ex_round; try (intros; lra).
  - intros l. unfold exLen. change 0%Q with (inject_Z 0). rewrite <- Zle_Qle. lia.
  - intros a m b. exists m. reflexivity.
  - destruct (C72_forward nat (fun n => n) exSt (fun _ => false) exLen (fun l => l) (fun _ => 10%Q) 1%Q (fun x => x) 2%Q 5%Q 1%Q) with (g := exG) (cns := exNs) as (r' & E' & F');
      try exact exG_simple; try exact exG_ok; try exact exG_fit; try exact exG_norev; try exact ex_round; try exact exG_codes; try exact exG_agree; try exact exG_pairs.
    rewrite E in E'. injection E' as <-. exists r. split; [exact E|]. split; [exact F|]. split; [exact F'|].
    vm_compute in E. injection E as <-. vm_compute. auto.
Qed.
