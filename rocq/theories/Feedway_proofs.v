(** Proofs for C84: what Optimal and Default say of a trie holds for every trip of a feed. *)
From Coq Require Import String List Arith ZArith NArith QArith Bool Permutation Lia.
From Verif Require Import ListAux HopCache_model TripTrie_model TripTrie_spec TripTrie_proofs Simi_model Simi_spec Cluster_model Cluster_spec Cluster_props
  Router_model Router_spec Router_proofs Router_props Hops_model Hops_spec Hops_proofs Ecm_model Ecm_spec Ecm_proofs Ecm_props Shapes_model Shapes_spec
  Workers_model Workers_spec Workers_props Optimal_spec Optimal_proofs Default_spec Default_proofs Pipeline_model Pipeline_spec Pipeline_proofs Pipeline_props
  Whole_proofs Feedway_spec.
Import ListNotations.
Open Scope nat_scope.

(** C58 with something known of the hops. *)
Lemma feed_known : forall (pos C Pt regex : Type) (W : world pos C Pt) posAt (compile : string -> option regex) replace ops L S o f dists M,
  world_ok W posAt -> feed_ok W o f dists M -> 0 < oThreads o ->
  In L (fst (runNorm regex compile replace [] ops)) -> In S (fst (runNorm regex compile replace [] ops)) ->
  forall Iv Kp, known W Iv Kp -> Iv (if noHopCache _ _ _ W then None else Some []) ->
  forall cs st' fo rest, clusterTrips pos (near _ _ _ W) (emptySecs _ _ _ W) regex replace o (mkC _ L S []) f cs = Some (st', fo, rest) ->
  (forall p, In p rest -> p = []) ->
  forall ws cnt ids store, exists ths s, build W replace o (mkC _ L S []) f cs ws cnt ids store dists = Some (rest, ths, s) /\
    ((forall p, In p ths -> p = PDone _ _) -> shaped (shape_known W posAt Kp) o f dists cnt ids store s).
Proof.
  intros pos C Pt regex W posAt compile replace ops L S o f dists M WK FK TH IL IS Iv Kp KN I0 cs st' fo rest Cl Dn ws cnt ids store.
  destruct (C55_clusters (near _ _ _ W) (emptySecs _ _ _ W) compile replace ops L S o f IL IS (nodup_ids _ f (fk_ids _ _ _ _ _ FK)) TH cs) as (st2 & fo2 & rest2 & Cl2 & CL).
  rewrite Cl in Cl2. injection Cl2 as <- <- <-. specialize (CL Dn).
  destruct (known_jobs W posAt WK Iv Kp KN I0 o f dists M FK fo (cl_trie_of W o f fo _ _ CL)) as (jobs & Ej & Fl & Hl).
  destruct (work W posAt o f dists M fo _ _ FK CL jobs Fl (fun l I => leaf_imp _ _ (known_shape W posAt Kp) o f l (Hl l I))) as [WO _].
  destruct (C37_workers _ Q jobs cnt ids store _ WO (oThreads o) ws) as (ths & s & R & A).
  exists ths, s. split; [unfold build; rewrite Cl, Ej, R; reflexivity|]. intros D. destruct (A ltac:(lia) D) as (iss & As).
  exact (assigned_by W posAt o f dists M fo _ _ FK CL _ (known_shape W posAt Kp) jobs cnt ids store iss s Fl Hl As).
Qed.

Section P.
Context {pos C Pt : Type}.
Variable W : world pos C Pt.
Variable posAt : list Pt -> Q -> Pt.
Notation trie := (trie pos attrs).
Variable step : trie -> nat -> edge -> edge -> option Z.
Variable w : trie -> nat -> nat -> Z -> Z -> C.
Hypothesis WK : world_ok W posAt.
Hypothesis CG : costs_as_given W w.

Notation Kdriven := (driven_hops W step w (stopCands W)).
Notation Kcheapest := (cheapest_hops W step w (stopCands W)).

Lemma known_driven : fast_net_ok W step -> noFastHops _ _ _ W = false -> allowsFast _ _ _ W = true -> known W (fun _ => True) Kdriven.
Proof.
  intros NO NF AF cs tr rs ecm hc r m H L2 TC _ Ro. split; [exact I|]. intros n hops Im Fin c Ic It.
  pose proof (C26_built_trie_is_tree pos (near _ _ _ W) attrs mergeAttrs (emptySecs _ _ _ W) (wk_near _ _ WK) cs tr rs H) as T.
  assert (PS : positions W tr (stopCands W) ecm) by (split; [exact (cands_ok W posAt WK)|exact TC]).
  rewrite (cg_weight _ _ CG), (cg_start _ _ CG) in Ro. rewrite (cg_weight _ _ CG) in Fin.
  assert (Fast : noFastHops _ _ _ W || negb (allowsFast _ _ _ W) = false) by (rewrite NF, AF; reflexivity).
  destruct (default_core pos attrs C Pt _ _ _ _ (w tr) _ (step tr) _ _ _ _ _ _ _ _ _ _ _ _ _ _ _ (wk_costs _ _ WK) T (cg_enum _ _ CG)
    (NO cs tr (stopCands W) ecm (ex_intro _ rs H) PS) Fast hc _ r m Ro) as (LF & GU & Ch).
  destruct (Ch n hops Im Fin) as (is & c' & Wy & F & Dw & Dv).
  exists tr, n, ecm, (limOf (rLog _ _ r)), (stuckOf (rLog _ _ r)), is, c'. rewrite rev_involutive.
  split; [exists cs, c; split; [exists rs; exact H|auto]|]. auto 8.
Qed.

Lemma net_same : forall (s1 s2 : edge -> edge -> option Z), (forall a b, s1 a b = s2 a b) ->
  forall a b v, cheapest s1 a b v -> cheapest s2 a b v.
Proof.
  assert (K : forall s1 s2 : edge -> edge -> option Z, (forall a b, s1 a b = s2 a b) -> forall a b d es, walk s1 a b d es -> walk s2 a b d es).
  { intros s1 s2 E a b d es X. induction X as [e|e f t k c es St X IH]; [constructor|]. econstructor; [rewrite <- E; exact St|exact IH]. }
  intros s1 s2 E a b v [(es & X) Mn]. split; [exists es; exact (K s1 s2 E _ _ _ _ X)|]. intros d es' Y. apply (Mn d es').
  exact (K s2 s1 (fun a b => eq_sym (E a b)) _ _ _ _ Y).
Qed.
Lemma known_cheapest : net_ok W step -> noFastHops _ _ _ W || negb (allowsFast _ _ _ W) = true -> caching_ok W step ->
  known W (fun hc => forall tr, Inv (step tr) (negb (noHopCache _ _ _ W)) hc) Kcheapest.
Proof.
  intros NO Slow CO cs tr rs ecm hc r m H L2 TC I0 Ro.
  pose proof (C26_built_trie_is_tree pos (near _ _ _ W) attrs mergeAttrs (emptySecs _ _ _ W) (wk_near _ _ WK) cs tr rs H) as T.
  assert (PS : positions W tr (stopCands W) ecm) by (split; [exact (cands_ok W posAt WK)|exact TC]).
  rewrite (cg_weight _ _ CG) in *. rewrite (cg_start _ _ CG) in Ro.
  assert (ON : negb (noHopCache _ _ _ W) = true -> forall tr tr' n m a b, step tr n a b = step tr' m a b).
  { intros X. destruct CO as [Y|[A _]]; [rewrite Y in X; discriminate|exact A]. }
  assert (L2' : negb (noHopCache _ _ _ W) = true -> forall p n, (2 <= limit0 _ _ _ W tr p n)%Z).
  { intros X. destruct CO as [Y|[_ A]]; [rewrite Y in X; discriminate|exact (A tr)]. }
  destruct (cheapest_core_inv pos attrs C Pt _ _ _ _ (w tr) _ (step tr) _ _ _ _ _ _ _ _ _ _ _ _ _ _ _ (wk_costs _ _ WK) T (cg_enum _ _ CG)
    (NO cs tr (stopCands W) ecm (ex_intro _ rs H) PS) Slow (negb (noHopCache _ _ _ W)) (fun X => ON X tr tr)
    L2' hc _ r m (I0 tr) Ro) as (Kp & LF & GU & SW & Ch).
  split.
  - intros tr'. destruct Kp as [K1 K2]. split; [|exact K2]. intros k. destruct (rSt _ _ r) as [ca|] eqn:Er; [|exact I].
    destruct (noHopCache _ _ _ W) eqn:NC; [specialize (K2 eq_refl); discriminate|].
    intros a b v G. apply (net_same (step tr k)); [intros; apply ON; reflexivity|]. exact (K1 k a b v G).
  - intros n hops Im (is & c0 & S0 & F0) c Ic It. exists tr, n, ecm, (limOf (rLog _ _ r)), (stuckOf (rLog _ _ r)). rewrite rev_involutive.
    split; [exists cs, c; split; [exists rs; exact H|auto]|]. split; [exact PS|]. split; [exact LF|]. split; [exact GU|].
    apply Ch; [exact Im|]. exists is, c0. split; [apply SW; exact S0|exact F0].
Qed.
Lemma cache_start : forall tr, Inv (step tr) (negb (noHopCache _ _ _ W)) (if noHopCache _ _ _ W then None else Some []).
Proof. intros tr. destruct (noHopCache _ _ _ W); (split; [intros n|]); cbn; auto; discriminate. Qed.

Lemma known_is_driven : forall t ps ds, shape_known W posAt Kdriven t ps ds -> driven_shape W posAt step w t ps ds.
Proof. intros t ps ds (hops & parts & X & Y). exists (stopCands W), hops, parts. split; [exact X|exact Y]. Qed.
Lemma known_is_cheapest : forall t ps ds, shape_known W posAt Kcheapest t ps ds -> cheapest_shape W posAt step w t ps ds.
Proof. intros t ps ds (hops & parts & X & Y). exists (stopCands W), hops, parts. split; [exact X|exact Y]. Qed.
End P.
