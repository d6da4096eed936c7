(** C41: trips and shapes.txt after a whole run. *)
From Coq Require Import Ascii String List Arith NArith Bool Lia.
From Verif Require Import ShapeStore_model ShapeStore_spec ShapeStore_proofs ShapeStore_props Workers_model Workers_spec ShapesFile_model ShapesFile_spec ShapesFile_proofs.
Import ListNotations.
Open Scope nat_scope.

(** C41: for every number of configurations and threads and every schedule: a trip that
    was given a shape refers to an id whose rows in shapes.txt are the points computed for
    it; a trip that was not refers to its old shape, whose rows are those of the input;
    shapes no trip used remain; there are no other rows. *)
Theorem C41_trips_and_shapes : forall (D : Type) wa wb wd, 0 < wa + wb + wd ->
  forall (trips : list (trip D)) ids phs old, phases_ok wa wb wd phs trips -> ids_distinct phs trips ->
  (forall x, In x old -> wId x <> ""%string /\ In (wId x) ids) ->
  forall trips' rows, wholeRun D wa wb wd phs trips ids (Some old) = Some (trips', rows) ->
  shapes_written phs trips ids old trips' rows.
Proof.
  intros D wa wb wd W trips ids phs old PO ID Ho trips' rows R.
  exact (whole_ok wa wb wd W trips ids phs PO ID (Some old) trips' rows Ho R).
Qed.
Print Assumptions C41_trips_and_shapes.

(** ** A concrete case: two configurations, the second with two threads; one old shape is
    dropped, one kept, one unused *)
Definition xleaf (us : list nat) (ty : nat) (ps : list pt) (ds : list nat) : leaf (list pt) nat := mkLeaf _ _ us ty ps ds.
Definition xt (s : string) (n : nat) : trip nat := mkTrip nat s (repeat 0 n).
Definition xphs : list (phase nat) :=
  [mkPhase nat [[xleaf [0; 2] 3 [p1 1; p1 2] [0; 5]]] 1 (repeat 0 40);
   mkPhase nat [[xleaf [3] 2 [p1 3; p1 9] [0; 8]]; [xleaf [4] 2 [p1 4] [0; 9]]] 2 (concat (repeat [0; 1] 40))].
Definition xtrips : list (trip nat) := [xt "a" 2; xt "b" 2; xt "" 2; xt "a" 2; xt "b" 2]%string.
Definition xold : list row := [mkRow "a" 1 (p1 20); mkRow "b" 1 (p1 21); mkRow "c" 1 (p1 22); mkRow "b" 2 (p1 23); mkRow "a" 2 (p1 24)]%string.
Lemma xok : phases_ok 1 1 1 xphs xtrips.
Proof.
  assert (Lf : forall l, leaf_of xphs l -> l = xleaf [0; 2] 3 [p1 1; p1 2] [0; 5] \/ l = xleaf [3] 2 [p1 3; p1 9] [0; 8] \/ l = xleaf [4] 2 [p1 4] [0; 9]).
  { intros l (ph & I & L). cbn in I. destruct I as [I|[I|[]]]; subst ph; cbn in L; intuition. }
  constructor.
  - cbn. intros ph [<-|[<-|[]]]; discriminate.
  - cbn. intros ph [<-|[<-|[]]]; cbn; repeat constructor; cbn; intuition discriminate.
  - intros l u L U. destruct (Lf l L) as [-> | [-> | ->]]; cbn in U; intuition (subst; eexists; split; reflexivity).
  - intros l L. destruct (Lf l L) as [-> | [-> | ->]]; discriminate.
  - intros a ph b ph' E I l l' L L'. unfold xphs in E. destruct a as [|? [|? a]]; cbn in E; injection E; intros; subst.
    + destruct I as [<-|[]]. cbn in L, L'. intuition (subst; discriminate).
    + destruct I.
    + now destruct a.
  - intros l L. destruct (Lf l L) as [-> | [-> | ->]]; (split; [discriminate|]); (split; [reflexivity|]); cbn; intros p; intuition (subst; reflexivity).
Qed.
Example C41_case : phases_ok 1 1 1 xphs xtrips /\ ids_distinct xphs xtrips /\
  wholeRun nat 1 1 1 xphs xtrips ["a"; "b"; "c"]%string (Some xold) =
  Some ([mkTrip nat "shp_3_1" [0; 5]; xt "b" 2; mkTrip nat "shp_3_1" [0; 5]; mkTrip nat "shp_2_1" [0; 8]; mkTrip nat "shp_2_2" [0; 9]],
        [mkRow "b" 1 (p1 21); mkRow "c" 1 (p1 22); mkRow "b" 2 (p1 23);
         mkRow "shp_3_1" 1 (p1 1); mkRow "shp_3_1" 2 (p1 2); mkRow "shp_2_2" 1 (p1 4); mkRow "shp_2_1" 1 (p1 3); mkRow "shp_2_1" 2 (p1 9)])%string.
Proof.
  split; [exact xok|]. split.
  - intros u x l n E _. apply nth_error_In in E. cbn in E. intuition (subst; discriminate).
  - vm_compute. reflexivity.
Qed.

(** ** Finding *)
(** C41: if the input has ids of the form pfaedle issues (say, from an earlier run), the
    old rows of a dropped shape can be written under the id of a new one: the shape of the
    second trip gets the points of both.  One configuration, one thread. *)
Theorem C41_reissued_id_refuted : exists (phs : list (phase nat)) trips ids old trips' rows,
  phases_ok 1 1 1 phs trips /\ (forall x, In x old -> wId x <> ""%string /\ In (wId x) ids) /\
  (forall u x, nth_error trips u = Some x -> In (tShape _ x) ids) /\ length phs = 1 /\
  wholeRun nat 1 1 1 phs trips ids (Some old) = Some (trips', rows) /\
  exists u l id, shaped_by phs u l /\ nth_error trips' u = Some (mkTrip nat id (lDists _ _ l)) /\
    with_id id rows = with_id id old ++ rows_of (id, lPts _ _ l) /\ with_id id old <> [].
Proof.
  exists [mkPhase nat [[xleaf [0] 3 [p1 1; p1 2] [0; 5]; xleaf [1] 3 [p1 3; p1 4] [0; 6]]] 1 (repeat 0 60)],
    [xt "shp_3_2" 2; xt "shp_3_3" 2]%string, ["shp_3_2"; "shp_3_3"]%string,
    [mkRow "shp_3_2" 1 (p1 20); mkRow "shp_3_2" 2 (p1 21); mkRow "shp_3_3" 1 (p1 22)]%string.
  eexists _, _. split; [|split; [|split; [|split; [|split]]]].
  - assert (Lf : forall l, leaf_of [mkPhase nat [[xleaf [0] 3 [p1 1; p1 2] [0; 5]; xleaf [1] 3 [p1 3; p1 4] [0; 6]]] 1 (repeat 0 60)] l ->
      l = xleaf [0] 3 [p1 1; p1 2] [0; 5] \/ l = xleaf [1] 3 [p1 3; p1 4] [0; 6]).
    { intros l (ph & I & L). cbn in I. destruct I as [<-|[]]. cbn in L; intuition. }
    constructor.
    + cbn. intros ph [<-|[]]; discriminate.
    + cbn. intros ph [<-|[]]; cbn; repeat constructor; cbn; intuition discriminate.
    + intros l u L U. destruct (Lf l L) as [-> | ->]; cbn in U; intuition (subst; eexists; split; reflexivity).
    + intros l L. destruct (Lf l L) as [-> | ->]; discriminate.
    + intros a ph b ph' E I l l' L L'. destruct a as [|? a]; cbn in E; injection E; intros; subst; [destruct I|]. now destruct a.
    + intros l L. destruct (Lf l L) as [-> | ->]; (split; [discriminate|]); (split; [reflexivity|]); cbn; intros p; intuition (subst; reflexivity).
  - cbn. intros x [<-|[<-|[<-|[]]]]; cbn; (split; [discriminate|auto]).
  - intros u x E. apply nth_error_In in E. cbn in E. intuition (subst; cbn; auto).
  - reflexivity.
  - vm_compute. reflexivity.
  - exists 1, (xleaf [1] 3 [p1 3; p1 4] [0; 6]), "shp_3_2"%string. split.
    + eexists [], _, []. split; [reflexivity|]. cbn. split; [auto|]. split; [auto|]. intros ph' [].
    + split; [reflexivity|]. split; [vm_compute; reflexivity|discriminate].
Qed.
Print Assumptions C41_reissued_id_refuted.

(** C41: route types must be different.  If three configurations are for the same type (say, sections "tram",
    "streetcar" and "0" of a configuration file, with different settings) and existing shapes are dropped,
    the third one finds the first id free again: the trip gets the points of both shapes.
    One trip, without a shape before; one thread. *)
Theorem C41_same_type_refuted : exists (ls : list (leaf (list pt) nat)) trips trips' rows,
  ids_distinct (map (fun l => mkPhase nat [[l]] 1 (repeat 0 40)) ls) trips /\
  (forall l, In l ls -> lTrips _ _ l = [0] /\ lType _ _ l = 0 /\ length (lPts _ _ l) = 2 /\ length (lDists _ _ l) = 2) /\ length ls = 3 /\ trips = [xt "" 2] /\
  wholeRun nat 1 1 1 (map (fun l => mkPhase nat [[l]] 1 (repeat 0 40)) ls) trips [] (Some []) = Some (trips', rows) /\
  exists l0 l2 id, nth_error ls 0 = Some l0 /\ nth_error ls 2 = Some l2 /\ nth_error trips' 0 = Some (mkTrip nat id (lDists _ _ l2)) /\
    with_id id rows = rows_of (id, lPts _ _ l0) ++ rows_of (id, lPts _ _ l2).
Proof.
  exists [xleaf [0] 0 [p1 1; p1 2] [0; 5]; xleaf [0] 0 [p1 3; p1 4] [0; 6]; xleaf [0] 0 [p1 5; p1 6] [0; 7]], [xt "" 2].
  eexists _, _. split; [|split; [|split; [|split; [|split]]]].
  - intros u x l n E _. apply nth_error_In in E. cbn in E. intuition (subst; discriminate).
  - cbn. intros l I. intuition (subst; reflexivity).
  - reflexivity.
  - reflexivity.
  - vm_compute. reflexivity.
  - do 2 eexists. exists "shp_0_1"%string. split; [reflexivity|]. split; [reflexivity|]. split; [reflexivity|]. vm_compute. reflexivity.
Qed.
Print Assumptions C41_same_type_refuted.
