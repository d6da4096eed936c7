(** Independent reading of the evaluation tool. *)
From Coq Require Import Ascii String List Arith ZArith QArith Bool Lia Sorted Permutation.
From Verif Require Import ListAux TripTrie_model TripTrie_spec Shapevl_model.
Import ListNotations.
Open Scope nat_scope.
Open Scope list_scope.

(** ** What is compared *)
Section Compared.
Context {shp C : Type}.
Variable addC : C -> nat -> nat -> shp -> C.
Variable motOk : nat -> bool.
(** The comparisons made for a feed: the chosen trips of the wanted types which the feed has with a
    shape, in order. *)
Inductive compared (ft : nat -> option (option shp)) : list (nat * nat) -> list (nat * nat * shp) -> Prop :=
| cm_nil : compared ft [] []
| cm_yes : forall t n s js l, motOk t = true -> ft t = Some (Some s) -> compared ft js l -> compared ft ((t, n) :: js) ((t, n, s) :: l)
| cm_no : forall t n js l, motOk t = false \/ ft t = None \/ ft t = Some None -> compared ft js l -> compared ft ((t, n) :: js) l.
(** A collector that was given these comparisons and nothing else. *)
Inductive given (empty : C) : list (nat * nat * shp) -> C -> Prop :=
| gv_nil : given empty [] empty
| gv_snoc : forall l c t n s, given empty l c -> given empty (l ++ [(t, n, s)]) (addC c t n s).
(** The collector of a feed has all comparisons of this feed. *)
Definition evaluated (empty : C) (jobs : list (nat * nat)) (ft : nat -> option (option shp)) (c : C) : Prop :=
  exists l, compared ft jobs l /\ given empty l c.
End Compared.

(** ** Unique trips *)
Section Unique.
Context {pos : Type}.
Variable near : pos -> pos -> bool.
Definition stops (g : gtrip pos) : list (stop pos) := map (stStop pos) (tSts pos (gTrip pos g)).
Definition idOf (g : gtrip pos) : nat := tId pos (gTrip pos g).
(** All trips of a group stop at the same places: one list of stops agrees with each of them, stop by stop. *)
Definition same_places (grp : list (gtrip pos)) : Prop :=
  exists rep, forall g, In g grp -> Forall2 (same_stop near) rep (stops g).
(** The trips are split into groups: each one with stops belongs to one group, a group has trips of one
    route and, apart from trips of a single stop, the same places; trips of a route with equal stops are in
    one group. *)
Record grouping (gs : list (gtrip pos)) (groups : list (list (gtrip pos))) : Prop := {
  gr_all : Permutation (concat groups) (filter (fun g => match stops g with [] => false | _ => true end) gs);
  gr_some : forall grp, In grp groups -> grp <> [];
  gr_route : forall grp g h, In grp groups -> In g grp -> In h grp -> gRoute _ g = gRoute _ h /\ List.length (stops g) = List.length (stops h);
  gr_places : forall grp g, In grp groups -> In g grp -> 2 <= List.length (stops g) -> same_places grp;
  gr_equal : forall i j grp grp' g h, nth_error groups i = Some grp -> nth_error groups j = Some grp' -> In g grp -> In h grp' ->
    gRoute _ g = gRoute _ h -> stops g = stops h -> i = j
}.
(** A compared trip stands for a group: it is its first trip, and its weight is the size of the group. *)
Definition represents (grp : list (gtrip pos)) (r : nat * nat) : Prop :=
  exists g, hd_error grp = Some g /\ fst r = idOf g /\ snd r = List.length grp.
End Unique.

(** ** Arguments *)
Section Args.
Variable realpath : string -> option string.
Open Scope string_scope.
Definition helps : list string := ["-h"; "--help"].
Definition flags : list string := ["-s"; "--json"; "--unique"; "--avg"].
Definition valued : list string := ["-g"; "--segment-length"; "-l"; "-f"; "-m"].
Close Scope string_scope.
Inductive item := Flag (a : string) | Val (a v : string) | Path (p : string).
Inductive ending := All | Help | NoValue (a : string) | BadPath (a : string).
(** The arguments from left to right, up to the first one that ends the program. *)
Inductive reads : list string -> list item -> ending -> Prop :=
| rd_all : reads [] [] All
| rd_help : forall a r, In a helps -> reads (a :: r) [] Help
| rd_flag : forall a r l e, In a flags -> reads r l e -> reads (a :: r) (Flag a :: l) e
| rd_val : forall a v r l e, In a valued -> reads r l e -> reads (a :: v :: r) (Val a v :: l) e
| rd_noval : forall a, In a valued -> reads [a] [] (NoValue a)
| rd_path : forall a p r l e, ~ In a (helps ++ flags ++ valued) -> realpath a = Some p -> reads r l e -> reads (a :: r) (Path p :: l) e
| rd_bad : forall a r, ~ In a (helps ++ flags ++ valued) -> realpath a = None -> reads (a :: r) [] (BadPath a).
(** The last value given for an option. *)
Inductive last_value (a : string) : list item -> option string -> Prop :=
| lv_none : forall l, (forall v, ~ In (Val a v) l) -> last_value a l None
| lv_last : forall l1 v l2, (forall v', ~ In (Val a v') l2) -> last_value a (l1 ++ Val a v :: l2) (Some v).
Definition or {A} (x : option A) (d : A) : A := match x with Some y => y | None => d end.
Record meant (atoi : string -> Z) (l : list item) (o : opts) : Prop := {
  mn_ground : exists x, last_value "-g" l x /\ oGround o = or x ""%string;
  mn_full : exists x, last_value "-f" l x /\ oFull o = or x ""%string;
  mn_mots : exists x, last_value "-m" l x /\ oMots o = or x "all"%string;
  mn_level : exists x, last_value "-l" l x /\ oLevel o = or (option_map atoi x) 1%Z;
  mn_seg : exists x, last_value "--segment-length" l x /\ oSeg o = option_map atoi x;
  mn_summ : oSumm o = true <-> In (Flag "-s") l;
  mn_json : oJson o = true <-> In (Flag "--json") l;
  mn_uniq : oUniq o = true <-> In (Flag "--unique") l;
  mn_avg : oAvg o = true <-> In (Flag "--avg") l;
  mn_feeds : forall p, In p (oFeeds o) <-> In (Path p) l;
  mn_sorted : StronglySorted (fun a b => String.ltb a b = true) (oFeeds o)
}.
End Args.

(** ** Statistics *)
(** The value of a key in the statistics of a feed. *)
Definition has_stat (m : list (string * Q)) (k : string) (v : Q) : Prop := In (k, v) m.
(** The sum of a key over all feeds. *)
Inductive sum_stat (k : string) : list (string * list (string * Q)) -> Q -> Prop :=
| ss_nil : sum_stat k [] 0
| ss_cons : forall f m v r s t, has_stat m k v -> sum_stat k r s -> (t == v + s)%Q -> sum_stat k ((f, m) :: r) t.
