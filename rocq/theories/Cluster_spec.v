(** Specification for the clustering of trips (C38, C55, C56). *)
From Coq Require Import String List Arith ZArith Bool Permutation.
From Verif Require Import TripTrie_model Simi_model Cluster_model.
Import ListNotations.
Open Scope nat_scope.

(** Items dealt in turn: the [q]-th item of worker [w] is item number [w + q * n]. *)
Definition dealt {A} (n : nat) (l : list A) (parts : list (list A)) : Prop :=
  length parts = n /\ Permutation (concat parts) l /\
  forall w p, nth_error parts w = Some p -> forall q, nth_error p q = nth_error l (w + q * n).

Section Spec.
Context {pos : Type}.
Variable near : pos -> pos -> bool.
Variable emptySecs : Z.
(** Normalisation of line names and of stop names. *)
Variables lineN statN : string -> string -> Prop.

(** The trips that are to be routed. *)
Definition selected (o : copts) (t : ftrip pos) : Prop :=
  (oDrop o = true \/ fShape _ t = ""%string) /\ 2 <= length (tSts _ (fTrip _ t)) /\
  In (fType _ t) (oMots o) /\ In (fType _ t) (oCfgMots o).

(** The routing attributes of a trip: the first non-empty of the three line names, and
    the names of its first and last stop. *)
Record trip_attrs (t : ftrip pos) (a : attrs) : Prop := {
  ta_from : exists s rest, tSts _ (fTrip _ t) = s :: rest /\ statN (sName _ (stStop _ s)) (lineFrom a);
  ta_to : exists s rest x, tSts _ (fTrip _ t) = rest ++ [s] /\ statN (sName _ (stStop _ s)) x /\ lineTo a = [x];
  ta_name : exists x y z, lineN (fRShort _ t) x /\ lineN (fShort _ t) y /\ lineN (fRLong _ t) z /\
    (x <> "" -> shortName a = x)%string /\ (x = "" -> y <> "" -> shortName a = y)%string /\
    (x = "" -> y = "" -> shortName a = z)%string
}.
(** Same line name and same origin. *)
Definition same_group (a b : attrs) : Prop := shortName a = shortName b /\ lineFrom a = lineFrom b.

(** All trips listed at nodes of tries. *)
Definition listed (fo : list (attrs * list (trie pos attrs))) : list nat :=
  flat_map (fun g => flat_map (fun tr => flat_map snd (ndTrips _ _ tr)) (snd g)) fo.

Record clustered (o : copts) (ts : list (ftrip pos)) (fo : list (attrs * list (trie pos attrs))) : Prop := {
  (** every selected trip is listed exactly once, no other trip is *)
  cl_once : NoDup (listed fo) /\
    forall i, In i (listed fo) <-> exists t, In t ts /\ selected o t /\ tId _ (fTrip _ t) = i;
  (** there is one group for a line name and origin *)
  cl_keys : forall i j k k' x x', nth_error fo i = Some (k, x) -> nth_error fo j = Some (k', x') -> same_group k k' -> i = j;
  (** a trip is listed in the group of its attributes *)
  cl_group : forall k tries tr n ids t, In (k, tries) fo -> In tr tries -> In (n, ids) (ndTrips _ _ tr) ->
    In t ts -> In (tId _ (fTrip _ t)) ids -> exists a, trip_attrs t a /\ same_group a k;
  (** the attributes of a group are those of its first trip *)
  cl_first : forall k tries, In (k, tries) fo -> exists pre t post, ts = pre ++ t :: post /\ selected o t /\ trip_attrs t k /\
    forall t' a, In t' pre -> selected o t' -> trip_attrs t' a -> ~ same_group a k;
  (** every trie comes from adding selected trips of the group to the empty one, with the
      attributes of the group; there are at most as many additions as trips *)
  cl_built : forall k tries tr, In (k, tries) fo -> In tr tries -> exists cs rs,
    runCalls pos near attrs mergeAttrs emptySecs (emptyTrie pos attrs) cs = (tr, rs) /\ length cs <= length ts /\
    forall c, In c cs -> cAttrs _ _ c = k /\ cTimeEx _ _ c = oTimeEx o /\
      exists t, In t ts /\ selected o t /\ cTrip _ _ c = fTrip _ t;
  (** no trie is empty *)
  cl_used : forall k tries tr, In (k, tries) fo -> tries <> [] /\ (In tr tries -> ndTrips _ _ tr <> []);
  (** every node of a trie carries the attributes of the group *)
  cl_nodes : forall k tries tr nd s, In (k, tries) fo -> In tr tries -> In nd (nds _ _ tr) -> nRepr _ _ nd = Some s ->
    nAttrs _ _ nd = Some k;
  (** with tries switched off the trips of a trie share all their stops *)
  cl_single : oNoTrie o = true -> forall k tries tr, In (k, tries) fo -> In tr tries -> length (ndTrips _ _ tr) = 1
}.
End Spec.
