(** Model of the computation from the trips of the feed to the shapes of the trips: the
    parts modelled in Cluster, Ecm, Router, Shapes and Workers put together.
    Source: /repo/src/pfaedle/router/ShapeBuilder.cpp:337-364 (route, shapeify of a trie),
    381-447 (shapeify), 1160-1226 (shapeWorker).

    Simplifications.
    - What the code reads of street graph, configuration and libraries are the fields of
      [world]; see the files named above for what each stands for.  Weights and searches
      depend on the trie (by the routing attributes at its nodes).
    - The leaves of a forest are computed when the workers are started and not when a
      worker takes the forest: the computation reads nothing that the workers change (the
      hop cache belongs to the forest; C38_candidate_cache for the candidate cache).
    - The iteration order of [getNdTrips] (an unordered map) is that of the list.
    - Colours and the transit graph are left out. *)
From Coq Require Import String List Arith ZArith NArith QArith Bool.
From Verif Require Import HopCache_model TripTrie_model Simi_model Cluster_model Router_model Hops_model Ecm_model Shapes_model Workers_model.
Import ListNotations.
Open Scope nat_scope.

Record world (pos C Pt : Type) := mkW {
  (* trip tries *)
  near : pos -> pos -> bool; emptySecs : Z;
  (* costs *)
  lt : C -> C -> bool; add : C -> C -> C; inf : C; ofQ : Q -> C; ofZ : Z -> C;
  (* graph *)
  eFr : edge -> nat; eTo : edge -> nat; deg : nat -> nat;
  outF : nat -> edge; outB : nat -> edge; inF : nat -> edge; inB : nat -> edge; oneWay : edge -> nat;
  len : edge -> Q; isRev : edge -> bool; geom : edge -> option (list Pt); fromPt : edge -> Pt; toPt : edge -> Pt;
  compF : edge -> nat; compT : edge -> nat; colorsOf : edge -> list N;
  (* candidates of stops *)
  enumS : list edge -> list edge; maxStat : Q; maxSnap : Q; statPen : Q; platPen : Q; nonStatPen : Q; useStations : bool; em : Q -> Q;
  edist : stop pos -> edge -> Q; eproj : stop pos -> edge -> Q; point : stop pos -> Pt;
  stats : stop pos -> list statNd; edges : stop pos -> list edge;
  (* routing *)
  weight : trie pos attrs -> nat -> nat -> Z -> Z -> Z -> C; limit0 : trie pos attrs -> nat -> nat -> Z;
  startCost : trie pos attrs -> nat -> edge -> Z; spath : trie pos attrs -> nat -> edge -> edge -> Z -> Z * list edge;
  invWeight : C -> option Z; enum : list edge -> list edge; ecost : trie pos attrs -> nat -> edge -> Z;
  search : trie pos attrs -> nat -> edge -> list edge -> Z -> edge -> Z * list edge;
  searchN : trie pos attrs -> nat -> list edge -> list edge -> (edge -> Z) -> Z -> Z -> list (edge * (edge * Z));
  needDist : bool; allowsFast : bool; noFastHops : bool; noHopCache : bool;
  (* geometry *)
  noPoint : Pt; segment : list Pt -> Q -> Q -> list Pt; simplify : list Pt -> list Pt;
  hav : Pt -> Pt -> Q; rndF : Q -> Q; rndD : Q -> Q; noColor : N
}.

Section Pipeline.
Context {pos C Pt regex : Type}.
Variable W : world pos C Pt.
Variable replace : regex -> string -> string -> string.
Notation trie := (trie pos attrs).
Notation hop := (hop edge Pt).
Notation points := (list (Pt * Q * nat)).
Notation leaf := (leaf points Q).

(** ShapeBuilder.cpp:156-279, called by getECM. *)
Definition stopCands (s : stop pos) : option (list (cand C edge Pt)) :=
  getEdgCands C (ofQ _ _ _ W) Pt (noPoint _ _ _ W) (eFr _ _ _ W) (eTo _ _ _ W) (deg _ _ _ W) (outF _ _ _ W) (outB _ _ _ W) (inF _ _ _ W) (inB _ _ _ W)
    (oneWay _ _ _ W) (enumS _ _ _ W) (maxStat _ _ _ W) (maxSnap _ _ _ W) (statPen _ _ _ W) (platPen _ _ _ W) (nonStatPen _ _ _ W) (useStations _ _ _ W)
    (em _ _ _ W) (edist _ _ _ W s) (eproj _ _ _ W s) (isRev _ _ _ W) (point _ _ _ W s) (sPlat _ s) (stats _ _ _ W s) (edges _ _ _ W s).
(** ShapeBuilder.cpp:337-364: the hops of the leaves of a trie, and the hop cache after it. *)
Definition shapeifyTrie (hc : option cache) (tr : trie) : option (list (nat * list hop) * option cache) :=
  match getECM C (add _ _ _ W) (ofQ _ _ _ W) Pt pos attrs (nds _ _ tr) stopCands with
  | None => None
  | Some ecm =>
      match route pos attrs C (lt _ _ _ W) (add _ _ _ W) (inf _ _ _ W) edge Pt (noPoint _ _ _ W) (option cache)
              (askHops ecm (invWeight _ _ _ W) (enum _ _ _ W) (ecost _ _ _ W tr) (len _ _ _ W) (compF _ _ _ W) (compT _ _ _ W)
                 (search _ _ _ W tr) (searchN _ _ _ W tr) (needDist _ _ _ W) (allowsFast _ _ _ W) (noFastHops _ _ _ W))
              (weight _ _ _ W tr) (ofZ _ _ _ W) (limit0 _ _ _ W tr) (startCost _ _ _ W tr) (spath _ _ _ W tr)
              (nds _ _ tr) ecm hc (map fst (ndTrips _ _ tr)) with
      | None => None
      | Some (r, m) => Some (m, rSt _ _ r)
      end
  end.
Definition drawShape (hops : list hop) : option (points * list Q * N) :=
  getGtfsShape edge Pt Nat.eqb (geom _ _ _ W) (isRev _ _ _ W) (fromPt _ _ _ W) (toPt _ _ _ W) (len _ _ _ W) (segment _ _ _ W) (simplify _ _ _ W)
    (hav _ _ _ W) (rndF _ _ _ W) (rndD _ _ _ W) (colorsOf _ _ _ W) (noColor _ _ _ W) hops.

(** [std::map::at]; [None]: an exception. *)
Fixpoint at_ {A} (m : list (nat * A)) (n : nat) : option A :=
  match m with [] => None | (k, v) :: r => if k =? n then Some v else at_ r n end.
(** ShapeBuilder.cpp:1189-1197: the leaves of a trie.  [types]: route types of the trips. *)
Fixpoint leavesOf (types : list nat) (m : list (nat * list hop)) (nd : list (nat * list nat)) : option (list leaf) :=
  match nd with
  | [] => Some []
  | (n, ids) :: r =>
      match ids with
      | [] => None
      | t0 :: _ =>
          match at_ m n, nth_error types t0, leavesOf types m r with
          | Some hops, Some ty, Some ls =>
              match drawShape hops with
              | Some (ps, ds, _) => Some (mkLeaf _ _ ids ty ps ds :: ls)
              | None => None
              end
          | _, _, _ => None
          end
      end
  end.
(** ShapeBuilder.cpp:1185-1187: the tries of a forest. *)
Fixpoint forestLeaves (types : list nat) (hc : option cache) (tries : list trie) : option (list leaf) :=
  match tries with
  | [] => Some []
  | tr :: r =>
      match shapeifyTrie hc tr with
      | None => None
      | Some (m, hc1) =>
          match leavesOf types m (ndTrips _ _ tr), forestLeaves types hc1 r with
          | Some a, Some b => Some (a ++ b)
          | _, _ => None
          end
      end
  end.
(** ShapeBuilder.cpp:1177-1183: the forests, each with a hop cache of its own. *)
Fixpoint jobsOf (types : list nat) (fo : list (attrs * list trie)) : option (list (list leaf)) :=
  match fo with
  | [] => Some []
  | (_, tries) :: r =>
      match forestLeaves types (if noHopCache _ _ _ W then None else Some []) tries, jobsOf types r with
      | Some a, Some b => Some (a :: b)
      | _, _ => None
      end
  end.

(** The trips as the workers see them; [dists u]: the distances of the stop times of trip
    number [u] in the feed. *)
Fixpoint tripsOf (ts : list (ftrip pos)) (dists : nat -> list Q) (u : nat) : list (Workers_model.trip Q) :=
  match ts with
  | [] => []
  | t :: r => mkTrip Q (fShape _ t) (dists u) :: tripsOf r dists (S u)
  end.
(** ShapeBuilder.cpp:381-447.  [cs], [ws]: schedules of the clustering and of the shape
    workers; [cnt], [ids], [store]: shape counter and shape container before.
    Result: what is left for the clustering workers to do, the states of the shape
    workers, and the data they share. *)
Definition build (o : copts) (st : cst regex) (f : feed pos) (cs ws : list nat) (cnt : nat) (ids : list string) (store : list (string * points))
    (dists : nat -> list Q) : option (list (list (cstep pos)) * list (pc points Q) * shared points Q) :=
  match clusterTrips pos (near _ _ _ W) (emptySecs _ _ _ W) regex replace o st f cs with
  | None => None
  | Some (_, fo, rest) =>
      match jobsOf (map (fType pos) (fTrips _ f)) fo with
      | None => None
      | Some jobs =>
          let s := start points Q (oThreads o) cnt ids store (tripsOf (fTrips _ f) dists 0) in
          match run points Q jobs ws (fst s) (snd s) with
          | None => None
          | Some (ths, sh) => Some (rest, ths, sh)
          end
      end
  end.
End Pipeline.
