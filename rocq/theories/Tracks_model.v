(** Model of the track numbers that stations get from the ways they lie on.
    Source: /repo/src/pfaedle/osm/OsmBuilder.cpp:68, 115-116, 127-128 (read), 700-702 and 727
    (readEdges), 1729-1740 (writeEdgeTracks), /repo/src/pfaedle/osm/OsmReadOpts.h:39,
    /repo/src/pfaedle/trgraph/StatInfo.cpp:27, 58.

    Simplifications, beyond those of OsmRead_model and Build_model.
    - The unordered_map eTracks is a list with one entry per edge; writeEdgeTracks goes through
      it in any order, which is an oracle [perm].
    - Each station has its own info (NodePL::setSI, readNodes). *)
From Coq Require Import Ascii String List Arith NArith ZArith QArith Bool.
From Verif Require Import OsmRead_model Attrs_model.
From Verif Require OsmGraph_model Snap_model Build_model.
Import ListNotations.
Open Scope nat_scope.
Open Scope list_scope.

Section Tracks.
Context {P : Type}.
Notation attrmap := (list (string * string)).

(** ** Reading the ways *)
Section Read.
Variable level : attrmap -> nat.
Variable oneway onewayrev : attrmap -> bool.
Variable linesOf : nat -> list nat.
Variable trackOf : OsmRead_model.way -> string.                 (* 700-702, see Attrs_model.wayTrack *)
(** 727: [eTracks[e] = track] *)
Definition putTrack (m : list (nat * string)) (e : nat) (t : string) : list (nat * string) := filter (fun x => negb (fst x =? e)) m ++ [(e, t)].
(** 695-734 with 727: the edges of way [w], in order *)
Definition wayTracks (noHup has : nat -> bool) (s : OsmRead_model.graph * list (nat * string)) (w : OsmRead_model.way) : OsmRead_model.graph * list (nat * string) :=
  let g := OsmRead_model.wayEdges level oneway onewayrev linesOf noHup has (fst s) w in
  (g, fold_left (fun m sg => if String.eqb (trackOf w) "" then m else putTrack m (OsmRead_model.sgEdge sg) (trackOf w))
        (skipn (length (OsmRead_model.gSegs (fst s))) (OsmRead_model.gSegs g)) (snd s)).
(** 693-735 *)
Definition readTracks (noHup has : nat -> bool) (ws : list OsmRead_model.way) : OsmRead_model.graph * list (nat * string) :=
  fold_left (wayTracks noHup has) ws (OsmRead_model.emptyGraph, []).
End Read.

(** ** 1729-1740 *)
Notation payload := (@OsmRead_model.payload P statInfo).
Notation ngraph := (@OsmRead_model.ngraph P statInfo).
(** StatInfo.cpp:58 *)
Definition setTrack (t : string) (i : statInfo) : statInfo := mkStat (siName i) (siAlt i) t.
(** 1731-1734, 1735-1738 *)
Definition giveTrack (t : string) (f : nat -> payload) (n : nat) : nat -> payload :=
  match OsmRead_model.pState (f n) with
  | OsmRead_model.Station i =>
      if String.eqb (siTrack i) "" then OsmRead_model.setPay f n (OsmRead_model.mkPay (OsmRead_model.pPos (f n)) (OsmRead_model.Station (setTrack t i))) else f
  | _ => f
  end.
Definition edgeTrack (es : list OsmRead_model.edge) (f : nat -> payload) (tr : nat * string) : nat -> payload :=
  match nth_error es (fst tr) with
  | Some e => giveTrack (snd tr) (giveTrack (snd tr) f (OsmRead_model.eTo e)) (OsmRead_model.eFrom e)
  | None => f
  end.
Definition writeEdgeTracks (es : list OsmRead_model.edge) (tracks : list (nat * string)) (s : ngraph) : ngraph :=
  OsmRead_model.mkNG (OsmRead_model.ngSize s) (fold_left (edgeTrack es) tracks (OsmRead_model.ngPay s)) (OsmRead_model.orphans s).

(** ** [read] with tracks, 85-169 *)
(** StatInfo.cpp:27, OsmBuilder.cpp:1351-1352: no track; the track of the other *)
Definition noTrack (i : statInfo) : bool := String.eqb (siTrack i) "".
Definition takeTrack (i j : statInfo) : statInfo := setTrack (siTrack j) i.
(** 100-103: the id sets *)
Definition boxNodes (E : nat) (c : @OsmRead_model.cfg P) (x0 : @OsmRead_model.xml P) : OsmRead_model.bb :=
  let nodeBeg := OsmRead_model.skipUntil E (@OsmRead_model.isNode P) (OsmRead_model.cur x0) (OsmRead_model.rest x0) in
  fst (OsmRead_model.readBBoxNds E (OsmRead_model.inBox c) (OsmRead_model.nohupF c) (OsmRead_model.cur nodeBeg) (OsmRead_model.rest nodeBeg) false 0 (OsmRead_model.mkBB [] [] [])).
Section Run.
Variable origin : P.
Variable E : nat.
Variable level : attrmap -> nat.
Variable oneway onewayrev : attrmap -> bool.
Variable linesOf : OsmRead_model.rels -> nat -> list nat.
Variable trackOf : OsmRead_model.rels -> OsmRead_model.way -> string.
Variable perm : list (nat * string) -> list (nat * string).
Variable getInfo : nat -> attrmap -> option statInfo.
Variable station blocker turnCycle : attrmap -> bool.
(** As in Build_model *)
Variable close : P -> P -> bool.
Variable near : OsmGraph_model.graph P -> nat -> list nat.
Variable order : OsmGraph_model.graph P -> list nat.
Variable hav : P -> P -> Z.
Variable half five : Z.
Variable plus : Z -> Z -> Z.
Variable project : P -> P -> P -> P.
Variable sharpAt : P -> P -> P -> bool.
Variable maxSnapLevel : nat.
Variable maxBlockDistance : Z.
Variable simiEq simiLow : statInfo -> statInfo -> bool.
Variable pick : list Snap_model.cand -> option (Snap_model.cand * list Snap_model.cand).
Variable ord : list (@Snap_model.edge (OsmGraph_model.pl P)) -> list (@Snap_model.edge (OsmGraph_model.pl P)).
Variable cands : @Snap_model.st P statInfo (OsmGraph_model.pl P) -> P -> Z -> list nat.
Variable ds : list Z.
Variable len : list P -> Q.
Variable simplify : list P -> list P.
Variable speed : nat -> Q.
Variable corFac : Q.
Variable fl : Q -> Q.
Variable speedPen entryCost noLinesFac : Q.
Variable meets : OsmGraph_model.graph P -> list (nat * bool).
(** 85-169; 693-735 is gone through once in the code: [readTracks] yields the graph of
    [readEdges] and the tracks. *)
Definition build (c : @OsmRead_model.cfg P) (n : nat) (x0 : @OsmRead_model.xml P) : option (@Build_model.built P statInfo) :=
  match OsmRead_model.readFile E c (fun b r ws => fst (readTracks level oneway onewayrev (linesOf r) (trackOf r) (OsmRead_model.hasHup c b) (OsmRead_model.hasBox c b) ws)) n x0 with
  | None => None
  | Some (r, ws, g, nl) =>
      let tracks := snd (readTracks level oneway onewayrev (linesOf r) (trackOf r) (OsmRead_model.hasHup c (boxNodes E c x0)) (OsmRead_model.hasBox c (boxNodes E c x0)) ws) in
      let s := OsmRead_model.readNodes getInfo station blocker turnCycle g nl in
      (* 127 *)
      Build_model.buildFrom origin close near order hav half five plus project sharpAt maxSnapLevel maxBlockDistance simiEq simiLow noTrack takeTrack pick ord cands ds
        len simplify speed corFac fl speedPen entryCost noLinesFac meets r g (writeEdgeTracks (OsmRead_model.gEdges g) (perm tracks) s)
  end.
End Run.
End Tracks.
