(** Model of the container that keeps new shapes in a temporary file, and of the writing
    of shapes.txt.
    Source: /repo/src/pfaedle/gtfs/ShapeContainer.tpp:10-158, ShapeContainer.h:21-66;
    /repo/src/pfaedle/gtfs/Writer.cpp:607-641 (writeShapes).

    Simplifications.
    - A byte is an [ascii]; a value of latitude, longitude or distance is the list of its
      bytes, so that "the same value" means "the same bits".  Their sizes are [wa], [wb]
      and [wd] bytes, [size_t] has eight bytes, little endian.
    - The temporary file takes every byte written to it (no full disk).
    - std::stringstream, std::fstream: as the standard describes them, C locale.
    - Outcome [None] of a reading loop: it did not end within the given number of rounds
      (shown not to happen). *)
From Coq Require Import Ascii String List Arith NArith Bool.
Import ListNotations.
Open Scope nat_scope.

Notation byte := ascii.
(** ShapePoint of cppgtfs: lat, lng, travelDist. *)
Record pt := mkPt { pLat : list byte; pLng : list byte; pDist : list byte }.
(** flat::ShapePoint: id, seq and the same three. *)
Record row := mkRow { wId : string; wSeq : N; wPt : pt }.

(** [write(reinterpret_cast<const char*>(&n), sizeof(n))], [n] of type [size_t]. *)
Fixpoint encN (k : nat) (n : N) : list byte :=
  match k with 0 => [] | S k' => ascii_of_N (n mod 256) :: encN k' (n / 256) end.
(** The reverse, ShapeContainer.tpp:122. *)
Fixpoint decN (l : list byte) : N :=
  match l with [] => 0%N | b :: r => (N_of_ascii b + 256 * decN r)%N end.
Definition encPt (p : pt) : list byte := pLat p ++ pLng p ++ pDist p.

(** Container.  [cOut]: what is in the file; [cBuf]: the unread part of [_writeBuffer];
    [cPut]: [_writeBuffer.tellp()]; [cLast]: [_lastBuff]; [cGood]: [_storage.good()]. *)
Record cont := mkC { cIds : list string; cOut : list byte; cBuf : list byte; cPut : N; cLast : N; cGood : bool }.
(** ShapeContainer.tpp:10-21 *)
Definition newC : cont := mkC [] [] [] 0 0 true.
(** ShapeContainer.tpp:61-63 *)
Definition has (c : cont) (id : string) : bool := existsb (String.eqb id) (cIds c).
(** ShapeContainer.tpp:32-35 [add(const T&)]: only the id. *)
Definition addId (c : cont) (id : string) : cont :=
  mkC (if has c id then cIds c else id :: cIds c) (cOut c) (cBuf c) (cPut c) (cLast c) (cGood c).
(** ShapeContainer.tpp:39-42 *)
Definition remove (c : cont) (id : string) : cont :=
  mkC (filter (fun y => negb (String.eqb id y)) (cIds c)) (cOut c) (cBuf c) (cPut c) (cLast c) (cGood c).
(** [_storage << _writeBuffer.rdbuf()]: moves the unread part, if the file stream is good;
    the failbit is set if there is nothing to move. *)
Definition flushBuf (c : cont) : cont :=
  if cGood c then mkC (cIds c) (cOut c ++ cBuf c) [] (cPut c) (cLast c) (negb (match cBuf c with [] => true | _ => false end))
  else c.
(** The bytes of a shape, ShapeContainer.tpp:78-87. *)
Definition encShape (id : string) (ps : list pt) : list byte :=
  list_ascii_of_string id ++ [" "%char] ++ encN 8 (N.of_nat (length ps)) ++ flat_map encPt ps.
(** ShapeContainer.tpp:73-96 [add(const ad::cppgtfs::gtfs::Shape&)]. *)
Definition addShape (c : cont) (id : string) (ps : list pt) : cont :=
  if has c id then c
  else
    let b := encShape id ps in
    let c' := mkC (id :: cIds c) (cOut c) (cBuf c ++ b) (cPut c + N.of_nat (length b)) (cLast c) (cGood c) in
    if (1000 * 5000 <? cPut c' - cLast c')%N
    then flushBuf (mkC (cIds c') (cOut c') (cBuf c') (cPut c') (cPut c') (cGood c'))
    else c'.

(** Reading.  [rIn]: the rest of the file; [rPtr], [rMax], [rCur]: [_ptr], [_max],
    [_curId]; [rGood]: [_storage.good()]. *)
Record rd := mkRd { rIn : list byte; rPtr : N; rMax : N; rCur : string; rGood : bool }.
(** isspace in the C locale *)
Definition isSpace (b : byte) : bool :=
  let n := N_of_ascii b in ((n =? 32) || ((9 <=? n) && (n <=? 13)))%N.
Fixpoint skipWs (l : list byte) : list byte :=
  match l with [] => [] | b :: r => if isSpace b then skipWs r else l end.
Fixpoint word (l : list byte) : list byte * list byte :=
  match l with
  | [] => ([], [])
  | b :: r => if isSpace b then ([], l) else let '(w, r') := word r in (b :: w, r')
  end.
(** [_storage >> _curId]: nothing but white space left: failbit and eofbit, the string
    as before; the end of the file after the word: eofbit. *)
Definition readWord (r : rd) : rd :=
  if rGood r then
    match skipWs (rIn r) with
    | [] => mkRd [] (rPtr r) (rMax r) (rCur r) false
    | l => let '(w, rest) := word l in
           mkRd rest (rPtr r) (rMax r) (string_of_list_ascii w) (negb (match rest with [] => true | _ => false end))
    end
  else r.
(** [_storage.ignore()] *)
Definition ignore1 (r : rd) : rd :=
  if rGood r then
    match rIn r with
    | [] => mkRd [] (rPtr r) (rMax r) (rCur r) false
    | _ :: t => mkRd t (rPtr r) (rMax r) (rCur r) true
    end
  else r.
(** [_storage.read(p, k)]: the bytes, fewer if the file ends. *)
Definition readN (k : nat) (r : rd) : list byte * rd :=
  if rGood r then
    (firstn k (rIn r), mkRd (skipn k (rIn r)) (rPtr r) (rMax r) (rCur r) (k <=? length (rIn r)))
  else ([], r).
(** ShapeContainer.tpp:100-109 [open]. *)
Definition openC (c : cont) : cont * rd :=
  let c' := flushBuf c in (c', mkRd (cOut c') 0 0 (* of the last iteration, or "" *) "" true).

Section Reading.
Variable wa wb wd : nat.

(** ShapeContainer.tpp:113-145 [nextStoragePt]; [None] in the pair: returns false. *)
Fixpoint nextStoragePt (fuel : nat) (c : cont) (r : rd) : option (option row * rd) :=
  match fuel with
  | 0 => None
  | S f =>
      if negb (rGood r) then Some (None, r)
      else
        let r1 := if (rPtr r =? 0)%N
                  then let '(b, r') := readN 8 (ignore1 (readWord r)) in
                       (* a short read leaves part of [_max]; the stream is bad then *)
                       mkRd (rIn r') (rPtr r') (if rGood r' then decN b else rMax r') (rCur r') (rGood r')
                  else r in
        if negb (rGood r1) then Some (None, r1)
        else
          let '(la, r2) := readN wa r1 in
          let '(lo, r3) := readN wb r2 in
          let '(di, r4) := readN wd r3 in
          let x := mkRow (rCur r4) (rPtr r4 + 1) (mkPt la lo di) in
          let r5 := mkRd (rIn r4) (if (rPtr r4 + 1 =? rMax r4)%N then 0 else rPtr r4 + 1) (rMax r4) (rCur r4) (rGood r4) in
          if negb (rGood r5) then Some (None, r5)
          else if has c (wId x) then Some (Some x, r5) else nextStoragePt f c r5
  end.
(** Writer.cpp:638-640, the loop. *)
Fixpoint drain (fuel : nat) (c : cont) (r : rd) : option (list row * rd) :=
  match fuel with
  | 0 => None
  | S f =>
      match nextStoragePt fuel c r with
      | None => None
      | Some (None, r') => Some ([], r')
      | Some (Some x, r') =>
          match drain f c r' with
          | None => None
          | Some (xs, r'') => Some (x :: xs, r'')
          end
      end
  end.
(** [open] and the loop; afterwards the file stream is as the reading left it. *)
Definition iterate (c : cont) : option (list row * cont) :=
  let '(c', r) := openC c in
  match drain (S (length (rIn r))) c' r with
  | None => None
  | Some (xs, r') => Some (xs, mkC (cIds c') (cOut c') (cBuf c') (cPut c') (cLast c') (rGood r'))
  end.

(** Writer.cpp:621-634: the loop over the points of the input file; [cur]: [curShapeId],
    [skip]: [curSkipShapeId]. *)
Fixpoint copyRows (c : cont) (rows : list row) (cur skip : string) : list row :=
  match rows with
  | [] => []
  | sp :: r =>
      if String.eqb (wId sp) skip then copyRows c r cur skip
      else if String.eqb (wId sp) cur then sp :: copyRows c r cur skip
      else if has c (wId sp) then sp :: copyRows c r (wId sp) skip
      else copyRows c r cur (wId sp)
  end.
(** Writer.cpp:607-641 [writeShapes]; [old]: the rows of the input file, [None] if there is
    none.  Result: the rows written. *)
Definition writeShapes (c : cont) (old : option (list row)) : option (list row * cont) :=
  let copied := match old with Some rows => copyRows c rows "" "" | None => [] end in
  match iterate c with
  | None => None
  | Some (xs, c') => Some (copied ++ xs, c')
  end.
End Reading.

(** Calls of the container. *)
Inductive op :=
| OAdd (id : string) (ps : list pt)   (* add(const ad::cppgtfs::gtfs::Shape&) *)
| OReg (id : string)                  (* add(const T&) *)
| ORemove (id : string).
Definition apply (c : cont) (o : op) : cont :=
  match o with
  | OAdd id ps => addShape c id ps
  | OReg id => addId c id
  | ORemove id => remove c id
  end.
