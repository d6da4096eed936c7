(** Model of the disk-backed OSM id set.
    Source: /repo/src/pfaedle/osm/OsmIdSet.cpp and OsmIdSet.h (whole class).

    Simplifications (all definitions in this file):
    - byte offsets are counted in ids (the code only ever moves in steps of
      8 bytes and both buffer sizes are multiples of 8, OsmIdSet.h:23-26);
    - temporary files are lists of ids; [write]/[read] transfer everything that
      is asked for or available (no short transfers, no I/O errors, which the
      code turns into exceptions, OsmIdSet.cpp:271-288);
    - MurmurHash3 (3rd party, not in the repository) is the parameter [murmur];
    - undefined behaviour (reads outside a loaded buffer, binary search over an
      unsorted range) and a violated assert are the outcome [None]. *)
From Coq Require Import List Arith NArith ZArith Bool Lia.
Import ListNotations.

(** 2^64-1, the initial value of [_smallest] (OsmIdSet.cpp:30: [_smallest(-1)]). *)
Definition u64max : N := (2 ^ 64 - 1)%N.

(** OsmIdSet.h:28 [BLOOMF_BITS]. *)
Definition bloomBits : N := 214748357%N.

Definition u32 (x : N) : N := (x mod 2 ^ 32)%N.

(** OsmIdSet.cpp:297-305 [jenkins]; the argument is truncated to 32 bit. *)
Definition jenkins (id : N) : N :=
  let i0 := u32 id in
  let i1 := u32 (i0 + 0x7ed55d16 + N.shiftl i0 12) in
  let i2 := N.lxor (N.lxor i1 0xc761c23c) (N.shiftr i1 19) in
  let i3 := u32 (i2 + 0x165667b1 + N.shiftl i2 5) in
  let i4 := N.lxor (u32 (i3 + 0xd3a2646c)) (u32 (N.shiftl i3 9)) in
  let i5 := u32 (i4 + 0xfd7046c5 + N.shiftl i4 3) in
  let i6 := N.lxor (N.lxor i5 0xb55a4f09) (N.shiftr i5 16) in
  N.shiftr i6 2.

(** ** Sorting primitives *)

(** OsmIdSet.h:90-96 [qsortCmp], OsmIdSet.cpp:213 [qsort].  The elements are
    plain integers, so every correct sorting routine produces the same bytes;
    insertion sort stands for the C library's [qsort]. *)
Fixpoint insert (x : N) (l : list N) : list N :=
  match l with
  | [] => [x]
  | y :: t => if (x <=? y)%N then x :: y :: t else y :: insert x t
  end.
Fixpoint isort (l : list N) : list N :=
  match l with
  | [] => []
  | x :: t => insert x (isort t)
  end.

(** Is a range ascending?  Used as the precondition of the binary searches of
    the standard library. *)
Fixpoint sortedb (l : list N) : bool :=
  match l with
  | [] => true
  | x :: t => match t with
              | [] => true
              | y :: _ => (x <=? y)%N && sortedb t
              end
  end.

(** [std::lower_bound]: index of the first element that is not < id.  On a range
    that is not sorted the result is not specified: [None]. *)
Fixpoint lowerIdx (l : list N) (id : N) : nat :=
  match l with
  | [] => 0
  | x :: t => if (x <? id)%N then S (lowerIdx t id) else 0
  end.
Definition lower_bound (l : list N) (id : N) : option nat :=
  if sortedb l then Some (lowerIdx l id) else None.

(** [std::upper_bound]: index of the first element > id. *)
Fixpoint upperIdx (l : list N) (id : N) : nat :=
  match l with
  | [] => 0
  | x :: t => if (x <=? id)%N then S (upperIdx t id) else 0
  end.
Definition upper_bound (l : list N) (id : N) : option nat :=
  if sortedb l then Some (upperIdx l id) else None.

(** ** The object *)

(** OsmIdSet.h:52-76: the members of the class.  [obuf] is the filled part of
    [_outBuffer] (its length is [_obufpos]/8), [file] the content of [_file]
    (its length is [_fsize]/8), [bits]/[nbits] the set bit positions of
    [_bitset]/[_bitsetNotIn], [curBlock = None] is the initial [_curBlock(-1)],
    [curBuf] the valid part of [_buffer] ([_curBlockSize]/8 ids). *)
Record idset := mkIdset {
  closed : bool;
  sorted : bool;
  last : N;
  smallest : N;
  biggest : N;
  hasInv : bool;
  obuf : list N;
  curBlock : option nat;
  curBuf : list N;
  bits : list N;
  nbits : list N;
  blockEnds : list N;
  file : list N
}.

(** OsmIdSet.cpp:26-42 constructor. *)
Definition initSet : idset :=
  mkIdset false true 0 u64max 0 false [] None [] [] [] [] [].

Section Params.
(** Number of ids per block (OsmIdSet.h:24 BUFFER_S/8) and per sort buffer
    (OsmIdSet.h:25 SORT_BUFFER_S/8).  Both are 65536 in the code; the theorems
    hold for every positive size. *)
Variable B : nat.
Variable S_ : nat.
Variable murmur : N -> N.

(** OsmIdSet.cpp:62-65, 83-86, 166-167: the i-th bit position of an id. *)
Definition hpos (id : N) (i : nat) : N :=
  (u32 (murmur id + N.of_nat i * jenkins id) mod bloomBits)%N.
Definition hposs (id : N) : list N := map (hpos id) (seq 0 5).

Definition memN (x : N) (l : list N) : bool := existsb (N.eqb x) l.

(** OsmIdSet.cpp:90-105 [diskAdd]. *)
Definition diskAdd (s : idset) (id : N) : idset :=
  let ob := obuf s ++ [id] in
  let be := if length ob mod B =? 0 then blockEnds s ++ [id] else blockEnds s in
  let '(fl, ob') := if B <=? length ob then (file s ++ ob, []) else (file s, ob) in
  mkIdset (closed s) (sorted s) (last s) (smallest s) (biggest s) (hasInv s)
          ob' (curBlock s) (curBuf s) (bits s) (nbits s) be fl.

(** OsmIdSet.cpp:69-87 [add]; [None] is the thrown exception (line 70). *)
Definition add (s0 : idset) (id : N) : option idset :=
  if closed s0 then None else
  let s := diskAdd s0 id in
  Some (mkIdset (closed s)
          (if (id <? last s)%N then false else sorted s)
          id
          (if (id <? smallest s)%N then id else smallest s)
          (if (biggest s <? id)%N then id else biggest s)
          (hasInv s) (obuf s) (curBlock s) (curBuf s)
          (hposs id ++ bits s) (nbits s) (blockEnds s) (file s)).

(** OsmIdSet.cpp:53-66 [nadd]; [None] is the thrown exception (line 54). *)
Definition nadd (s : idset) (id : N) : option idset :=
  if closed s then None else
  Some (mkIdset (closed s) (sorted s) (last s) (smallest s) (biggest s) true
          (obuf s) (curBlock s) (curBuf s)
          (bits s) (hposs id ++ nbits s) (blockEnds s) (file s)).

(** ** External merge sort, OsmIdSet.cpp:193-268 *)

(** One file part: loaded buffer [partbufs[j]], [partpos[j]], [partsize[j]]
    (OsmIdSet.cpp:200-203). *)
Record part := mkPart { pbuf : list N; ppos : nat; psize : nat }.

Definition readAt (f : list N) (off n : nat) : list N := firstn n (skipn off f).
Definition writeAt (f : list N) (off : nat) (b : list N) : list N :=
  firstn off f ++ b ++ skipn (off + length b) f.

(** OsmIdSet.cpp:206-219: sort part [i] in place and load its first ids. *)
Definition sortPart (P : nat) (i : nat) (f : list N) : list N * part :=
  let buf := isort (readAt f (S_ * i) S_) in
  (writeAt f (S_ * i) buf, mkPart (firstn P buf) 0 (length buf)).

Fixpoint sortParts (P : nat) (i n : nat) (f : list N) : list N * list part :=
  match n with
  | 0 => (f, [])
  | S n' => let '(f1, p) := sortPart P i f in
            let '(f2, ps) := sortParts P (S i) n' f1 in
            (f2, p :: ps)
  end.

(** OsmIdSet.cpp:230-238: find the smallest head; [acc] holds [smallest] and
    [smallestP] ([None] = -1).  Reading outside the loaded buffer is [None]. *)
Fixpoint findSmallest (P : nat) (j : nat) (ps : list part)
    (acc : N * option nat) : option (N * option nat) :=
  match ps with
  | [] => Some acc
  | p :: t =>
      if ppos p =? psize p then findSmallest P (S j) t acc
      else match nth_error (pbuf p) (ppos p mod P) with
           | None => None
           | Some v => findSmallest P (S j) t
                         (if (v <=? fst acc)%N then (v, Some j) else acc)
           end
  end.

(** OsmIdSet.cpp:251-256: advance part [k] and refill its buffer from the file.
    [cread] leaves the tail of the old buffer in place. *)
Definition advance (P : nat) (f : list N) (k : nat) (p : part) : part :=
  let pos := S (ppos p) in
  if pos mod P =? 0 then
    let r := readAt f (S_ * k + pos) P in
    mkPart (r ++ skipn (length r) (pbuf p)) pos (psize p)
  else mkPart (pbuf p) pos (psize p).

Fixpoint updNth {A} (k : nat) (g : A -> A) (l : list A) : list A :=
  match l, k with
  | [], _ => []
  | x :: t, 0 => g x :: t
  | x :: t, S k' => x :: updNth k' g t
  end.

(** OsmIdSet.cpp:224-257: the merge loop, position [i] counted in ids, [n] = ids
    still to write.  [buf] collects the ids not yet written to the new file
    [out]; it is written when full or at the end (246-249). *)
Fixpoint mergeLoop (P : nat) (f : list N) (fsize i n : nat) (ps : list part)
    (buf out ends : list N) : option (list N * list N) :=
  match n with
  | 0 => Some (out, ends)
  | S n' =>
      match findSmallest P 0 ps (u64max, None) with
      | None => None
      | Some (_, None) => None            (* assert(smallestP > -1), line 240 *)
      | Some (v, Some k) =>
          let buf1 := buf ++ [v] in
          let ends1 := if (i + 1) mod B =? 0 then ends ++ [v] else ends in
          let fl := (i mod S_ =? S_ - 1) || (i =? fsize - 1) in
          let '(buf2, out2) := if fl then ([], out ++ buf1) else (buf1, out) in
          mergeLoop P f fsize (S i) n' (updNth k (advance P f k) ps)
                    buf2 out2 ends1
      end
  end.

(** OsmIdSet.cpp:193-268 [sort]. *)
Definition sortFile (s : idset) : option idset :=
  let fsize := length (file s) in
  let parts := fsize / S_ + 1 in
  let P := S_ / parts + 1 in
  let '(f1, ps) := sortParts P 0 parts (file s) in
  match mergeLoop P f1 fsize 0 fsize ps [] [] [] with
  | None => None
  | Some (out, ends) =>
      Some (mkIdset (closed s) true (last s) (smallest s) (biggest s) (hasInv s)
              (obuf s) (curBlock s) (curBuf s) (bits s) (nbits s) ends out)
  end.

(** OsmIdSet.cpp:181-190 [close]. *)
Definition closeSet (s : idset) : option idset :=
  let s1 := mkIdset true (sorted s) (last s) (smallest s) (biggest s) (hasInv s)
              [] (curBlock s) (curBuf s) (bits s) (nbits s)
              (blockEnds s ++ [biggest s]) (file s ++ obuf s) in
  if sorted s1 then Some s1 else sortFile s1.

(** OsmIdSet.cpp:136-149: binary search in the loaded block; [l],[r] in ids
    ([r] may become -1).  [None]: out of fuel or read outside the block. *)
Fixpoint bsearch (fuel : nat) (buf : list N) (id : N) (l r : Z) : option bool :=
  match fuel with
  | 0 => None
  | S fuel' =>
      if (l <=? r)%Z then
        let p := (l + (r - l) / 2)%Z in
        match nth_error buf (Z.to_nat p) with
        | None => None
        | Some cur =>
            if (cur =? id)%N then Some true
            else if (cur <? id)%N then bsearch fuel' buf id (p + 1)%Z r
            else bsearch fuel' buf id l (p - 1)%Z
        end
      else Some false
  end.

(** OsmIdSet.cpp:108-150 [getBlock], [diskHas]. *)
Definition diskHas (s : idset) (id : N) : option (bool * idset) :=
  if negb (sorted s) then None else        (* assert(_sorted), line 115 *)
  match lower_bound (blockEnds s) id with
  | None => None
  | Some a =>
      if match nth_error (blockEnds s) a with
         | Some e => (e =? id)%N
         | None => false
         end
      then Some (true, s)
      else
      match upper_bound (blockEnds s) id with
      | None => None
      | Some block =>
          let s1 :=
            if match curBlock s with Some b => b =? block | None => false end
            then s
            else mkIdset (closed s) (sorted s) (last s) (smallest s) (biggest s)
                   (hasInv s) (obuf s) (Some block)
                   (readAt (file s) (block * B) B)
                   (bits s) (nbits s) (blockEnds s) (file s) in
          match curBuf s1 with
          | [] => Some (false, s1)
          | x :: _ =>
              if (id <? x)%N then Some (false, s1) else
              match bsearch (length (curBuf s1) + 1) (curBuf s1) id 0
                            (Z.of_nat (length (curBuf s1)) - 1) with
              | None => None
              | Some b => Some (b, s1)
              end
          end
      end
  end.

(** OsmIdSet.cpp:166-174: the bloom filter loop; [None] = undecided. *)
Fixpoint bloomLoop (s : idset) (hs : list N) : option bool :=
  match hs with
  | [] => None
  | h :: t =>
      if negb (memN h (bits s)) then Some false
      else if hasInv s && negb (memN h (nbits s)) then Some true
      else bloomLoop s t
  end.

(** OsmIdSet.cpp:153-178 [has]. *)
Definition has (s0 : idset) (id : N) : option (bool * idset) :=
  match (if closed s0 then Some s0 else closeSet s0) with
  | None => None
  | Some s =>
      if (id <? smallest s)%N || (biggest s <? id)%N then Some (false, s)
      else match bloomLoop s (hposs id) with
           | Some b => Some (b, s)
           | None => diskHas s id
           end
  end.

(** ** Calls made by a client and what it observes *)
Inductive op := OpAdd (id : N) | OpNadd (id : N) | OpHas (id : N).
Inductive outcome := Done | Thrown | Answer (b : bool).

(** [None]: undefined behaviour or failed assertion. *)
Definition step (s : idset) (o : op) : option (idset * outcome) :=
  match o with
  | OpAdd id => match add s id with
                | Some s' => Some (s', Done)
                | None => Some (s, Thrown)
                end
  | OpNadd id => match nadd s id with
                 | Some s' => Some (s', Done)
                 | None => Some (s, Thrown)
                 end
  | OpHas id => match has s id with
                | Some (b, s') => Some (s', Answer b)
                | None => None
                end
  end.

Fixpoint run (s : idset) (ops : list op) : option (idset * list outcome) :=
  match ops with
  | [] => Some (s, [])
  | o :: t =>
      match step s o with
      | None => None
      | Some (s1, r) =>
          match run s1 t with
          | None => None
          | Some (s2, rs) => Some (s2, r :: rs)
          end
      end
  end.
End Params.
