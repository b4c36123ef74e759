(** Model of Arena.h and Arena.cpp on a machine where size_t and pointers have 64 bits, sizeof(long) = 8 and sizeof(Block) = 32. *)
From Coq Require Import List Arith Bool ZArith.
Import ListNotations.
Local Open Scope Z_scope.

(** Sizes and addresses wrap around at 2^64 *)
Definition word : Z := 2 ^ 64.
(** stdinc.h:99 MemoryAlignment *)
Definition alignment : Z := 8.
Definition sizeofBlock : Z := 32.
(** Arena.h:144-161 struct Block; the null pointer is 0 *)
Record block := mkBlock { bbegin : Z; bfree : Z; bend : Z; bprev : Z }.
(** The arena with the memory it lives in: what is at each address, and the buffers that new char[] returned and delete[] has not yet
    received, with their sizes.  [ticks] counts the calls of new.  A pointer is stored as a whole at the first of its eight addresses,
    with 0 at the others. *)
Record arena := mkArena { cur : block; heap : list (Z * Z); mem : Z -> Z; ticks : nat }.
(** A call returns, throws bad_alloc, which leaves the arena in some state, or does something undefined *)
Inductive outcome (A : Type) := Done (x : A) | Throws (a : arena) | Undef.
Arguments Done {A} x. Arguments Throws {A} a. Arguments Undef {A}.
Definition obind {A B} (r : outcome A) (f : A -> outcome B) : outcome B :=
  match r with Done x => f x | Throws a => Throws a | Undef => Undef end.

(** Writing a pointer *)
Definition writeWord (m : Z -> Z) (p v : Z) : Z -> Z := fun q => if q =? p then v else if (p <? q) && (q <? p + 8) then 0 else m q.
(** Writing and reading a Block.  It is undefined to do so outside the buffers that are allocated. *)
Definition accessible (a : arena) (p : Z) : bool := existsb (fun h => (fst h <=? p) && (p + sizeofBlock <=? fst h + snd h)) (heap a).
Definition writeBlock (m : Z -> Z) (p : Z) (b : block) : Z -> Z :=
  writeWord (writeWord (writeWord (writeWord m p (bbegin b)) (p + 8) (bfree b)) (p + 16) (bend b)) (p + 24) (bprev b).
Definition readBlock (a : arena) (p : Z) : outcome block :=
  if accessible a p then Done (mkBlock (mem a p) (mem a (p + 8)) (mem a (p + 16)) (mem a (p + 24))) else Undef.
(** delete[]: of a null pointer nothing; of anything else that is not an allocated buffer undefined *)
Definition delete (a : arena) (p : Z) : outcome arena :=
  if p =? 0 then Done a
  else if existsb (fun h => fst h =? p) (heap a) then Done (mkArena (cur a) (filter (fun h => negb (fst h =? p)) (heap a)) (mem a) (ticks a))
  else Undef.

(** Arena.cpp:26-27, 35-40 a new arena *)
Definition newArena (m : Z -> Z) : arena := mkArena (mkBlock 0 0 0 0) [] m 0.
(** Arena.h:150-154 *)
Definition getSize (b : block) : Z := (bend b - bbegin b) mod word.
Definition getFreeCapacity (b : block) : Z := (bend b - bfree b) mod word.
Definition blockIsEmpty (b : block) : bool := bbegin b =? bfree b.
Definition isNull (b : block) : bool := bbegin b =? 0.
Definition hasPreviousBlock (b : block) : bool := negb (bprev b =? 0).
(** Arena.h:117 isEmpty *)
Definition isEmpty (a : arena) : bool := negb (hasPreviousBlock (cur a)) && blockIsEmpty (cur a).
(** Arena.h:168-178 alignNoOverflow *)
Definition alignNoOverflow (value : Z) : Z := Z.land ((value + (alignment - 1)) mod word) (word - 1 - (alignment - 1)).
(** Arena.h:241-247 isInBlock *)
Definition isInBlock (b : block) (ptr : Z) : bool := (ptr - bbegin b) mod word <? getSize b.

Section New.
(** operator new char[]: the address of the buffer, or no value if it throws bad_alloc *)
Variable new : nat -> list (Z * Z) -> Z -> option Z.

(** Arena.cpp:42-69 growCapacity *)
Definition growCapacity (a : arena) (needed : Z) : outcome arena :=
  let size := Z.max needed (getSize (cur a)) in
  if size >? (word - 1) / 2 then Throws a
  else
    let size := Z.max (size * 2) (16 * 1024 - sizeofBlock - 16) in
    let size := Z.land size (word - 1 - (alignment - 1)) in
    if size >? word - 1 - sizeofBlock then Throws a
    else
      let b := cur a in
      let a' :=
        if isNull b then a
        else mkArena (mkBlock (bbegin b) (bfree b) (bend b) (bend b)) (heap a) (writeBlock (mem a) (bend b) b) (ticks a) in
      match new (ticks a') (heap a') (size + sizeofBlock) with
      | None => Throws (mkArena (cur a') (heap a') (mem a') (S (ticks a')))
      | Some buffer =>
          Done (mkArena (mkBlock buffer buffer (buffer + size) (bprev (cur a'))) ((buffer, size + sizeofBlock) :: heap a') (mem a') (S (ticks a')))
      end.
(** Arena.h:180-207 alloc *)
Definition takeTop (a : arena) (size : Z) : outcome (Z * arena) :=
  let b := cur a in
  Done (bfree b, mkArena (mkBlock (bbegin b) (bfree b + alignNoOverflow size) (bend b) (bprev b)) (heap a) (mem a) (ticks a)).
Definition alloc (a : arena) (size : Z) : outcome (Z * arena) :=
  let capacity := getFreeCapacity (cur a) in
  if (size - 1) mod word >=? capacity then
    if size =? 0 then
      if capacity >? 0 then takeTop a 1
      else obind (growCapacity a 1) (fun a => takeTop a 1)
    else obind (growCapacity a size) (fun a => takeTop a size)
  else takeTop a size.
End New.

(** Arena.cpp:98-103 discardPreviousBlock *)
Definition setPrev (a : arena) (p : Z) : arena :=
  mkArena (mkBlock (bbegin (cur a)) (bfree (cur a)) (bend (cur a)) p) (heap a) (mem a) (ticks a).
Definition discardPreviousBlock (a : arena) : outcome arena :=
  obind (readBlock a (bprev (cur a))) (fun previous =>
  obind (delete a (bbegin previous)) (fun a => Done (setPrev a (bprev previous)))).
(** Arena.cpp:76-79 and 92-95: the previous block's free memory begins at [ptr] from now on *)
Definition freeInPrevious (a : arena) (ptr : Z) : outcome arena :=
  obind (readBlock a (bprev (cur a))) (fun previous =>
  let a := mkArena (cur a) (heap a) (writeWord (mem a) (bprev (cur a) + 8) ptr) (ticks a) in
  if bbegin previous =? ptr then discardPreviousBlock a else Done a).
(** Arena.cpp:71-80 freeTopFromOldBlock *)
Definition freeTopFromOldBlock (a : arena) (ptr : Z) : outcome arena := freeInPrevious a ptr.
(** Setting _freeBegin of the current block *)
Definition setFree (a : arena) (ptr : Z) : arena :=
  mkArena (mkBlock (bbegin (cur a)) ptr (bend (cur a)) (bprev (cur a))) (heap a) (mem a) (ticks a).
(** Arena.h:209-222 freeTop *)
Definition freeTop (a : arena) (ptr : Z) : outcome arena :=
  if negb (blockIsEmpty (cur a)) then Done (setFree a ptr) else freeTopFromOldBlock a ptr.
(** Arena.cpp:87-90 the loop; each round deletes a buffer, so their number bounds the number of rounds *)
Fixpoint discardUntil (fuel : nat) (a : arena) (ptr : Z) : outcome arena :=
  obind (readBlock a (bprev (cur a))) (fun previous =>
  if isInBlock previous ptr then Done a
  else match fuel with O => Undef | S fuel' => obind (discardPreviousBlock a) (fun a => discardUntil fuel' a ptr) end).
(** Arena.cpp:82-96 freeAndAllAfterFromOldBlock *)
Definition freeAndAllAfterFromOldBlock (a : arena) (ptr : Z) : outcome arena :=
  obind (discardUntil (length (heap a)) (setFree a (bbegin (cur a))) ptr) (fun a => freeInPrevious a ptr).
(** Arena.h:224-239 freeAndAllAfter *)
Definition freeAndAllAfter (a : arena) (ptr : Z) : outcome arena :=
  if isInBlock (cur a) ptr then Done (setFree a ptr) else freeAndAllAfterFromOldBlock a ptr.
(** Arena.cpp:29-33 the destructor; the loop deletes a buffer in each round *)
Fixpoint discardAll (fuel : nat) (a : arena) : outcome arena :=
  if hasPreviousBlock (cur a) then
    match fuel with O => Undef | S fuel' => obind (discardPreviousBlock a) (discardAll fuel') end
  else Done a.
Definition destroy (a : arena) : outcome arena := obind (discardAll (length (heap a)) a) (fun a => delete a (bbegin (cur a))).

(** Arena.h:249-259 allocArrayNoCon; [size] is sizeof(T) *)
Definition allocArrayNoCon (new : nat -> list (Z * Z) -> Z -> option Z) (a : arena) (elementCount size : Z) : outcome (Z * Z * arena) :=
  if elementCount >? (word - 1) / size then Throws a
  else obind (alloc new a (elementCount * size)) (fun p => Done (fst p, fst p + elementCount * size, snd p)).
(** The owner of an allocation writes to it *)
Definition write (a : arena) (q v : Z) : arena := mkArena (cur a) (heap a) (fun r => if r =? q then v else mem a r) (ticks a).
