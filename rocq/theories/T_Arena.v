(** C42, C59, C60: the arena allocator. *)
From Coq Require Import List Arith Bool ZArith Lia.
Import ListNotations.
From Verif Require Import M_Arena Spec_Arena P_Arena4.
Local Open Scope Z_scope.

(** C42: after any history of calls in stack order, with any operator new, the live allocations do not overlap, are aligned, not null and
    inside memory that operator new has given; allocating, freeing in stack order and destroying the arena is always defined, changes
    nothing inside the allocations that stay live, and destroying returns all memory. *)
Theorem C42_arena : forall new, good_new new -> forall (a : arena) (live : list (Z * Z)), history new a live ->
  ForallOrdPairs apart live /\
  Forall (fun x => 0 < fst x /\ (8 | fst x) /\ exists h, In h (heap a) /\ fst h <= fst x /\ fst x + snd x <= fst h + snd h) live /\
  (forall size, 0 <= size < 2 ^ 64 -> match alloc new a size with Done (_, a') => keeps live a a' | Throws a' => keeps live a a' | Undef => False end) /\
  (forall p n rest, live = (p, n) :: rest -> exists a', freeTop a p = Done a' /\ keeps rest a a') /\
  (forall later p n rest, live = later ++ (p, n) :: rest -> exists a', freeAndAllAfter a p = Done a' /\ keeps rest a a') /\
  (exists a', destroy a = Done a' /\ heap a' = []).
Proof. exact arena_safe. Qed.
Print Assumptions C42_arena.
(** Arrays: the size in bytes is not truncated *)
Theorem C42_arrays : forall new (a : arena) (count size : Z), 0 <= count < 2 ^ 64 -> 1 <= size ->
  match allocArrayNoCon new a count size with
  | Done (p, q, a') => 0 <= count * size < 2 ^ 64 /\ alloc new a (count * size) = Done (p, a') /\ q = p + count * size
  | Throws a' => (2 ^ 64 <= count * size /\ a' = a) \/ alloc new a (count * size) = Throws a'
  | Undef => alloc new a (count * size) = Undef
  end.
Proof. exact array_alloc. Qed.
Print Assumptions C42_arrays.
(** three allocations, the first in one block and the others in a second one *)
Definition x1 : Z * arena := afterAlloc (bump 5) fresh 10.
Definition x2 : Z * arena := afterAlloc (bump 5) (snd x1) 100000.
Definition x3 : Z * arena := afterAlloc (bump 5) (snd x2) 0.
Example C42_example : good_new (bump 5) /\ history (bump 5) (write (snd x3) (fst x1 + 9) 77) [(fst x3, 0); (fst x2, 100000); (fst x1, 10)] /\
  map (fun x => fst x) [x3; x2; x1] = [8590034592; 8589934592; 4294967296] /\
  match freeAndAllAfter (write (snd x3) (fst x1 + 9) 77) (fst x2) with Done a' => mem a' (fst x1 + 9) | _ => 0 end = 77.
Proof.
  split; [apply bump_good|]. split; [|split; vm_compute; reflexivity].
  apply (h_write _ _ _ (fst x1) 10); [|right; right; left; reflexivity | lia].
  apply (h_alloc _ (snd x2)); [|lia | apply after_alloc; vm_compute; reflexivity].
  apply (h_alloc _ (snd x1)); [|lia | apply after_alloc; vm_compute; reflexivity].
  apply (h_alloc _ fresh); [exact (h_new _ (fun _ => 0)) | lia | apply after_alloc; vm_compute; reflexivity].
Qed.

(** C59, partial: an arena that says that it is empty has no live allocations.  Missing: the converse, which is false. *)
Theorem C59_empty_partial : forall new, good_new new -> forall a live, history new a live -> isEmpty a = true -> live = [].
Proof. exact empty_sound. Qed.
Print Assumptions C59_empty_partial.
Theorem C59_refuted : exists new a, good_new new /\ history new a [] /\ isEmpty a = false.
Proof. exact empty_refuted. Qed.
Print Assumptions C59_refuted.
Example C59_example : history (bump 5) e2 [] /\ isEmpty e2 = true /\ heap e2 <> [].
Proof. split; [exact e2_history|]. split; [vm_compute; reflexivity|]. vm_compute. discriminate. Qed.

(** C60, partial: if alloc throws, nothing is allocated or changed inside the live allocations, and an arena that has no block yet is
    as before.  Missing: otherwise the current block is linked to a copy of itself, and destroying the arena frees it twice. *)
Theorem C60_bad_alloc_partial : forall new, good_new new -> forall a live size a', history new a live -> 0 <= size < 2 ^ 64 -> alloc new a size = Throws a' ->
  heap a' = heap a /\ keeps live a a' /\ (bbegin (cur a) = 0 -> mem a' = mem a /\ cur a' = cur a).
Proof. exact bad_alloc_sound. Qed.
Print Assumptions C60_bad_alloc_partial.
Theorem C60_refuted : exists new a live size a', good_new new /\ history new a live /\ 0 <= size < 2 ^ 64 /\ alloc new a size = Throws a' /\ destroy a' = Undef.
Proof. exact bad_alloc_refuted. Qed.
Print Assumptions C60_refuted.
Example C60_example : code (alloc (bump 0) fresh 10) = 1%nat /\ code (alloc (bump 5) fresh (2 ^ 64 - 1)) = 1%nat.
Proof. split; vm_compute; reflexivity. Qed.
