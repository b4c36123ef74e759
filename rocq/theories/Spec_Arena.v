(** What the theorems about the arena allocator say. *)
From Coq Require Import List ZArith.
Import ListNotations.
From Verif Require Import M_Arena.
Local Open Scope Z_scope.

(** operator new returns addresses of aligned memory that is not in use, below the end of the address space; it may fail at any time *)
Definition good_new (new : nat -> list (Z * Z) -> Z -> option Z) : Prop := forall time used size p, new time used size = Some p ->
  0 < p /\ p + size < 2 ^ 64 /\ (8 | p) /\ Forall (fun h => p + size <= fst h \/ fst h + snd h <= p) used.
(** The states of an arena after calls that respect its rules, with the allocations that are live, latest first: allocating, freeing the
    latest allocation, freeing an allocation and all later ones, and writing inside a live allocation *)
Inductive history (new : nat -> list (Z * Z) -> Z -> option Z) : arena -> list (Z * Z) -> Prop :=
| h_new : forall m, history new (newArena m) []
| h_alloc : forall a live size p a', history new a live -> 0 <= size < 2 ^ 64 -> alloc new a size = Done (p, a') -> history new a' ((p, size) :: live)
| h_freeTop : forall a p size live a', history new a ((p, size) :: live) -> freeTop a p = Done a' -> history new a' live
| h_freeAfter : forall a later p size live a', history new a (later ++ (p, size) :: live) -> freeAndAllAfter a p = Done a' -> history new a' live
| h_write : forall a live p size q v, history new a live -> In (p, size) live -> p <= q < p + size -> history new (write a q v) live.
(** Different allocations do not overlap, and have different addresses even if they are empty *)
Definition apart (x y : Z * Z) : Prop := fst x + Z.max 1 (snd x) <= fst y \/ fst y + Z.max 1 (snd y) <= fst x.
(** Nothing inside the allocations has changed *)
Definition keeps (live : list (Z * Z)) (a a' : arena) : Prop :=
  forall p size q, In (p, size) live -> p <= q < p + size -> mem a' q = mem a q.
