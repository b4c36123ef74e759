(** What an Euler characteristic is. *)
From Coq Require Import List Arith Bool ZArith.
Import ListNotations.

(** The subsets of a set of n elements, as characteristic vectors *)
Fixpoint vectors (n : nat) : list (list bool) :=
  match n with
  | O => [[]]
  | S k => map (cons false) (vectors k) ++ map (cons true) (vectors k)
  end.
(** Element v is in the set *)
Definition elem (F : list bool) (v : nat) : Prop := nth v F false = true.
Definition card (F : list bool) : nat := length (filter (fun b => b) F).
Definition sum_of {A} (f : A -> Z) (l : list A) : Z := fold_right (fun x s => (f x + s)%Z) 0%Z l.
Definition alt (k : nat) : Z := if Nat.even k then 1%Z else (-1)%Z.

(** The reduced Euler characteristic of a family of subsets of n elements: the sum over its members F of (-1)^(dim F),
    where dim F is one less than the number of elements of F. *)
Definition is_euler (n : nat) (face : list bool -> Prop) (chi : Z) : Prop :=
  exists f : list bool -> bool, (forall F, length F = n -> (f F = true <-> face F)) /\
  chi = sum_of (fun F => if f F then (- alt (card F))%Z else 0%Z) (vectors n).

(** The complex that belongs to a square free ideal: the sets whose complement is divisible by a generator, that is,
    that have no element in common with it. *)
Definition dual_face (gens : list (list bool)) (F : list bool) : Prop :=
  exists g, In g gens /\ forall v, elem F v -> ~ elem g v.
(** The complex that is generated by some sets *)
Definition spanned_face (facets : list (list bool)) (F : list bool) : Prop :=
  exists g, In g facets /\ forall v, elem F v -> elem g v.

(** What the action euler computes on: with -swap01 the generators are the facets. *)
Definition action_faces (swap01 : bool) (gens : list (list bool)) : list bool -> Prop :=
  if swap01 then spanned_face gens else dual_face gens.

(** Generators over n variables *)
Definition over (n : nat) (gens : list (list bool)) : Prop := Forall (fun g => length g = n) gens.
(** No generator divides another one *)
Definition minimal_gens (gens : list (list bool)) : Prop :=
  forall i j, i < length gens -> j < length gens -> i <> j ->
  ~ (forall v, elem (nth i gens []) v -> elem (nth j gens []) v).

(** The sublists of a list *)
Fixpoint sublists {A} (l : list A) : list (list A) :=
  match l with [] => [[]] | x :: r => sublists r ++ map (cons x) (sublists r) end.
(** The sum over the sets of generators whose least common multiple is the product of all variables, of -1 to the number
    of generators.  The empty set of generators is left out, it has this property if there are no variables. *)
Definition is_alternating_sum (n : nat) (gens : list (list bool)) (chi : Z) : Prop :=
  exists f : list (list bool) -> bool,
    (forall S, f S = true <-> S <> [] /\ forall v, v < n -> exists g, In g S /\ elem g v) /\
    chi = sum_of (fun S => if f S then alt (length S) else 0%Z) (sublists gens).
