(** What is asked about saturated binomial ideals.  A generator is a vector of [n] integers. *)
From Coq Require Import List Arith Bool ZArith.
Import ListNotations.
Local Open Scope Z_scope.
Local Notation length := List.length.
Notation coordinate v i := (nth i v 0%Z).

Definition vectors (n : nat) (gens : list (list Z)) : Prop := Forall (fun g => length g = n) gens.
(** The point is in the interior of the smallest body of the form x <= c that contains the origin and the [points]: each of its coordinates is
    less than that of the origin or of one of the points. *)
Definition in_interior (n : nat) (points : list (list Z)) (g : list Z) : Prop :=
  forall i, (i < n)%nat -> coordinate g i < 0 \/ exists p, In p points /\ coordinate g i < coordinate p i.
Definition point_free (n : nat) (gens points : list (list Z)) : Prop := forall g, In g gens -> ~ in_interior n points g.
(** No generator is in the interior, and each coordinate of one of the two but the first one is positive. *)
Definition interior (n : nat) (gens : list (list Z)) (a b : list Z) : Prop :=
  point_free n gens [a; b] /\ forall i, (1 <= i < n)%nat -> 0 < coordinate a i \/ 0 < coordinate b i.
Definition is_sum (n : nat) (a b s : list Z) : Prop := length s = n /\ forall i, (i < n)%nat -> coordinate s i = coordinate a i + coordinate b i.
(** The edges between the generators at two positions *)
Definition interior_edge (n : nat) (gens : list (list Z)) (from to : nat) : Prop :=
  exists a b s, nth_error gens from = Some a /\ nth_error gens to = Some b /\ is_sum n a b s /\ ~ interior n gens a a /\ ~ interior n gens b b /\ interior n gens b s.
Definition terminating_edge (n : nat) (gens : list (list Z)) (from to : nat) : Prop :=
  interior_edge n gens from to /\ forall a b s, nth_error gens from = Some a -> nth_error gens to = Some b -> is_sum n a b s -> point_free n gens [a; s].
Definition zero_entry (n : nat) (gens : list (list Z)) : Prop := exists g i, In g gens /\ (i < n)%nat /\ coordinate g i = 0.
(** A path with at least one edge *)
Inductive reaches (edge : nat -> nat -> Prop) : nat -> nat -> Prop :=
  | reach_step x y : edge x y -> reaches edge x y
  | reach_more x y z : edge x y -> reaches edge y z -> reaches edge x z.
Definition cyclic (edge : nat -> nat -> Prop) : Prop := exists x, reaches edge x x.
(** The number of natural numbers with a property *)
Definition number_of {A} (P : A -> Prop) (k : nat) : Prop := exists l, NoDup l /\ (forall x, In x l <-> P x) /\ length l = k.
(** The monomial of the positive entries *)
Definition initial_monomial (g : list Z) : list nat := map Z.to_nat g.
(** The generators at two positions and the sum of them make two triangles that share the edge to the sum. *)
Definition double_triangle (n : nat) (gens : list (list Z)) (p : nat * nat) : Prop :=
  (fst p < snd p)%nat /\
  exists a b s, nth_error gens (fst p) = Some a /\ nth_error gens (snd p) = Some b /\ is_sum n a b s /\ point_free n gens [a; s] /\ point_free n gens [b; s].
