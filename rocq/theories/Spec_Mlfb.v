(** What is asked about lattices with neighbors and their maximal lattice free bodies.  A neighbor is a vector of [n] integers. *)
From Coq Require Import List Arith Bool ZArith QArith Qcanon.
Import ListNotations.
From Verif Require Import M_Matrix Spec_Matrix Spec_SatBinom.
Local Open Scope Z_scope.
Local Notation length := List.length.

Definition rational (v : list Z) : nat -> Qc := fun i => Q2Qc (inject_Z (coordinate v i)).
(** The neighbor at this position is the sum of those at two other positions. *)
Definition sum_of_two (n : nat) (gens : list (list Z)) (k : nat) : Prop :=
  exists i j a b s, i <> j /\ nth_error gens i = Some a /\ nth_error gens j = Some b /\ nth_error gens k = Some s /\ is_sum n a b s.
(** Among the positions with a property the first of those with the least value *)
Definition first_least (count : nat) (P : nat -> Prop) (value : nat -> Z) (r : option nat) : Prop :=
  match r with
  | None => forall k, (k < count)%nat -> ~ P k
  | Some k => (k < count)%nat /\ P k /\ (forall j, (j < count)%nat -> P j -> value k <= value j) /\ forall j, (j < k)%nat -> P j -> value k < value j
  end.
(** The body of the points x with x_i <= c_i for all [i]; [points] are the origin and the neighbors.  It contains the point [p] on the facet [i]
    and on no other one. *)
Definition on_facet_only (n : nat) (c p : list Z) (i : nat) : Prop :=
  coordinate p i = coordinate c i /\ forall j, (j < n)%nat -> j <> i -> coordinate p j < coordinate c j.
(** The body cannot be made larger: the origin is on its facet 0 only, a neighbor is on each other facet only, and no neighbor is in the
    interior. *)
Definition maximal_free (n : nat) (gens : list (list Z)) (c : list Z) : Prop :=
  length c = n /\ on_facet_only n c (repeat 0 n) 0 /\
  (forall i, (1 <= i < n)%nat -> exists g, In g gens /\ on_facet_only n c g i) /\
  (forall g, In g gens -> exists i, (i < n)%nat /\ coordinate c i <= coordinate g i).
(** The neighbors are on one side of the origin, each has a positive coordinate, and some are positive in one coordinate only, for each of the
    coordinates but the first. *)
Definition one_sided (n : nat) (gens : list (list Z)) : Prop :=
  gens <> [] /\ (forall g, In g gens -> coordinate g 0 < 0 /\ exists i, (1 <= i < n)%nat /\ 0 < coordinate g i) /\
  forall i, (1 <= i < n)%nat -> exists g, In g gens /\ forall j, (j < n)%nat -> j <> i -> coordinate g j <= 0.
(** The point of a body: the origin or the neighbor in a row *)
Definition point_of (n : nat) (gens : list (list Z)) (p : option nat) : list Z := match p with None => repeat 0 n | Some row => nth row gens [] end.
