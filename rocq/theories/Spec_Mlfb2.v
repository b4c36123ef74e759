(** What is asked about the edges between maximal lattice free bodies. *)
From Coq Require Import List Arith ZArith.
Import ListNotations.
From Verif Require Import Spec_SatBinom Spec_Mlfb.
Local Open Scope Z_scope.
Local Notation length := List.length.

(** For every sum of two neighbors there is a neighbor that is in the same bodies, if their facets are at positive numbers.  This is so if the list is
    the list of all neighbors of a lattice on one side of the origin. *)
Definition closed (n : nat) (gens : list (list Z)) : Prop :=
  forall a b s, In a gens -> In b gens -> is_sum n a b s -> exists g, In g gens /\ forall i, (i < n)%nat -> coordinate g i <= Z.max 0 (coordinate s i).
(** The vector is zero, a neighbor or the opposite of one *)
Definition translation (n : nat) (gens : list (list Z)) (t : list Z) : Prop := t = repeat 0 n \/ In t gens \/ exists g, In g gens /\ t = map Z.opp g.
(** The body with the points [points] is left through the facet [i], on which there is the point [i]: after a translation the other points are in
    the body [c], the point [i] is not, and the point [hit] is on the facet [i]. *)
Definition next_body (n : nat) (gens : list (list Z)) (points : list (list Z)) (i hit : nat) (c : list Z) : Prop :=
  (hit < n)%nat /\ hit <> i /\
  exists t, translation n gens t /\
    (forall j k, (j < n)%nat -> j <> i -> (k < n)%nat -> coordinate (nth j points []) k + coordinate t k <= coordinate c k) /\
    (exists k, (k < n)%nat /\ coordinate c k < coordinate (nth i points []) k + coordinate t k) /\
    coordinate (nth hit points []) i + coordinate t i = coordinate c i.
