(** What whole actions should do. *)
From Coq Require Import List Arith ZArith.
Import ListNotations.
From Verif Require Import M_Names.
(** A monomial, given as the exponents of all variables, is in the ideal of the generators [snd J] over the variables [fst J]. *)
Definition in_zideal (J : list str * list (list Z)) (m : str -> Z) : Prop :=
  exists g, In g (snd J) /\ forall i, i < length (fst J) -> (nth i g 0 <= m (nth i (fst J) []))%Z.
(** No generator divides another. *)
Definition no_redundant (J : list str * list (list Z)) : Prop :=
  forall i j, i < length (snd J) -> j < length (snd J) -> (forall v, v < length (fst J) -> (nth v (nth i (snd J) []) 0 <= nth v (nth j (snd J) []) 0)%Z) -> i = j.
