(** Ideals in rings with named variables. *)
From Coq Require Import List Arith.
Import ListNotations.
From Verif Require Import M_Names.
(** A monomial as the function that gives the exponent of each variable.  It is in the ideal of the generators [snd J] over the
    variables [fst J] if one of them divides it. *)
Definition in_named (J : list str * list (list nat)) (m : str -> nat) : Prop :=
  exists g, In g (snd J) /\ forall i, i < length (fst J) -> nth i g 0 <= m (nth i (fst J) []).
(** Distinct names, and as many exponents as names *)
Definition good_named (J : list str * list (list nat)) : Prop := NoDup (fst J) /\ Forall (fun g => length g = length (fst J)) (snd J).
