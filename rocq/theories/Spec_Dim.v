(** Specification of the dimension of a monomial ideal. *)
From Coq Require Import List Arith ZArith.
Import ListNotations.
From Verif Require Import Spec.

(** [V] is a set of variables such that no generator is a product of powers of variables in [V] only. *)
Definition independent_set (n : nat) (I : list mono) (V : list nat) : Prop :=
  NoDup V /\ (forall v, In v V -> v < n) /\
  forall g, In g I -> exists v, v < n /\ 0 < nth v g 0 /\ ~ In v V.

(** -1 if 1 is in the ideal, otherwise the largest size of an independent set. *)
Definition is_dimension (n : nat) (I : list mono) (d : Z) : Prop :=
  (in_ideal I (repeat 0 n) -> d = (-1)%Z) /\
  (~ in_ideal I (repeat 0 n) ->
     (exists V, independent_set n I V /\ d = Z.of_nat (length V)) /\
     (forall V, independent_set n I V -> (Z.of_nat (length V) <= d)%Z)).

(** The number of variables that occur in [c]. *)
Definition support_size (c : mono) : nat := length (filter (fun e => 0 <? e) c).
