(** Specification of generic monomial ideals. *)
From Coq Require Import List Arith Bool ZArith Permutation.
Import ListNotations.
From Verif Require Import Spec Spec_Slice.

Definition pair_lcm (a b : mono) : mono := map (fun p => Nat.max (fst p) (snd p)) (combine a b).
(** No variable has the same positive exponent in two generators. *)
Definition strongly_generic (n : nat) (I : list mono) : Prop :=
  forall a b v, In a I -> In b I -> a <> b -> v < n -> nth v a 0 = nth v b 0 -> nth v a 0 = 0.
(** If a variable has the same positive exponent in two generators, then some generator strictly divides their lcm. *)
Definition weakly_generic (n : nat) (I : list mono) : Prop :=
  forall a b v, In a I -> In b I -> a <> b -> v < n -> nth v a 0 = nth v b 0 -> 0 < nth v a 0 ->
  exists g, In g I /\ strictly_divides g (pair_lcm a b).

(** The lcm of a list of monomials in [n] variables *)
Definition lcm_list (n : nat) (l : list mono) : mono := fold_right pair_lcm (repeat 0 n) l.
(** The generators at some positions of a list *)
Definition at_positions (I : list mono) (ps : list nat) : list mono := map (fun i => nth i I []) ps.
(** [D] is a deformation of [I], generator by generator, that [undo] takes back: it keeps the positive exponents
    positive and the strict order of the exponents of each variable, and the lcm of any deformed generators is taken
    back to the lcm of the generators they came from. *)
Record deformation (n : nat) (I D : list mono) (undo : mono -> option mono) : Prop := {
  df_length : length D = length I;
  df_ring : in_ring n D;
  df_zero : forall i v, i < length I -> v < n -> (nth v (nth i D []) 0 = 0 <-> nth v (nth i I []) 0 = 0);
  df_order : forall i j v, i < length I -> j < length I -> v < n ->
    nth v (nth i I []) 0 < nth v (nth j I []) 0 -> nth v (nth i D []) 0 < nth v (nth j D []) 0;
  df_lcm : forall ps, Forall (fun i => i < length I) ps -> undo (lcm_list n (at_positions D ps)) = Some (lcm_list n (at_positions I ps)) }.

(** The positive exponents of each variable are 1, 2, ..., without a gap. *)
Definition gap_free (n : nat) (I : list mono) : Prop :=
  forall g v e, In g I -> v < n -> 0 < e < nth v g 0 -> exists h, In h I /\ nth v h 0 = e.
(** The redundant generators have no positive exponents that the minimal generators do not have. *)
Definition exponents_of_minimal_generators (n : nat) (I : list mono) : Prop :=
  forall g v, In g I -> v < n -> 0 < nth v g 0 -> exists h, minimal_generator n I h /\ nth v h 0 = nth v g 0.
