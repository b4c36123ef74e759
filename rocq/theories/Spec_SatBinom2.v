(** Files with saturated binomial ideals *)
From Coq Require Import String Ascii.
From Coq Require Import List Arith Bool ZArith.
Import ListNotations.
From Verif Require Import M_Names M_IO Spec_IO.
From Verif Require Import Spec Spec_Frob Spec_Lattice.
Local Notation length := List.length.

(** The numbers of generators and of variables and the entries, generator by generator, each followed by white space.  Then there can be the names
    of the variables, with spaces between them; without names, they are x1, x2 and so on. *)
Definition ideal_numbers (n : nat) (gens : list (list Z)) (t : text) : Prop := number_text (Z.of_nat (length gens) :: Z.of_nat n :: concat gens) t.
Definition sat_binom_file (names : list str) (gens : list (list Z)) (file : text) : Prop :=
  exists t, ideal_numbers (length names) gens t /\
    (names = map (fun i => "x"%char :: nat_str i) (seq 1 (length names)) /\ file = t \/
     names <> [] /\ exists w, Forall (fun c => nat_of_ascii c = 32 \/ 9 <= nat_of_ascii c <= 13) w /\ file = t ++ sep_names (lit " ") names ++ w).
