(** What the action analyze should print. *)
From Coq Require Import String Ascii.
From Coq Require Import List Arith Bool ZArith.
Import ListNotations.
From Verif Require Import M_Names M_IO M_Cli M_Analyze.
From Verif Require Import Spec Spec_Api Spec_IO Spec_Scarf.
Local Notation length := List.length.

(** [l] is the least common multiple of the generators *)
Definition least_common_multiple (n : nat) (gens : list mono) (l : mono) : Prop :=
  length l = n /\ forall m, length m = n -> (divs l m <-> forall g, In g gens -> divs g m).
(** [k] is the largest exponent of the generators, 0 if there is none *)
Definition largest_exponent (gens : list mono) (k : nat) : Prop :=
  (forall g e, In g gens -> In e g -> e <= k) /\ (k = 0 \/ exists g, In g gens /\ In k g).

Definition requested (b : bool) (s : text) : text := if b then s ++ [nl] else [].
(** The lines that are asked for with options, in this order, and the short summary *)
Definition requested_text (o : analyze_options) (f : format) (names : list str) (l : mono) (count k : nat) (minimal : bool) : text :=
  requested (ao_lcm o) (fmt_writeTerm f names (znat l)) ++
  requested (ao_varCount o) (nat_str (length names)) ++
  requested (ao_genCount o) (nat_str count) ++
  requested (ao_maxExp o) (z_str (Z.of_nat k)) ++
  requested (ao_summary o =? 1) (nat_str count ++ lit " generators") ++
  requested (ao_summary o =? 1) (nat_str (length names) ++ lit " variables") ++
  requested (ao_minimal o) (if minimal then lit "1" else lit "0").
(** The long summary *)
Definition answer (b : bool) : text := if b then lit "yes" else lit "no".
Definition summary_text (n count : nat) (minimal strong weak : bool) : text :=
  requested true (lit "generators: " ++ nat_str count) ++
  requested true (lit "variables:  " ++ nat_str n) ++
  requested true (lit "minimally generated: " ++ answer minimal) ++
  requested true (lit "strongly generic: " ++ answer strong) ++
  requested true (lit "weakly generic: " ++ answer weak).
(** What the lines say about the generators *)
Record facts (n : nat) (gens : list mono) (l : mono) (k : nat) (minimal : bool) : Prop := {
  fa_lcm : least_common_multiple n gens l;
  fa_max : largest_exponent gens k;
  fa_minimal : minimal = true <-> lists_minimal_generators n gens gens }.
(** Whether the ideal, that is, its minimal generators are generic *)
Record genericity (n : nat) (gens : list mono) (strong weak : bool) : Prop := {
  ge_strong : forall M, lists_minimal_generators n gens M -> (strong = true <-> strongly_generic n M);
  ge_weak : forall M, lists_minimal_generators n gens M -> (weak = true <-> weakly_generic n M) }.
