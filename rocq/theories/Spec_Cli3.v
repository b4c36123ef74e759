(** What the action that computes Hilbert-Poincare series should print, and the names of the strategies. *)
From Coq Require Import String Ascii.
From Coq Require Import List Arith Bool ZArith Sorted Permutation.
Import ListNotations.
From Verif Require Import M_Term M_Names M_IO M_Poly M_IOPoly Spec_IO Spec_Names Spec_Poly Spec_IOPoly Spec_Slice M_Cli3.
From Verif Require Import Spec Spec_Api Spec_Scarf.

(** ** Names that may be abbreviated *)
(** [p] is the name [x], or a prefix of [x] and of no other name *)
Definition abbreviates (names : list str) (p x : str) : Prop :=
  In x names /\ (p = x \/ (prefix_of p x /\ forall y, In y names -> prefix_of p y -> y = x)).
Definition split_names : list str := map lit ["maxlabel"; "minlabel"; "varlabel"; "minimum"; "median"; "maximum"; "mingen"; "indep"; "gcd"; "degree"; "frob"]%string.
Definition label_names : list str := map lit ["maxlabel"; "minlabel"; "varlabel"]%string.
Definition degree_names : list str := map lit ["degree"; "frob"]%string.
Definition pivot_names : list str :=
  map lit ["median"; "typicalPure"; "typicalNGPure"; "mostNGPure"; "someNGPure"; "typicalGcd"; "typicalNGGcd"; "mostNGGcd"; "someNGGcd";
           "typicalTight"; "typicalNGTight"; "mostNGTight"; "someNGTight"]%string.
Definition order_names : list str :=
  map lit ["random"; "null"; "lex"; "revlex"; "tdeg"; "median"; "posMedian"; "minPos"; "max"; "support"; "strongGenericity"; "weakGenericity"]%string.
(** An order: parts between underscores, each one a name, or "rev" and a name *)
Fixpoint underscored (p : str) (ps : list str) : str := match ps with [] => p | q :: ps' => p ++ "_"%char :: underscored q ps' end.
Definition is_order_part (p : str) : Prop :=
  exists q x, abbreviates order_names q x /\ (p = lit "rev" ++ q \/ (p = q /\ ~ prefix_of (lit "rev") p)).
Definition is_order (name : str) : Prop :=
  exists p ps, name = underscored p ps /\ Forall (fun q => ~ In "_"%char q) (p :: ps) /\ Forall is_order_part (p :: ps).

(** ** hilbert *)
(** The options name an algorithm, and the strategies that it uses *)
Definition hilbert_choice (o : hilbert_options) : Prop :=
  (ho_algorithm o = lit "bigatti" /\ exists x, abbreviates pivot_names (ho_split o) x) \/
  (ho_algorithm o = lit "slice" /\ exists x, abbreviates split_names (ho_split o) x /\ ~ In x label_names /\ ~ In x degree_names) \/
  (ho_algorithm o = lit "deform" /\ is_order (ho_enum o) /\ is_order (ho_deform o)).
(** The exception: a proper prefix of a name that needs a grading, see DESIGN.md *)
Definition degree_abbreviated (o : hilbert_options) : Prop :=
  ho_algorithm o = lit "slice" /\ exists x, abbreviates split_names (ho_split o) x /\ In x degree_names /\ ho_split o <> x.
(** The text is that of an ideal with these variables and generators, and the option -minimal is only given if that is true. *)
Definition hilbert_input (o : hilbert_options) (file : text) (names : list str) (gens : list mono) : Prop :=
  read_ideal (ho_max o) (ho_input o file) file = Ok (names, map znat gens) /\
  (ho_minimal o = true -> lists_minimal_generators (length names) gens gens).
(** The weak deformation is only right under a condition, see C68 *)
Definition deformable (o : hilbert_options) (names : list str) (gens : list mono) : Prop :=
  ho_algorithm o = lit "deform" -> ho_strong o = false -> exponents_of_minimal_generators (length names) gens.
(** The parts of the machine that the algorithms depend on only rearrange *)
Definition rearranging (e : machine) : Prop :=
  rearranges (m_arr e) /\ rearranges (m_uni e) /\ rearranges (m_shuffleD e) /\ rearranges (m_shuffleE e).
Definition with_steps (e : machine) (fuel : nat) : machine := Machine (m_rand e) (m_arr e) (m_uni e) (m_shuffleD e) (m_shuffleE e) fuel.
(** The text is a polynomial over these variables: reading it back gives the same polynomial, and the same terms in the same order unless
    it is 0.  Numbers in the file have to be small enough for a size_t. *)
Definition shows_polynomial (max : Z) (f : format) (names : list str) (p : list (Z * list Z)) (out : text) : Prop :=
  polynomial_fits max f names p ->
  exists q, read_polynomial max f out = Ok (names, q) /\ same_polynomial q p /\ (p <> [] \/ f = Fourti2 -> q = p).
(** In the CoCoA 4 format terms are only written in a way that can be read back if all exponents are positive, or none is; see C72 *)
Definition cocoa_readable (f : format) (p : list (Z * mono)) : Prop :=
  f = CoCoA4 -> Forall (fun t => Forall (fun e => e <> 0) (snd t) \/ Forall (fun e => e = 0) (snd t)) p.
