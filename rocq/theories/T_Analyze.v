(** C81 and C82: the action analyze from the bytes of the input to the bytes of the output. *)
From Coq Require Import String Ascii.
From Coq Require Import List Arith Bool ZArith Lia.
Import ListNotations.
From Verif Require Import M_Names M_IO M_Cli M_Analyze P_Cli5 P_Analyze.
From Verif Require Import Spec Spec_Api Spec_IO Spec_Scarf Spec_Analyze.
Local Notation length := List.length.
Local Notation "$ s" := (list_ascii_of_string s%string) (at level 0, s at level 0, only parsing).
(** all the lines that can be asked for *)
Definition everything (level : nat) (minimal : bool) : analyze_options := AO 18446744073709551615 None None level true true true true minimal.
Definition input_three : text := $"vars x, y;
[x^2, x*y, x^3];".
Local Notation three := [[2; 0]; [1; 1]; [3; 0]].
Lemma input_three_is : read_ideal 18446744073709551615 (autoDetect input_three) input_three = Ok ([$"x"; $"y"], map znat three).
Proof. vm_compute. reflexivity. Qed.

(** ** C81 *)
(** analyze prints the lines that were asked for, in the documented order: the least common multiple of the generators that were read, the
    number of variables, the number of generators, the largest exponent, the summary of the numbers, and whether the generators are the
    minimal ones. *)
Theorem C81_analyze : forall o file names gens, read_ideal (ao_max o) (ao_input o file) file = Ok (names, map znat gens) -> ao_summary o < 2 -> exists l k minimal,
  facts (length names) gens l k minimal /\ analyze_action o file = Ok (requested_text o (ao_output o file) names l (length gens) k minimal).
Proof. exact analyze_short. Qed.
Print Assumptions C81_analyze.
(** The text of the least common multiple, or of any other monomial, is read back as that monomial. *)
Theorem C81_lcm_line : forall m f names l, legal_names names -> length l = length names -> format_fits m f names [] -> exists rest,
  handler_readTerm m f names (fmt_writeTerm f names (znat l)) = Ok (znat l, rest) /\ eat rest = [].
Proof. exact lcm_line. Qed.
Print Assumptions C81_lcm_line.
(** Every text is analyzed or there is the error of reading it. *)
Theorem C81_errors : forall o file, match read_ideal (ao_max o) (ao_input o file) file with
  | Ok _ => exists out, analyze_action o file = Ok out
  | SyntaxError => analyze_action o file = SyntaxError
  | OtherError => analyze_action o file = OtherError
  | InvalidArgument => analyze_action o file = InvalidArgument
  | _ => False
  end.
Proof. exact analyze_errors. Qed.
Print Assumptions C81_errors.
Example C81_ex : analyze_action (everything 1 true) input_three = Ok ($"x^3*y
2
3
3
3 generators
2 variables
0
") /\ legal_names [$"x"; $"y"] /\ handler_readTerm 10 Monos [$"x"; $"y"] ($"x^3*y") = Ok (znat [3; 1], []) /\
  analyze_action (everything 1 true) ($"vars x, y; [x^2,") = SyntaxError.
Proof. split; [vm_compute; reflexivity|]. split; [exact (proj1 (good_znat _ three (read_good _ _ _ _ input_three_is)))|]. split; vm_compute; reflexivity. Qed.

(** ** C82 *)
(** The claim: with -summaryLevel 2 or more, analyze also prints the number of generators that were read, the number of variables, whether
    they are the minimal generators, and whether the ideal is strongly and weakly generic.  Proved unless the option -minimal is given
    for an ideal with generators that are not minimal; then it is false. *)
Theorem C82_summary_partial : forall o file names gens, read_ideal (ao_max o) (ao_input o file) file = Ok (names, map znat gens) -> 2 <= ao_summary o ->
  (ao_minimal o = true -> lists_minimal_generators (length names) gens gens) -> exists l k minimal strong weak,
  facts (length names) gens l k minimal /\ genericity (length names) gens strong weak /\
  analyze_action o file = Ok (requested_text o (ao_output o file) names l (length gens) k minimal ++ summary_text (length names) (length gens) minimal strong weak).
Proof. exact analyze_long. Qed.
Print Assumptions C82_summary_partial.
(** In that case the summary is right about genericity, and else it is about the minimal generators. *)
Theorem C82_minimized : forall o file names gens, read_ideal (ao_max o) (ao_input o file) file = Ok (names, map znat gens) -> exists l k minimal strong weak M,
  facts (length names) gens l k minimal /\ genericity (length names) gens strong weak /\ lists_minimal_generators (length names) gens M /\
  analyze_action o file = Ok (requested_text o (ao_output o file) names l (length gens) k minimal ++
    if 2 <=? ao_summary o then summary_text (length names) (if ao_minimal o then length M else length gens) (ao_minimal o || minimal) strong weak else []).
Proof. exact analyze_ok. Qed.
Print Assumptions C82_minimized.
(** F23: the same output says 0 for whether the generators are the minimal ones, and then that they are, and counts them differently. *)
Theorem C82_summary_refuted : exists file names gens, read_ideal 18446744073709551615 (autoDetect file) file = Ok (names, map znat gens) /\
  length gens = 3 /\ ~ lists_minimal_generators (length names) gens gens /\
  analyze_action (AO 18446744073709551615 None None 2 false false true false true) file = Ok ($"3
0
generators: 2
variables:  2
minimally generated: yes
strongly generic: yes
weakly generic: yes
").
Proof.
  exists input_three, [$"x"; $"y"], three. split; [exact input_three_is|]. split; auto. split; [|vm_compute; reflexivity].
  intros [_ H]. destruct (proj1 (H [3; 0])) as [_ [_ M]]; [simpl; auto|]. assert (E : [2; 0] = [3; 0]); [|discriminate]. apply M; [exists [2; 0]; split; [simpl; auto|repeat constructor]|repeat constructor].
Qed.
Print Assumptions C82_summary_refuted.
Example C82_ex : analyze_action (AO 18446744073709551615 None None 2 false false false false false) input_three = Ok ($"generators: 3
variables:  2
minimally generated: no
strongly generic: yes
weakly generic: yes
") /\ analyze_action (AO 18446744073709551615 None None 2 false false false false true) ($"vars x, y, z; [x^2, x*y*z, y^2*z];") = Ok ($"1
generators: 3
variables:  3
minimally generated: yes
strongly generic: no
weakly generic: no
").
Proof. split; vm_compute; reflexivity. Qed.
