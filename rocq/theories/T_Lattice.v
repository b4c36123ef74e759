(** C113 to C116: lattice bases and Frobenius numbers by Grobner bases. *)
From Coq Require Import String Ascii.
From Coq Require Import List Arith Bool ZArith Lia.
Import ListNotations.
From Verif Require Import M_Term M_Names M_IO Spec_Frob M_Opt M_Cli2 M_Lattice T_Slice T_Opt P_Frob2 P_Lattice P_Lattice3 P_Lattice4 P_Lattice5.
From Verif Require Import Spec Spec_Api Spec_Opt Spec_Cli2 Spec_Lattice.
Local Notation length := List.length.
Local Notation "$ s" := (list_ascii_of_string s%string) (at level 0, s at level 0, only parsing).

(** ** C113 *)
(** latformat writes the matrix that it reads, in the format of the output. *)
Theorem C113_latformat : forall max iformat oformat file n rows, In iformat lattice_formats -> In (output_lattice_format iformat oformat) lattice_formats ->
  shape_known max iformat n rows -> lattice_file iformat n rows file ->
  latformat_print max iformat oformat false file = Ok (lattice_text (output_lattice_format iformat oformat) n rows).
Proof. exact p_latformat. Qed.
Print Assumptions C113_latformat.
(** What it writes is a file in that format, so it can be read again. *)
Theorem C113_written : forall format n rows, lattice_file format n rows (lattice_text format n rows).
Proof. exact p_text_file. Qed.
Print Assumptions C113_written.
(** For every file: a matrix or a syntax error. *)
Theorem C113_any_file : forall max iformat oformat file, In iformat lattice_formats -> In (output_lattice_format iformat oformat) lattice_formats ->
  latformat_print max iformat oformat false file = SyntaxError \/
  exists n rows, has_columns n rows /\ latformat_print max iformat oformat false file = Ok (lattice_text (output_lattice_format iformat oformat) n rows).
Proof. exact p_latformat_any. Qed.
Print Assumptions C113_any_file.
Theorem C113_unknown_format : forall max iformat oformat zero file, ~ In iformat lattice_formats \/ ~ In (output_lattice_format iformat oformat) lattice_formats ->
  latformat_print max iformat oformat zero file = OtherError.
Proof. exact p_latformat_unknown. Qed.
Print Assumptions C113_unknown_format.
Definition max_size : Z := 18446744073709551615.
Example C113_ex : In $"4ti2" lattice_formats /\ In (output_lattice_format $"4ti2" $"fplll") lattice_formats /\
  shape_known max_size $"4ti2" 3 [[1; -20; 0]; [0; 3; 7]]%Z /\ lattice_file $"4ti2" 3 [[1; -20; 0]; [0; 3; 7]]%Z ($"2 3
  1 -20 0
0 3 7
") /\ latformat_print max_size $"4ti2" $"fplll" false ($"2 3
1 -20 0 0 3 7
") = Ok $"[
 [1 -20 0]
 [0 3 7]
]
" /\ latformat_print max_size $"fplll" $"4ti2" false ($"[[1 -20 0][0 3 7]]") = Ok $"2 3
1 -20 0
0 3 7
" /\ latformat_print max_size $"fplll" $"input" false ($"[[1 -20 0][0 3]]") = SyntaxError.
Proof.
  split; [left; reflexivity|]. split; [right; left; reflexivity|]. split; [split; [repeat constructor|cbn; unfold max_size; lia]|]. split; [|vm_compute; auto].
  exists [$" "; [nl; " "; " "]%char; $" "; $" "; [nl]; $" "; $" "; [nl]]. split; [reflexivity|]. split; [|reflexivity].
  repeat constructor; try discriminate; cbn; lia.
Qed.

(** ** C114 *)
(** latformat -zero keeps the size of the matrix, the lattice that its rows generate, and whether they are independent. In the second
    column an entry 1 or -1 is then the only one that is not zero. *)
Theorem C114_zero : forall max iformat oformat file n rows, In iformat lattice_formats -> In (output_lattice_format iformat oformat) lattice_formats ->
  shape_known max iformat n rows -> lattice_file iformat n rows file -> rows <> [] -> n <> 0 ->
  exists rows', latformat_print max iformat oformat true file = Ok (lattice_text (output_lattice_format iformat oformat) n rows') /\
    length rows' = length rows /\ has_columns n rows' /\ (forall v, in_lattice n rows v <-> in_lattice n rows' v) /\ (independent_rows n rows <-> independent_rows n rows') /\
    forall i j, i < length rows -> j < length rows -> i <> j -> (Z.abs (nth 1 (nth i rows' []) 0) = 1 -> nth 1 (nth j rows' []) 0 = 0)%Z.
Proof. exact p_latformat_zero. Qed.
Print Assumptions C114_zero.
Example C114_ex : shape_known max_size $"4ti2" 3 [[2; 1; 4]; [5; 3; -1]; [0; 7; 1]]%Z /\ latformat_print max_size $"4ti2" $"input" true ($"3 3
2 1 4
5 3 -1
0 7 1
") = Ok $"3 3
22 13 0
5 3 -1
5 10 0
".
Proof. split; [split; [repeat constructor|cbn; unfold max_size; lia]|vm_compute; reflexivity]. Qed.
(** F33: the description of the option is "Adjust lattice basis to increase the number of zero entries", but there can be fewer afterwards. *)
Theorem C114_more_zeroes_refuted : exists file rows rows', shape_known max_size $"4ti2" 3 rows /\ lattice_file $"4ti2" 3 rows file /\
  latformat_print max_size $"4ti2" $"input" true file = Ok (lattice_text $"4ti2" 3 rows') /\ zero_count rows' < zero_count rows.
Proof.
  exists (lattice_text $"4ti2" 3 [[5; 7; 1]; [0; 0; 1]]%Z), [[5; 7; 1]; [0; 0; 1]]%Z, [[5; 7; 1]; [-5; -7; 0]]%Z. split; [split; [repeat constructor|cbn; unfold max_size; lia]|].
  split; [apply p_text_file|]. split; [vm_compute; reflexivity|]. cbn. lia.
Qed.
Print Assumptions C114_more_zeroes_refuted.
(** F34: without rows or without columns an entry that does not exist is looked up. *)
Theorem C114_empty_undefined : forall max iformat oformat file n rows, In iformat lattice_formats -> In (output_lattice_format iformat oformat) lattice_formats ->
  shape_known max iformat n rows -> lattice_file iformat n rows file -> rows = [] \/ n = 0 -> latformat_print max iformat oformat true file = Undefined.
Proof. exact p_latformat_zero_undefined. Qed.
Print Assumptions C114_empty_undefined.
Example C114_empty_ex : latformat_print max_size $"fplll" $"input" true ($"[]") = Undefined /\ latformat_print max_size $"fplll" $"input" false ($"[]") = Ok $"[
]
".
Proof. vm_compute. auto. Qed.

(** ** C115 *)
(** frobgrob prints the Frobenius number of the numbers, if the input has a Grobner basis of their relations with respect to a reverse
    order; with -vector it first prints a vector whose inner product with the numbers is the Frobenius number. Missing: with -minimal the
    leading terms have to be minimal, and with -canon there can be at most ten numbers. *)
Theorem C115_frobgrob_partial : forall o rnd a G file, Forall (fun x => 1 < x)%Z a -> coprime a -> grobner_basis a G ->
  number_text (Z.of_nat (length G) :: Z.of_nat (length a) :: concat G ++ a) file -> (Z.of_nat (length G) <= fg_max o)%Z -> (Z.of_nat (length a) <= fg_max o)%Z ->
  legal_oparams (fg_params o) -> (fg_minimal o = true -> lists_minimal_generators (length a - 1) (leading_monomials G) (leading_monomials G)) -> (fg_canon o = true -> length a <= 10) ->
  exists g v, frobenius_number a g /\ frobgrob_print o rnd file = Ok ((if fg_vector o then vector_line v else []) ++ line_with g) /\
    length v + 1 = length a /\ Forall (fun z => 0 <= z)%Z v /\ inner (-1 :: v)%Z a = g.
Proof. exact p_frobgrob. Qed.
Print Assumptions C115_frobgrob_partial.
Definition frobgrob_with (canon vector : bool) : frobgrob_options := FG max_size false canon (mkOp true DegreeSplit true true) vector.
Example C115_ex : Forall (fun x => 1 < x)%Z [3; 5; 7]%Z /\ coprime [3; 5; 7]%Z /\ grobner_basis [3; 5; 7]%Z [[-1; 2; -1]; [-4; 1; 1]; [-3; -1; 2]]%Z /\
  legal_oparams (fg_params (frobgrob_with true true)) /\
  frobgrob_print (frobgrob_with true true) no_random ($"3 3
-1 2 -1
-4 1 1
-3 -1 2
3 5 7
") = Ok $"(-1, 0, 1)
4
".
Proof.
  split; [repeat constructor; lia|]. split; [apply gcd_coprime; [lia|reflexivity]|]. split; [exact basis_357|]. split; [exact Logic.I|]. vm_compute. reflexivity.
Qed.
(** F35: with -canon and eleven numbers the variables are sorted by name, x1, x10, x2, but the numbers are not. *)
Theorem C115_canon_refuted : exists a G file, Forall (fun x => 1 < x)%Z a /\ coprime a /\ grobner_basis a G /\
  number_text (Z.of_nat (length G) :: Z.of_nat (length a) :: concat G ++ a) file /\
  frobgrob_print (frobgrob_with false false) no_random file = Ok (line_with 1) /\
  frobgrob_print (frobgrob_with true false) no_random file = Ok (line_with 4).
Proof.
  exists eleven, eleven_basis. set (numbers := Z.of_nat (length eleven_basis) :: Z.of_nat (length eleven) :: concat eleven_basis ++ eleven).
  exists (concat (map (fun p => z_str (fst p) ++ snd p) (combine numbers (repeat [nl] (length numbers))))).
  split; [repeat constructor; lia|]. split; [apply gcd_coprime; [lia|reflexivity]|]. split; [exact basis_eleven|]. split.
  - exists (repeat [nl] (length numbers)). split; [apply repeat_length|]. split; [|reflexivity]. apply Forall_forall. intros w H. apply repeat_spec in H. subst w. split; [discriminate|]. repeat constructor; cbn; lia.
  - vm_compute. auto.
Qed.
Print Assumptions C115_canon_refuted.
(** For every file: an error, or the numbers are coprime and what is printed is the best inner product of a maximal standard monomial,
    less the first number. If there is no maximal standard monomial, the program looks up a solution that does not exist. *)
Theorem C115_any_file : forall o rnd file, legal_oparams (fg_params o) -> fg_minimal o = false -> fg_canon o = false ->
  (frobgrob_print o rnd file = SyntaxError \/ frobgrob_print o rnd file = OtherError) \/
  exists a0 b gens, Forall (fun x => 1 < x)%Z (a0 :: b) /\ coprime (a0 :: b) /\ in_ring (length b) gens /\
    ((frobgrob_print o rnd file = Undefined /\ forall m, ~ max_standard (length b) gens m) \/
     exists m, optimal (max_standard (length b) gens) b m /\ frobgrob_print o rnd file = Ok ((if fg_vector o then vector_line (znat m) else []) ++ line_with (inner_product b m - a0)%Z)).
Proof. exact p_frobgrob_any. Qed.
Print Assumptions C115_any_file.
(** F36: there are such inputs. *)
Theorem C115_no_solution_refuted : exists file, frobgrob_print (frobgrob_with false false) no_random file = Undefined.
Proof.
  exists $"1 3
-1 2 -1
3 5 7
". vm_compute. reflexivity.
Qed.
Print Assumptions C115_no_solution_refuted.
Example C115_errors : frobgrob_print (frobgrob_with false false) no_random ($"1 3
1 2 -1
3 5 7
") = OtherError /\ frobgrob_print (frobgrob_with false false) no_random ($"1 3
-1 2 -1
3 5
") = SyntaxError /\ frobgrob_print (frobgrob_with false false) no_random ($"1 3
-1 2 -1
3 6 9
") = SyntaxError.
Proof. vm_compute. auto. Qed.

(** ** C116 *)
(** What the program tells the user to use instead of frobgrob gives the same number: optimize -chopFirstAndSubtract -maxStandard with the
    leading terms and the numbers. *)
Theorem C116_optimize_frobenius : forall o rnd file names gens a G, optimize_input_is o file names gens a -> oo_canon o = false -> oo_display o = true ->
  oo_chop (oo_what o) = true -> oo_maxStandard (oo_what o) = true -> oo_min (oo_what o) = false -> oo_level (oo_what o) = 0 ->
  Forall (fun x => 1 < x)%Z a -> coprime a -> grobner_basis a G -> drop_first gens = leading_monomials G ->
  (oo_minimal o = true -> lists_minimal_generators (length a - 1) (leading_monomials G) (leading_monomials G)) ->
  exists g, frobenius_number a g /\ optimize_print o rnd file = Ok (line_with g).
Proof. exact p_optimize_frobenius. Qed.
Print Assumptions C116_optimize_frobenius.
Example C116_ex : let o := OO max_size None None false false (mkOp true DegreeSplit true true) true (mkOo 0 true true false) in
  let file := $"vars a, b, c;
[b^2, b*c, c^2];
3 5 7" in
  optimize_input_is o file [$"a"; $"b"; $"c"] [[0; 2; 0]; [0; 1; 1]; [0; 0; 2]] [3; 5; 7]%Z /\
  drop_first [[0; 2; 0]; [0; 1; 1]; [0; 0; 2]] = leading_monomials [[-1; 2; -1]; [-4; 1; 1]; [-3; -1; 2]]%Z /\
  optimize_print o no_random file = Ok (line_with 4).
Proof. cbv zeta. split; [split; [exact Logic.I|vm_compute; reflexivity]|]. vm_compute. auto. Qed.
