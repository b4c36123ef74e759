(** C117: the console program with the actions frobgrob and latformat. *)
From Coq Require Import String Ascii.
From Coq Require Import List Arith Bool ZArith Lia.
Import ListNotations.
From Verif Require Import M_Term M_Names M_IO M_Lattice P_Frob2 P_Lattice3 P_Lattice4 T_Lattice M_Main Spec_Names Spec_Opt Spec_Cli3 Spec_Main P_Main2 T_Main P_Main5.
From Verif Require Import Spec Spec_Api Spec_Frob Spec_Cli2 Spec_Lattice.
Local Notation length := List.length.
Local Notation "$ s" := (list_ascii_of_string s%string) (at level 0, s at level 0, only parsing).

(** ** C117 *)
(** The program prints the Frobenius number of the numbers in its input, if the input has a Grobner basis of their relations. Missing is what
    is missing in C115. *)
Theorem C117_frobgrob_partial : forall w args v a G file, command args "frobgrob" v -> (exists x, abbreviates split_names (word v "split") x) ->
  Forall (fun x => 1 < x)%Z a -> coprime a -> grobner_basis a G ->
  number_text (Z.of_nat (length G) :: Z.of_nat (length a) :: concat G ++ a) file -> (Z.of_nat (length G) <= w_max w)%Z -> (Z.of_nat (length a) <= w_max w)%Z ->
  (on v "minimal" = true -> lists_minimal_generators (length a - 1) (leading_monomials G) (leading_monomials G)) -> (on v "canon" = true -> length a <= 10) ->
  exists g u, frobenius_number a g /\ frobby w args file = Ok ((if on v "vector" then vector_line u else []) ++ line_with g) /\
    length u + 1 = length a /\ Forall (fun z => 0 <= z)%Z u /\ inner (-1 :: u)%Z a = g.
Proof. exact e_frobgrob. Qed.
Print Assumptions C117_frobgrob_partial.
(** For every command line and every input: an error, the best maximal standard monomial, or there is none and the program fails. *)
Theorem C117_frobgrob_any : forall w args v file, command args "frobgrob" v -> on v "minimal" = false -> on v "canon" = false ->
  (frobby w args file = SyntaxError \/ frobby w args file = OtherError) \/
  exists a0 b gens, Forall (fun x => 1 < x)%Z (a0 :: b) /\ coprime (a0 :: b) /\ in_ring (length b) gens /\
    ((frobby w args file = Undefined /\ forall m, ~ max_standard (length b) gens m) \/
     exists m, optimal (max_standard (length b) gens) b m /\ frobby w args file = Ok ((if on v "vector" then vector_line (znat m) else []) ++ line_with (inner_product b m - a0)%Z)).
Proof. exact e_frobgrob_any. Qed.
Print Assumptions C117_frobgrob_any.
Theorem C117_unknown_split : forall w args v file, command args "frobgrob" v -> (forall x, ~ abbreviates split_names (word v "split") x) -> frobby w args file = OtherError.
Proof. exact run_frobgrob_error. Qed.
Print Assumptions C117_unknown_split.
(** The program writes the matrix that it reads, in the format asked for. *)
Theorem C117_latformat : forall w args v file n rows, command args "latformat" v -> on v "zero" = false -> In (word v "iformat") lattice_formats ->
  In (output_lattice_format (word v "iformat") (word v "oformat")) lattice_formats ->
  shape_known (w_max w) (word v "iformat") n rows -> lattice_file (word v "iformat") n rows file ->
  frobby w args file = Ok (lattice_text (output_lattice_format (word v "iformat") (word v "oformat")) n rows).
Proof. exact e_latformat. Qed.
Print Assumptions C117_latformat.
(** With -zero it writes a matrix of the same size whose rows generate the same lattice. *)
Theorem C117_zero : forall w args v file n rows, command args "latformat" v -> on v "zero" = true -> In (word v "iformat") lattice_formats ->
  In (output_lattice_format (word v "iformat") (word v "oformat")) lattice_formats ->
  shape_known (w_max w) (word v "iformat") n rows -> lattice_file (word v "iformat") n rows file -> rows <> [] -> n <> 0 ->
  exists rows', frobby w args file = Ok (lattice_text (output_lattice_format (word v "iformat") (word v "oformat")) n rows') /\
    length rows' = length rows /\ has_columns n rows' /\ (forall u, in_lattice n rows u <-> in_lattice n rows' u) /\ (independent_rows n rows <-> independent_rows n rows').
Proof. exact e_latformat_zero. Qed.
Print Assumptions C117_zero.
Theorem C117_unknown_format : forall w args v file, command args "latformat" v ->
  ~ In (word v "iformat") lattice_formats \/ ~ In (output_lattice_format (word v "iformat") (word v "oformat")) lattice_formats -> frobby w args file = OtherError.
Proof. exact e_latformat_unknown. Qed.
Print Assumptions C117_unknown_format.
Theorem C117_latformat_reports : forall w args v file, command args "latformat" v -> on v "zero" = false -> reports (frobby w args file).
Proof. exact e_latformat_reports. Qed.
Print Assumptions C117_latformat_reports.
Definition frobgrob_args : list str := [$"frobg"; $"-v"; $"-sp"; $"gcd"].
Definition frobgrob_v : valuation := value_of (table "frobgrob") [($"vector", VBool true); ($"split", VStr ($"gcd"))].
Definition latformat_args : list str := [$"latf"; $"-o"; $"fplll"; $"-z"; $"off"].
Definition latformat_v : valuation := value_of (table "latformat") [($"oformat", VStr ($"fplll")); ($"zero", VBool false)].
Example C117_ex : command frobgrob_args "frobgrob" frobgrob_v /\ (exists x, abbreviates split_names (word frobgrob_v "split") x) /\ command latformat_args "latformat" latformat_v /\
  In (word latformat_v "iformat") lattice_formats /\ In (output_lattice_format (word latformat_v "iformat") (word latformat_v "oformat")) lattice_formats /\
  frobby some_world frobgrob_args ($"3 3
-1 2 -1
-4 1 1
-3 -1 2
3 5 7
") = Ok $"(-1, 0, 1)
4
" /\ frobby some_world latformat_args ($"2 2
1 -20
0 7") = Ok $"[
 [1 -20]
 [0 7]
]
" /\ frobby some_world [$"latf"; $"-o"; $"fpll"] ($"0 0") = OtherError.
Proof.
  split.
  { exists ($"frobg"), (tl frobgrob_args), (table "frobgrob"), [($"vector", VBool true); ($"split", VStr ($"gcd"))]. split; [reflexivity|]. split; [abbreviation|]. split; [in_table|].
    split; [|reflexivity]. exists [[$"-v"]; [$"-sp"; $"gcd"]]. split; [reflexivity|]. repeat (constructor; [setting|]). constructor. }
  split; [exists ($"gcd"); abbreviation|]. split.
  { exists ($"latf"), (tl latformat_args), (table "latformat"), [($"oformat", VStr ($"fplll")); ($"zero", VBool false)]. split; [reflexivity|]. split; [abbreviation|]. split; [in_table|].
    split; [|reflexivity]. exists [[$"-o"; $"fplll"]; [$"-z"; $"off"]]. split; [reflexivity|]. repeat (constructor; [setting|]). constructor. }
  split; [left; reflexivity|]. split; [right; left; reflexivity|]. vm_compute. auto.
Qed.
