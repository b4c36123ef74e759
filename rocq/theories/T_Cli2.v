(** C83 to C85: the actions optimize, dimension and euler from the bytes of the input to the bytes of the output. *)
From Coq Require Import String Ascii.
From Coq Require Import List Arith Bool ZArith Lia Sorted Permutation.
Import ListNotations.
From Verif Require Import M_Term M_Names M_IO Spec_IO Spec_Names M_Api M_Msm M_Slice M_Opt M_Euler M_Cli M_Cli2 Spec_Slice Spec_Run Spec_Euler Spec_EulerCfg T_Slice T_Api T_Opt P_Cli5 P_Cli9 P_Cli10 P_Detect M_IOPoly.
From Verif Require Import Spec Spec_Api Spec_Dim Spec_Opt Spec_Cli Spec_Cli2.
Local Notation length := List.length.
Local Notation "$ s" := (list_ascii_of_string s%string) (at level 0, s at level 0, only parsing).

(** ** C83 *)
(** optimize prints what it is asked for: with -displayLevel 1 one optimal solution, with a higher level all of them (unless the optimal
    value is 0), and with -displayValue the optimal value or that there is no solution.  Two things are missing.  With -canon the
    variables have to be in ascending order already, or the vector has to be constant.  With -minimal the generators have to be minimal
    after -chopFirstAndSubtract has removed the first variable.  The refutations below show that both are needed. *)
Theorem C83_optimize_partial : forall o rnd file names gens v names1 gens1 v1 w,
  optimize_input_is o file names gens v -> asked_for o names gens v = (names1, gens1, v1, w) ->
  (oo_minimal o = true -> lists_minimal_generators (length names1) gens1 gens1) ->
  (oo_canon o = true -> ascending names1 \/ exists c, v1 = repeat c (length names1)) ->
  exists names' gens' v' L value out, let what := oo_what o in
    output_ring (oo_canon o) names1 gens1 names' gens' /\ same_term 0%Z names1 names' v1 v' /\
    (oo_canon o = true -> descending L) /\ solution (oo_level what) (oo_min what) (oo_maxStandard what) (length names') gens' v' L value /\
    optimize_print o rnd file = Ok (out ++ if oo_display o then value_line w value else []) /\
    if oo_level what =? 0 then out = [] else shows_ideal (oo_max o) (oo_output o file) names' L out.
Proof. exact optimize_printed. Qed.
Print Assumptions C83_optimize_partial.
Definition optimize_with (canon minimal : bool) (level : nat) (std chop min : bool) : opt_options :=
  OO 18446744073709551615 None None canon minimal (mkOp true DegreeSplit true true) true (mkOo level std chop min).
Definition file_yz : text := $"vars y, z;
[y^3, y*z, z^2];
1 10".
Lemma file_yz_is canon level std chop min : optimize_input_is (optimize_with canon false level std chop min) file_yz [$"y"; $"z"] [[3; 0]; [1; 1]; [0; 2]] [1; 10]%Z.
Proof. split; [exact Logic.I|reflexivity]. Qed.
Example C83_ex :
  asked_for (optimize_with true false 2 false false false) [$"y"; $"z"] [[3; 0]; [1; 1]; [0; 2]] [1; 10]%Z = ([$"y"; $"z"], [[3; 0]; [1; 1]; [0; 2]], [1; 10]%Z, 0%Z) /\
  ascending [$"y"; $"z"] /\
  optimize_print (optimize_with true false 2 false false false) no_random file_yz = Ok ($"vars y, z;
[
 y*z^2
];
21
") /\ optimize_print (optimize_with true false 1 true false true) no_random file_yz = Ok ($"vars y, z;
[
 y^2
];
2
") /\ optimize_print (optimize_with false false 0 false true false) no_random file_yz = Ok ($"no solution.
").
Proof. split; [reflexivity|]. split; [repeat constructor|]. vm_compute. auto. Qed.
(** F24: with -canon the variables of the ideal are sorted but those of the vector are not. *)
Theorem C83_canonical_vector_refuted : exists file names gens v, (forall canon, optimize_input_is (optimize_with canon false 0 false false false) file names gens v) /\
  optimize_print (optimize_with false false 0 false false false) no_random file = Ok (line_with 21) /\
  optimize_print (optimize_with true false 0 false false false) no_random file = Ok (line_with 31).
Proof.
  exists ($"vars z, y;
[z^2, z*y, y^3];
10 1"), [$"z"; $"y"], [[2; 0]; [1; 1]; [0; 3]], [10; 1]%Z. split; [intros canon; split; [exact Logic.I|reflexivity]|]. vm_compute. auto.
Qed.
Print Assumptions C83_canonical_vector_refuted.
(** F25: with -minimal and -chopFirstAndSubtract minimal generators give a wrong value, since after the first variable is removed they
    are not minimal any more. *)
Theorem C83_chop_minimal_refuted : exists file names gens v, (forall minimal, optimize_input_is (optimize_with false minimal 0 false true false) file names gens v) /\
  lists_minimal_generators (length names) gens gens /\
  optimize_print (optimize_with false false 0 false true false) no_random file = Ok (line_with (-8)) /\
  optimize_print (optimize_with false true 0 false true false) no_random file = Ok (line_with (-7)).
Proof.
  exists ($"vars x, y, z;
[x*z, x^2*y, y^2];
10 1 1"), [$"x"; $"y"; $"z"], [[1; 0; 1]; [2; 1; 0]; [0; 2; 0]], [10; 1; 1]%Z. split; [intros minimal; split; [exact Logic.I|reflexivity]|]. split; [|vm_compute; auto].
  apply P_Valid.minl_lists; [repeat constructor|]. split; [repeat constructor; cbn; intuition discriminate|].
  intros g h Hg Hh H. cbn in Hg, Hh. pose proof (H 0 ltac:(cbn; lia)) as H0. pose proof (H 1 ltac:(cbn; lia)) as H1. pose proof (H 2 ltac:(cbn; lia)) as H2.
  destruct Hg as [<-|[<-|[<-|[]]]], Hh as [<-|[<-|[<-|[]]]]; auto; cbn in H0, H1, H2; lia.
Qed.
Print Assumptions C83_chop_minimal_refuted.
(** Without a vector all entries are 1; a vector after the ideal is read as it was written. *)
Theorem C83_input : forall max f names gens v, legal_names names -> in_ring (length names) gens -> length v = length names -> format_fits max f names (map znat gens) ->
  exists file, write_ideal f names (map znat gens) = Ok file /\ read_optimize max f file = Ok (names, map znat gens, repeat 1%Z (length names)) /\
    (v <> [] -> read_optimize max f (file ++ vector_text v) = Ok (names, map znat gens, v)).
Proof. exact optimize_ideal. Qed.
Print Assumptions C83_input.
Theorem C83_plain_input : forall max f file J, read_ideal max f file = Ok J -> read_optimize max f file = Ok (J, repeat 1%Z (length (fst J))).
Proof. exact read_optimize_ideal. Qed.
Print Assumptions C83_plain_input.
(** The value, and with -canon and all solutions the whole output, does not depend on the split strategy, on the use of bounds or on
    rand().  The second case leaves out the optimal value 0. *)
Theorem C83_independent : forall o p1 p2 rnd1 rnd2 file names gens v names1 gens1 v1 w,
  optimize_input_is (with_params o p1) file names gens v -> optimize_input_is (with_params o p2) file names gens v ->
  asked_for o names gens v = (names1, gens1, v1, w) -> (oo_minimal o = true -> lists_minimal_generators (length names1) gens1 gens1) ->
  let what := oo_what o in
  oo_level what = 0 \/ (oo_canon o = true /\ 2 <= oo_level what /\ forall names' gens' m, output_ring true names1 gens1 names' gens' ->
    program_optimal (oo_min what) (program_set (oo_maxStandard what) (length names') gens') v1 m -> inner_product v1 m <> 0%Z) ->
  optimize_print (with_params o p1) rnd1 file = optimize_print (with_params o p2) rnd2 file.
Proof. exact optimize_same. Qed.
Print Assumptions C83_independent.
Example C83_independent_ex : optimize_input_is (with_params (optimize_with false false 0 false false false) default_oparams) file_yz [$"y"; $"z"] [[3; 0]; [1; 1]; [0; 2]] [1; 10]%Z /\
  optimize_print (with_params (optimize_with false false 0 false false false) default_oparams) no_random file_yz = Ok (line_with 21).
Proof. split; [split; [exact default_oparams_legal|reflexivity]|]. vm_compute. reflexivity. Qed.
(** Whatever the bytes of the input, the action prints something or reports the error of reading it. *)
Theorem C83_errors : forall o rnd file, legal_oparams (oo_params o) -> oo_minimal o = false -> match read_optimize (oo_max o) (oo_format o file) file with
  | Ok _ => exists out, optimize_print o rnd file = Ok out
  | SyntaxError => optimize_print o rnd file = SyntaxError
  | OtherError => optimize_print o rnd file = OtherError
  | InvalidArgument => optimize_print o rnd file = InvalidArgument
  | OutOfFuel | Undefined => False
  end.
Proof. exact optimize_errors. Qed.
Print Assumptions C83_errors.
Example C83_errors_ex : optimize_print (optimize_with false false 0 false false false) no_random ($"vars x; [x]; 1 2") = SyntaxError /\
  optimize_print (optimize_with false false 0 false false false) no_random ($"vars x, y; [x]; 1") = SyntaxError.
Proof. split; reflexivity. Qed.

(** ** C84 *)
(** dimension prints the dimension, or with -codim the codimension, of the ideal that was read.  The option -squareFreeAndMinimal is for
    square free ideals with minimal generators.  (With -useSlice the option -iformat is ignored and the format is guessed; by C86 that makes
    no difference for a text that can be read.) *)
Theorem C84_dimension : forall o rnd file names gens,
  read_ideal (do_max o) (the_format (do_in o) file) file = Ok (names, map znat gens) ->
  (do_slice o = false -> do_sqf o = true -> square_free gens /\ lists_minimal_generators (length names) gens gens) ->
  exists d, is_dimension (length names) gens d /\
    dimension_action o rnd file = Ok (line_with (if do_codim o then Z.of_nat (length names) - d else d)).
Proof. exact dimension_user. Qed.
Print Assumptions C84_dimension.
Definition dimension_with (f : option format) (codim sqf slice : bool) : dimension_options := DO 18446744073709551615 f codim sqf slice.
Definition file_graph : text := $"R = QQ[a, b, c, d];
I = monomialIdeal(
 a*b,
 b*c,
 c*d
);
".
Example C84_ex : read_ideal 18446744073709551615 (the_format None file_graph) file_graph = Ok ([$"a"; $"b"; $"c"; $"d"], map znat [[1; 1; 0; 0]; [0; 1; 1; 0]; [0; 0; 1; 1]]) /\
  square_free [[1; 1; 0; 0]; [0; 1; 1; 0]; [0; 0; 1; 1]] /\ lists_minimal_generators 4 [[1; 1; 0; 0]; [0; 1; 1; 0]; [0; 0; 1; 1]] [[1; 1; 0; 0]; [0; 1; 1; 0]; [0; 0; 1; 1]] /\
  dimension_action (dimension_with None false true false) no_random file_graph = Ok ($"2
") /\ dimension_action (dimension_with None true false true) no_random file_graph = Ok ($"2
") /\ dimension_action (dimension_with None false false false) no_random ($"vars x, y; [1];") = Ok ($"-1
") /\ dimension_action (dimension_with None true false true) no_random ($"vars x, y; [1];") = Ok ($"3
").
Proof.
  split; [reflexivity|]. split; [repeat constructor|]. split; [|vm_compute; auto 8].
  apply P_Valid.minl_lists; [repeat constructor|]. split; [repeat constructor; cbn; intuition discriminate|].
  intros g h Hg Hh H. cbn in Hg, Hh. pose proof (H 0 ltac:(cbn; lia)) as H0. pose proof (H 1 ltac:(cbn; lia)) as H1. pose proof (H 2 ltac:(cbn; lia)) as H2. pose proof (H 3 ltac:(cbn; lia)) as H3.
  destruct Hg as [<-|[<-|[<-|[]]]], Hh as [<-|[<-|[<-|[]]]]; auto; cbn in H0, H1, H2, H3; lia.
Qed.
(** Every text gives a number or the error of reading it. *)
Theorem C84_errors : forall o rnd file, do_slice o = true \/ do_sqf o = false -> match read_ideal (do_max o) (dimension_format o file) file with
  | Ok _ => exists d, dimension_action o rnd file = Ok (line_with d)
  | SyntaxError => dimension_action o rnd file = SyntaxError
  | OtherError => dimension_action o rnd file = OtherError
  | InvalidArgument => dimension_action o rnd file = InvalidArgument
  | OutOfFuel | Undefined => False
  end.
Proof. exact dimension_errors. Qed.
Print Assumptions C84_errors.
Example C84_errors_ex : dimension_action (dimension_with None false false false) no_random ($"vars x, y; [x, z];") = SyntaxError.
Proof. reflexivity. Qed.

(** ** C85 *)
(** Whatever euler prints is the reduced Euler characteristic of the complex in the input, whatever the strategies and rand().  The
    simplification -impliedDiv needs one of the others (see C31). *)
Theorem C85_euler : forall o fuel file out, (eo_pairs o = true -> eo_unique o = true \/ eo_many o = true) -> euler_print o fuel file = Ok out ->
  legal_euler o /\ In (eo_transpose o) transpose_names /\
  exists names gens chi, read_square_free (eo_max o) (the_format (eo_in o) file) file = Ok (names, gens) /\
    is_euler (length names) (action_faces (eo_swap01 o) gens) chi /\ out = line_with chi.
Proof. exact euler_printed. Qed.
Print Assumptions C85_euler.
(** With legal names and a square free ideal it prints that, if the settings are such that the algorithm ends (see C31). *)
Theorem C85_euler_ends : forall o file names gens, (eo_pairs o = true -> eo_unique o = true \/ eo_many o = true) -> legal_euler o -> In (eo_transpose o) transpose_names ->
  read_square_free (eo_max o) (the_format (eo_in o) file) file = Ok (names, gens) ->
  (forall st, euler_strategy o = Ok st -> settings_end (euler_settings o st (true, true)) (Nat.max (length names) (length gens))) ->
  exists chi k, is_euler (length names) (action_faces (eo_swap01 o) gens) chi /\ forall fuel, k <= fuel -> euler_print o fuel file = Ok (line_with chi).
Proof. exact euler_total. Qed.
Print Assumptions C85_euler_ends.
(** In particular this is so with -uniqueDiv, if no name of a strategy contains "random". *)
Theorem C85_euler_steady : forall o file names gens, eo_unique o = true -> ~ mentions (lit "random") (eo_std o) -> ~ mentions (lit "random") (eo_gen o) ->
  legal_euler o -> In (eo_transpose o) transpose_names -> read_square_free (eo_max o) (the_format (eo_in o) file) file = Ok (names, gens) ->
  exists chi k, is_euler (length names) (action_faces (eo_swap01 o) gens) chi /\ forall fuel, k <= fuel -> euler_print o fuel file = Ok (line_with chi).
Proof. exact euler_steady. Qed.
Print Assumptions C85_euler_steady.
(** An illegal name of a strategy is reported before the input is read, and a wrong value of -autotranspose afterwards. *)
Theorem C85_errors : forall o fuel file, (~ legal_euler o -> euler_print o fuel file = OtherError) /\
  (legal_euler o -> match read_square_free (eo_max o) (the_format (eo_in o) file) file with
   | Ok _ => ~ In (eo_transpose o) transpose_names -> euler_print o fuel file = OtherError
   | SyntaxError => euler_print o fuel file = SyntaxError
   | OtherError => euler_print o fuel file = OtherError
   | InvalidArgument => euler_print o fuel file = InvalidArgument
   | OutOfFuel | Undefined => False
   end).
Proof. exact euler_errors. Qed.
Print Assumptions C85_errors.
Definition euler_with (pivot std gen transpose : str) (swap01 : bool) : euler_options :=
  EO 18446744073709551615 None pivot std gen transpose true true false swap01 64 (fun t i => t + i) 100.
Definition file_circle : text := $"vars a, b, c, d, e; [a*b, b*c, c*d, d*e, e*a];".
Definition default_euler : euler_options := euler_with ($"gen") ($"popvar") ($"raremax") ($"on") true.
Lemma default_euler_legal : legal_euler default_euler.
Proof. split; [cbn; auto|]. split; [exists ($"popvar"); split; [cbn; auto|auto]|]. apply LG1. cbn. auto 10. Qed.
Ltac no_word := intros [a [b E]]; cbv [default_euler euler_with eo_std eo_gen lit list_ascii_of_string] in E; repeat (destruct a as [|? a]; cbn [app] in E; [discriminate E|injection E as _ E]); destruct a; discriminate E.
Example C85_ex : eo_unique default_euler = true /\ ~ mentions (lit "random") (eo_std default_euler) /\ ~ mentions (lit "random") (eo_gen default_euler) /\
  legal_euler default_euler /\ In (eo_transpose default_euler) transpose_names /\
  read_square_free (eo_max default_euler) (the_format (eo_in default_euler) file_circle) file_circle =
    Ok ([$"a"; $"b"; $"c"; $"d"; $"e"], [[true; true; false; false; false]; [false; true; true; false; false]; [false; false; true; true; false]; [false; false; false; true; true]; [true; false; false; false; true]]) /\
  euler_print default_euler 50 file_circle = Ok ($"-1
") /\ euler_print (euler_with ($"hybrid") ($"widen_popgcd") ($"rarest_maxsupp_random") ($"once") true) 50 file_circle = Ok ($"-1
") /\ euler_print (euler_with ($"gen") ($"popvar") ($"rarest__maxsupp") ($"once") true) 50 file_circle = OtherError /\
  euler_print (euler_with ($"gen") ($"popvar") ($"rarest") ($"never") true) 50 file_circle = OtherError /\
  euler_print default_euler 50 ($"vars a; [a^2];") = OtherError.
Proof.
  split; [reflexivity|]. split; [no_word|]. split; [no_word|]. split; [exact default_euler_legal|]. split; [cbn; auto|]. vm_compute. auto 10.
Qed.

(** ** C86 *)
(** A text that can be read in a format, as an ideal, a square free ideal, a list of ideals or a polynomial, is detected as that format.
    So no text can be read in two formats, and naming the input format never changes what is read. *)
Theorem C86_detection : forall max f file,
  ((exists J, read_ideal max f file = Ok J) \/ (exists B, read_square_free max f file = Ok B) \/ (exists Js, read_ideals max f file = Ok Js) \/
   (exists p, read_polynomial max f file = Ok p)) ->
  autoDetect file = f.
Proof. exact detect_readable. Qed.
Print Assumptions C86_detection.
Example C86_ex : read_ideals 18446744073709551615 NewMonos ($" (lex-order x)") = Ok ([$"x"], []) /\
  read_polynomial 18446744073709551615 Fourti2 ($"1 2  -3 4 (coefficient) x") = Ok ([$"x"], [(-3, [4])])%Z.
Proof. vm_compute. auto. Qed.
(** The output is in the format that was asked for, or else in the one in which the input can be read. *)
Theorem C86_output_format : forall o o' max f file, (exists J, read_ideal max f file = Ok J) ->
  (out_format o file = match o_out o with Some g => g | None => match o_in o with Some g => g | None => f end end) /\
  (oo_output o' file = match oo_out o' with Some g => g | None => match oo_in o' with Some g => g | None => f end end).
Proof. exact output_formats. Qed.
Print Assumptions C86_output_format.
