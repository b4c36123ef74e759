(** Properties C91 to C96: the console program, from the command line and the text of the input to the text of the output. *)
From Coq Require Import String Ascii.
From Coq Require Import List Arith Bool ZArith Lia Sorted Permutation.
Import ListNotations.
From Verif Require Import M_Term M_Ideal M_Slice M_Msm M_Names M_IO Spec_IO M_Opt M_Api M_Analyze M_Cli M_Cli2 M_Cli3 M_Actions M_Frob M_IOPoly M_Transform M_Main Spec_Names Spec_Slice Spec_Run Spec_Opt Spec_Poly Spec_IOPoly Spec_Bigatti Spec_Hilbert Spec_Euler Spec_EulerCfg Spec_Dim.
From Verif Require Import T_Slice T_Cli T_Cli2 P_Cli12 P_Main P_Main2 P_Main3 P_Main4.
From Verif Require Import Spec Spec_Api Spec_Cli Spec_Cli2 Spec_Cli3 Spec_Main.
Local Open Scope list_scope.
Local Open Scope nat_scope.
Local Notation length := List.length.
Local Notation descending := Spec_Cli.descending.
Local Notation "$ s" := (list_ascii_of_string s%string) (at level 0, s at level 0, only parsing).

(** ** C91: the tokens after the action are read as the command line they are: groups of an option, whose name may be abbreviated, and its
    arguments; each option then has the value of its last setting, or its default.  Everything else is reported, and nothing can be read in
    two ways. *)
Theorem C91_command_line : forall options tokens, NoDup (map fst options) ->
  match parseCommandLine options tokens with
  | Ok p => exists settings, command_line options tokens settings /\ map fst p = map fst options /\
      forall x v, In (x, v) p <-> In x (map fst options) /\ value_of options settings x = Some v
  | OtherError => forall settings, ~ command_line options tokens settings
  | _ => False
  end.
Proof. exact p_command_line. Qed.
Print Assumptions C91_command_line.
Theorem C91_unique : forall options tokens settings settings', NoDup (map fst options) ->
  command_line options tokens settings -> command_line options tokens settings' -> settings = settings'.
Proof. exact p_command_unique. Qed.
Print Assumptions C91_unique.
(** The options of each action have different names. *)
Theorem C91_tables : forall action options, In (action, options) options_of -> NoDup (map fst options).
Proof. intros action options H. destruct (all_options action options H) as (act & _ & S). apply (same_options_spec _ _ S). Qed.
Print Assumptions C91_tables.
Definition few : list (str * value) := [($"canon", VBool false); ($"count", VInt 1); ($"split", VStr ($"median"))].
Example C91_ex : NoDup (map fst few) /\
  parseCommandLine few [$"-s"; $"gcd"; $"-cou"; $" 1 2"; $"-can"; $"-split"; $"degree"; $"-ca"; $"off"] = Ok [($"canon", VBool false); ($"count", VInt 12); ($"split", VStr ($"degree"))] /\
  parseCommandLine few [$"-c"] = OtherError /\ parseCommandLine few [$"gcd"] = OtherError /\ parseCommandLine few [$"-count"; $"4294967296"] = OtherError /\
  parseCommandLine few [$"-count"; $"-1"] = OtherError /\ parseCommandLine few [$"-canon"; $"yes"] = OtherError.
Proof. split; [apply str_nodup; reflexivity|]. vm_compute. auto 10. Qed.

(** ** C92: only the action and the values of its options matter, not how they are written; unknown or ambiguous names are reported. *)
Theorem C92_same_command : forall w args args' file action v v', command args action v -> command args' action v' -> (forall x, v x = v' x) ->
  frobby w args file = frobby w args' file.
Proof. exact p_same_command. Qed.
Print Assumptions C92_same_command.
Theorem C92_unknown_action : forall w a tokens file, (forall x, ~ abbreviates action_names a x) -> frobby w (a :: tokens) file = OtherError.
Proof. exact p_unknown_action. Qed.
Print Assumptions C92_unknown_action.
Theorem C92_bad_options : forall w a tokens file action options, abbreviates action_names a action -> In (action, options) options_of ->
  (forall settings, ~ command_line options tokens settings) -> frobby w (a :: tokens) file = OtherError.
Proof. exact p_bad_options. Qed.
Print Assumptions C92_bad_options.
Theorem C92_unknown_input_format : forall w args a v file, command args a v -> ~ In a ["frobdyn"; "genideal"; "genfrob"; "frobgrob"; "latformat"]%string -> (a = "dimension"%string -> on v "useSlice" = false) ->
  unknown_format "autodetect" (word v "iformat") -> frobby w args file = OtherError.
Proof. exact p_unknown_input. Qed.
Print Assumptions C92_unknown_input_format.
Theorem C92_unknown_output_format : forall w args a v file, command args a v -> In a (slice_actions ++ format_actions) -> (exists i, input_choice v i) ->
  unknown_format "input" (word v "oformat") -> frobby w args file = OtherError.
Proof. exact p_unknown_output. Qed.
Print Assumptions C92_unknown_output_format.
Theorem C92_unknown_split : forall w args a v file, command args a v -> In a slice_actions -> unknown_split v -> frobby w args file = OtherError.
Proof. exact p_unknown_split. Qed.
Print Assumptions C92_unknown_split.
(** A command line to show that the hypotheses can hold *)
Definition some_world : world :=
  World 18446744073709551615 2147483647 64 no_random (fun t i => t + i) 100 (Machine (fun k => k) (fun _ l => l) (fun _ l => l) (fun _ l => l) (fun _ l => l) 100).
Definition short_args : list str := [$"irr"; $"-c"; $"-of"; $"m2"; $"-e"; $"off"; $"-sp"; $"gcd"].
Definition long_args : list str := [$"irrdecom"; $"-split"; $"median"; $"-oformat"; $"m2"; $"-split"; $"gcd"; $"-canon"; $"on"].
Definition short_settings : list (str * value) := [($"canon", VBool true); ($"oformat", VStr ($"m2")); ($"encode", VBool false); ($"split", VStr ($"gcd"))].
Definition long_settings : list (str * value) := [($"split", VStr ($"median")); ($"oformat", VStr ($"m2")); ($"split", VStr ($"gcd")); ($"canon", VBool true)].
Definition short_v : valuation := value_of (table "irrdecom") short_settings.
Lemma short_abbreviates names p x : getUniqueNameWithPrefix (map (fun y => (y, tt)) names) p = Found x -> nodupb names = true -> abbreviates names p x.
Proof.
  intros H N. assert (E : map fst (map (fun y => (y, tt)) names) = names) by (rewrite map_map; apply map_id).
  pose proof (lookup_abbreviates (map (fun y => (y, tt)) names) p) as L. rewrite E, H in L. apply L. now apply str_nodup.
Qed.
Ltac abbreviation := apply short_abbreviates; vm_compute; reflexivity.
Ltac setting := eexists; eexists; eexists; split; [reflexivity|]; split; [abbreviation|]; split; [in_table|]; split;
  [repeat constructor; intros [? H]; discriminate H|cbn; eauto].
Lemma short_command : command short_args "irrdecom" short_v.
Proof.
  exists ($"irr"), (tl short_args), (table "irrdecom"), short_settings. split; [reflexivity|]. split; [abbreviation|]. split; [in_table|]. split; [|reflexivity].
  exists [[$"-c"]; [$"-of"; $"m2"]; [$"-e"; $"off"]; [$"-sp"; $"gcd"]]. split; [reflexivity|]. repeat (constructor; [setting|]). constructor.
Qed.
Lemma long_command : command long_args "irrdecom" (value_of (table "irrdecom") long_settings).
Proof.
  exists ($"irrdecom"), (tl long_args), (table "irrdecom"), long_settings. split; [reflexivity|]. split; [abbreviation|]. split; [in_table|]. split; [|reflexivity].
  exists [[$"-split"; $"median"]; [$"-oformat"; $"m2"]; [$"-split"; $"gcd"]; [$"-canon"; $"on"]]. split; [reflexivity|]. repeat (constructor; [setting|]). constructor.
Qed.
Definition printed_zy : text := $"R = QQ[y, z];
I = monomialIdeal(
 y,
 z^2
);
I = monomialIdeal(
 z
);
".
Example C92_ex : command short_args "irrdecom" short_v /\ command long_args "irrdecom" (value_of (table "irrdecom") long_settings) /\
  (forall x, short_v x = value_of (table "irrdecom") long_settings x) /\
  frobby some_world short_args input_zy = Ok printed_zy /\ frobby some_world long_args input_zy = Ok printed_zy /\
  (forall x, ~ abbreviates action_names ($"a") x) /\ frobby some_world [$"a"] input_zy = OtherError /\
  frobby some_world [$"irr"; $"-s"] input_zy = OtherError /\ unknown_format "input" ($"n") /\ unknown_format "autodetect" ($"M2").
Proof.
  split; [exact short_command|]. split; [exact long_command|]. split.
  { intros x. unfold short_v, value_of. cbn [rev short_settings long_settings app find fst]. destruct (str_dec ($"split") x) as [<-|A]; [reflexivity|]. destruct (str_dec ($"encode") x) as [<-|B].
    { reflexivity. }
    destruct (str_dec ($"canon") x) as [<-|D]; [destruct (str_dec ($"oformat") ($"canon")); [discriminate|reflexivity]|]. destruct (str_dec ($"oformat") x); reflexivity. }
  split; [vm_compute; reflexivity|]. split; [vm_compute; reflexivity|]. split.
  { pose proof (lookup_abbreviates actionFactory ($"a") action_nodup) as H. rewrite action_factory in H. exact H. }
  split; [vm_compute; reflexivity|]. split; [vm_compute; reflexivity|]. split; (split; [discriminate|]).
  - pose proof (lookup_abbreviates formatFactory ($"n") format_nodup) as H. rewrite format_factory in H. exact H.
  - apply not_prefix. reflexivity.
Qed.

(** ** C93: each action gets the values of its options. *)
Theorem C93_slice_actions : forall w args v i o file, input_choice v i -> output_choice v o -> split_choice v ->
  let with_options (run : options -> res text) := exists c, legal_config c /\ c_indep c = on v "independence" /\ c_simp c = on v "simplify" /\
    frobby w args file = run (slice_opts w v i o c) in
  (command args "irrdecom" v -> with_options (fun o => irrdecom_action o (on v "encode") (w_rand w) file)) /\
  (command args "primdecom" v -> with_options (fun o => primdecom_action o (w_rands w) file)) /\
  (command args "alexdual" v -> with_options (fun o => alexdual_action o (w_rand w) file)) /\
  (command args "assoprimes" v -> with_options (fun o => assoprimes_action o (w_rand w) file)) /\
  (command args "maxstandard" v -> with_options (fun o => maxstandard_action o (on v "increment") (w_rand w) file)).
Proof.
  intros w args v i o file I O S with_options. split; [|split; [|split; [|split]]]; intros C.
  - exact (p_irrdecom w args v i o file C I O S).
  - exact (p_primdecom w args v i o file C I O S).
  - exact (p_alexdual w args v i o file C I O S).
  - exact (p_assoprimes w args v i o file C I O S).
  - exact (p_maxstandard w args v i o file C I O S).
Qed.
Print Assumptions C93_slice_actions.
Theorem C93_dimension : forall w args v i file, command args "dimension" v -> input_choice v i ->
  frobby w args file = dimension_action (DO (w_max w) (if on v "useSlice" then None else i) (on v "codim") (on v "squareFreeAndMinimal") (on v "useSlice")) (w_rand w) file.
Proof. exact p_dimension. Qed.
Print Assumptions C93_dimension.
(** Of the options -bound and -boundSimplify only the second one has an effect, see DESIGN.md. *)
Theorem C93_optimize : forall w args v i o file, command args "optimize" v -> input_choice v i -> output_choice v o -> (exists x, abbreviates split_names (word v "split") x) ->
  exists q, legal_oparams q /\ op_simp q = on v "simplify" /\ op_elim q = on v "boundSimplify" /\ op_bsimp q = true /\
    frobby w args file = optimize_print (OO (w_max w) i o (on v "canon") (on v "minimal") q (on v "displayValue")
      (mkOo (amount v "displayLevel") (on v "maxStandard") (on v "chopFirstAndSubtract") (on v "minValue"))) (w_rand w) file.
Proof. exact p_optimize. Qed.
Print Assumptions C93_optimize.
Theorem C93_hilbert : forall w args v i o file, command args "hilbert" v -> input_choice v i -> output_choice v o ->
  frobby w args file = hilbert_action (hilbert_opts w v i o) (w_machine w) file.
Proof. exact p_hilbert. Qed.
Print Assumptions C93_hilbert.
Theorem C93_euler : forall w args v i file, command args "euler" v -> input_choice v i ->
  frobby w args file = euler_print (EO (w_max w) i (word v "pivot") (word v "stdPivot") (word v "genPivot") (word v "autotranspose")
    (on v "uniqueDiv") (on v "manyDiv") (on v "impliedDiv") (on v "swap01") (w_word w) (w_rands w) (w_tries w)) (m_fuel (w_machine w)) file.
Proof. exact p_euler. Qed.
Print Assumptions C93_euler.
Theorem C93_analyze : forall w args v i o file, command args "analyze" v -> input_choice v i -> output_choice v o ->
  frobby w args file = analyze_action (AO (w_max w) i o (amount v "summaryLevel") (on v "lcm") (on v "varCount") (on v "genCount") (on v "maxExp") (on v "minimal")) file.
Proof. exact p_analyze. Qed.
Print Assumptions C93_analyze.
Theorem C93_intersection : forall w args v i o file, command args "intersection" v -> input_choice v i -> output_choice v o ->
  frobby w args file = intersection_action (w_max w) (input_format i file) (output_format i o file) (on v "canon") file.
Proof. exact p_intersection. Qed.
Print Assumptions C93_intersection.
Theorem C93_transform : forall w args v i o file, command args "transform" v -> input_choice v i -> output_choice v o ->
  frobby w args file = transform_action (w_max w) (input_format i file) (output_format i o file)
    {| M_Transform.o_canon := on v "canon"; o_sort := on v "sort"; o_unique := on v "unique"; o_minimize := on v "minimize"; o_deform := on v "deform";
       o_radical := on v "radical"; o_product := on v "product"; o_addPurePowers := on v "addPurePowers"; o_trimVariables := on v "trimVariables";
       o_transpose := on v "transpose"; o_swap01 := on v "swap01"; o_projectVar := amount v "projectVar" |} file.
Proof. exact p_transform. Qed.
Print Assumptions C93_transform.
Theorem C93_ptransform : forall w args v i o file, command args "ptransform" v -> input_choice v i -> output_choice v o ->
  frobby w args file = ptransform (w_max w) (on v "canon") (on v "sort") i o file.
Proof. exact p_ptransform. Qed.
Print Assumptions C93_ptransform.
Theorem C93_frobdyn : forall w args v file, command args "frobdyn" v -> frobby w args file = frobdyn (m_fuel (w_machine w)) (w_max_int w) file.
Proof. exact p_frobdyn. Qed.
Print Assumptions C93_frobdyn.
(** The output format of the other two actions that may guess it (compare C86) *)
Theorem C93_output_format : forall w v i o file, ho_output (hilbert_opts w v i o) file = output_format i o file /\
  forall a, ao_output a file = output_format (ao_in a) (ao_out a) file /\ ao_input a file = input_format (ao_in a) file.
Proof. intros. repeat split. Qed.
Print Assumptions C93_output_format.
Lemma short_input : input_choice short_v None.
Proof. reflexivity. Qed.
Lemma short_output : output_choice short_v (Some M2).
Proof. exists ($"m2"). split; [abbreviation|in_table]. Qed.
Lemma short_split : split_choice short_v.
Proof. exists ($"gcd"). split; [abbreviation|]. vm_compute. intuition discriminate. Qed.
Definition other_args (a : string) (tokens : list string) : list str := lit a :: map lit tokens.
Example C93_ex : command short_args "irrdecom" short_v /\ input_choice short_v None /\ output_choice short_v (Some M2) /\ split_choice short_v /\
  frobby some_world (other_args "dim" ["-codim"]%string) input_zy = Ok ($"1
") /\ frobby some_world (other_args "opt" ["-displayL"; "2"; "-max"; "-of"; "4ti2"]%string) ($"vars x; [x^3]; 5") = Ok ($"1 1
 2
 x
10
") /\ frobby some_world (other_args "hil" ["-uni"; "-of"; "coc"]%string) ($"vars x, y; [x^2, y];") = Ok ($"Use R ::= Q[x[1..1]];
Names := [""t""];
p :=
 1
 -x[1]
 -x[1]^2
 +x[1]^3;
") /\ frobby some_world (other_args "an" ["-maxE"; "-varC"; "-summary"; "0"]%string) input_zy = Ok ($"2
2
").
Proof.
  split; [exact short_command|]. split; [exact short_input|]. split; [exact short_output|]. split; [exact short_split|]. vm_compute. auto.
Qed.

(** ** C94: what the program prints for the ideal in the input, from the command line and the text of the input to the text of the output,
    for every way of splitting and every random choice: decompositions. *)
Theorem C94_irrdecom : forall w args v i o file names gens,
  command args "irrdecom" v -> input_choice v i -> output_choice v o -> split_choice v -> reads_as w v i file names gens ->
  on v "encode" = true \/ list_format (output_format i o file) ->
  exists names' gens' D out, output_ring (on v "canon") names gens names' gens' /\ irreducible_decomposition (length names') gens' D /\
    (on v "canon" = true -> descending D) /\ frobby w args file = Ok out /\
    if on v "encode" then shows_ideal (w_max w) (output_format i o file) names' D out
    else shows_ideals (w_max w) (output_format i o file) names' (map (irreducible_generators (length names')) D) out.
Proof. exact e_irrdecom. Qed.
Print Assumptions C94_irrdecom.
Theorem C94_maxstandard : forall w args v i o file names gens,
  command args "maxstandard" v -> input_choice v i -> output_choice v o -> split_choice v -> reads_as w v i file names gens ->
  list_format (output_format i o file) ->
  exists names' gens' L out, output_ring (on v "canon") names gens names' gens' /\ NoDup L /\
    (forall m, In m L <-> if on v "increment" then exists s, max_standard (length names') gens' s /\ m = map S s else max_standard (length names') gens' m) /\
    (on v "canon" = true -> descending L) /\ frobby w args file = Ok out /\ shows_ideal (w_max w) (output_format i o file) names' L out.
Proof. exact e_maxstandard. Qed.
Print Assumptions C94_maxstandard.
Theorem C94_assoprimes : forall w args v i o file names gens,
  command args "assoprimes" v -> input_choice v i -> output_choice v o -> split_choice v -> reads_as w v i file names gens ->
  list_format (output_format i o file) ->
  exists names' gens' Ss out, output_ring (on v "canon") names gens names' gens' /\ NoDup Ss /\ (forall s, In s Ss <-> associated_prime (length names') gens' s) /\
    (on v "canon" = true -> descending Ss) /\ frobby w args file = Ok out /\ shows_ideal (w_max w) (output_format i o file) names' Ss out.
Proof. exact e_assoprimes. Qed.
Print Assumptions C94_assoprimes.
Theorem C94_primdecom : forall w args v i o file names gens,
  command args "primdecom" v -> input_choice v i -> output_choice v o -> split_choice v -> reads_as w v i file names gens ->
  list_format (output_format i o file) ->
  exists names' gens' D Gs Bs Cs out, let n := length names' in
  output_ring (on v "canon") names gens names' gens' /\ irreducible_decomposition n gens' D /\ descending D /\ support_runs n D Gs /\ Forall2 (same_support_intersection n) Gs Bs /\
  (forall m, length m = n -> (in_ideal gens' m <-> forall B, In B Bs -> in_ideal B m)) /\
  (forall s, associated_prime n gens' s <-> exists B, In B Bs /\ length s = n /\ (forall i, nth i s 0 <= 1) /\ radical_is n B s) /\
  (if on v "canon" then same_lists Bs Cs /\ Forall descending Cs /\ StronglySorted (fun L K => ~ list_before K L) Cs else Cs = Bs) /\
  frobby w args file = Ok out /\ shows_ideals (w_max w) (output_format i o file) names' Cs out.
Proof. exact e_primdecom. Qed.
Print Assumptions C94_primdecom.
(** The output format has to have lists of ideals, and else there is an error whatever the input is (finding F38). *)
Theorem C94_no_lists : forall w args a v i o file, command args a v -> In a slice_actions -> a <> "alexdual"%string -> (a = "irrdecom"%string -> on v "encode" = false) ->
  input_choice v i -> output_choice v o -> split_choice v -> ~ list_format (output_format i o file) -> frobby w args file = OtherError.
Proof. exact e_no_lists. Qed.
Print Assumptions C94_no_lists.
Example C94_ex : command short_args "irrdecom" short_v /\ input_choice short_v None /\ output_choice short_v (Some M2) /\ split_choice short_v /\
  reads_as some_world short_v None input_zy [$"z"; $"y"] [[2; 0]; [1; 1]] /\ frobby some_world short_args input_zy = Ok printed_zy /\ list_format M2 /\ ~ list_format NewMonos /\
  frobby some_world (other_args "assop" ["-of"; "sing"]%string) input_zy = OtherError /\
  frobby some_world (other_args "prim" ["-can"; "-ind"; "off"]%string) input_zy = Ok ($"vars y, z;
[
 y,
 z^2
];
vars y, z;
[
 z
];
").
Proof.
  split; [exact short_command|]. split; [exact short_input|]. split; [exact short_output|]. split; [exact short_split|].
  split; [split; [reflexivity|discriminate]|]. split; [vm_compute; reflexivity|]. split; [left; reflexivity|]. split; [intros [H|[H|H]]; discriminate|]. vm_compute. auto.
Qed.

(** ** C95: and the dimension, the numerators of Hilbert-Poincare series and Euler characteristics.  What is missing for the series is what
    is missing in C87. *)
Theorem C95_dimension : forall w args v i file names gens, command args "dimension" v -> input_choice v i ->
  read_ideal (w_max w) (input_format i file) file = Ok (names, map znat gens) ->
  (on v "useSlice" = false -> on v "squareFreeAndMinimal" = true -> square_free gens /\ lists_minimal_generators (length names) gens gens) ->
  exists d, is_dimension (length names) gens d /\
    frobby w args file = Ok (line_with (if on v "codim" then Z.of_nat (length names) - d else d)).
Proof. exact e_dimension. Qed.
Print Assumptions C95_dimension.
Theorem C95_hilbert_multigraded_partial : forall w args v i o file names gens, let ho := hilbert_opts w v i o in
  command args "hilbert" v -> input_choice v i -> output_choice v o -> reads_as w v i file names gens ->
  hilbert_choice ho -> rearranging (w_machine w) -> polynomial_format (output_format i o file) -> deformable ho names gens -> on v "univariate" = false ->
  exists names' gens' steps, output_ring (on v "canon") names gens names' gens' /\ forall fuel, steps <= fuel -> exists p out,
    frobby (with_fuel w fuel) args file = Ok out /\
    normal_poly (length names') p /\ multigraded_numerator (length names') gens' p /\ (on v "canon" = true -> descending_terms p) /\
    (cocoa_readable (output_format i o file) p -> shows_polynomial (w_max w) (output_format i o file) names' (received p) out).
Proof. exact e_hilbert_multi. Qed.
Print Assumptions C95_hilbert_multigraded_partial.
Theorem C95_hilbert_univariate_partial : forall w args v i o file names gens, let ho := hilbert_opts w v i o in
  command args "hilbert" v -> input_choice v i -> output_choice v o -> reads_as w v i file names gens ->
  hilbert_choice ho -> rearranging (w_machine w) -> polynomial_format (output_format i o file) -> deformable ho names gens -> on v "univariate" = true ->
  exists steps, forall fuel, steps <= fuel -> exists q out,
    frobby (with_fuel w fuel) args file = Ok out /\
    normal_poly 1 (uni_poly q) /\ univariate_numerator (length names) gens q /\ (on v "canon" = true -> Spec_Hilbert.descending q) /\
    shows_polynomial (w_max w) (output_format i o file) [$"t"] (received (uni_poly q)) out.
Proof. exact e_hilbert_uni. Qed.
Print Assumptions C95_hilbert_univariate_partial.
Theorem C95_euler : forall w args v i file names gens, command args "euler" v -> input_choice v i ->
  In (word v "pivot") kinds_of_pivot -> legal_std (word v "stdPivot") -> legal_gen (word v "genPivot") -> In (word v "autotranspose") transpose_names ->
  on v "uniqueDiv" = true -> ~ mentions ($"random") (word v "stdPivot") -> ~ mentions ($"random") (word v "genPivot") ->
  read_square_free (w_max w) (input_format i file) file = Ok (names, gens) ->
  exists chi k, is_euler (length names) (action_faces (on v "swap01") gens) chi /\
    forall fuel, k <= fuel -> frobby (with_fuel w fuel) args file = Ok (line_with chi).
Proof. exact e_euler. Qed.
Print Assumptions C95_euler.
(** Without options *)
Lemma plain_command a : In (lit a) (map fst options_of) -> nodupb action_names = true -> In (lit a) action_names -> command [lit a] a (value_of (table a) []).
Proof.
  intros H _ Ha. exists (lit a), [], (table a), []. split; [reflexivity|]. split; [split; [exact Ha|left; reflexivity]|]. split; [|split; [exists []; auto|reflexivity]].
  unfold table. destruct (find _ options_of) as [[x l]|] eqn:F.
  - apply find_some in F. destruct F as [F1 F2]. cbn [fst] in F2. destruct (str_dec x (lit a)) as [->|]; [exact F1|discriminate].
  - apply in_map_iff in H. destruct H as [[y l] [E H]]. cbn in E. subst y. exfalso. apply (find_none _ _ F) in H. cbn [fst] in H. destruct (str_dec (lit a) (lit a)); congruence.
Qed.
Example C95_ex : (forall a, In a ["dimension"; "hilbert"; "euler"]%string -> command [lit a] a (value_of (table a) [])) /\
  let v := value_of (table "hilbert") [] in let e := value_of (table "euler") [] in
  input_choice v None /\ output_choice v None /\ reads_as some_world v None ($"R = QQ[x, y]; I = monomialIdeal(x^2, x*y);") [$"x"; $"y"] [[2; 0]; [1; 1]] /\
  hilbert_choice (hilbert_opts some_world v None None) /\ rearranging (w_machine some_world) /\ polynomial_format (output_format None None ($"R = QQ[x, y]; I = monomialIdeal(x^2, x*y);")) /\
  deformable (hilbert_opts some_world v None None) [$"x"; $"y"] [[2; 0]; [1; 1]] /\ on v "univariate" = false /\
  In (word e "pivot") kinds_of_pivot /\ legal_std (word e "stdPivot") /\ legal_gen (word e "genPivot") /\ In (word e "autotranspose") transpose_names /\
  on e "uniqueDiv" = true /\ ~ mentions ($"random") (word e "stdPivot") /\ ~ mentions ($"random") (word e "genPivot") /\
  frobby some_world [$"dimension"] input_zy = Ok ($"1
") /\ frobby some_world [$"euler"] file_circle = Ok ($"-1
").
Proof.
  split.
  { intros a Ha. apply plain_command; [|reflexivity|]; cbn [In] in Ha; (destruct Ha as [<-|[<-|[<-|[]]]]); in_table. }
  cbv zeta. split; [reflexivity|]. split; [reflexivity|]. split; [split; [vm_compute; reflexivity|discriminate]|].
  split; [left; split; [reflexivity|]; exists ($"median"); abbreviation|].
  split; [repeat split; intros k l; apply Permutation_refl|]. split; [left; reflexivity|]. split; [intros H; vm_compute in H; discriminate H|]. split; [reflexivity|].
  split; [in_table|]. split; [exists ($"popvar"); split; [in_table|left; reflexivity]|]. split; [apply LG1; in_table|]. split; [in_table|]. split; [reflexivity|].
  split; [|split].
  1-2: intros [a [b E]]; vm_compute in E; repeat (destruct a as [|? a]; cbn [app] in E; [discriminate E|injection E as _ E]); destruct a; discriminate E.
  vm_compute. auto.
Qed.

(** ** C96: with -canon the actions of C94 and alexdual print the same text for the same ideal, whatever the input format, the generators, the
    order of the variables, the options of the algorithm and the random choices; and whatever the bytes of the input and the options, the
    program prints something or reports an error. *)
Theorem C96_canonical : forall a w1 w2 args1 args2 v1 v2 i1 i2 o1 o2 file1 file2 names1 names2 gens1 gens2, In a slice_actions ->
  command args1 a v1 -> command args2 a v2 -> on v1 "canon" = true -> on v2 "canon" = true ->
  (a = "irrdecom"%string -> on v1 "encode" = on v2 "encode") -> (a = "maxstandard"%string -> on v1 "increment" = on v2 "increment") ->
  input_choice v1 i1 -> output_choice v1 o1 -> split_choice v1 -> input_choice v2 i2 -> output_choice v2 o2 -> split_choice v2 ->
  output_format i1 o1 file1 = output_format i2 o2 file2 ->
  reads_as w1 v1 i1 file1 names1 gens1 -> reads_as w2 v2 i2 file2 names2 gens2 -> same_input names1 gens1 names2 gens2 ->
  frobby w1 args1 file1 = frobby w2 args2 file2.
Proof. exact e_canonical. Qed.
Print Assumptions C96_canonical.
Theorem C96_reports_partial : forall w args a v file, command args a v -> In a slice_actions -> on v "minimal" = false ->
  modelled_format (word v "iformat") -> modelled_format (word v "oformat") -> plain_split v -> reports (frobby w args file).
Proof. exact e_reports. Qed.
Print Assumptions C96_reports_partial.
Theorem C96_reports_more_partial : forall w args a v file, command args a v ->
  (a = "dimension"%string /\ (on v "useSlice" = true \/ (on v "squareFreeAndMinimal" = false /\ modelled_format (word v "iformat")))) \/
  (a = "optimize"%string /\ on v "minimal" = false /\ modelled_format (word v "iformat") /\ modelled_format (word v "oformat")) \/
  (a = "analyze"%string /\ modelled_format (word v "iformat") /\ modelled_format (word v "oformat")) ->
  reports (frobby w args file).
Proof. exact e_reports_more. Qed.
Print Assumptions C96_reports_more_partial.
Example C96_ex : command short_args "irrdecom" short_v /\ on short_v "minimal" = false /\ modelled_format (word short_v "iformat") /\
  modelled_format (word short_v "oformat") /\ plain_split short_v /\
  frobby some_world short_args ($"vars x; [x^2, y];") = SyntaxError /\
  frobby some_world short_args ($"vars y, z; [y*z, y^3*z^2, z^2, y*z];") = frobby some_world long_args input_zy.
Proof.
  split; [exact short_command|]. split; [reflexivity|]. split; [|split; [|split]].
  - intros x A. exfalso. revert A. apply not_prefix. reflexivity.
  - intros x A. destruct short_output as (y & B & H). rewrite (abbreviates_unique _ _ _ _ A B). apply in_map_iff. exists (y, M2). auto.
  - intros x A D. destruct short_split as (y & B & H). rewrite (abbreviates_unique _ _ _ _ A B) in D. now destruct H.
  - vm_compute. auto.
Qed.
