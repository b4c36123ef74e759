(** C122: the output formats count and null. *)
From Coq Require Import String Ascii.
From Coq Require Import List Arith Bool ZArith Lia Sorted Permutation.
Import ListNotations.
From Verif Require Import M_Term M_Names M_IO Spec_IO Spec_Names M_Api M_Msm M_Cli Spec_Slice Spec_Run P_Names P_Main2 M_IOPoly M_Cli3 M_Main M_Count Spec_Main P_Count2 P_Count3 Spec_Poly Spec_Bigatti Spec_Hilbert T_Slice T_Main T_Cli.
From Verif Require Import Spec Spec_Api Spec_Cli Spec_Cli2 Spec_Cli3 Spec_Count.
Local Notation length := List.length.
Local Notation descending := Spec_Cli.descending.
Local Notation "$ s" := (list_ascii_of_string s%string) (at level 0, s at level 0, only parsing).

(** With count, irrdecom prints for each irreducible component a line with the number of its generators, and with -encode one line with the
    number of irreducible components; with null it prints nothing. *)
Theorem C122_irrdecom : forall w args v i s file names gens,
  command args "irrdecom" v -> input_choice v i -> sink_choice v s -> split_choice v -> reads_as w v i file names gens ->
  exists names' gens' D, output_ring (on v "canon") names gens names' gens' /\ irreducible_decomposition (length names') gens' D /\ (on v "canon" = true -> descending D) /\
    frobby_sink w args file = Ok (counts s (if on v "encode" then [length D] else map (fun c => length (irreducible_generators (length names') c)) D)).
Proof. exact n_irrdecom. Qed.
Print Assumptions C122_irrdecom.
(** maxstandard prints the number of maximal standard monomials, assoprimes that of associated primes. *)
Theorem C122_maxstandard : forall w args v i s file names gens,
  command args "maxstandard" v -> input_choice v i -> sink_choice v s -> split_choice v -> reads_as w v i file names gens ->
  exists names' gens' L, output_ring (on v "canon") names gens names' gens' /\ NoDup L /\ (forall m, In m L <-> max_standard (length names') gens' m) /\
    frobby_sink w args file = Ok (counts s [length L]).
Proof. exact n_maxstandard. Qed.
Print Assumptions C122_maxstandard.
Theorem C122_assoprimes : forall w args v i s file names gens,
  command args "assoprimes" v -> input_choice v i -> sink_choice v s -> split_choice v -> reads_as w v i file names gens ->
  exists names' gens' Ss, output_ring (on v "canon") names gens names' gens' /\ NoDup Ss /\ (forall p, In p Ss <-> associated_prime (length names') gens' p) /\
    frobby_sink w args file = Ok (counts s [length Ss]).
Proof. exact n_assoprimes. Qed.
Print Assumptions C122_assoprimes.
(** primdecom prints for each component of the primary decomposition of C77 the number of its minimal generators. *)
Theorem C122_primdecom : forall w args v i s file names gens,
  command args "primdecom" v -> input_choice v i -> sink_choice v s -> split_choice v -> reads_as w v i file names gens ->
  exists names' gens' D Gs Bs Cs, let n := length names' in
  output_ring (on v "canon") names gens names' gens' /\ irreducible_decomposition n gens' D /\ descending D /\ support_runs n D Gs /\ Forall2 (same_support_intersection n) Gs Bs /\
  (forall m, length m = n -> (in_ideal gens' m <-> forall B, In B Bs -> in_ideal B m)) /\
  (if on v "canon" then same_lists Bs Cs else Cs = Bs) /\
  frobby_sink w args file = Ok (counts s (map (@length mono) Cs)).
Proof. exact n_primdecom. Qed.
Print Assumptions C122_primdecom.
(** alexdual prints the number of minimal generators of the Alexander dual, or reports the same error. *)
Theorem C122_alexdual : forall w args v i s file names gens point, command args "alexdual" v -> input_choice v i -> sink_choice v s -> split_choice v ->
  read_dual (w_max w) (input_format i file) file = Ok (names, map znat gens, option_map znat point) ->
  (on v "minimal" = true -> lists_minimal_generators (length names) gens gens) -> (on v "canon" = true -> point = None \/ ascending names) ->
  exists names' gens', output_ring (on v "canon") names gens names' gens' /\
  let n := length names' in
  let prints a := exists L, lists_minimal n (in_alexander_dual gens' a) L /\ frobby_sink w args file = Ok (counts s [length L]) in
  match point with
  | None => exists a, lcm_of_minimal_generators n gens' a /\ prints a
  | Some a => names' = names /\ gens' = gens /\ (above_minimal_generators n gens' a -> prints a) /\ (~ above_minimal_generators n gens' a -> frobby_sink w args file = OtherError)
  end.
Proof. exact n_alexdual. Qed.
Print Assumptions C122_alexdual.
(** transform and intersection print the number of generators of each ideal that they would write in another format, or report the same
    error. *)
Theorem C122_transform : forall w args args' v v' i s o file, command args "transform" v -> command args' "transform" v' -> same_but_format v v' ->
  input_choice v i -> sink_choice v s -> output_choice v' o ->
  (exists names Js, frobby w args' file = write_ideals (output_format i o file) names Js /\
     frobby_sink w args file = Ok (counts s (map (fun J => length (snd J)) Js))) \/
  (frobby w args' file = frobby_sink w args file /\ forall out, frobby_sink w args file <> Ok out).
Proof. exact n_transform. Qed.
Print Assumptions C122_transform.
Theorem C122_intersection : forall w args args' v v' i s o file, command args "intersection" v -> command args' "intersection" v' -> same_but_format v v' ->
  input_choice v i -> sink_choice v s -> output_choice v' o ->
  (exists names gens, frobby w args' file = write_ideal (output_format i o file) names gens /\ frobby_sink w args file = Ok (counts s [length gens])) \/
  (frobby w args' file = frobby_sink w args file /\ forall out, frobby_sink w args file <> Ok out).
Proof. exact n_intersection. Qed.
Print Assumptions C122_intersection.
(** hilbert prints the number of terms of the numerator of the Hilbert series, multigraded or in one variable, whatever the algorithm. *)
Theorem C122_hilbert_multigraded : forall w args v i s file names gens, let ho := hilbert_opts w v i None in
  command args "hilbert" v -> input_choice v i -> sink_choice v s -> reads_as w v i file names gens ->
  hilbert_choice ho -> rearranging (w_machine w) -> deformable ho names gens -> on v "univariate" = false ->
  exists names' gens' steps, output_ring (on v "canon") names gens names' gens' /\ forall fuel, steps <= fuel -> exists p,
    normal_poly (length names') p /\ multigraded_numerator (length names') gens' p /\
    frobby_sink (with_fuel w fuel) args file = Ok (counts s [length p]).
Proof. exact n_hilbert_multi. Qed.
Print Assumptions C122_hilbert_multigraded.
Theorem C122_hilbert_univariate : forall w args v i s file names gens, let ho := hilbert_opts w v i None in
  command args "hilbert" v -> input_choice v i -> sink_choice v s -> reads_as w v i file names gens ->
  hilbert_choice ho -> rearranging (w_machine w) -> deformable ho names gens -> on v "univariate" = true ->
  exists steps, forall fuel, steps <= fuel -> exists q,
    normal_poly 1 (uni_poly q) /\ univariate_numerator (length names) gens q /\
    frobby_sink (with_fuel w fuel) args file = Ok (counts s [length q]).
Proof. exact n_hilbert_uni. Qed.
Print Assumptions C122_hilbert_univariate.
(** ptransform prints the number of terms of the polynomial that it would write in another format, or reports the same error. *)
Theorem C122_ptransform : forall w args args' v v' i s o file, command args "ptransform" v -> command args' "ptransform" v' -> same_but_format v v' ->
  input_choice v i -> sink_choice v s -> output_choice v' o ->
  (exists names p, frobby w args' file = write_polynomial (output_format i o file) names p /\ frobby_sink w args file = Ok (counts s [length p])) \/
  (frobby w args' file = frobby_sink w args file /\ forall out, frobby_sink w args file <> Ok out).
Proof. exact n_ptransform. Qed.
Print Assumptions C122_ptransform.
(** An input that is not an ideal is reported all the same, even if nothing would be printed. *)
Theorem C122_errors : forall w args a v i s file, command args a v -> In a ["irrdecom"; "primdecom"; "assoprimes"; "maxstandard"]%string ->
  input_choice v i -> sink_choice v s -> split_choice v ->
  match read_ideal (w_max w) (input_format i file) file with
  | Ok _ => True
  | SyntaxError => frobby_sink w args file = SyntaxError
  | OtherError => frobby_sink w args file = OtherError
  | InvalidArgument => frobby_sink w args file = InvalidArgument
  | OutOfFuel => frobby_sink w args file = OutOfFuel
  | Undefined => frobby_sink w args file = Undefined
  end.
Proof. exact n_errors. Qed.
Print Assumptions C122_errors.

(** The hypotheses can hold *)
Definition count_args (action : string) : list str := [lit action; $"-of"; $"cou"; $"-canon"].
Definition count_v (action : string) : valuation := value_of (table action) [($"oformat", VStr ($"cou")); ($"canon", VBool true)].
Lemma count_command action : In action ["irrdecom"; "primdecom"; "alexdual"; "assoprimes"; "maxstandard"; "transform"; "intersection"; "hilbert"; "ptransform"]%string ->
  command (count_args action) action (count_v action).
Proof.
  intros H. exists (lit action), [$"-of"; $"cou"; $"-canon"], (table action), [($"oformat", VStr ($"cou")); ($"canon", VBool true)]. split; [reflexivity|].
  cbn [In] in H.
  split; [decompose [or] H; try contradiction; subst; (split; [in_table; fail|left; reflexivity])|].
  split; [decompose [or] H; try contradiction; subst; (in_table; fail)|].
  split; [|reflexivity].
  exists [[$"-of"; $"cou"]; [$"-canon"]]. split; [reflexivity|].
  decompose [or] H; try contradiction; subst; clear H; (apply Forall2_cons; [setting|apply Forall2_cons; [setting|apply Forall2_nil]]).
Qed.
Lemma count_choices action : In action ["irrdecom"; "primdecom"; "alexdual"; "assoprimes"; "maxstandard"]%string ->
  input_choice (count_v action) None /\ sink_choice (count_v action) Counting /\ split_choice (count_v action).
Proof.
  intros H. cbn [In] in H. decompose [or] H; try contradiction; subst;
  (split; [reflexivity|]; split; [exists ($"count"); split; [abbreviation|cbn [In]; auto]|exists ($"median"); split; [abbreviation|vm_compute; intuition discriminate]]).
Qed.
Example C122_ex : reads_as some_world (count_v "irrdecom") None input_zy [$"z"; $"y"] [[2; 0]; [1; 1]] /\ frobby_sink some_world (count_args "irrdecom") input_zy = Ok ($"2
1
") /\ frobby_sink some_world [$"irrdecom"; $"-encode"; $"-oformat"; $"count"] input_zy = Ok ($"2
") /\ frobby_sink some_world (count_args "maxstandard") input_zy = Ok ($"1
") /\ frobby_sink some_world (count_args "assoprimes") input_zy = Ok ($"2
") /\ frobby_sink some_world (count_args "primdecom") input_zy = Ok ($"2
1
") /\ frobby_sink some_world (count_args "alexdual") input_zy = Ok ($"2
") /\ frobby_sink some_world [$"irrdecom"; $"-oformat"; $"null"] input_zy = Ok [] /\ frobby_sink some_world [$"irrdecom"; $"-oformat"; $"null"] ($"vars x; [y];") = SyntaxError.
Proof. split; [split; [vm_compute; reflexivity|discriminate]|]. repeat (split; [vm_compute; reflexivity|]). vm_compute. reflexivity. Qed.
(** The ideals of the test t11 of test/idealFormats *)
Example C122_ex_lists : same_but_format (count_v "transform") (value_of (table "transform") [($"oformat", VStr ($"m2")); ($"canon", VBool true)]) /\ frobby_sink some_world [$"transform"; $"-oformat"; $"count"] ($"vars x, y;
[];
[x, y];
[1];
") = Ok ($"0
2
1
") /\ frobby_sink some_world (count_args "intersection") ($"vars x, y;
[x, y^2];
[x^2, y];
") = Ok ($"3
").
Proof.
  split; [|split; vm_compute; reflexivity]. intros x N. unfold count_v.
  assert (E : forall t, value_of (table "transform") [($"oformat", VStr t); ($"canon", VBool true)] x = value_of (table "transform") [($"canon", VBool true)] x).
  { intros t. unfold value_of. cbn [rev app find fst snd]. destruct (str_dec ($"canon") x); [reflexivity|].
    destruct (str_dec ($"oformat") x) as [X|]; [|reflexivity]. exfalso. apply N. symmetry. exact X. }
  now rewrite !E.
Qed.
Example C122_ex_polynomials : let v := count_v "hilbert" in let u := value_of (table "hilbert") [($"oformat", VStr ($"cou")); ($"univariate", VBool true)] in
  command (count_args "hilbert") "hilbert" v /\ command [$"hilbert"; $"-of"; $"cou"; $"-univariate"] "hilbert" u /\
  input_choice v None /\ sink_choice v Counting /\ input_choice u None /\ sink_choice u Counting /\
  reads_as some_world v None ($"R = QQ[x, y]; I = monomialIdeal(x^2, x*y);") [$"x"; $"y"] [[2; 0]; [1; 1]] /\
  hilbert_choice (hilbert_opts some_world v None None) /\ hilbert_choice (hilbert_opts some_world u None None) /\ rearranging (w_machine some_world) /\
  deformable (hilbert_opts some_world v None None) [$"x"; $"y"] [[2; 0]; [1; 1]] /\ on v "univariate" = false /\ on u "univariate" = true /\
  frobby_sink (with_fuel some_world 99) (count_args "hilbert") ($"R = QQ[x, y]; I = monomialIdeal(x^2, y^2);") = Ok ($"4
") /\ frobby_sink (with_fuel some_world 99) [$"hilbert"; $"-of"; $"cou"; $"-univariate"] ($"R = QQ[x, y]; I = monomialIdeal(x^2, y^2);") = Ok ($"3
") /\ frobby_sink (with_fuel some_world 99) [$"hilbert"; $"-of"; $"cou"; $"-algorithm"; $"slice"] ($"R = QQ[x, y]; I = monomialIdeal(x^2, y^2);") = Ok ($"4
") /\ frobby_sink (with_fuel some_world 99) [$"hilbert"; $"-of"; $"null"; $"-algorithm"; $"deform"] ($"R = QQ[x, y]; I = monomialIdeal(x^2, y^2);") = Ok [] /\
  frobby_sink some_world (count_args "ptransform") ($"R = QQ[x, y]; p = 2*x^2 + y - 3;") = Ok ($"3
") /\ frobby_sink some_world (count_args "ptransform") ($"R = QQ[x, y]; p = 2*z;") = SyntaxError.
Proof.
  cbv zeta. split; [apply count_command; cbn; tauto|]. split.
  { exists (lit "hilbert"), [$"-of"; $"cou"; $"-univariate"], (table "hilbert"), [($"oformat", VStr ($"cou")); ($"univariate", VBool true)]. split; [reflexivity|].
    split; [split; [in_table; fail|left; reflexivity]|]. split; [in_table; fail|]. split; [|reflexivity].
    exists [[$"-of"; $"cou"]; [$"-univariate"]]. split; [reflexivity|]. apply Forall2_cons; [setting|apply Forall2_cons; [setting|apply Forall2_nil]]. }
  split; [reflexivity|]. split; [exists ($"count"); split; [abbreviation|cbn [In]; auto]|].
  split; [reflexivity|]. split; [exists ($"count"); split; [abbreviation|cbn [In]; auto]|].
  split; [split; [vm_compute; reflexivity|discriminate]|].
  split; [left; split; [reflexivity|]; exists ($"median"); abbreviation|]. split; [left; split; [reflexivity|]; exists ($"median"); abbreviation|].
  split; [repeat split; intros k l; apply Permutation_refl|]. split; [intros X; vm_compute in X; discriminate X|]. split; [reflexivity|]. split; [reflexivity|].
  vm_compute. repeat split.
Qed.
