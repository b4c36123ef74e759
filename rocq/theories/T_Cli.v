(** C75 to C80: the actions irrdecom, maxstandard, assoprimes, primdecom and alexdual from the bytes of the input to the bytes of the
    output. *)
From Coq Require Import String Ascii.
From Coq Require Import List Arith Bool ZArith Lia Sorted Permutation.
Import ListNotations.
From Verif Require Import M_Term M_Names M_IO Spec_IO Spec_Names M_Api M_Msm M_Cli Spec_Slice Spec_Run T_Slice T_Api P_Cli5 P_Cli6 P_Cli7 P_Cli8.
From Verif Require Import Spec Spec_Api Spec_Cli.
Local Notation length := List.length.
Local Notation "$ s" := (list_ascii_of_string s%string) (at level 0, s at level 0, only parsing).
Definition plain (canon : bool) : options := Opts 18446744073709551615 None None canon false default_config.
Definition input_zy : text := $"vars z, y;
[z^2, z*y];".
Lemma input_zy_is canon : input_is (plain canon) input_zy [$"z"; $"y"] [[2; 0]; [1; 1]].
Proof. split; [exact default_is_legal|]. split; [reflexivity|discriminate]. Qed.
Local Notation Y := ($"y").
Local Notation Z_ := ($"z").
Lemma output_zy : output_ring true [Z_; Y] [[2; 0]; [1; 1]] [Y; Z_] [[0; 2]; [1; 1]].
Proof.
  split; [apply perm_swap|]. split.
  - repeat constructor.
  - assert (H : forall a b, same_term 0 [Z_; Y] [Y; Z_] [a; b] [b; a]).
    { intros a b. split; auto. intros s. unfold exponent_of. cbn [index_of]. destruct (str_dec Y s) as [<-|A]; [reflexivity|]. destruct (str_dec Z_ s) as [<-|B]; reflexivity. }
    repeat constructor; apply H.
Qed.

(** ** C75 *)
(** irrdecom prints the irreducible decomposition of the ideal that was read: as a list of ideals generated by powers of variables, or
    with -encode as an ideal whose generators encode them; with -canon over the variables in ascending order and sorted. Without -encode the
    format of the output has to have lists of ideals. *)
Theorem C75_irrdecom : forall o (encode : bool) rnd file names gens, input_is o file names gens -> encode = true \/ list_format (out_format o file) -> exists names' gens' D out,
  output_ring (o_canon o) names gens names' gens' /\ irreducible_decomposition (length names') gens' D /\ (o_canon o = true -> descending D) /\
  irrdecom_action o encode rnd file = Ok out /\
  if encode then shows_ideal (o_max o) (out_format o file) names' D out
  else shows_ideals (o_max o) (out_format o file) names' (map (irreducible_generators (length names')) D) out.
Proof. exact irr_printed. Qed.
Print Assumptions C75_irrdecom.
(** In the other formats there is an error whatever the input is. *)
Theorem C75_no_lists : forall o rnd file, ~ list_format (out_format o file) -> irrdecom_action o false rnd file = OtherError.
Proof. exact irr_no_lists. Qed.
Print Assumptions C75_no_lists.
(** That irrdecom prints the decomposition in the format of the input, as it does unless told otherwise, is false for an input in the format of
    Singular (finding F38). *)
Theorem C75_input_format_refuted : exists file names gens, input_is (plain false) file names gens /\ out_format (plain false) file = Singular /\
  irrdecom_action (plain false) false no_random file = OtherError.
Proof.
  exists ($"ring R = 0, (x, y), lp;
int noVars = 0;
ideal I = x^2, x*y;"), [$"x"; $"y"], [[2; 0]; [1; 1]]. split; [split; [exact default_is_legal|split; [vm_compute; reflexivity|discriminate]]|]. split; vm_compute; reflexivity.
Qed.
Print Assumptions C75_input_format_refuted.
Example C75_ex : irrdecom_action (plain true) false no_random input_zy = Ok ($"vars y, z;
[
 y,
 z^2
];
vars y, z;
[
 z
];
") /\ irrdecom_action (plain false) true no_random input_zy = Ok ($"vars z, y;
[
 z,
 z^2*y
];
").
Proof. split; vm_compute; reflexivity. Qed.
Example C75_ex_lists : list_format (out_format (plain true) input_zy) /\ ~ list_format (out_format (Opts 100 None (Some CoCoA4) false false default_config) input_zy).
Proof. split; [right; left; reflexivity|]. intros [H|[H|H]]; discriminate. Qed.

(** ** C76 *)
(** maxstandard prints each maximal standard monomial once, with -increment multiplied by all the variables; assoprimes prints the
    support vector of each associated prime once. *)
Theorem C76_maxstandard : forall o (increment : bool) rnd file names gens, input_is o file names gens -> list_format (out_format o file) -> exists names' gens' L out,
  output_ring (o_canon o) names gens names' gens' /\ NoDup L /\
  (forall m, In m L <-> if increment then exists s, max_standard (length names') gens' s /\ m = map S s else max_standard (length names') gens' m) /\
  (o_canon o = true -> descending L) /\
  maxstandard_action o increment rnd file = Ok out /\ shows_ideal (o_max o) (out_format o file) names' L out.
Proof. exact max_printed. Qed.
Print Assumptions C76_maxstandard.
Theorem C76_assoprimes : forall o rnd file names gens, input_is o file names gens -> list_format (out_format o file) -> exists names' gens' Ss out,
  output_ring (o_canon o) names gens names' gens' /\ NoDup Ss /\ (forall s, In s Ss <-> associated_prime (length names') gens' s) /\ (o_canon o = true -> descending Ss) /\
  assoprimes_action o rnd file = Ok out /\ shows_ideal (o_max o) (out_format o file) names' Ss out.
Proof. exact ass_printed. Qed.
Print Assumptions C76_assoprimes.
(** Although they print one ideal, these actions report an error if the format does not have lists of ideals (finding F38). *)
Theorem C76_no_lists : forall o increment rnd file, ~ list_format (out_format o file) ->
  maxstandard_action o increment rnd file = OtherError /\ assoprimes_action o rnd file = OtherError.
Proof. exact max_no_lists. Qed.
Print Assumptions C76_no_lists.
Example C76_ex : maxstandard_action (plain true) false no_random input_zy = Ok ($"vars y, z;
[
 z
];
") /\ maxstandard_action (plain false) true no_random input_zy = Ok ($"vars z, y;
[
 z^2*y
];
") /\ assoprimes_action (plain true) no_random input_zy = Ok ($"vars y, z;
[
 y*z,
 z
];
").
Proof. split; [|split]; vm_compute; reflexivity. Qed.

(** ** C77 *)
(** primdecom prints a primary decomposition: the components of the irreducible decomposition, sorted, are cut into runs with the same
    support, and each printed ideal lists the minimal generators of the intersection of one run; the ideal that was read is the
    intersection of the printed ones, and their radicals are the associated primes. *)
Theorem C77_primdecom : forall o rnd file names gens, input_is o file names gens -> list_format (out_format o file) -> exists names' gens' D Gs Bs Cs out, let n := length names' in
  output_ring (o_canon o) names gens names' gens' /\ irreducible_decomposition n gens' D /\ descending D /\ support_runs n D Gs /\ Forall2 (same_support_intersection n) Gs Bs /\
  (forall m, length m = n -> (in_ideal gens' m <-> forall B, In B Bs -> in_ideal B m)) /\
  (forall s, associated_prime n gens' s <-> exists B, In B Bs /\ length s = n /\ (forall i, nth i s 0 <= 1) /\ radical_is n B s) /\
  (if o_canon o then same_lists Bs Cs /\ Forall descending Cs /\ StronglySorted (fun L K => ~ list_before K L) Cs else Cs = Bs) /\
  primdecom_action o rnd file = Ok out /\ shows_ideals (o_max o) (out_format o file) names' Cs out.
Proof. exact primary_printed. Qed.
Print Assumptions C77_primdecom.
Theorem C77_no_lists : forall o rnd file, ~ list_format (out_format o file) -> primdecom_action o rnd file = OtherError.
Proof. exact primary_no_lists. Qed.
Print Assumptions C77_no_lists.
Example C77_ex : primdecom_action (plain true) rnd0 input_zy = Ok ($"vars y, z;
[
 y,
 z^2
];
vars y, z;
[
 z
];
").
Proof. vm_compute. reflexivity. Qed.

(** ** C78 *)
(** The claim: alexdual prints the minimal generators of the Alexander dual of the ideal that was read, with respect to the point after
    the ideal in the input or, if there is none, the lcm of the minimal generators; it reports an error if a minimal generator does not
    divide the point.  Proved for all inputs but those with the option -canon, a point and variables that are not in ascending order;
    for those it is false. *)
Theorem C78_alexdual_partial : forall o rnd file names gens point, dual_input_is o file names gens point -> (o_canon o = true -> point = None \/ ascending names) -> exists names' gens',
  output_ring (o_canon o) names gens names' gens' /\
  let n := length names' in
  let prints a := exists L out, lists_minimal n (in_alexander_dual gens' a) L /\ (o_canon o = true -> descending L) /\
    alexdual_action o rnd file = Ok out /\ shows_ideal (o_max o) (out_format o file) names' L out in
  match point with
  | None => exists a, lcm_of_minimal_generators n gens' a /\ prints a
  | Some a => names' = names /\ gens' = gens /\ (above_minimal_generators n gens' a -> prints a) /\ (~ above_minimal_generators n gens' a -> alexdual_action o rnd file = OtherError)
  end.
Proof. exact dual_printed. Qed.
Print Assumptions C78_alexdual_partial.
(** A file with an ideal and then a monomial, each written as frobby writes it, is read as that ideal and that point; a file with an
    ideal alone is read as that ideal without a point. *)
Theorem C78_point : forall max f names J a out, legal_names names -> monomials (length names) J -> monomials (length names) [a] -> format_fits max f names J ->
  write_ideal f names J = Ok out -> read_dual max f (out ++ fmt_writeTerm f names a) = Ok (names, J, Some a).
Proof. intros max f names J a out H1 H2 H3 H4 W. rewrite P_IO6.write_ideal_text in W. injection W as <-. exact (dual_file max f names J a H1 H2 H3 H4). Qed.
Print Assumptions C78_point.
Theorem C78_no_point : forall max f file J, read_ideal max f file = Ok J -> read_dual max f file = Ok (J, None).
Proof. exact read_dual_ideal. Qed.
Print Assumptions C78_no_point.
Lemma above_zy a b : 2 <= a -> 1 <= b -> above_minimal_generators 2 [[2; 0]; [1; 1]] [a; b].
Proof. intros A B g [_ [[h [H D]] M]]. rewrite <- (M h); auto; [|exists h; split; auto; clear; induction h; constructor; auto]. destruct H as [<-|[<-|[]]]; repeat constructor; lia. Qed.
(** F22: with -canon the variables of the ideal are sorted but those of the point are not.  An error is reported for a good point, *)
Theorem C78_canonical_point_error_refuted : exists file names gens a, dual_input_is (plain true) file names gens (Some a) /\
  above_minimal_generators (length names) gens a /\ alexdual_action (plain true) no_random file = OtherError.
Proof.
  exists (input_zy ++ $"z^5*y"), [Z_; Y], [[2; 0]; [1; 1]], [5; 1]. split; [split; [exact default_is_legal|split; [vm_compute; reflexivity|discriminate]]|].
  split; [apply above_zy; lia|vm_compute; reflexivity].
Qed.
Print Assumptions C78_canonical_point_error_refuted.
(** and for another one the output is not the dual with respect to it. *)
Theorem C78_canonical_point_refuted : exists file names gens a names' gens' a' L out, dual_input_is (plain true) file names gens (Some a) /\
  above_minimal_generators (length names) gens a /\ output_ring true names gens names' gens' /\ same_term 0 names names' a a' /\
  alexdual_action (plain true) no_random file = Ok out /\ read_ideal 100 Monos out = Ok (names', map znat L) /\
  ~ (forall m, length m = length names' -> (in_ideal L m <-> in_alexander_dual gens' a' m)).
Proof.
  exists (input_zy ++ $"z^5*y^4"), [Z_; Y], [[2; 0]; [1; 1]], [5; 4], [Y; Z_], [[0; 2]; [1; 1]], [4; 5], [[5; 3]; [0; 4]]. eexists.
  split; [split; [exact default_is_legal|split; [vm_compute; reflexivity|discriminate]]|]. split; [apply above_zy; lia|]. split; [exact output_zy|]. split.
  - split; auto. intros s. unfold exponent_of. cbn [index_of]. destruct (str_dec Y s) as [<-|A]; [reflexivity|]. destruct (str_dec Z_ s) as [<-|B]; reflexivity.
  - split; [vm_compute; reflexivity|]. split; [vm_compute; reflexivity|]. intros H. specialize (H [0; 4] eq_refl). destruct H as [H _].
    assert (D : divs [0; 4] [0; 4]) by (repeat constructor). destruct (H (ex_intro _ [0; 4] (conj (or_intror (or_introl eq_refl)) D)) [1; 1] (or_intror (or_introl eq_refl))) as [i [P Q]].
    destruct i as [|[|[|i]]]; cbn in P, Q; lia.
Qed.
Print Assumptions C78_canonical_point_refuted.
Example C78_ex : alexdual_action (plain false) no_random (input_zy ++ $"z^5*y") = Ok ($"vars z, y;
[
 z^5,
 z^4*y
];
") /\ alexdual_action (plain true) no_random input_zy = Ok ($"vars y, z;
[
 y*z,
 z^2
];
") /\ alexdual_action (plain false) no_random (input_zy ++ $"z*y^5") = OtherError.
Proof. split; [|split]; vm_compute; reflexivity. Qed.

(** ** C79 *)
(** With -canon the output of each action is the same text for inputs with the same variables, in any order, and the same ideal, in
    whatever format and with whatever generators it is given, and for all options of the algorithm and random choices. *)
Theorem C79_canonical : forall o1 o2 file1 file2 names1 names2 gens1 gens2, o_canon o1 = true -> o_canon o2 = true -> out_format o1 file1 = out_format o2 file2 ->
  same_input names1 gens1 names2 gens2 -> input_is o1 file1 names1 gens1 -> input_is o2 file2 names2 gens2 ->
  (forall encode rnd1 rnd2, irrdecom_action o1 encode rnd1 file1 = irrdecom_action o2 encode rnd2 file2) /\
  (forall increment rnd1 rnd2, maxstandard_action o1 increment rnd1 file1 = maxstandard_action o2 increment rnd2 file2) /\
  (forall rnd1 rnd2, assoprimes_action o1 rnd1 file1 = assoprimes_action o2 rnd2 file2) /\
  (forall rnd1 rnd2, primdecom_action o1 rnd1 file1 = primdecom_action o2 rnd2 file2) /\
  (forall rnd1 rnd2, alexdual_action o1 rnd1 file1 = alexdual_action o2 rnd2 file2).
Proof. exact canonical_same. Qed.
Print Assumptions C79_canonical.
Example C79_ex : exists file, file <> input_zy /\ input_is (plain true) file [Y; Z_] [[1; 1]; [3; 2]; [0; 2]; [1; 1]] /\
  same_input [Z_; Y] [[2; 0]; [1; 1]] [Y; Z_] [[1; 1]; [3; 2]; [0; 2]; [1; 1]] /\
  irrdecom_action (plain true) true no_random file = irrdecom_action (plain true) true no_random input_zy.
Proof.
  exists ($"vars y, z; [y*z, y^3*z^2, z^2, y*z];"). split; [discriminate|]. split; [split; [exact default_is_legal|split; [vm_compute; reflexivity|discriminate]]|]. split; [|vm_compute; reflexivity].
  split; [apply perm_swap|]. intros m m' L [L' H]. destruct m as [|a [|b [|c m]]]; try discriminate L. destruct m' as [|a' [|b' [|c' m']]]; try discriminate L'.
  pose proof (H Y) as HY. pose proof (H Z_) as HZ. vm_compute in HY, HZ. subst a' b'. split.
  - intros [g [G D]]. destruct G as [<-|[<-|[]]]; inversion D as [|? ? ? ? D1 D2]; inversion D2; subst; [exists [0; 2]|exists [1; 1]]; (split; [cbn; tauto|repeat constructor; auto; lia]).
  - intros [g [G D]]. destruct G as [<-|[<-|[<-|[<-|[]]]]]; inversion D as [|? ? ? ? D1 D2]; inversion D2; subst.
    1, 4: exists [1; 1]; (split; [cbn; tauto|repeat constructor; auto; lia]).
    all: exists [2; 0]; (split; [cbn; tauto|repeat constructor; auto; lia]).
Qed.

(** ** C80 *)
(** Whatever the bytes of the input, each action prints something or reports an error, and it reports the error that reading the ideal
    reports, if any; alexdual may report another one, for a point, and the actions that need lists of ideals do so if the output format has none. *)
Theorem C80_errors : forall o file, legal_config (o_config o) -> o_minimal o = false ->
  (forall rnd, same_outcome (read_ideal (o_max o) (in_format o file) file) (irrdecom_action o true rnd file)) /\
  (forall rnd, list_outcome (out_format o file) (read_ideal (o_max o) (in_format o file) file) (irrdecom_action o false rnd file)) /\
  (forall increment rnd, list_outcome (out_format o file) (read_ideal (o_max o) (in_format o file) file) (maxstandard_action o increment rnd file)) /\
  (forall rnd, list_outcome (out_format o file) (read_ideal (o_max o) (in_format o file) file) (assoprimes_action o rnd file)) /\
  (forall rnd, list_outcome (out_format o file) (read_ideal (o_max o) (in_format o file) file) (primdecom_action o rnd file)) /\
  (forall rnd, match read_dual (o_max o) (in_format o file) file with
    | Ok (_, None) => exists out, alexdual_action o rnd file = Ok out
    | Ok (_, Some _) => (exists out, alexdual_action o rnd file = Ok out) \/ alexdual_action o rnd file = OtherError
    | r => same_outcome r (alexdual_action o rnd file)
    end).
Proof. exact any_outcome. Qed.
Print Assumptions C80_errors.
Example C80_ex : irrdecom_action (plain true) true no_random ($"vars x; [x^2, y];") = SyntaxError /\ primdecom_action (plain true) rnd0 ($"") = SyntaxError /\
  alexdual_action (plain false) no_random ($"vars x; [x^2]; y") = SyntaxError.
Proof. split; [|split]; vm_compute; reflexivity. Qed.
