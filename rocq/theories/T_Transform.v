(** C44, C61 to C66: transforming ideals, and the transform and intersection actions from input to output. *)
From Coq Require Import String Ascii.
From Coq Require Import List Arith Bool Lia ZArith Sorted Permutation.
Import ListNotations.
From Verif Require Import M_IO Spec_IO Spec M_Term M_Ideal M_Api M_Names Spec_Names M_Intersect Spec_Intersect M_Transform Spec_Transform M_Actions Spec_Actions
  P_Transform5 P_Transform6 P_Transform2 P_IO9 P_Actions.
Local Notation "$ s" := (list_ascii_of_string s%string) (at level 0, s at level 0, only parsing).
Local Ltac good := repeat constructor; cbn [fst snd In map List.length]; try (intros H; repeat destruct H as [H|H]; try discriminate H; exact H); try reflexivity.
Local Notation len := List.length.
Local Notation XY := [$"x"; $"y"].

(** C44.  For every list of ideals, each with its own variables: the radical of each, a monomial is in it iff some power of the
    monomial is in the ideal. *)
Theorem C44_radical : forall names Js, Forall good_named Js -> exists Rs, transform (only_radical true) names Js = TOk (names, Rs) /\
  Forall2 (fun J R => fst R = fst J /\ good_named R /\
    forall m, len m = len (fst J) -> (in_ideal (snd R) m <-> exists k, in_ideal (snd J) (mono_power k m))) Js Rs.
Proof. exact t_p_radical. Qed.
Print Assumptions C44_radical.
Example C44_radical_ex : Forall good_named [(XY, [[3; 0]; [1; 2]])] /\
  transform (only_radical true) XY [(XY, [[3; 0]; [1; 2]])] = TOk (XY, [(XY, [[1; 0]; [1; 1]])]).
Proof. split; [good|reflexivity]. Qed.

(** The product of the generators of each ideal, as one ideal; an error iff an ideal has other variables than the last ring. *)
Theorem C44_products : forall names Js, NoDup names ->
  (Forall (fun J => fst J = names) Js -> exists P, transform (only_product true) names Js = TOk (names, [(names, P)]) /\ good_named (names, P) /\
    Forall2 (fun J p => forall v, v < len names -> nth v p 0 = exponent_in_product v (snd J)) Js P) /\
  (Exists (fun J => fst J <> names) Js -> transform (only_product true) names Js = TErr).
Proof. exact t_p_product. Qed.
Print Assumptions C44_products.
Example C44_products_ex :
  transform (only_product true) XY [(XY, [[3; 0]; [1; 2]]); (XY, [])] = TOk (XY, [(XY, [[4; 2]; [0; 0]])]) /\
  transform (only_product true) XY [([$"y"; $"x"], [[3; 0]])] = TErr.
Proof. split; reflexivity. Qed.

(** Adding pure powers: the old generators followed by x_v^(e+1) for each variable of which the ideal has no power, where e is the
    largest exponent of x_v; a monomial is in the result iff it is in the ideal or has a larger exponent than all generators. *)
Theorem C44_pure_powers : forall names Js, Forall good_named Js -> exists Rs, transform (only_addPurePowers true) names Js = TOk (names, Rs) /\
  Forall2 (fun J R => fst R = fst J /\ good_named R /\ exists A, snd R = snd J ++ A /\ NoDup A /\
    (forall a, In a A <-> exists v, v < len (fst J) /\ ~ has_pure_power (len (fst J)) v (snd J) /\ a = pure_power (len (fst J)) v (S (largest_exponent v (snd J)))) /\
    forall m, len m = len (fst J) -> (in_ideal (snd R) m <-> in_ideal (snd J) m \/ exists v, v < len (fst J) /\ largest_exponent v (snd J) < nth v m 0)) Js Rs.
Proof. exact t_p_pure. Qed.
Print Assumptions C44_pure_powers.
Example C44_pure_powers_ex : transform (only_addPurePowers true) XY [(XY, [[3; 0]; [1; 2]]); (XY, [[0; 0]])] = TOk (XY, [(XY, [[3; 0]; [1; 2]; [0; 3]]); (XY, [[0; 0]])]).
Proof. reflexivity. Qed.

(** Projecting away the k'th variable, counted from 1: a monomial is in the result iff it is in the ideal times some power of that
    variable.  0 and numbers that are too large do nothing. *)
Theorem C44_projection : forall names Js k, NoDup names -> 1 <= k <= len names -> Forall (fun J => good_named J /\ k <= len (fst J)) Js ->
  exists Rs, transform (only_projectVar k) names Js = TOk (remove_at (k - 1) names, Rs) /\
  Forall2 (fun J R => fst R = remove_at (k - 1) (fst J) /\ good_named R /\
    forall m, len m = len (fst J) - 1 -> (in_ideal (snd R) m <-> exists e, in_ideal (snd J) (put_at (k - 1) e m))) Js Rs.
Proof. exact t_p_project. Qed.
Print Assumptions C44_projection.
Theorem C44_no_projection : forall names Js k, k = 0 \/ len names < k -> transform (only_projectVar k) names Js = TOk (names, Js).
Proof. exact t_p_project_none. Qed.
Print Assumptions C44_no_projection.
Example C44_projection_ex : transform (only_projectVar 1) XY [(XY, [[3; 1]; [1; 2]])] = TOk ([$"y"], [([$"y"], [[1]; [2]])]) /\
  transform (only_projectVar 3) XY [(XY, [[3; 1]; [1; 2]])] = TOk (XY, [(XY, [[3; 1]; [1; 2]])]).
Proof. split; reflexivity. Qed.

(** Exponents 0 become 1 and the other way round. *)
Theorem C44_swap01 : forall names Js, Forall good_named Js -> exists Rs, transform (only_swap01 true) names Js = TOk (names, Rs) /\
  Forall2 (fun J R => fst R = fst J /\ good_named R /\ Forall2 (fun g r => forall v, v < len (fst J) ->
    nth v r 0 = match nth v g 0 with 0 => 1 | 1 => 0 | e => e end) (snd J) (snd R)) Js Rs.
Proof. exact t_p_swap01. Qed.
Print Assumptions C44_swap01.
Example C44_swap01_ex : transform (only_swap01 true) XY [(XY, [[3; 0]; [1; 2]])] = TOk (XY, [(XY, [[3; 1]; [0; 2]])]).
Proof. reflexivity. Qed.

(** C61.  The minimal generators of each ideal, each once. *)
Theorem C61_minimize : forall names Js, Forall good_named Js -> exists Rs, transform (only_minimize true) names Js = TOk (names, Rs) /\
  Forall2 (fun J R => fst R = fst J /\ lists_minimal_generators (len (fst J)) (snd J) (snd R)) Js Rs.
Proof. exact t_p_minimize. Qed.
Print Assumptions C61_minimize.
Example C61_minimize_ex : transform (only_minimize true) XY [(XY, [[3; 0]; [1; 2]; [1; 3]; [3; 0]]); (XY, [[1; 1]])] = TOk (XY, [(XY, [[3; 0]; [1; 2]]); (XY, [[1; 1]])]).
Proof. vm_compute. reflexivity. Qed.
(** The variables that divide no generator of any of the ideals are removed; the generators stay the same monomials. *)
Theorem C61_trim_variables : forall names Js, NoDup names -> Forall (fun J => fst J = names /\ good_named J) Js -> exists names' Rs,
  transform (only_trimVariables true) names Js = TOk (names', Rs) /\ names' = filter (divides_some names Js) names /\ Forall good_named Rs /\
  Forall2 (fun J R => fst R = names' /\ Forall2 (same_term 0 names names') (snd J) (snd R)) Js Rs.
Proof. exact t_p_trim. Qed.
Print Assumptions C61_trim_variables.
Example C61_trim_ex : transform (only_trimVariables true) [$"a"; $"x"; $"b"; $"y"] [([$"a"; $"x"; $"b"; $"y"], [[0; 2; 0; 0]]); ([$"a"; $"x"; $"b"; $"y"], [[0; 1; 0; 1]])] =
  TOk (XY, [(XY, [[2; 0]]); (XY, [[1; 1]])]).
Proof. vm_compute. reflexivity. Qed.
(** The transposed exponent matrices, over x1, x2, ...; the ring of the list is that of the last ideal. *)
Theorem C61_transpose : forall names Js, Forall good_named Js -> exists names' Rs, transform (only_transpose true) names Js = TOk (names', Rs) /\
  names' = last (map fst Rs) [] /\
  Forall2 (fun J R => fst R = default_names (len (snd J)) /\ good_named R /\ len (snd R) = len (fst J) /\
    forall i j, i < len (fst J) -> j < len (snd J) -> nth j (nth i (snd R) []) 0 = nth i (nth j (snd J) []) 0) Js Rs.
Proof. exact t_p_transpose. Qed.
Print Assumptions C61_transpose.
Example C61_transpose_ex : transform (only_transpose true) XY [(XY, [[3; 0]; [1; 2]; [7; 8]])] = TOk ([$"x1"; $"x2"; $"x3"], [([$"x1"; $"x2"; $"x3"], [[3; 1; 7]; [0; 2; 8]])]).
Proof. vm_compute. reflexivity. Qed.
(** Deforming: strict inequalities between exponents of a variable are kept, zero stays zero, equal positive exponents are ordered
    by the position of their generators, and no exponent exceeds the number of generators. *)
Theorem C61_deform : forall names Js, Forall good_named Js -> exists Rs, transform (only_deform true) names Js = TOk (names, Rs) /\
  Forall2 (fun J R => fst R = fst J /\ good_named R /\ len (snd R) = len (snd J) /\
    forall i j v, i < len (snd J) -> j < len (snd J) -> v < len (fst J) ->
    let g := nth v (nth i (snd J) []) 0 in let h := nth v (nth j (snd J) []) 0 in let d := nth v (nth i (snd R) []) 0 in let e := nth v (nth j (snd R) []) 0 in
    (g = 0 -> d = 0) /\ (g < h -> d < e) /\ (i < j -> 0 < g -> g = h -> d < e) /\ d <= len (snd J)) Js Rs.
Proof. exact t_p_deform. Qed.
Print Assumptions C61_deform.
Example C61_deform_ex : transform (only_deform true) XY [(XY, [[3; 0]; [1; 2]; [1; 9]; [3; 2]])] = TOk (XY, [(XY, [[3; 0]; [1; 1]; [2; 3]; [4; 2]])]).
Proof. vm_compute. reflexivity. Qed.
(** Sorting, and sorting with removal of repeated generators *)
Theorem C61_sort : forall names Js, Forall good_named Js -> exists Rs, transform (only_order false true false) names Js = TOk (names, Rs) /\
  Forall2 (fun J R => fst R = fst J /\ Permutation (snd J) (snd R) /\ StronglySorted (fun a b => a = b \/ lex_greater a b) (snd R)) Js Rs.
Proof. exact p_sort. Qed.
Print Assumptions C61_sort.
Theorem C61_unique : forall s names Js, Forall good_named Js -> exists Rs, transform (only_order false s true) names Js = TOk (names, Rs) /\
  Forall2 (fun J R => fst R = fst J /\ (forall g, In g (snd R) <-> In g (snd J)) /\ StronglySorted lex_greater (snd R)) Js Rs.
Proof. exact p_unique. Qed.
Print Assumptions C61_unique.
Example C61_sort_ex :
  transform (only_order false true false) XY [(XY, [[1; 0]; [1; 2]; [1; 0]; [2; 0]])] = TOk (XY, [(XY, [[2; 0]; [1; 2]; [1; 0]; [1; 0]])]) /\
  transform (only_order false false true) XY [(XY, [[1; 0]; [1; 2]; [1; 0]; [2; 0]])] = TOk (XY, [(XY, [[2; 0]; [1; 2]; [1; 0]])]).
Proof. vm_compute. auto. Qed.

(** C62.  The canonical form is a canonical form: two lists of ideals that differ by the order of the ideals, of the variables and
    of the generators have the same, and it is itself such a reordering with ascending names and sorted generators. *)
Theorem C62_canonical : forall s names names' Js Ks, NoDup names -> Permutation names names' -> Forall good_named Js -> Forall good_named Ks -> same_list_but_order Js Ks ->
  transform (only_order true s false) names Js = transform (only_order true s false) names' Ks.
Proof. exact p_canonical. Qed.
Print Assumptions C62_canonical.
Theorem C62_canonical_is_reordering : forall s names Js, NoDup names -> Forall good_named Js -> exists names' Rs,
  transform (only_order true s false) names Js = TOk (names', Rs) /\ Permutation names names' /\ ascending names' /\ same_list_but_order Js Rs /\
  Forall (fun R => ascending (fst R) /\ StronglySorted (fun a b => a = b \/ lex_greater a b) (snd R)) Rs.
Proof. exact p_canonical_same. Qed.
Print Assumptions C62_canonical_is_reordering.
(** The same where repeated generators are removed *)
Theorem C62_canonical_unique : forall s names names' Js Ks, NoDup names -> Permutation names names' -> Forall good_named Js -> Forall good_named Ks -> same_sets_but_order Js Ks ->
  transform (only_order true s true) names Js = transform (only_order true s true) names' Ks.
Proof. exact p_canonical_unique. Qed.
Print Assumptions C62_canonical_unique.
Theorem C62_canonical_unique_is_reordering : forall s names Js, NoDup names -> Forall good_named Js -> exists names' Rs,
  transform (only_order true s true) names Js = TOk (names', Rs) /\ Permutation names names' /\ ascending names' /\ same_sets_but_order Js Rs /\
  Forall (fun R => ascending (fst R) /\ StronglySorted lex_greater (snd R)) Rs.
Proof. exact p_canonical_unique_same. Qed.
Print Assumptions C62_canonical_unique_is_reordering.
Example C62_ex :
  transform (only_order true false false) [$"y"; $"x"] [([$"y"; $"x"], [[1; 0]; [2; 1]]); ([$"a"], [])] = TOk (XY, [([$"a"], []); (XY, [[1; 2]; [0; 1]])]) /\
  transform (only_order true false false) XY [([$"a"], []); (XY, [[1; 2]; [0; 1]])] = TOk (XY, [([$"a"], []); (XY, [[1; 2]; [0; 1]])]) /\
  same_list_but_order [([$"y"; $"x"], [[1; 0]; [2; 1]]); ([$"a"], [])] [([$"a"], []); (XY, [[1; 2]; [0; 1]])].
Proof.
  split; [vm_compute; reflexivity|]. split; [vm_compute; reflexivity|]. exists [(XY, [[1; 2]; [0; 1]]); ([$"a"], [])]. split; [apply perm_swap|]. constructor; [|constructor; [|constructor]].
  - split; [apply perm_swap|]. exists [[0; 1]; [1; 2]]. split; [apply perm_swap|]. cbn [fst snd].
    assert (T : forall a b, same_term 0 [$"y"; $"x"] XY [a; b] [b; a]).
    { intros a b. split; [reflexivity|]. intros s. unfold exponent_of. cbn [index_of]. destruct (str_dec ($"x") s) as [E|E]; destruct (str_dec ($"y") s) as [F|F]; try reflexivity. rewrite <- F in E. discriminate E. }
    apply Forall2_cons; [apply T|]. apply Forall2_cons; [apply T|]. apply Forall2_nil.
  - split; [apply Permutation_refl|]. exists []. split; constructor.
Qed.

(** C63.  All options together do what they do one by one, in a fixed order: transpose, project, product, radical, swap, minimize,
    deform, trim, pure powers, then sorting. *)
Theorem C63_options_in_order : forall o names Js, transform o names Js = in_turn (one_by_one o) names Js.
Proof. exact p_one_by_one. Qed.
Print Assumptions C63_options_in_order.
Example C63_ex : let o := Build_transform_options true false true true false true false true true false false 0 in
  transform o [$"b"; $"a"; $"c"] [([$"b"; $"a"; $"c"], [[2; 1; 0]; [3; 0; 0]]); ([$"b"; $"a"; $"c"], [[0; 4; 0]])] =
    TOk ([$"a"; $"b"], [([$"a"; $"b"], [[1; 0]; [0; 1]]); ([$"a"; $"b"], [[1; 0]; [0; 1]])]) /\
  one_by_one o <> [].
Proof. split; [vm_compute; reflexivity|discriminate]. Qed.

(** C64 says that transform is defined for every input that is read.  That is false if the ideals have different rings (F19).
    Proved: it is defined, and its result is again ideals of one ring, if all ideals have the ring of the list and, for transpose,
    the same number of generators.  Missing: nothing else. *)
Theorem C64_transform_is_total_partial : forall o names Js, NoDup names -> Forall (fun J => fst J = names /\ good_named J) Js ->
  (o_transpose o = true -> forall J K, In J Js -> In K Js -> len (snd J) = len (snd K)) ->
  exists names' Rs, transform o names Js = TOk (names', Rs) /\ (NoDup names' /\ Forall (fun R => fst R = names' /\ good_named R) Rs) /\
    exists c, incl names' (if o_transpose o then default_names c else names).
Proof. exact p_total. Qed.
Print Assumptions C64_transform_is_total_partial.
Example C64_ex : Forall (fun J => fst J = XY /\ good_named J) [(XY, [[3; 0]; [1; 2]]); (XY, [])].
Proof. repeat (constructor; [split; [reflexivity|good]|]). constructor. Qed.
(** Two rings in one file: removing the second variable, and trimming, erase from a vector at a place that it does not have. *)
Theorem C64_refuted : exists file names Js,
  read_ideals 100 M2 file = Ok (names, Js) /\ Forall good_ideal Js /\
  transform_action 100 M2 M2 (only_projectVar 2) file = Undefined /\
  transform_action 100 M2 M2 (only_trimVariables true) file = Undefined.
Proof.
  set (file := $"R=QQ[x];I=monomialIdeal(x);R=QQ[x,y];I=monomialIdeal(x);"). destruct (read_ideals 100 M2 file) as [[names Js]| | | | |] eqn:E; try (vm_compute in E; discriminate E).
  exists file, names, Js. split; auto. split; [|split; vm_compute; reflexivity]. destruct (P_IO9.reading_total 100 M2 file) as [_ [R _]]. rewrite E in R. apply R.
Qed.
Print Assumptions C64_refuted.

(** C65.  The intersection action, from text to text, for every input, format and order: either the input is not read, with that
    error, or a file is written that is read back as an ideal K over the variables of all ideals that were read, such that a
    monomial is in K iff it is in all of them, with no redundant generator, and sorted if asked for. *)
Theorem C65_intersection_action : forall max input output canon file,
  match intersection_action max input output canon file with
  | Ok out => exists names Js K, read_ideals max input file = Ok (names, Js) /\ good_ideal K /\ no_redundant K /\
      (Js = [] -> forall s, In s (fst K) <-> In s names) /\
      (Js <> [] -> forall s, In s (fst K) <-> exists J, In J Js /\ In s (fst J)) /\
      (forall m, (forall s, 0 <= m s)%Z -> (in_zideal K m <-> Forall (fun J => in_zideal J m) Js)) /\
      (canon = true -> ascending (fst K) /\ StronglySorted lex_greater (map (map Z.to_nat) (snd K))) /\
      write_ideal output (fst K) (snd K) = Ok out /\ (format_fits max output (fst K) (snd K) -> read_ideal max output out = Ok K)
  | SyntaxError => read_ideals max input file = SyntaxError
  | OtherError => read_ideals max input file = OtherError
  | InvalidArgument => read_ideals max input file = InvalidArgument
  | OutOfFuel | Undefined => False
  end.
Proof. exact p_intersection_action. Qed.
Print Assumptions C65_intersection_action.
Example C65_ex : intersection_action 100 M2 Monos true ($"R=QQ[y,x];I=monomialIdeal(x^2,x*y);R=QQ[z];I=monomialIdeal(z^3);") =
  Ok ($"vars x, y, z;" ++ nl :: $"[" ++ nl :: $" x^2*z^3," ++ nl :: $" x*y*z^3" ++ nl :: $"];" ++ [nl]).
Proof. vm_compute. reflexivity. Qed.

(** C66.  The transform action, from text to text: if the ideals that are read have one ring, then a file is written that is read
    back as the transformed ideals. *)
Theorem C66_transform_action : forall max input output o file names Js, (42 <= max)%Z ->
  read_ideals max input file = Ok (names, Js) -> Forall (fun J => fst J = names) Js ->
  (o_transpose o = true -> forall J K, In J Js -> In K Js -> len (snd J) = len (snd K)) ->
  exists out names' Rs, transform_action max input output o file = Ok out /\
    transform o names (map to_nideal Js) = TOk (names', Rs) /\
    Forall (fun R => fst R = names') Rs /\
    ((output = CoCoA4 -> fits max (len names')) -> Forall (fun R => format_fits max output (fst R) (map (map Z.of_nat) (snd R))) Rs ->
      read_ideals max output out = Ok (names', map of_nideal Rs)).
Proof. exact p_transform_action. Qed.
Print Assumptions C66_transform_action.
Example C66_ex : read_ideals 100 M2 ($"R=QQ[y,x];I=monomialIdeal(x^2,x*y);I=monomialIdeal(0);") = Ok ([$"y"; $"x"], [([$"y"; $"x"], [[0; 2]; [1; 1]]%Z); ([$"y"; $"x"], [])]) /\
  transform_action 100 M2 Fourti2 (Build_transform_options true false false false false true false false false false false 0) ($"R=QQ[y,x];I=monomialIdeal(x^2,x*y);I=monomialIdeal(0);") =
  Ok ($"2 2" ++ nl :: $" 1 1" ++ nl :: $" 1 0" ++ nl :: $" x y" ++ nl :: $"0 2" ++ nl :: $" x y" ++ [nl]).
Proof. vm_compute. auto. Qed.

(** Errors of the reader are passed on, and the product of ideals in different rings is an error. *)
Theorem C66_errors : forall max input output file,
  (forall o, match read_ideals max input file with
             | Ok _ => True
             | SyntaxError => transform_action max input output o file = SyntaxError
             | OtherError => transform_action max input output o file = OtherError
             | InvalidArgument => transform_action max input output o file = InvalidArgument
             | _ => False
             end) /\
  (forall names Js, read_ideals max input file = Ok (names, Js) -> Exists (fun J => fst J <> names) Js ->
     transform_action max input output (only_product true) file = OtherError).
Proof. exact p_transform_errors. Qed.
Print Assumptions C66_errors.
Example C66_errors_nonvacuous : let file := $"R=QQ[x];I=monomialIdeal(x^2);R=QQ[y];I=monomialIdeal(y);" in
  read_ideals 100 M2 file = Ok ([$"y"], [([$"x"], [[2]]%Z); ([$"y"], [[1]]%Z)]) /\ transform_action 100 M2 M2 (only_product true) file = OtherError /\
  transform_action 100 M2 M2 (only_product true) ($"R=QQ[x];I=monomialIdeal(y)") = SyntaxError.
Proof. vm_compute. auto. Qed.
