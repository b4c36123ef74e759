(** Properties C97 to C104: the ideals and the instances of the Frobenius problem that the program generates. *)
From Coq Require Import String Ascii.
From Coq Require Import List Arith Bool ZArith Lia Permutation.
Import ListNotations.
From Verif Require Import M_Term M_Ideal M_Names M_IO Spec_IO M_Frob M_Generate M_Main Spec_Names T_Main P_Cli12 P_Main2 P_Generate P_Generate2 P_Generate3 P_Generate4 P_Generate5.
From Verif Require Import Spec Spec_Api Spec_Frob Spec_Cli3 Spec_Main Spec_Generate.
Local Open Scope list_scope.
Local Open Scope nat_scope.
Local Notation length := List.length.
Local Notation "$ s" := (list_ascii_of_string s%string) (at level 0, s at level 0, only parsing).

(** ** C97: list ideals and tree ideals *)
Theorem C97_list : forall n, exists gens, generateLinkedListIdeal n = (x_names n, map znat gens) /\ length gens = n - 1 /\
  (forall i, S i < n -> product_over n (fun v => v = i \/ v = S i) (nth i gens [])) /\ lists_minimal_generators n gens gens.
Proof. exact p_list. Qed.
Print Assumptions C97_list.
Theorem C97_tree : forall n, exists gens,
  (exists enough, forall fuel, enough <= fuel -> generateTreeIdeal fuel n = Ok (x_names n, map znat gens)) /\
  exactly (tree_generator n) gens /\ lists_minimal_generators n gens gens /\ length gens = 2 ^ n - 1.
Proof. exact p_tree. Qed.
Print Assumptions C97_tree.
Example C97_ex : generateLinkedListIdeal 3 = (x_names 3, [[1; 1; 0]; [0; 1; 1]]%Z) /\ x_names 3 = [$"x1"; $"x2"; $"x3"] /\
  generateTreeIdeal 9 3 = Ok (x_names 3, [[3; 0; 0]; [0; 3; 0]; [2; 2; 0]; [0; 0; 3]; [2; 0; 2]; [0; 2; 2]; [1; 1; 1]]%Z).
Proof. vm_compute. auto. Qed.

(** ** C98: ideals of kings and knights *)
Theorem C98_king : forall max n, exists names gens,
  generateKingChessIdeal max n = (if (max <? Z.of_nat (n * n))%Z then OtherError else Ok (names, map znat gens)) /\
  chess_variables n names /\ exactly (chess_generator king_move n) gens /\ lists_minimal_generators (n * n) gens gens /\ Spec_Cli.descending gens.
Proof. exact p_king. Qed.
Print Assumptions C98_king.
Theorem C98_knight : forall max n, exists names gens,
  generateKnightChessIdeal max n = (if (max <? Z.of_nat (n * n))%Z then OtherError else Ok (names, map znat gens)) /\
  chess_variables n names /\ exactly (chess_generator knight_move n) gens /\ lists_minimal_generators (n * n) gens gens /\ Spec_Cli.descending gens.
Proof. exact p_knight. Qed.
Print Assumptions C98_knight.
Example C98_ex : generateKingChessIdeal 100 2 = Ok ([$"r1c1"; $"r1c2"; $"r2c1"; $"r2c2"],
    [[1; 1; 0; 0]; [1; 0; 1; 0]; [1; 0; 0; 1]; [0; 1; 1; 0]; [0; 1; 0; 1]; [0; 0; 1; 1]]%Z) /\
  match generateKnightChessIdeal 100 3 with Ok (_, J) => length J = 8 | _ => False end /\ generateKingChessIdeal 8 3 = OtherError.
Proof. vm_compute. auto. Qed.

(** ** C99: ideals of rooks *)
Theorem C99_rook : forall n k, 1 <= n <= 1000 -> 1 <= k <= 1000 -> exists gens,
  (exists enough, forall fuel, enough <= fuel -> generateRookChessIdeal fuel n k = Ok (x_names (n * k), map znat gens)) /\
  exactly (rook_generator (Nat.min n k) (Nat.max n k)) gens /\ lists_minimal_generators (n * k) gens gens.
Proof. exact p_rook. Qed.
Print Assumptions C99_rook.
Theorem C99_errors : forall fuel n k, n = 0 \/ k = 0 \/ 1000 < n \/ 1000 < k -> generateRookChessIdeal fuel n k = OtherError.
Proof. exact p_rook_errors. Qed.
Print Assumptions C99_errors.
Example C99_ex : generateRookChessIdeal 100 3 2 = Ok (x_names 6,
  [[1; 0; 0; 0; 1; 0]; [1; 0; 0; 0; 0; 1]; [0; 1; 0; 1; 0; 0]; [0; 1; 0; 0; 0; 1]; [0; 0; 1; 1; 0; 0]; [0; 0; 1; 0; 1; 0]]%Z).
Proof. vm_compute. auto. Qed.

(** ** C100: ideals of matchings *)
Theorem C100_matching : forall n, 1 <= n <= 1000 -> exists gens,
  (exists enough, forall fuel, enough <= fuel -> generateMatchingIdeal fuel n = Ok (x_names (n * (n - 1) / 2), map znat gens)) /\
  exactly (matching_generator n) gens /\ lists_minimal_generators (n * (n - 1) / 2) gens gens.
Proof. exact p_matching. Qed.
Print Assumptions C100_matching.
Theorem C100_errors : forall fuel n, n = 0 \/ 1000 < n -> generateMatchingIdeal fuel n = OtherError.
Proof. exact p_matching_errors. Qed.
Print Assumptions C100_errors.
Example C100_ex : generateMatchingIdeal 100 4 = Ok (x_names 6, [[1; 0; 0; 0; 0; 1]; [0; 1; 0; 0; 1; 0]; [0; 0; 1; 1; 0; 0]]%Z) /\
  generateMatchingIdeal 100 3 = Ok (x_names 3, [[0; 0; 1]; [0; 1; 0]; [1; 0; 0]]%Z).
Proof. vm_compute. auto. Qed.

(** ** C101: random ideals *)
Theorem C101_random : forall max rand range n count, (Z.of_nat range < max)%Z -> exists gens full,
  generateRandomIdeal max rand range n count = ((x_names n, map znat gens), full) /\
  lists_minimal_generators n gens gens /\ length gens <= count /\ (full = true <-> length gens = count) /\
  (forall m, In m gens -> exists t, t < Z.to_nat 4000000 /\ m = candidate rand range n t) /\
  (full = false -> forall t, t < Z.to_nat 4000000 -> exists g, In g gens /\ comparable g (candidate rand range n t)).
Proof. exact p_random. Qed.
Print Assumptions C101_random.
Theorem C101_exponents : forall rand range n t v, v < n -> nth v (candidate rand range n t) 0 <= range.
Proof. exact p_candidate. Qed.
Print Assumptions C101_exponents.
Definition some_random (i : nat) : nat := nth i [3; 1; 4; 1; 0; 0; 0; 3; 2; 0] 0.
(** The second monomial that is tried is a multiple of the first one, and the third one is 1. *)
Example C101_ex : generateRandomIdeal 18446744073709551615 some_random 4 2 1 = (x_names 2, [[3; 1]]%Z, true) /\
  generateRandomIdeal 18446744073709551615 (fun i => nth i [3; 1; 4; 1; 0; 7] 0) 4 2 2 = (x_names 2, [[3; 1]; [0; 2]]%Z, true).
Proof. vm_compute. auto. Qed.

(** ** C102: random edge ideals.  What is generated is right, and something is generated if the two variables of a pair are always
    different; but with other random numbers the program runs on for ever. *)
Theorem C102_edge_partial : forall fuel max rand n count r, generateRandomEdgeIdeal fuel max rand n count = Ok r -> exists gens full,
  r = ((x_names n, map znat gens), full) /\
  Forall (edge_generator n) gens /\ lists_minimal_generators n gens gens /\ length gens <= count /\ (full = true <-> length gens = count).
Proof. exact p_edge. Qed.
Print Assumptions C102_edge_partial.
Theorem C102_ends_partial : forall max rand n count, (4000000 <= max)%Z -> n <> 0 -> (forall t, rand (2 * t) mod n <> rand (2 * t + 1) mod n) ->
  exists enough, forall fuel, enough <= fuel -> exists r, generateRandomEdgeIdeal fuel max rand n count = Ok r.
Proof. exact p_edge_ends. Qed.
Print Assumptions C102_ends_partial.
Theorem C102_ends_refuted : forall max n count, Z.odd max = true -> (4000000 <= max)%Z -> 2 <= n -> 2 <= count ->
  exists rand, forall fuel, generateRandomEdgeIdeal fuel max rand n count = OutOfFuel.
Proof. exact p_edge_never. Qed.
Print Assumptions C102_ends_refuted.
Theorem C102_no_variables_refuted : forall fuel max rand count, 0 < count -> 0 < fuel -> generateRandomEdgeIdeal fuel max rand 0 count = Undefined.
Proof. exact p_edge_undefined. Qed.
Print Assumptions C102_no_variables_refuted.
Example C102_ex : generateRandomEdgeIdeal 10 18446744073709551615 some_random 4 3 = Ok (x_names 4, [[0; 1; 0; 1]; [1; 1; 0; 0]; [1; 0; 0; 1]]%Z, true) /\
  Z.odd 18446744073709551615 = true /\ (forall t, t mod 2 <> (t + 1) mod 2).
Proof. split; [vm_compute; reflexivity|]. split; [reflexivity|]. intros t. rewrite Nat.add_mod by lia. pose proof (Nat.mod_upper_bound t 2). destruct (t mod 2) as [|[|]]; cbn; lia. Qed.

(** ** C103: random instances of the Frobenius problem: so many numbers of that size in increasing order.  They are the numbers that were
    drawn, if these have no common divisor; then the program can solve the instance. *)
Theorem C103_genfrob : forall w args v file, command args "genfrob" v ->
  let count := amount v "entryCount" in let digits := amount v "maxEntryDigits" in
  1 <= count -> 1 <= digits -> exists instance, frobby w args file = Ok (number_line instance) /\
  length instance = count /\ increasing instance /\ (forall a, In a instance -> (1 <= a <= 10 ^ Z.of_nat digits)%Z) /\
  exists a rest g, drawn (w_rand w) count digits = a :: rest /\ greatest_divisor (a :: rest) g /\ Permutation instance ((a / g)%Z :: rest).
Proof. exact e_genfrob. Qed.
Print Assumptions C103_genfrob.
Theorem C103_errors : forall w args v file, command args "genfrob" v -> amount v "entryCount" = 0 \/ amount v "maxEntryDigits" = 0 ->
  frobby w args file = OtherError.
Proof. exact e_genfrob_errors. Qed.
Print Assumptions C103_errors.
Theorem C103_solved_partial : forall w args v file w' args' v', command args "genfrob" v -> command args' "frobdyn" v' ->
  let count := amount v "entryCount" in let digits := amount v "maxEntryDigits" in let numbers := drawn (w_rand w) count digits in
  1 <= digits -> coprime numbers -> Forall (fun a => (1 < a)%Z) numbers -> Exists (fun a => (a <= w_max_int w')%Z) numbers ->
  exists line g, frobby w args file = Ok line /\ frobenius_number numbers g /\
    exists enough, forall fuel, enough <= fuel -> frobby (with_fuel w' fuel) args' line = Ok (z_str g ++ [nl]).
Proof. exact e_genfrob_solved. Qed.
Print Assumptions C103_solved_partial.
(** But there are instances whose numbers have a common divisor, so that the program does not accept what it has generated, and numbers that
    have more digits than is allowed. *)
Theorem C103_coprime_refuted : exists rand line instance, genfrob_action rand 2 1 = Ok line /\ line = number_line instance /\ ~ coprime instance /\
  forall fuel max_int, frobdyn fuel max_int line = SyntaxError.
Proof.
  exists (fun i => nth i [7; 3] 0), (number_line [2; 4]%Z), [2; 4]%Z. split; [vm_compute; reflexivity|]. split; [reflexivity|]. split.
  - intros C. assert (X : 2%Z = 1%Z); [|discriminate]. apply C; [lia|]. constructor; [exists 1%Z; reflexivity|]. constructor; [exists 2%Z; reflexivity|constructor].
  - intros fuel max_int. vm_compute. reflexivity.
Qed.
Print Assumptions C103_coprime_refuted.
Theorem C103_digits_refuted : exists rand, genfrob_action rand 2 1 = Ok ($"1 10
") /\ forall fuel max_int, frobdyn fuel max_int ($"1 10
") = SyntaxError.
Proof. exists (fun _ => 9). split; [vm_compute; reflexivity|]. intros fuel max_int. vm_compute. reflexivity. Qed.
Print Assumptions C103_digits_refuted.
Definition frob_args : list str := [$"genf"; $"-e"; $"3"].
Definition frob_settings : list (str * value) := [($"entryCount", VInt 3)].
Definition frob_v : valuation := value_of (table "genfrob") frob_settings.
Definition frob_world : world := World (w_max some_world) (w_max_int some_world) 64 (fun i => nth i [14; 9; 105] 0) (w_rands some_world) 100 (w_machine some_world).
Lemma one_option a p arg x d w : argument d [arg] w -> abbreviates action_names a (lit x) -> In (lit x, table x) options_of -> ~ is_option arg ->
  forall y, abbreviates (map fst (table x)) p y -> In (y, d) (table x) ->
  command [a; "-"%char :: p; arg] x (value_of (table x) [(y, w)]).
Proof.
  intros A B C N y D E. exists a, ["-"%char :: p; arg], (table x), [(y, w)]. split; auto. split; auto. split; auto. split; auto.
  exists [["-"%char :: p; arg]]. split; auto. constructor; [|constructor]. exists p, [arg], d. cbn [fst snd]. split; auto.
Qed.
Lemma digit_number c d : Spec_Main.digit c d -> number [c] d.
Proof.
  intros D. exists [], c, [], d. split; auto. split; [eauto|]. split; [|auto]. apply digits_digit with d; auto. apply digits_none.
Qed.
Example C103_ex : command frob_args "genfrob" frob_v /\ command [$"frobdyn"] "frobdyn" (value_of (table "frobdyn") []) /\ amount frob_v "entryCount" = 3 /\
  drawn (w_rand frob_world) 3 2 = [15; 10; 6]%Z /\ coprime [15; 10; 6]%Z /\ frobby frob_world frob_args [] = Ok ($"6 10 15
") /\ frobby some_world [$"frobdyn"] ($"6 10 15
") = Ok ($"29
").
Proof.
  split.
  { apply (one_option ($"genf") ($"e") ($"3") "genfrob" (VInt 4) (VInt 3)); [|abbreviation|in_table|intros [p H]; discriminate|abbreviation|in_table].
    exists ($"3"), 3%Z. split; auto. split; [apply digit_number; exists 3; split; [lia|split; reflexivity]|]. split; [lia|auto]. }
  split.
  { exists ($"frobdyn"), [], (table "frobdyn"), []. split; [reflexivity|]. split; [abbreviation|]. split; [in_table|]. split; [|auto]. exists []. split; auto. }
  split; [reflexivity|]. split; [vm_compute; reflexivity|]. split; [|split; vm_compute; reflexivity].
  intros d D F. inversion F as [|? ? F1 F2]; subst. inversion F2 as [|? ? F3 F4]; subst. inversion F4 as [|? ? F5 _]; subst.
  assert (X : (d | 1)%Z). { replace 1%Z with (10 + 6 - 15)%Z by lia. apply Z.divide_sub_r; auto. apply Z.divide_add_r; auto. } apply Z.divide_1_r_nonneg in X; auto.
Qed.

(** ** C104: what the action genideal prints is an ideal of the type that was asked for, given by its minimal generators, in the format that
    was asked for; it can be read back. *)
Theorem C104_genideal : forall w args v f file type out, command args "genideal" v -> names_format (word v "oformat") f -> word v "type" = lit type ->
  (type = "random"%string -> (Z.of_nat (amount v "expRange") < w_max w)%Z) -> frobby w args file = Ok out ->
  exists names gens, family (w_rand w) (amount v "expRange") (amount v "varCount") (amount v "genCount") type names gens /\
    lists_minimal_generators (length names) gens gens /\ legal_names names /\ write_ideal f names (map znat gens) = Ok out /\
    (format_fits (w_max w) f names (map znat gens) -> read_ideal (w_max w) f out = Ok (names, map znat gens)).
Proof. exact e_genideal. Qed.
Print Assumptions C104_genideal.
Theorem C104_ends : forall w args v f file type, command args "genideal" v -> names_format (word v "oformat") f -> word v "type" = lit type ->
  let n := amount v "varCount" in let k := amount v "genCount" in
  In type ["random"; "list"; "tree"]%string \/ (In type ["king"; "knight"]%string /\ (Z.of_nat (n * n) <= w_max w)%Z) \/
    (type = "rook"%string /\ 1 <= n <= 1000 /\ 1 <= k <= 1000) \/ (type = "matching"%string /\ 1 <= n <= 1000) ->
  exists enough, forall fuel, enough <= fuel -> exists out, frobby (with_fuel w fuel) args file = Ok out.
Proof. exact e_genideal_ends. Qed.
Print Assumptions C104_ends.
Theorem C104_errors : forall w args v file, command args "genideal" v ->
  let n := amount v "varCount" in let k := amount v "genCount" in
  ((forall x, ~ abbreviates format_names (word v "oformat") x) -> frobby w args file = OtherError) /\
  forall f, names_format (word v "oformat") f ->
    (~ In (word v "type") (map lit family_types) -> frobby w args file = OtherError) /\
    ((In (word v "type") (map lit ["king"; "knight"]%string) /\ (w_max w < Z.of_nat (n * n))%Z) \/
     (word v "type" = lit "rook" /\ (n = 0 \/ k = 0 \/ 1000 < n \/ 1000 < k)) \/ (word v "type" = lit "matching" /\ (n = 0 \/ 1000 < n)) ->
     frobby w args file = OtherError).
Proof.
  exact (fun w args v file C => conj (p_genideal_format w args v file C)
    (fun f F => conj (e_genideal_unknown w args v f file C F) (e_genideal_sizes w args v f file C F))).
Qed.
Print Assumptions C104_errors.
Definition gen_v (type : string) : valuation := value_of (table "genideal") [($"type", VStr (lit type))].
Example C104_ex : command [$"geni"; $"-ty"; $"king"] "genideal" (gen_v "king") /\ names_format (word (gen_v "king") "oformat") M2 /\
  word (gen_v "king") "type" = lit "king" /\ amount (gen_v "king") "varCount" = 3 /\
  frobby some_world [$"geni"; $"-ty"; $"list"; $"-of"; $"4t"] [] = Ok ($"2 3
 1 1 0
 0 1 1
") /\ frobby some_world [$"geni"; $"-ty"; $"queen"] [] = OtherError /\ (exists out, frobby some_world [$"geni"; $"-ty"; $"king"] [] = Ok out).
Proof.
  split.
  { apply (one_option ($"geni") ($"ty") ($"king") "genideal" (VStr ($"random")) (VStr ($"king"))); [|abbreviation|in_table|intros [p H]; discriminate| |in_table].
    - exists ($"king"). auto.
    - abbreviation. }
  split; [exists ($"m2"); split; [abbreviation|cbn; auto]|]. split; [reflexivity|]. split; [reflexivity|]. split; [vm_compute; reflexivity|]. split; [vm_compute; reflexivity|].
  vm_compute. eauto.
Qed.
