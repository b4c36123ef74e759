(** C45, C58: Frobenius numbers. *)
From Coq Require Import String Ascii.
From Coq Require Import List Arith Bool ZArith Lia.
Import ListNotations.
From Verif Require Import M_Names M_IO Spec_IO M_Frob Spec_Frob P_Frob P_Frob2.
Local Open Scope Z_scope.
Local Notation "$ s" := (list_ascii_of_string s%string) (at level 0, s at level 0, only parsing).

(** C45, partial: for coprime numbers above 1 of which one fits an int the dynamic programming algorithm ends with their Frobenius
    number.  Missing: with 1 among three or more numbers the result is 0 (C45_refuted). *)
Theorem C45_dynamic_frobenius_partial : forall (max_int : Z) (numbers : list Z),
  coprime numbers -> Forall (fun a => 1 < a) numbers -> Exists (fun a => a <= max_int) numbers ->
  exists g, frobenius_number numbers g /\ exists n, forall fuel, (n <= fuel)%nat -> dynamicFrobenius fuel max_int numbers = Ok g.
Proof. exact dynamic_frobenius. Qed.
Print Assumptions C45_dynamic_frobenius_partial.
(** two numbers: also with 1, and of any size *)
Theorem C45_two_numbers : forall (fuel : nat) (max_int a b : Z), coprime [a; b] -> 0 < a -> 0 < b ->
  exists g, dynamicFrobenius fuel max_int [a; b] = Ok g /\ frobenius_number [a; b] g.
Proof. exact (fun fuel max_int a b C A B => ex_intro _ (a * b - a - b) (conj eq_refl (two_numbers a b A B C))). Qed.
Print Assumptions C45_two_numbers.
Theorem C45_refuted : exists (numbers : list Z) (g : Z),
  coprime numbers /\ Forall (fun a => 0 < a) numbers /\ dynamicFrobenius 10 2147483647 numbers = Ok g /\ representable numbers g.
Proof. exact one_refutes. Qed.
Print Assumptions C45_refuted.
Example C45_example : coprime [6; 10; 15] /\ Forall (fun a => 1 < a) [6; 10; 15] /\ Exists (fun a => a <= 2147483647) [6; 10; 15] /\
  dynamicFrobenius 100 2147483647 [6; 10; 15] = Ok 29 /\ dynamicFrobenius 0 0 [1; 7] = Ok (-1).
Proof.
  split; [apply gcd_coprime; [lia | reflexivity]|]. split; [repeat constructor; lia|]. split; [constructor; lia|]. split; vm_compute; reflexivity.
Qed.

(** C58: the action frobdyn.  A text of coprime numbers above 1, each followed by white space, gives their Frobenius number on a line;
    one of numbers that are not coprime is rejected; and for any text at all it is either rejected or the answer is the Frobenius
    number of numbers above 1. *)
Theorem C58_frobdyn : forall (max_int : Z),
  (forall numbers blanks, Forall (fun a => 1 < a) numbers -> coprime numbers -> List.length blanks = List.length numbers -> Forall blank blanks ->
    Exists (fun a => a <= max_int) numbers ->
    exists g, frobenius_number numbers g /\ exists n, forall fuel, (n <= fuel)%nat ->
      frobdyn fuel max_int (concat (map (fun p => z_str (fst p) ++ snd p) (combine numbers blanks))) = Ok (z_str g ++ [nl])) /\
  (forall fuel numbers blanks, Forall (fun a => 1 < a) numbers -> ~ coprime numbers -> List.length blanks = List.length numbers -> Forall blank blanks ->
    frobdyn fuel max_int (concat (map (fun p => z_str (fst p) ++ snd p) (combine numbers blanks))) = SyntaxError) /\
  (forall file, (forall fuel, frobdyn fuel max_int file = SyntaxError) \/
    exists numbers, Forall (fun a => 1 < a) numbers /\ coprime numbers /\
      ((List.length numbers <> 2%nat /\ Forall (fun a => max_int < a) numbers) \/
       exists g, frobenius_number numbers g /\ exists n, forall fuel, (n <= fuel)%nat -> frobdyn fuel max_int file = Ok (z_str g ++ [nl]))).
Proof. exact (fun m => conj (frobdyn_text m) (conj (fun fuel => frobdyn_reject fuel m) (frobdyn_any m))). Qed.
Print Assumptions C58_frobdyn.
Example C58_example : frobdyn 100 2147483647 ($"6 10 15 ") = Ok ($"29" ++ [nl]) /\ frobdyn 100 2147483647 ($"6 10 ") = SyntaxError /\
  frobdyn 100 2147483647 ($" 6,10") = SyntaxError /\ frobdyn 100 2147483647 ($"1 2 3") = SyntaxError /\ frobdyn 100 2147483647 ($"") = SyntaxError /\
  blank ($" ") /\ concat (map (fun p => z_str (fst p) ++ snd p) (combine [6; 10; 15] [$" "; $" "; $" "])) = $"6 10 15 ".
Proof.
  split; [vm_compute; reflexivity|]. split; [vm_compute; reflexivity|]. split; [vm_compute; reflexivity|]. split; [vm_compute; reflexivity|].
  split; [vm_compute; reflexivity|]. split; [split; [discriminate | constructor; [left; reflexivity | constructor]] | vm_compute; reflexivity].
Qed.
