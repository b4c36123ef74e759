(** Theorems about reading and writing ideals. *)
From Coq Require Import String Ascii.
From Coq Require Import List Arith Bool ZArith Lia.
Import ListNotations.
From Verif Require Import M_Api M_Names M_IO Spec_IO P_IO P_IO4 P_IO5 P_IO7 P_IO8 P_IO9 P_IO10.
Local Notation "$ s" := (list_ascii_of_string s%string) (at level 0, s at level 0, only parsing).

(** C33: an ideal written in the Macaulay 2 format is read back with the same variables and the same generators in the same
    order. *)
Theorem C33_m2_round_trip : forall max names J, legal_names names -> monomials (List.length names) J ->
  exists file, write_ideal M2 names J = Ok file /\ read_ideal max M2 file = Ok (names, J).
Proof. exact (fun max names J L M => ideal_round max M2 names J (conj L M) I). Qed.
Print Assumptions C33_m2_round_trip.
(** Variables named R and R1, the identity, and the zero ideal *)
Example C33_example :
  write_ideal M2 [$"R"; $"R1"; $"y"] [[1; 0; 10]; [0; 0; 0]]%Z =
    Ok ($"R2 = QQ[R, R1, y];" ++ nl :: $"I = monomialIdeal(" ++ nl :: $" R*y^10," ++ nl :: $" 1_R2" ++ nl :: $");" ++ [nl]) /\
  read_ideal 100 M2 ($"R2 = QQ[R, R1, y];" ++ nl :: $"I = monomialIdeal(" ++ nl :: $" R*y^10," ++ nl :: $" 1_R2" ++ nl :: $");" ++ [nl]) =
    Ok ([$"R"; $"R1"; $"y"], [[1; 0; 10]; [0; 0; 0]]%Z) /\
  write_ideal M2 [] [] = Ok ($"R = QQ[];" ++ nl :: $"I = monomialIdeal(0_R);" ++ [nl]).
Proof. vm_compute. auto. Qed.

(** C34: the same in the monos and newmonos formats. *)
Theorem C34_monos_round_trip : forall max f names J, f = Monos \/ f = NewMonos -> legal_names names -> monomials (List.length names) J ->
  exists file, write_ideal f names J = Ok file /\ read_ideal max f file = Ok (names, J).
Proof. exact monos_round. Qed.
Print Assumptions C34_monos_round_trip.
Example C34_example :
  write_ideal NewMonos [$"a"; $"b_1"] [[1; 3]; [0; 0]]%Z =
    Ok ($"(monomial-ideal-with-order" ++ nl :: $" (lex-order a b_1)" ++ nl :: $" a*b_1^3" ++ nl :: $" 1" ++ nl :: $")" ++ [nl]) /\
  read_ideal 100 Monos ($"vars a,b_1; [ a * b_1 ^3,1 ];") = Ok ([$"a"; $"b_1"], [[1; 3]; [0; 0]]%Z).
Proof. vm_compute. auto. Qed.

(** C35: the same in the 4ti2 format, for numbers of variables and of generators that fit into a size_t. *)
Theorem C35_fourti2_round_trip : forall max names J, legal_names names -> monomials (List.length names) J ->
  (Z.of_nat (List.length names) <= max)%Z -> (Z.of_nat (List.length J) <= max)%Z ->
  exists file, write_ideal Fourti2 names J = Ok file /\ read_ideal max Fourti2 file = Ok (names, J).
Proof. exact (fun max names J L M A B => ideal_round max Fourti2 names J (conj L M) (conj A B)). Qed.
Print Assumptions C35_fourti2_round_trip.
(** Names are left out if they are the default ones *)
Example C35_example :
  write_ideal Fourti2 [$"x1"; $"x2"] [[1; 3]; [0; 0]]%Z = Ok ($"2 2" ++ nl :: $" 1 3" ++ nl :: $" 0 0" ++ [nl]) /\
  write_ideal Fourti2 [$"b"; $"a"] [[1; 3]; [0; 0]]%Z = Ok ($"2 2" ++ nl :: $" 1 3" ++ nl :: $" 0 0" ++ nl :: $" b a" ++ [nl]).
Proof. vm_compute. auto. Qed.

(** C51: the same in the Singular and CoCoA 4 formats. *)
Theorem C51_singular_cocoa_round_trip : forall max f names J, f = Singular \/ f = CoCoA4 -> legal_names names -> monomials (List.length names) J ->
  (f = CoCoA4 -> Z.of_nat (List.length names) <= max)%Z ->
  exists file, write_ideal f names J = Ok file /\ read_ideal max f file = Ok (names, J).
Proof. exact others_round. Qed.
Print Assumptions C51_singular_cocoa_round_trip.
Example C51_example :
  write_ideal Singular [$"x"] [[12]; [0]]%Z = Ok ($"ring R = 0, (x), lp;" ++ nl :: $"int noVars = 0;" ++ nl :: $"ideal I =" ++ nl :: $" x^12," ++ nl :: $" 1;" ++ [nl]) /\
  write_ideal CoCoA4 [$"x"; $"y"] [[12; 1]]%Z =
    Ok ($"Use R ::= Q[x[1..2]];" ++ nl :: $"Names := [""x"", ""y""];" ++ nl :: $"I := Ideal(" ++ nl :: $" x[1]^12x[2]" ++ nl :: $");" ++ [nl]).
Proof. vm_compute. auto. Qed.

(** C36 says that x to the power d is read with the decimal value of d as exponent, for every nonempty string d of digits.  That
    is false for strings with a leading zero.  Proved: it holds for all others, in every format.  Missing: nothing else; numerals
    with a leading zero are read in base 8 or rejected. *)
Theorem C36_decimal_exponents_partial : forall max f ds, (1 <= max)%Z -> numeral ds -> no_leading_zero ds ->
  read_ideal max f (power_file f ds) = Ok ([$"x"], [[decimal_value ds]]).
Proof. exact numeral_read. Qed.
Print Assumptions C36_decimal_exponents_partial.
Example C36_example : numeral ($"1000") /\ no_leading_zero ($"1000") /\ decimal_value ($"1000") = 1000%Z /\ power_file Fourti2 ($"1000") = $"1 1" ++ nl :: $" 1000" ++ nl :: $" x" ++ [nl].
Proof. repeat split; try reflexivity; try discriminate; [repeat constructor | right; discriminate]. Qed.
Theorem C36_refuted : forall f, exists a b, numeral a /\ numeral b /\
  (exists e, read_ideal 100 f (power_file f a) = Ok ([$"x"], [[e]]) /\ e <> decimal_value a) /\
  read_ideal 100 f (power_file f b) = InvalidArgument.
Proof. exact octal_read. Qed.
Print Assumptions C36_refuted.

(** C52: a list of ideals, each with its own ring, that is written in any of the formats is read back as the same list; an empty
    list is read back with the names of the ring that was given. *)
Theorem C52_lists_round_trip : forall max f names Js, (42 <= max)%Z -> legal_names names -> (f = CoCoA4 -> Z.of_nat (List.length names) <= max)%Z ->
  Forall (fun J => good_ideal J /\ format_fits max f (fst J) (snd J)) Js ->
  exists file, write_ideals f names Js = Ok file /\ read_ideals max f file = Ok (last (map fst Js) names, Js).
Proof. exact list_round. Qed.
Print Assumptions C52_lists_round_trip.
Example C52_example :
  write_ideals M2 [] [([$"x"], [[2]]); ([$"x"], []); ([$"y"], [[1]])]%Z =
    Ok ($"R = QQ[x];" ++ nl :: $"I = monomialIdeal(" ++ nl :: $" x^2" ++ nl :: $");" ++ nl :: $"I = monomialIdeal(0_R);" ++ nl ::
        $"R = QQ[y];" ++ nl :: $"I = monomialIdeal(" ++ nl :: $" y" ++ nl :: $");" ++ [nl]) /\
  read_ideals 100 M2 ($"R=QQ[x];I=monomialIdeal(x^2);I=monomialIdeal(0);R=QQ[y];I=monomialIdeal(y);") = Ok ([$"y"], [([$"x"], [[2]]); ([$"x"], []); ([$"y"], [[1]])]%Z) /\
  (* 42 generators: not taken for the ring of an empty list *)
  (exists file, write_ideals Fourti2 [] [([$"y"], repeat [1] 42)]%Z = Ok file /\ read_ideals 100 Fourti2 file = Ok ([$"y"], [([$"y"], repeat [1] 42)]%Z)) /\
  write_ideals Fourti2 [$"y"] [] = Ok ($"42 ring" ++ nl :: $" y" ++ [nl]) /\ read_ideals 100 Fourti2 ($"42 ring" ++ nl :: $" y" ++ [nl]) = Ok ([$"y"], []).
Proof. repeat split; try (vm_compute; reflexivity). eexists. split; [vm_compute; reflexivity|]. vm_compute. reflexivity. Qed.

(** C53: whatever the text, in every format, reading ends with a well formed result or with an error: no loop, no failing
    assertion, no index out of range; names that are accepted are legal and distinct and every generator has one nonnegative
    exponent per variable. *)
Theorem C53_reading_is_total : forall max f file,
  (match read_ideal max f file with
   | Ok J => good_ideal J
   | OutOfFuel | Undefined => False
   | SyntaxError | OtherError | InvalidArgument => True
   end) /\
  (match read_ideals max f file with
   | Ok (names, Js) => legal_names names /\ Forall good_ideal Js
   | OutOfFuel | Undefined => False
   | SyntaxError | OtherError | InvalidArgument => True
   end) /\
  (match read_square_free max f file with
   | Ok (names, B) => legal_names names /\ Forall (fun b => List.length b = List.length names) B
   | OutOfFuel | Undefined => False
   | SyntaxError | OtherError | InvalidArgument => True
   end).
Proof. exact reading_total. Qed.
Print Assumptions C53_reading_is_total.
(** Accepted and rejected texts *)
Example C53_example :
  read_ideal 100 M2 ($"R=QQ[x,y];I=monomialIdeal(y*x^3,x);") = Ok ([$"x"; $"y"], [[3; 1]; [1; 0]]%Z) /\
  read_ideal 100 M2 ($"R=QQ[x,x];I=monomialIdeal(x);") = SyntaxError /\ read_ideal 100 M2 ($"R=QQ[x];I=monomialIdeal(x*x);") = SyntaxError /\
  read_ideal 100 M2 ($"R=QQ[x];I=monomialIdeal(x^-2);") = SyntaxError /\ read_ideal 100 M2 ($"R=QQ[x];I=monomialIdeal(z);") = SyntaxError /\
  read_ideal 100 Fourti2 ($"1 2 3") = SyntaxError /\ read_ideal 100 Fourti2 ($"1 1 -3") = Ok ([$"x1"], [[0]]%Z) /\ read_ideal 100 Fourti2 ($"1 1000") = SyntaxError /\
  read_ideals 100 Singular [] = SyntaxError.
Proof. vm_compute. auto 10. Qed.

(** C54: reading a square free ideal gives exactly the sets of variables of the generators.  What it accepts, reading an ideal
    accepts with the same result; an ideal with an exponent above one is rejected; what was written from square free generators is
    accepted. *)
Theorem C54_square_free_reading : forall max f,
  (forall file names B, read_square_free max f file = Ok (names, B) ->
     read_ideal max f file = Ok (names, map (map (fun b : bool => if b then 1 else 0)%Z) B)) /\
  (forall file names J, read_ideal max f file = Ok (names, J) -> Exists (Exists (fun e => 1 < e)%Z) J -> read_square_free max f file = OtherError) /\
  (forall names B, legal_names names -> Forall (fun b => List.length b = List.length names) B ->
     format_fits max f names (map (map (fun b : bool => if b then 1 else 0)%Z) B) ->
     exists file, write_ideal f names (map (map (fun b : bool => if b then 1 else 0)%Z) B) = Ok file /\ read_square_free max f file = Ok (names, B)).
Proof. exact square_free_all. Qed.
Print Assumptions C54_square_free_reading.
Example C54_example :
  read_square_free 100 M2 ($"R=QQ[x,y];I=monomialIdeal(y*x^1,x);") = Ok ([$"x"; $"y"], [[true; true]; [true; false]]) /\
  read_square_free 100 M2 ($"R=QQ[x,y];I=monomialIdeal(x,y^2);") = OtherError.
Proof. vm_compute. auto. Qed.

(** C55: an ideal that is written generator by generator from vectors of indices into tables of exponents, as the algorithms do, is
    read back as the ideal of the exponents in the tables, in every format. *)
Theorem C55_streams_round_trip : forall max f names tr idxs J, List.length tr = List.length names -> Forall (fun t => List.length t = List.length names) idxs ->
  Forall2 (looked_up tr) idxs J -> legal_names names -> monomials (List.length names) J -> format_fits max f names J ->
  exists file, write_stream f names tr idxs = Ok file /\ read_ideal max f file = Ok (names, J).
Proof. exact (fun max f names tr idxs J A B C D E F => stream_round max f names tr idxs J A B C (conj D E) F). Qed.
Print Assumptions C55_streams_round_trip.
(** The CoCoA 4 writer prints exponents that are zero (F13) *)
Example C55_example :
  Forall2 (looked_up [[0; 7]; [0; 1; 5]]%Z) [[1; 2]; [0; 1]] [[7; 5]; [0; 1]]%Z /\
  write_stream M2 [$"x"; $"y"] [[0; 7]; [0; 1; 5]]%Z [[1; 2]; [0; 1]] = Ok ($"R = QQ[x, y];" ++ nl :: $"I = monomialIdeal(" ++ nl :: $" x^7*y^5," ++ nl :: $" y" ++ nl :: $");" ++ [nl]) /\
  write_stream CoCoA4 [$"x"; $"y"] [[0; 7]; [0; 1; 5]]%Z [[1; 2]; [0; 1]] =
    Ok ($"Use R ::= Q[x[1..2]];" ++ nl :: $"Names := [""x"", ""y""];" ++ nl :: $"I := Ideal(" ++ nl :: $" x[1]^7x[2]^5," ++ nl :: $" x[1]^0x[2]" ++ nl :: $");" ++ [nl]).
Proof.
  split; [|vm_compute; auto]. repeat constructor; cbn; intros [|[|i]] H; auto; lia.
Qed.

(** C56: the format of what was written is detected. *)
Theorem C56_format_detection : forall f names J Js file, write_ideal f names J = Ok file \/ write_ideals f names Js = Ok file -> autoDetect file = f.
Proof. exact detect_both. Qed.
Print Assumptions C56_format_detection.
Example C56_example : autoDetect ($"  vars x;") = Monos /\ autoDetect ($"Use R ::= Q[x];") = CoCoA4 /\ autoDetect ($"ring R = 0, (x), lp;") = Singular /\
  autoDetect ($"(monomial-ideal-with-order") = NewMonos /\ autoDetect ($"42 ring") = Fourti2 /\ autoDetect ($"R = QQ[x];") = M2.
Proof. vm_compute. auto 10. Qed.

(** C57: whatever the size of its buffer, the scanner sees the characters of the file one after the other and then its end. *)
Theorem C57_buffer_is_transparent : forall cap k file, 1 <= cap ->
  nextChars cap k (Buf [] file true) = map Some (firstn k file) ++ repeat None (k - List.length file).
Proof. exact (fun cap k file C => buffer_file cap k file C). Qed.
Print Assumptions C57_buffer_is_transparent.
Example C57_example : nextChars 2 7 (Buf [] ($"abcd") true) = map Some ($"abcd") ++ [None; None; None] /\ nextChars 3 6 (Buf [] ($"abcd") true) = map Some ($"abcd") ++ [None; None].
Proof. vm_compute. auto. Qed.
