(** Theorems about reading, writing and transforming polynomials (C71 to C74). *)
From Coq Require Import String Ascii.
From Coq Require Import List Arith Bool ZArith Sorted Permutation Lia.
Import ListNotations.
From Verif Require Import M_Term M_Api M_Names M_IO M_Poly M_IOPoly Spec_IO Spec_Names Spec_Poly Spec_IOPoly P_IOPoly3 P_IOPoly4.
Local Notation "$ s" := (list_ascii_of_string s%string) (at level 0, s at level 0, only parsing).

(** C71: a polynomial that is written in a format that has polynomials is read back with the same names, coefficients and terms in
    the same order.  Only the polynomial without terms is read as the single term 0, in formats other than 4ti2 (F14). *)
Theorem C71_polynomial_round_trip : forall max f names p, polynomial_format f -> legal_names names -> terms_of (List.length names) p ->
  polynomial_fits max f names p ->
  exists file q, write_polynomial f names p = Ok file /\ read_polynomial max f file = Ok (names, q) /\ autoDetect file = f /\
    same_polynomial q p /\ (p <> [] \/ f = Fourti2 -> q = p).
Proof. exact poly_round_trip. Qed.
Print Assumptions C71_polynomial_round_trip.
Definition ex_poly : list (Z * list Z) := [(1, [0; 2]); (-1, [1; 0]); (0, [3; 1]); (-7, [0; 0]); (12, [1; 1])]%Z.
Example C71_example : legal_names [$"x"; $"y"] /\ terms_of 2 ex_poly /\
  write_polynomial M2 [$"x"; $"y"] ex_poly =
    Ok ($"R = QQ[x, y];" ++ nl :: $"p =" ++ nl :: $" y^2 +" ++ nl :: $" -x +" ++ nl :: $" 0*x^3*y +" ++ nl :: $" -7 +" ++ nl :: $" 12*x*y;" ++ [nl]) /\
  write_polynomial Singular [$"x"; $"y"] ex_poly =
    Ok ($"ring R = 0, (x, y), lp;" ++ nl :: $"int noVars = 0;" ++ nl :: $"poly p =" ++ nl :: $" y^2" ++ nl :: $" -x" ++ nl :: $" +0*x^3*y" ++ nl :: $" -7" ++ nl :: $" +12*x*y;" ++ [nl]) /\
  write_polynomial CoCoA4 [$"x"; $"y"] ex_poly =
    Ok ($"Use R ::= Q[x[1..2]];" ++ nl :: $"Names := [""x"", ""y""];" ++ nl :: $"p :=" ++ nl :: $" x[2]^2" ++ nl :: $" -x[1]" ++ nl :: $" +0x[1]^3x[2]" ++ nl :: $" -7" ++ nl :: $" +12x[1]x[2];" ++ [nl]) /\
  write_polynomial Fourti2 [$"x"; $"y"] ex_poly =
    Ok ($"5 3" ++ nl :: $"1  0 2" ++ nl :: $"-1  1 0" ++ nl :: $"0  3 1" ++ nl :: $"-7  0 0" ++ nl :: $"12  1 1" ++ nl :: $"(coefficient) x y" ++ [nl]) /\
  Forall (fun f => exists file, write_polynomial f [$"x"; $"y"] ex_poly = Ok file /\ read_polynomial 100 f file = Ok ([$"x"; $"y"], ex_poly)) [M2; Singular; CoCoA4; Fourti2].
Proof.
  assert (L : legal_name $"x" /\ legal_name $"y") by (split; (split; [right; cbn; lia | constructor])).
  split; [split; [repeat constructor; cbn; intuition discriminate | repeat constructor; apply L]|].
  split; [repeat constructor; cbn; lia|]. do 4 (split; [vm_compute; reflexivity|]).
  repeat (apply Forall_cons || apply Forall_nil); (eexists; split; [vm_compute; reflexivity|vm_compute; reflexivity]).
Qed.
(** The polynomial without terms; no variables *)
Example C71_zero : Forall (fun f => exists file, write_polynomial f [$"x"] [] = Ok file /\ read_polynomial 100 f file = Ok ([$"x"], [(0, [0])]%Z)) [M2; Singular; CoCoA4] /\
  Forall (fun f => exists file, write_polynomial f [] [(3, []); (-1, [])]%Z = Ok file /\ read_polynomial 100 f file = Ok ([], [(3, []); (-1, [])]%Z)) [M2; Singular; CoCoA4; Fourti2].
Proof. split; repeat (apply Forall_cons || apply Forall_nil); (eexists; split; [vm_compute; reflexivity|vm_compute; reflexivity]). Qed.

(** C72: a polynomial that is written term by term from vectors of indices into tables of exponents, as the algorithms do, is read
    back as the polynomial with the exponents in the tables.  The index is to be 0 exactly where the exponent is 0.  In CoCoA 4
    this is only so if each term has all exponents nonzero or all zero. *)
Theorem C72_streamed_polynomials_partial : forall max f names tr p q, polynomial_format f -> legal_names names -> terms_of (List.length names) q ->
  polynomial_fits max f names q -> List.length tr = List.length names -> Forall2 (translated tr) p q ->
  Forall (fun ct => proper_indices tr (snd ct)) p ->
  (f = CoCoA4 -> Forall (fun ct => Forall (fun e => e <> 0%Z) (snd ct) \/ Forall (fun e => e = 0%Z) (snd ct)) q) ->
  exists file r, write_poly_stream f names tr p = Ok file /\ read_polynomial max f file = Ok (names, r) /\ autoDetect file = f /\
    same_polynomial r q /\ (q <> [] \/ f = Fourti2 -> r = q).
Proof. exact stream_round_trip. Qed.
Print Assumptions C72_streamed_polynomials_partial.
Definition ex_tr : translator := [[0; 7; 0]; [0; 1; 5; 0]]%Z.
Definition ex_stream : list (Z * list nat) := [(1%Z, [0; 0]); ((-1)%Z, [1; 2]); (2%Z, [0; 1])].
Example C72_example : Forall (fun ct => proper_indices ex_tr (snd ct)) ex_stream /\
  Forall2 (translated ex_tr) ex_stream [(1, [0; 0]); (-1, [7; 5]); (2, [0; 1])]%Z /\
  write_poly_stream M2 [$"x"; $"y"] ex_tr ex_stream = Ok ($"R = QQ[x, y];" ++ nl :: $"p =" ++ nl :: $" 1 +" ++ nl :: $" -x^7*y^5 +" ++ nl :: $" 2*y;" ++ [nl]) /\
  Forall (fun f => exists file, write_poly_stream f [$"x"; $"y"] ex_tr ex_stream = Ok file /\
    read_polynomial 100 f file = Ok ([$"x"; $"y"], [(1, [0; 0]); (-1, [7; 5]); (2, [0; 1])]%Z)) [M2; Singular; Fourti2].
Proof.
  split; [repeat (apply Forall_cons || apply Forall_nil); intros v H; destruct v as [|[|v]]; cbn in *; lia|].
  split; [repeat (apply Forall2_cons || apply Forall2_nil); (split; [reflexivity|split; [reflexivity|split; [reflexivity|]]]); intros v H; destruct v as [|[|v]]; cbn in *; try lia; auto|].
  split; [vm_compute; reflexivity|]. repeat (apply Forall_cons || apply Forall_nil); (eexists; split; [vm_compute; reflexivity|vm_compute; reflexivity]).
Qed.
(** In CoCoA 4 exponents that are zero are printed and the reader rejects them (F13). *)
Theorem C72_refuted : exists names tr p q file, legal_names names /\ terms_of (List.length names) q /\ List.length tr = List.length names /\
  Forall2 (translated tr) p q /\ Forall (fun ct => proper_indices tr (snd ct)) p /\
  write_poly_stream CoCoA4 names tr p = Ok file /\ read_polynomial 100 CoCoA4 file = SyntaxError.
Proof.
  exists [$"x"; $"y"], ex_tr, ex_stream, [(1, [0; 0]); (-1, [7; 5]); (2, [0; 1])]%Z. eexists.
  split; [apply C71_example|]. split; [repeat constructor; cbn; lia|]. split; [reflexivity|]. do 2 (split; [apply C72_example|]).
  split; [vm_compute; reflexivity|vm_compute; reflexivity].
Qed.
Print Assumptions C72_refuted.

(** C73: whatever the text, reading a polynomial ends with an error that is reported or with a polynomial whose names are legal and
    distinct and whose terms have one nonnegative exponent per variable.  Outside of the 4ti2 format nothing undefined happens. *)
Theorem C73_polynomial_reading_partial : forall max f file,
  match read_polynomial max f file with
  | Ok (names, p) => legal_names names /\ terms_of (List.length names) p
  | SyntaxError | OtherError => True
  | Undefined => f = Fourti2
  | OutOfFuel | InvalidArgument => False
  end.
Proof. exact poly_reading. Qed.
Print Assumptions C73_polynomial_reading_partial.
Example C73_example :
  read_polynomial 100 M2 ($"R=QQ[x,y];p=-3*y*x^2+x+-4;") = Ok ([$"x"; $"y"], [(-3, [2; 1]); (1, [1; 0]); (-4, [0; 0])]%Z) /\
  read_polynomial 100 M2 ($"R=QQ[x];p=x*x;") = SyntaxError /\ read_polynomial 100 M2 ($"R=QQ[x];p=--x;") = SyntaxError /\
  read_polynomial 100 M2 ($"R=QQ[x];p=x x;") = SyntaxError /\ read_polynomial 100 M2 ($"R=QQ[x];p=;") = SyntaxError /\
  read_polynomial 100 M2 ($"R=QQ[x];p=x^0;") = SyntaxError /\ read_polynomial 100 M2 ($"R=QQ[x];p=x;p") = SyntaxError /\
  read_polynomial 100 Monos ($"vars x;") = OtherError /\ read_polynomial 100 Fourti2 ($"1 0") = OtherError /\
  read_polynomial 100 Fourti2 ($"1 2 -1 -3 (coefficient) y") = Ok ([$"y"], [(-1, [0])]%Z).
Proof. vm_compute. auto 10. Qed.
(** In 4ti2 a variable name may be repeated; then there are fewer names than exponents (F21). *)
Theorem C73_refuted : exists file, read_polynomial 100 Fourti2 file = Undefined.
Proof. exists ($"1 3 1 1 1 (coefficient) x x"). vm_compute. reflexivity. Qed.
Print Assumptions C73_refuted.

(** C74: the action ptransform.  If the input is a polynomial then the output is what the options ask for, in the output format, and
    is read back as that. *)
Theorem C74_ptransform : forall max canon sort fin fout file names p,
  let f := match fin with Some f => f | None => autoDetect file end in
  let g := match fout with Some g => g | None => f end in
  read_polynomial max f file = Ok (names, p) -> polynomial_format g -> polynomial_fits max g names p ->
  exists out names' q q', ptransform max canon sort fin fout file = Ok out /\ transformed canon sort names p names' q /\
    read_polynomial max g out = Ok (names', q') /\ same_polynomial q' q /\ (q <> [] \/ g = Fourti2 -> q' = q) /\ autoDetect out = g.
Proof. exact ptransform_all. Qed.
Print Assumptions C74_ptransform.
(** C74: there is no output exactly if the input cannot be read or the output format has no polynomials. *)
Theorem C74_errors : forall max canon sort fin fout file,
  let f := match fin with Some f => f | None => autoDetect file end in
  let g := match fout with Some g => g | None => f end in
  match ptransform max canon sort fin fout file with
  | Ok _ => exists names p, read_polynomial max f file = Ok (names, p)
  | SyntaxError => read_polynomial max f file = SyntaxError
  | OtherError => read_polynomial max f file = OtherError \/ ~ polynomial_format g
  | Undefined => read_polynomial max f file = Undefined /\ f = Fourti2
  | OutOfFuel | InvalidArgument => False
  end /\
  ((forall r, read_polynomial max f file <> Ok r) \/ ~ polynomial_format g -> forall out, ptransform max canon sort fin fout file <> Ok out).
Proof. exact (fun max canon sort fin fout file => conj (ptransform_outcome max canon sort fin fout file) (ptransform_errors max canon sort fin fout file)). Qed.
Print Assumptions C74_errors.
(** C74: with canonicalize, inputs that differ only in the order of the variables and of the terms give the same output. *)
Theorem C74_canonical : forall max s1 s2 f1 f2 g file1 file2 n1 p1 n2 p2,
  read_polynomial max f1 file1 = Ok (n1, p1) -> read_polynomial max f2 file2 = Ok (n2, p2) -> rearranged n1 p1 n2 p2 ->
  ptransform max true s1 (Some f1) (Some g) file1 = ptransform max true s2 (Some f2) (Some g) file2.
Proof. exact (fun max s1 s2 f1 f2 => ptransform_canonical max s1 s2 (Some f1) (Some f2)). Qed.
Print Assumptions C74_canonical.
(** C74: to transform the canonical output again changes nothing, also if its format is detected. *)
Theorem C74_idempotent : forall max s1 s2 f g file out names p, read_polynomial max f file = Ok (names, p) -> polynomial_fits max g names p ->
  ptransform max true s1 (Some f) (Some g) file = Ok out ->
  ptransform max true s2 (Some g) (Some g) out = Ok out /\ ptransform max true s2 None None out = Ok out.
Proof. exact (fun max s1 s2 f g file out names p A B C => ptransform_idem max s1 s2 (Some f) (Some g) file out names p g eq_refl B A C). Qed.
Print Assumptions C74_idempotent.
Example C74_example :
  ptransform 100 true false None (Some Fourti2) ($"R=QQ[z,a];p=3*a+z^2*a-5+z;") =
    Ok ($"4 3" ++ nl :: $"1  1 2" ++ nl :: $"3  1 0" ++ nl :: $"1  0 1" ++ nl :: $"-5  0 0" ++ nl :: $"(coefficient) a z" ++ [nl]) /\
  ptransform 100 true false None (Some Fourti2) ($"R=QQ[a,z];p=z-5+a*z^2+3*a;") = ptransform 100 true true None (Some Fourti2) ($"R=QQ[z,a];p=3*a+z^2*a-5+z;") /\
  ptransform 100 false true None None ($"R=QQ[z,a];p=a+z;") = Ok ($"R = QQ[z, a];" ++ nl :: $"p =" ++ nl :: $" z +" ++ nl :: $" a;" ++ [nl]) /\
  ptransform 100 false false None None ($"R=QQ[z,a];p=a+z;") = Ok ($"R = QQ[z, a];" ++ nl :: $"p =" ++ nl :: $" a +" ++ nl :: $" z;" ++ [nl]) /\
  ptransform 100 false false None (Some Monos) ($"R=QQ[z,a];p=a+z;") = OtherError.
Proof. vm_compute. auto 10. Qed.
Example C74_rearranged : rearranged [$"z"; $"a"] [(3, [0; 1]); (1, [2; 1])]%Z [$"a"; $"z"] [(1, [1; 2]); (3, [1; 0])]%Z.
Proof.
  split; [apply perm_swap|]. exists [(1, [2; 1]); (3, [0; 1])]%Z. split; [apply perm_swap|].
  repeat constructor; intros s; cbn -[str_dec]; unfold exponent_of; cbn -[str_dec]; destruct (str_dec _ s), (str_dec _ s); subst; try discriminate; reflexivity.
Qed.
