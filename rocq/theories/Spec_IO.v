(** What the theorems about reading and writing say, independently of the readers and writers. *)
From Coq Require Import String Ascii.
From Coq Require Import List Arith Bool ZArith.
Import ListNotations.
From Verif Require Import M_Names M_IO.

(** Letters, digits and the names of variables: a letter followed by letters, digits and underscores *)
Definition letter (c : ascii) : Prop := (65 <= nat_of_ascii c <= 90) \/ (97 <= nat_of_ascii c <= 122).
Definition digit (c : ascii) : Prop := 48 <= nat_of_ascii c <= 57.
Definition legal_name (x : str) : Prop :=
  match x with [] => False | c :: r => letter c /\ Forall (fun d => letter d \/ digit d \/ d = "_"%char) r end.
(** The variables of a ring: distinct legal names *)
Definition legal_names (names : list str) : Prop := NoDup names /\ Forall legal_name names.
(** A list of monomials in n variables: n exponents each, none of them negative *)
Definition monomials (n : nat) (J : list (list Z)) : Prop :=
  Forall (fun t => List.length t = n /\ Forall (fun e => (0 <= e)%Z) t) J.
(** Numbers that the 4ti2 and CoCoA formats print and read as a size_t have to fit into one *)
Definition fits (max_ulong : Z) (k : nat) : Prop := (Z.of_nat k <= max_ulong)%Z.
Definition format_fits (max_ulong : Z) (f : format) (names : list str) (J : list (list Z)) : Prop :=
  match f with
  | Fourti2 => fits max_ulong (List.length names) /\ fits max_ulong (List.length J)
  | CoCoA4 => fits max_ulong (List.length names)
  | _ => True
  end.
(** A nonempty string of decimal digits and its value *)
Definition numeral (ds : str) : Prop := ds <> [] /\ Forall digit ds.
Definition decimal_value (ds : str) : Z := fold_left (fun v c => 10 * v + (Z.of_nat (nat_of_ascii c) - 48))%Z ds 0%Z.
(** A numeral that does not begin with a zero unless it is that zero *)
Definition no_leading_zero (ds : str) : Prop := ds = ["0"%char] \/ hd_error ds <> Some "0"%char.
(** A file that gives the ideal of x to the power written as [ds], in each format *)
Definition power_file (f : format) (ds : str) : list ascii :=
  match f with
  | M2 => lit "R = QQ[x];" ++ nl :: lit "I = monomialIdeal(" ++ nl :: lit " x^" ++ ds ++ nl :: lit ");" ++ [nl]
  | Monos => lit "vars x;" ++ nl :: lit "[" ++ nl :: lit " x^" ++ ds ++ nl :: lit "];" ++ [nl]
  | NewMonos => lit "(monomial-ideal-with-order" ++ nl :: lit " (lex-order x)" ++ nl :: lit " x^" ++ ds ++ nl :: lit ")" ++ [nl]
  | Fourti2 => lit "1 1" ++ nl :: lit " " ++ ds ++ nl :: lit " x" ++ [nl]
  | Singular => lit "ring R = 0, (x), lp;" ++ nl :: lit "int noVars = 0;" ++ nl :: lit "ideal I =" ++ nl :: lit " x^" ++ ds ++ lit ";" ++ [nl]
  | CoCoA4 => lit "Use R ::= Q[x[1..1]];" ++ nl :: lit "Names := [""x""];" ++ nl :: lit "I := Ideal(" ++ nl :: lit " x[1]^" ++ ds ++ nl :: lit ");" ++ [nl]
  end.
(** The monomial that a vector of table indices stands for: its exponent of variable i is entry [nth i t] of table i *)
Definition looked_up (tr : list (list Z)) (t : list nat) (e : list Z) : Prop :=
  List.length e = List.length t /\ forall i, i < List.length t -> nth i e 0%Z = nth (nth i t 0) (nth i tr []) 0%Z.
(** What a well formed ideal is *)
Definition good_ideal (J : list str * list (list Z)) : Prop := legal_names (fst J) /\ monomials (List.length (fst J)) (snd J).
