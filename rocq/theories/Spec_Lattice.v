(** What the theorems about lattices and about Frobenius numbers by Grobner bases say. *)
From Coq Require Import String Ascii.
From Coq Require Import List Arith Bool ZArith.
Import ListNotations.
From Verif Require Import M_Names M_IO Spec Spec_Frob.
Local Notation length := List.length.

(** ** Lattices *)
(** The rows have [n] entries *)
Definition has_columns (n : nat) (rows : list (list Z)) : Prop := Forall (fun row => length row = n) rows.
(** [v] is a combination of the rows with integers as coefficients *)
Definition combination_of (n : nat) (rows : list (list Z)) (cs v : list Z) : Prop :=
  length cs = length rows /\ length v = n /\ forall k, k < n -> nth k v 0%Z = inner cs (map (fun row => nth k row 0%Z) rows).
Definition in_lattice (n : nat) (rows : list (list Z)) (v : list Z) : Prop := exists cs, combination_of n rows cs v.
(** Only the trivial combination is zero *)
Definition independent_rows (n : nat) (rows : list (list Z)) : Prop :=
  forall cs, combination_of n rows cs (repeat 0%Z n) -> cs = repeat 0%Z (length rows).
Definition zero_count (rows : list (list Z)) : nat := length (filter (Z.eqb 0) (concat rows)).

(** ** Texts *)
(** The numbers in decimal, each followed by white space *)
Definition number_text (numbers : list Z) (file : text) : Prop :=
  exists blanks, length blanks = length numbers /\ Forall blank blanks /\ file = concat (map (fun p => z_str (fst p) ++ snd p) (combine numbers blanks)).
(** Numbers with one space between them *)
Definition spaced (row : list Z) : text := match row with [] => [] | z :: row' => z_str z ++ concat (map (fun z => " "%char :: z_str z) row') end.
(** A matrix in the format of 4ti2: a line with the numbers of rows and columns, then a line for each row *)
Definition text_4ti2 (n : nat) (rows : list (list Z)) : text :=
  spaced [Z.of_nat (length rows); Z.of_nat n] ++ [nl] ++ concat (map (fun row => spaced row ++ [nl]) rows).
(** A matrix in the format of fplll: rows in brackets, and brackets around all *)
Definition text_fplll (rows : list (list Z)) : text :=
  ["["%char; nl] ++ concat (map (fun row => [" "; "["]%char ++ spaced row ++ ["]"%char; nl]) rows) ++ ["]"%char; nl].
Definition lattice_text (format : str) (n : nat) (rows : list (list Z)) : text :=
  if str_dec format (lit "fplll") then text_fplll rows else text_4ti2 n rows.
Definition lattice_formats : list str := [lit "4ti2"; lit "fplll"].
(** The format does not tell the number of columns if there are no rows *)
Definition shape_known (max : Z) (format : str) (n : nat) (rows : list (list Z)) : Prop :=
  has_columns n rows /\ if str_dec format (lit "fplll") then rows = [] -> n = 0 else (Z.of_nat (length rows) <= max /\ Z.of_nat n <= max)%Z.

(** A row in the format of fplll after its opening bracket, with any white space. A number is not directly followed by a digit. *)
Definition white (w : text) : Prop := Forall (fun c => nat_of_ascii c = 32 \/ 9 <= nat_of_ascii c <= 13) w.
Definition no_digit_first (t : text) : Prop := match t with [] => True | c :: _ => ~ (48 <= nat_of_ascii c <= 57) end.
Inductive fplll_row : list Z -> text -> Prop :=
| row_end w : white w -> fplll_row [] (w ++ ["]"%char])
| row_number z row w t : white w -> fplll_row row t -> no_digit_first t -> fplll_row (z :: row) (w ++ z_str z ++ t).
(** The rows after the first bracket *)
Inductive fplll_rows : list (list Z) -> text -> Prop :=
| rows_end w w' : white w -> white w' -> fplll_rows [] (w ++ ["]"%char] ++ w')
| rows_row row rows w t t' : white w -> fplll_row row t -> fplll_rows rows t' -> fplll_rows (row :: rows) (w ++ ["["%char] ++ t ++ t').
Definition fplll_file (rows : list (list Z)) (file : text) : Prop := exists w t, white w /\ fplll_rows rows t /\ file = w ++ ["["%char] ++ t.
(** The file has the matrix: in the format of 4ti2 the numbers of rows and of columns and the entries, row by row *)
Definition lattice_file (format : str) (n : nat) (rows : list (list Z)) (file : text) : Prop :=
  if str_dec format (lit "fplll") then fplll_file rows file else number_text (Z.of_nat (length rows) :: Z.of_nat n :: concat rows) file.
(** The format of the output *)
Definition output_lattice_format (iformat oformat : str) : str := if str_dec oformat (lit "input") then iformat else oformat.

(** ** Grobner bases of the lattice of relations between numbers *)
Definition vector_sum (u v : list Z) : list Z := map (fun p => (fst p + snd p)%Z) (combine u v).
(** The relations between the numbers [a]: these are the differences of two vectors with the same degree, if variable i has degree a_i *)
Definition relation (a u : list Z) : Prop := length u = length a /\ inner u a = 0%Z.
(** The relations whose positive part is the leading term, for an order of monomials. In a reverse lexicographic order the monomial with
    less of the first variable is the greater one. *)
Record reverse_order (a : list Z) (leading : list Z -> Prop) : Prop := {
  order_total : forall u, relation a u -> u = repeat 0%Z (length a) \/ leading u \/ leading (map Z.opp u);
  order_strict : ~ leading (repeat 0%Z (length a));
  order_sum : forall u v, relation a u -> relation a v -> leading u -> leading v -> leading (vector_sum u v);
  order_reverse : forall x u, relation a (x :: u) -> (x < 0)%Z -> leading (x :: u) }.
(** The positive part of [g] divides that of [u] *)
Definition positive_part_divides (g u : list Z) : Prop := Forall2 (fun x y => (Z.max 0 x <= Z.max 0 y)%Z) g u.
Definition grobner_basis (a : list Z) (G : list (list Z)) : Prop :=
  exists leading, reverse_order a leading /\ (forall g, In g G -> relation a g /\ leading g) /\
    (forall u, relation a u -> leading u -> exists g, In g G /\ positive_part_divides g u).
(** The leading terms without the first variable *)
Definition leading_monomials (G : list (list Z)) : list mono := map (fun g => map Z.to_nat (tl g)) G.
(** What is printed for the option -vector: the coefficients of the numbers in a combination that gives the Frobenius number *)
Definition vector_line (v : list Z) : text := ["("%char] ++ z_str (-1) ++ concat (map (fun z => [","; " "]%char ++ z_str z) v) ++ [")"%char; nl].
