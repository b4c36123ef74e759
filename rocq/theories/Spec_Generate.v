(** The families of ideals that the program can generate, and the instances of the Frobenius problem. *)
From Coq Require Import String Ascii.
From Coq Require Import List Arith ZArith.
Import ListNotations.
From Verif Require Import M_Names M_IO.
From Verif Require Import Spec Spec_Api.
Local Open Scope list_scope.
Local Open Scope nat_scope.
Local Notation length := List.length.

(** The variables x1, x2, ... *)
Definition x_names (n : nat) : list str := map (fun i => "x"%char :: nat_str (i + 1)) (seq 0 n).
(** The product of the variables in the set, each one once *)
Definition product_over (n : nat) (vars : nat -> Prop) (m : mono) : Prop :=
  length m = n /\ forall v, v < n -> (vars v -> nth v m 0 = 1) /\ (~ vars v -> nth v m 0 = 0).
(** The list has each monomial that has the property once, and no other one. *)
Definition exactly (P : mono -> Prop) (gens : list mono) : Prop := NoDup gens /\ forall m, In m gens <-> P m.
(** No generator divides another one. *)
Definition no_divisors (gens : list mono) : Prop := forall a b, In a gens -> In b gens -> divs a b -> a = b.

(** The tree ideal: for each set of variables that is not empty, the product of x^(n-k+1) over the x in the set, where k is its size *)
Definition tree_generator (n : nat) (m : mono) : Prop :=
  length m = n /\ exists F, F <> [] /\ NoDup F /\ (forall v, In v F -> v < n) /\
    forall v, v < n -> (In v F -> nth v m 0 = n - length F + 1) /\ (~ In v F -> nth v m 0 = 0).

(** Chess: the square in row r and column c of a board with n columns is the variable number r n + c. *)
Definition apart (a b d : nat) : Prop := a = b + d \/ b = a + d.
Definition king_move (r c r' c' : nat) : Prop := (r <> r' \/ c <> c') /\ (r = r' \/ apart r r' 1) /\ (c = c' \/ apart c c' 1).
Definition knight_move (r c r' c' : nat) : Prop := (apart r r' 1 /\ apart c c' 2) \/ (apart r r' 2 /\ apart c c' 1).
Definition chess_generator (move : nat -> nat -> nat -> nat -> Prop) (n : nat) (m : mono) : Prop :=
  exists r c r' c', r < n /\ c < n /\ r' < n /\ c' < n /\ move r c r' c' /\
    product_over (n * n) (fun v => v = r * n + c \/ v = r' * n + c') m.
Definition chess_variables (n : nat) (names : list str) : Prop :=
  length names = n * n /\
  forall r c, r < n -> c < n -> nth (r * n + c) names [] = "r"%char :: nat_str (r + 1) ++ "c"%char :: nat_str (c + 1).

(** As many rooks as there is room for on a board with a rows and b columns, a <= b, none of which attacks another one: there is one in each
    row, in the column [f row]. *)
Definition rook_generator (a b : nat) (m : mono) : Prop :=
  exists f : nat -> nat, (forall r, r < a -> f r < b) /\ (forall r r', r < a -> r' < a -> f r = f r' -> r = r') /\
    product_over (a * b) (fun v => exists r, r < a /\ v = r * b + f r) m.

(** The edge of the complete graph between the nodes a and b, b < a, is the variable number a (a - 1) / 2 + b. *)
Definition edge (a b : nat) : nat := a * (a - 1) / 2 + b.
Definition touches (a b v : nat) : Prop := v = a \/ v = b.
(** The monomial is a product of different edges that have no node in common. *)
Definition matching (n : nat) (m : mono) : Prop :=
  length m = n * (n - 1) / 2 /\ (forall v, nth v m 0 <= 1) /\
  forall a b c d v, b < a -> a < n -> d < c -> c < n -> nth (edge a b) m 0 = 1 -> nth (edge c d) m 0 = 1 ->
    touches a b v -> touches c d v -> a = c /\ b = d.
(** The edges touch the node. *)
Definition covered (n : nat) (m : mono) (v : nat) : Prop := exists a b, b < a /\ a < n /\ nth (edge a b) m 0 = 1 /\ touches a b v.
(** At most one node is left out. *)
Definition matching_generator (n : nat) (m : mono) : Prop :=
  matching n m /\ forall u v, u < n -> v < n -> ~ covered n m u -> ~ covered n m v -> u = v.

(** The product of two different variables *)
Definition edge_generator (n : nat) (m : mono) : Prop := exists a b, a < n /\ b < n /\ a <> b /\ product_over n (fun v => v = a \/ v = b) m.
(** The number t of the monomials that are tried: its exponents are random numbers modulo [range] + 1. *)
Definition candidate (rand : nat -> nat) (range n t : nat) : mono := map (fun v => rand (t * n + v) mod (range + 1)) (seq 0 n).
(** One of the monomials divides the other one. *)
Definition comparable (a b : mono) : Prop := divs a b \/ divs b a.

(** Numbers in increasing order *)
Definition increasing (l : list Z) : Prop := forall i j, i <= j -> j < length l -> (nth i l 0 <= nth j l 0)%Z.

(** Numbers on a line, with a space between them *)
Fixpoint number_line (l : list Z) : text :=
  match l with
  | [] => [nl]
  | a :: rest => z_str a ++ match rest with [] => [nl] | _ :: _ => " "%char :: number_line rest end
  end.
(** The numbers that are drawn for an instance: at least 1, and at most 10 to the power of [digits] *)
Definition drawn (rand : nat -> nat) (count digits : nat) : list Z := map (fun i => (Z.of_nat (rand i) mod 10 ^ Z.of_nat digits + 1)%Z) (seq 0 count).
Definition greatest_divisor (numbers : list Z) (g : Z) : Prop :=
  (0 < g)%Z /\ Forall (fun x => (g | x)%Z) numbers /\ forall d, Forall (fun x => (d | x)%Z) numbers -> (d | g)%Z.

(** What the option -type of the action genideal stands for: [range], n and k are the values of -expRange, -varCount and -genCount, and the
    ideal has these variables and generators. *)
Inductive family (rand : nat -> nat) (range n k : nat) : string -> list str -> list mono -> Prop :=
  | random_family gens : length gens <= k -> Forall (fun m => exists t, m = candidate rand range n t) gens -> family rand range n k "random" (x_names n) gens
  | edge_family gens : length gens <= k -> Forall (edge_generator n) gens -> family rand range n k "edge" (x_names n) gens
  | list_family gens : exactly (fun m => exists i, S i < n /\ product_over n (fun v => v = i \/ v = S i) m) gens -> family rand range n k "list" (x_names n) gens
  | king_family names gens : chess_variables n names -> exactly (chess_generator king_move n) gens -> family rand range n k "king" names gens
  | knight_family names gens : chess_variables n names -> exactly (chess_generator knight_move n) gens -> family rand range n k "knight" names gens
  | rook_family gens : 1 <= n <= 1000 -> 1 <= k <= 1000 -> exactly (rook_generator (Nat.min n k) (Nat.max n k)) gens ->
      family rand range n k "rook" (x_names (n * k)) gens
  | matching_family gens : 1 <= n <= 1000 -> exactly (matching_generator n) gens -> family rand range n k "matching" (x_names (n * (n - 1) / 2)) gens
  | tree_family gens : exactly (tree_generator n) gens -> family rand range n k "tree" (x_names n) gens.
Definition family_types : list string := ["random"; "edge"; "list"; "king"; "knight"; "rook"; "matching"; "tree"]%string.
