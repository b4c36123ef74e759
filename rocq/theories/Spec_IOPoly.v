(** What the theorems about polynomials in files say, independently of the readers and writers.  A polynomial is a list of pairs of a
    coefficient and the exponents of a monomial. *)
From Coq Require Import List Arith Bool ZArith Sorted Permutation.
Import ListNotations.
From Verif Require Import M_Term M_Api M_Names M_IO Spec_IO Spec_Names Spec_Poly.

(** Coefficients are any integers; each term has n exponents, none of them negative *)
Definition terms_of (n : nat) (p : list (Z * list Z)) : Prop := monomials n (map snd p).
(** The formats that have polynomials *)
Definition polynomial_format (f : format) : Prop := f = M2 \/ f = Singular \/ f = CoCoA4 \/ f = Fourti2.
(** Numbers that are read as a size_t have to fit into one; 4ti2 has one more column than there are variables *)
Definition polynomial_fits (max_ulong : Z) (f : format) (names : list str) (p : list (Z * list Z)) : Prop :=
  match f with
  | Fourti2 => fits max_ulong (S (length names)) /\ fits max_ulong (length p)
  | CoCoA4 => fits max_ulong (length names)
  | _ => True
  end.
(** The coefficient of a monomial: the sum over all terms with that monomial *)
Definition zmono_dec (a b : list Z) : {a = b} + {a <> b} := list_eq_dec Z.eq_dec a b.
Definition coefficient (p : list (Z * list Z)) (m : list Z) : Z :=
  fold_right (fun ct s => if zmono_dec (snd ct) m then fst ct + s else s)%Z 0%Z p.
Definition same_polynomial (p q : list (Z * list Z)) : Prop := forall m, coefficient p m = coefficient q m.
(** The terms that a translator gives: the exponent of each variable is looked up in its table *)
Definition translated (tr : translator) (a : Z * list nat) (b : Z * list Z) : Prop :=
  fst a = fst b /\ length (snd a) = length tr /\ looked_up tr (snd a) (snd b).
(** A vector of indices into the tables that has the exponent 0 exactly where the index is 0.  (The tables of the program have another 0 at
    their end, which stands for an exponent at infinity.) *)
Definition proper_indices (tr : translator) (t : list nat) : Prop :=
  forall v, v < length tr -> nth v t 0 < length (nth v tr []) /\ (nth (nth v t 0) (nth v tr []) 0%Z = 0%Z <-> nth v t 0 = 0).
(** ** The action that transforms polynomials *)
(** The same coefficient and the same monomial, over the names [l] and [l'] *)
Definition same_coef_term (l l' : list str) (a b : Z * list Z) : Prop := fst a = fst b /\ same_term 0%Z l l' (snd a) (snd b).
(** Terms in descending lexicographic order of their exponents *)
Definition descending_poly (p : list (Z * list Z)) : Prop :=
  StronglySorted (fun a b => zlex (snd b) (snd a) \/ (snd a = snd b /\ (fst a <= fst b)%Z)) p.
(** What the options ask for: canonicalize sorts the names and rewrites the terms; both options sort the terms *)
Definition transformed (canonicalize sort : bool) (names : list str) (p : list (Z * list Z)) (names' : list str) (q : list (Z * list Z)) : Prop :=
  exists p', (if canonicalize then ascending names' /\ Permutation names' names /\ Forall2 (same_coef_term names names') p p'
              else names' = names /\ p' = p) /\
             (if sort || canonicalize then Permutation q p' /\ descending_poly q else q = p').
(** The same polynomial up to the order of the variables and of the terms *)
Definition rearranged (l : list str) (p : list (Z * list Z)) (l' : list str) (q : list (Z * list Z)) : Prop :=
  Permutation l l' /\ exists p', Permutation p p' /\ Forall2 (same_coef_term l l') p' q.
