(** What polynomials and canonical output should be. *)
From Coq Require Import List Arith ZArith Sorted Permutation.
Import ListNotations.
From Verif Require Import Spec Spec_Api M_Api M_Poly.

(** The lexicographic order on lists of integers *)
Fixpoint zlex (a b : list Z) : Prop :=
  match a, b with
  | x :: a', y :: b' => (x < y)%Z \/ (x = y /\ zlex a' b')
  | _, _ => False
  end.
(** The sum of the coefficients of the monomial [m] *)
Fixpoint total (p : list (Z * mono)) (m : mono) : Z :=
  match p with
  | [] => 0
  | (c, d) :: p' => ((if list_eq_dec Nat.eq_dec d m then c else 0) + total p' m)%Z
  end.
(** The monomials are in strictly descending lexicographic order, so there are no two equal ones. *)
Definition descending_terms (p : list (Z * mono)) : Prop := StronglySorted (fun a b => lex_lt (snd b) (snd a)) p.
(** All monomials have n exponents *)
Definition poly_in_ring (n : nat) (p : list (Z * mono)) : Prop := Forall (fun t => length (snd t) = n) p.

(** What was added at the key [k] since the accumulator was cleared *)
Definition added {K} (dec : forall a b : K, {a = b} + {a <> b}) (ops : list (accum_op K)) (k : K) : Z :=
  fold_left (fun s op => match op with
                         | OpClear => 0
                         | OpAdd c k' => if dec k' k then s + c else s
                         | OpSigned plus k' => if dec k' k then (if plus then s + 1 else s - 1) else s
                         end%Z) ops 0%Z.
Definition op_in_ring (n : nat) (op : accum_op mono) : Prop :=
  match op with OpAdd _ m | OpSigned _ m => length m = n | OpClear => True end.
(** A rearrangement in every step *)
Definition rearranges {A} (arr : nat -> list A -> list A) : Prop := forall i l, Permutation (arr i l) l.

(** The exponent vectors that are written for some terms: those of the translator, if there is one. *)
Definition written (n : nat) (otr : option translator) (ts : list mono) : option (list (list Z)) :=
  match otr with None => Some (map znat ts) | Some tr => translate_all n tr ts end.
(** In descending lexicographic order, with repetitions *)
Definition nonincreasing (vs : list (list Z)) : Prop := StronglySorted (fun a b => a = b \/ zlex b a) vs.
(** The calls for one ideal and for a list of ideals *)
Definition ideal_calls (ts : list mono) : list tcall := TBegin :: map TConsume ts ++ [TDone].
Definition list_calls (Is : list (list mono)) : list tcall := TBeginList :: concat (map ideal_calls Is) ++ [TDoneList].
(** The same ideals up to the order of the ideals and of the generators of each *)
Definition same_collection {A} (Is Js : list (list A)) : Prop :=
  exists Ks, Permutation Is Ks /\ Forall2 (@Permutation A) Ks Js.
Definition all_written (n : nat) (otr : option translator) (Is : list (list mono)) (Vs : list (list (list Z))) : Prop :=
  Forall2 (fun ts vs => written n otr ts = Some vs) Is Vs.
