(** What variable names and name tables should be. *)
From Coq Require Import List Arith Bool ZArith Ascii Sorted Permutation.
Import ListNotations.
From Verif Require Import M_Names.

(** ** Names as a list *)
Fixpoint index_of (s : str) (l : list str) : option nat :=
  match l with
  | [] => None
  | x :: l' => if str_dec x s then Some 0 else option_map S (index_of s l')
  end.
Definition swap_at (a b : nat) (l : list str) : list str :=
  map (fun i => nth (if i =? a then b else if i =? b then a else i) l []) (seq 0 (length l)).
Definition remove_at (i : nat) (l : list str) : list str := firstn i l ++ skipn (S i) l.
(** What an operation does to the list of names; [None]: it is not allowed *)
Definition names_step (invalidIndex : nat) (l : list str) (op : vn_op) : option (list str * list bool) :=
  match op with
  | VAdd s => if in_dec str_dec s l then Some (l, [false])
              else if S (length l) =? invalidIndex then None else Some (l ++ [s], [true])
  | VSwap a b => if (a <? length l) && (b <? length l) then Some (swap_at a b l, []) else None
  | VProject i => if i <? length l then Some (remove_at i l, []) else None
  | VClear => Some ([], [])
  | VCopy => Some (l, [])
  end.
Fixpoint names_run (invalidIndex : nat) (l : list str) (ops : list vn_op) : option (list str * list bool) :=
  match ops with
  | [] => Some (l, [])
  | op :: ops' =>
      match names_step invalidIndex l op with
      | None => None
      | Some (l', out) => match names_run invalidIndex l' ops' with None => None | Some (l'', out') => Some (l'', out ++ out') end
      end
  end.
(** What can be seen of the object [v] is what the list [l] says. *)
Definition shows (invalidIndex : nat) (v : varNames) (l : list str) : Prop :=
  vn_count v = length l /\
  (forall i, vn_getName v i = nth_error l i) /\
  (forall s, vn_getIndex invalidIndex v s = match index_of s l with Some i => i | None => invalidIndex end) /\
  (forall s, vn_contains invalidIndex v s = true <-> In s l).
(** The object is reached from an empty one. *)
Definition reached (invalidIndex : nat) (v : varNames) (l : list str) : Prop :=
  exists ops outs, names_run invalidIndex [] ops = Some (l, outs) /\ vn_run invalidIndex vn_empty ops = Some (v, outs).

(** Lexicographic order of sequences, a proper prefix first *)
Inductive lexico {A} (lt : A -> A -> Prop) : list A -> list A -> Prop :=
| lexico_prefix : forall y b, lexico lt [] (y :: b)
| lexico_head : forall x y a b, lt x y -> lexico lt (x :: a) (y :: b)
| lexico_tail : forall x a b, lexico lt a b -> lexico lt (x :: a) (x :: b).
Definition str_lt : str -> str -> Prop := lexico (fun a b => nat_of_ascii a < nat_of_ascii b).

(** Names separated by commas *)
Definition with_commas (l : list str) : str :=
  match l with [] => [] | s :: l' => s ++ concat (map (fun t => ","%char :: " "%char :: t) l') end.

(** The exponent of the variable named [s] in the exponent vector [t] over the names [l] *)
Definition exponent_of {A} (zero : A) (l : list str) (t : list A) (s : str) : A :=
  match index_of s l with Some i => nth i t zero | None => zero end.
(** [t'] over the names [l'] is the monomial [t] over the names [l] *)
Definition same_term {A} (zero : A) (l : list str) (l' : list str) (t t' : list A) : Prop :=
  length t' = length l' /\ forall s, exponent_of zero l' t' s = exponent_of zero l t s.
(** x1, x2, ..., with n names *)
Definition default_names (n : nat) : list str := map (fun i => "x"%char :: nat_str (i + 1)) (seq 0 n).
Definition ascending (l : list str) : Prop := StronglySorted str_lt l.

(** ** Name tables *)
Definition prefix_of (p s : str) : Prop := exists t, s = p ++ t.
