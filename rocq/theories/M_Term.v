(** Model of Term.h and TermPredicate.cpp: exponent vectors.
    A term is the list of its exponents; [n] is the parameter varCount of the
    static C++ functions.  [Exponent] (unsigned int) is modelled by [nat];
    overflow is not modelled (see DESIGN.md, section 2). *)
From Coq Require Import List Arith Bool Lia.
Import ListNotations.

Definition term := list nat.

(** a[v], Term.h:77-120 (operator[]); reading outside the array is excluded
    everywhere by v < varCount and gives 0 here. *)
Notation "a @ v" := (nth v a 0) (at level 20, no associativity).

(** A C++ loop "for var in 0..varCount-1: res[var] = f(var)". *)
Definition tabulate (n : nat) (f : nat -> nat) : term := map f (seq 0 n).

(** Assignment a[v] = e. *)
Definition t_set (n : nat) (a : term) (v e : nat) : term :=
  tabulate n (fun w => if w =? v then e else a @ w).

(** Term.h:152-159 divides *)
Definition t_divides (n : nat) (a b : term) : bool :=
  forallb (fun v => negb (b @ v <? a @ v)) (seq 0 n).

(** Term.h:172-180 dominates *)
Definition t_dominates (n : nat) (a b : term) : bool :=
  forallb (fun v => negb (a @ v <? b @ v)) (seq 0 n).

(** Term.h:196-209 strictlyDivides *)
Definition t_strictlyDivides (n : nat) (a b : term) : bool :=
  forallb (fun v => negb ((b @ v <=? a @ v) && negb (a @ v =? 0))) (seq 0 n)
  && existsb (fun v => negb (b @ v =? 0)) (seq 0 n).

(** Term.h:221-233 lcm *)
Definition t_lcm (n : nat) (a b : term) : term :=
  tabulate n (fun v => if b @ v <? a @ v then a @ v else b @ v).

(** Term.h:255-267 gcd *)
Definition t_gcd (n : nat) (a b : term) : term :=
  tabulate n (fun v => if a @ v <? b @ v then a @ v else b @ v).

(** Term.h:280-288 product *)
Definition t_product (n : nat) (a b : term) : term :=
  tabulate n (fun v => a @ v + b @ v).

(** Term.h:304-308 setToIdentity *)
Definition t_identity (n : nat) : term := tabulate n (fun _ => 0).

(** Term.h:316-322 isIdentity *)
Definition t_isIdentity (n : nat) (a : term) : bool :=
  forallb (fun v => a @ v =? 0) (seq 0 n).

(** Term.h:331-337 isSquareFree *)
Definition t_isSquareFree (n : nat) (a : term) : bool :=
  forallb (fun v => negb (2 <=? a @ v)) (seq 0 n).

(** Term.h:346-352 getFirstNonZeroExponent: first index with non-zero
    exponent, varCount if there is none. *)
Fixpoint find_from (f : nat -> bool) (v k : nat) : nat :=
  match k with
  | 0 => v
  | S k' => if f v then v else find_from f (S v) k'
  end.
Definition t_firstNonZero (n : nat) (a : term) : nat :=
  find_from (fun v => negb (a @ v =? 0)) 0 n.

(** Term.h:402-409 getSizeOfSupport *)
Definition t_sizeOfSupport (n : nat) (a : term) : nat :=
  length (filter (fun v => negb (a @ v =? 0)) (seq 0 n)).

(** Term.h:361-375 getMiddleNonZeroExponent *)
Fixpoint middle_from (a : term) (v k off : nat) : nat :=
  match k with
  | 0 => v
  | S k' => if a @ v =? 0 then middle_from a (S v) k' off
            else match off with
                 | 0 => v
                 | S off' => middle_from a (S v) k' off'
                 end
  end.
Definition t_middleNonZero (n : nat) (a : term) : nat :=
  middle_from a 0 n (t_sizeOfSupport n a / 2).

(** Term.h:381-388 getFirstMaxExponent *)
Definition t_firstMax (n : nat) (a : term) : nat :=
  fold_left (fun mx v => if a @ mx <? a @ v then v else mx) (seq 1 (n - 1)) 0.

(** Term.h:416-422 sharesNonZeroExponent *)
Definition t_sharesNonZero (n : nat) (a b : term) : bool :=
  existsb (fun v => negb (a @ v =? 0) && (a @ v =? b @ v)) (seq 0 n).

(** Term.h:446-461 hasSameSupport *)
Definition t_hasSameSupport (n : nat) (a b : term) : bool :=
  forallb (fun v => Bool.eqb (a @ v =? 0) (b @ v =? 0)) (seq 0 n).

(** Term.h:476-488 colon *)
Definition t_colon (n : nat) (a b : term) : term :=
  tabulate n (fun v => if b @ v <? a @ v then a @ v - b @ v else 0).

(** Term.h:505-518 encodedDual; the code asserts dualOf[var] <= point[var]. *)
Definition t_encodedDual (n : nat) (d p : term) : term :=
  tabulate n (fun v => if d @ v =? 0 then 0 else p @ v - d @ v + 1).

(** Term.h:532-537 decrement *)
Definition t_decrement (n : nat) (a : term) : term :=
  tabulate n (fun v => if 0 <? a @ v then a @ v - 1 else a @ v).

(** TermPredicate.cpp:50-64 lexCompare(a,b) < 0, i.e. LexComparator
    (TermPredicate.h:97-108) *)
Fixpoint lex_from (a b : term) (v k : nat) : comparison :=
  match k with
  | 0 => Eq
  | S k' => if a @ v =? b @ v then lex_from a b (S v) k'
            else if a @ v <? b @ v then Lt else Gt
  end.
Definition t_lexCompare (n : nat) (a b : term) : comparison := lex_from a b 0 n.
Definition t_lexLess (n : nat) (a b : term) : bool :=
  match t_lexCompare n a b with Lt => true | _ => false end.

(** TermPredicate.cpp:71-75 reverseLexCompare(a,b) < 0, i.e.
    ReverseLexComparator (TermPredicate.h:111-122) *)
Definition t_revLexLess (n : nat) (a b : term) : bool :=
  match t_lexCompare n a b with Gt => true | _ => false end.

(** TermPredicate.h:126-137 SingleDegreeComparator *)
Definition t_singleDegreeLess (var : nat) (a b : term) : bool := a @ var <? b @ var.

(** TermPredicate.h:141-152 ReverseSingleDegreeComparator *)
Definition t_revSingleDegreeLess (var : nat) (a b : term) : bool := b @ var <? a @ var.

(** TermPredicate.cpp:77-85 equals, Term.cpp operator== *)
Definition t_equals (n : nat) (a b : term) : bool :=
  forallb (fun v => a @ v =? b @ v) (seq 0 n).

(** std::sort with comparator [lt], modelled by insertion sort.  The C++
    standard leaves the order of equivalent elements open; nothing below
    depends on it. *)
Fixpoint sort_insert {A} (lt : A -> A -> bool) (x : A) (l : list A) : list A :=
  match l with
  | [] => [x]
  | y :: l' => if lt y x then y :: sort_insert lt x l' else x :: l
  end.
Fixpoint std_sort {A} (lt : A -> A -> bool) (l : list A) : list A :=
  match l with
  | [] => []
  | x :: l' => sort_insert lt x (std_sort lt l')
  end.

(** std::unique: drops elements equal to the last kept element. *)
Fixpoint unique_aux {A} (eqf : A -> A -> bool) (x : A) (l : list A) : list A :=
  match l with
  | [] => []
  | y :: l' => if eqf x y then unique_aux eqf x l' else y :: unique_aux eqf y l'
  end.
Definition std_unique {A} (eqf : A -> A -> bool) (l : list A) : list A :=
  match l with
  | [] => []
  | x :: l' => x :: unique_aux eqf x l'
  end.
