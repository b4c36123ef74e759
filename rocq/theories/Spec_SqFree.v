(** What the operations on packed square free terms are supposed to do. *)
From Coq Require Import List Arith Bool NArith ZArith.
Import ListNotations.

(** A set of variables, given by its characteristic function, of which only the values below n matter. *)
Definition vset := nat -> bool.

(** The words [t] hold the set [s] of variables among n variables, w per word: variable i * w + b is bit b of word i,
    all other bits are 0, and there is no more than the necessary number of words, but at least one. *)
Definition packed (w n : nat) (t : list N) (s : vset) : Prop :=
  (n = 0 /\ length t = 1 \/ w * (length t - 1) < n /\ n <= w * length t) /\
  forall i b, N.testbit (nth i t 0%N) (N.of_nat b) = (b <? w) && (i * w + b <? n) && s (i * w + b).

(** Set operations and relations *)
Definition s_subset (n : nat) (A B : vset) : Prop := forall v, v < n -> A v = true -> B v = true.
Definition s_eq (n : nat) (A B : vset) : Prop := forall v, v < n -> A v = B v.
Definition s_disjoint (n : nat) (A B : vset) : Prop := forall v, v < n -> A v = true -> B v = false.
Definition s_full (n : nat) (A : vset) : Prop := forall v, v < n -> A v = true.
Definition s_empty (n : nat) (A : vset) : Prop := forall v, v < n -> A v = false.
Definition s_single (n : nat) (A : vset) (x : nat) : Prop := x < n /\ forall v, v < n -> (A v = true <-> v = x).
Definition s_union (A B : vset) : vset := fun v => A v || B v.
Definition s_inter (A B : vset) : vset := fun v => A v && B v.
Definition s_minus (A B : vset) : vset := fun v => A v && negb (B v).
Definition s_compl (A : vset) : vset := fun v => negb (A v).
Definition s_update (A : vset) (x : nat) (b : bool) : vset := fun v => if v =? x then b else A v.
(** The elements *)
Definition s_list (n : nat) (A : vset) : list nat := filter A (seq 0 n).
(** Lexicographic comparison, the first variable is the most important one *)
Definition s_lex (n : nat) (A B : vset) : Prop :=
  exists v, v < n /\ A v = false /\ B v = true /\ forall u, u < v -> A u = B u.
(** The set with the variables in R taken out and the others renumbered *)
Definition s_kept (n : nat) (R : vset) : list nat := s_list n (s_compl R).
Definition s_compact (n : nat) (A R : vset) : vset := fun i => A (nth i (s_kept n R) 0).

(** All exponents are 0 or 1 *)
Definition sqfree (e : list Z) : Prop := Forall (fun x => x = 0 \/ x = 1)%Z e.
(** Variable v is in set number j and in no other of the sets *)
Definition exclusive (n : nat) (As : list vset) (v j : nat) : Prop :=
  v < n /\ j < length As /\ nth j As (fun _ => false) v = true /\
  forall i, i < length As -> i <> j -> nth i As (fun _ => false) v = false.
(** How many of the sets contain v *)
Definition scount (As : list vset) (v : nat) : nat := length (filter (fun A : vset => A v) As).

(** [r] is an answer and is true exactly if P *)
Definition answers (r : option bool) (P : Prop) : Prop := exists b, r = Some b /\ (b = true <-> P).
(** [r] is a term for the set A *)
Definition yields (w n : nat) (r : option (list N)) (A : vset) : Prop := exists t, r = Some t /\ packed w n t A.
