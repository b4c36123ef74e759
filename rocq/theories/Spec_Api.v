(** Specification of what the API writes. *)
From Coq Require Import List Arith ZArith.
Import ListNotations.
From Verif Require Import Spec M_Api.

(** Exponent vectors as they are passed to the consumer. *)
Definition znat (m : mono) : list Z := map Z.of_nat m.

(** idealBegin(n), one call consume per monomial of [L], idealEnd. *)
Definition block (n : nat) (L : list mono) : list iev :=
  IdealBegin n :: map (fun m => Consume (znat m)) L ++ [IdealEnd].

(** The monomial x_i^e in [n] variables. *)
Definition var_power (n i e : nat) : mono := map (fun j => if j =? i then e else 0) (seq 0 n).

(** The generators of the irreducible ideal encoded by [c] (for a 0/1 vector: the variables generating
    the prime). *)
Definition irreducible_generators (n : nat) (c : mono) : list mono :=
  map (fun i => var_power n i (nth i c 0)) (filter (fun i => 0 <? nth i c 0) (seq 0 n)).

(** [L] lists the minimal elements of the set [P] of monomials, each once, and generates that set. *)
Definition lists_minimal (n : nat) (P : mono -> Prop) (L : list mono) : Prop :=
  NoDup L /\ (forall e, In e L <-> minimal_in n P e) /\ (forall m, length m = n -> (in_ideal L m <-> P m)).

(** The point [a] is the least one divisible by all minimal generators: their lcm. *)
Definition lcm_of_minimal_generators (n : nat) (I : list mono) (a : mono) : Prop :=
  length a = n /\ above_minimal_generators n I a /\
  forall a', length a' = n -> above_minimal_generators n I a' -> divs a a'.

(** The consumer protocol: blocks idealBegin(n) consume* idealEnd, never nested, each vector with [n] entries. *)
Fixpoint protocol (n : nat) (open : bool) (evs : list iev) : Prop :=
  match evs with
  | [] => open = false
  | IdealBegin m :: evs' => open = false /\ m = n /\ protocol n true evs'
  | Consume v :: evs' => open = true /\ length v = n /\ protocol n open evs'
  | IdealEnd :: evs' => open = true /\ protocol n false evs'
  end.

(** Exponents entered one after the other, cut into rows of [n]; the last row is padded with zeros. *)
Fixpoint rows (fuel n : nat) (es : list Z) : list (list Z) :=
  match es, fuel with
  | [], _ | _, 0 => []
  | _, S fuel' => (firstn n es ++ repeat 0%Z (n - length es)) :: rows fuel' n (skipn n es)
  end.
(** With no variables, each call adds the monomial 1. *)
Definition entered (n : nat) (es : list Z) : list (list Z) :=
  if n =? 0 then map (fun _ => []) es else rows (length es) n es.

(** Components with the same support. *)
Definition same_support (n : nat) (c c' : mono) : Prop := forall i, i < n -> (nth i c 0 = 0 <-> nth i c' 0 = 0).

(** The lexicographic order on exponent vectors. *)
Fixpoint lex_lt (a b : mono) : Prop :=
  match a, b with
  | x :: a', y :: b' => x < y \/ (x = y /\ lex_lt a' b')
  | _, _ => False
  end.

(** [Gs] cuts the list [l] into its maximal runs of neighbours with the same support. *)
Inductive support_runs (n : nat) : list mono -> list (list mono) -> Prop :=
| runs_nil : support_runs n [] []
| runs_one : forall c, support_runs n [c] [[c]]
| runs_same : forall c d l G Gs, same_support n c d -> support_runs n (d :: l) ((d :: G) :: Gs) ->
    support_runs n (c :: d :: l) ((c :: d :: G) :: Gs)
| runs_new : forall c d l Gs, ~ same_support n c d -> support_runs n (d :: l) Gs ->
    support_runs n (c :: d :: l) ([c] :: Gs).

(** Histories of ideals under construction: for each object the number of variables and the exponents
    entered so far.  Creating, copying and assigning objects copies these values. *)
Definition replace_at {A} (l : list A) (i : nat) (x : A) : list A := firstn i l ++ x :: skipn (S i) l.
Inductive history : list api_call -> list (nat * list Z) -> Prop :=
| h_nil : history [] []
| h_new : forall calls st n, history calls st -> history (calls ++ [NewIdeal n]) (st ++ [(n, [])])
| h_copy : forall calls st src o, history calls st -> nth_error st src = Some o ->
    history (calls ++ [CopyIdeal src]) (st ++ [o])
| h_assign : forall calls st dst src o, history calls st -> dst < length st -> nth_error st src = Some o ->
    history (calls ++ [AssignIdeal dst src]) (replace_at st dst o)
| h_add : forall calls st id n es e, history calls st -> nth_error st id = Some (n, es) ->
    history (calls ++ [AddExponent id e]) (replace_at st id (n, es ++ [e])).

(** [B] lists the minimal generators of the intersection of the irreducible ideals encoded by [G], which all
    have the same support. *)
Definition same_support_intersection (n : nat) (G B : list mono) : Prop :=
  G <> [] /\ (forall x y, In x G -> In y G -> same_support n x y) /\ in_ring n B /\
  lists_minimal n (fun m => forall x, In x G -> in_irreducible x m) B.

(** The 0/1 vector with the support of [c]. *)
Definition support_vector (n : nat) (c : mono) : mono := map (fun i => if nth i c 0 =? 0 then 0 else 1) (seq 0 n).

(** The radical of <B> is the prime with support vector [s]. *)
Fixpoint mono_pow (m : mono) (k : nat) : mono := match k with 0 => repeat 0 (length m) | S k' => mono_mul m (mono_pow m k') end.
Definition radical_is (n : nat) (B : list mono) (s : mono) : Prop :=
  forall m, length m = n -> ((exists k, in_ideal B (mono_pow m k)) <-> in_prime s m).

(** The ideals of [Bs] correspond one to one to the associated primes of <I>. *)
Definition one_per_associated_prime (n : nat) (I : list mono) (Bs : list (list mono)) : Prop :=
  exists Ss, NoDup Ss /\ (forall s, In s Ss <-> associated_prime n I s) /\ Forall2 (radical_is n) Bs Ss.
