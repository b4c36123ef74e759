(** Specification: textbook notions about monomials and monomial ideals.
    Nothing here refers to the code of Frobby or to the model. *)
From Coq Require Import List Arith Lia ZArith Bool.
Import ListNotations.

(** A monomial x_1^{e_1} ... x_n^{e_n} is the list of its exponents. *)
Definition mono := list nat.

(** [g] divides [m]. *)
Definition divs (g m : mono) : Prop := Forall2 le g m.

(** [m] lies in the ideal generated by the list [I]. *)
Definition in_ideal (I : list mono) (m : mono) : Prop :=
  exists g, In g I /\ divs g m.

(** All monomials of the list live in a ring with [n] variables. *)
Definition in_ring (n : nat) (I : list mono) : Prop :=
  Forall (fun g => length g = n) I.

(** [m] times the variable with index [i]. *)
Fixpoint times_var (m : mono) (i : nat) : mono :=
  match m, i with
  | [], _ => []
  | e :: m', 0 => S e :: m'
  | e :: m', S i' => e :: times_var m' i'
  end.

(** The product of two monomials. *)
Fixpoint mono_mul (a b : mono) : mono :=
  match a, b with
  | x :: a', y :: b' => (x + y) :: mono_mul a' b'
  | _, _ => []
  end.

(** Two generating sets of the same ideal (in [n] variables). *)
Definition same_ideal (n : nat) (I J : list mono) : Prop :=
  forall m, length m = n -> (in_ideal I m <-> in_ideal J m).

(** [g] is a minimal generator of <I>: in <I>, and no proper divisor is. *)
Definition minimal_generator (n : nat) (I : list mono) (g : mono) : Prop :=
  length g = n /\ in_ideal I g /\
  forall h, in_ideal I h -> divs h g -> h = g.

(** [g] is minimal (for divisibility) among the monomials satisfying [P]. *)
Definition minimal_in (n : nat) (P : mono -> Prop) (g : mono) : Prop :=
  length g = n /\ P g /\ forall h, length h = n -> P h -> divs h g -> h = g.

(** [L] lists the minimal generators of <I>, each exactly once. *)
Definition lists_minimal_generators (n : nat) (I L : list mono) : Prop :=
  NoDup L /\ forall g, In g L <-> minimal_generator n I g.

(** [m] is a maximal standard monomial of <I>. *)
Definition max_standard (n : nat) (I : list mono) (m : mono) : Prop :=
  length m = n /\ ~ in_ideal I m /\
  forall i, i < n -> in_ideal I (times_var m i).

(** The irreducible ideal encoded by [c]: generated by x_i^{c_i} for c_i > 0. *)
Definition in_irreducible (c m : mono) : Prop :=
  exists i, 0 < nth i c 0 /\ nth i c 0 <= nth i m 0.

(** [D] is an irredundant decomposition of <I> into irreducible ideals, no
    component being listed twice. *)
Definition irreducible_decomposition (n : nat) (I D : list mono) : Prop :=
  in_ring n D /\ NoDup D /\
  (forall m, length m = n ->
     (in_ideal I m <-> forall c, In c D -> in_irreducible c m)) /\
  (forall c, In c D ->
     exists m, length m = n /\ ~ in_ideal I m /\
       forall c', In c' D -> c' <> c -> in_irreducible c' m).

(** The Alexander dual of <I> with respect to the point [a]. *)
Definition in_alexander_dual (I : list mono) (a m : mono) : Prop :=
  forall g, In g I ->
    exists i, 0 < nth i g 0 /\ nth i a 0 + 1 <= nth i m 0 + nth i g 0.

(** The prime ideal generated by the variables in the support of [s]. *)
Definition in_prime (s m : mono) : Prop :=
  exists i, 0 < nth i s 0 /\ 0 < nth i m 0.

(** The prime with (0/1) support vector [s] is associated to <I>. *)
Definition associated_prime (n : nat) (I : list mono) (s : mono) : Prop :=
  length s = n /\ (forall i, nth i s 0 <= 1) /\
  exists m, length m = n /\
    forall t, length t = n -> (in_ideal I (mono_mul m t) <-> in_prime s t).

(** The least common multiple of the minimal generators divides [a]. *)
Definition above_minimal_generators (n : nat) (I : list mono) (a : mono) : Prop :=
  forall g, minimal_generator n I g -> divs g a.
