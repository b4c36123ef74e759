(** Specification of slices: which states of a slice the algorithm may be in, and what a slice
    stands for.  Only the record type [slice] of the model is used. *)
From Coq Require Import List Arith Permutation Relations.
Import ListNotations.
From Verif Require Import Spec M_Slice.

(** [l] is the least common multiple of the monomials in [I]. *)
Definition is_lcm (n : nat) (I : list mono) (l : mono) : Prop :=
  length l = n /\ (forall g, In g I -> divs g l) /\
  forall l', length l' = n -> (forall g, In g I -> divs g l') -> divs l l'.

(** [a] strictly divides [b]: b/a is still divisible by every variable dividing [a], and [b] is not 1. *)
Definition strictly_divides (a b : mono) : Prop :=
  (forall i, nth i a 0 = 0 \/ nth i a 0 < nth i b 0) /\ exists i, 0 < nth i b 0.

(** The content of a slice (I, S, q): all q*m where m is a maximal standard monomial of I
    that is not in S. *)
Definition slice_content (s : slice) (d : mono) : Prop :=
  exists m, max_standard (s_n s) (s_I s) m /\ ~ in_ideal (s_S s) m /\ d = mono_mul m (s_q s).

(** [out] lists the content of [s], every element once. *)
Definition lists_content (s : slice) (out : list mono) : Prop :=
  NoDup out /\ forall d, In d out <-> slice_content s d.

(** The states of a slice between two operations of the algorithm. *)
Record valid_slice (s : slice) : Prop := {
  vs_ideal : in_ring (s_n s) (s_I s) /\ lists_minimal_generators (s_n s) (s_I s) (s_I s);
  vs_subtract : in_ring (s_n s) (s_S s) /\ lists_minimal_generators (s_n s) (s_S s) (s_S s);
  vs_multiply : length (s_q s) = s_n s;
  (* the cached lcm is right when it is marked as up to date *)
  vs_lcm : s_upd s = true -> is_lcm (s_n s) (s_I s) (s_lcm s);
  (* the slice is normalized *)
  vs_normal : forall x g, In x (s_S s) -> In g (s_I s) -> ~ strictly_divides x g;
  vs_hint : 0 < s_n s -> s_hint s < s_n s;
  (* no generator reaches the lcm in two variables (if the lcm involves all variables) *)
  vs_double : forall l, is_lcm (s_n s) (s_I s) l -> (forall i, i < s_n s -> 0 < nth i l 0) ->
    forall g i j, In g (s_I s) -> i < j < s_n s -> ~ (nth i g 0 = nth i l 0 /\ nth j g 0 = nth j l 0)
}.

(** Two slices that differ only in the order of the generators. *)
Definition same_up_to_order (s s' : slice) : Prop :=
  s_n s' = s_n s /\ Permutation (s_I s') (s_I s) /\ s_S s' = s_S s /\ s_q s' = s_q s /\
  s_lcm s' = s_lcm s /\ s_upd s' = s_upd s /\ s_hint s' = s_hint s.

(** A legal pivot: not 1, in neither ideal, and smaller than the lcm in every variable. *)
Definition legal_pivot (s : slice) (p : mono) : Prop :=
  length p = s_n s /\ (exists i, 0 < nth i p 0) /\ ~ in_ideal (s_I s) p /\ ~ in_ideal (s_S s) p /\
  forall l, is_lcm (s_n s) (s_I s) l -> forall i, i < s_n s -> nth i p 0 < nth i l 0.

(** Every variable that divides a generator has exponent 1 in some generator. *)
Definition exponent_one_everywhere (s : slice) : Prop :=
  forall i h, In h (s_I s) -> 0 < nth i h 0 -> exists g, In g (s_I s) /\ nth i g 0 = 1.
