(** Specification of the optimization programs. *)
From Coq Require Import List Arith ZArith.
Import ListNotations.
From Verif Require Import Spec Spec_Slice Spec_Run M_Slice M_Msm M_Api M_Opt.

(** The inner product of [l] with the exponent vector of [m]. *)
Fixpoint inner_product (l : list Z) (m : mono) : Z :=
  match l, m with
  | x :: l', e :: m' => (x * Z.of_nat e + inner_product l' m')%Z
  | _, _ => 0%Z
  end.

(** [m] satisfies [P] and has the largest inner product with [l] among all monomials that do. *)
Definition optimal (P : mono -> Prop) (l : list Z) (m : mono) : Prop :=
  P m /\ forall m', P m' -> (inner_product l m' <= inner_product l m)%Z.

(** What a solver has to report: nothing if no monomial satisfies [P], otherwise one or more different optimal
    monomials and the optimal value. *)
Definition optimum_reported (P : mono -> Prop) (l : list Z) (L : list mono) (v : option Z) : Prop :=
  match v with
  | None => L = [] /\ forall m, ~ P m
  | Some x => L <> [] /\ NoDup L /\ forall m, In m L -> optimal P l m /\ inner_product l m = x
  end.

(** Exponent vectors that encode the irreducible components of <I>. *)
Definition irreducible_component (n : nat) (I : list mono) (c : mono) : Prop :=
  exists D, irreducible_decomposition n I D /\ In c D.

(** Parameters of the optimization with a legal split strategy; the degree strategy is always allowed. *)
Definition legal_oparams (p : oparams) : Prop :=
  match op_split p with
  | FixedSplit (PivotSplit f) => legal_pivot_rule f
  | FixedSplit (LabelSplit f) => legal_label_rule f
  | DegreeSplit => True
  end.

(** The largest ids are [max]: multiplying the multiple of the slice with the lcm of the ideal, divided by the
    product of all variables, stays within them. *)
Definition within_ids (max : nat -> nat) (s : slice) : Prop :=
  forall i l, i < s_n s -> is_lcm (s_n s) (s_I s) l ->
    1 <= nth i (s_q s) 0 /\ nth i (s_q s) 0 + nth i l 0 <= S (max i).

(** ** The optimize action *)
(** Removing the first variable. *)
Definition drop_first (I : list mono) : list mono := map (fun g => tl g) I.
(** [m] satisfies [P] and has the smallest inner product. *)
Definition optimal_min (P : mono -> Prop) (l : list Z) (m : mono) : Prop :=
  P m /\ forall m', P m' -> (inner_product l m <= inner_product l m')%Z.
(** What is optimized over, and what counts as optimal. *)
Definition program_set (std : bool) (n : nat) (I : list mono) : mono -> Prop :=
  if std then max_standard n I else irreducible_component n I.
Definition program_optimal (min : bool) (P : mono -> Prop) (l : list Z) : mono -> Prop :=
  if min then optimal_min P l else optimal P l.
