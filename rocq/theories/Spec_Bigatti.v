(** Specification for the algorithm of Bigatti et al.: when a choice of pivots makes progress. *)
From Coq Require Import List Arith Bool ZArith Permutation.
Import ListNotations.
From Verif Require Import Spec Spec_Api Spec_Hilbert Spec_Poly M_Term M_Ideal M_Bigatti.

(** Two generators have a variable in common: then the ideal is not an easy case. *)
Definition not_complete_intersection (n : nat) (I : list mono) : Prop :=
  exists a b v, In a I /\ In b I /\ a <> b /\ v < n /\ 0 < nth v a 0 /\ 0 < nth v b 0.
(** A rule for choosing pivots may reorder the generators, and chooses a pivot [p] that is not 1, that is not in the ideal,
    and that divides some generator: so both I : p and I + p are bigger than I. *)
Definition progressing_pivot (n : nat) (pv : bpivot) : Prop :=
  forall I, in_ring n I -> lists_minimal_generators n I I -> not_complete_intersection n I ->
  exists J p, pv n I = Some (J, p) /\ Permutation I J /\ length p = n /\ (exists v, v < n /\ nth v p 0 <> 0) /\
    ~ in_ideal I p /\ exists g, In g I /\ divs p g.

(** The polynomial that the consumer receives *)
Definition received (p : poly) : list (Z * list Z) := map (fun t => (fst t, znat (snd t))) p.
(** The numerator of the multigraded Hilbert-Poincare series, in normal form; sorted if asked for *)
Record series_output (n : nat) (I : list mono) (canonical : bool) (out : option (list (Z * list Z))) (p : poly) : Prop := {
  so_out : out = Some (received p);
  so_normal : normal_poly n p;
  so_coefs : forall x m, In (x, m) p <-> length m = n /\ x = alternating_sum I m /\ x <> 0%Z;
  so_series : multigraded_numerator n I p;
  so_sorted : canonical = true -> descending_terms p }.
(** The numerator of the univariate series: the coefficients of equal total degree of the multigraded one are added. *)
Record uni_series_output (n : nat) (I : list mono) (canonical : bool) (out : option (list (Z * list Z))) (q : list (Z * nat)) : Prop := {
  us_out : out = Some (received (uni_poly q));
  us_normal : NoDup (map snd q);
  us_coefs : forall p, normal_poly n p -> multigraded_numerator n I p -> forall x k, In (x, k) q <-> x = degree_coef p k /\ x <> 0%Z;
  us_series : univariate_numerator n I q;
  us_sorted : canonical = true -> descending q }.
