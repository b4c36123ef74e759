(** Model of ScarfFacade.cpp: the deformation algorithm with orders chosen by name. *)
From Coq Require Import List Arith Bool ZArith.
Import ListNotations.
From Verif Require Import M_Term M_Ideal M_Msm M_Api M_Hilbert M_Poly M_Names M_Scarf M_Orderer.

(** What is left of the ideal when an order was applied to it; [scarf_with] below stops if the order is not defined *)
Definition ordered (shuffle : nat -> ideal -> ideal) (n : nat) (o : orderer) (I : ideal) : ideal :=
  match o_order shuffle n o I with Some r => r | None => I end.
(** ScarfFacade.cpp:44-58 computeMultigradedHilbertSeries and 60-74 computeUnivariateHilbertSeries, with
    ScarfHilbertAlgorithm.cpp:116-130 runGeneric: both orders are applied before the complex is enumerated.  [shuffleD] and [shuffleE] are
    what std::shuffle does in the two orders. *)
Definition scarf_with (fuel : nat) (strong : bool) (shuffleD shuffleE : nat -> ideal -> ideal) (dord eord : orderer)
  (run : (ideal -> ideal) -> (ideal -> ideal) -> option (list (Z * list Z))) (co : common) : option (list (Z * list Z)) :=
  let n := co_n co in
  match o_order shuffleD n dord (co_ideal co) with
  | None => None
  | Some _ =>
      match o_order shuffleE n eord (fst (deformer n strong (ordered shuffleD n dord) (co_ideal co))) with
      | None => None
      | Some _ => run (ordered shuffleD n dord) (ordered shuffleE n eord)
      end
  end.
(** ScarfFacade.cpp:27-39 the constructor creates the orders first, then the input is read ([co]).  [inr]: an exception about
    a name; [inl None]: a null pointer, a read out of range, or not enough fuel. *)
Definition scarf_facade (shuffleD shuffleE : nat -> ideal -> ideal) (enumName defName : str) (fuel : nat) (strong : bool)
  (run : (ideal -> ideal) -> (ideal -> ideal) -> option (list (Z * list Z))) (co : common) : option (list (Z * list Z)) + lookup :=
  match createIdealOrderer enumName with
  | inr e => inr e
  | inl None => inl None
  | inl (Some eord) =>
      match createIdealOrderer defName with
      | inr e => inr e
      | inl None => inl None
      | inl (Some dord) => inl (scarf_with fuel strong shuffleD shuffleE dord eord run co)
      end
  end.
Definition scarf_facade_multigraded (shuffleD shuffleE : nat -> ideal -> ideal) (enumName defName : str) (fuel : nat) (strong : bool)
  (arr : nat -> list (term * Z) -> list (term * Z)) (canonical : bool) (co : common) : option (list (Z * list Z)) + lookup :=
  scarf_facade shuffleD shuffleE enumName defName fuel strong (fun d e => scarf_multigraded fuel strong d e arr canonical co) co.
Definition scarf_facade_univariate (shuffleD shuffleE : nat -> ideal -> ideal) (enumName defName : str) (fuel : nat) (strong : bool)
  (arr : nat -> list (Z * Z) -> list (Z * Z)) (canonical : bool) (co : common) : option (list (Z * list Z)) + lookup :=
  scarf_facade shuffleD shuffleE enumName defName fuel strong (fun d e => scarf_univariate fuel strong d e arr canonical co) co.
