(** Properties C30 and C67: Hilbert-Poincare series by the algorithm of Bigatti et al., and the tests of genericity. *)
From Coq Require Import List Arith Bool ZArith Lia Permutation Sorted.
Import ListNotations.
From Verif Require Import Spec Spec_Slice Spec_Api Spec_Hilbert Spec_Poly Spec_Bigatti Spec_Scarf
  M_Term M_Ideal M_Msm M_Api M_Hilbert M_Poly M_Scarf M_Bigatti P_Valid P_Bigatti6 P_Generic.

(** ** C30: every rule for choosing pivots that makes progress, with and without the generic base case and the
    simplification of states, for the ideal as given or for one that is declared to be minimal *)
Theorem C30_multigraded : forall n I minimal simplify generic pv arr canonical, in_ring n I ->
  (minimal = true -> lists_minimal_generators n I I) -> progressing_pivot n pv -> rearranges arr ->
  exists steps, forall fuel, steps <= fuel -> exists p,
    series_output n I canonical (bigatti_multigraded fuel simplify generic pv arr canonical (setIdeal minimal n I)) p.
Proof. exact p_bigatti_multi. Qed.
Print Assumptions C30_multigraded.

Theorem C30_univariate : forall n I minimal simplify generic pv arr canonical, in_ring n I ->
  (minimal = true -> lists_minimal_generators n I I) -> progressing_pivot n pv -> rearranges arr ->
  exists steps, forall fuel, steps <= fuel -> exists q,
    uni_series_output n I canonical (bigatti_univariate fuel simplify generic pv arr canonical (setIdeal minimal n I)) q.
Proof. exact p_bigatti_uni. Qed.
Print Assumptions C30_univariate.

(** Every strategy the program offers, with or without widening, makes progress. *)
Theorem C30_strategies : forall b widen n, progressing_pivot n (strategy b widen).
Proof. exact p_strategy_progressing. Qed.
Print Assumptions C30_strategies.

Definition five_gens : list mono := [[2;0;0];[1;1;0];[0;2;1];[0;1;3];[1;0;2]].
Definition in_order {A} (_ : nat) (l : list A) : list A := l.
Definition five_series : poly :=
  [((-1)%Z, [2;1;2]); (1%Z, [2;1;0]); (1%Z, [2;0;2]); ((-1)%Z, [2;0;0]); ((-1)%Z, [1;2;3]); (1%Z, [1;2;1]); (1%Z, [1;1;3]); (1%Z, [1;1;2]);
   ((-1)%Z, [1;1;0]); ((-1)%Z, [1;0;2]); (1%Z, [0;2;3]); ((-1)%Z, [0;2;1]); ((-1)%Z, [0;1;3]); (1%Z, [0;0;0])].
Example C30_nonvacuous : in_ring 3 five_gens /\ not_complete_intersection 3 five_gens /\ rearranges (@in_order (term * Z)) /\
  progressing_pivot 3 (strategy Median true).
Proof.
  split; [repeat constructor|]. split; [|split; [intros i l; apply Permutation_refl|apply p_strategy_progressing]].
  exists [2;0;0], [1;1;0], 0. repeat split; simpl; auto; try lia. discriminate.
Qed.
Example C30_run : bigatti_multigraded 200 true true (strategy Median true) in_order true (setIdeal false 3 five_gens) = Some (received five_series) /\
  bigatti_multigraded 200 false false (strategy (Generic (CNonGeneric MostNG) STight) false) in_order true (setIdeal false 3 five_gens) = Some (received five_series) /\
  bigatti_univariate 200 true false (strategy (Generic CTypical SGcd) true) in_order true (setIdeal true 3 five_gens) =
    Some (received (uni_poly [((-1)%Z, 6); (1%Z, 5); (2%Z, 4); ((-1)%Z, 3); ((-2)%Z, 2); (1%Z, 0)])).
Proof. vm_compute. auto. Qed.
(** A rule that chooses the first generator does not make progress. *)
Example C30_no_progress : ~ progressing_pivot 2 (fun _ I => match I with g :: _ => Some (I, g) | [] => None end).
Proof.
  intros H. destruct (H [[2;0];[1;1]]) as (J & p & E & _ & _ & _ & Hn & _).
  - repeat constructor.
  - apply minl_lists; [repeat constructor|]. split; [repeat constructor; simpl; intuition discriminate|].
    intros g h [<-|[<-|[]]] [<-|[<-|[]]] Hle; auto; pose proof (Hle 0 ltac:(lia)); pose proof (Hle 1 ltac:(lia)); simpl in *; lia.
  - exists [2;0], [1;1], 0. repeat split; simpl; auto; try lia. discriminate.
  - injection E as _ <-. apply Hn. exists [2;0]. split; [simpl; auto|]. repeat constructor.
Qed.

(** ** C67: the tests of genericity are right *)
Theorem C67_weakly_generic : forall n I, in_ring n I -> NoDup I -> (i_isWeaklyGeneric n I = true <-> weakly_generic n I).
Proof. exact p_weakly_generic. Qed.
Print Assumptions C67_weakly_generic.

Theorem C67_strongly_generic : forall n I, NoDup I -> (i_isStronglyGeneric n I = true <-> strongly_generic n I).
Proof. exact p_strongly_generic. Qed.
Print Assumptions C67_strongly_generic.

Example C67_nonvacuous : in_ring 3 five_gens /\ NoDup five_gens /\ i_isStronglyGeneric 3 five_gens = false /\ i_isWeaklyGeneric 3 five_gens = false /\
  i_isWeaklyGeneric 3 [[2;0;0];[1;1;0];[0;2;1];[0;3;2]] = true /\
  i_isStronglyGeneric 2 [[2;1];[2;3];[1;2]] = false /\ i_isWeaklyGeneric 2 [[3;1];[3;3];[1;2]] = true /\ i_isWeaklyGeneric 2 [[3;1];[3;3];[3;2]] = false.
Proof.
  split; [repeat constructor|]. split; [repeat constructor; simpl; intuition discriminate|]. vm_compute. repeat split; auto.
Qed.
