(** Properties C13 and C14: Hilbert-Poincare series.  They hold for every legal configuration; the one frobby.cpp
    uses is legal. *)
From Coq Require Import List Arith ZArith Lia Permutation Sorted.
Import ListNotations.
From Verif Require Import Spec Spec_Run Spec_Api Spec_Hilbert M_Term M_Ideal M_Slice M_Msm M_Api M_Hilbert P_Hil7 P_Hil8 T_Slice T_Api.

(** ** The built-in pivot rules are legal for the Hilbert algorithm *)
Theorem C26_hilbert_rules_legal :
  legal_hilbert_rule minimum_pivot /\ legal_hilbert_rule maximum_pivot /\ legal_hilbert_rule median_pivot /\
  legal_hilbert_rule indep_pivot /\ legal_hilbert_rule gcd_pivot /\ legal_hilbert_rule mingen_pivot.
Proof. exact builtin_hrules. Qed.
Print Assumptions C26_hilbert_rules_legal.

Example C26_hilbert_nonvacuous :
  let s0 := mkSlice 3 [[3;0;0];[1;2;0];[0;1;1];[0;0;2]] [[1;1;0]] [0;0;0] [0;0;0] false 0 in
  exists s, hilbert_slice s0 /\ hil_baseCase s0 = (s, HNotBase).
Proof.
  eexists. split; [|vm_compute; reflexivity]. apply hs_iff. constructor; cbn [s_n s_I s_S s_q s_upd s_hint].
  - intros g Hg; simpl in Hg; intuition (subst; auto).
  - intros g Hg; simpl in Hg; intuition (subst; auto).
  - split; [repeat constructor; simpl; intuition discriminate|].
    intros g h Hg Hh Hle. pose proof (Hle 0 ltac:(lia)); pose proof (Hle 1 ltac:(lia)); pose proof (Hle 2 ltac:(lia)).
    simpl in Hg, Hh. repeat (destruct Hg as [<-|Hg]; [repeat (destruct Hh as [<-|Hh]; [simpl in *; auto; lia|]); destruct Hh|]). destruct Hg.
  - split; [repeat constructor; simpl; intuition|]. intros g h [<-|[]] [<-|[]] _; auto.
  - reflexivity.
  - discriminate.
  - intros x g [<-|[]] Hg Hd. destruct Hd as [Hd _]. pose proof (Hd 0 ltac:(lia)); pose proof (Hd 1 ltac:(lia)).
    simpl in Hg. repeat (destruct Hg as [<-|Hg]; [simpl in *; lia|]). destruct Hg.
  - intros; lia.
Qed.

Theorem hilbert_default_is_legal : legal_hilbert_config default_config.
Proof. exists median_pivot. split; [reflexivity|]. apply C26_hilbert_rules_legal. Qed.
Print Assumptions hilbert_default_is_legal.

(** ** C13 *)
Theorem C13_multigraded_series : forall c rnd n I, legal_hilbert_config c -> in_ring n I -> exists p,
  api_multigradedHilbertPoincareSeries c rnd n I = Some (poly_block n p) /\ normal_poly n p /\
  (forall x m, In (x, m) p <-> length m = n /\ x = alternating_sum I m /\ x <> 0%Z) /\
  multigraded_numerator n I p.
Proof. exact p_coefficients. Qed.
Print Assumptions C13_multigraded_series.

(** The numerator in normal form is unique up to the order of the terms. *)
Theorem C13_numerator_unique : forall n I p q, normal_poly n p -> normal_poly n q ->
  multigraded_numerator n I p -> multigraded_numerator n I q -> Permutation p q.
Proof. exact p_numerator_unique. Qed.
Print Assumptions C13_numerator_unique.

Example C13_nonvacuous : in_ring 3 big3 /\
  api_multigradedHilbertPoincareSeries default_config no_random 3 [[5;0;0];[2;1;0];[0;1;9];[2;1;0]] =
    Some (poly_block 3 [(1%Z, [0;0;0]); ((-1)%Z, [5;0;0]); ((-1)%Z, [2;1;0]); (1%Z, [5;1;0]); ((-1)%Z, [0;1;9]); (1%Z, [2;1;9])]).
Proof. split; [repeat constructor|]. vm_compute. reflexivity. Qed.
Example C13_nonvacuous_spec : alternating_sum [[5;0;0];[2;1;0];[0;1;9];[2;1;0]] [2;1;9] = 1%Z /\
  alternating_sum [[5;0;0];[2;1;0];[0;1;9];[2;1;0]] [5;1;9] = 0%Z.
Proof. vm_compute. auto. Qed.

(** ** C14 *)
Theorem C14_univariate_series : forall c rnd n I, legal_hilbert_config c -> in_ring n I -> exists p q,
  api_multigradedHilbertPoincareSeries c rnd n I = Some (poly_block n p) /\
  api_univariateHilbertPoincareSeries c rnd n I = Some (poly_block 1 (uni_poly q)) /\
  descending q /\ (forall x k, In (x, k) q <-> x = degree_coef p k /\ x <> 0%Z) /\ univariate_numerator n I q.
Proof. exact p_univariate. Qed.
Print Assumptions C14_univariate_series.

Example C14_nonvacuous :
  api_univariateHilbertPoincareSeries default_config no_random 2 [[2;0];[1;1];[0;3]] = Some (poly_block 1 (uni_poly [(1, 4%nat); (-2, 2%nat); (1, 0%nat)]%Z)) /\
  uni_series 2 [(1, 4%nat); (-2, 2%nat); (1, 0%nat)]%Z 1 = 2%Z /\ monos 2 2 = [[0;2];[1;1];[2;0]].
Proof. vm_compute. auto. Qed.
