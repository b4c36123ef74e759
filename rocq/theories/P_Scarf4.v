(** The deformation algorithm with orders given by names; the tree. *)
From Coq Require Import List Arith Bool ZArith Lia Permutation Sorted.
Import ListNotations.
From Verif Require Import Spec Spec_Slice Spec_Api Spec_Hilbert Spec_Poly Spec_Bigatti Spec_Scarf M_Term M_Ideal M_Slice M_Msm M_Api M_Hilbert M_Poly M_Names M_Scarf M_Orderer M_ScarfFacade Spec_Orderer
  P_Term P_Ideal P_Valid P_Generic P_Tree P_Deform1 P_Deform2 P_Internal P_Bigatti6 P_Orderer P_Scarf3.
Local Open Scope nat_scope.

Lemma ordered_perm : forall shuffle n o l, (forall i l, Permutation (shuffle i l) l) -> Permutation (ordered shuffle n o l) l.
Proof. intros shuffle n o l H. unfold ordered. destruct (o_order shuffle n o l) as [r|] eqn:E; auto. eapply p_order_perm; eauto. Qed.
Lemma no_vars : forall n J, wf n J -> minl n J -> n <> 0 \/ length J <= 1.
Proof.
  intros [|n] J Hw [HN _]; [right|left; lia]. destruct J as [|a [|b J]]; simpl; try lia. exfalso.
  assert (a = b); [|subst b; inversion HN as [|? ? X _]; apply X; simpl; auto]. pose proof (Hw a ltac:(simpl; auto)). pose proof (Hw b ltac:(simpl; auto)). destruct a, b; auto; discriminate.
Qed.
Lemma with_defined : forall fuel n I J strong sd se dord eord run, internal n I J -> (forall i l, Permutation (sd i l) l) -> (forall i l, Permutation (se i l) l) ->
  scarf_with fuel strong sd se dord eord run (mkCommon n J (tr_initialize n I)) = run (ordered sd n dord) (ordered se n eord).
Proof.
  intros fuel n I J strong sd se dord eord run HJ Hd He. unfold scarf_with. cbn [co_n co_ideal]. pose proof (no_vars n J (int_wf _ _ _ HJ) (int_minl _ _ _ HJ)) as H.
  destruct (p_order_some sd n dord J Hd H) as [r E]. match goal with |- context [match ?c with Some _ => _ | None => _ end] => replace c with (Some r) by (symmetry; exact E) end.
  assert (HwO : wf n (ordered sd n dord J)) by (intros x Hx; apply (int_wf _ _ _ HJ); exact (Permutation_in x (ordered_perm sd n dord J Hd) Hx)).
  pose proof (de_len _ _ _ _ _ (deformer_spec n strong (ordered sd n dord) J HwO)) as L. rewrite (Permutation_length (ordered_perm sd n dord J Hd)) in L.
  set (D := fst (deformer n strong (ordered sd n dord) J)) in *.
  destruct (p_order_some se n eord D He) as [r2 E2]; [destruct H as [H|H]; auto; right; unfold ideal, term, mono in *; lia|].
  match goal with |- context [match ?c with Some _ => _ | None => _ end] => replace c with (Some r2) by (symmetry; exact E2) end. reflexivity.
Qed.
Theorem p_facade_multi : forall n I minimal strong sd se enumName defName eord dord arr canonical, in_ring n I ->
  (minimal = true -> lists_minimal_generators n I I) -> (forall i l, Permutation (sd i l) l) -> (forall i l, Permutation (se i l) l) -> rearranges arr ->
  createIdealOrderer enumName = inl (Some eord) -> createIdealOrderer defName = inl (Some dord) ->
  strong = true \/ exponents_of_minimal_generators n I ->
  exists steps, forall fuel, steps <= fuel -> exists out p,
    scarf_facade_multigraded sd se enumName defName fuel strong arr canonical (setIdeal minimal n I) = inl out /\ series_output n I canonical out p.
Proof.
  intros n I minimal strong sd se enumName defName eord dord arr canonical Hr Hmin Hd He Ha Ee Ed HG.
  destruct (p_scarf_multi n I minimal strong (ordered sd n dord) (ordered se n eord) arr canonical Hr Hmin) as [steps H]; auto; try (intros; apply ordered_perm; auto).
  exists steps. intros fuel Hf. destruct (H fuel Hf) as [p Hp]. eexists. exists p. split; [|exact Hp]. unfold scarf_facade_multigraded, scarf_facade. rewrite Ee, Ed. f_equal.
  destruct (set_internal minimal n I Hr Hmin) as (J & EJ & HJ). rewrite EJ. apply (with_defined fuel n I J); auto.
Qed.
Theorem p_facade_uni : forall n I minimal strong sd se enumName defName eord dord arr canonical, in_ring n I ->
  (minimal = true -> lists_minimal_generators n I I) -> (forall i l, Permutation (sd i l) l) -> (forall i l, Permutation (se i l) l) -> rearranges arr ->
  createIdealOrderer enumName = inl (Some eord) -> createIdealOrderer defName = inl (Some dord) ->
  strong = true \/ exponents_of_minimal_generators n I ->
  exists steps, forall fuel, steps <= fuel -> exists out q,
    scarf_facade_univariate sd se enumName defName fuel strong arr canonical (setIdeal minimal n I) = inl out /\ uni_series_output n I canonical out q.
Proof.
  intros n I minimal strong sd se enumName defName eord dord arr canonical Hr Hmin Hd He Ha Ee Ed HG.
  destruct (p_scarf_uni n I minimal strong (ordered sd n dord) (ordered se n eord) arr canonical Hr Hmin) as [steps H]; auto; try (intros; apply ordered_perm; auto).
  exists steps. intros fuel Hf. destruct (H fuel Hf) as [p Hp]. eexists. exists p. split; [|exact Hp]. unfold scarf_facade_univariate, scarf_facade. rewrite Ee, Ed. f_equal.
  destruct (set_internal minimal n I Hr Hmin) as (J & EJ & HJ). rewrite EJ. apply (with_defined fuel n I J); auto.
Qed.

(** ** The tree *)
Theorem p_tree : forall n I, in_ring n I -> NoDup I -> forall fuel, length I <= fuel ->
  exists t, idealTree fuel n I = Some t /\ Permutation (tree_range t) I /\
    forall m, length m = n -> (tree_strictlyContains n t m = true <-> exists g, In g I /\ strictly_divides g m).
Proof.
  intros n I Hr HN fuel Hf. pose proof (proj1 (in_ring_wf _ _) Hr) as Hw. unfold idealTree. destruct (makeTree_spec maxLeafSize n fuel I) as (t & T1 & T2); auto; [unfold maxLeafSize; lia|].
  exists t. split; auto. split; auto. intros m Hm. rewrite (tree_contains n t I) by auto. apply strictlyContains_iff; auto.
Qed.
(** ** Deforming *)
Theorem p_deformation : forall n strong order I, in_ring n I -> Permutation (order I) I ->
  deformation n (order I) (fst (deformer n strong order I)) (undeform n (snd (deformer n strong order I))).
Proof. intros n strong order I Hr HP. apply deformation_holds. intros x Hx. apply (proj1 (in_ring_wf _ _) Hr). eapply Permutation_in; eauto. Qed.
Theorem p_deform_strong : forall n order I, in_ring n I -> NoDup I -> Permutation (order I) I -> strongly_generic n (fst (deformer n true order I)).
Proof.
  intros n order I Hr HN HP. apply deformer_strong.
  - intros x Hx. apply (proj1 (in_ring_wf _ _) Hr). eapply Permutation_in; eauto.
  - eapply Permutation_NoDup; [apply Permutation_sym; eauto|auto].
Qed.
Theorem p_deform_weak : forall n strong order I, in_ring n I -> NoDup I -> Permutation (order I) I -> gap_free n I -> weakly_generic n (fst (deformer n strong order I)).
Proof.
  intros n strong order I Hr HN HP HG. apply deformer_weak.
  - intros x Hx. apply (proj1 (in_ring_wf _ _) Hr). eapply Permutation_in; eauto.
  - eapply Permutation_NoDup; [apply Permutation_sym; eauto|auto].
  - right. eapply gap_free_perm; [apply Permutation_sym; exact HP|auto].
Qed.
