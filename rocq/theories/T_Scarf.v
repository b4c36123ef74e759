(** Properties C47, C68 and C69: deformation, Hilbert-Poincare series by deformation, and the tree of generators. *)
From Coq Require Import List Arith Bool ZArith Lia Permutation Sorted.
Import ListNotations.
From Verif Require Import Spec Spec_Slice Spec_Api Spec_Hilbert Spec_Poly Spec_Bigatti Spec_Scarf
  M_Term M_Ideal M_Msm M_Api M_Hilbert M_Poly M_Names M_Scarf M_Bigatti M_Orderer M_ScarfFacade P_Valid P_Scarf3 P_Scarf4 T_Bigatti.

(** ** C47: the deformed ideal is a deformation of the given one, for both kinds and for every order of the generators *)
Theorem C47_deformation : forall n strong order I, in_ring n I -> Permutation (order I) I ->
  deformation n (order I) (fst (deformer n strong order I)) (undeform n (snd (deformer n strong order I))).
Proof. exact p_deformation. Qed.
Print Assumptions C47_deformation.

(** The strong deformation makes every ideal strongly generic. *)
Theorem C47_strong : forall n order I, in_ring n I -> NoDup I -> Permutation (order I) I ->
  strongly_generic n (fst (deformer n true order I)).
Proof. exact p_deform_strong. Qed.
Print Assumptions C47_strong.

(** The weak deformation makes an ideal weakly generic if its exponents have no gaps. *)
Theorem C47_weak_partial : forall n strong order I, in_ring n I -> NoDup I -> Permutation (order I) I -> gap_free n I ->
  weakly_generic n (fst (deformer n strong order I)).
Proof. exact p_deform_weak. Qed.
Print Assumptions C47_weak_partial.

Definition tdeg_lex : ideal -> ideal := ordered in_order 3 (OComposite [SBase KTdeg; SBase KLex]).
Definition gap_gens : list mono := [[4;2;1];[2;3;2];[0;2;4];[4;3;0];[4;1;3]].
(** In general the weak deformation, with the default order, does not. *)
Theorem C47_weak_refuted : exists n I, in_ring n I /\ lists_minimal_generators n I I /\ Permutation (tdeg_lex I) I /\
  ~ weakly_generic n (fst (deformer n false tdeg_lex I)).
Proof.
  exists 3, gap_gens. split; [repeat constructor|]. split; [|split; [apply ordered_perm; intros; apply Permutation_refl|]].
  - apply minl_lists; [repeat constructor|]. split; [repeat constructor; simpl; intuition discriminate|].
    intros g h Hg Hh Hle. unfold gap_gens in *. simpl in Hg, Hh.
    repeat (destruct Hg as [<-|Hg]; [|]); try contradiction; repeat (destruct Hh as [<-|Hh]; [|]); try contradiction; auto; exfalso;
      pose proof (Hle 0 ltac:(lia)); pose proof (Hle 1 ltac:(lia)); pose proof (Hle 2 ltac:(lia)); simpl in *; lia.
  - intros H. assert (E : i_isWeaklyGeneric 3 (fst (deformer 3 false tdeg_lex gap_gens)) = true); [|revert E; vm_compute; discriminate].
    apply C67_weakly_generic; auto; [repeat constructor|vm_compute; repeat constructor; simpl; intuition discriminate].
Qed.
Print Assumptions C47_weak_refuted.

Example C47_nonvacuous : in_ring 3 five_gens /\ NoDup five_gens /\ gap_free 3 five_gens /\
  weakly_generic 3 (fst (deformer 3 false tdeg_lex five_gens)) /\ ~ weakly_generic 3 five_gens /\
  fst (deformer 3 false tdeg_lex five_gens) = [[2;1;0];[3;0;0];[0;2;1];[1;0;2];[0;1;3]] /\
  undeform 3 (snd (deformer 3 false tdeg_lex five_gens)) [2;2;3] = Some [1;2;3].
Proof.
  assert (R : in_ring 3 five_gens) by repeat constructor. assert (N : NoDup five_gens) by (repeat constructor; simpl; intuition discriminate).
  assert (G : gap_free 3 five_gens).
  {
    intros g v e Hg Hv [H1 H2]. unfold five_gens in *. simpl in Hg.
    assert (V : v = 0 \/ v = 1 \/ v = 2) by lia. assert (E : e = 1 \/ e = 2 \/ 3 <= e) by lia.
    destruct V as [V|[V|V]]; subst v.
    - exists [1;1;0]. split; [simpl; auto|]. simpl. repeat (destruct Hg as [<-|Hg]; [simpl in H2; lia|]). contradiction.
    - exists [1;1;0]. split; [simpl; auto|]. simpl. repeat (destruct Hg as [<-|Hg]; [simpl in H2; lia|]). contradiction.
    - destruct E as [E|[E|E]]; [subst e|subst e|]; [exists [0;2;1]; simpl; auto|exists [1;0;2]; simpl; intuition auto|]. exfalso. repeat (destruct Hg as [<-|Hg]; [simpl in H2; lia|]). exact Hg. }
  repeat split; auto.
  - apply C47_weak_partial; auto. apply ordered_perm. intros; apply Permutation_refl.
  - intros H. apply C67_weakly_generic in H; auto. revert H. vm_compute. discriminate.
Qed.

(** ** C68: the deformation algorithm, with every two orders that can be named *)
Theorem C68_multigraded_partial : forall n I minimal strong shuffleD shuffleE enumName defName enumOrder defOrder arr canonical, in_ring n I ->
  (minimal = true -> lists_minimal_generators n I I) ->
  (forall i l, Permutation (shuffleD i l) l) -> (forall i l, Permutation (shuffleE i l) l) -> rearranges arr ->
  createIdealOrderer enumName = inl (Some enumOrder) -> createIdealOrderer defName = inl (Some defOrder) ->
  strong = true \/ exponents_of_minimal_generators n I ->
  exists steps, forall fuel, steps <= fuel -> exists out p,
    scarf_facade_multigraded shuffleD shuffleE enumName defName fuel strong arr canonical (setIdeal minimal n I) = inl out /\
    series_output n I canonical out p.
Proof. exact p_facade_multi. Qed.
Print Assumptions C68_multigraded_partial.

Theorem C68_univariate_partial : forall n I minimal strong shuffleD shuffleE enumName defName enumOrder defOrder arr canonical, in_ring n I ->
  (minimal = true -> lists_minimal_generators n I I) ->
  (forall i l, Permutation (shuffleD i l) l) -> (forall i l, Permutation (shuffleE i l) l) -> rearranges arr ->
  createIdealOrderer enumName = inl (Some enumOrder) -> createIdealOrderer defName = inl (Some defOrder) ->
  strong = true \/ exponents_of_minimal_generators n I ->
  exists steps, forall fuel, steps <= fuel -> exists out q,
    scarf_facade_univariate shuffleD shuffleE enumName defName fuel strong arr canonical (setIdeal minimal n I) = inl out /\
    uni_series_output n I canonical out q.
Proof. exact p_facade_uni. Qed.
Print Assumptions C68_univariate_partial.

(** The condition on the exponents holds if the given generators are minimal. *)
Theorem C68_minimal : forall n I, in_ring n I -> lists_minimal_generators n I I -> exponents_of_minimal_generators n I.
Proof. exact minimal_exponents. Qed.
Print Assumptions C68_minimal.

(** Without it the weak deformation, which is the default, can give a wrong series. *)
Definition seven_gens : list mono := [[5;2;1];[3;3;3];[1;4;5];[0;2;5];[4;5;5];[5;3;0];[5;1;4]].
Definition seven_wrong : poly :=
  [((-2)%Z, [5;3;5]); (1%Z, [5;3;3]); (1%Z, [5;3;1]); ((-1)%Z, [5;3;0]); (1%Z, [5;2;5]); (1%Z, [5;2;4]); ((-1)%Z, [5;2;1]); ((-1)%Z, [5;1;4]);
   (1%Z, [3;3;5]); ((-1)%Z, [3;3;3]); ((-1)%Z, [0;2;5]); (1%Z, [0;0;0])].
Theorem C68_refuted : exists n I p, in_ring n I /\ (exists steps, forall fuel, steps <= fuel ->
    scarf_facade_multigraded in_order in_order enumerationOrderDefault deformationOrderDefault fuel false in_order true (setIdeal false n I) =
    inl (Some (received p))) /\
  ~ multigraded_numerator n I p.
Proof.
  exists 3, seven_gens, seven_wrong. split; [repeat constructor|]. split.
  - exists 200. intros fuel Hf. replace fuel with (200 + (fuel - 200)) by lia. generalize (fuel - 200). intros k. vm_compute. reflexivity.
  - intros H. destruct (H [5;3;5] eq_refl) as [H1 _]. assert (E : series_coef seven_wrong [5;3;5] = 0%Z); [|revert E; vm_compute; discriminate].
    apply H1. exists [5;2;1]. split; [simpl; auto|]. repeat constructor.
Qed.
Print Assumptions C68_refuted.

Example C68_nonvacuous : in_ring 3 five_gens /\ lists_minimal_generators 3 five_gens five_gens /\
  createIdealOrderer enumerationOrderDefault = inl (Some (OSingle (SReverse KLex))) /\
  createIdealOrderer deformationOrderDefault = inl (Some (OComposite [SBase KTdeg; SBase KLex])) /\
  scarf_facade_multigraded in_order in_order enumerationOrderDefault deformationOrderDefault 200 false in_order true (setIdeal true 3 five_gens) =
    inl (Some (received five_series)) /\
  scarf_facade_multigraded in_order in_order enumerationOrderDefault deformationOrderDefault 200 true in_order true (setIdeal false 3 five_gens) =
    inl (Some (received five_series)) /\
  scarf_facade_univariate in_order in_order enumerationOrderDefault deformationOrderDefault 200 false in_order true (setIdeal true 3 five_gens) =
    inl (Some (received (uni_poly [((-1)%Z, 6); (1%Z, 5); (2%Z, 4); ((-1)%Z, 3); ((-2)%Z, 2); (1%Z, 0)]))).
Proof.
  split; [repeat constructor|]. split.
  - apply minl_lists; [repeat constructor|]. split; [repeat constructor; simpl; intuition discriminate|].
    intros g h Hg Hh Hle. unfold five_gens in *. simpl in Hg, Hh.
    repeat (destruct Hg as [<-|Hg]; [|]); try contradiction; repeat (destruct Hh as [<-|Hh]; [|]); try contradiction; auto; exfalso;
      pose proof (Hle 0 ltac:(lia)); pose proof (Hle 1 ltac:(lia)); pose proof (Hle 2 ltac:(lia)); simpl in *; lia.
  - vm_compute. repeat split; auto.
Qed.

(** ** C69: the tree has all the generators and answers as the list does *)
Theorem C69_tree : forall n I, in_ring n I -> NoDup I -> forall fuel, length I <= fuel ->
  exists t, idealTree fuel n I = Some t /\ Permutation (tree_range t) I /\
    forall m, length m = n -> (tree_strictlyContains n t m = true <-> exists g, In g I /\ strictly_divides g m).
Proof. exact p_tree. Qed.
Print Assumptions C69_tree.

Definition many_gens : list mono := map (fun i => [i; 70 - i]) (seq 0 70).
Example C69_nonvacuous : in_ring 2 many_gens /\ NoDup many_gens /\
  match idealTree 70 2 many_gens with
  | Some t => tree_strictlyContains 2 t [30; 42] = true /\ tree_strictlyContains 2 t [30; 41] = false /\ match t with INode _ _ => True | ILeaf _ => False end
  | None => False
  end.
Proof.
  split; [|split].
  - unfold in_ring, many_gens. apply Forall_forall. intros x Hx. apply in_map_iff in Hx. destruct Hx as (i & <- & _). reflexivity.
  - unfold many_gens. apply FinFun.Injective_map_NoDup; [|apply seq_NoDup]. intros i j E. injection E. auto.
  - vm_compute. auto.
Qed.
