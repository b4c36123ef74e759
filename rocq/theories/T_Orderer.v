(** Property C70: the orders of generators. *)
From Coq Require Import String Ascii List Arith Bool ZArith Lia Permutation Sorted.
Import ListNotations.
From Verif Require Import Spec Spec_Slice Spec_Api Spec_Hilbert Spec_Scarf M_Term M_Ideal M_Names Spec_Names M_Orderer Spec_Orderer P_Orderer.
Local Open Scope list_scope.
Local Notation "$ s" := (list_ascii_of_string s%string) (at level 0, s at level 0, only parsing).

(** ** C70: ordering never loses or adds a generator, whatever the order and the shuffling *)
Theorem C70_same_generators : forall shuffle n o I r, (forall i l, Permutation (shuffle i l) l) ->
  o_order shuffle n o I = Some r -> Permutation r I.
Proof. exact p_order_perm. Qed.
Print Assumptions C70_same_generators.

(** The result is the given list sorted stably by the named order, the first named one that tells two generators apart
    deciding; so the result is determined by the name and the given list. *)
Theorem C70_sorts : forall shuffle n o I r, in_ring n I -> NoDup I -> not_random o -> o_order shuffle n o I = Some r ->
  stably_sorted (orderer_before I o) I r.
Proof. exact p_order_stable. Qed.
Print Assumptions C70_sorts.
Theorem C70_determined : forall I o r r', stably_sorted (orderer_before I o) I r -> stably_sorted (orderer_before I o) I r' -> r = r'.
Proof. exact p_order_unique. Qed.
Print Assumptions C70_determined.

(** There is a result, except perhaps for two or more generators in no variables. *)
Theorem C70_defined : forall shuffle n o I, (forall i l, Permutation (shuffle i l) l) -> n <> 0 \/ length I <= 1 ->
  exists r, o_order shuffle n o I = Some r.
Proof. exact p_order_some. Qed.
Print Assumptions C70_defined.

(** A name is made of parts between underscores.  If each part stands for an order then the result is the composite of those
    orders; otherwise the name is reported. *)
Theorem C70_names : forall name, exists p ps, name = joined p ps /\ Forall (fun q => ~ In "_"%char q) (p :: ps) /\
  match createIdealOrderer name with
  | inl (Some o) => Forall2 stands_for (p :: ps) (simples o)
  | inl None => False
  | inr e => (exists q, In q (p :: ps) /\ forall s, ~ stands_for q s) /\ forall n, e <> Found n
  end.
Proof. exact p_create_orderer. Qed.
Print Assumptions C70_names.

Definition keep_order (_ : nat) (l : ideal) : ideal := l.
Definition order_gens : list mono := [[2;0;1];[0;3;0];[1;1;1];[0;0;4];[3;1;0];[0;2;1]].
Example C70_nonvacuous : in_ring 3 order_gens /\ NoDup order_gens /\
  createIdealOrderer $"tdeg_lex" = inl (Some (OComposite [SBase KTdeg; SBase KLex])) /\
  createIdealOrderer $"lex_ma_m" = inr (Ambiguous [$"max"; $"median"; $"minPos"]) /\ createIdealOrderer $"lex_x" = inr Unknown /\
  createIdealOrderer $"revt_weak_me" = inl (Some (OComposite [SReverse KTdeg; SBase KWeak; SBase KMedian])) /\
  createIdealOrderer $"revlex" = inl (Some (OSingle (SReverse KLex))) /\
  not_random (OComposite [SBase KTdeg; SBase KLex]) /\
  o_order keep_order 3 (OComposite [SBase KTdeg; SBase KLex]) order_gens = Some [[0;2;1];[0;3;0];[1;1;1];[2;0;1];[0;0;4];[3;1;0]] /\
  o_order keep_order 3 (OSingle (SReverse KMax)) order_gens = Some [[0;0;4];[0;3;0];[3;1;0];[2;0;1];[0;2;1];[1;1;1]] /\
  o_order keep_order 3 (OSingle (SBase KStrong)) order_gens = Some [[0;3;0];[0;0;4];[3;1;0];[2;0;1];[0;2;1];[1;1;1]].
Proof.
  split; [repeat constructor|]. split; [repeat constructor; simpl; intuition discriminate|].
  repeat split; try (vm_compute; reflexivity). repeat constructor; discriminate.
Qed.
