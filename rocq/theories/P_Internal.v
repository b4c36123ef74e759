(** The ideal that the computations work on, in terms of indices into the tables of the translator. *)
From Coq Require Import List Arith Bool ZArith Lia Permutation Sorted.
Import ListNotations.
From Verif Require Import Spec M_Term M_Ideal M_Slice M_Msm M_Api P_Term P_Ideal P_Bridge P_Corner P_Decomp P_Translator.
Local Open Scope nat_scope.

(** What the translated ideal is good for *)
Record internal (n : nat) (I J : ideal) : Prop := mk_int {
  int_wf : wf n J; int_minl : minl n J; int_below : below n (K I) J;
  int_ideal : forall m, length m = n -> (in_ideal I m <-> exists g, In g J /\ forall v, v < n -> phi I v (g @ v) <= m @ v) }.
Lemma J1_internal : forall n I, wf n I -> internal n I (J1 n I).
Proof. intros n I Hw. constructor; auto using J1_wf, J1_minl, J1_below. intros. apply J1_ideal; auto. Qed.

Lemma int_nonempty : forall n I J h, internal n I J -> wf n I -> In h I -> exists g, In g J /\ forall v, v < n -> phi I v (g @ v) <= h @ v.
Proof.
  intros n I J h HJ Hw Hh. apply (int_ideal n I J HJ h (Hw h Hh)). apply (in_ideal_iff n); auto. apply inI_self; auto.
Qed.
Lemma int_one : forall I J g, internal 1 I J -> wf 1 I -> In g J -> g @ 0 <= 1.
Proof.
  intros I J g HJ Hw Hg. destruct (Nat.le_gt_cases (g @ 0) 1) as [|H]; auto. exfalso.
  pose proof (int_below _ _ _ HJ g 0 Hg ltac:(lia)) as HB.
  pose proof (phi_lt I 0 0 1 ltac:(lia) ltac:(lia)) as L1. rewrite phi_0 in L1.
  assert (Hi : In (phi I 0 1) (U I 0)) by (apply nth_In; unfold K in HB; lia).
  apply U_in in Hi. destruct Hi as [E|[h [Hh E]]]; [lia|].
  destruct (int_nonempty 1 I J h HJ Hw Hh) as [k [Hk Hle]]. specialize (Hle 0 ltac:(lia)).
  assert (Kb : k @ 0 < K I 0) by (apply (int_below _ _ _ HJ); auto; lia).
  assert (k @ 0 <= 1).
  { apply (emb_le 1 (K I) (phi I) 0); auto using phi_embedding; [lia|]. rewrite E. exact Hle. }
  assert (k = g); [|subst; lia]. apply (int_minl _ _ _ HJ); auto.
  intros v Hv. assert (v = 0) by lia. subst. lia.
Qed.
