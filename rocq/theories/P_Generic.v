(** The tests of genericity are right. *)
From Coq Require Import List Arith Bool ZArith Lia Permutation Sorted.
Import ListNotations.
From Verif Require Import Spec Spec_Slice Spec_Scarf M_Term M_Ideal M_Msm M_Bigatti P_Term P_Ideal P_Valid P_Bigatti5.
Local Open Scope nat_scope.

Lemma pair_lcm_eq : forall n a b, length a = n -> length b = n -> pair_lcm a b = t_lcm n a b.
Proof.
  intros n a b Ha Hb. apply term_ext with n.
  - unfold pair_lcm. rewrite map_length, combine_length. lia.
  - apply t_lcm_length.
  - intros v Hv. rewrite t_lcm_nth by auto. unfold pair_lcm.
    change 0 with ((fun p : nat * nat => Nat.max (fst p) (snd p)) (0, 0)) at 1. rewrite map_nth, combine_nth by lia. reflexivity.
Qed.
Lemma shares_iff : forall n a b, t_sharesNonZero n a b = true <-> exists v, v < n /\ a @ v = b @ v /\ 0 < a @ v.
Proof.
  intros n a b. unfold t_sharesNonZero. rewrite existsb_exists. split.
  - intros [v [Hv H]]. apply in_seq in Hv. apply andb_true_iff in H. destruct H as [H1 H2]. apply negb_true_iff, Nat.eqb_neq in H1. apply Nat.eqb_eq in H2. exists v. lia.
  - intros [v [Hv [H1 H2]]]. exists v. split; [apply in_seq; lia|]. apply andb_true_iff. split; [apply negb_true_iff, Nat.eqb_neq; lia|apply Nat.eqb_eq; auto].
Qed.
Lemma strictlyContains_iff : forall n I t, wf n I -> length t = n -> (i_strictlyContains n I t = true <-> exists g, In g I /\ strictly_divides g t).
Proof.
  intros n I t Hw Ht. unfold i_strictlyContains. rewrite existsb_exists. split; intros [g [Hg H]]; exists g; split; auto; [|].
  - apply t_strictlyDivides_iff in H. apply (sdiv_iff n); auto.
  - apply t_strictlyDivides_iff. apply (sdiv_iff n); auto.
Qed.
Lemma pairs_iff : forall n all l, wf n all -> incl l all -> NoDup l -> (pairs_generic n all l = true <->
  forall a b v, In a l -> In b l -> a <> b -> v < n -> a @ v = b @ v -> 0 < a @ v -> exists g, In g all /\ strictly_divides g (t_lcm n a b)).
Proof.
  intros n all l Hw. induction l as [|a l IH]; intros Hi HN.
  - split; auto. intros _ a b v [].
  - inversion HN as [|? ? Na Nl]; subst. cbn [pairs_generic]. rewrite andb_true_iff, IH by (auto; intros x Hx; apply Hi; simpl; auto). rewrite forallb_forall.
    assert (C : forall x y, t_lcm n x y = t_lcm n y x).
    { intros x y. apply term_ext with n; auto using t_lcm_length. intros v Hv. rewrite !t_lcm_nth by auto. lia. }
    assert (Q : (forall b, In b l -> negb (t_sharesNonZero n a b) || i_strictlyContains n all (t_lcm n a b) = true) <->
      forall b v, In b l -> v < n -> a @ v = b @ v -> 0 < a @ v -> exists g, In g all /\ strictly_divides g (t_lcm n a b)).
    { split.
      - intros H b v Hb Hv E P. specialize (H b Hb). rewrite (proj2 (shares_iff n a b)) in H by eauto. cbn in H. apply strictlyContains_iff in H; auto using t_lcm_length.
      - intros H b Hb. destruct (t_sharesNonZero n a b) eqn:S; auto. cbn. apply shares_iff in S. destruct S as [v [Hv [E P]]].
        apply strictlyContains_iff; auto using t_lcm_length. eapply H; eauto. }
    rewrite Q. split.
    + intros [H1 H2] x y v [<-|Hx] [<-|Hy] D Hv E P; [congruence|eapply H1; eauto| |eapply H2; eauto].
      rewrite C. apply (H1 x v); auto; lia.
    + intros H. split.
      * intros b v Hb Hv E P. apply (H a b v); simpl; auto. congruence.
      * intros x y v Hx Hy. apply H; simpl; auto.
Qed.
Theorem p_weakly_generic : forall n I, in_ring n I -> NoDup I -> (i_isWeaklyGeneric n I = true <-> weakly_generic n I).
Proof.
  intros n I Hr HN. pose proof (proj1 (in_ring_wf _ _) Hr) as Hw. unfold i_isWeaklyGeneric. rewrite pairs_iff by (auto; apply incl_refl).
  unfold weakly_generic. split; intros H a b v Ha Hb D Hv E P; [rewrite (pair_lcm_eq n) by auto|rewrite <- pair_lcm_eq by auto]; eapply H; eauto.
Qed.

Lemma no_repeat_iff : forall v l last, StronglySorted (fun a b => a @ v <= b @ v) l -> Forall (fun g => last <= g @ v) l -> NoDup l ->
  (no_repeat v last l = true <-> (forall g, In g l -> last <> 0 -> last <> g @ v) /\
     forall a b, In a l -> In b l -> a <> b -> a @ v = b @ v -> a @ v = 0).
Proof.
  intros v l. induction l as [|g l IH]; intros last HS HF HN.
  - split; auto. intros _. split; [intros g []|intros a b []].
  - inversion HS as [|? ? HS' HG]; subst. inversion HF as [|? ? F0 F']; subst. inversion HN as [|? ? Ng Nl]; subst.
    cbn [no_repeat]. rewrite andb_true_iff, IH by auto. rewrite negb_true_iff, andb_false_iff, negb_false_iff, Nat.eqb_eq, Nat.eqb_neq.
    rewrite Forall_forall in HG. split.
    + intros [H1 [H2 H3]]. split.
      * intros h [<-|Hh] Hl; [lia|]. specialize (HG h Hh). specialize (H2 h Hh). lia.
      * intros a b [<-|Ha] [<-|Hb] D E; [congruence| | |apply (H3 a b); auto].
        -- specialize (H2 b Hb). destruct (Nat.eq_dec (g @ v) 0); auto. exfalso. apply H2; auto.
        -- specialize (H2 a Ha). destruct (Nat.eq_dec (g @ v) 0); try congruence. exfalso. apply H2; auto.
    + intros [H1 H2]. split; [specialize (H1 g (or_introl eq_refl)); lia|]. split.
      * intros h Hh Hg E. apply Hg. apply (H2 g h); simpl; auto. congruence.
      * intros a b Ha Hb. apply H2; simpl; auto.
Qed.
Lemma strong_iff : forall vars I, NoDup I -> (strong_from I vars = true <->
  forall v, In v vars -> forall a b, In a I -> In b I -> a <> b -> a @ v = b @ v -> a @ v = 0).
Proof.
  induction vars as [|v vs IH]; intros I HN; cbn [strong_from].
  - split; auto. intros _ v [].
  - cbv zeta. pose proof (sort_perm I v) as P. set (J := i_singleDegreeSort I v) in *.
    assert (NJ : NoDup J) by (apply (Permutation_NoDup P); auto).
    assert (PI : forall x, In x J <-> In x I) by (intros x; split; apply Permutation_in; auto; apply Permutation_sym; auto).
    rewrite andb_true_iff, IH by auto. rewrite no_repeat_iff; auto; [|apply std_sort_deg_sorted|apply Forall_forall; intros; lia].
    split.
    + intros [[_ H1] H2] w [<-|Hw] a b Ha Hb; [apply H1|apply (H2 w)]; auto; apply PI; auto.
    + intros H. split; [split; [lia|]|].
      * intros a b Ha Hb. apply (H v); simpl; auto; apply PI; auto.
      * intros w Hw a b Ha Hb. apply (H w); simpl; auto; apply PI; auto.
Qed.
Theorem p_strongly_generic : forall n I, NoDup I -> (i_isStronglyGeneric n I = true <-> strongly_generic n I).
Proof.
  intros n I HN. unfold i_isStronglyGeneric. rewrite strong_iff by auto. unfold strongly_generic. split.
  - intros H a b v Ha Hb D Hv E. apply (H v) with b; auto. apply in_seq; lia.
  - intros H v Hv a b Ha Hb D E. apply in_seq in Hv. apply (H a b v); auto. lia.
Qed.
