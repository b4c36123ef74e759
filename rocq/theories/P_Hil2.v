(** The base case of the Hilbert computation: squarefree ideals. *)
From Coq Require Import List Arith Bool ZArith Lia Permutation.
Import ListNotations.
From Verif Require Import Spec M_Term M_Ideal M_Slice M_Partition M_Msm M_Api M_Hilbert P_Term P_Ideal P_Bridge P_Msm1 P_Msm2 P_Hil1.
Local Open Scope nat_scope.

Lemma tv_product : forall n m x, length m = n -> x < n -> tv m x = t_product n m (var_pow n x 1).
Proof.
  intros n m x Hm Hx. apply term_ext with n; [rewrite times_var_length; auto|apply t_product_length|].
  intros v Hv. rewrite t_product_nth, var_pow_nth by auto. rewrite times_var_nth by lia.
  destruct (Nat.eqb_spec v x); lia.
Qed.

Definition F (n : nat) (A : ideal) (V : list nat) : Z := dif V (fun m => (1 - ind n A m)%Z) (t_identity n).

Lemma F_perm : forall n A V W, Permutation V W -> F n A V = F n A W.
Proof. intros. unfold F. apply dif_perm; auto. Qed.

Lemma F_eqI : forall n A B V, (forall m, inI n A m <-> inI n B m) -> F n A V = F n B V.
Proof. intros. unfold F. apply dif_ext. intros x _. rewrite (ind_iff n A B x x); auto. Qed.

Lemma F_colon : forall n A x J V, x < n -> is_colon n A (var_pow n x 1) J ->
  dif V (fun m => (1 - ind n A m)%Z) (tv (t_identity n) x) = F n J V.
Proof.
  intros n A x J V Hx HJ. rewrite <- dif_tv. unfold F. apply dif_ext. intros m Hm.
  apply reach_length in Hm. rewrite t_identity_length in Hm. f_equal.
  apply ind_iff. rewrite (is_colon_inI n A _ J HJ). rewrite (tv_product n) by auto. tauto.
Qed.

Definition nox (x : nat) (A : ideal) : ideal := filter (fun g => g @ x <? 1) A.

Lemma F_nox : forall n A x V, ~ In x V -> x < n -> F n A V = F n (nox x A) V.
Proof.
  intros n A x V Hx Hn. unfold F. apply dif_ext. intros m Hm. f_equal. apply ind_iff.
  pose proof (reach_off _ _ _ _ Hm Hx) as E. rewrite t_identity_nth in E.
  split.
  - intros [g [Hg Hle]]. exists g. split; auto. apply filter_In. split; auto. apply Nat.ltb_lt.
    specialize (Hle x Hn). lia.
  - apply inI_incl. apply incl_filter.
Qed.

Lemma F_split : forall n A x J V, ~ In x V -> x < n -> is_colon n A (var_pow n x 1) J ->
  F n A (x :: V) = (F n J V - F n (nox x A) V)%Z.
Proof.
  intros n A x J V Hx Hn HJ. unfold F at 1. cbn [dif]. rewrite (F_colon n A x J V Hn HJ).
  rewrite <- F_nox by auto. reflexivity.
Qed.

Lemma le_tv : forall n g x v, g @ v <= x @ v -> (le_n n g (tv x v) <-> le_n n g x).
Proof.
  intros n g x v H. split; intros Hle w Hw; specialize (Hle w Hw); rewrite tv_nth in *.
  - destruct (Nat.eqb_spec w v) as [E|]; cbn [andb] in *; auto. subst; auto.
  - destruct (Nat.eqb_spec w v) as [E|]; cbn [andb] in *; auto. destruct (v <? length x); lia.
Qed.

Lemma F_absent : forall n A V v, NoDup V -> In v V -> v < n -> (forall g, In g A -> g @ v = 0) -> F n A V = 0%Z.
Proof.
  intros n A V v Hnd Hv Hvn H. unfold F. apply dif_zero with v; auto.
  intros x Hl Hx _ _. f_equal. apply ind_iff. rewrite t_identity_length in Hl.
  split; intros [g [Hg Hle]]; exists g; split; auto; apply (le_tv n g x v); auto; rewrite H; auto; lia.
Qed.

Lemma F_simp : forall n A x other J V, NoDup (x :: V) -> x < n -> other < n -> In other V ->
  (forall g, In g A -> 0 < g @ other -> 0 < g @ x) -> is_colon n A (var_pow n x 1) J ->
  F n A (x :: V) = F n J V.
Proof.
  intros n A x other J V Hnd Hx Ho Hin H HJ. inversion Hnd; subst. rewrite (F_split n A x J V) by auto.
  rewrite (F_absent n (nox x A) V other); auto; [lia|].
  intros g Hg. apply filter_In in Hg. destruct Hg as [Hg E]. apply Nat.ltb_lt in E.
  destruct (Nat.eq_dec (g @ other) 0); auto. specialize (H g Hg). lia.
Qed.

(** ** Inclusion-exclusion *)
Definition dv (n : nat) (u m : term) : Z := if t_divides n u m then 1%Z else 0%Z.

Fixpoint E (V : list nat) (A : ideal) (u : nat -> bool) : Z :=
  match A with
  | [] => if forallb u V then 1%Z else 0%Z
  | g :: A' => Z.sub (E V A' u) (E V A' (fun v => u v || (0 <? g @ v)))
  end.

Lemma E_ext : forall V A u u', (forall v, In v V -> u v = u' v) -> E V A u = E V A u'.
Proof.
  induction A as [|g A IH]; simpl; intros u u' H.
  - assert (forallb u V = forallb u' V).
    { clear -H. induction V as [|v V IHV]; simpl; auto. rewrite H by (simpl; auto). f_equal. apply IHV.
      intros; apply H; simpl; auto. }
    rewrite H0. auto.
  - rewrite (IH u u') by auto. rewrite (IH (fun v => u v || (0 <? g @ v)) (fun v => u' v || (0 <? g @ v))); auto.
    intros v Hv. rewrite H; auto.
Qed.

Lemma dif_all : forall n u V m, NoDup V -> (forall v, In v V -> v < n) -> length m = n ->
  (forall v, In v V -> u @ v = 1 /\ m @ v = 0) -> (forall v, v < n -> ~ In v V -> u @ v <= m @ v) ->
  dif V (dv n u) m = 1%Z.
Proof.
  induction V as [|v V IH]; simpl; intros m Hnd Hlt Hl H1 H2.
  - unfold dv. rewrite (proj2 (t_divides_iff n u m)); auto. intros v Hv. apply H2; auto.
  - inversion Hnd; subst. rewrite IH; auto.
    + rewrite (dif_ext V (dv (length m) u) (fun _ => 0%Z)); [rewrite dif_const0; lia|].
      intros x Hx. unfold dv. destruct (t_divides (length m) u x) eqn:Ed; auto. exfalso.
      pose proof (proj1 (t_divides_iff _ _ _) Ed v (Hlt v (or_introl eq_refl))) as Hle.
      rewrite (reach_off _ _ _ _ Hx H3) in Hle. destruct (H1 v (or_introl eq_refl)). lia.
    + apply times_var_length.
    + intros w Hw. rewrite tv_nth_neq by (intros ->; contradiction). apply H1; auto.
    + intros w Hw Hn. destruct (Nat.eq_dec w v) as [->|Hne].
      * rewrite tv_nth_eq by auto. destruct (H1 v (or_introl eq_refl)). lia.
      * rewrite tv_nth_neq by auto. apply H2; auto. intros [->|]; auto.
Qed.

Lemma dif_dv : forall n u V, NoDup V -> (forall v, In v V -> v < n) ->
  (forall v, v < n -> u @ v <= 1) -> (forall v, v < n -> 0 < u @ v -> In v V) ->
  dif V (dv n u) (t_identity n) = if forallb (fun v => 0 <? u @ v) V then 1%Z else 0%Z.
Proof.
  intros n u V Hnd Hlt Hs Hsup. destruct (forallb (fun v => 0 <? u @ v) V) eqn:Ef.
  - rewrite forallb_forall in Ef. apply dif_all; auto using t_identity_length.
    + intros v Hv. specialize (Ef v Hv). apply Nat.ltb_lt in Ef. specialize (Hs v (Hlt v Hv)).
      rewrite t_identity_nth. lia.
    + intros v Hv Hn. rewrite t_identity_nth. destruct (Nat.eq_dec (u @ v) 0); [lia|]. exfalso. apply Hn. apply Hsup; auto. lia.
  - assert (Hex : exists v, In v V /\ u @ v = 0).
    { clear -Ef. induction V as [|v V IH]; simpl in Ef; [discriminate|]. apply andb_false_iff in Ef.
      destruct Ef as [Ef|Ef]; [exists v; split; [left; auto|apply Nat.ltb_ge in Ef; lia]|].
      destruct (IH Ef) as [w [Hw E0]]. exists w. split; [right|]; auto. }
    destruct Hex as [v [Hv E0]]. apply dif_zero with v; auto.
    intros x Hl Hx _ _. unfold dv.
    assert (Hiff : t_divides n u (tv x v) = true <-> t_divides n u x = true).
    { rewrite !t_divides_iff. apply le_tv. lia. }
    destruct (t_divides n u (tv x v)), (t_divides n u x); auto; destruct Hiff; exfalso; intuition congruence.
Qed.

Lemma ind_cons : forall n g A m, (1 - ind n (g :: A) m = (1 - ind n A m) - dv n g m * (1 - ind n A m))%Z.
Proof.
  intros n g A m. unfold ind, dv. simpl.
  assert (Hd : t_dominates n m g = t_divides n g m).
  { apply eq_true_iff_eq. rewrite t_dominates_iff, t_divides_iff. tauto. }
  rewrite Hd. destruct (t_divides n g m), (i_contains n A m) eqn:Ei; unfold i_contains in *; rewrite ?Ei; simpl; lia.
Qed.

Lemma dv_lcm : forall n u g m, (dv n u m * dv n g m = dv n (t_lcm n u g) m)%Z.
Proof.
  intros n u g m. unfold dv.
  assert (H : t_divides n (t_lcm n u g) m = t_divides n u m && t_divides n g m).
  { apply eq_true_iff_eq. rewrite andb_true_iff, !t_divides_iff. split.
    - intros H. split; intros v Hv; specialize (H v Hv); rewrite t_lcm_nth in H by auto; lia.
    - intros [H1 H2] v Hv. rewrite t_lcm_nth by auto. specialize (H1 v Hv). specialize (H2 v Hv). lia. }
  rewrite H. destruct (t_divides n u m), (t_divides n g m); reflexivity.
Qed.

Lemma E_correct : forall n V A u, NoDup V -> (forall v, In v V -> v < n) ->
  (forall v, v < n -> u @ v <= 1) -> (forall v, v < n -> 0 < u @ v -> In v V) ->
  (forall g v, In g A -> v < n -> g @ v <= 1) -> (forall g v, In g A -> v < n -> 0 < g @ v -> In v V) ->
  dif V (fun m => (dv n u m * (1 - ind n A m))%Z) (t_identity n) = E V A (fun v => 0 <? u @ v).
Proof.
  intros n V A. induction A as [|g A IH]; intros u Hnd Hlt Hu Hu' HA HA'.
  - cbn [E]. rewrite <- (dif_dv n u V) by auto. apply dif_ext. intros x _. unfold ind. simpl. lia.
  - rewrite (dif_ext _ _ (fun m => (dv n u m * (1 - ind n A m) - dv n (t_lcm n u g) m * (1 - ind n A m))%Z)).
    2:{ intros x _. rewrite ind_cons, <- dv_lcm. ring. }
    rewrite dif_sub. cbn [E]. rewrite IH; auto.
    2:{ intros; apply HA; simpl; auto. }
    2:{ intros; eapply HA'; simpl; eauto. }
    rewrite IH; auto.
    + f_equal. apply E_ext. intros v Hv. rewrite t_lcm_nth by auto.
      destruct (Nat.ltb_spec 0 (u @ v)), (Nat.ltb_spec 0 (g @ v)), (Nat.ltb_spec 0 (Nat.max (u @ v) (g @ v))); auto; lia.
    + intros v Hv. rewrite t_lcm_nth by auto. specialize (Hu v Hv). specialize (HA g v (or_introl eq_refl) Hv). lia.
    + intros v Hv. rewrite t_lcm_nth by auto. intros H. destruct (Nat.eq_dec (u @ v) 0).
      * apply (HA' g v); simpl; auto. lia.
      * apply Hu'; auto. lia.
    + intros; apply HA; simpl; auto.
    + intros; eapply HA'; simpl; eauto.
Qed.

Lemma F_E : forall n A V, NoDup V -> (forall v, In v V -> v < n) ->
  (forall g v, In g A -> v < n -> g @ v <= 1) -> (forall g v, In g A -> v < n -> 0 < g @ v -> In v V) ->
  F n A V = E V A (fun _ => false).
Proof.
  intros n A V H1 H2 H3 H4. unfold F. rewrite <- (E_ext V A (fun v => 0 <? (t_identity n) @ v)).
  2:{ intros v _. rewrite t_identity_nth. auto. }
  rewrite <- (E_correct n V A (t_identity n)); auto.
  - apply dif_ext. intros x _. unfold dv. rewrite (proj2 (t_divides_iff n (t_identity n) x)); [lia|].
    intros v _. rewrite t_identity_nth. lia.
  - intros v _. rewrite t_identity_nth. lia.
  - intros v _. rewrite t_identity_nth. lia.
Qed.

Lemma E_absent : forall V A u v, In v V -> u v = false -> (forall g, In g A -> g @ v = 0) -> E V A u = 0%Z.
Proof.
  intros V A. induction A as [|g A IH]; intros u v Hv Hu H; cbn [E].
  - destruct (forallb u V) eqn:Ef; auto. rewrite forallb_forall in Ef. specialize (Ef v Hv). congruence.
  - rewrite (IH u v); auto. 2:{ intros; apply H; simpl; auto. }
    rewrite (IH _ v); auto.
    + rewrite Hu, (H g); simpl; auto.
    + intros; apply H; simpl; auto.
Qed.

Lemma E_covered : forall V u, (forall v, In v V -> u v = true) -> E V [] u = 1%Z.
Proof. intros V u H. simpl. rewrite (proj2 (forallb_forall u V)); auto. Qed.
