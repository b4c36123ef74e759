(** Bridge between the specification and the pointwise view used in proofs. *)
From Coq Require Import List Arith Bool Lia.
Import ListNotations.
From Verif Require Import Spec M_Term M_Ideal P_Term P_Ideal.

Lemma mono_mul_length : forall a b, length (mono_mul a b) = Nat.min (length a) (length b).
Proof. induction a; intros [|y b]; simpl; auto. Qed.

Lemma mono_mul_nth : forall a b v, v < length a -> v < length b ->
  (mono_mul a b) @ v = a @ v + b @ v.
Proof.
  induction a as [|x a IH]; intros [|y b] v Ha Hb; simpl in *; try lia.
  destruct v; auto. apply IH; lia.
Qed.

Lemma mono_mul_product : forall n a b, length a = n -> length b = n ->
  mono_mul a b = t_product n a b.
Proof.
  intros n a b Ha Hb. apply term_ext with n.
  - rewrite mono_mul_length. lia.
  - apply t_product_length.
  - intros v Hv. rewrite mono_mul_nth by lia. rewrite t_product_nth by auto. reflexivity.
Qed.

Lemma times_var_length : forall m i, length (times_var m i) = length m.
Proof. induction m; intros [|i]; simpl; auto. Qed.

Lemma times_var_nth : forall m i v, v < length m ->
  (times_var m i) @ v = if v =? i then S (m @ v) else m @ v.
Proof.
  induction m as [|e m IH]; intros i v Hv; simpl in *; [lia|].
  destruct i, v; simpl; auto. apply IH. lia.
Qed.

(** Minimal elements of an upward closed set given by generators. *)
Lemma minl_minimal_in : forall n (P : mono -> Prop) L, wf n L -> minl n L ->
  (forall m, length m = n -> (P m <-> inI n L m)) ->
  NoDup L /\ forall g, In g L <-> minimal_in n P g.
Proof.
  intros n P L HL [Hnd Hm] HP. split; auto. intros g. unfold minimal_in. split.
  - intros Hg. assert (Hlg : length g = n) by auto. split; auto. split.
    + apply HP; auto. apply inI_self; auto.
    + intros h Hlh Hh Hd. apply divs_iff with (n := n) in Hd; auto.
      apply HP in Hh; auto. destruct Hh as [k [Hk Hkh]].
      assert (k = g) by (apply Hm; auto; eapply le_n_trans; eauto). subst k.
      apply le_n_antisym with n; auto.
  - intros [Hlg [Hin Hu]]. apply HP in Hin; auto. destruct Hin as [k [Hk Hkg]].
    assert (k = g).
    { apply Hu; auto; [|apply divs_iff with n; auto]. apply HP; auto. apply inI_self; auto. }
    subst k; auto.
Qed.

Lemma minimal_list_minl : forall n I, in_ring n I -> lists_minimal_generators n I I -> minl n I.
Proof.
  intros n I Hr [Hnd Hm]. apply in_ring_wf in Hr. split; auto.
  intros g h Hg Hh Hle. apply Hm in Hh. destruct Hh as [Hl [_ Hu]]. apply Hu.
  - apply in_ideal_iff with n; auto. apply inI_self; auto.
  - apply divs_iff with n; auto.
Qed.

Lemma minimize_exact : forall n I L, in_ring n I -> min_of n I L ->
  lists_minimal_generators n I L /\ same_ideal n I L.
Proof.
  intros n I L Hr H. apply in_ring_wf in Hr. assert (HL := min_of_wf n I L Hr H).
  assert (He := min_of_eqI n I L H). split.
  - apply minl_lists_minimal; auto. apply H.
  - intros m Hm. rewrite !in_ideal_iff with (n := n) by auto. symmetry. apply He.
Qed.

Lemma minimize_all_paths : forall n I, in_ring n I ->
  (lists_minimal_generators n I (i_minimize n I) /\ same_ideal n I (i_minimize n I)) /\
  lists_minimal_generators n I (simpleMinimize n I) /\
  (n = 2 -> lists_minimal_generators n I (twoVarMinimize I)) /\
  (forall fuel, length I < fuel ->
     exists t, makeTree fuel n I = Some t /\ lists_minimal_generators n I (tree_collect n t)).
Proof.
  intros n I Hr. split; [|split; [|split]].
  - apply minimize_exact; auto. apply i_minimize_spec.
  - apply minimize_exact; auto. apply simpleMinimize_spec.
  - intros ->. apply minimize_exact; auto. apply twoVarMinimize_spec.
  - intros fuel Hf. destruct (makeTree_total fuel n I Hf) as [t [E [_ H]]]. exists t. split; auto.
    apply minimize_exact; auto.
Qed.

Lemma colon_exact : forall n I p, in_ring n I -> lists_minimal_generators n I I -> length p = n ->
  let (J, changed) := i_colonReminimize n I p in
  (NoDup J /\ forall k, In k J <-> minimal_in n (fun m => in_ideal I (mono_mul m p)) k) /\
  (changed = true <-> exists g i, In g I /\ i < n /\ 0 < nth i g 0 <= nth i p 0) /\
  (changed = false -> length J = length I).
Proof.
  intros n I p Hr Hmin Hp. pose proof (minimal_list_minl n I Hr Hmin) as Hm. apply in_ring_wf in Hr.
  pose proof (minimizer_colonTerm_spec n I p Hr Hm Hp) as [A [B C]].
  unfold i_colonReminimize. destruct (minimizer_colonTerm n I p) as [J ch]. simpl in *.
  split; [|split]; auto. pose proof (is_colon_inI n I p J A) as HJ. destruct A as [M [W _]].
  apply minl_minimal_in; auto. intros m Hlm.
  rewrite mono_mul_product with (n := n) by auto.
  rewrite in_ideal_iff with (n := n); auto using t_product_length. symmetry. apply HJ.
Qed.

Lemma colonVar_exact : forall n I var e, in_ring n I -> lists_minimal_generators n I I -> var < n ->
  let p := repeat 0 var ++ e :: repeat 0 (n - S var) in
  let (J, changed) := i_colonReminimizeVar n I var e in
  (NoDup J /\ forall k, In k J <-> minimal_in n (fun m => in_ideal I (mono_mul m p)) k) /\
  (changed = true <-> exists g, In g I /\ 0 < nth var g 0 <= e) /\
  (changed = false -> length J = length I).
Proof.
  intros n I var e Hr Hmin Hv p. pose proof (minimal_list_minl n I Hr Hmin) as Hm. apply in_ring_wf in Hr.
  assert (Hlp : length p = n).
  { unfold p. rewrite app_length. simpl. rewrite !repeat_length. lia. }
  assert (Ep : p = var_pow n var e).
  { apply term_ext with n; auto; [apply t_set_length|]. intros v Hv'. rewrite var_pow_nth by auto. unfold p.
    destruct (Nat.eqb_spec v var).
    - subst v. rewrite app_nth2; rewrite repeat_length; [|lia]. replace (var - var) with 0 by lia. reflexivity.
    - destruct (Nat.lt_ge_cases v var).
      + rewrite app_nth1 by (rewrite repeat_length; auto). apply nth_repeat.
      + rewrite app_nth2; rewrite repeat_length; [|lia]. destruct (v - var) eqn:E; [lia|]. simpl. apply nth_repeat. }
  pose proof (minimizer_colonVar_spec n I var e Hr Hm Hv) as [A [B C]]. rewrite <- Ep in A.
  unfold i_colonReminimizeVar. destruct (minimizer_colonVar n I var e) as [J ch]. simpl in *.
  split; [|split]; auto. pose proof (is_colon_inI n I p J A) as HJ. destruct A as [M [W _]].
  apply minl_minimal_in; auto. intros m Hlm.
  rewrite mono_mul_product with (n := n) by auto.
  rewrite in_ideal_iff with (n := n); auto using t_product_length. symmetry. apply HJ.
Qed.
