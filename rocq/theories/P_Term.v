(** Lemmas about terms (pointwise characterisations of the model functions). *)
From Coq Require Import List Arith Bool Lia Permutation Sorted.
Import ListNotations.
From Verif Require Import Spec M_Term.

Lemma forallb_seq : forall f n,
  forallb f (seq 0 n) = true <-> forall v, v < n -> f v = true.
Proof.
  intros f n. rewrite forallb_forall. split.
  - intros H v Hv. apply H. apply in_seq. lia.
  - intros H v Hv. apply in_seq in Hv. apply H. lia.
Qed.

Lemma existsb_seq : forall f n,
  existsb f (seq 0 n) = true <-> exists v, v < n /\ f v = true.
Proof.
  intros f n. rewrite existsb_exists. split.
  - intros [v [Hv H]]. apply in_seq in Hv. exists v. split; [lia|auto].
  - intros [v [Hv H]]. exists v. split; auto. apply in_seq. lia.
Qed.

Lemma not_true_false : forall b, b = false <-> ~ b = true.
Proof. intros []; split; congruence. Qed.

Lemma tabulate_length : forall n f, length (tabulate n f) = n.
Proof. intros. unfold tabulate. rewrite map_length, seq_length. reflexivity. Qed.

Lemma tabulate_nth : forall n f v, v < n -> (tabulate n f) @ v = f v.
Proof.
  intros n f v H. unfold tabulate.
  rewrite nth_indep with (d' := f 0) by (rewrite map_length, seq_length; lia).
  rewrite map_nth with (d := 0). rewrite seq_nth by lia. reflexivity.
Qed.

Lemma nth_out : forall (a : term) v, length a <= v -> a @ v = 0.
Proof. intros. apply nth_overflow. assumption. Qed.

Lemma tabulate_out : forall n f v, n <= v -> (tabulate n f) @ v = 0.
Proof. intros. apply nth_out. rewrite tabulate_length. assumption. Qed.

Lemma term_ext : forall n (a b : term),
  length a = n -> length b = n -> (forall v, v < n -> a @ v = b @ v) -> a = b.
Proof.
  intros n a b Ha Hb H. apply nth_ext with (d := 0) (d' := 0).
  - lia.
  - intros v Hv. apply H. lia.
Qed.

Lemma tabulate_id : forall n a, length a = n -> tabulate n (fun v => a @ v) = a.
Proof.
  intros. apply term_ext with n; auto using tabulate_length.
  intros. rewrite tabulate_nth; auto.
Qed.

Lemma tabulate_ext : forall n f g,
  (forall v, v < n -> f v = g v) -> tabulate n f = tabulate n g.
Proof.
  intros. apply term_ext with n; auto using tabulate_length.
  intros. rewrite !tabulate_nth; auto.
Qed.

(** pointwise order on the first [n] exponents *)
Definition le_n (n : nat) (a b : term) : Prop := forall v, v < n -> a @ v <= b @ v.

Lemma le_n_refl : forall n a, le_n n a a.
Proof. intros n a v H. lia. Qed.
Lemma le_n_trans : forall n a b c, le_n n a b -> le_n n b c -> le_n n a c.
Proof. intros n a b c H1 H2 v Hv. specialize (H1 v Hv). specialize (H2 v Hv). lia. Qed.
Lemma le_n_antisym : forall n a b,
  length a = n -> length b = n -> le_n n a b -> le_n n b a -> a = b.
Proof.
  intros n a b Ha Hb H1 H2. apply term_ext with n; auto.
  intros v Hv. specialize (H1 v Hv). specialize (H2 v Hv). lia.
Qed.

Lemma divs_iff : forall n a b,
  length a = n -> length b = n -> (divs a b <-> le_n n a b).
Proof.
  unfold divs, le_n. intros n a. revert n.
  induction a as [|x a IH]; intros n b Ha Hb; simpl in *.
  - destruct b; simpl in *; [|lia]. split; intros; [lia|constructor].
  - destruct b as [|y b]; simpl in *; [lia|].
    destruct n as [|n]; [lia|].
    assert (Ha' : length a = n) by lia. assert (Hb' : length b = n) by lia.
    specialize (IH n b Ha' Hb'). split.
    + intros H v Hv. inversion H; subst. destruct v; simpl; [lia|].
      apply IH; auto. lia.
    + intros H. constructor.
      * specialize (H 0 ltac:(lia)). simpl in H. exact H.
      * apply IH. intros v Hv. specialize (H (S v) ltac:(lia)). exact H.
Qed.

Lemma divs_length : forall a b, divs a b -> length a = length b.
Proof. unfold divs. intros a b H. induction H; simpl; auto. Qed.

Lemma t_divides_iff : forall n a b, t_divides n a b = true <-> le_n n a b.
Proof.
  intros. unfold t_divides, le_n. rewrite forallb_seq. split; intros H v Hv; specialize (H v Hv);
    destruct (Nat.ltb_spec (b @ v) (a @ v)); simpl in *; try congruence; lia.
Qed.

Lemma t_dominates_iff : forall n a b, t_dominates n a b = true <-> le_n n b a.
Proof.
  intros. unfold t_dominates, le_n. rewrite forallb_seq. split; intros H v Hv; specialize (H v Hv);
    destruct (Nat.ltb_spec (a @ v) (b @ v)); simpl in *; try congruence; lia.
Qed.

(** a strictly divides b *)
Definition sdiv_n (n : nat) (a b : term) : Prop :=
  (forall v, v < n -> a @ v = 0 \/ a @ v < b @ v) /\ exists v, v < n /\ b @ v <> 0.

Lemma t_strictlyDivides_iff : forall n a b,
  t_strictlyDivides n a b = true <-> sdiv_n n a b.
Proof.
  intros. unfold t_strictlyDivides, sdiv_n. rewrite andb_true_iff, forallb_seq, existsb_seq.
  split; intros [H1 H2]; split.
  - intros v Hv. specialize (H1 v Hv).
    destruct (Nat.leb_spec (b @ v) (a @ v)); destruct (Nat.eqb_spec (a @ v) 0); simpl in *; try congruence; lia.
  - destruct H2 as [v [Hv H]]. exists v. split; auto.
    destruct (Nat.eqb_spec (b @ v) 0); simpl in *; congruence.
  - intros v Hv. specialize (H1 v Hv).
    destruct (Nat.leb_spec (b @ v) (a @ v)); destruct (Nat.eqb_spec (a @ v) 0); simpl in *; try congruence; lia.
  - destruct H2 as [v [Hv H]]. exists v. split; auto.
    destruct (Nat.eqb_spec (b @ v) 0); simpl in *; congruence.
Qed.

Lemma t_lcm_nth : forall n a b v, v < n -> (t_lcm n a b) @ v = Nat.max (a @ v) (b @ v).
Proof.
  intros. unfold t_lcm. rewrite tabulate_nth by auto.
  destruct (Nat.ltb_spec (b @ v) (a @ v)); lia.
Qed.
Lemma t_lcm_length : forall n a b, length (t_lcm n a b) = n.
Proof. intros. apply tabulate_length. Qed.

Lemma t_gcd_nth : forall n a b v, v < n -> (t_gcd n a b) @ v = Nat.min (a @ v) (b @ v).
Proof.
  intros. unfold t_gcd. rewrite tabulate_nth by auto.
  destruct (Nat.ltb_spec (a @ v) (b @ v)); lia.
Qed.
Lemma t_gcd_length : forall n a b, length (t_gcd n a b) = n.
Proof. intros. apply tabulate_length. Qed.

Lemma t_product_nth : forall n a b v, v < n -> (t_product n a b) @ v = a @ v + b @ v.
Proof. intros. unfold t_product. rewrite tabulate_nth by auto. reflexivity. Qed.
Lemma t_product_length : forall n a b, length (t_product n a b) = n.
Proof. intros. apply tabulate_length. Qed.

Lemma t_identity_nth : forall n v, (t_identity n) @ v = 0.
Proof.
  intros. destruct (Nat.lt_ge_cases v n).
  - apply tabulate_nth. auto.
  - apply tabulate_out. auto.
Qed.
Lemma t_identity_length : forall n, length (t_identity n) = n.
Proof. intros. apply tabulate_length. Qed.

Lemma t_isIdentity_iff : forall n a, t_isIdentity n a = true <-> forall v, v < n -> a @ v = 0.
Proof.
  intros. unfold t_isIdentity. rewrite forallb_seq. split; intros H v Hv; specialize (H v Hv);
  destruct (Nat.eqb_spec (a @ v) 0); auto; congruence.
Qed.
Lemma t_isIdentity_false : forall n a, t_isIdentity n a = false <-> exists v, v < n /\ 0 < a @ v.
Proof.
  intros. rewrite not_true_false, t_isIdentity_iff. split.
  - intros H. destruct (existsb (fun v => negb (a @ v =? 0)) (seq 0 n)) eqn:E.
    + apply existsb_seq in E. destruct E as [v [Hv E]]. exists v. split; auto.
      destruct (Nat.eqb_spec (a @ v) 0); simpl in E; [congruence|lia].
    + exfalso. apply H. intros v Hv. apply not_true_false in E.
      destruct (Nat.eq_dec (a @ v) 0); auto. exfalso. apply E. apply existsb_seq.
      exists v. split; auto. apply Nat.eqb_neq in n0. rewrite n0. reflexivity.
  - intros [v [Hv H]] H'. specialize (H' v Hv). lia.
Qed.

Lemma t_isSquareFree_iff : forall n a, t_isSquareFree n a = true <-> forall v, v < n -> a @ v <= 1.
Proof.
  intros. unfold t_isSquareFree. rewrite forallb_seq. split; intros H v Hv; specialize (H v Hv);
  destruct (Nat.leb_spec 2 (a @ v)); simpl in *; auto; try congruence; lia.
Qed.

Lemma find_from_spec : forall f k v,
  (find_from f v k < v + k /\ v <= find_from f v k /\ f (find_from f v k) = true /\
     forall w, v <= w < find_from f v k -> f w = false)
  \/ (find_from f v k = v + k /\ forall w, v <= w < v + k -> f w = false).
Proof.
  induction k as [|k IH]; intros v; simpl.
  - right. split; [lia|intros; lia].
  - destruct (f v) eqn:E.
    + left. repeat split; auto; try lia.
    + destruct (IH (S v)) as [[H1 [H2 [H3 H4]]]|[H1 H2]].
      * left. repeat split; auto; try lia. intros w Hw.
        destruct (Nat.eq_dec w v); [subst; auto|]. apply H4. lia.
      * right. split; [lia|]. intros w Hw.
        destruct (Nat.eq_dec w v); [subst; auto|]. apply H2. lia.
Qed.

Lemma t_firstNonZero_spec : forall n a,
  (t_firstNonZero n a < n /\ 0 < a @ (t_firstNonZero n a) /\
     forall w, w < t_firstNonZero n a -> a @ w = 0)
  \/ (t_firstNonZero n a = n /\ forall w, w < n -> a @ w = 0).
Proof.
  intros. unfold t_firstNonZero.
  destruct (find_from_spec (fun v => negb (a @ v =? 0)) n 0) as [[H1 [H2 [H3 H4]]]|[H1 H2]].
  - left. repeat split; auto.
    + destruct (Nat.eqb_spec (a @ (find_from (fun v => negb (a @ v =? 0)) 0 n)) 0); simpl in *; [congruence|lia].
    + intros w Hw. specialize (H4 w ltac:(lia)).
      destruct (Nat.eqb_spec (a @ w) 0); simpl in *; [auto|congruence].
  - right. split; [lia|]. intros w Hw. specialize (H2 w ltac:(lia)). simpl in H2.
    destruct (Nat.eqb_spec (a @ w) 0); simpl in *; [auto|congruence].
Qed.

Lemma t_colon_nth : forall n a b v, v < n -> (t_colon n a b) @ v = a @ v - b @ v.
Proof.
  intros. unfold t_colon. rewrite tabulate_nth by auto.
  destruct (Nat.ltb_spec (b @ v) (a @ v)); lia.
Qed.
Lemma t_colon_length : forall n a b, length (t_colon n a b) = n.
Proof. intros. apply tabulate_length. Qed.

Lemma t_decrement_nth : forall n a v, v < n -> (t_decrement n a) @ v = a @ v - 1.
Proof.
  intros. unfold t_decrement. rewrite tabulate_nth by auto.
  destruct (Nat.ltb_spec 0 (a @ v)); lia.
Qed.
Lemma t_decrement_length : forall n a, length (t_decrement n a) = n.
Proof. intros. apply tabulate_length. Qed.

Lemma t_set_nth : forall n a v e w, w < n -> (t_set n a v e) @ w = if w =? v then e else a @ w.
Proof. intros. unfold t_set. rewrite tabulate_nth by auto. reflexivity. Qed.
Lemma t_set_nth_eq : forall n a v e, v < n -> (t_set n a v e) @ v = e.
Proof. intros. rewrite t_set_nth by auto. rewrite Nat.eqb_refl. reflexivity. Qed.
Lemma t_set_nth_neq : forall n a v e w, w < n -> w <> v -> (t_set n a v e) @ w = a @ w.
Proof. intros. rewrite t_set_nth by auto. apply Nat.eqb_neq in H0. rewrite H0. reflexivity. Qed.
Lemma t_set_length : forall n a v e, length (t_set n a v e) = n.
Proof. intros. apply tabulate_length. Qed.

Lemma t_equals_iff : forall n a b, t_equals n a b = true <-> forall v, v < n -> a @ v = b @ v.
Proof.
  intros. unfold t_equals. rewrite forallb_seq. split; intros H v Hv; specialize (H v Hv);
  apply Nat.eqb_eq; auto.
Qed.
Lemma t_equals_eq : forall n a b, length a = n -> length b = n ->
  (t_equals n a b = true <-> a = b).
Proof.
  intros. rewrite t_equals_iff. split; intros.
  - apply term_ext with n; auto.
  - subst. reflexivity.
Qed.

Lemma t_hasSameSupport_iff : forall n a b,
  t_hasSameSupport n a b = true <-> forall v, v < n -> (a @ v = 0 <-> b @ v = 0).
Proof.
  intros. unfold t_hasSameSupport. rewrite forallb_seq. split; intros H v Hv; specialize (H v Hv);
  destruct (Nat.eqb_spec (a @ v) 0), (Nat.eqb_spec (b @ v) 0); simpl in *; try tauto; congruence.
Qed.

(** ** Size of support *)
Lemma t_sizeOfSupport_0 : forall n a, t_sizeOfSupport n a = 0 <-> forall v, v < n -> a @ v = 0.
Proof.
  intros. unfold t_sizeOfSupport. split.
  - intros H v Hv. apply length_zero_iff_nil in H.
    destruct (Nat.eq_dec (a @ v) 0); auto. exfalso.
    assert (In v (filter (fun v => negb (a @ v =? 0)) (seq 0 n))).
    { apply filter_In. split. apply in_seq; lia. apply Nat.eqb_neq in n0. rewrite n0. auto. }
    rewrite H in H0. destruct H0.
  - intros H. apply length_zero_iff_nil.
    destruct (filter (fun v => negb (a @ v =? 0)) (seq 0 n)) eqn:E; auto.
    assert (In n0 (n0 :: l)) by (left; auto). rewrite <- E in H0. apply filter_In in H0.
    destruct H0 as [H0 H1]. apply in_seq in H0. rewrite H in H1 by lia. simpl in H1. congruence.
Qed.

Lemma t_sizeOfSupport_le : forall n a, t_sizeOfSupport n a <= n.
Proof.
  intros. unfold t_sizeOfSupport. rewrite <- (seq_length n 0) at 2.
  generalize (seq 0 n). induction l; simpl; auto. destruct (negb _); simpl; lia.
Qed.

Lemma filter_length_le : forall {A} (f : A -> bool) l, length (filter f l) <= length l.
Proof. induction l; simpl; auto. destruct (f a); simpl; lia. Qed.

Lemma filter_length_all : forall {A} (f : A -> bool) l,
  length (filter f l) = length l <-> forall x, In x l -> f x = true.
Proof.
  induction l; simpl.
  - split; [intros _ x []|auto].
  - destruct (f a) eqn:E; simpl; split.
    + intros H x [->|Hx]; auto. apply IHl; auto.
    + intros H. f_equal. apply IHl. auto.
    + intros H. pose proof (filter_length_le f l). lia.
    + intros H. rewrite H in E by auto. congruence.
Qed.

Lemma t_sizeOfSupport_full : forall n a,
  t_sizeOfSupport n a < n <-> exists v, v < n /\ a @ v = 0.
Proof.
  intros. pose proof (t_sizeOfSupport_le n a) as Hle.
  split.
  - intros H. destruct (existsb (fun v => a @ v =? 0) (seq 0 n)) eqn:E.
    + apply existsb_seq in E. destruct E as [v [Hv E]]. exists v. split; auto. apply Nat.eqb_eq; auto.
    + exfalso. assert (t_sizeOfSupport n a = n); [|lia].
      unfold t_sizeOfSupport. rewrite <- (seq_length n 0) at 2. apply filter_length_all.
      intros v Hv. apply in_seq in Hv. destruct (Nat.eqb_spec (a @ v) 0); auto. exfalso.
      apply not_true_false in E. apply E. apply existsb_seq. exists v. split. lia.
      apply Nat.eqb_eq. auto.
  - intros [v [Hv H]]. destruct (Nat.eq_dec (t_sizeOfSupport n a) n); [|lia]. exfalso.
    unfold t_sizeOfSupport in e. rewrite <- (seq_length n 0) in e at 2.
    rewrite filter_length_all in e. specialize (e v). rewrite H in e. simpl in e.
    assert (In v (seq 0 n)) by (apply in_seq; lia). specialize (e H0). congruence.
Qed.

Lemma filter_length_1 : forall {A} (f : A -> bool) l, NoDup l ->
  (length (filter f l) = 1 <->
   exists x, In x l /\ f x = true /\ forall y, In y l -> f y = true -> y = x).
Proof.
  intros A f l Hnd. split.
  - intros H. destruct (filter f l) as [|x [|y l']] eqn:E; simpl in H; try lia.
    assert (Hx : In x (filter f l)) by (rewrite E; left; auto).
    apply filter_In in Hx. exists x. repeat split; try tauto.
    intros y Hy Hfy. assert (Hi : In y (filter f l)) by (apply filter_In; auto).
    rewrite E in Hi. destruct Hi as [->|[]]; auto.
  - intros [x [Hx [Hf Hu]]].
    assert (Hnf : NoDup (filter f l)) by (apply NoDup_filter; auto).
    destruct (filter f l) as [|a [|b l']] eqn:E; simpl; auto.
    + assert (In x (filter f l)) by (apply filter_In; auto). rewrite E in H. destruct H.
    + exfalso. assert (Ha : In a (filter f l)) by (rewrite E; simpl; auto).
      assert (Hb : In b (filter f l)) by (rewrite E; simpl; auto).
      apply filter_In in Ha. apply filter_In in Hb.
      assert (a = x) by (apply Hu; tauto). assert (b = x) by (apply Hu; tauto). subst.
      inversion Hnf; subst. apply H1. left; auto.
Qed.

Lemma t_sizeOfSupport_1 : forall n a,
  t_sizeOfSupport n a = 1 <->
  exists v, v < n /\ 0 < a @ v /\ forall w, w < n -> w <> v -> a @ w = 0.
Proof.
  intros. unfold t_sizeOfSupport. rewrite filter_length_1 by apply seq_NoDup. split.
  - intros [x [Hx [Hf Hu]]]. apply in_seq in Hx. exists x. repeat split; try lia.
    + destruct (Nat.eqb_spec (a @ x) 0); simpl in *; [congruence|lia].
    + intros w Hw Hne. destruct (Nat.eq_dec (a @ w) 0); auto. exfalso. apply Hne. apply Hu.
      * apply in_seq. lia.
      * apply Nat.eqb_neq in n0. rewrite n0. reflexivity.
  - intros [v [Hv [Hp Hz]]]. exists v. repeat split.
    + apply in_seq. lia.
    + destruct (Nat.eqb_spec (a @ v) 0); simpl; auto. lia.
    + intros y Hy Hf. apply in_seq in Hy. destruct (Nat.eq_dec y v); auto.
      rewrite Hz in Hf by lia. simpl in Hf. congruence.
Qed.

(** ** Lexicographic comparison *)
Lemma lex_from_refl : forall k a v, lex_from a a v k = Eq.
Proof. induction k; intros; simpl; auto. rewrite Nat.eqb_refl. auto. Qed.

Lemma lex_from_eq : forall k a b v,
  lex_from a b v k = Eq <-> forall w, v <= w < v + k -> a @ w = b @ w.
Proof.
  induction k; intros a b v; simpl.
  - split; auto. intros _ w Hw. lia.
  - destruct (Nat.eqb_spec (a @ v) (b @ v)).
    + rewrite IHk. split; intros H w Hw.
      * destruct (Nat.eq_dec w v); [subst; auto|apply H; lia].
      * apply H. lia.
    + split.
      * destruct (a @ v <? b @ v); congruence.
      * intros H. exfalso. apply n. apply H. lia.
Qed.

Lemma lex_from_antisym : forall k a b v, lex_from b a v k = CompOpp (lex_from a b v k).
Proof.
  induction k; intros a b v; simpl; auto.
  rewrite (Nat.eqb_sym (b @ v) (a @ v)).
  destruct (Nat.eqb_spec (a @ v) (b @ v)); auto.
  destruct (Nat.ltb_spec (a @ v) (b @ v)), (Nat.ltb_spec (b @ v) (a @ v)); simpl; auto; lia.
Qed.

Lemma lex_from_lt_trans : forall k a b c v,
  lex_from a b v k <> Gt -> lex_from b c v k <> Gt -> lex_from a c v k <> Gt.
Proof.
  induction k; intros a b c v; simpl; auto.
  destruct (Nat.eqb_spec (a @ v) (b @ v)), (Nat.eqb_spec (b @ v) (c @ v)),
    (Nat.eqb_spec (a @ v) (c @ v)); try lia; eauto;
  destruct (Nat.ltb_spec (a @ v) (b @ v)), (Nat.ltb_spec (b @ v) (c @ v)),
    (Nat.ltb_spec (a @ v) (c @ v)); try lia; try congruence.
Qed.

Lemma lex_from_div : forall k a b v,
  (forall w, v <= w < v + k -> a @ w <= b @ w) -> lex_from a b v k <> Gt.
Proof.
  induction k; intros a b v H; simpl; [congruence|].
  destruct (Nat.eqb_spec (a @ v) (b @ v)).
  - apply IHk. intros w Hw. apply H. lia.
  - destruct (Nat.ltb_spec (a @ v) (b @ v)); [congruence|].
    specialize (H v ltac:(lia)). lia.
Qed.

Lemma t_lexLess_false : forall n a b,
  t_lexLess n a b = false <-> t_lexCompare n b a <> Gt.
Proof.
  intros. unfold t_lexLess, t_lexCompare. rewrite (lex_from_antisym n a b 0).
  destruct (lex_from a b 0 n); simpl; split; congruence.
Qed.

(** ** Sorting *)
Section Sort.
  Context {A : Type} (lt : A -> A -> bool).

  Lemma sort_insert_perm : forall x l, Permutation (sort_insert lt x l) (x :: l).
  Proof.
    induction l as [|y l IH]; simpl; auto.
    destruct (lt y x); auto. rewrite IH. apply perm_swap.
  Qed.
  Lemma std_sort_perm : forall l, Permutation (std_sort lt l) l.
  Proof.
    induction l as [|x l IH]; simpl; auto. rewrite sort_insert_perm. auto.
  Qed.
  Lemma std_sort_in : forall l x, In x (std_sort lt l) <-> In x l.
  Proof.
    intros. split; apply Permutation_in; [|apply Permutation_sym]; apply std_sort_perm.
  Qed.
  Lemma std_sort_length : forall l, length (std_sort lt l) = length l.
  Proof. intros. apply Permutation_length, std_sort_perm. Qed.

  (** "x may stand before y": not (y < x) *)
  Definition before (x y : A) : Prop := lt y x = false.

  Hypothesis lt_asym : forall x y, lt x y = true -> lt y x = false.
  Hypothesis before_trans : forall x y z, before x y -> before y z -> before x z.

  Lemma sort_insert_sorted : forall x l,
    StronglySorted before l -> StronglySorted before (sort_insert lt x l).
  Proof.
    induction l as [|y l IH]; intros H; simpl.
    - constructor; constructor.
    - inversion H; subst. destruct (lt y x) eqn:E.
      + constructor; auto. rewrite Forall_forall. intros z Hz.
        apply (Permutation_in _ (sort_insert_perm x l)) in Hz.
        destruct Hz as [<-|Hz].
        * unfold before. apply lt_asym. auto.
        * rewrite Forall_forall in H3. auto.
      + constructor; auto. constructor; auto.
        rewrite Forall_forall in *. intros z Hz. apply before_trans with y; auto.
  Qed.
  Lemma std_sort_sorted : forall l, StronglySorted before (std_sort lt l).
  Proof.
    induction l; simpl; [constructor|apply sort_insert_sorted; auto].
  Qed.
End Sort.

Lemma std_sort_lex_sorted : forall n l,
  StronglySorted (before (t_lexLess n)) (std_sort (t_lexLess n) l).
Proof.
  intros. apply std_sort_sorted.
  - intros x y H. unfold t_lexLess, t_lexCompare in *. rewrite lex_from_antisym.
    destruct (lex_from x y 0 n); simpl; congruence.
  - unfold before. intros x y z H1 H2. rewrite t_lexLess_false in *.
    unfold t_lexCompare in *. eapply lex_from_lt_trans; eauto.
Qed.

Lemma std_sort_revlex_sorted : forall n l,
  StronglySorted (before (t_revLexLess n)) (std_sort (t_revLexLess n) l).
Proof.
  intros. apply std_sort_sorted.
  - intros x y H. unfold t_revLexLess, t_lexCompare in *. rewrite lex_from_antisym.
    destruct (lex_from x y 0 n); simpl; congruence.
  - unfold before. intros x y z H1 H2.
    assert (R : forall a b, t_revLexLess n a b = false <-> t_lexCompare n a b <> Gt).
    { intros. unfold t_revLexLess. destruct (t_lexCompare n a b); split; congruence. }
    rewrite R in *. unfold t_lexCompare in *. eapply lex_from_lt_trans; eauto.
Qed.

Lemma std_sort_revdeg_sorted : forall var l,
  StronglySorted (fun a b => b @ var <= a @ var) (std_sort (t_revSingleDegreeLess var) l).
Proof.
  intros. assert (H : StronglySorted (before (t_revSingleDegreeLess var)) (std_sort (t_revSingleDegreeLess var) l)).
  { apply std_sort_sorted; unfold before, t_revSingleDegreeLess; intros.
    - apply Nat.ltb_lt in H. apply Nat.ltb_ge. lia.
    - apply Nat.ltb_ge in H, H0. apply Nat.ltb_ge. lia. }
  revert H. generalize (std_sort (t_revSingleDegreeLess var) l). intros k H.
  induction H; constructor; auto.
  eapply Forall_impl; [|exact H0]. unfold before, t_revSingleDegreeLess. intros b Hb.
  apply Nat.ltb_ge in Hb. lia.
Qed.

Lemma std_sort_deg_sorted : forall var l,
  StronglySorted (fun a b => a @ var <= b @ var) (std_sort (t_singleDegreeLess var) l).
Proof.
  intros. assert (H : StronglySorted (before (t_singleDegreeLess var)) (std_sort (t_singleDegreeLess var) l)).
  { apply std_sort_sorted; unfold before, t_singleDegreeLess; intros.
    - apply Nat.ltb_lt in H. apply Nat.ltb_ge. lia.
    - apply Nat.ltb_ge in H, H0. apply Nat.ltb_ge. lia. }
  revert H. generalize (std_sort (t_singleDegreeLess var) l). intros k H.
  induction H; constructor; auto.
  eapply Forall_impl; [|exact H0]. unfold before, t_singleDegreeLess. intros b Hb.
  apply Nat.ltb_ge in Hb. lia.
Qed.
