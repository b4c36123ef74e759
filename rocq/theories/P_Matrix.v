(** Sums, spans and row operations. *)
From Coq Require Import List Arith Bool ZArith QArith Qcanon Lia.
Import ListNotations.
From Verif Require Import M_IO M_Matrix Spec_Matrix.
Local Open Scope nat_scope.
Local Notation "0q" := (0%Qc). Local Notation "1q" := (1%Qc).

(** ** Sums *)
Lemma sum_ext : forall n f g, (forall i, i < n -> f i = g i) -> sum n f = sum n g.
Proof. induction n; intros f g H; cbn; [reflexivity|]. rewrite (IHn f g), (H n); auto. Qed.
Lemma sum_zero : forall n f, (forall i, i < n -> f i = 0q) -> sum n f = 0q.
Proof. induction n; intros f H; cbn; [reflexivity|]. rewrite IHn, (H n); auto; ring. Qed.
Lemma sum_add : forall n f g, (sum n f + sum n g)%Qc = sum n (fun i => (f i + g i)%Qc).
Proof. induction n; intros f g; cbn; [ring|]. rewrite <- IHn. ring. Qed.
Lemma sum_scale : forall n q f, (q * sum n f)%Qc = sum n (fun i => (q * f i)%Qc).
Proof. induction n; intros q f; cbn; [ring|]. rewrite <- IHn. ring. Qed.
Lemma sum_scale_r : forall n q f, (sum n f * q)%Qc = sum n (fun i => (f i * q)%Qc).
Proof. induction n; intros q f; cbn; [ring|]. rewrite <- IHn. ring. Qed.
Lemma sum_swap : forall n m (f : nat -> nat -> Qc), sum n (fun i => sum m (fun j => f i j)) = sum m (fun j => sum n (fun i => f i j)).
Proof.
  induction n; intros m f; cbn.
  - symmetry. apply sum_zero. auto.
  - rewrite IHn, sum_add. reflexivity.
Qed.
Lemma sum_delta : forall n i f, i < n -> (forall j, j < n -> j <> i -> f j = 0q) -> sum n f = f i.
Proof.
  induction n; intros i f L H; [lia|]. cbn. destruct (Nat.eq_dec i n) as [->|N].
  - rewrite sum_zero; [ring|]. intros j Hj. apply H; lia.
  - rewrite (IHn i f); [|lia|intros; apply H; lia]. rewrite (H n); [ring|lia|lia].
Qed.
Lemma sum_app : forall n m f, sum (n + m) f = (sum n f + sum m (fun i => f (n + i)%nat))%Qc.
Proof.
  intros n m f. induction m; cbn; [rewrite Nat.add_0_r; ring|]. rewrite Nat.add_succ_r. cbn. rewrite IHm. ring.
Qed.
Lemma sum_first : forall n f, sum (S n) f = (f 0%nat + sum n (fun i => f (S i)))%Qc.
Proof. intros n f. change (S n) with (1 + n). rewrite sum_app. cbn. ring. Qed.
Lemma sum_fold : forall n f, fold_left (fun s i => (s + f i)%Qc) (seq 0 n) 0q = sum n f.
Proof.
  induction n; intros f; [reflexivity|]. rewrite seq_S, fold_left_app. cbn. rewrite IHn. reflexivity.
Qed.
Lemma prod_fold : forall n f q, fold_left (fun s i => (s * f i)%Qc) (seq 0 n) q = (q * prod n f)%Qc.
Proof.
  induction n; intros f q; [cbn; ring|]. rewrite seq_S, fold_left_app. cbn. rewrite IHn. ring.
Qed.

(** ** Spans *)
Lemma span_row : forall k v n i, i < k -> in_span k v n (v i).
Proof.
  intros k v n i L. exists (fun j => if j =? i then 1q else 0q). intros c Hc.
  rewrite (sum_delta k i); [rewrite Nat.eqb_refl; ring|auto|]. intros j _ N. apply Nat.eqb_neq in N. rewrite N. ring.
Qed.
Lemma span_add : forall k v n a b, in_span k v n a -> in_span k v n b -> in_span k v n (fun c => (a c + b c)%Qc).
Proof.
  intros k v n a b (x & X) (y & Y). exists (fun i => (x i + y i)%Qc). intros c L. rewrite (X c L), (Y c L), sum_add.
  apply sum_ext. intros; ring.
Qed.
Lemma span_scale : forall k v n q a, in_span k v n a -> in_span k v n (fun c => (a c * q)%Qc).
Proof.
  intros k v n q a (x & X). exists (fun i => (x i * q)%Qc). intros c L. rewrite (X c L), sum_scale_r. apply sum_ext. intros; ring.
Qed.
Lemma span_ext : forall k v n a b, (forall c, c < n -> a c = b c) -> in_span k v n a -> in_span k v n b.
Proof. intros k v n a b E (x & X). exists x. intros c L. rewrite <- (E c L). auto. Qed.
Lemma span_zero : forall k v n, in_span k v n (fun _ => 0q).
Proof. intros k v n. exists (fun _ => 0q). intros. rewrite sum_zero; [reflexivity|]. intros; ring. Qed.
Lemma span_sum : forall k v n l (u : nat -> vector) (x : vector), (forall i, i < l -> in_span k v n (u i)) ->
  in_span k v n (fun c => sum l (fun i => (x i * u i c)%Qc)).
Proof.
  intros k v n l u x. induction l; intros H; cbn; [apply span_zero|].
  apply (span_add k v n (fun c => sum l (fun i => (x i * u i c)%Qc)) (fun c => (x l * u l c)%Qc)); [apply IHl; auto|].
  apply (span_ext k v n (fun c => (u l c * x l)%Qc)); [intros; ring|]. apply span_scale. auto.
Qed.
Lemma span_incl : forall k v l u n, (forall i, i < l -> in_span k v n (u i)) -> forall w, in_span l u n w -> in_span k v n w.
Proof.
  intros k v l u n H w (x & X). apply (span_ext k v n (fun c => sum l (fun i => (x i * u i c)%Qc))); [intros c L; symmetry; auto|].
  apply span_sum. auto.
Qed.

(** ** Matrices *)
Lemma get_build : forall R C f r c, r < R -> c < C -> get (build R C f) r c = f r c.
Proof.
  intros R C f r c Hr Hc. unfold get, build. cbn [entries].
  rewrite (nth_indep _ [] (map (f 0) (seq 0 C))) by (rewrite map_length, seq_length; auto).
  rewrite (map_nth (fun row => map (f row) (seq 0 C)) (seq 0 R) 0 r), seq_nth by auto. cbn [Nat.add].
  rewrite (nth_indep _ 0q (f r 0)) by (rewrite map_length, seq_length; auto). rewrite map_nth, seq_nth by auto. reflexivity.
Qed.
Lemma well_build : forall R C f, well_formed (build R C f).
Proof.
  intros R C f. split; cbn; [rewrite map_length, seq_length; auto|]. intros row H. apply in_map_iff in H. destruct H as (r & <- & _).
  rewrite map_length, seq_length. reflexivity.
Qed.
Lemma is_zero_iff : forall q, is_zero q = true <-> q = 0q.
Proof. intros q. unfold is_zero, Qc_eq_bool. destruct (Qc_eq_dec q 0q); split; intros; auto; try discriminate; contradiction. Qed.
Lemma is_zero_false : forall q, is_zero q = false <-> q <> 0q.
Proof. intros q. rewrite <- is_zero_iff. destruct (is_zero q); split; intros; auto; try discriminate; congruence. Qed.

(** ** Two matrices of the same size with the same row space *)
Definition equiv (a b : matrix) : Prop :=
  rowCount a = rowCount b /\ colCount a = colCount b /\ forall w, in_row_space a w <-> in_row_space b w.
Lemma equiv_refl : forall a, equiv a a.
Proof. intros a. split; [auto|split; [auto|]]. tauto. Qed.
Lemma equiv_trans : forall a b c, equiv a b -> equiv b c -> equiv a c.
Proof. intros a b c (R & C & E) (R' & C' & E'). split; [congruence|split; [congruence|]]. intros w. rewrite E. apply E'. Qed.
Lemma equiv_intro : forall a b, rowCount a = rowCount b -> colCount a = colCount b ->
  (forall r, r < rowCount a -> in_row_space b (get a r)) -> (forall r, r < rowCount b -> in_row_space a (get b r)) -> equiv a b.
Proof.
  intros a b R C A B. split; [auto|split; [auto|]]. intros w. unfold in_row_space in *. split; intros H.
  - rewrite <- C. apply (span_incl _ (fun r c => get b r c) (rowCount a) (fun r c => get a r c)); [|auto]. intros i Hi. rewrite C. apply A. auto.
  - rewrite C. apply (span_incl _ (fun r c => get a r c) (rowCount b) (fun r c => get b r c)); [|auto]. intros i Hi. rewrite <- C. apply B. auto.
Qed.
Lemma row_in : forall m r, r < rowCount m -> in_row_space m (get m r).
Proof. intros m r H. apply (span_row (rowCount m) (fun r c => get m r c) (colCount m) r H). Qed.

Lemma get_addMultiply : forall m i j q r c, r < rowCount m -> c < colCount m ->
  get (addMultiplyRow m i j q) r c = if r =? i then (get m i c + get m j c * q)%Qc else get m r c.
Proof. intros. unfold addMultiplyRow. rewrite get_build; auto. Qed.
Lemma get_multiply : forall m i q r c, r < rowCount m -> c < colCount m ->
  get (multiplyRow m i q) r c = if r =? i then (get m i c * q)%Qc else get m r c.
Proof. intros. unfold multiplyRow. rewrite get_build; auto. Qed.
Lemma get_swap : forall m i j r c, r < rowCount m -> c < colCount m ->
  get (swapRows m i j) r c = if r =? i then get m j c else if r =? j then get m i c else get m r c.
Proof. intros. unfold swapRows. rewrite get_build; auto. Qed.

Lemma add_equiv : forall m i j q, i < rowCount m -> j < rowCount m -> i <> j -> equiv m (addMultiplyRow m i j q).
Proof.
  intros m i j q Hi Hj N. set (m' := addMultiplyRow m i j q).
  assert (R : rowCount m' = rowCount m) by reflexivity. assert (C : colCount m' = colCount m) by reflexivity.
  assert (G : forall r c, r < rowCount m -> c < colCount m -> get m' r c = if r =? i then (get m i c + get m j c * q)%Qc else get m r c)
    by (intros; apply get_addMultiply; auto).
  apply equiv_intro; auto; intros r Hr.
  - unfold in_row_space. destruct (Nat.eq_dec r i) as [->|NE].
    + apply (span_ext _ _ _ (fun c => (get m' i c + get m' j c * - q)%Qc)).
      * intros c Hc. rewrite C in Hc. rewrite (G i c), (G j c) by auto. rewrite Nat.eqb_refl.
        replace (j =? i) with false by (symmetry; apply Nat.eqb_neq; auto). ring.
      * apply span_add; [apply (row_in m' i); lia|]. apply span_scale. apply (row_in m' j). lia.
    + apply (span_ext _ _ _ (get m' r)).
      * intros c Hc. rewrite (G r c) by auto. apply Nat.eqb_neq in NE. rewrite NE. reflexivity.
      * apply (row_in m' r). lia.
  - rewrite R in Hr. unfold in_row_space. destruct (Nat.eq_dec r i) as [->|NE].
    + apply (span_ext _ _ _ (fun c => (get m i c + get m j c * q)%Qc)).
      * intros c Hc. rewrite (G i c), Nat.eqb_refl by auto. reflexivity.
      * apply span_add; [apply (row_in m i); lia|]. apply span_scale. apply (row_in m j). lia.
    + apply (span_ext _ _ _ (get m r)).
      * intros c Hc. rewrite (G r c) by auto. apply Nat.eqb_neq in NE. rewrite NE. reflexivity.
      * apply (row_in m r). lia.
Qed.
Lemma multiply_equiv : forall m i q, i < rowCount m -> q <> 0q -> equiv m (multiplyRow m i q).
Proof.
  intros m i q Hi NZ. set (m' := multiplyRow m i q).
  assert (R : rowCount m' = rowCount m) by reflexivity. assert (C : colCount m' = colCount m) by reflexivity.
  assert (G : forall r c, r < rowCount m -> c < colCount m -> get m' r c = if r =? i then (get m i c * q)%Qc else get m r c)
    by (intros; apply get_multiply; auto).
  apply equiv_intro; auto; intros r Hr.
  - unfold in_row_space. destruct (Nat.eq_dec r i) as [->|NE].
    + apply (span_ext _ _ _ (fun c => (get m' i c * / q)%Qc)).
      * intros c Hc. rewrite C in Hc. rewrite (G i c) by auto. rewrite Nat.eqb_refl. field. auto.
      * apply span_scale. apply (row_in m' i). lia.
    + apply (span_ext _ _ _ (get m' r)).
      * intros c Hc. rewrite (G r c) by auto. apply Nat.eqb_neq in NE. rewrite NE. reflexivity.
      * apply (row_in m' r). lia.
  - rewrite R in Hr. unfold in_row_space. destruct (Nat.eq_dec r i) as [->|NE].
    + apply (span_ext _ _ _ (fun c => (get m i c * q)%Qc)).
      * intros c Hc. rewrite (G i c), Nat.eqb_refl by auto. reflexivity.
      * apply span_scale. apply (row_in m i). lia.
    + apply (span_ext _ _ _ (get m r)).
      * intros c Hc. rewrite (G r c) by auto. apply Nat.eqb_neq in NE. rewrite NE. reflexivity.
      * apply (row_in m r). lia.
Qed.
Lemma swap_equiv : forall m i j, i < rowCount m -> j < rowCount m -> equiv m (swapRows m i j).
Proof.
  intros m i j Hi Hj. set (m' := swapRows m i j).
  assert (R : rowCount m' = rowCount m) by reflexivity. assert (C : colCount m' = colCount m) by reflexivity.
  assert (G : forall r c, r < rowCount m -> c < colCount m -> get m' r c = if r =? i then get m j c else if r =? j then get m i c else get m r c)
    by (intros; apply get_swap; auto).
  apply equiv_intro; auto; intros r Hr.
  - set (s := if r =? i then j else if r =? j then i else r).
    assert (Hs : s < rowCount m) by (unfold s; destruct (r =? i); auto; destruct (r =? j); auto).
    apply (span_ext _ _ _ (get m' s)); [|apply (row_in m' s); lia]. intros c Hc. rewrite (G s c) by auto. unfold s.
    destruct (Nat.eqb_spec r i) as [->|NI].
    + destruct (Nat.eqb_spec j i) as [->|NJ]; auto. rewrite Nat.eqb_refl. reflexivity.
    + destruct (Nat.eqb_spec r j) as [->|NJ].
      * rewrite Nat.eqb_refl. reflexivity.
      * apply Nat.eqb_neq in NI, NJ. rewrite NI, NJ. reflexivity.
  - rewrite R in Hr. set (s := if r =? i then j else if r =? j then i else r).
    assert (Hs : s < rowCount m) by (unfold s; destruct (r =? i); auto; destruct (r =? j); auto).
    apply (span_ext _ _ _ (get m s)); [|apply (row_in m s); lia]. intros c Hc. rewrite (G r c) by auto. unfold s.
    destruct (r =? i); auto. destruct (r =? j); auto.
Qed.

(** The rows are the same combinations, so the kernel is the same *)
Lemma kernel_row : forall m w u, in_kernel m w -> in_row_space m u -> sum (colCount m) (fun c => (u c * w c)%Qc) = 0q.
Proof.
  intros m w u K (x & X).
  rewrite (sum_ext _ _ (fun c => sum (rowCount m) (fun r => (x r * (get m r c * w c))%Qc))).
  - rewrite sum_swap. apply sum_zero. intros r Hr. rewrite <- sum_scale, (K r Hr). ring.
  - intros c Hc. rewrite (X c Hc), sum_scale_r. apply sum_ext. intros; ring.
Qed.
Lemma equiv_kernel : forall a b w, equiv a b -> in_kernel a w <-> in_kernel b w.
Proof.
  intros a b w (R & C & E). split; intros K r Hr.
  - rewrite <- C. apply (kernel_row a w (get b r) K). apply E. apply row_in. auto.
  - rewrite C. apply (kernel_row b w (get a r) K). apply E. apply row_in. auto.
Qed.
