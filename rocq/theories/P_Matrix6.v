(** The basis of the null space. *)
From Coq Require Import List Arith Bool ZArith QArith Qcanon Lia.
Import ListNotations.
From Verif Require Import M_IO M_Matrix Spec_Matrix P_Matrix P_Matrix2 P_Matrix3 P_Matrix4 P_Matrix5.
Local Open Scope nat_scope.
Local Notation "0q" := (0%Qc). Local Notation "1q" := (1%Qc).

Lemma make_integral_ok : forall columns, (forall l, In l columns -> exists q, In q l /\ q <> 0q) ->
  exists out, make_integral columns = Ok out /\ length out = length columns /\
    forall j, j < length columns -> exists s, s <> 0q /\ nth j out [] = map (fun q => (q * s)%Qc) (nth j columns []) /\ primitive_list (nth j out []).
Proof.
  induction columns as [|l columns IH]; intros H; [exists []; split; [auto|split; [auto|intros j Hj; cbn in Hj; lia]]|].
  destruct (make_primitive l (H l (or_introl eq_refl))) as (s & S & E & P). destruct IH as (out & Eo & Ln & Ho); [intros; apply H; right; auto|].
  cbn [make_integral]. rewrite E. cbn [rbind]. rewrite Eo. cbn [rbind]. eexists. split; [reflexivity|]. split; [cbn; auto|].
  intros [|j] Hj; cbn [nth]; [exists s; auto|]. apply Ho. cbn in Hj. lia.
Qed.
Lemma kernel_scale : forall m q w, in_kernel m w -> in_kernel m (fun c => (w c * q)%Qc).
Proof.
  intros m q w K r Hr. rewrite (sum_ext _ _ (fun c => (get m r c * w c * q)%Qc)) by (intros; ring). rewrite <- sum_scale_r, (K r Hr). ring.
Qed.
Lemma kernel_add : forall m u w, in_kernel m u -> in_kernel m w -> in_kernel m (fun c => (u c + w c)%Qc).
Proof.
  intros m u w U W r Hr. rewrite (sum_ext _ _ (fun c => (get m r c * u c + get m r c * w c)%Qc)) by (intros; ring).
  rewrite <- sum_add, (U r Hr), (W r Hr). ring.
Qed.
Lemma kernel_zero : forall m, in_kernel m (fun _ => 0q).
Proof. intros m r Hr. apply sum_zero. intros; ring. Qed.
Lemma kernel_sum : forall m n (u : nat -> vector) (x : vector), (forall j, j < n -> in_kernel m (u j)) -> in_kernel m (fun c => sum n (fun j => (x j * u j c)%Qc)).
Proof.
  intros m n u x. induction n; intros H; cbn [sum]; [apply kernel_zero|].
  apply (kernel_add m (fun c => sum n (fun j => (x j * u j c)%Qc)) (fun c => (x n * u n c)%Qc)); [apply IHn; auto|].
  pose proof (kernel_scale m (x n) (u n) (H n ltac:(lia))) as K. intros r Hr. rewrite <- (K r Hr). apply sum_ext. intros; ring.
Qed.
Lemma kernel_ext : forall m u w, (forall c, c < colCount m -> u c = w c) -> in_kernel m u -> in_kernel m w.
Proof. intros m u w E K r Hr. rewrite <- (K r Hr). apply sum_ext. intros c Hc. rewrite (E c Hc). reflexivity. Qed.

Lemma nullSpace_ok : forall m, exists b k, nullSpace m = Ok b /\ matrixRank m = Ok k /\ well_formed b /\
  rowCount b = colCount m /\ colCount b + k = colCount m /\
  (forall j, j < colCount b -> primitive (colCount m) (fun c => get b c j)) /\
  independent (colCount b) (fun j c => get b c j) (colCount m) /\
  (forall w, in_kernel m w <-> in_col_space b w).
Proof.
  intros m. unfold nullSpace, matrixRank. destruct (rowReduceFully_ok m) as (S & k & p & -> & Q & Rd). cbn [rbind]. pose proof (proj1 Rd) as E.
  destruct (pivots_found S k p E) as (fl & -> & Fl). cbn [rbind]. pose proof Q as (RS & CS & _). pose proof E as (Hk & E1 & E2 & E3).
  set (fr := filter (fun col => negb (fl col)) (seq 0 (colCount S))).
  assert (Lfr : length fr = colCount S - k) by (apply (free_count S k p); auto).
  assert (Ifr : forall f, In f fr <-> f < colCount S /\ forall i, i < k -> p i <> f).
  { intros f. unfold fr. rewrite filter_In, in_seq, negb_true_iff. split; intros (A & B); (split; [lia|]).
    - intros i Hi e. assert (T : fl f = true) by (apply Fl; exists i; auto). congruence.
    - destruct (fl f) eqn:X; auto. apply Fl in X. destruct X as (i & Hi & e). destruct (B i Hi e). }
  assert (NDfr : NoDup fr) by (apply NoDup_filter, seq_NoDup).
  assert (kC : k <= colCount S).
  { destruct (Nat.eq_dec k 0) as [->|]; [lia|]. pose proof (pivot_increasing S k p 0 (k - 1) E ltac:(lia) ltac:(lia)). destruct (E1 (k - 1) ltac:(lia)). lia. }
  set (cols := map _ fr).
  assert (Cn : forall j, j < length fr -> nth j cols [] = map (nullv S k p (nth j fr 0)) (seq 0 (colCount S))).
  { intros j Hj. unfold cols. rewrite (nth_indep _ [] (null_column S fl 0 (seq 0 (colCount S)) 0)) by (rewrite map_length; auto).
    rewrite (map_nth (fun col => null_column S fl col (seq 0 (colCount S)) 0)). 
    destruct (proj1 (Ifr (nth j fr 0)) (nth_In _ _ Hj)) as (A & B). apply (null_column_ok S k p fl _ _ 0 0 Rd Fl B); [lia|intros; lia|intros; lia]. }
  destruct (make_integral_ok cols) as (out & -> & Lo & Ho).
  { intros l Hl. apply In_nth with (d := []) in Hl. destruct Hl as (j & Hj & <-). unfold cols in Hj. rewrite map_length in Hj. rewrite Cn by auto.
    destruct (proj1 (Ifr (nth j fr 0)) (nth_In _ _ Hj)) as (A & B). exists 1q. split; [|discriminate].
    replace 1q with (nullv S k p (nth j fr 0) (nth j fr 0)); [apply in_map, in_seq; lia|]. rewrite nullv_free, Nat.eqb_refl; auto. }
  cbn [rbind]. unfold cols in Lo, Ho. rewrite map_length in Lo, Ho. fold cols in Ho.
  set (b := build _ _ _). exists b, k. split; [auto|split; [auto|]].
  assert (Rb : rowCount b = colCount m) by (cbn; congruence). assert (Cb : colCount b = length fr) by (cbn; lia).
  assert (F : forall j, j < length fr -> nth j fr 0 < colCount S /\ forall i, i < k -> p i <> nth j fr 0).
  { intros j Hj. apply Ifr, nth_In. auto. }
  assert (G : forall j, j < length fr -> exists s, s <> 0q /\ (forall c, c < colCount S -> get b c j = (nullv S k p (nth j fr 0%nat) c * s)%Qc) /\
            primitive_list (nth j out [])).
  { intros j Hj. destruct (Ho j Hj) as (s & Hs & Es & Ps). exists s. split; [auto|split; [|auto]]. intros c Hc. unfold b.
    rewrite get_build by lia. rewrite Es, Cn, map_map by auto.
    rewrite (nth_indep _ 0q ((fun x => (nullv S k p (nth j fr 0%nat) x * s)%Qc) 0)) by (rewrite map_length, seq_length; auto).
    rewrite (map_nth (fun x => (nullv S k p (nth j fr 0%nat) x * s)%Qc)), seq_nth by auto. reflexivity. }
  assert (GO : forall j c, j < length fr -> c < colCount S -> get b c j = nth c (nth j out []) 0q).
  { intros j c Hj Hc. unfold b. rewrite get_build by lia. reflexivity. }
  assert (LO : forall j, j < length fr -> length (nth j out []) = colCount S).
  { intros j Hj. destruct (Ho j Hj) as (s & _ & -> & _). rewrite map_length, Cn, map_length, seq_length by auto. reflexivity. }
  assert (Dl : forall j i, j < length fr -> i < length fr -> nullv S k p (nth j fr 0) (nth i fr 0) = if i =? j then 1q else 0q).
  { intros j i Hj Hi. rewrite nullv_free by (apply F; auto). destruct (Nat.eqb_spec i j) as [->|NE]; [rewrite Nat.eqb_refl; auto|].
    replace (nth i fr 0 =? nth j fr 0) with false; [auto|]. symmetry. apply Nat.eqb_neq. intros e. apply NE. apply (proj1 (NoDup_nth fr 0) NDfr); auto. }
  assert (KB : forall j, j < length fr -> in_kernel S (fun c => get b c j)).
  { intros j Hj. destruct (G j Hj) as (s & _ & Es & _). destruct (F j Hj) as (A & B).
    apply (kernel_ext S (fun c => (nullv S k p (nth j fr 0%nat) c * s)%Qc)); [intros; symmetry; auto|]. apply kernel_scale. apply nullv_kernel; auto. }
  split; [apply well_build|]. split; [auto|]. split; [lia|]. split; [|split].
  - intros j Hj. rewrite Cb in Hj. destruct (G j Hj) as (s & _ & _ & (P1 & P2)). rewrite CS. split.
    + intros r Hr. rewrite GO by auto. apply P1. apply nth_In. rewrite LO; auto.
    + intros d Hd. apply P2. intros q Hq. apply In_nth with (d := 0q) in Hq. destruct Hq as (c & Hc & <-). rewrite LO in Hc by auto.
      rewrite <- GO by auto. apply Hd. auto.
  - rewrite Cb. intros x H i Hi. destruct (F i Hi) as (A & B). specialize (H (nth i fr 0) ltac:(lia)). rewrite (sum_delta _ i) in H; auto.
    + destruct (G i Hi) as (s & Hs & Es & _). rewrite Es, Dl, Nat.eqb_refl in H by auto. apply Qcmult_integral in H. destruct H as [H|H]; auto.
      destruct Hs. rewrite <- H. ring.
    + intros j Hj NE. destruct (G j Hj) as (s & Hs & Es & _). rewrite Es, Dl by auto. replace (i =? j) with false by (symmetry; apply Nat.eqb_neq; auto). ring.
  - intros w. unfold in_col_space, in_span. rewrite Rb, Cb. split.
    + intros K. apply (equiv_kernel _ _ _ Q) in K.
      set (x := fun j => (w (nth j fr 0%nat) / get b (nth j fr 0%nat) j)%Qc). exists x.
      set (v := fun c => sum (length fr) (fun j => (x j * get b c j)%Qc)).
      assert (Kv : in_kernel S (fun c => (w c + v c * - (1))%Qc)).
      { apply kernel_add; [auto|]. apply (kernel_scale S (- (1))%Qc v). unfold v. apply (kernel_sum S (length fr) (fun j c => get b c j) x KB). }
      assert (Z : forall c, c < colCount S -> (w c + v c * - (1))%Qc = 0q).
      { assert (Zf : forall c, c < colCount S -> (forall i, i < k -> p i <> c) -> (w c + v c * - (1))%Qc = 0q).
        { intros c Hc NP. assert (I : In c fr) by (apply Ifr; auto). apply In_nth with (d := 0) in I. destruct I as (i & Hi & <-).
          unfold v. rewrite (sum_delta _ i); auto.
          - unfold x. destruct (G i Hi) as (s & Hs & Es & _). rewrite !Es, !Dl, !Nat.eqb_refl by (auto; apply F; auto). field. intros e. apply Hs. rewrite <- e. ring.
          - intros j Hj NE. destruct (G j Hj) as (s & Hs & Es & _). rewrite Es, Dl by auto. replace (i =? j) with false by (symmetry; apply Nat.eqb_neq; auto). ring. }
        intros c Hc. destruct (pivot_dec k p c) as [(i & Hi & <-)|NP]; [|apply Zf; auto].
        specialize (Kv i ltac:(lia)). rewrite (sum_delta _ (p i)) in Kv; auto.
        - destruct Rd as (_ & N). rewrite (N i i Hi Hi), Nat.eqb_refl in Kv. rewrite <- Kv. ring.
        - intros c Hc' NE. destruct (pivot_dec k p c) as [(j & Hj & <-)|NP].
          + destruct Rd as (_ & N). rewrite (N j i Hj Hi). destruct (Nat.eqb_spec i j) as [->|]; [destruct NE; reflexivity|ring].
          + rewrite (Zf c Hc' NP). ring. }
      intros c Hc. specialize (Z c ltac:(lia)). change (w c = v c). replace (w c) with (w c + v c * - (1) + v c)%Qc by ring. rewrite Z. ring.
    + intros (x & X). apply (equiv_kernel _ _ _ Q). apply (kernel_ext S (fun c => sum (length fr) (fun j => (x j * get b c j)%Qc))); [intros c Hc; symmetry; apply X; lia|].
      apply (kernel_sum S (length fr) (fun j c => get b c j) x KB).
Qed.
