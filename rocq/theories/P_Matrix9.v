(** More about what the functions on matrices do. *)
From Coq Require Import List Arith Bool ZArith QArith Qcanon Lia.
Import ListNotations.
From Verif Require Import M_IO M_Matrix Spec_Matrix P_Matrix P_Matrix2 P_Matrix3 P_Matrix4 P_Matrix5 P_Matrix6 P_Matrix7 P_Matrix8.
Local Open Scope nat_scope.
Local Notation "0q" := (0%Qc). Local Notation "1q" := (1%Qc).

Lemma p_unique : forall a b, well_formed a -> well_formed b -> rowCount a = rowCount b -> colCount a = colCount b ->
  (forall w, in_row_space a w <-> in_row_space b w) ->
  exists a' b', rowReduceFully a = Ok a' /\ rowReduceFully b = Ok b' /\ same a' b'.
Proof.
  intros a b _ _ R C X. destruct (rowReduceFully_ok a) as (a' & k & p & Ea & (R1 & C1 & X1) & Ra). destruct (rowReduceFully_ok b) as (b' & l & q & Eb & (R2 & C2 & X2) & Rb).
  exists a', b'. split; [auto|split; [auto|]]. apply (reduced_unique a' b' k p l q Ra Rb); [congruence|congruence|].
  intros w. rewrite <- X1, <- X2. apply X.
Qed.
Lemma p_copyRow : forall t i s j, colCount t = colCount s -> i < rowCount t -> j < rowCount s ->
  let t' := copyRow t i s j in well_formed t' /\ rowCount t' = rowCount t /\ colCount t' = colCount t /\
  forall r c, r < rowCount t -> c < colCount t -> get t' r c = if r =? i then get s j c else get t r c.
Proof. intros t i s j C Hi Hj t'. split; [apply well_build|]. split; [auto|split; [auto|]]. intros. unfold t', copyRow. rewrite get_build; auto. Qed.
Definition one_two (z : Qc) : matrix := Matrix 2 3 [[1; 0; z]; [0; 1; z]]%Qc.
Lemma p_zero_one : exists m m' r c, well_formed m /\ rowReduceFully m = Ok m' /\ r < rowCount m' /\ c < colCount m' /\ get m' r c <> 0q /\ get m' r c <> 1q.
Proof.
  exists (one_two (1 + 1)%Qc). eexists. exists 0, 2. split; [split; [reflexivity|intros row [<-|[<-|[]]]; reflexivity]|]. split; [vm_compute; reflexivity|].
  split; [cbn; lia|]. split; [cbn; lia|]. split; intros H; discriminate (f_equal this H).
Qed.
Lemma p_two_entries : exists m m' r s c, well_formed m /\ rowReduceFully m = Ok m' /\ r < s /\ s < rowCount m' /\ c < colCount m' /\ get m' r c <> 0q /\ get m' s c <> 0q.
Proof.
  exists (one_two 1q). eexists. exists 0, 1, 2. split; [split; [reflexivity|intros row [<-|[<-|[]]]; reflexivity]|]. split; [vm_compute; reflexivity|].
  split; [lia|]. split; [cbn; lia|]. split; [cbn; lia|]. split; intros H; discriminate (f_equal this H).
Qed.
Lemma p_empty_inverse : exists a, rowCount a = 0 /\ colCount a = 0 /\ well_formed a /\ inverses 0 a a /\ inverse a = Undefined.
Proof.
  exists (Matrix 0 0 []). split; [auto|split; [auto|]]. split; [split; [auto|intros row []]|]. split; [|reflexivity].
  assert (H : exists p, is_product p (Matrix 0 0 []) (Matrix 0 0 []) /\ is_identity p 0).
  { exists (Matrix 0 0 []). split; [split; [auto|split; [auto|split; [auto|]]]|split; [auto|split; [auto|]]]; intros r c Hr; cbn in Hr; lia. }
  split; exact H.
Qed.

(** ** Determinants and inverses *)
Lemma kernel_det : forall n m x i, rowCount m = n -> colCount m = n -> in_kernel m x -> i < n -> x i <> 0q -> determinant m = 0q.
Proof.
  intros n m x i R C K Hi X. unfold determinant. destruct (rowReduce_ok m) as (k & p & O & E). destruct (rowReduce m) as (m', odd). cbn [fst snd] in *.
  destruct (ops_dims _ _ _ O) as (R' & C'). apply (equiv_kernel _ _ _ (ops_equiv _ _ _ O)) in K.
  rewrite prod_fold, R', R. pose proof E as (Hk & E1 & E2 & E3).
  assert (T : forall r c, r < n -> c < r -> get m' r c = 0q).
  { intros r c Hr Hc. destruct (Nat.lt_ge_cases r k) as [L|L]; [|apply E3; lia]. pose proof (pivot_increasing m' k p 0 r E ltac:(lia) L). apply E1; [auto|lia]. }
  (* otherwise back substitution shows that x is 0 *)
  assert (D : (exists j, j < n /\ get m' j j = 0q) \/ forall j, j < n -> get m' j j <> 0q).
  { clear - n. induction n; [right; intros; lia|]. destruct IHn as [(j & Hj & Z)|H]; [left; exists j; split; [lia|auto]|].
    destruct (Qc_eq_dec (get m' n n) 0q) as [Z|Z]; [left; exists n; auto|]. right. intros j Hj. destruct (Nat.eq_dec j n) as [->|]; auto. apply H. lia. }
  destruct D as [(j & Hj & Z)|NZ].
  - assert (P : forall n f, j < n -> f j = 0q -> prod n f = 0q).
    { clear. induction n; intros f L Z; [lia|]. cbn. destruct (Nat.eq_dec j n) as [<-|]; [rewrite Z; ring|]. rewrite IHn by (auto; lia). ring. }
    rewrite P by auto. ring.
  - exfalso. apply X. assert (B : forall d r, n - r <= d -> r < n -> x r = 0q).
    { induction d; intros r Hd Hr; [lia|]. specialize (K r ltac:(lia)). rewrite C', C in K. rewrite (sum_delta n r) in K; auto.
      - apply Qcmult_integral in K. destruct K as [K|K]; [destruct (NZ r Hr K)|exact K].
      - intros c Hc NE. destruct (Nat.lt_ge_cases c r) as [L|L]; [rewrite (T r c Hr L); ring|]. rewrite (IHd c) by lia. ring. }
    apply (B (n - i)); lia.
Qed.
Lemma inverse_det : forall n m b, rowCount m = n -> colCount m = n -> (forall r c, r < n -> c < n -> sum n (fun i => (get b r i * get m i c)%Qc) = if r =? c then 1q else 0q) ->
  determinant m <> 0q.
Proof.
  intros n m b R C I D. unfold determinant in D. destruct (rowReduce_ok m) as (k & p & O & E). destruct (rowReduce m) as (m', odd). cbn [fst snd] in *.
  destruct (ops_dims _ _ _ O) as (R' & C'). rewrite prod_fold, R', R in D. pose proof E as (Hk & E1 & E2 & E3).
  assert (Z : exists j, j < n /\ get m' j j = 0q).
  { assert (P : forall n (f : nat -> Qc), prod n f = 0q -> exists j, j < n /\ f j = 0q).
    { clear. induction n; intros f H; [discriminate (f_equal this H)|]. cbn in H. apply Qcmult_integral in H. destruct H as [H|H]; [|exists n; auto].
      destruct (IHn f H) as (j & Hj & Z). exists j. auto. }
    apply (P n (fun i => get m' i i)). destruct odd; [|rewrite <- D; ring]. replace (prod n (fun i => get m' i i)) with (- (- (1) * prod n (fun i => get m' i i)))%Qc by ring. rewrite D. ring. }
  destruct Z as (j & Hj & Z).
  (* then not all columns have a pivot, so that the kernel is not 0 *)
  destruct (rowReduceFully_ok m) as (S & l & q & _ & Q & Rd). pose proof Q as (RS & CS & XS).
  destruct (free_dec n l q) as [All|(f & Hf & F)].
  - (* all columns have pivots: the rank is n, but m' has at most ... *)
    destruct (all_pivots S l q n (proj1 Rd) All) as (L & _).
    assert (Hl : l <= k).
    { destruct (reduced_dimension S l q Rd) as (v & Iv & Sv). apply (independent_le l v k (fun r c => get m' r c) (colCount S) Iv).
      intros i Hi. assert (In_m : in_row_space m' (v i)).
      { apply (proj2 (proj2 (ops_equiv _ _ _ O))). apply XS. apply Sv. apply span_row. auto. }
      destruct In_m as (x & X). exists x. intros c Hc. rewrite (X c) by lia. replace (rowCount m') with (k + (rowCount m' - k)) by lia. rewrite sum_app.
      rewrite (sum_zero (rowCount m' - k)); [ring|]. intros t Ht. rewrite E3 by lia. ring. }
    assert (Pj : p j = j).
    { pose proof (pivot_increasing m' k p 0 j E ltac:(lia) ltac:(lia)). pose proof (pivot_increasing m' k p j (n - 1) E ltac:(lia) ltac:(lia)).
      destruct (E1 (n - 1) ltac:(lia)) as (A & _). lia. }
    destruct (E1 j ltac:(lia)) as (_ & NZ & _). rewrite Pj in NZ. contradiction.
  - assert (K : in_kernel m (nullv S l q f)) by (apply (equiv_kernel _ _ _ Q); apply nullv_kernel; auto; lia).
    set (x := nullv S l q f) in *. assert (X : x f = 1q) by (unfold x; rewrite nullv_free, Nat.eqb_refl by auto; reflexivity).
    assert (W : x f = 0q); [|rewrite X in W; discriminate (f_equal this W)].
    transitivity (sum n (fun c => (sum n (fun i => (get b f i * get m i c)%Qc) * x c)%Qc)).
    + rewrite (sum_delta n f); auto; [rewrite I, Nat.eqb_refl by auto; ring|]. intros c Hc NE. rewrite I by auto.
      replace (f =? c) with false by (symmetry; apply Nat.eqb_neq; auto). ring.
    + rewrite (sum_ext n _ (fun c => sum n (fun t => (get b f t * (get m t c * x c))%Qc))).
      * rewrite sum_swap. apply sum_zero. intros t Ht. rewrite <- sum_scale. rewrite <- C at 1. rewrite (K t) by lia. ring.
      * intros c Hc. rewrite sum_scale_r. apply sum_ext. intros; ring.
Qed.
Lemma p_det_inverse : forall m n, rowCount m = n -> colCount m = n -> 0 < n -> (exists b, inverse m = Ok (Some b)) <-> determinant m <> 0q.
Proof.
  intros m n R C Hn. destruct (inverse_ok m n R C Hn) as [(b & -> & W & Rb & Cb & A & B)|(-> & x & K & i & Hi & X)].
  - split; [intros _; apply (inverse_det n m b R C B)|eauto].
  - split; [intros (b & H); discriminate|]. intros D. destruct D. apply (kernel_det n m x i R C K Hi X).
Qed.
