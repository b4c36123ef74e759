(** Determinants. *)
From Coq Require Import List Arith Bool ZArith QArith Qcanon Lia.
Import ListNotations.
From Verif Require Import M_IO M_Matrix Spec_Matrix P_Matrix P_Matrix2 P_Matrix3.
Local Open Scope nat_scope.
Local Notation "0q" := (0%Qc). Local Notation "1q" := (1%Qc).

Definition sgn (i : nat) : Qc := if Nat.even i then 1q else (- (1))%Qc.
Definition minor (i : nat) (f : nat -> nat -> Qc) : nat -> nat -> Qc := fun r c => f (skip i r) (S c).
Lemma det_S : forall n f, det (S n) f = sum (S n) (fun i => (sgn i * f i 0%nat * det n (minor i f))%Qc).
Proof. reflexivity. Qed.
Lemma skip_lt : forall i r n, r < n -> i <= n -> skip i r < S n.
Proof. intros i r n H L. unfold skip. destruct (r <? i); lia. Qed.
Lemma det_ext : forall n f g, (forall r c, r < n -> c < n -> f r c = g r c) -> det n f = det n g.
Proof.
  induction n; intros f g H; [reflexivity|]. rewrite !det_S. apply sum_ext. intros i Hi. rewrite (H i 0) by lia. f_equal. apply IHn.
  intros r c Hr Hc. unfold minor. apply H; [apply skip_lt; lia|lia].
Qed.
Definition upd (f : nat -> nat -> Qc) (r : nat) (u : vector) : nat -> nat -> Qc := fun i c => if i =? r then u c else f i c.
(** The row of the minor that was the row r *)
Definition unskip (i r : nat) : nat := if r <? i then r else r - 1.
Lemma skip_iff : forall i r x, i <> r -> skip i x = r <-> x = unskip i r.
Proof.
  intros i r x N. unfold skip, unskip. destruct (Nat.ltb_spec x i); destruct (Nat.ltb_spec r i); split; intros; try lia.
Qed.
Lemma skip_ne : forall i x, skip i x <> i.
Proof. intros i x. unfold skip. destruct (Nat.ltb_spec x i); lia. Qed.
Lemma minor_upd : forall i r f u x c, i <> r -> minor i (upd f r u) x c = upd (minor i f) (unskip i r) (fun c => u (S c)) x c.
Proof.
  intros i r f u x c N. unfold minor, upd. destruct (Nat.eqb_spec (skip i x) r) as [e|e].
  - apply skip_iff in e; auto. rewrite e, Nat.eqb_refl. reflexivity.
  - destruct (Nat.eqb_spec x (unskip i r)) as [e'|]; auto. apply skip_iff in e'; auto. congruence.
Qed.
Lemma minor_upd_same : forall r f u x c, minor r (upd f r u) x c = minor r f x c.
Proof. intros r f u x c. unfold minor, upd. destruct (Nat.eqb_spec (skip r x) r) as [e|]; auto. destruct (skip_ne r x e). Qed.
Lemma unskip_lt : forall i r n, i <> r -> r < S n -> i < S n -> unskip i r < n.
Proof. intros i r n N Hr Hi. unfold unskip. destruct (Nat.ltb_spec r i); lia. Qed.
Lemma det_linear : forall n f r u v q, r < n ->
  det n (upd f r (fun c => (u c + q * v c)%Qc)) = (det n (upd f r u) + q * det n (upd f r v))%Qc.
Proof.
  induction n; intros f r u v q Hr; [lia|]. rewrite !det_S, sum_scale, sum_add. apply sum_ext. intros i Hi.
  destruct (Nat.eq_dec i r) as [->|N].
  - rewrite (det_ext n (minor r (upd f r (fun c => (u c + q * v c)%Qc))) (minor r f)) by (intros; apply minor_upd_same).
    rewrite (det_ext n (minor r (upd f r u)) (minor r f)) by (intros; apply minor_upd_same).
    rewrite (det_ext n (minor r (upd f r v)) (minor r f)) by (intros; apply minor_upd_same).
    unfold upd. rewrite Nat.eqb_refl. ring.
  - rewrite (det_ext n (minor i (upd f r (fun c => (u c + q * v c)%Qc))) (upd (minor i f) (unskip i r) (fun c => (u (S c) + q * v (S c))%Qc))).
    2: { intros x c _ _. rewrite minor_upd by auto. reflexivity. }
    rewrite (IHn (minor i f) (unskip i r) (fun c => u (S c)) (fun c => v (S c)) q (unskip_lt i r n N Hr Hi)).
    rewrite (det_ext n (minor i (upd f r u)) (upd (minor i f) (unskip i r) (fun c => u (S c)))) by (intros; apply minor_upd; auto).
    rewrite (det_ext n (minor i (upd f r v)) (upd (minor i f) (unskip i r) (fun c => v (S c)))) by (intros; apply minor_upd; auto).
    assert (X : forall w, upd f r w i 0 = f i 0) by (intros w; unfold upd; replace (i =? r) with false by (symmetry; apply Nat.eqb_neq; auto); reflexivity).
    rewrite !X. ring.
Qed.
Lemma sum_two : forall n i j f, i < n -> j < n -> i <> j -> (forall x, x < n -> x <> i -> x <> j -> f x = 0q) -> sum n f = (f i + f j)%Qc.
Proof.
  intros n i j f Hi Hj N H. rewrite (sum_ext n f (fun x => ((if x =? i then f i else 0q) + (if x =? j then f j else 0q))%Qc)).
  - rewrite <- sum_add. rewrite (sum_delta n i), (sum_delta n j); auto; [rewrite !Nat.eqb_refl; reflexivity| |];
      intros x Hx NE; apply Nat.eqb_neq in NE; rewrite NE; reflexivity.
  - intros x Hx. destruct (Nat.eqb_spec x i) as [->|NI].
    + replace (i =? j) with false by (symmetry; apply Nat.eqb_neq; auto). ring.
    + destruct (Nat.eqb_spec x j) as [->|NJ]; [ring|]. rewrite H by auto. ring.
Qed.
Lemma alt_adjacent : forall n f r, S r < n -> (forall c, c < n -> f r c = f (S r) c) -> det n f = 0q.
Proof.
  induction n; intros f r Hr E; [lia|]. rewrite det_S. rewrite (sum_two _ r (S r)); try lia.
  - rewrite (det_ext n (minor (S r) f) (minor r f)).
    + rewrite (E 0) by lia. unfold sgn. rewrite Nat.even_succ, <- Nat.negb_even. destruct (Nat.even r); cbn [negb]; ring.
    + intros x c Hx Hc. unfold minor, skip. destruct (Nat.ltb_spec x (S r)); destruct (Nat.ltb_spec x r); auto; try lia.
      replace x with r by lia. apply E. lia.
  - intros i Hi N1 N2. rewrite (IHn (minor i f) (unskip i r)); [ring| |].
    + unfold unskip. destruct (Nat.ltb_spec r i); lia.
    + intros c Hc. unfold minor. replace (skip i (unskip i r)) with r by (symmetry; apply skip_iff; auto).
      replace (S (unskip i r)) with (unskip i (S r)).
      * replace (skip i (unskip i (S r))) with (S r) by (symmetry; apply skip_iff; auto). apply E. lia.
      * unfold unskip. destruct (Nat.ltb_spec r i); destruct (Nat.ltb_spec (S r) i); lia.
Qed.
Definition swapped (f : nat -> nat -> Qc) (i j : nat) : nat -> nat -> Qc := upd (upd f i (f j)) j (f i).
Lemma swap_from_alt : forall n f i j, i < n -> j < n -> i <> j -> (forall g, (forall c, c < n -> g i c = g j c) -> det n g = 0q) ->
  det n (swapped f i j) = (- det n f)%Qc.
Proof.
  intros n f i j Hi Hj N Alt. unfold swapped.
  set (u := f i). set (v := f j).
  assert (U : forall g a b r c, upd (upd g i a) j b r c = upd (upd g j b) i a r c).
  { intros g a b r c. unfold upd. destruct (Nat.eqb_spec r j) as [->|]; auto. replace (j =? i) with false by (symmetry; apply Nat.eqb_neq; auto). reflexivity. }
  set (D := fun a b => det n (upd (upd f i a) j b)).
  assert (DD : forall a, D a a = 0q).
  { intros a. apply Alt. intros c _. unfold upd. rewrite Nat.eqb_refl, Nat.eqb_refl. destruct (i =? j); reflexivity. }
  assert (L2 : forall a b b', D a (fun c => (b c + 1 * b' c)%Qc) = (D a b + 1 * D a b')%Qc) by (intros; unfold D; apply det_linear; auto).
  assert (L1 : forall a a' b, D (fun c => (a c + 1 * a' c)%Qc) b = (D a b + 1 * D a' b)%Qc).
  { intros a a' b. unfold D. rewrite (det_ext n _ (upd (upd f j b) i (fun c => (a c + 1 * a' c)%Qc))) by (intros; apply U).
    rewrite det_linear by auto. f_equal; [|f_equal]; apply det_ext; intros; symmetry; apply U. }
  pose proof (DD (fun c => (u c + 1 * v c)%Qc)) as Z. rewrite L2, !L1, !DD in Z.
  assert (Df : D u v = det n f).
  { apply det_ext. intros r c _ _. unfold upd, u, v. destruct (Nat.eqb_spec r j) as [->|]; auto. destruct (Nat.eqb_spec r i) as [->|]; auto. }
  change (D v u = (- det n f)%Qc). rewrite <- Df.
  replace (D v u) with (0 + 1 * D v u + 1 * (D u v + 1 * 0) - D u v)%Qc by ring. rewrite Z. ring.
Qed.
Lemma swap_adjacent : forall n f r, S r < n -> det n (swapped f r (S r)) = (- det n f)%Qc.
Proof. intros n f r H. apply swap_from_alt; try lia. intros g E. apply (alt_adjacent n g r H E). Qed.
Lemma alt_lt : forall d n f i, S (i + d) < n -> (forall c, c < n -> f i c = f (S (i + d)) c) -> det n f = 0q.
Proof.
  induction d; intros n f i H E.
  - rewrite Nat.add_0_r in *. apply (alt_adjacent n f i H E).
  - replace (i + S d) with (S (i + d)) in * by lia. pose proof (swap_adjacent n f (S (i + d)) H) as W.
    rewrite (IHd n (swapped f (S (i + d)) (S (S (i + d)))) i) in W; [|lia|].
    + replace (det n f) with (- - det n f)%Qc by ring. rewrite <- W. ring.
    + intros c Hc. unfold swapped, upd. destruct (Nat.eqb_spec i (S (S (i + d)))); [lia|]. destruct (Nat.eqb_spec i (S (i + d))); [lia|].
      destruct (Nat.eqb_spec (S (i + d)) (S (S (i + d)))); [lia|]. rewrite Nat.eqb_refl. apply E. auto.
Qed.
Lemma alternating : forall n f i j, i < n -> j < n -> i <> j -> (forall c, c < n -> f i c = f j c) -> det n f = 0q.
Proof.
  intros n f i j Hi Hj N E. destruct (Nat.lt_ge_cases i j) as [L|L].
  - apply (alt_lt (j - i - 1) n f i); [lia|]. intros c Hc. replace (S (i + (j - i - 1))) with j by lia. auto.
  - apply (alt_lt (i - j - 1) n f j); [lia|]. intros c Hc. replace (S (j + (i - j - 1))) with i by lia. symmetry. auto.
Qed.
Lemma det_swap : forall n f i j, i < n -> j < n -> i <> j -> det n (swapped f i j) = (- det n f)%Qc.
Proof. intros n f i j Hi Hj N. apply swap_from_alt; auto. intros g E. apply (alternating n g i j); auto. Qed.
Lemma det_add : forall n f i j q, i < n -> j < n -> i <> j -> det n (upd f i (fun c => (f i c + q * f j c)%Qc)) = det n f.
Proof.
  intros n f i j q Hi Hj N. rewrite det_linear by auto. rewrite (alternating n (upd f i (f j)) i j); auto.
  - rewrite (det_ext n (upd f i (f i)) f); [ring|]. intros r c _ _. unfold upd. destruct (Nat.eqb_spec r i) as [->|]; auto.
  - intros c _. unfold upd. rewrite Nat.eqb_refl. replace (j =? i) with false by (symmetry; apply Nat.eqb_neq; auto). reflexivity.
Qed.
Lemma prod_ext : forall n f g, (forall i, i < n -> f i = g i) -> prod n f = prod n g.
Proof. induction n; intros f g H; cbn; [reflexivity|]. rewrite (IHn f g), (H n); auto. Qed.
Lemma prod_first : forall n f, prod (S n) f = (f 0%nat * prod n (fun i => f (S i)))%Qc.
Proof. induction n; intros f; [cbn; ring|]. change (prod (S (S n)) f) with (prod (S n) f * f (S n))%Qc. rewrite IHn. cbn. ring. Qed.
Lemma det_triangular : forall n f, (forall r c, r < n -> c < r -> f r c = 0q) -> det n f = prod n (fun i => f i i).
Proof.
  induction n; intros f H; [reflexivity|]. rewrite det_S, prod_first. rewrite (sum_delta (S n) 0); [|lia|].
  - rewrite (IHn (minor 0 f)); [change (sgn 0) with 1q; rewrite Qcmult_1_l; reflexivity|]. intros r c Hr Hc. unfold minor. cbn. apply H; lia.
  - intros i Hi N. rewrite (H i 0) by lia. ring.
Qed.

Lemma ops_det : forall m n b m', rowCount m = n -> colCount m = n -> ops m b m' ->
  det n (get m') = ((if b then - (1) else 1) * det n (get m))%Qc.
Proof.
  intros m n b m' R C H. induction H as [|b m' i j q H IH Hi Hj N|b m' i j H IH Hi Hj N]; [ring| |]; destruct (ops_dims _ _ _ H) as (R' & C').
  - rewrite (det_ext n _ (upd (get m') i (fun c => (get m' i c + q * get m' j c)%Qc))); [rewrite det_add by lia; auto|].
    intros r c Hr Hc. rewrite get_addMultiply by lia. unfold upd. destruct (r =? i); [ring|reflexivity].
  - rewrite (det_ext n _ (swapped (get m') i j)).
    + rewrite det_swap by lia. rewrite IH. destruct b; cbn [negb]; ring.
    + intros r c Hr Hc. rewrite get_swap by lia. unfold swapped, upd. destruct (Nat.eqb_spec r i) as [->|]; auto.
      destruct (Nat.eqb_spec i j); [contradiction|reflexivity].
Qed.
Lemma determinant_ok : forall m n, rowCount m = n -> colCount m = n -> determinant m = det n (get m).
Proof.
  intros m n R C. unfold determinant. destruct (rowReduce_ok m) as (k & p & O & E). destruct (rowReduce m) as (m', odd). cbn [fst snd] in *.
  destruct (ops_dims _ _ _ O) as (R' & C'). rewrite prod_fold, R', R. pose proof (ops_det m n odd m' R C O) as D.
  rewrite <- (det_triangular n (get m')).
  - rewrite D. destruct odd; ring.
  - intros r c Hr Hc. pose proof E as (Hk & E1 & E2 & E3). destruct (Nat.lt_ge_cases r k) as [L|L].
    + pose proof (pivot_increasing m' k p 0 r E ltac:(lia) L). apply E1; [auto|lia].
    + apply E3; lia.
Qed.

(** ** Parallelograms *)
Lemma dot_get : forall cols f r s, r < 2 -> s < 2 ->
  get (product (build 2 cols f) (transpose (build 2 cols f))) r s = dot cols (f r) (f s).
Proof.
  intros cols f r s Hr Hs. unfold product. cbn [rowCount colCount build transpose]. rewrite get_build by auto.
  rewrite sum_fold. unfold dot. apply sum_ext. intros i Hi. unfold transpose. cbn [rowCount colCount build]. rewrite !get_build by auto. f_equal.
Qed.
Lemma det2 : forall f, det 2 f = (f 0%nat 0%nat * f 1%nat 1%nat - f 1%nat 0%nat * f 0%nat 1%nat)%Qc.
Proof. intros f. cbn. ring. Qed.
