(** On which side of a plane the neighbors are. *)
From Coq Require Import List Arith Bool ZArith QArith Qcanon Lia.
Import ListNotations.
From Verif Require Import M_Api M_IO M_Matrix M_SatBinom M_Mlfb M_Planes Spec_Matrix Spec_SatBinom Spec_Mlfb Spec_Planes P_Matrix P_Matrix4 P_Matrix5 P_Matrix8 P_SatBinom P_Mlfb3.
Local Open Scope nat_scope.
Local Notation length := List.length.
Local Notation "0q" := (0%Qc). Local Notation "1q" := (1%Qc).

Lemma sum_two (f : nat -> Qc) : sum 2 f = (f 0%nat + f 1%nat)%Qc.
Proof. cbn [sum]. ring. Qed.
Definition value (v h : vector) : Qc := sum 3 (fun c => (h c * v c)%Qc).
Lemma value_span v u w h : value v u = 0q -> value v w = 0q -> in_span 2 (two u w) 3 h -> value v h = 0q.
Proof.
  intros U W (x & X). unfold value in *. rewrite (sum_ext 3 _ (fun c => (x 0%nat * (u c * v c) + x 1%nat * (w c * v c))%Qc)).
  - rewrite <- sum_add, <- !sum_scale, U, W. ring.
  - intros c Hc. rewrite (X c Hc), sum_two. cbn [two Nat.eqb]. ring.
Qed.
(** The vectors with value 0 are in a space of dimension 2. *)
Lemma kernel_two (v : vector) c0 : c0 < 3 -> v c0 <> 0q -> exists B : nat -> vector, forall h, value v h = 0q -> in_span 2 B 3 h.
Proof.
  intros Hc Hv. set (V := build 1 3 (fun _ c => v c)). destruct (p_nullSpace V) as (b & k & E & R & _ & D1 & D2 & _ & _ & K).
  destruct (p_rank V) as (k' & R' & Dim). assert (k' = k) by congruence. subst k'.
  assert (k = 1).
  { symmetry. apply Dim. exists (fun r c => get V r c). split; [|intros w; reflexivity]. intros x X i Hi. assert (i = 0) by lia. subst i. specialize (X c0 Hc).
    cbn [sum] in X. unfold V in X. rewrite get_build in X by lia. assert (Y : (x 0%nat * v c0)%Qc = 0q) by (rewrite <- X; ring). apply Qcmult_integral in Y. tauto. }
  subst k. change (colCount V) with 3 in *. exists (fun j c => get b c j). intros h H. assert (I : in_kernel V h).
  { intros r Hr. cbn in Hr. assert (r = 0) by lia. subst r. rewrite <- H. unfold value. apply sum_ext. intros c C. unfold V in *. cbn [build colCount] in C. rewrite get_build by lia. ring. }
  apply K in I. unfold in_col_space in I. rewrite D1, D2 in I. exact I.
Qed.
Lemma span_value v u w h c0 : independent 2 (two u w) 3 -> c0 < 3 -> v c0 <> 0q -> value v u = 0q -> value v w = 0q -> (value v h = 0q <-> in_span 2 (two u w) 3 h).
Proof.
  intros Ind Hc Hv U W. split; [|apply value_span; auto]. intros H. destruct (kernel_two v c0 Hc Hv) as (B & K).
  destruct (K u U) as (xu & XU), (K w W) as (xw & XW), (K h H) as (xh & XH).
  set (X := build 2 3 (fun j i => match i with 0 => xu j | 1 => xw j | _ => xh j end)).
  assert (G : forall j i, j < 2 -> i < 3 -> get X j i = match i with 0 => xu j | 1 => xw j | _ => xh j end) by (intros; unfold X; rewrite get_build; auto).
  assert (RX : rowCount X = 2) by reflexivity. assert (CX : colCount X = 3) by reflexivity. clearbody X.
  destruct (wide_kernel X) as (y & f & Ky & Hf & Yf); [lia|]. rewrite CX in Hf.
  assert (Y : forall j, j < 2 -> (xu j * y 0%nat + xw j * y 1%nat + xh j * y 2%nat)%Qc = 0q).
  { intros j Hj. specialize (Ky j ltac:(lia)). rewrite CX in Ky. cbn [sum] in Ky. rewrite !G in Ky by lia. rewrite <- Ky. ring. }
  assert (T : forall c, c < 3 -> (y 0%nat * u c + y 1%nat * w c + y 2%nat * h c)%Qc = 0q).
  { intros c C. rewrite (XU c C), (XW c C), (XH c C), !sum_two. pose proof (Y 0 ltac:(lia)) as Y0. pose proof (Y 1 ltac:(lia)) as Y1.
    transitivity ((xu 0%nat * y 0%nat + xw 0%nat * y 1%nat + xh 0%nat * y 2%nat) * B 0%nat c + (xu 1%nat * y 0%nat + xw 1%nat * y 1%nat + xh 1%nat * y 2%nat) * B 1%nat c)%Qc; [ring|]. rewrite Y0, Y1. ring. }
  destruct (Qc_eq_dec (y 2%nat) 0q) as [Z|Z].
  - exfalso. assert (Y01 : forall i, i < 2 -> y i = 0q).
    { apply Ind. intros c C. rewrite sum_two. cbn [two Nat.eqb]. rewrite <- (T c C), Z. ring. }
    destruct f as [|[|[|f]]]; [| | |lia]; rewrite ?Z in Yf; try (rewrite Y01 in Yf by lia); discriminate.
  - exists (fun i => (- (y i / y 2%nat))%Qc). intros c C. rewrite sum_two. cbn [two Nat.eqb]. specialize (T c C).
    assert (h c = (- ((y 0%nat * u c + y 1%nat * w c) / y 2%nat))%Qc).
    { assert (M : (y 2%nat * h c)%Qc = (- (y 0%nat * u c + y 1%nat * w c))%Qc).
      { transitivity ((y 0%nat * u c + y 1%nat * w c + y 2%nat * h c) - (y 0%nat * u c + y 1%nat * w c))%Qc; [ring|]. rewrite T. ring. }
      transitivity ((y 2%nat * h c) / y 2%nat)%Qc; [field; auto|]. rewrite M. field. auto. }
    rewrite H0. field. auto.
Qed.
Lemma value_sub v h k x : value v (fun c => (k c - x * h c)%Qc) = (value v k - x * value v h)%Qc.
Proof. unfold value. cbn [sum]. ring. Qed.
(** ** The signs *)
Lemma place_in q : place_of q = InPlane <-> q = 0q.
Proof. unfold place_of. destruct (q ?= 0)%Qc eqn:E; split; try discriminate; auto; try (intros ->; discriminate). intros _. apply Qceq_alt. auto. Qed.
Lemma place_over q : place_of q = OverPlane <-> (0 < q)%Qc.
Proof. unfold place_of. pose proof (Qcgt_alt q 0) as A. destruct (q ?= 0)%Qc; split; intros H; try discriminate; auto; try (apply A; reflexivity); apply A in H; discriminate. Qed.
Lemma place_under q : place_of q = UnderPlane <-> (q < 0)%Qc.
Proof. unfold place_of. pose proof (Qclt_alt q 0) as A. destruct (q ?= 0)%Qc; split; intros H; try discriminate; auto; try (apply A; reflexivity); apply A in H; discriminate. Qed.
Lemma mul_pos x q : (0 < x)%Qc -> (0 < q)%Qc -> (0 < x * q)%Qc.
Proof. intros X Q. replace 0q with (0 * q)%Qc by ring. apply Qcmult_lt_compat_r; auto. Qed.
Lemma neg_pos q : (q < 0)%Qc <-> (0 < - q)%Qc.
Proof.
  split; intros H.
  - apply Qclt_minus_iff in H. replace (- q)%Qc with (0 + - q)%Qc by ring. exact H.
  - apply Qclt_minus_iff. replace (0 + - q)%Qc with (- q)%Qc by ring. exact H.
Qed.
Lemma inv_pos q : (0 < q)%Qc -> (0 < / q)%Qc.
Proof.
  intros H. destruct (Qc_dec 0 (/ q)) as [[L|L]|L]; auto; exfalso.
  - apply neg_pos in L. pose proof (mul_pos _ _ L H) as M. assert (q <> 0q) by (intros ->; discriminate H). replace (- / q * q)%Qc with (- (1))%Qc in M by (field; auto). discriminate M.
  - assert (q <> 0q) by (intros ->; discriminate H). assert (X : (/ q * q)%Qc = 1q) by (field; auto). rewrite <- L in X. discriminate.
Qed.
Lemma place_scaled x q : (0 < x)%Qc -> place_of (x * q) = place_of q.
Proof.
  intros X. destruct (place_of q) eqn:E.
  - apply place_in in E. subst. apply place_in. ring.
  - apply place_under in E. apply place_under. apply neg_pos in E. apply neg_pos. replace (- (x * q))%Qc with (x * - q)%Qc by ring. apply mul_pos; auto.
  - apply place_over in E. apply place_over. apply mul_pos; auto.
Qed.
Lemma same_place p q : place_of p = place_of q -> q <> 0q -> exists x, (0 < x)%Qc /\ p = (x * q)%Qc.
Proof.
  intros E Q. assert (P : p = (p / q * q)%Qc) by (field; auto). destruct (place_of q) eqn:F.
  - apply place_in in F. contradiction.
  - apply place_under in E, F. exists (p / q)%Qc. split; auto. apply neg_pos in E, F. replace (p / q)%Qc with (- p * / - q)%Qc by (field; split; auto; intros Z; apply Q; transitivity (- - q)%Qc; [ring|rewrite Z; ring]). apply mul_pos; auto. apply inv_pos. auto.
  - apply place_over in E, F. exists (p / q)%Qc. split; auto. apply mul_pos; auto. apply inv_pos. auto.
Qed.
(** ** Coordinates *)
Section Places.
Variables (mat : matrix) (n : nat) (gens : list (list Z)) (h : matrix) (a b : nat).
Hypothesis R3 : rowCount mat = 3.
Hypothesis Ind : independent (rowCount mat) (fun r c => get mat r c) n.
Hypothesis H1 : rowCount h = length gens.
Hypothesis H2 : colCount h = rowCount mat.
Hypothesis H3 : forall k c, k < length gens -> c < n -> rational (nth k gens []) c = sum (rowCount mat) (fun i => (get h k i * get mat i c)%Qc).
Hypothesis Ha : a < length gens.
Hypothesis Hb : b < length gens.
Hypothesis Line : not_on_a_line n (nth a gens []) (nth b gens []).
Let row k : vector := fun i => get h k i.
Lemma transfer (v w : vector) : (forall c, c < n -> w c = sum 3 (fun i => (v i * get mat i c)%Qc)) ->
  in_span 2 (two (rational (nth a gens [])) (rational (nth b gens []))) n w <-> in_span 2 (two (row a) (row b)) 3 v.
Proof.
  intros E. rewrite R3 in *. split; intros (x & X); exists x.
  - assert (D : forall i, i < 3 -> (v i - (x 0%nat * row a i + x 1%nat * row b i))%Qc = 0q).
    { apply (Ind (fun i => (v i - (x 0%nat * row a i + x 1%nat * row b i))%Qc)). intros c C. specialize (X c C). rewrite sum_two in X. cbn [two Nat.eqb] in X. rewrite (E c C), (H3 a c Ha C), (H3 b c Hb C) in X.
      unfold row. cbn [sum] in *. match goal with |- ?g = _ => transitivity (g - 0)%Qc; [ring|] end. apply Qcplus_opp_r || idtac.
      match type of X with ?l = ?r => transitivity (l - r)%Qc; [ring|rewrite X; ring] end. }
    intros i Hi. rewrite sum_two. cbn [two Nat.eqb]. specialize (D i Hi). transitivity ((v i - (x 0%nat * row a i + x 1%nat * row b i)) + (x 0%nat * row a i + x 1%nat * row b i))%Qc; [ring|]. rewrite D. ring.
  - intros c C. rewrite (E c C), sum_two. cbn [two Nat.eqb]. rewrite (H3 a c Ha C), (H3 b c Hb C). rewrite (sum_ext 3 _ (fun i => (x 0%nat * (get h a i * get mat i c) + x 1%nat * (get h b i * get mat i c))%Qc)).
    + rewrite <- sum_add, <- !sum_scale. reflexivity.
    + intros i Hi. rewrite (X i Hi), sum_two. cbn [two Nat.eqb]. unfold row. ring.
Qed.
Lemma rows_independent : independent 2 (two (row a) (row b)) 3.
Proof.
  intros x X. apply Line. intros c C. rewrite sum_two. cbn [two Nat.eqb]. rewrite (H3 a c Ha C), (H3 b c Hb C), R3.
  transitivity (sum 3 (fun i => ((x 0%nat * row a i + x 1%nat * row b i) * get mat i c)%Qc)); [rewrite !sum_scale, sum_add; apply sum_ext; intros; unfold row; ring|].
  apply sum_zero. intros i Hi. specialize (X i Hi). rewrite sum_two in X. cbn [two Nat.eqb] in X. rewrite X. ring.
Qed.
Lemma rowAB_get c : c < 3 -> get (rowAB h a b) 0 c = row a c /\ get (rowAB h a b) 1 c = row b c.
Proof.
  intros Hc. assert (C0 : colCount h = 3) by congruence. unfold rowAB.
  assert (G : forall t j src r i, i < rowCount t -> c < colCount t -> get (copyRow t j src r) i c = if i =? j then get src r c else get t i c) by (intros; unfold copyRow; rewrite get_build; auto).
  rewrite !G by (cbn; lia). cbn [Nat.eqb]. auto.
Qed.
Theorem places_right : exists places, plane_places h (length gens) a b = Ok places /\ length places = length gens /\
  (forall k, k < length gens -> (nth k places UnderPlane = InPlane <-> on_plane n (nth a gens []) (nth b gens []) (nth k gens []))) /\
  (forall k l, k < length gens -> l < length gens -> nth k places UnderPlane <> InPlane -> nth l places UnderPlane <> InPlane ->
    (nth k places UnderPlane = nth l places UnderPlane <-> same_side n (nth a gens []) (nth b gens []) (nth k gens []) (nth l gens []))).
Proof.
  destruct (p_nullSpace (rowAB h a b)) as (B & k & E & R & _ & D1 & D2 & _ & IB & K). assert (C3 : colCount (rowAB h a b) = 3) by (cbn; congruence). assert (R2 : rowCount (rowAB h a b) = 2) by reflexivity.
  destruct (p_rank (rowAB h a b)) as (k' & R' & Dim). assert (k' = k) by congruence. subst k'.
  assert (Same : forall i c, i < 2 -> c < 3 -> get (rowAB h a b) i c = two (row a) (row b) i c). { intros [|[|i]] c Hi Hc; [| |lia]; apply rowAB_get; auto. }
  assert (k = 2).
  { symmetry. apply Dim. exists (fun r c => get (rowAB h a b) r c). rewrite C3. split.
    - intros x X. apply rows_independent. intros c C. rewrite <- (X c C). apply sum_ext. intros i Hi. rewrite Same; auto.
    - intros w. unfold in_row_space. rewrite R2, C3. reflexivity. }
  subst k. rewrite C3 in *. cbn in D2. rewrite D2 in *. set (v := fun c => get B c 0).
  assert (Kv : in_kernel (rowAB h a b) v).
  { apply K. exists (fun _ => 1q). rewrite D1, D2. intros c C. cbn [sum]. unfold v. ring. }
  assert (Va : value v (row a) = 0q). { rewrite <- (Kv 0 ltac:(lia)). rewrite C3. unfold value. apply sum_ext. intros c C. rewrite (Same 0 c) by lia. reflexivity. }
  assert (Vb : value v (row b) = 0q). { rewrite <- (Kv 1 ltac:(lia)). rewrite C3. unfold value. apply sum_ext. intros c C. rewrite (Same 1 c) by lia. reflexivity. }
  assert (Nz : exists c0, c0 < 3 /\ v c0 <> 0q).
  { destruct (Qc_eq_dec (v 0) 0q) as [Z0|]; [|exists 0; split; auto; lia]. destruct (Qc_eq_dec (v 1) 0q) as [Z1|]; [|exists 1; split; auto; lia]. destruct (Qc_eq_dec (v 2) 0q) as [Z2|]; [|exists 2; split; auto; lia].
    exfalso. assert (X : 1q = 0q); [|discriminate]. apply (IB (fun _ => 1q)) with (i := 0); [|lia]. intros c C. cbn [sum]. fold (v c). destruct c as [|[|[|c]]]; [rewrite Z0|rewrite Z1|rewrite Z2|lia]; ring. }
  destruct Nz as (c0 & Hc0 & Hv0).
  destruct (p_product h B) as (_ & P1 & P2 & P3 & P4); [congruence|].
  assert (Val : forall k, k < length gens -> get (product h B) k 0 = value v (row k)).
  { intros k Hk. rewrite P4 by lia. rewrite H2, R3. reflexivity. }
  exists (map (fun gen => place_of (get (product h B) gen 0)) (seq 0 (length gens))).
  assert (At : forall k, k < length gens -> nth k (map (fun gen => place_of (get (product h B) gen 0)) (seq 0 (length gens))) UnderPlane = place_of (value v (row k))).
  { intros k Hk. rewrite (nth_indep _ _ ((fun gen => place_of (get (product h B) gen 0)) 0)) by (rewrite map_length, seq_length; auto). rewrite (map_nth (fun gen => place_of (get (product h B) gen 0))), seq_nth by auto. cbn [plus]. rewrite Val by auto. reflexivity. }
  split; [|split; [|split]].
  - unfold plane_places. rewrite E. cbv beta iota zeta delta [rbind]. replace (colCount (product h B)) with 1 by congruence. reflexivity.
  - rewrite map_length, seq_length. reflexivity.
  - intros k Hk. rewrite At by auto. rewrite place_in. unfold on_plane. rewrite (transfer (row k)); [|intros c C; rewrite H3 by auto; rewrite R3; reflexivity].
    apply (span_value v (row a) (row b) (row k) c0); auto. apply rows_independent.
  - intros k l Hk Hl. rewrite !At by auto. intros Pk Pl. rewrite place_in in Pk, Pl.
    assert (Tr : forall x, in_span 2 (two (rational (nth a gens [])) (rational (nth b gens []))) n (fun c => (rational (nth l gens []) c - x * rational (nth k gens []) c)%Qc) <-> value v (row l) = (x * value v (row k))%Qc).
    { intros x. rewrite (transfer (fun i => (row l i - x * row k i)%Qc)).
      - rewrite <- (span_value v (row a) (row b) _ c0) by (auto; apply rows_independent). rewrite value_sub. split; intros Z.
        + transitivity ((value v (row l) - x * value v (row k)) + x * value v (row k))%Qc; [ring|]. rewrite Z. ring.
        + rewrite Z. ring.
      - intros c C. rewrite (H3 l c Hl C), (H3 k c Hk C), R3. cbn [sum]. unfold row. ring. }
    unfold same_side. split.
    + intros Q. destruct (same_place (value v (row l)) (value v (row k))) as (x & X1 & X2); auto. exists x. split; auto. apply Tr. auto.
    + intros (x & X1 & X2). apply Tr in X2. rewrite X2. symmetry. apply place_scaled. auto.
Qed.
End Places.
(** ** Types of bodies *)
Lemma type_fold places ps : forall t, fold_left (fun type p => if inPlane places p then S type else type) ps t = t + length (filter (inPlane places) ps).
Proof. induction ps as [|p ps IH]; intros t; cbn [fold_left filter]; [cbn; lia|]. rewrite IH. destruct (inPlane places p); cbn [length]; lia. Qed.
Lemma type_filter places b : getType places b = length (filter (inPlane places) (ml_points b)).
Proof. unfold getType. rewrite type_fold. reflexivity. Qed.
