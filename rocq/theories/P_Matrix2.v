(** Row reduction. *)
From Coq Require Import List Arith Bool ZArith QArith Qcanon Lia.
Import ListNotations.
From Verif Require Import M_IO M_Matrix Spec_Matrix P_Matrix.
Local Open Scope nat_scope.
Local Notation "0q" := (0%Qc). Local Notation "1q" := (1%Qc).

Inductive ops (m : matrix) : bool -> matrix -> Prop :=
| ops_id : ops m false m
| ops_add : forall b m' i j q, ops m b m' -> i < rowCount m -> j < rowCount m -> i <> j -> ops m b (addMultiplyRow m' i j q)
| ops_swap : forall b m' i j, ops m b m' -> i < rowCount m -> j < rowCount m -> i <> j -> ops m (negb b) (swapRows m' i j).
Lemma ops_dims : forall m b m', ops m b m' -> rowCount m' = rowCount m /\ colCount m' = colCount m.
Proof. induction 1; auto. Qed.
Lemma ops_equiv : forall m b m', ops m b m' -> equiv m m'.
Proof.
  induction 1 as [|b m' i j q H IH|b m' i j H IH]; [apply equiv_refl| |]; destruct (ops_dims _ _ _ H) as (R & C);
    apply (equiv_trans _ _ _ IH); [apply add_equiv|apply swap_equiv]; lia.
Qed.

Definition clear (co : Qc -> Qc -> Qc) (l : list nat) (pr pc : nat) (m : matrix) : matrix :=
  fold_left
    (fun mat row =>
       if negb (row =? pr) && negb (is_zero (get mat row pc)) then addMultiplyRow mat row pr (co (get mat row pc) (get mat pr pc)) else mat) l m.
Lemma clear_spec : forall co l pr pc m0 b m, ops m0 b m -> NoDup l -> (forall r, In r l -> r < rowCount m0 /\ r <> pr) -> pr < rowCount m0 ->
  pc < colCount m0 ->
  ops m0 b (clear co l pr pc m) /\
  forall r c, r < rowCount m0 -> c < colCount m0 ->
    get (clear co l pr pc m) r c =
    if existsb (Nat.eqb r) l && negb (is_zero (get m r pc)) then (get m r c + get m pr c * co (get m r pc) (get m pr pc))%Qc else get m r c.
Proof.
  intros co l pr pc m0. induction l as [|a l IH]; intros b m O ND L Hp Hc; [split; auto|].
  destruct (ops_dims _ _ _ O) as (R & C). inversion ND as [|x y NI ND' E1]; subst. cbn [clear fold_left].
  destruct (L a (or_introl eq_refl)) as (La & Na).
  replace (a =? pr) with false by (symmetry; apply Nat.eqb_neq; auto). cbn [negb andb].
  assert (NE : existsb (Nat.eqb a) l = false).
  { destruct (existsb (Nat.eqb a) l) eqn:E; auto. apply existsb_exists in E. destruct E as (y & Hy & E). apply Nat.eqb_eq in E. subst. contradiction. }
  destruct (is_zero (get m a pc)) eqn:Z; cbn [negb].
  - destruct (IH b m O ND' (fun r H => L r (or_intror H)) Hp Hc) as (O' & G). split; [exact O'|].
    intros r c Hr Hcc. unfold clear in G. rewrite (G r c Hr Hcc). cbn [existsb]. destruct (Nat.eqb_spec r a) as [->|N]; [|reflexivity].
    rewrite NE, Z. reflexivity.
  - set (m' := addMultiplyRow m a pr (co (get m a pc) (get m pr pc))).
    assert (O1 : ops m0 b m') by (apply ops_add; auto).
    destruct (IH b m' O1 ND' (fun r H => L r (or_intror H)) Hp Hc) as (O' & G). split; [exact O'|].
    intros r c Hr Hcc. unfold clear in G. rewrite (G r c Hr Hcc).
    assert (A : forall r c, r < rowCount m0 -> c < colCount m0 -> r <> a -> get m' r c = get m r c).
    { intros r' c' H1 H2 N. unfold m'. rewrite get_addMultiply by lia. apply Nat.eqb_neq in N. rewrite N. reflexivity. }
    assert (Ap : forall c, c < colCount m0 -> get m' pr c = get m pr c) by (intros; apply A; auto).
    cbn [existsb]. destruct (Nat.eqb_spec r a) as [->|N]; cbn [orb].
    + rewrite NE. cbn [andb]. rewrite Z. cbn [negb andb]. unfold m'. rewrite get_addMultiply, Nat.eqb_refl by lia. reflexivity.
    + rewrite (A r pc), (A r c), Ap, Ap by auto. reflexivity.
Qed.
Lemma clear_below_is : forall m pr pc, clear_below m pr pc = clear (fun a b => (- a / b)%Qc) (seq (S pr) (rowCount m - S pr)) pr pc m.
Proof. reflexivity. Qed.
Lemma clear_above_is : forall m pr pc, clear_above m pr pc = clear (fun a _ => (- a)%Qc) (seq 0 pr) pr pc m.
Proof. reflexivity. Qed.
Lemma existsb_seq : forall r s n, existsb (Nat.eqb r) (seq s n) = (s <=? r) && (r <? s + n).
Proof.
  intros r s n. destruct (existsb (Nat.eqb r) (seq s n)) eqn:E.
  - apply existsb_exists in E. destruct E as (x & H & E). apply Nat.eqb_eq in E. subst x. apply in_seq in H. symmetry.
    apply andb_true_intro. split; [apply Nat.leb_le|apply Nat.ltb_lt]; lia.
  - symmetry. apply not_true_is_false. intros H. apply andb_prop in H. destruct H as (A & B). apply Nat.leb_le in A. apply Nat.ltb_lt in B.
    assert (T : existsb (Nat.eqb r) (seq s n) = true) by (apply existsb_exists; exists r; split; [apply in_seq; lia|apply Nat.eqb_refl]). congruence.
Qed.

(** ** rowReduce *)
Definition red_inv (m0 : matrix) (pc : nat) (st : matrix * nat * bool) : Prop :=
  let '(m, k, odd) := st in
  ops m0 odd m /\ k <= rowCount m0 /\
  exists p, (forall i, i < k -> p i < pc /\ get m i (p i) <> 0q /\ forall c, c < p i -> get m i c = 0q) /\
    (forall i j, i < j -> j < k -> p i < p j) /\ (forall r c, k <= r -> r < rowCount m0 -> c < pc -> get m r c = 0q).
Lemma red_step : forall m0 pc st, red_inv m0 pc st -> pc < colCount m0 -> red_inv m0 (S pc) (reduce_col st pc).
Proof.
  intros m0 pc ((m, k), odd) (O & Hk & p & P1 & P2 & P3) Hc. destruct (ops_dims _ _ _ O) as (R & C). unfold reduce_col.
  destruct (find _ _) as [pr|] eqn:F.
  2: { split; [auto|split; [auto|]]. exists p. split; [intros i Hi; destruct (P1 i Hi) as (A & B & D); auto|]. split; [auto|].
       intros r c H1 H2 H3. destruct (Nat.eq_dec c pc) as [->|]; [|apply P3; lia].
       apply find_none with (x := r) in F; [|apply in_seq; lia]. apply negb_false_iff, is_zero_iff in F. auto. }
  apply find_some in F. destruct F as (I & NZ). apply in_seq in I. apply negb_true_iff, is_zero_false in NZ.
  (* the matrix after the swap *)
  set (s := if negb (k =? pr) then (swapRows m k pr, negb odd) else (m, odd)).
  assert (S : exists m1 odd1, s = (m1, odd1) /\ ops m0 odd1 m1 /\ (forall r c, r < k -> c < colCount m0 -> get m1 r c = get m r c) /\
            (forall c, c < colCount m0 -> get m1 k c = get m pr c) /\
            (forall r, k < r -> r < rowCount m0 -> exists r', k <= r' < rowCount m0 /\ forall c, c < colCount m0 -> get m1 r c = get m r' c)).
  { unfold s. destruct (Nat.eqb_spec k pr) as [->|N]; cbn [negb].
    - exists m, odd. split; [auto|split; [auto|split; [auto|split; [auto|]]]]. intros r H1 H2. exists r. split; [lia|auto].
    - exists (swapRows m k pr), (negb odd). split; [auto|]. split; [apply ops_swap; auto; lia|].
      split; [|split].
      + intros r c H1 H2. rewrite get_swap by lia. destruct (Nat.eqb_spec r k); [lia|]. destruct (Nat.eqb_spec r pr); [lia|reflexivity].
      + intros c H2. rewrite get_swap, Nat.eqb_refl by lia. reflexivity.
      + intros r H1 H2. exists (if r =? pr then k else r). split; [destruct (r =? pr); lia|]. intros c H3. rewrite get_swap by lia.
        destruct (Nat.eqb_spec r k); [lia|]. destruct (r =? pr); reflexivity. }
  destruct S as (m1 & odd1 & -> & O1 & G1 & G2 & G3). destruct (ops_dims _ _ _ O1) as (R1 & C1).
  rewrite clear_below_is.
  assert (L : forall r, In r (seq (S k) (rowCount m1 - S k)) -> r < rowCount m0 /\ r <> k).
  { intros r H. apply in_seq in H. lia. }
  destruct (clear_spec (fun a b => (- a / b)%Qc) _ k pc m0 odd1 m1 O1 (seq_NoDup _ _) L ltac:(lia) Hc) as (O2 & G).
  set (m2 := clear _ _ _ _ _) in *.
  assert (Up : forall r c, r <= k -> c < colCount m0 -> get m2 r c = get m1 r c).
  { intros r c H1 H2. rewrite G by lia. rewrite existsb_seq. replace (S k <=? r) with false by (symmetry; apply Nat.leb_gt; lia). reflexivity. }
  split; [auto|split; [lia|]]. exists (fun i => if i <? k then p i else pc). split; [|split].
  - intros i Hi. destruct (Nat.ltb_spec i k) as [Hik|Hik].
    + destruct (P1 i Hik) as (A & B & D). split; [lia|]. rewrite Up, G1 by lia. split; [auto|]. intros c Hcc. rewrite Up, G1 by lia. auto.
    + assert (i = k) by lia. subst i. split; [lia|]. rewrite Up, G2 by lia. split; [auto|]. intros c Hcc. rewrite Up, G2 by lia. apply P3; lia.
  - intros i j Hij Hj. destruct (Nat.ltb_spec i k); destruct (Nat.ltb_spec j k); try lia; [apply P2; auto|]. apply P1. auto.
  - intros r c H1 H2 H3. rewrite G by lia. rewrite existsb_seq.
    replace (S k <=? r) with true by (symmetry; apply Nat.leb_le; lia). replace (r <? S k + (rowCount m1 - S k)) with true by (symmetry; apply Nat.ltb_lt; lia).
    cbn [andb]. destruct (G3 r ltac:(lia) H2) as (r' & Hr' & E). rewrite !E, !G2 by lia.
    destruct (Nat.eq_dec c pc) as [->|N].
    + destruct (is_zero (get m r' pc)) eqn:Z; cbn [negb]; [apply is_zero_iff; auto|]. field. auto.
    + rewrite (P3 r' c), (P3 pr c) by lia. destruct (negb _); [ring|reflexivity].
Qed.
Lemma red_fold : forall m0 n st, red_inv m0 0 st -> n <= colCount m0 -> red_inv m0 n (fold_left reduce_col (seq 0 n) st).
Proof.
  intros m0 n st H. induction n; intros L; [auto|]. rewrite seq_S, fold_left_app. cbn [fold_left Nat.add]. apply red_step; [apply IHn; lia|lia].
Qed.
Lemma rowReduce_ok : forall m, exists k p, ops m (snd (rowReduce m)) (fst (rowReduce m)) /\ echelon (fst (rowReduce m)) k p.
Proof.
  intros m. unfold rowReduce.
  assert (I0 : red_inv m 0 (m, 0, false)).
  { split; [constructor|split; [lia|]]. exists (fun i => i). split; [intros; lia|split; intros; lia]. }
  pose proof (red_fold m (colCount m) _ I0 (le_n _)) as H. destruct (fold_left _ _ _) as ((m', k), odd). destruct H as (O & Hk & p & P1 & P2 & P3).
  cbn [fst snd]. exists k, p. split; [auto|]. destruct (ops_dims _ _ _ O) as (R & C). unfold echelon. rewrite R, C.
  split; [auto|split; [auto|split; [auto|]]]. auto.
Qed.

(** ** rowReduceFully *)
Definition full_inv (m0 : matrix) (k : nat) (p : nat -> nat) (m : matrix) (pr : nat) : Prop :=
  equiv m0 m /\ echelon m k p /\ pr <= k /\ forall i j, i < pr -> j < k -> j <= i -> get m j (p i) = if j =? i then 1q else 0q.
Lemma full_step : forall m0 k p m pr, full_inv m0 k p m pr -> pr < k ->
  full_inv m0 k p (clear_above (multiplyRow m pr (1 / get m pr (p pr))%Qc) pr (p pr)) (S pr).
Proof.
  intros m0 k p m pr (Q & (Hk & E1 & E2 & E3) & Hpr & N) Lt. destruct (E1 pr Lt) as (Pc & NZ & Lead).
  set (q := (1 / get m pr (p pr))%Qc). set (m1 := multiplyRow m pr q).
  assert (Hq : q <> 0q). { unfold q. intros H. assert (X : (get m pr (p pr) * (1 / get m pr (p pr)))%Qc = 1q) by (field; auto). rewrite H in X.
    rewrite Qcmult_comm, Qcmult_0_l in X. discriminate X. }
  assert (G1 : forall r c, r < rowCount m -> c < colCount m -> get m1 r c = if r =? pr then (get m pr c * q)%Qc else get m r c).
  { intros. apply get_multiply; auto. }
  rewrite clear_above_is. fold m1.
  destruct (clear_spec (fun a _ => (- a)%Qc) (seq 0 pr) pr (p pr) m1 false m1 (ops_id _) (seq_NoDup _ _)
              ltac:(intros r H; apply in_seq in H; cbn; lia) ltac:(cbn; lia) ltac:(cbn; auto)) as (O & G).
  set (m2 := clear _ _ _ _ _) in *. destruct (ops_dims _ _ _ O) as (R & C).
  change (rowCount m1) with (rowCount m) in *. change (colCount m1) with (colCount m) in *.
  assert (One : get m1 pr (p pr) = 1q). { rewrite G1, Nat.eqb_refl by lia. unfold q. field. auto. }
  assert (GG : forall r c, r < rowCount m -> c < colCount m ->
            get m2 r c = if r <? pr then (get m r c - get m pr c * q * get m r (p pr))%Qc else if r =? pr then (get m pr c * q)%Qc else get m r c).
  { intros r c Hr Hc. rewrite G by auto. rewrite existsb_seq. cbn [Nat.leb Nat.add andb].
    destruct (Nat.ltb_spec r pr) as [L|L]; cbn [andb].
    - rewrite !G1 by lia. rewrite Nat.eqb_refl. replace (r =? pr) with false by (symmetry; apply Nat.eqb_neq; lia).
      destruct (is_zero (get m r (p pr))) eqn:Z; cbn [negb]; [|ring]. apply is_zero_iff in Z. rewrite Z. ring.
    - apply G1; auto. }
  split; [|split; [|split]].
  - apply (equiv_trans _ _ _ Q). apply (equiv_trans _ m1); [apply multiply_equiv; auto; lia|]. apply (ops_equiv _ _ _ O).
  - split; [lia|]. rewrite R, C. split; [|split; [auto|]].
    + intros i Hi. destruct (E1 i Hi) as (A & B & D). split; [auto|]. rewrite GG by lia.
      destruct (Nat.ltb_spec i pr) as [L|L].
      * assert (p i < p pr) by (apply E2; auto). rewrite (Lead (p i)) by auto. split; [replace (get m i (p i) - 0 * q * get m i (p pr))%Qc with (get m i (p i)) by ring; auto|].
        intros c Hc. rewrite GG by lia. replace (i <? pr) with true by (symmetry; apply Nat.ltb_lt; auto). rewrite (D c Hc), (Lead c) by lia. ring.
      * destruct (Nat.eqb_spec i pr) as [->|NE].
        -- split; [intros H; apply Qcmult_integral in H; tauto|]. intros c Hc. rewrite GG by lia.
           replace (pr <? pr) with false by (symmetry; apply Nat.ltb_irrefl). rewrite Nat.eqb_refl, (Lead c Hc). ring.
        -- split; [auto|]. intros c Hc. rewrite GG by lia. replace (i <? pr) with false by (symmetry; apply Nat.ltb_ge; auto).
           apply Nat.eqb_neq in NE. rewrite NE. auto.
    + intros i c H1 H2 H3. rewrite GG by auto. replace (i <? pr) with false by (symmetry; apply Nat.ltb_ge; lia).
      replace (i =? pr) with false by (symmetry; apply Nat.eqb_neq; lia). auto.
  - lia.
  - intros i j Hi Hj Hji. rewrite GG by (try apply E1; lia). destruct (Nat.eq_dec i pr) as [->|NE].
    + destruct (Nat.ltb_spec j pr) as [L|L].
      * replace (j =? pr) with false by (symmetry; apply Nat.eqb_neq; lia). unfold q. field. auto.
      * assert (j = pr) by lia. subst j. rewrite Nat.eqb_refl. unfold q. field. auto.
    + assert (p i < p pr) by (apply E2; lia). rewrite (Lead (p i)) by auto. replace (j <? pr) with true by (symmetry; apply Nat.ltb_lt; lia).
      rewrite (N i j) by lia. destruct (j =? i); ring.
Qed.
Lemma full_loop_ok : forall fuel m0 k p m pr pc, full_inv m0 k p m pr -> (rowCount m - pr) + (colCount m - pc) <= fuel -> (pr < k -> pc <= p pr) ->
  exists m', fully_loop fuel m pr pc = Ok m' /\ full_inv m0 k p m' k.
Proof.
  induction fuel; intros m0 k p m pr pc V F Hpc.
  - assert (E : (pr <? rowCount m) && (pc <? colCount m) = false).
    { destruct (Nat.ltb_spec pr (rowCount m)); destruct (Nat.ltb_spec pc (colCount m)); auto; lia. }
    cbn [fully_loop]. rewrite E. exists m. split; [auto|]. pose proof V as (Q & (Hk & E1 & E2 & E3) & Hpr & N). assert (pr = k); [|subst; exact V].
    destruct (Nat.eq_dec pr k); auto. pose proof (Hpc ltac:(lia)). destruct (E1 pr ltac:(lia)) as (A & _). lia.
  - cbn [fully_loop]. destruct (Nat.ltb_spec pr (rowCount m)) as [A|A]; destruct (Nat.ltb_spec pc (colCount m)) as [B|B]; cbn [andb].
    2,3,4: exists m; split; [auto|]; pose proof V as (Q & (Hk & E1 & E2 & E3) & Hpr & N); assert (pr = k); [|subst; exact V];
      destruct (Nat.eq_dec pr k); auto; pose proof (Hpc ltac:(lia)); destruct (E1 pr ltac:(lia)) as (D & _); lia.
    destruct (is_zero (get m pr pc)) eqn:Z.
    + apply IHfuel with (m0 := m0); [auto|lia|]. intros Hk. destruct (Nat.eq_dec pc (p pr)) as [->|N]; [|pose proof (Hpc Hk); lia].
      apply is_zero_iff in Z. destruct V as (_ & (_ & E1 & _) & _). destruct (E1 pr Hk) as (_ & X & _). contradiction.
    + apply is_zero_false in Z. destruct (V) as (Q & (Hk & E1 & E2 & E3) & Hpr & N).
      assert (Lt : pr < k). { destruct (Nat.lt_ge_cases pr k); auto. exfalso. apply Z. apply E3; auto. }
      assert (pc = p pr). { pose proof (Hpc Lt). destruct (Nat.eq_dec pc (p pr)); auto. exfalso. apply Z. apply E1; auto. lia. } subst pc.
      pose proof (full_step m0 k p m pr V Lt) as V'. destruct (V') as (Q' & _).
      destruct Q as (R1 & C1 & _). destruct Q' as (R2 & C2 & _).
      apply IHfuel with (m0 := m0); [exact V'|lia|]. intros Hk'. apply Nat.lt_le_incl. apply E2; lia.
Qed.
Lemma rowReduceFully_ok : forall m, exists m' k p, rowReduceFully m = Ok m' /\ equiv m m' /\ reduced m' k p.
Proof.
  intros m. unfold rowReduceFully. destruct (rowReduce_ok m) as (k & p & O & E). destruct (rowReduce m) as (m1, odd). cbn [fst snd] in *.
  assert (V : full_inv m k p m1 0).
  { split; [apply (ops_equiv _ _ _ O)|split; [auto|split; [lia|]]]. intros; lia. }
  destruct (full_loop_ok (rowCount m1 + colCount m1) m k p m1 0 0 V ltac:(lia) ltac:(lia)) as (m' & -> & Q & E' & _ & N).
  exists m', k, p. split; [auto|split; [auto|split; [auto|]]]. intros i j Hi Hj. destruct (Nat.lt_ge_cases i j) as [L|L].
  - replace (j =? i) with false by (symmetry; apply Nat.eqb_neq; lia). destruct E' as (_ & E1 & E2 & _). apply E1; auto.
  - apply N; auto.
Qed.
