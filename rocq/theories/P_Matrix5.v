(** Columns without common divisors, and the basis of the null space. *)
From Coq Require Import List Arith Bool ZArith QArith Qcanon Lia Znumtheory.
Import ListNotations.
From Verif Require Import M_IO M_Matrix Spec_Matrix P_Matrix P_Matrix2 P_Matrix3 P_Matrix4.
Local Open Scope nat_scope.
Local Notation "0q" := (0%Qc). Local Notation "1q" := (1%Qc).

Lemma prime_divisor : forall n : Z, (1 < n)%Z -> exists p, prime p /\ (p | n)%Z.
Proof.
  assert (H : forall k n, (n < Z.of_nat k)%Z -> (1 < n)%Z -> exists p, prime p /\ (p | n)%Z).
  { induction k; intros n L G; [lia|]. destruct (prime_dec n) as [P|NP]; [exists n; split; [auto|apply Z.divide_refl]|].
    destruct (not_prime_divide n G NP) as (d & D & Dv). destruct (IHk d ltac:(lia) ltac:(lia)) as (p & P & Pd). exists p. split; [auto|].
    apply Z.divide_trans with d; auto. }
  intros n. apply (H (Z.to_nat (n + 1))). lia.
Qed.
Lemma gcd_all : forall l g, (fold_left gcd_with l g | g)%Z /\ (forall q, In q l -> (fold_left gcd_with l g | Qnum q)%Z) /\
  forall d, (d | g)%Z -> (forall q, In q l -> (d | Qnum q)%Z) -> (d | fold_left gcd_with l g)%Z.
Proof.
  induction l as [|a l IH]; intros g; cbn [fold_left].
  - split; [apply Z.divide_refl|split; [intros q []|auto]].
  - destruct (IH (gcd_with g a)) as (A & B & C). unfold gcd_with at 2 in A. split; [|split].
    + apply Z.divide_trans with (Z.gcd g (Qnum a)); [exact A|apply Z.gcd_divide_l].
    + intros q [<-|H]; [|auto]. apply Z.divide_trans with (Z.gcd g (Qnum a)); [exact A|apply Z.gcd_divide_r].
    + intros d D H. apply C; [|intros; apply H; right; auto]. apply Z.gcd_greatest; auto. apply H. left. auto.
Qed.
Lemma lcm_all : forall l m, (m | fold_left lcm_with l m)%Z /\ (forall q, In q l -> (Zpos (Qden q) | fold_left lcm_with l m)%Z) /\
  (forall d, (m | d)%Z -> (forall q, In q l -> (Zpos (Qden q) | d)%Z) -> (fold_left lcm_with l m | d)%Z) /\
  ((0 < m)%Z -> (0 < fold_left lcm_with l m)%Z).
Proof.
  induction l as [|a l IH]; intros m; cbn [fold_left].
  - split; [apply Z.divide_refl|split; [intros q []|auto]].
  - destruct (IH (lcm_with m a)) as (A & B & C & D). split; [|split; [|split]].
    + apply Z.divide_trans with (Z.lcm m (Zpos (Qden a))); [apply Z.divide_lcm_l|exact A].
    + intros q [<-|H]; [|auto]. apply Z.divide_trans with (Z.lcm m (Zpos (Qden a))); [apply Z.divide_lcm_r|exact A].
    + intros d H1 H2. apply C; [|intros; apply H2; right; auto]. apply Z.lcm_least; auto. apply H2. left. auto.
    + intros P. apply D. unfold lcm_with. pose proof (Z.lcm_nonneg m (Zpos (Qden a))). destruct (Z.eq_dec (Z.lcm m (Zpos (Qden a))) 0) as [e|]; [|lia].
      apply Z.lcm_eq_0 in e. lia.
Qed.
Lemma canonical : forall q : Qc, Z.gcd (Qnum q) (Zpos (Qden q)) = 1%Z.
Proof. intros (q & c). cbn [this]. apply Qred_iff. exact c. Qed.
Lemma integer_num : forall z, Qnum (Q2Qc (inject_Z z)) = z /\ Qden (Q2Qc (inject_Z z)) = 1%positive.
Proof.
  intros z. assert (E : Qred (inject_Z z) = inject_Z z) by (apply Qred_identity; cbn; apply Z.gcd_1_r). cbn [Q2Qc this]. rewrite E. auto.
Qed.

Lemma zq_mult : forall a b, (Q2Qc (inject_Z a) * Q2Qc (inject_Z b))%Qc = Q2Qc (inject_Z (a * b)).
Proof.
  intros a b. apply Qc_is_canon. cbn [this Q2Qc Qcmult]. rewrite !Qred_correct. rewrite inject_Z_mult. reflexivity.
Qed.
Lemma zq_inj0 : forall z, z <> 0%Z -> Q2Qc (inject_Z z) <> 0q.
Proof. intros z H E. apply H. destruct (integer_num z) as (N & _). rewrite <- N, E. reflexivity. Qed.
Lemma q_num : forall q : Qc, (q * Q2Qc (inject_Z (Zpos (Qden q))))%Qc = Q2Qc (inject_Z (Qnum q)).
Proof.
  intros q. apply Qc_is_canon. cbn [this Q2Qc Qcmult]. rewrite !Qred_correct. destruct q as ([n d] & c). unfold Qeq, inject_Z. cbn. lia.
Qed.

Definition primitive_list (l : list Qc) : Prop :=
  (forall q, In q l -> integral q) /\ forall d : Z, (forall q, In q l -> (d | Qnum q)%Z) -> (d | 1)%Z.
Lemma make_primitive : forall l, (exists q, In q l /\ q <> 0q) ->
  exists s, s <> 0q /\ makeColumnIntegralPrimitive l = Ok (map (fun q => (q * s)%Qc) l) /\ primitive_list (map (fun q => (q * s)%Qc) l).
Proof.
  intros l (q0 & I0 & NZ0). destruct l as [|first others]; [destruct I0|]. unfold makeColumnIntegralPrimitive.
  destruct (gcd_all others (Qnum first)) as (G1 & G2 & G3). destruct (lcm_all others (Zpos (Qden first))) as (L1 & L2 & L3 & L4).
  set (g := fold_left gcd_with others (Qnum first)) in *. set (L := fold_left lcm_with others (Zpos (Qden first))) in *.
  set (l := first :: others) in *.
  assert (Gd : forall q, In q l -> (g | Qnum q)%Z) by (intros q [<-|H]; auto).
  assert (Gg : forall d, (forall q, In q l -> (d | Qnum q)%Z) -> (d | g)%Z) by (intros d H; apply G3; [apply H; left; auto|intros; apply H; right; auto]).
  assert (Ld : forall q, In q l -> (Zpos (Qden q) | L)%Z) by (intros q [<-|H]; auto).
  assert (Ll : forall d, (forall q, In q l -> (Zpos (Qden q) | d)%Z) -> (L | d)%Z) by (intros d H; apply L3; [apply H; left; auto|intros; apply H; right; auto]).
  assert (Lp : (0 < L)%Z) by (apply L4; lia).
  assert (Num0 : Qnum q0 <> 0%Z).
  { intros e. apply NZ0. rewrite <- (Qcmult_1_r q0). replace 1q with (Q2Qc (inject_Z (Zpos (Qden q0))) / Q2Qc (inject_Z (Zpos (Qden q0))))%Qc
      by (field; apply zq_inj0; lia). unfold Qcdiv. rewrite Qcmult_assoc, q_num, e. change (Q2Qc (inject_Z 0)) with 0q. ring. }
  assert (Gn : g <> 0%Z). { intros e. destruct (Gd q0 I0) as (x & X). rewrite e in X. lia. }
  destruct (Z.eqb_spec g 0) as [|_]; [contradiction|].
  exists (/ Q2Qc (inject_Z g) * Q2Qc (inject_Z L))%Qc. split; [|split].
  - intros e. apply Qcmult_integral in e. destruct e as [e|e]; [|apply zq_inj0 in e; [auto|lia]].
    assert (X : (Q2Qc (inject_Z g) * / Q2Qc (inject_Z g))%Qc = 1q) by (field; apply zq_inj0; auto). rewrite e in X. rewrite Qcmult_comm, Qcmult_0_l in X. discriminate X.
  - f_equal. apply map_ext. intros q. unfold Qcdiv. ring.
  - assert (V : forall q, In q l -> exists n d, Qnum q = (n * g)%Z /\ L = (d * Zpos (Qden q))%Z /\
              (q * (/ Q2Qc (inject_Z g) * Q2Qc (inject_Z L)))%Qc = Q2Qc (inject_Z (n * d))).
    { intros q Hq. destruct (Gd q Hq) as (n & N). destruct (Ld q Hq) as (d & D). exists n, d. split; [auto|split; [auto|]].
      rewrite D. rewrite <- zq_mult. replace (q * (/ Q2Qc (inject_Z g) * (Q2Qc (inject_Z d) * Q2Qc (inject_Z (Zpos (Qden q))))))%Qc with
        ((q * Q2Qc (inject_Z (Zpos (Qden q)))) * / Q2Qc (inject_Z g) * Q2Qc (inject_Z d))%Qc by ring.
      rewrite q_num, N, <- !zq_mult. field. apply zq_inj0. auto. }
    split.
    + intros x Hx. apply in_map_iff in Hx. destruct Hx as (q & <- & Hq). destruct (V q Hq) as (n & d & _ & _ & ->). apply integer_num.
    + intros D HD.
      assert (HD' : forall q n d, In q l -> Qnum q = (n * g)%Z -> L = (d * Zpos (Qden q))%Z -> (D | n * d)%Z).
      { intros q n d Hq N E. destruct (V q Hq) as (n' & d' & N' & E' & W). assert (n' = n) by (apply Z.mul_reg_r with g; congruence).
        assert (d' = d) by (apply Z.mul_reg_r with (Zpos (Qden q)); [lia|congruence]). subst.
        specialize (HD _ (in_map _ _ _ Hq)). cbn beta in HD. rewrite W in HD. rewrite (proj1 (integer_num (n * d))) in HD. exact HD. }
      destruct (Z.eq_dec (Z.abs D) 1) as [e|NE]; [apply Z.divide_abs_l; rewrite e; apply Z.divide_refl|].
      destruct (Z.eq_dec D 0) as [->|ND].
      { exfalso. destruct (V q0 I0) as (n & d & N & E & _). destruct (HD' q0 n d I0 N E) as (x & X). rewrite Z.mul_0_r in X. apply Z.mul_eq_0 in X.
        destruct X as [->| ->]; lia. }
      exfalso. destruct (prime_divisor (Z.abs D) ltac:(lia)) as (pi & P & Pd). apply (proj1 (Z.divide_abs_r _ _)) in Pd.
      assert (P1 : (1 < pi)%Z) by (destruct P; auto).
      assert (HP : forall q n d, In q l -> Qnum q = (n * g)%Z -> L = (d * Zpos (Qden q))%Z -> (pi | n)%Z \/ (pi | d)%Z).
      { intros q n d Hq N E. apply prime_mult; auto. apply Z.divide_trans with D; auto. apply (HD' q n d); auto. }
      (* not all quotients n are divisible *)
      assert (C0 : exists q, In q l /\ ~ (pi | Qnum q / g)%Z).
      { destruct (Exists_dec (fun q : Qc => ~ (pi | Qnum q / g)%Z) l) as [X|X].
        { intros q. destruct (Zdivide_dec pi (Qnum q / g)); [right; tauto|left; auto]. }
        - apply Exists_exists in X. auto.
        - exfalso. assert (W : (g * pi | g)%Z).
          { apply Gg. intros q Hq. destruct (Zdivide_dec pi (Qnum q / g)) as [(y & Y)|ny].
            - destruct (Gd q Hq) as (n & N). rewrite N, Z.div_mul in Y by auto. rewrite N, Y. exists y. ring.
            - destruct X. apply Exists_exists. exists q. auto. }
          destruct W as (y & Y). assert (y * pi = 1)%Z by (apply Z.mul_reg_r with g; [auto|lia]). assert (pi | 1)%Z by (exists y; lia).
          apply Z.divide_1_r_nonneg in H0; lia. }
      assert (C1 : exists q, In q l /\ ~ (pi | L / Zpos (Qden q))%Z).
      { destruct (Exists_dec (fun q : Qc => ~ (pi | L / Zpos (Qden q))%Z) l) as [X|X].
        { intros q. destruct (Zdivide_dec pi (L / Zpos (Qden q))); [right; tauto|left; auto]. }
        - apply Exists_exists in X. auto.
        - exfalso. assert (Lpi : (pi | L)%Z).
          { destruct (Zdivide_dec pi (L / Zpos (Qden q0))) as [(y & Y)|ny].
            - destruct (Ld q0 I0) as (d & E). rewrite E, Z.div_mul in Y by lia. rewrite E, Y. exists (y * Zpos (Qden q0))%Z. ring.
            - destruct X. apply Exists_exists. exists q0. auto. }
          destruct Lpi as (z & Ez). assert (W : (L | z)%Z).
          { apply Ll. intros q Hq. destruct (Zdivide_dec pi (L / Zpos (Qden q))) as [(y & Y)|ny].
            - destruct (Ld q Hq) as (d & E). rewrite E, Z.div_mul in Y by lia. exists y. apply Z.mul_reg_r with pi; [lia|]. rewrite <- Ez, E, Y. ring.
            - destruct X. apply Exists_exists. exists q. auto. }
          destruct W as (y & Y). assert (y * pi = 1)%Z by (apply Z.mul_reg_r with z; [lia|]; rewrite Z.mul_1_l; rewrite Y at 2; rewrite Ez; ring).
          assert (pi | 1)%Z by (exists y; lia). apply Z.divide_1_r_nonneg in H0; lia. }
      destruct C0 as (qa & Ha & Na). destruct C1 as (qb & Hb & Nb).
      destruct (V qa Ha) as (na & da & Ea & Fa & _). destruct (V qb Hb) as (nb & db & Eb & Fb & _).
      rewrite Ea, Z.div_mul in Na by auto. rewrite Fb, Z.div_mul in Nb by lia.
      destruct (HP qa na da Ha Ea Fa) as [X|Da]; [contradiction|]. destruct (HP qb nb db Hb Eb Fb) as [Db|X]; [|contradiction].
      assert (PL : (pi | L)%Z) by (rewrite Fa; apply Z.divide_mul_l; auto).
      rewrite Fb in PL. apply prime_mult in PL; [|auto]. destruct PL as [X|PL]; [contradiction|].
      assert (PN : (pi | Qnum qb)%Z) by (rewrite Eb; apply Z.divide_mul_l; auto).
      pose proof (Z.gcd_greatest _ _ _ PN PL) as X. rewrite canonical in X. apply Z.divide_1_r_nonneg in X; lia.
Qed.
