(** Union-find: the partition computes the classes it is told to join. *)
From Coq Require Import List Arith Bool ZArith Lia Permutation.
Import ListNotations.
From Verif Require Import M_Term M_Ideal M_Slice M_Partition P_Term P_Ideal P_Msm2.

Lemma arr_set_length : forall a i z, length (arr_set a i z) = length a.
Proof. induction a as [|x a IH]; intros [|i] z; simpl; auto. Qed.

Lemma arr_get_set : forall a i z j, i < length a -> arr_get (arr_set a i z) j = if j =? i then z else arr_get a j.
Proof.
  unfold arr_get. induction a as [|x a IH]; intros i z j Hi; [simpl in Hi; lia|].
  destruct i as [|i]; destruct j as [|j]; simpl; auto. rewrite IH; auto. simpl in Hi. lia.
Qed.

Definition cnt (R : nat -> nat) (r : nat) (G : list nat) : nat := length (filter (fun x => R x =? r) G).

(** [R] gives the root of every element; [d] bounds the length of parent chains; [G] is the multiset of
    elements that were counted by addToSet. *)
Record PA (a : list Z) (R d : nat -> nat) (G : list nat) : Prop := mkPA {
  pa_lt : forall i, i < length a -> R i < length a;
  pa_root : forall i, i < length a -> (arr_get a (R i) < 0)%Z;
  pa_neg : forall i, i < length a -> (arr_get a i < 0)%Z -> R i = i;
  pa_par : forall i, i < length a -> (0 <= arr_get a i)%Z ->
    Z.to_nat (arr_get a i) < length a /\ R (Z.to_nat (arr_get a i)) = R i /\
    d (Z.to_nat (arr_get a i)) < d i;
  pa_d0 : forall i, i < length a -> (arr_get a i < 0)%Z -> d i = 0;
  pa_w : forall i, i < length a -> (arr_get a i < 0)%Z ->
    arr_get a i = (-1 - Z.of_nat (cnt R i G))%Z
}.

Lemma getRoot_loop_spec : forall R d G fuel a i, PA a R d G -> i < length a -> d i < fuel ->
  exists a', getRoot_loop fuel a i = Some (a', R i) /\ PA a' R d G /\ length a' = length a /\
    (forall j, ((arr_get a' j < 0)%Z <-> (arr_get a j < 0)%Z)) /\
    (forall j, (arr_get a j < 0)%Z -> arr_get a' j = arr_get a j).
Proof.
  intros R d G. induction fuel as [|fuel IH]; intros a i H Hi Hd; [lia|].
  cbn [getRoot_loop]. destruct (Z.leb_spec 0 (arr_get a i)) as [Hp|Hn].
  - destruct (pa_par _ _ _ _ H i Hi Hp) as [P1 [P2 P3]].
    destruct (IH a (Z.to_nat (arr_get a i)) H P1 ltac:(lia)) as [a' [E [H' [L [Sg V]]]]].
    rewrite E, P2. eexists. split; [reflexivity|].
    assert (Hi' : i < length a') by lia.
    assert (Hri : R i < length a') by (rewrite L; apply (pa_lt _ _ _ _ H); auto).
    assert (HR : (arr_get a' (R i) < 0)%Z) by (apply Sg; apply (pa_root _ _ _ _ H); auto).
    assert (Hpi : (0 <= arr_get a' i)%Z).
    { destruct (Z.ltb_spec (arr_get a' i) 0); auto. apply Sg in H0. lia. }
    assert (Hne : R i <> i) by (intros E'; rewrite E' in HR; lia).
    split; [|split; [rewrite arr_set_length; auto|split]].
    + constructor; rewrite arr_set_length.
      * intros j Hj. apply (pa_lt _ _ _ _ H' j Hj).
      * intros j Hj. rewrite arr_get_set by auto. destruct (Nat.eqb_spec (R j) i) as [Ej|].
        -- exfalso. pose proof (pa_root _ _ _ _ H' j Hj). rewrite Ej in H0. lia.
        -- apply (pa_root _ _ _ _ H' j Hj).
      * intros j Hj. rewrite arr_get_set by auto. destruct (Nat.eqb_spec j i); [lia|]. apply (pa_neg _ _ _ _ H' j Hj).
      * intros j Hj. rewrite arr_get_set by auto. destruct (Nat.eqb_spec j i) as [->|].
        -- intros _. rewrite Nat2Z.id. split; auto. split; [apply (pa_neg _ _ _ _ H'); auto|].
           rewrite (pa_d0 _ _ _ _ H' (R i)); auto. destruct (pa_par _ _ _ _ H' i Hi' Hpi) as [_ [_ D]]. lia.
        -- apply (pa_par _ _ _ _ H' j Hj).
      * intros j Hj. rewrite arr_get_set by auto. destruct (Nat.eqb_spec j i); [lia|]. apply (pa_d0 _ _ _ _ H' j Hj).
      * intros j Hj. rewrite arr_get_set by auto. destruct (Nat.eqb_spec j i); [lia|]. apply (pa_w _ _ _ _ H' j Hj).
    + intros j. rewrite arr_get_set by auto. rewrite <- Sg. destruct (Nat.eqb_spec j i) as [->|]; [lia|tauto].
    + intros j Hj. rewrite arr_get_set by auto. destruct (Nat.eqb_spec j i) as [->|]; [lia|auto].
  - exists a. rewrite (pa_neg _ _ _ _ H i Hi Hn). split; auto. split; auto. split; auto. split; auto. tauto.
Qed.

Record PI (n : nat) (p : partition) (R : nat -> nat) (G : list nat) : Prop := mkPI {
  pi_size : p_size p = n;
  pi_pa : exists d, PA (p_arr p) R d G /\ (forall i, i < n -> d i <= n - p_count p);
  pi_count : p_count p = length (p_roots p);
  pi_G : forall x, In x G -> x < n
}.

Lemma roots_ext : forall a a' c c', length a' = length a ->
  (forall j, ((arr_get a' j < 0)%Z <-> (arr_get a j < 0)%Z)) ->
  p_roots (mkPart a' c) = p_roots (mkPart a c').
Proof.
  intros a a' c c' L Sg. unfold p_roots, p_size. cbn [p_arr]. rewrite L. apply filter_ext. intros j.
  specialize (Sg j). destruct (Z.ltb_spec (arr_get a' j) 0), (Z.ltb_spec (arr_get a j) 0); tauto || lia.
Qed.

Lemma getRoot_spec : forall n p R G i, PI n p R G -> i < n ->
  exists p', p_getRoot p i = Some (p', R i) /\ PI n p' R G /\ p_roots p' = p_roots p /\
    p_count p' = p_count p /\ (forall j, (arr_get (p_arr p) j < 0)%Z -> arr_get (p_arr p') j = arr_get (p_arr p) j).
Proof.
  intros n p R G i [Hs [d [H Hd]] Hc HG] Hi. unfold p_getRoot. unfold p_size in *.
  destruct (getRoot_loop_spec R d G (S (length (p_arr p))) (p_arr p) i H ltac:(lia)) as [a' [E [H' [L [Sg V]]]]].
  { specialize (Hd i Hi). lia. }
  rewrite E. exists (mkPart a' (p_count p)).
  assert (Hr : p_roots (mkPart a' (p_count p)) = p_roots p) by (destruct p as [a c]; apply roots_ext; auto).
  split; auto. split; [|split; [|split]]; auto.
  constructor; unfold p_size; cbn [p_arr p_count]; auto; try lia; try congruence. exists d. auto.
Qed.

Lemma p_roots_in : forall p r, In r (p_roots p) <-> r < p_size p /\ (arr_get (p_arr p) r < 0)%Z.
Proof. intros p r. unfold p_roots. rewrite filter_In, in_seq, Z.ltb_lt. intuition lia. Qed.

Lemma p_roots_R : forall n p R G r, PI n p R G -> (In r (p_roots p) <-> r < n /\ R r = r).
Proof.
  intros n p R G r [Hs [d [H _]] _ _]. rewrite p_roots_in, Hs. unfold p_size in Hs. split; intros [A B]; split; auto.
  - apply (pa_neg _ _ _ _ H); auto; lia.
  - rewrite <- B. apply (pa_root _ _ _ _ H). lia.
Qed.

Lemma p_roots_nodup : forall p, NoDup (p_roots p).
Proof. intros p. apply NoDup_filter, seq_NoDup. Qed.

Lemma PI_lt : forall n p R G i, PI n p R G -> i < n -> R i < n /\ R (R i) = R i.
Proof.
  intros n p R G i [Hs [d [H _]] _ _] Hi. unfold p_size in Hs. pose proof (pa_lt _ _ _ _ H i ltac:(lia)).
  split; [lia|]. apply (pa_neg _ _ _ _ H); auto. apply (pa_root _ _ _ _ H). lia.
Qed.

Lemma PI_weight : forall n p R G r, PI n p R G -> In r (p_roots p) ->
  arr_get (p_arr p) r = (-1 - Z.of_nat (cnt R r G))%Z.
Proof.
  intros n p R G r H Hr. apply p_roots_in in Hr. destruct Hr as [A B].
  destruct H as [Hs [d [H _]] _ _]. apply (pa_w _ _ _ _ H); auto.
Qed.

Lemma reset_PI : forall n, PI n (p_reset n) (fun i => i) [].
Proof.
  intros n. assert (Hg : forall i, i < n -> arr_get (repeat (-1)%Z n) i = (-1)%Z).
  { intros i Hi. unfold arr_get. rewrite nth_repeat_lt || idtac. 
    revert i Hi. induction n as [|n IH]; intros i Hi; [lia|]. destruct i; simpl; auto. apply IH; lia. }
  constructor; unfold p_reset, p_size; cbn [p_arr p_count].
  - apply repeat_length.
  - exists (fun _ => 0). split; [|intros; lia]. constructor; rewrite repeat_length; intros i Hi; auto; try (rewrite Hg; auto; lia).
  - unfold p_roots, p_size. cbn [p_arr]. rewrite repeat_length. symmetry. rewrite <- (seq_length n 0) at 2.
    f_equal. apply filter_same. intros i Hi. apply in_seq in Hi. rewrite Hg by lia. auto.
  - intros x [].
Qed.

Definition merge (R : nat -> nat) (i j x : nat) : nat := if R x =? R j then R i else R x.

Lemma filter_remove1 : forall (l : list nat) f g x, NoDup l -> In x l -> f x = true -> g x = false ->
  (forall y, In y l -> y <> x -> g y = f y) -> length (filter g l) = length (filter f l) - 1.
Proof.
  induction l as [|a l IH]; intros f g x Hnd Hin Hf Hg H; [destruct Hin|]. inversion Hnd as [|? ? N1 N2]; subst.
  simpl. destruct Hin as [->|Hin].
  - rewrite Hf, Hg. simpl. rewrite Nat.sub_0_r. f_equal. apply filter_ext_in. intros y Hy. apply H; [right; auto|].
    intros ->; contradiction.
  - assert (Hne : a <> x) by (intros ->; contradiction). rewrite (H a); [|left; auto|auto].
    specialize (IH f g x N2 Hin Hf Hg ltac:(intros; apply H; [right|]; auto)).
    destruct (f a); simpl; rewrite IH; auto.
    assert (0 < length (filter f l)).
    { assert (Hx : In x (filter f l)) by (apply filter_In; auto). destruct (filter f l); [destruct Hx|simpl; lia]. }
    lia.
Qed.

Lemma filter_split : forall {A} (f g h : A -> bool) l, (forall x, In x l -> h x = f x || g x) ->
  (forall x, In x l -> f x && g x = false) -> length (filter h l) = length (filter f l) + length (filter g l).
Proof.
  induction l as [|a l IH]; intros H1 H2; simpl; auto. rewrite (H1 a (or_introl eq_refl)).
  pose proof (H2 a (or_introl eq_refl)) as Hfg.
  specialize (IH ltac:(intros; apply H1; right; auto) ltac:(intros; apply H2; right; auto)).
  destruct (f a), (g a); simpl in *; try discriminate; rewrite IH; lia.
Qed.

Lemma join_spec : forall n p R G i j, PI n p R G -> i < n -> j < n ->
  (R i = R j -> exists p', p_join p i j = Some (p', false) /\ PI n p' R G /\ p_count p' = p_count p) /\
  (R i <> R j -> exists p', p_join p i j = Some (p', true) /\ PI n p' (merge R i j) G /\ p_count p' = p_count p - 1).
Proof.
  intros n p R G i j H Hi Hj. unfold p_join.
  destruct (getRoot_spec n p R G i H Hi) as [p1 [E1 [H1 [R1 [C1 V1]]]]]. rewrite E1.
  destruct (getRoot_spec n p1 R G j H1 Hj) as [p2 [E2 [H2 [R2 [C2 V2]]]]]. rewrite E2. split; intros Hr.
  - rewrite (proj2 (Nat.eqb_eq _ _) Hr). exists p2. split; auto. split; auto. lia.
  - rewrite (proj2 (Nat.eqb_neq _ _) Hr). eexists. split; [reflexivity|]. cbn [p_count]. split; [|lia].
    destruct (PI_lt n p2 R G i H2 Hi) as [Li Ri]. destruct (PI_lt n p2 R G j H2 Hj) as [Lj Rj].
    assert (Hri : In (R i) (p_roots p2)) by (apply (p_roots_R n p2 R G); auto).
    assert (Hrj : In (R j) (p_roots p2)) by (apply (p_roots_R n p2 R G); auto).
    pose proof (PI_weight _ _ _ _ _ H2 Hri) as Wi. pose proof (PI_weight _ _ _ _ _ H2 Hrj) as Wj.
    pose proof (fun r => p_roots_R n p2 R G r H2) as HrR.
    destruct H2 as [Hs [d [HA Hd]] Hc HG]. set (a := p_arr p2) in *. unfold p_size in Hs. fold a in Hs.
    set (a1 := arr_set a (R i) (arr_get a (R i) + (arr_get a (R j) + 1))%Z).
    set (a2 := arr_set a1 (R j) (Z.of_nat (R i))).
    assert (L1 : length a1 = n) by (unfold a1; rewrite arr_set_length; auto).
    assert (L2 : length a2 = n) by (unfold a2; rewrite arr_set_length; auto).
    assert (Hget : forall x, arr_get a2 x = if x =? R j then Z.of_nat (R i)
        else if x =? R i then (arr_get a (R i) + (arr_get a (R j) + 1))%Z else arr_get a x).
    { intros x. unfold a2. rewrite arr_get_set by lia. destruct (x =? R j); auto.
      unfold a1. rewrite arr_get_set by lia. auto. }
    assert (Hneg_i : (arr_get a (R i) < 0)%Z) by (rewrite Wi; lia).
    assert (Hneg_j : (arr_get a (R j) < 0)%Z) by (rewrite Wj; lia).
    assert (Hsg : forall x, x < n -> (arr_get a2 x < 0)%Z -> x <> R j /\ (arr_get a x < 0)%Z).
    { intros x Hx. rewrite Hget. destruct (Nat.eqb_spec x (R j)); [lia|]. intros Hlt. split; auto.
      destruct (Nat.eqb_spec x (R i)); subst; auto. }
    assert (Hcpos : 1 < length (p_roots p2)).
    { assert (Hx : length [R i; R j] <= length (p_roots p2)).
      { apply NoDup_incl_length; [constructor; [intros [E|[]]; auto|constructor; [intros []|constructor]]|].
        intros x [<-|[<-|[]]]; auto. }
      simpl in Hx. lia. }
    assert (Hcle : length (p_roots p2) <= n).
    { unfold p_roots, p_size. fold a. rewrite Hs. etransitivity; [apply filter_length_le|]. rewrite seq_length. auto. }
    constructor; unfold p_size; cbn [p_arr p_count]; auto.
    + exists (fun x => if R x =? R j then S (d x) else d x). split.
      * constructor; rewrite L2; unfold merge.
        -- intros x Hx. destruct (R x =? R j); auto. rewrite <- Hs. apply (pa_lt _ _ _ _ HA). lia.
        -- intros x Hx. rewrite Hget. destruct (Nat.eqb_spec (R x) (R j)) as [E|E].
           ++ rewrite (proj2 (Nat.eqb_neq _ _) Hr), Nat.eqb_refl. lia.
           ++ rewrite (proj2 (Nat.eqb_neq _ _) E). destruct (Nat.eqb_spec (R x) (R i)); [lia|].
              apply (pa_root _ _ _ _ HA). lia.
        -- intros x Hx Hlt. destruct (Hsg x Hx Hlt) as [N1 N2]. rewrite (pa_neg _ _ _ _ HA x ltac:(lia) N2).
           destruct (Nat.eqb_spec x (R j)); [contradiction|auto].
        -- intros x Hx. rewrite Hget. destruct (Nat.eqb_spec x (R j)) as [->|N].
           ++ intros _. rewrite Nat2Z.id. split; auto. rewrite Ri, Rj, Nat.eqb_refl.
              rewrite (proj2 (Nat.eqb_neq _ _) Hr). split; auto. rewrite (pa_d0 _ _ _ _ HA (R i)); auto; lia.
           ++ destruct (Nat.eqb_spec x (R i)); [lia|]. intros Hp.
              destruct (pa_par _ _ _ _ HA x ltac:(lia) Hp) as [P1 [P2 P3]]. rewrite P2. split; [lia|]. split; auto.
              destruct (R x =? R j); lia.
        -- intros x Hx Hlt. destruct (Hsg x Hx Hlt) as [N1 N2]. rewrite (pa_neg _ _ _ _ HA x ltac:(lia) N2).
           destruct (Nat.eqb_spec x (R j)); [contradiction|]. apply (pa_d0 _ _ _ _ HA); auto; lia.
        -- intros x Hx Hlt. destruct (Hsg x Hx Hlt) as [N1 N2]. rewrite Hget.
           rewrite (proj2 (Nat.eqb_neq _ _) N1). destruct (Nat.eqb_spec x (R i)) as [->|N].
           ++ rewrite Wi, Wj. unfold cnt.
              rewrite (filter_split (fun y => R y =? R i) (fun y => R y =? R j)
                (fun y => (if R y =? R j then R i else R y) =? R i)); [lia| |].
              ** intros y _. destruct (Nat.eqb_spec (R y) (R j)) as [E|E]; [rewrite Nat.eqb_refl, orb_true_r; auto|].
                 rewrite orb_false_r. auto.
              ** intros y _. destruct (Nat.eqb_spec (R y) (R j)) as [E|E]; [|apply andb_false_r].
                 rewrite E. rewrite (proj2 (Nat.eqb_neq (R j) (R i))); auto.
           ++ rewrite (pa_w _ _ _ _ HA x ltac:(lia) N2). unfold cnt. do 3 f_equal. apply filter_ext_in. intros y Hy.
              destruct (Nat.eqb_spec (R y) (R j)) as [E|E]; auto. rewrite E.
              rewrite (proj2 (Nat.eqb_neq (R j) x)), (proj2 (Nat.eqb_neq (R i) x)); auto.
      * intros x Hx. specialize (Hd x Hx). rewrite Hc in Hd. rewrite Hc. destruct (R x =? R j); lia.
    + rewrite Hc. unfold p_roots, p_size. cbn [p_arr]. rewrite L2. fold a. rewrite Hs. symmetry.
      apply filter_remove1 with (x := R j).
      * apply seq_NoDup.
      * apply in_seq. lia.
      * apply Z.ltb_lt. auto.
      * rewrite Hget, Nat.eqb_refl. apply Z.ltb_ge. lia.
      * intros y Hy Hne. apply in_seq in Hy. rewrite Hget. rewrite (proj2 (Nat.eqb_neq _ _) Hne).
        destruct (Nat.eqb_spec y (R i)) as [->|]; auto.
        destruct (Z.ltb_spec (arr_get a (R i) + (arr_get a (R j) + 1)) 0), (Z.ltb_spec (arr_get a (R i)) 0); auto; lia.
Qed.

Lemma addToSet_spec : forall n p R G i, PI n p R G -> i < n ->
  exists p', p_addToSet p i = Some p' /\ PI n p' R (i :: G) /\ p_count p' = p_count p.
Proof.
  intros n p R G i H Hi. unfold p_addToSet.
  destruct (getRoot_spec n p R G i H Hi) as [p1 [E1 [H1 [R1 [C1 V1]]]]]. rewrite E1.
  eexists. split; [reflexivity|]. cbn [p_count]. split; [|auto].
  destruct (PI_lt n p1 R G i H1 Hi) as [Li Ri].
  assert (Hri : In (R i) (p_roots p1)) by (apply (p_roots_R n p1 R G); auto).
  pose proof (PI_weight _ _ _ _ _ H1 Hri) as Wi.
  destruct H1 as [Hs [d [HA Hd]] Hc HG]. set (a := p_arr p1) in *. unfold p_size in Hs. fold a in Hs.
  assert (Hget : forall x, arr_get (arr_set a (R i) (arr_get a (R i) - 1)%Z) x = if x =? R i then (arr_get a (R i) - 1)%Z else arr_get a x).
  { intros x. apply arr_get_set. lia. }
  assert (Hsg : forall x, ((arr_get (arr_set a (R i) (arr_get a (R i) - 1)%Z) x < 0)%Z <-> (arr_get a x < 0)%Z)).
  { intros x. rewrite Hget. destruct (Nat.eqb_spec x (R i)) as [->|]; [|tauto]. rewrite Wi. lia. }
  constructor; unfold p_size; cbn [p_arr p_count]; auto.
  - rewrite arr_set_length. auto.
  - exists d. split; auto. constructor; rewrite arr_set_length.
    + apply (pa_lt _ _ _ _ HA).
    + intros x Hx. apply Hsg. apply (pa_root _ _ _ _ HA x Hx).
    + intros x Hx Hlt. apply Hsg in Hlt. apply (pa_neg _ _ _ _ HA x Hx Hlt).
    + intros x Hx. rewrite Hget. destruct (Nat.eqb_spec x (R i)); [rewrite Wi; lia|]. apply (pa_par _ _ _ _ HA x Hx).
    + intros x Hx Hlt. apply Hsg in Hlt. apply (pa_d0 _ _ _ _ HA x Hx Hlt).
    + intros x Hx Hlt. apply Hsg in Hlt. rewrite Hget. unfold cnt. cbn [filter].
      destruct (Nat.eqb_spec x (R i)) as [->|N].
      * rewrite Nat.eqb_refl. cbn [length]. rewrite Wi. unfold cnt. lia.
      * rewrite (proj2 (Nat.eqb_neq (R i) x)) by auto. apply (pa_w _ _ _ _ HA x Hx Hlt).
  - rewrite Hc. f_equal. destruct p1 as [a' c']. symmetry. apply roots_ext; [apply arr_set_length|exact Hsg].
  - intros x [<-|Hx]; auto.
Qed.

Lemma class_members_spec : forall n p R G r l, PI n p R G -> (forall x, In x l -> x < n) ->
  class_members p r l = Some (filter (fun i => R i =? r) l).
Proof.
  intros n p R G r l H. induction l as [|i l IH]; intros Hl; auto. cbn [class_members].
  destruct (getRoot_spec n p R G i H ltac:(apply Hl; left; auto)) as [p1 [E1 _]]. rewrite E1, IH by (intros; apply Hl; right; auto).
  cbn [filter]. auto.
Qed.

Lemma getSizeOfClassOf_spec : forall n p R G i, PI n p R G -> i < n ->
  exists p', p_getSizeOfClassOf p i = Some (p', (1 + Z.of_nat (cnt R (R i) G))%Z) /\
    PI n p' R G /\ p_roots p' = p_roots p /\ p_count p' = p_count p.
Proof.
  intros n p R G i H Hi. unfold p_getSizeOfClassOf.
  destruct (getRoot_spec n p R G i H Hi) as [p1 [E1 [H1 [R1 [C1 V1]]]]]. rewrite E1. exists p1.
  assert (Hri : In (R i) (p_roots p1)).
  { apply (p_roots_R n p1 R G); auto. apply (PI_lt n p1 R G); auto. }
  rewrite (PI_weight _ _ _ _ _ H1 Hri). split; [do 2 f_equal; lia|auto].
Qed.

Lemma getSetSize_spec : forall n p R G k r, PI n p R G -> nth_error (p_roots p) k = Some r ->
  p_getSetSize p k = Some (Z.of_nat (cnt R r G)).
Proof.
  intros n p R G k r H E. unfold p_getSetSize. rewrite E.
  rewrite (PI_weight _ _ _ _ _ H (nth_error_In _ _ E)). f_equal. lia.
Qed.
