(** Corners: maximal standard monomials shifted by one, characterised by the order of exponents alone; and
    irreducible decompositions read off the corners of an ideal with pure powers added. *)
From Coq Require Import List Arith Bool Lia.
Import ListNotations.
From Verif Require Import Spec M_Term M_Ideal P_Term P_Ideal P_Bridge P_Msm1.

Lemma not_le_n : forall n a b, ~ le_n n a b -> exists v, v < n /\ b @ v < a @ v.
Proof.
  intros n a b H. destruct (existsb (fun v => b @ v <? a @ v) (seq 0 n)) eqn:E.
  - apply existsb_seq in E. destruct E as [v [Hv E]]. apply Nat.ltb_lt in E. exists v. auto.
  - exfalso. apply H. intros v Hv. destruct (Nat.lt_ge_cases (b @ v) (a @ v)) as [L|L]; auto. exfalso.
    rewrite not_true_false in E. apply E. apply existsb_seq. exists v. split; auto. apply Nat.ltb_lt. auto.
Qed.

Definition corner (n : nat) (J : ideal) (d : term) : Prop :=
  length d = n /\ (forall v, v < n -> 0 < d @ v) /\
  (forall g, In g J -> exists v, v < n /\ d @ v <= g @ v) /\
  forall v, v < n -> exists g, In g J /\ g @ v = d @ v /\ forall w, w < n -> w <> v -> g @ w < d @ w.

Lemma map_S_nth : forall m v, v < length m -> (map S m) @ v = S (m @ v).
Proof. intros m v Hv. rewrite nth_indep with (d' := S 0) by (rewrite map_length; auto). apply map_nth. Qed.

Lemma corner_iff : forall n J d, corner n J d <-> exists m, msm n J m /\ d = map S m.
Proof.
  intros n J d. split.
  - intros [Hl [Hp [Hn Hlab]]]. exists (map pred d). 
    assert (Hm : forall v, v < n -> (map pred d) @ v = pred (d @ v)).
    { intros v Hv. exact (map_nth pred d 0 v). }
    assert (Hlm : length (map pred d) = n) by (rewrite map_length; auto).
    split.
    + apply msm_intro; auto.
      * intros [g [Hg Hle]]. destruct (Hn g Hg) as [v [Hv H]]. specialize (Hle v Hv). rewrite Hm in Hle by auto.
        specialize (Hp v Hv). lia.
      * intros v Hv. destruct (Hlab v Hv) as [g [Hg [E H]]]. exists g. split; auto. split.
        -- rewrite Hm by auto. specialize (Hp v Hv). lia.
        -- intros w Hw Hne. rewrite Hm by auto. specialize (H w Hw Hne). lia.
    + apply term_ext with n; auto; [rewrite !map_length; auto|]. intros v Hv.
      rewrite map_S_nth by lia. rewrite Hm by auto. specialize (Hp v Hv). lia.
  - intros [m [Hm ->]]. pose proof Hm as [Hl [Hn Hu]].
    assert (Hd : forall v, v < n -> (map S m) @ v = S (m @ v)) by (intros; apply map_S_nth; lia).
    split; [rewrite map_length; auto|]. split; [|split].
    + intros v Hv. rewrite Hd by auto. lia.
    + intros g Hg. destruct (not_le_n n g m) as [v [Hv H]].
      * intros H. apply Hn. exists g. auto.
      * exists v. split; auto. rewrite Hd by auto. auto.
    + intros v Hv. destruct (msm_lab n J m v Hm Hv) as [g [Hg [E H]]]. exists g. split; auto. split.
      * rewrite Hd by auto. auto.
      * intros w Hw Hne. rewrite Hd by auto. specialize (H w Hw Hne). lia.
Qed.

Lemma corner_antichain : forall n J d d', corner n J d -> corner n J d' -> le_n n d d' -> d = d'.
Proof.
  intros n J d d' [Hl [Hp [Hn Hlab]]] [Hl' [Hp' [Hn' Hlab']]] Hle. apply term_ext with n; auto.
  intros v Hv. destruct (Nat.lt_ge_cases (d @ v) (d' @ v)) as [Hlt|]; [|specialize (Hle v Hv); lia]. exfalso.
  destruct (Hlab v Hv) as [g [Hg [E H]]]. destruct (Hn' g Hg) as [w [Hw Hwd]].
  destruct (Nat.eq_dec w v) as [E'|Hne]; [subst; lia|]. specialize (H w Hw Hne). specialize (Hle w Hw). lia.
Qed.

(** every standard monomial of an artinian ideal lies below a maximal one *)
Definition artinian (n : nat) (J : ideal) : Prop :=
  forall v, v < n -> exists g, In g J /\ forall w, w < n -> w <> v -> g @ w = 0.

Lemma msm_above : forall n J, artinian n J -> forall t, length t = n -> ~ inI n J t ->
  exists m, msm n J m /\ le_n n t m.
Proof.
  intros n J HA.
  assert (H : forall k t, length t = n -> ~ inI n J t ->
    list_sum (map (fun v => (i_lcm n J) @ v - t @ v) (seq 0 n)) <= k -> exists m, msm n J m /\ le_n n t m).
  { assert (Hsum : forall (f g : nat -> nat) v l, In v l -> (forall w, In w l -> f w <= g w) -> f v < g v ->
       list_sum (map f l) < list_sum (map g l)).
    { intros f g v l. induction l as [|a l IH]; intros Hi Hle Hlt; simpl in *; [destruct Hi|].
      assert (Hrest : list_sum (map f l) <= list_sum (map g l)).
      { clear - Hle. induction l as [|b l IH]; simpl in *; auto. pose proof (Hle b (or_intror (or_introl eq_refl))).
        assert (list_sum (map f l) <= list_sum (map g l)); [apply IH; intros w [Hw|Hw]; apply Hle; auto|]. lia. }
      pose proof (Hle a (or_introl eq_refl)). destruct Hi as [->|Hi]; [lia|].
      assert (list_sum (map f l) < list_sum (map g l)) by (apply IH; auto). lia. }
    induction k as [|k IH]; intros t Ht Hn Hk.
    all: destruct (forallb (fun v => i_contains n J (up n t v)) (seq 0 n)) eqn:E.
    1, 3: exists t; split; [|apply le_n_refl]; split; auto; split; auto; intros v Hv;
      rewrite forallb_seq in E; apply i_contains_iff; auto.
    all: assert (Hv : exists v, v < n /\ ~ inI n J (up n t v)).
    1, 3: destruct (existsb (fun v => negb (i_contains n J (up n t v))) (seq 0 n)) eqn:E2;
      [apply existsb_seq in E2; destruct E2 as [v [Hv H]]; exists v; split; auto; intros Hi; apply i_contains_iff in Hi;
       rewrite Hi in H; discriminate
      |exfalso; rewrite not_true_false in E; apply E; apply forallb_seq; intros v Hv;
       destruct (i_contains n J (up n t v)) eqn:E3; auto; exfalso; rewrite not_true_false in E2; apply E2;
       apply existsb_seq; exists v; rewrite E3; auto].
    all: destruct Hv as [v [Hv Hnv]].
    all: assert (Hlt : t @ v < (i_lcm n J) @ v) by
      (destruct (HA v Hv) as [g [Hg Hz]]; pose proof (i_lcm_ge n J g v Hv Hg);
       destruct (Nat.lt_ge_cases (t @ v) (g @ v)) as [|Hge]; [lia|];
       exfalso; apply Hn; exists g; split; auto; intros w Hw; destruct (Nat.eq_dec w v) as [->|Hne]; auto;
       rewrite Hz by auto; lia).
    all: assert (Hs : list_sum (map (fun w => (i_lcm n J) @ w - (up n t v) @ w) (seq 0 n)) <
                      list_sum (map (fun w => (i_lcm n J) @ w - t @ w) (seq 0 n))) by
      (apply Hsum with v; [apply in_seq; lia| |];
       [intros w Hw; apply in_seq in Hw; rewrite up_nth by lia; destruct (Nat.eqb_spec w v) as [E'|]; [subst w|]; lia
       |rewrite up_nth by auto; rewrite Nat.eqb_refl; lia]).
    - lia.
    - destruct (IH (up n t v)) as [m [Hm Hle]]; auto; [apply t_set_length|lia|].
      exists m. split; auto. apply le_n_trans with (up n t v); auto. intros w Hw. rewrite up_nth by auto.
      destruct (Nat.eqb_spec w v) as [E'|]; [subst w|]; lia. }
  intros t Ht Hn. eapply H; eauto.
Qed.

Lemma corner_above : forall n J t, artinian n J -> length t = n -> ~ inI n J t ->
  exists d, corner n J d /\ forall v, v < n -> t @ v < d @ v.
Proof.
  intros n J t HA Ht Hn. destruct (msm_above n J HA t Ht Hn) as [m [Hm Hle]].
  exists (map S m). split; [apply corner_iff; exists m; auto|]. intros v Hv. rewrite map_S_nth by (destruct Hm; lia).
  specialize (Hle v Hv). lia.
Qed.

(** ** Order embeddings *)
(** [phi v] maps ids below [K v] to exponents, strictly increasing, with 0 to 0. *)
Definition embedding (n : nat) (K : nat -> nat) (phi : nat -> nat -> nat) : Prop :=
  forall v, v < n -> 0 < K v /\ phi v 0 = 0 /\ forall i j, i < j -> j < K v -> phi v i < phi v j.

Lemma emb_lt : forall n K phi v i j, embedding n K phi -> v < n -> i < K v -> j < K v -> (phi v i < phi v j <-> i < j).
Proof.
  intros n K phi v i j H Hv Hi Hj. destruct (H v Hv) as [_ [_ M]]. split; intros L.
  - destruct (Nat.lt_trichotomy i j) as [|[E|G]]; auto; [subst; lia|]. pose proof (M j i G Hi). lia.
  - auto.
Qed.
Lemma emb_le : forall n K phi v i j, embedding n K phi -> v < n -> i < K v -> j < K v -> (phi v i <= phi v j <-> i <= j).
Proof. intros n K phi v i j H Hv Hi Hj. pose proof (emb_lt n K phi v j i H Hv Hj Hi). lia. Qed.
Lemma emb_inj : forall n K phi v i j, embedding n K phi -> v < n -> i < K v -> j < K v -> phi v i = phi v j -> i = j.
Proof. intros n K phi v i j H Hv Hi Hj E. pose proof (emb_lt n K phi v j i H Hv Hj Hi). pose proof (emb_lt n K phi v i j H Hv Hi Hj). lia. Qed.
Lemma emb_pos : forall n K phi v i, embedding n K phi -> v < n -> i < K v -> (0 < phi v i <-> 0 < i).
Proof.
  intros n K phi v i H Hv Hi. destruct (H v Hv) as [K0 [Z _]]. rewrite <- Z at 1. apply emb_lt with n K; auto.
Qed.

Definition image (n : nat) (phi : nat -> nat -> nat) (g : term) : term := tabulate n (fun v => phi v (g @ v)).
Definition below (n : nat) (K : nat -> nat) (J : ideal) : Prop := forall g v, In g J -> v < n -> g @ v < K v.

Lemma image_nth : forall n phi g v, v < n -> (image n phi g) @ v = phi v (g @ v).
Proof. intros n phi g v H. unfold image. rewrite tabulate_nth; auto. Qed.

(** corners without pure powers at infinity *)
Lemma corner_image : forall n K phi J d', embedding n K phi -> below n K J ->
  (corner n (map (image n phi) J) d' <-> exists d, corner n J d /\ d' = image n phi d).
Proof.
  intros n K phi J d' HE HB. unfold below in HB. split.
  - intros [Hl [Hp [Hn Hlab]]].
    (* every entry of d' is the image of an id *)
    assert (Hpre : forall v, v < n -> exists i, i < K v /\ phi v i = d' @ v).
    { intros v Hv. destruct (Hlab v Hv) as [g' [Hg' [E _]]]. apply in_map_iff in Hg'. destruct Hg' as [g [<- Hg]].
      exists (g @ v). split; [apply HB; auto|]. rewrite <- E. rewrite image_nth; auto. }
    set (d := tabulate n (fun v => match find (fun i => phi v i =? d' @ v) (seq 0 (K v)) with Some i => i | None => 0 end)).
    assert (Hd : forall v, v < n -> d @ v < K v /\ phi v (d @ v) = d' @ v).
    { intros v Hv. unfold d. rewrite tabulate_nth by auto. destruct (Hpre v Hv) as [i [Hi E]].
      destruct (find _ _) as [j|] eqn:F.
      - apply find_some in F. destruct F as [F1 F2]. apply in_seq in F1. apply Nat.eqb_eq in F2. split; [lia|auto].
      - exfalso. pose proof (find_none _ _ F i ltac:(apply in_seq; lia)) as F'. simpl in F'. apply Nat.eqb_neq in F'. auto. }
    exists d. assert (E : d' = image n phi d).
    { apply term_ext with n; auto; [apply tabulate_length|]. intros v Hv. rewrite image_nth by auto. symmetry. apply Hd. auto. }
    split; auto. split; [apply tabulate_length|]. split; [|split].
    + intros v Hv. destruct (Hd v Hv) as [A B]. apply (emb_pos n K phi v); auto. rewrite B. auto.
    + intros g Hg. destruct (Hn (image n phi g) (in_map _ _ _ Hg)) as [v [Hv L]]. rewrite image_nth in L by auto.
      destruct (Hd v Hv) as [A B]. rewrite <- B in L. exists v. split; auto.
      exact (proj1 (emb_le n K phi v _ _ HE Hv A (HB _ _ Hg Hv)) L).
    + intros v Hv. destruct (Hlab v Hv) as [g' [Hg' [E1 H]]]. apply in_map_iff in Hg'. destruct Hg' as [g [<- Hg]].
      rewrite image_nth in E1 by auto. exists g. split; auto. split.
      * destruct (Hd v Hv) as [A B]. apply (emb_inj n K phi v); auto; congruence.
      * intros w Hw Hne. specialize (H w Hw Hne). rewrite image_nth in H by auto. destruct (Hd w Hw) as [A B].
        rewrite <- B in H. exact (proj1 (emb_lt n K phi w _ _ HE Hw (HB _ _ Hg Hw) A) H).
  - intros [d [Hd ->]]. pose proof Hd as [Hl [Hp [Hn Hlab]]].
    assert (HK : forall v, v < n -> d @ v < K v).
    { intros v Hv. destruct (Hlab v Hv) as [g [Hg [E _]]]. rewrite <- E. auto. }
    split; [apply tabulate_length|]. split; [|split].
    + intros v Hv. rewrite image_nth by auto. apply (emb_pos n K phi v); auto.
    + intros g' Hg'. apply in_map_iff in Hg'. destruct Hg' as [g [<- Hg]]. destruct (Hn g Hg) as [v [Hv L]].
      exists v. split; auto. rewrite !image_nth by auto. apply (emb_le n K phi v); auto.
    + intros v Hv. destruct (Hlab v Hv) as [g [Hg [E H]]]. exists (image n phi g). split; [apply in_map; auto|].
      rewrite !image_nth by auto. split; [congruence|]. intros w Hw Hne. rewrite !image_nth by auto.
      apply (emb_lt n K phi w); auto.
Qed.

(** ** Irreducible decomposition *)
Definition with_infinity (n : nat) (K : nat -> nat) (J J' : ideal) : Prop :=
  incl J J' /\ artinian n J' /\
  forall g, In g J' -> In g J \/ exists v, v < n /\ g @ v = K v /\ forall w, w < n -> w <> v -> g @ w = 0.

Definition comp (n : nat) (K : nat -> nat) (phi : nat -> nat -> nat) (d : term) : term :=
  tabulate n (fun v => if d @ v =? K v then 0 else phi v (d @ v)).

Lemma comp_nth : forall n K phi d v, v < n -> (comp n K phi d) @ v = if d @ v =? K v then 0 else phi v (d @ v).
Proof. intros. unfold comp. rewrite tabulate_nth; auto. Qed.

Section Decomposition.
Variables (n : nat) (K : nat -> nat) (phi : nat -> nat -> nat) (J J' : ideal) (I : list mono).
Hypothesis HE : embedding n K phi.
Hypothesis HB : forall g v, In g J -> v < n -> g @ v < K v.
Hypothesis HJ : with_infinity n K J J'.
Hypothesis HI : forall m, length m = n -> (in_ideal I m <-> exists g, In g J /\ forall v, v < n -> phi v (g @ v) <= m @ v).

Lemma corner_le_K : forall d v, corner n J' d -> v < n -> d @ v <= K v.
Proof.
  intros d v [Hl [Hp [Hn Hlab]]] Hv. destruct (Hlab v Hv) as [g [Hg [E _]]]. destruct HJ as [_ [_ H]].
  destruct (H g Hg) as [Hg'|[w [Hw [E1 E2]]]].
  - rewrite <- E. specialize (HB g v Hg' Hv). lia.
  - destruct (Nat.eq_dec v w) as [E3|E3]; [subst w; lia|]. specialize (E2 v Hv E3). specialize (Hp v Hv). lia.
Qed.

(** the label of a finite entry is an original generator *)
Lemma corner_label : forall d v, corner n J' d -> v < n -> d @ v < K v ->
  exists g, In g J /\ g @ v = d @ v /\ forall w, w < n -> w <> v -> g @ w < d @ w.
Proof.
  intros d v Hc Hv Hlt. pose proof Hc as [Hl [Hp [Hn Hlab]]]. destruct (Hlab v Hv) as [g [Hg [E H]]].
  destruct HJ as [_ [_ HJ3]]. destruct (HJ3 g Hg) as [Hg'|[w [Hw [E1 E2]]]].
  - exists g. auto.
  - exfalso. destruct (Nat.eq_dec v w) as [E3|E3]; [subst w; lia|]. specialize (E2 v Hv E3). specialize (Hp v Hv). lia.
Qed.

Lemma comp_pos : forall d v, corner n J' d -> v < n -> (0 < (comp n K phi d) @ v <-> d @ v < K v).
Proof.
  intros d v Hc Hv. rewrite comp_nth by auto. pose proof (corner_le_K d v Hc Hv).
  destruct (Nat.eqb_spec (d @ v) (K v)); [lia|]. destruct Hc as [_ [Hp _]]. specialize (Hp v Hv).
  rewrite (emb_pos n K phi v) by (auto; lia). lia.
Qed.

Lemma comp_val : forall d v, v < n -> d @ v < K v -> (comp n K phi d) @ v = phi v (d @ v).
Proof. intros d v Hv H. rewrite comp_nth by auto. destruct (Nat.eqb_spec (d @ v) (K v)); [lia|auto]. Qed.

Lemma in_irr_iff : forall c m, length c = n -> (in_irreducible c m <-> exists v, v < n /\ 0 < c @ v /\ c @ v <= m @ v).
Proof.
  intros c m Hl. unfold in_irreducible. split; intros [v H].
  - exists v. destruct H as [A B]. destruct (Nat.lt_ge_cases v n); [auto|]. rewrite nth_overflow in A by lia. lia.
  - exists v. tauto.
Qed.

Lemma not_in_irr : forall c m, length c = n ->
  (~ in_irreducible c m <-> forall v, v < n -> 0 < c @ v -> m @ v < c @ v).
Proof.
  intros c m Hl. rewrite in_irr_iff by auto. split.
  - intros H v Hv Hp. destruct (Nat.lt_ge_cases (m @ v) (c @ v)); auto. exfalso. apply H. exists v. auto.
  - intros H [v [Hv [Hp Hle]]]. specialize (H v Hv Hp). lia.
Qed.

(** a monomial outside the ideal avoids some component *)
Lemma decomp_outside : forall m, length m = n -> ~ in_ideal I m ->
  exists d, corner n J' d /\ ~ in_irreducible (comp n K phi d) m.
Proof.
  intros m Hm Hn.
  (* largest id whose value is at most m_v *)
  set (t := tabulate n (fun v => length (filter (fun i => (0 <? i) && (phi v i <=? m @ v)) (seq 0 (K v))))).
  assert (Ht : forall v, v < n -> t @ v < K v /\ phi v (t @ v) <= m @ v /\ forall i, i < K v -> phi v i <= m @ v -> i <= t @ v).
  { intros v Hv. unfold t. rewrite tabulate_nth by auto. destruct (HE v Hv) as [K0 [Z M]].
    assert (G : forall k, 0 < k -> k <= K v -> exists j, j < k /\ phi v j <= m @ v /\
       (forall i, i < k -> phi v i <= m @ v -> i <= j) /\
       length (filter (fun i => (0 <? i) && (phi v i <=? m @ v)) (seq 0 k)) = j).
    { induction k as [|k IH]; intros Hk Hle; [lia|]. destruct (Nat.eq_dec k 0) as [->|Hk0].
      - exists 0. split; [lia|]. split; [lia|]. split; [intros; lia|]. reflexivity.
      - destruct (IH ltac:(lia) ltac:(lia)) as [j [A [B [C D]]]]. rewrite seq_S, filter_app, app_length, D.
        cbn [filter]. replace (0 + k) with k by lia.
        assert (0 <? k = true) as -> by (apply Nat.ltb_lt; lia). cbn [andb].
        destruct (Nat.leb_spec (phi v k) (m @ v)) as [L|L].
        + assert (j = k - 1).
          { destruct (Nat.eq_dec j (k - 1)); auto. exfalso.
            assert (k - 1 <= j); [|lia]. apply C; [lia|]. pose proof (M (k - 1) k ltac:(lia) ltac:(lia)). lia. }
          exists k. split; [lia|]. split; auto. split; [intros; lia|]. simpl. lia.
        + exists j. split; [lia|]. split; auto. split; [|simpl; lia]. intros i Hi Hv'.
          destruct (Nat.eq_dec i k) as [->|]; [lia|]. apply C; auto. lia. }
    destruct (G (K v) K0 (Nat.le_refl _)) as [j [A [B [C D]]]]. rewrite D. auto. }
  assert (Htn : ~ inI n J' t).
  { intros [g [Hg Hle]]. destruct HJ as [_ [_ H3]]. destruct (H3 g Hg) as [Hg'|[v [Hv [E1 E2]]]].
    - apply Hn. apply HI; auto. exists g. split; auto. intros v Hv. destruct (Ht v Hv) as [A [B _]].
      specialize (Hle v Hv). apply Nat.le_trans with (phi v (t @ v)); auto. apply (emb_le n K phi v); auto.
    - specialize (Hle v Hv). destruct (Ht v Hv) as [A _]. lia. }
  destruct HJ as [_ [HA _]].
  destruct (corner_above n J' t HA (tabulate_length _ _) Htn) as [d [Hc Hd]].
  exists d. split; auto. apply not_in_irr; [apply tabulate_length|]. intros v Hv Hp.
  apply comp_pos in Hp; auto. rewrite comp_val by auto. specialize (Hd v Hv).
  destruct (Ht v Hv) as [A [B C]]. destruct (Nat.lt_ge_cases (m @ v) (phi v (d @ v))) as [|Hge]; auto.
  specialize (C (d @ v) Hp Hge). lia.
Qed.

Lemma decomp_inside : forall m d, length m = n -> corner n J' d -> in_ideal I m -> in_irreducible (comp n K phi d) m.
Proof.
  intros m d Hm Hc Hin. apply HI in Hin; auto. destruct Hin as [g [Hg Hle]].
  pose proof Hc as [Hl [Hp [Hn _]]]. destruct HJ as [Hinc _]. destruct (Hn g (Hinc g Hg)) as [v [Hv H]].
  apply in_irr_iff; [apply tabulate_length|]. exists v. split; auto.
  assert (Hlt : d @ v < K v) by (specialize (HB g v Hg Hv); lia). split; [apply comp_pos; auto|].
  rewrite comp_val by auto. apply Nat.le_trans with (phi v (g @ v)); auto. apply (emb_le n K phi v); auto.
Qed.

(** the witness that a component is needed *)
Lemma decomp_needed : forall d, corner n J' d ->
  exists m, length m = n /\ ~ in_irreducible (comp n K phi d) m /\
    forall d', corner n J' d' -> comp n K phi d' <> comp n K phi d -> in_irreducible (comp n K phi d') m.
Proof.
  intros d Hc.
  set (N := fun v => phi v (K v - 1)).
  exists (tabulate n (fun v => if d @ v =? K v then N v else phi v (d @ v) - 1)).
  split; [apply tabulate_length|]. split.
  - apply not_in_irr; [apply tabulate_length|]. intros v Hv Hp. pose proof Hp as Hp'. apply comp_pos in Hp'; auto.
    rewrite tabulate_nth by auto. rewrite comp_val in * by auto.
    destruct (Nat.eqb_spec (d @ v) (K v)); lia.
  - intros d' Hc' Hne.
    destruct (in_dec Nat.eq_dec 0 (map (fun v => if (0 <? (comp n K phi d') @ v) &&
        ((comp n K phi d') @ v <=? (tabulate n (fun v => if d @ v =? K v then N v else phi v (d @ v) - 1)) @ v) then 0 else 1) (seq 0 n)))
      as [Hin|Hout].
    + apply in_map_iff in Hin. destruct Hin as [v [E Hv]]. apply in_seq in Hv.
      destruct (_ && _) eqn:E2 in E; [|discriminate]. apply andb_true_iff in E2. destruct E2 as [A B].
      apply Nat.ltb_lt in A. apply Nat.leb_le in B. exists v. auto.
    + exfalso. apply Hne. f_equal. symmetry. apply (corner_antichain n J'); auto.
      intros v Hv.
      assert (Hv' : ~ (0 < (comp n K phi d') @ v /\
         (comp n K phi d') @ v <= (tabulate n (fun v => if d @ v =? K v then N v else phi v (d @ v) - 1)) @ v)).
      { intros [A B]. apply Hout. apply in_map_iff. exists v. split; [|apply in_seq; lia].
        apply Nat.ltb_lt in A. apply Nat.leb_le in B. rewrite A, B. reflexivity. }
      rewrite tabulate_nth in Hv' by auto. pose proof (corner_le_K d v Hc Hv). pose proof (corner_le_K d' v Hc' Hv).
      destruct (Nat.eq_dec (d' @ v) (K v)) as [|Hk]; [lia|].
      assert (Hlt : d' @ v < K v) by lia.
      pose proof (proj2 (comp_pos d' v Hc' Hv) Hlt) as Hpos. rewrite comp_val in * by auto.
      destruct (Nat.eqb_spec (d @ v) (K v)) as [E|E].
      * exfalso. apply Hv'. split; auto. unfold N. apply (emb_le n K phi v); auto; lia.
      * destruct (Nat.lt_ge_cases (d' @ v) (d @ v)) as [L|]; auto. exfalso. apply Hv'. split; auto.
        pose proof (proj2 (emb_lt n K phi v (d' @ v) (d @ v) HE Hv Hlt ltac:(lia)) L). lia.
Qed.

Lemma comp_inj : forall d d', corner n J' d -> corner n J' d' -> comp n K phi d = comp n K phi d' -> d = d'.
Proof.
  intros d d' Hc Hc' E. apply term_ext with n; [apply Hc|apply Hc'|]. intros v Hv.
  assert (Ev : (comp n K phi d) @ v = (comp n K phi d') @ v) by congruence.
  pose proof (comp_pos d v Hc Hv). pose proof (comp_pos d' v Hc' Hv).
  pose proof (corner_le_K d v Hc Hv). pose proof (corner_le_K d' v Hc' Hv).
  destruct (Nat.eq_dec (d @ v) (K v)); [lia|]. assert (d @ v < K v) by lia. assert (d' @ v < K v) by lia.
  rewrite !comp_val in Ev by auto. apply (emb_inj n K phi v); auto.
Qed.

Lemma decomp_all : forall out, NoDup out -> (forall d, In d out <-> corner n J' d) ->
  irreducible_decomposition n I (map (comp n K phi) out).
Proof.
  intros out Hnd Hout. split; [|split; [|split]].
  - apply in_ring_wf. intros c Hc. apply in_map_iff in Hc. destruct Hc as [d [<- _]]. apply tabulate_length.
  - assert (G : forall l, NoDup l -> (forall d, In d l -> corner n J' d) -> NoDup (map (comp n K phi) l)).
    { induction l as [|d l IH]; intros Hl Hc; simpl; [constructor|]. inversion Hl; subst. constructor.
      - intros Hi. apply in_map_iff in Hi. destruct Hi as [d' [E Hd']]. apply comp_inj in E; [|apply Hc; right; auto|apply Hc; left; auto].
        subst. auto.
      - apply IH; auto. intros d' Hd'. apply Hc. right. auto. }
    apply G; auto. intros d Hd. apply Hout. auto.
  - intros m Hm. split.
    + intros Hin c Hc. apply in_map_iff in Hc. destruct Hc as [d [<- Hd]]. apply decomp_inside; auto. apply Hout; auto.
    + intros H. destruct (i_contains_dec n (map (image n phi) J) m) as [Hy|Hn].
      * apply HI; auto. destruct Hy as [g' [Hg' Hle]]. apply in_map_iff in Hg'. destruct Hg' as [g [<- Hg]].
        exists g. split; auto. intros v Hv. specialize (Hle v Hv). rewrite image_nth in Hle by auto. auto.
      * exfalso. assert (Hn' : ~ in_ideal I m).
        { intros Hin. apply HI in Hin; auto. destruct Hin as [g [Hg Hle]]. apply Hn. exists (image n phi g).
          split; [apply in_map; auto|]. intros v Hv. rewrite image_nth; auto. }
        destruct (decomp_outside m Hm Hn') as [d [Hc Hni]]. apply Hni. apply H. apply in_map. apply Hout. auto.
  - intros c Hc. apply in_map_iff in Hc. destruct Hc as [d [<- Hd]]. apply Hout in Hd.
    destruct (decomp_needed d Hd) as [m [Hm [Hn H]]]. exists m. split; auto. split.
    + intros Hin. apply Hn. apply decomp_inside; auto.
    + intros c' Hc' Hne. apply in_map_iff in Hc'. destruct Hc' as [d' [<- Hd']]. apply H; auto. apply Hout. auto.
Qed.
End Decomposition.
