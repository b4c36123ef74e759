(** Proofs about the model of packed square free terms. *)
From Coq Require Import List Arith Bool NArith ZArith Lia.
Import ListNotations.
From Verif Require Import M_SqFree Spec_SqFree.

Section S.
Variable w : nat.
Hypothesis Hw : 0 < w.

(** ** Words *)

Definition wd (k : nat) (x : N) (s : vset) : Prop := forall b, N.testbit x (N.of_nat b) = (b <? k) && s b.

Lemma bits_ext x y : (forall b, N.testbit x (N.of_nat b) = N.testbit y (N.of_nat b)) -> x = y.
Proof. intros H. apply N.bits_inj. intros k. rewrite <- (N2Nat.id k). apply H. Qed.
Lemma wd_eq k x y s s' : wd k x s -> wd k y s' -> (x = y <-> forall b, b < k -> s b = s' b).
Proof.
  intros Hx Hy. split.
  - intros E b Hb. specialize (Hx b). specialize (Hy b). rewrite E, Hy in Hx.
    apply Nat.ltb_lt in Hb. rewrite Hb in Hx. cbn in Hx. auto.
  - intros E. apply bits_ext. intros b. rewrite (Hx b), (Hy b). destruct (b <? k) eqn:Hb; auto. cbn. apply E.
    apply Nat.ltb_lt; auto.
Qed.
Lemma wd_ext k x s s' : (forall b, b < k -> s b = s' b) -> wd k x s -> wd k x s'.
Proof.
  intros E H b. rewrite (H b). destruct (b <? k) eqn:Hb; auto. cbn. apply E. apply Nat.ltb_lt; auto.
Qed.
Lemma wd_zero k : wd k 0 (fun _ => false).
Proof. intros b. rewrite N.bits_0. rewrite andb_false_r. auto. Qed.
Lemma wd_0 k x s : wd k x s -> (x = 0%N <-> forall b, b < k -> s b = false).
Proof. intros H. apply (wd_eq k x 0 s (fun _ => false) H). apply wd_zero. Qed.
Lemma wd_lor k x y s s' : wd k x s -> wd k y s' -> wd k (N.lor x y) (s_union s s').
Proof.
  intros Hx Hy b. rewrite N.lor_spec, (Hx b), (Hy b). unfold s_union. destruct (b <? k); auto.
Qed.
Lemma wd_land k x y s s' : wd k x s -> wd k y s' -> wd k (N.land x y) (s_inter s s').
Proof.
  intros Hx Hy b. rewrite N.land_spec, (Hx b), (Hy b). unfold s_inter. destruct (b <? k); auto.
Qed.
Lemma wd_ldiff k x y s s' : wd k x s -> wd k y s' -> wd k (N.ldiff x y) (s_minus s s').
Proof.
  intros Hx Hy b. rewrite N.ldiff_spec, (Hx b), (Hy b). unfold s_minus. destruct (b <? k); auto.
Qed.
Lemma wd_ones k : wd k (N.ones (N.of_nat k)) (fun _ => true).
Proof.
  intros b. rewrite andb_true_r. destruct (b <? k) eqn:Hb.
  - apply Nat.ltb_lt in Hb. apply N.ones_spec_low. lia.
  - apply Nat.ltb_ge in Hb. apply N.ones_spec_high. lia.
Qed.
Lemma lowOnes_ones k : lowOnes k = N.ones (N.of_nat k).
Proof. unfold lowOnes, N.ones. rewrite N.pred_sub. auto. Qed.
Lemma wd_low k : wd k (lowOnes k) (fun _ => true).
Proof. rewrite lowOnes_ones. apply wd_ones. Qed.
Lemma wd_high k x s b : wd k x s -> k <= b -> N.testbit x (N.of_nat b) = false.
Proof. intros H Hb. rewrite (H b). assert (b <? k = false) as -> by (apply Nat.ltb_ge; auto). auto. Qed.
Lemma wd_bit k x s b : wd k x s -> b < k -> N.testbit x (N.of_nat b) = s b.
Proof. intros H Hb. rewrite (H b). apply Nat.ltb_lt in Hb. rewrite Hb. auto. Qed.
Lemma testbit_shift1 k b : N.testbit (N.shiftl 1 (N.of_nat k)) (N.of_nat b) = (b =? k).
Proof.
  destruct (Nat.eqb_spec b k) as [-> | Hne].
  - rewrite N.shiftl_spec_high' by lia. replace (N.of_nat k - N.of_nat k)%N with 0%N by lia. auto.
  - destruct (Nat.lt_ge_cases b k) as [H|H].
    + apply N.shiftl_spec_low. lia.
    + rewrite N.shiftl_spec_high' by lia.
      assert (exists p, (N.of_nat b - N.of_nat k)%N = Npos p) as [p ->].
      { destruct (N.of_nat b - N.of_nat k)%N eqn:E; [lia | eauto]. }
      destruct p; auto.
Qed.

(** ** Packed terms, word by word *)
Fixpoint pk (n : nat) (t : list N) (s : vset) : Prop :=
  match t with
  | [] => False
  | x :: t' => wd (min n w) x s /\ (if w <? n then pk (n - w) t' (fun v => s (w + v)) else t' = [])
  end.

Lemma packed_pk n t s : packed w n t s <-> pk n t s.
Proof.
  revert n s; induction t as [| x t' IH]; intros n s.
  - cbn [pk]. split; [| tauto]. intros [[[Hn Hl] | [H1 H2]] _]; cbn in *; lia.
  - cbn [pk]. split.
    + intros [Hl Hb]. split.
      * intros b. specialize (Hb 0 b). cbn [nth Nat.mul Nat.add] in Hb. rewrite Hb. f_equal.
        destruct (Nat.ltb_spec b (min n w)), (Nat.ltb_spec b w), (Nat.ltb_spec b n); auto; lia.
      * cbn [length] in Hl. destruct (w <? n) eqn:E.
        -- apply Nat.ltb_lt in E. apply IH. split.
           ++ right. destruct Hl as [[Hn _] | [H1 H2]]; [lia |]. destruct (length t') as [| l]; [nia |].
              replace (S (S l) - 1) with (S l) in H1 by lia. split; nia.
           ++ intros i b. specialize (Hb (S i) b). cbn [nth] in Hb. rewrite Hb.
              replace (S i * w + b) with (w + (i * w + b)) by (cbn; lia). f_equal. f_equal.
              destruct (Nat.ltb_spec (w + (i * w + b)) n), (Nat.ltb_spec (i * w + b) (n - w)); auto; lia.
        -- apply Nat.ltb_ge in E. destruct t' as [| y t'']; auto. cbn [length] in Hl.
           destruct Hl as [[_ Hl] | [H1 H2]]; [lia | nia].
    + intros [Hx Ht]. destruct (w <? n) eqn:E.
      * apply Nat.ltb_lt in E. apply IH in Ht. destruct Ht as [Hl Hb]. split.
        -- right. cbn [length]. destruct Hl as [[Hn _] | [H1 H2]]; [lia |].
           destruct (length t') as [| l]; [lia |]. replace (S (S l) - 1) with (S l) by lia.
           replace (S l - 1) with l in H1 by lia. split; nia.
        -- intros [| i] b.
           ++ cbn [nth]. rewrite (Hx b). cbn [Nat.mul Nat.add]. f_equal.
              destruct (Nat.ltb_spec b (min n w)), (Nat.ltb_spec b w), (Nat.ltb_spec b n); auto; lia.
           ++ cbn [nth]. rewrite (Hb i b). replace (S i * w + b) with (w + (i * w + b)) by (cbn; lia). f_equal. f_equal.
              destruct (Nat.ltb_spec (w + (i * w + b)) n), (Nat.ltb_spec (i * w + b) (n - w)); auto; lia.
      * apply Nat.ltb_ge in E. subst t'. split.
        -- cbn [length]. destruct n as [| n]; [left; auto | right]. cbn. lia.
        -- intros [| i] b.
           ++ cbn [nth]. rewrite (Hx b). cbn [Nat.mul Nat.add]. f_equal.
              destruct (Nat.ltb_spec b (min n w)), (Nat.ltb_spec b w), (Nat.ltb_spec b n); auto; lia.
           ++ cbn [nth]. assert (N.testbit (match i with 0 | _ => 0%N end) (N.of_nat b) = false) as -> by (destruct i; apply N.bits_0).
              destruct (Nat.ltb_spec (S i * w + b) n); [cbn in *; nia |]. rewrite andb_false_r. auto.
Qed.

Lemma pk_ext n t s s' : (forall v, v < n -> s v = s' v) -> pk n t s -> pk n t s'.
Proof.
  revert n s s'; induction t as [| x t' IH]; intros n s s' E H; cbn [pk] in *; auto. destruct H as [Hx Ht]. split.
  - revert Hx. apply wd_ext. intros b Hb. apply E. lia.
  - destruct (w <? n) eqn:El; auto. apply Nat.ltb_lt in El. revert Ht. apply IH. intros v Hv. apply E. lia.
Qed.
Lemma packed_ext n t s s' : s_eq n s s' -> packed w n t s -> packed w n t s'.
Proof. intros E H. apply packed_pk. apply packed_pk in H. eapply pk_ext; eauto. Qed.

Lemma packed_length n t s : packed w n t s -> length t = getWordCount w n.
Proof.
  intros [Hl _]. unfold getWordCount. destruct (Nat.eqb_spec n 0) as [-> | Hn].
  - destruct Hl as [[_ Hl] | [H1 H2]]; [auto | lia].
  - destruct Hl as [[Hn' _] | [H1 H2]]; [lia |].
    assert ((n - 1) / w = length t - 1) as ->.
    { symmetry. apply (Nat.div_unique _ _ _ (n - 1 - w * (length t - 1))); destruct (length t); cbn in *; nia. }
    destruct (length t); [cbn in *; lia | lia].
Qed.
Lemma wordCount_spec n : n = 0 /\ getWordCount w n = 1 \/ w * (getWordCount w n - 1) < n /\ n <= w * getWordCount w n.
Proof.
  unfold getWordCount. destruct (Nat.eqb_spec n 0) as [-> | Hn]; [left; auto | right].
  pose proof (Nat.div_mod (n - 1) w ltac:(lia)). pose proof (Nat.mod_upper_bound (n - 1) w ltac:(lia)).
  rewrite Nat.add_sub. split; nia.
Qed.

(** The splitting of a variable index *)
Lemma split_index (P : nat -> Prop) n : w < n ->
  ((forall v, v < n -> P v) <-> (forall v, v < w -> P v) /\ (forall v, v < n - w -> P (w + v))).
Proof.
  intros Hn. split.
  - intros H. split; intros v Hv; apply H; lia.
  - intros [H1 H2] v Hv. destruct (Nat.lt_ge_cases v w) as [H|H]; auto.
    replace v with (w + (v - w)) by lia. apply H2. lia.
Qed.
Lemma min_w n : w < n -> min n w = w. Proof. lia. Qed.
Lemma min_n n : n <= w -> min n w = n. Proof. lia. Qed.

(** Case analysis for packed terms *)
Lemma pk_cases n t s : pk n t s ->
  (n <= w /\ exists x, t = [x] /\ wd n x s) \/
  (w < n /\ exists x t', t = x :: t' /\ wd w x s /\ pk (n - w) t' (fun v => s (w + v))).
Proof.
  intros H. destruct t as [| x t']; cbn [pk] in H; [tauto |]. destruct H as [Hx Ht].
  destruct (Nat.ltb_spec w n) as [E | E].
  - right. split; auto. exists x, t'. rewrite (min_w n) in Hx by auto. auto.
  - left. split; auto. exists x. rewrite (min_n n) in Hx by auto. subst t'. auto.
Qed.
Lemma pk_one n x s : n <= w -> wd n x s -> pk n [x] s.
Proof.
  intros H Hx. cbn [pk]. rewrite (min_n n) by auto. split; auto.
  destruct (Nat.ltb_spec w n); [lia | auto].
Qed.
Lemma pk_more n x t s : w < n -> wd w x s -> pk (n - w) t (fun v => s (w + v)) -> pk n (x :: t) s.
Proof.
  intros H Hx Ht. cbn [pk]. rewrite (min_w n) by auto. split; auto.
  destruct (Nat.ltb_spec w n); [auto | lia].
Qed.

Lemma pk_ind1 (P : nat -> list N -> vset -> Prop) :
  (forall n x A, n <= w -> wd n x A -> P n [x] A) ->
  (forall n x a A, w < n -> wd w x A -> pk (n - w) a (fun v => A (w + v)) ->
     P (n - w) a (fun v => A (w + v)) -> P n (x :: a) A) ->
  forall n a A, pk n a A -> P n a A.
Proof.
  intros H1 H2 n a; revert n; induction a as [| x a IH]; intros n A Ha; [cbn in Ha; tauto |].
  apply pk_cases in Ha. destruct Ha as [[Hn (x' & Ea & Hx)] | [Hn (x' & a' & Ea & Hx & Ha)]];
    injection Ea as Ea1 Ea2; subst x' a; auto.
Qed.
Lemma pk_ind2 (P : nat -> list N -> list N -> vset -> vset -> Prop) :
  (forall n x y A B, n <= w -> wd n x A -> wd n y B -> P n [x] [y] A B) ->
  (forall n x y a b A B, w < n -> wd w x A -> wd w y B ->
     pk (n - w) a (fun v => A (w + v)) -> pk (n - w) b (fun v => B (w + v)) ->
     P (n - w) a b (fun v => A (w + v)) (fun v => B (w + v)) -> P n (x :: a) (y :: b) A B) ->
  forall n a b A B, pk n a A -> pk n b B -> P n a b A B.
Proof.
  intros H1 H2 n a b A B Ha. revert n a A Ha b B.
  apply (pk_ind1 (fun n a A => forall b B, pk n b B -> P n a b A B)).
  - intros n x A Hn Hx b B Hb. apply pk_cases in Hb. destruct Hb as [[_ (y & -> & Hy)] | [Hn' _]]; [auto | lia].
  - intros n x a A Hn Hx Ha IH b B Hb. apply pk_cases in Hb.
    destruct Hb as [[Hn' _] | [_ (y & b' & -> & Hy & Hb)]]; [lia | auto].
Qed.

Lemma forall_split n (P Q : nat -> Prop) (b : Prop) : w < n ->
  (b <-> forall v, v < w -> P v) -> (forall v, v < n - w -> P (w + v) <-> Q v) ->
  ((b /\ forall v, v < n - w -> Q v) <-> forall v, v < n -> P v).
Proof.
  intros Hn Hb HQ. rewrite (split_index P n Hn), Hb. split; intros [H1 H2]; split; auto; intros v Hv; apply HQ; auto.
Qed.

(** ** Loops over ranges *)
Lemma word_divides k x y A B : wd k x A -> wd k y B ->
  (N.ldiff x y = 0%N <-> forall v, v < k -> A v = true -> B v = true).
Proof.
  intros Hx Hy. rewrite (wd_0 k _ _ (wd_ldiff k x y A B Hx Hy)). unfold s_minus.
  split; intros H v Hv; specialize (H v Hv); destruct (A v), (B v); cbn in *; auto; try discriminate; try (specialize (H eq_refl); discriminate).
Qed.
Lemma word_prime k x y A B : wd k x A -> wd k y B ->
  (N.land x y = 0%N <-> forall v, v < k -> A v = true -> B v = false).
Proof.
  intros Hx Hy. rewrite (wd_0 k _ _ (wd_land k x y A B Hx Hy)). unfold s_inter.
  split; intros H v Hv; specialize (H v Hv); destruct (A v), (B v); cbn in *; auto; try discriminate; try (specialize (H eq_refl); discriminate).
Qed.
Lemma divides_pk n a b A B : pk n a A -> pk n b B ->
  exists r, sq_divides a b = Some r /\ (r = true <-> s_subset n A B).
Proof.
  revert n a b A B. apply (pk_ind2 (fun n a b A B => exists r, sq_divides a b = Some r /\ (r = true <-> s_subset n A B))).
  - intros n x y A B Hn Hx Hy. pose proof (word_divides n x y A B Hx Hy) as H. cbn [sq_divides].
    destruct (N.eqb_spec (N.ldiff x y) 0) as [E | E]; cbn [negb].
    + exists true. split; auto. split; auto. intros _. exact (proj1 H E).
    + exists false. split; auto. split; [discriminate |]. intros Hs. elim E. apply (proj2 H). exact Hs.
  - intros n x y a b A B Hn Hx Hy Ha Hb (r & Er & Hr). pose proof (word_divides w x y A B Hx Hy) as H. cbn [sq_divides].
    destruct (N.eqb_spec (N.ldiff x y) 0) as [E | E]; cbn [negb].
    + exists r. split; auto. rewrite Hr. unfold s_subset.
      rewrite (split_index (fun v => A v = true -> B v = true) n Hn). tauto.
    + exists false. split; auto. split; [discriminate |]. intros Hs. elim E. apply (proj2 H). intros v Hv. apply Hs. lia.
Qed.
Lemma primeR_pk n a b A B : pk n a A -> pk n b B ->
  exists r, sq_isRelativelyPrimeR a b = Some r /\ (r = true <-> s_disjoint n A B).
Proof.
  revert n a b A B.
  apply (pk_ind2 (fun n a b A B => exists r, sq_isRelativelyPrimeR a b = Some r /\ (r = true <-> s_disjoint n A B))).
  - intros n x y A B Hn Hx Hy. pose proof (word_prime n x y A B Hx Hy) as H. cbn [sq_isRelativelyPrimeR].
    destruct (N.eqb_spec (N.land x y) 0) as [E | E]; cbn [negb].
    + exists true. split; auto. split; auto. intros _. exact (proj1 H E).
    + exists false. split; auto. split; [discriminate |]. intros Hs. elim E. apply (proj2 H). exact Hs.
  - intros n x y a b A B Hn Hx Hy Ha Hb (r & Er & Hr). pose proof (word_prime w x y A B Hx Hy) as H.
    cbn [sq_isRelativelyPrimeR].
    destruct (N.eqb_spec (N.land x y) 0) as [E | E]; cbn [negb].
    + exists r. split; auto. rewrite Hr. unfold s_disjoint.
      rewrite (split_index (fun v => A v = true -> B v = false) n Hn). tauto.
    + exists false. split; auto. split; [discriminate |]. intros Hs. elim E. apply (proj2 H). intros v Hv. apply Hs. lia.
Qed.
Lemma identityR_pk n a A : pk n a A -> (sq_isIdentityR a = true <-> s_empty n A).
Proof.
  revert n a A. apply pk_ind1.
  - intros n x A Hn Hx. pose proof (wd_0 n x A Hx) as H. cbn [sq_isIdentityR forallb]. rewrite andb_true_r, N.eqb_eq.
    rewrite <- H. split; auto.
  - intros n x a A Hn Hx Ha IH. pose proof (wd_0 w x A Hx) as H. cbn [sq_isIdentityR forallb].
    rewrite andb_true_iff, N.eqb_eq, IH. unfold s_empty. rewrite (split_index (fun v => A v = false) n Hn), <- H.
    split; intros [H1 H2]; split; auto.
Qed.
Lemma mapR_pk f F n a b A B :
  (forall k x y A B, wd k x A -> wd k y B -> wd k (f x y) (F A B)) ->
  (forall A B, (fun v => F A B (w + v)) = F (fun v => A (w + v)) (fun v => B (w + v))) ->
  pk n a A -> pk n b B -> exists c, sq_mapR f (length a) a b = Some c /\ pk n c (F A B).
Proof.
  intros Hf HF. revert n a b A B.
  apply (pk_ind2 (fun n a b A B => exists c, sq_mapR f (length a) a b = Some c /\ pk n c (F A B))).
  - intros n x y A B Hn Hx Hy. cbn. eexists. split; eauto. apply pk_one; auto.
  - intros n x y a b A B Hn Hx Hy Ha Hb (c & Ec & Hc). cbn [length sq_mapR]. rewrite Ec. cbn.
    eexists. split; eauto. apply pk_more; auto. rewrite HF. auto.
Qed.
Lemma setToIdentityR_pk n a A : pk n a A -> pk n (sq_setToIdentityR a) (fun _ => false).
Proof.
  revert n a A. apply (pk_ind1 (fun n a A => pk n (sq_setToIdentityR a) (fun _ => false))).
  - intros n x A Hn Hx. cbn [sq_setToIdentityR map]. apply pk_one; auto. apply wd_zero.
  - intros n x a A Hn Hx Ha IH. cbn [sq_setToIdentityR map]. apply pk_more; auto. apply wd_zero.
Qed.

(** ** Loops driven by the number of variables *)
Lemma map1_cons f g x res n : sq_map1 w f g (x :: res) n =
  if w <=? n then option_map (cons (f x)) (sq_map1 w f g res (n - w))
  else if 0 <? n then Some (g n x :: res) else Some (x :: res).
Proof. reflexivity. Qed.
Lemma map2_cons f z res x a y b n : sq_map2 w f (z :: res) (x :: a) (y :: b) n =
  if w <=? n then option_map (cons (f x y)) (sq_map2 w f res a b (n - w))
  else if 0 <? n then Some (f x y :: res) else Some (z :: res).
Proof. reflexivity. Qed.
Lemma prime_cons x a y b n : sq_isRelativelyPrime w (x :: a) (y :: b) n =
  if w <=? n then if negb (N.land x y =? 0)%N then Some false else sq_isRelativelyPrime w a b (n - w)
  else if negb (n =? 0) then Some (N.land x y =? 0)%N else Some true.
Proof. reflexivity. Qed.
Lemma full_cons x a n : sq_hasFullSupport w (x :: a) n =
  if w <=? n then if negb (x =? allOnes w)%N then Some false else sq_hasFullSupport w a (n - w)
  else if n =? 0 then Some true else Some (x =? lowOnes n)%N.
Proof. reflexivity. Qed.
Lemma map1_0 f g res : sq_map1 w f g res 0 = Some res.
Proof. destruct res; cbn [sq_map1]; destruct (Nat.leb_spec w 0); try lia; auto. Qed.
Lemma map2_0 f res a b : sq_map2 w f res a b 0 = Some res.
Proof. destruct res; cbn [sq_map2]; destruct (Nat.leb_spec w 0); try lia; auto. Qed.

(** For the number of variables 0 the functions do not touch the word there is. *)
Lemma map1_pk f g F n a A :
  (forall x A, wd w x A -> wd w (f x) (F A)) ->
  (forall k x A, 0 < k -> k < w -> wd k x A -> wd k (g k x) (F A)) ->
  (forall A, (fun v => F A (w + v)) = F (fun v => A (w + v))) ->
  0 < n -> pk n a A -> exists c, sq_map1 w f g a n = Some c /\ pk n c (F A).
Proof.
  intros Hf Hg HF Hn Ha. revert n a A Ha Hn.
  apply (pk_ind1 (fun n a A => 0 < n -> exists c, sq_map1 w f g a n = Some c /\ pk n c (F A))).
  - intros n x A Hn Hx H0. rewrite map1_cons. destruct (Nat.leb_spec w n).
    + replace (n - w) with 0 by lia. rewrite map1_0. cbn. eexists. split; eauto. apply pk_one; auto.
      replace n with w in * by lia. auto.
    + destruct (Nat.ltb_spec 0 n); [| lia]. eexists. split; eauto. apply pk_one; auto.
  - intros n x a A Hn Hx Ha IH H0. destruct IH as (c & Ec & Hc); [lia |]. rewrite map1_cons.
    destruct (Nat.leb_spec w n); [| lia]. rewrite Ec. cbn. eexists. split; eauto. apply pk_more; auto. rewrite HF. auto.
Qed.
(** The contents of the words of the result do not matter. *)
Lemma map2_pk f F n a b A B :
  (forall k x y A B, wd k x A -> wd k y B -> wd k (f x y) (F A B)) ->
  (forall A B, (fun v => F A B (w + v)) = F (fun v => A (w + v)) (fun v => B (w + v))) ->
  0 < n -> pk n a A -> pk n b B -> forall res, length res = length a ->
  exists c, sq_map2 w f res a b n = Some c /\ pk n c (F A B).
Proof.
  intros Hf HF Hn Ha Hb. revert n a b A B Ha Hb Hn.
  apply (pk_ind2 (fun n a b A B => 0 < n -> forall res, length res = length a ->
    exists c, sq_map2 w f res a b n = Some c /\ pk n c (F A B))).
  - intros n x y A B Hn Hx Hy H0 res Hl. destruct res as [| z [| z' res]]; try discriminate Hl. rewrite map2_cons.
    destruct (Nat.leb_spec w n).
    + replace (n - w) with 0 by lia. rewrite map2_0. cbn. eexists. split; eauto. apply pk_one; auto.
    + destruct (Nat.ltb_spec 0 n); [| lia]. eexists. split; eauto. apply pk_one; auto.
  - intros n x y a b A B Hn Hx Hy Ha Hb IH H0 res Hl. destruct res as [| z res]; [discriminate Hl |].
    injection Hl as Hl. destruct (IH ltac:(lia) res Hl) as (c & Ec & Hc). rewrite map2_cons.
    destruct (Nat.leb_spec w n); [| lia]. rewrite Ec. cbn. eexists. split; eauto. apply pk_more; auto. rewrite HF. auto.
Qed.

Lemma setToIdentity_pk n a : 0 < n -> length a = getWordCount w n ->
  exists c, sq_setToIdentity w a n = Some c /\ pk n c (fun _ => false).
Proof.
  intros Hn Hl.
  assert (H : forall a n, 0 < n -> (w * (length a - 1) < n /\ n <= w * length a) ->
            exists c, sq_setToIdentity w a n = Some c /\ pk n c (fun _ => false)).
  { clear n a Hn Hl. induction a as [| x a IH]; intros n Hn [H1 H2]; [cbn in *; lia |]. unfold sq_setToIdentity in *.
    rewrite map1_cons. cbn [length] in *. replace (S (length a) - 1) with (length a) in H1 by lia.
    destruct (Nat.leb_spec w n).
    - destruct (Nat.eq_dec n w) as [-> | Hne].
      + rewrite Nat.sub_diag. destruct a as [| y a]; [| cbn [length] in *; nia].
        rewrite map1_0. cbn. eexists. split; eauto. apply pk_one; auto. apply wd_zero.
      + destruct (IH (n - w)) as (c & Ec & Hc); [lia | destruct a; cbn [length] in *; nia |].
        rewrite Ec. cbn. eexists. split; eauto. apply pk_more; [lia | apply wd_zero | auto].
    - destruct (Nat.ltb_spec 0 n); [| lia]. destruct a as [| y a]; [| cbn [length] in *; nia].
      eexists. split; eauto. apply pk_one; [lia | apply wd_zero]. }
  apply H; auto. rewrite Hl. destruct (wordCount_spec n) as [[E _] | H']; [lia | auto].
Qed.
Lemma setToAllVarProd_pk n a : 0 < n -> length a = getWordCount w n ->
  exists c, sq_setToAllVarProd w a n = Some c /\ pk n c (fun _ => true).
Proof.
  intros Hn Hl.
  assert (H : forall a n, 0 < n -> (w * (length a - 1) < n /\ n <= w * length a) ->
            exists c, sq_setToAllVarProd w a n = Some c /\ pk n c (fun _ => true)).
  { clear n a Hn Hl. induction a as [| x a IH]; intros n Hn [H1 H2]; [cbn in *; lia |]. unfold sq_setToAllVarProd in *.
    rewrite map1_cons. cbn [length] in *. replace (S (length a) - 1) with (length a) in H1 by lia.
    destruct (Nat.leb_spec w n).
    - destruct (Nat.eq_dec n w) as [-> | Hne].
      + rewrite Nat.sub_diag. destruct a as [| y a]; [| cbn [length] in *; nia].
        rewrite map1_0. cbn. eexists. split; eauto. apply pk_one; auto. apply wd_ones.
      + destruct (IH (n - w)) as (c & Ec & Hc); [lia | destruct a; cbn [length] in *; nia |].
        rewrite Ec. cbn. eexists. split; eauto. apply pk_more; [lia | apply wd_ones | auto].
    - destruct (Nat.ltb_spec 0 n); [| lia]. destruct a as [| y a]; [| cbn [length] in *; nia].
      eexists. split; eauto. apply pk_one; [lia | apply wd_low]. }
  apply H; auto. rewrite Hl. destruct (wordCount_spec n) as [[E _] | H']; [lia | auto].
Qed.
Lemma prime_pk n a b A B : pk n a A -> pk n b B ->
  exists r, sq_isRelativelyPrime w a b n = Some r /\ (r = true <-> s_disjoint n A B).
Proof.
  revert n a b A B.
  apply (pk_ind2 (fun n a b A B => exists r, sq_isRelativelyPrime w a b n = Some r /\ (r = true <-> s_disjoint n A B))).
  - intros n x y A B Hn Hx Hy. pose proof (word_prime n x y A B Hx Hy) as H. rewrite prime_cons.
    destruct (Nat.leb_spec w n).
    + replace (n - w) with 0 by lia. assert (Hnil : sq_isRelativelyPrime w [] [] 0 = Some true).
      { cbn [sq_isRelativelyPrime]. destruct (Nat.leb_spec w 0); [lia | auto]. }
      rewrite Hnil. destruct (N.eqb_spec (N.land x y) 0) as [E | E]; cbn [negb].
      * exists true. split; auto. split; auto. intros _. exact (proj1 H E).
      * exists false. split; auto. split; [discriminate |]. intros Hs. elim E. apply (proj2 H). exact Hs.
    + destruct (Nat.eqb_spec n 0) as [-> | Hn0]; cbn [negb].
      * exists true. split; auto. split; auto. intros _ v Hv. lia.
      * eexists. split; eauto. rewrite N.eqb_eq. apply H.
  - intros n x y a b A B Hn Hx Hy Ha Hb (r & Er & Hr). pose proof (word_prime w x y A B Hx Hy) as H.
    rewrite prime_cons. destruct (Nat.leb_spec w n); [| lia].
    destruct (N.eqb_spec (N.land x y) 0) as [E | E]; cbn [negb].
    + exists r. split; auto. rewrite Hr. unfold s_disjoint.
      rewrite (split_index (fun v => A v = true -> B v = false) n Hn). tauto.
    + exists false. split; auto. split; [discriminate |]. intros Hs. elim E. apply (proj2 H). intros v Hv. apply Hs. lia.
Qed.
Lemma full_pk n a A : pk n a A ->
  exists r, sq_hasFullSupport w a n = Some r /\ (r = true <-> s_full n A).
Proof.
  revert n a A. apply (pk_ind1 (fun n a A => exists r, sq_hasFullSupport w a n = Some r /\ (r = true <-> s_full n A))).
  - intros n x A Hn Hx. rewrite full_cons. destruct (Nat.leb_spec w n).
    + replace n with w in * by lia. pose proof (wd_eq w x (allOnes w) _ _ Hx (wd_ones w)) as H'.
      destruct (N.eqb_spec x (allOnes w)) as [E | E]; cbn [negb].
      * exists true. rewrite Nat.sub_diag. cbn [sq_hasFullSupport]. destruct (Nat.leb_spec w 0); [lia |]. split; auto.
        split; auto. intros _. exact (proj1 H' E).
      * exists false. split; auto. split; [discriminate |]. intros Hs. elim E. apply (proj2 H'). exact Hs.
    + destruct (Nat.eqb_spec n 0) as [-> | Hn0].
      * exists true. split; auto. split; auto. intros _ v Hv. lia.
      * eexists. split; eauto. rewrite N.eqb_eq. apply (wd_eq n x (lowOnes n) _ _ Hx (wd_low n)).
  - intros n x a A Hn Hx Ha (r & Er & Hr). pose proof (wd_eq w x (allOnes w) _ _ Hx (wd_ones w)) as H.
    rewrite full_cons. destruct (Nat.leb_spec w n); [| lia].
    destruct (N.eqb_spec x (allOnes w)) as [E | E]; cbn [negb].
    + exists r. split; auto. rewrite Hr. unfold s_full.
      rewrite (split_index (fun v => A v = true) n Hn). tauto.
    + exists false. split; auto. split; [discriminate |]. intros Hs. elim E. apply (proj2 H). intros v Hv. apply Hs. lia.
Qed.
Lemma identity_pk n a A : pk n a A ->
  exists r, sq_isIdentity w a n = Some r /\ (r = true <-> s_empty n A).
Proof.
  intros Ha. unfold sq_isIdentity. destruct (Nat.eqb_spec n 0) as [-> | Hn0].
  { exists true. split; auto. split; auto. intros _ v Hv. lia. }
  revert n a A Ha Hn0.
  apply (pk_ind1 (fun n a A => n <> 0 -> exists r, sq_isIdentity_loop w a n = Some r /\ (r = true <-> s_empty n A))).
  - intros n x A Hn Hx H0. pose proof (wd_0 n x A Hx) as H. cbn [sq_isIdentity_loop].
    destruct (N.eqb_spec x 0) as [E | E]; cbn [negb].
    + destruct (Nat.leb_spec n w); [| lia]. exists true. split; auto. split; auto. intros _. exact (proj1 H E).
    + exists false. split; auto. split; [discriminate |]. intros Hs. elim E. apply (proj2 H). exact Hs.
  - intros n x a A Hn Hx Ha IH H0. destruct IH as (r & Er & Hr); [lia |]. pose proof (wd_0 w x A Hx) as H.
    cbn [sq_isIdentity_loop]. destruct (N.eqb_spec x 0) as [E | E]; cbn [negb].
    + destruct (Nat.leb_spec n w); [lia |]. exists r. split; auto. rewrite Hr. unfold s_empty.
      rewrite (split_index (fun v => A v = false) n Hn). tauto.
    + exists false. split; auto. split; [discriminate |]. intros Hs. elim E. apply (proj2 H). intros v Hv. apply Hs. lia.
Qed.
Lemma equals_pk n a b A B : pk n a A -> pk n b B ->
  exists r, sq_equals w a b n = Some r /\ (r = true <-> s_eq n A B).
Proof.
  intros Ha Hb. unfold sq_equals. destruct (Nat.eqb_spec n 0) as [-> | Hn0].
  { exists true. split; auto. split; auto. intros _ v Hv. lia. }
  revert n a b A B Ha Hb Hn0.
  apply (pk_ind2 (fun n a b A B => n <> 0 -> exists r, sq_equals_loop w a b n = Some r /\ (r = true <-> s_eq n A B))).
  - intros n x y A B Hn Hx Hy H0. pose proof (wd_eq n x y A B Hx Hy) as H. cbn [sq_equals_loop].
    destruct (N.eqb_spec x y) as [E | E]; cbn [negb].
    + destruct (Nat.leb_spec n w); [| lia]. exists true. split; auto. split; auto. intros _. exact (proj1 H E).
    + exists false. split; auto. split; [discriminate |]. intros Hs. elim E. apply (proj2 H). exact Hs.
  - intros n x y a b A B Hn Hx Hy Ha Hb IH H0. destruct IH as (r & Er & Hr); [lia |].
    pose proof (wd_eq w x y A B Hx Hy) as H.
    cbn [sq_equals_loop]. destruct (N.eqb_spec x y) as [E | E]; cbn [negb].
    + destruct (Nat.leb_spec n w); [lia |]. exists r. split; auto. rewrite Hr. unfold s_eq.
      rewrite (split_index (fun v => A v = B v) n Hn). tauto.
    + exists false. split; auto. split; [discriminate |]. intros Hs. elim E. apply (proj2 H). intros v Hv. apply Hs. lia.
Qed.
End S.
