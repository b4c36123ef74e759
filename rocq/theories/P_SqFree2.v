(** Proofs about the model of packed square free terms: single variables, counting, comparison, encoding. *)
From Coq Require Import List Arith Bool NArith ZArith Lia Ascii.
Import ListNotations.
From Verif Require Import M_SqFree Spec_SqFree P_SqFree.

Section S.
Variable w : nat.
Hypothesis Hw : 0 < w.

(** ** Access to single variables *)

(** The words hold S, without regard to a number of variables. *)
Definition raw (t : list N) (S : vset) : Prop :=
  forall i b, N.testbit (nth i t 0%N) (N.of_nat b) = (b <? w) && S (i * w + b).

Lemma packed_raw n t s : packed w n t s <->
  (n = 0 /\ length t = 1 \/ w * (length t - 1) < n /\ n <= w * length t) /\ raw t (fun v => (v <? n) && s v).
Proof.
  unfold packed, raw. split; intros [H1 H2]; split; auto; intros i b; rewrite (H2 i b), ?andb_assoc; auto.
Qed.
Lemma raw_ext t S S' : (forall v, v < w * length t -> S v = S' v) -> (forall v, w * length t <= v -> S' v = false) ->
  raw t S -> raw t S'.
Proof.
  intros E F H i b. destruct (Nat.lt_ge_cases i (length t)) as [Hi | Hi].
  - rewrite (H i b). destruct (Nat.ltb_spec b w); auto. cbn. apply E. nia.
  - rewrite nth_overflow by auto. rewrite N.bits_0. rewrite F by nia. rewrite andb_false_r. auto.
Qed.
Lemma raw_out t S v : raw t S -> w * length t <= v -> S v = false.
Proof.
  intros H Hv. specialize (H (v / w) (v mod w)).
  assert (length t <= v / w) by (apply Nat.div_le_lower_bound; lia).
  rewrite nth_overflow in H by auto. rewrite N.bits_0 in H.
  pose proof (Nat.mod_upper_bound v w ltac:(lia)). destruct (Nat.ltb_spec (v mod w) w); [| lia].
  rewrite (Nat.mul_comm (v / w)) in H. rewrite <- Nat.div_mod in H by lia. auto.
Qed.
Lemma land_shift x k : negb (N.land x (N.shiftl 1 (N.of_nat k)) =? 0)%N = N.testbit x (N.of_nat k).
Proof.
  destruct (N.testbit x (N.of_nat k)) eqn:E.
  - apply negb_true_iff. apply N.eqb_neq. intros H.
    assert (F : N.testbit (N.land x (N.shiftl 1 (N.of_nat k))) (N.of_nat k) = false) by (rewrite H; apply N.bits_0).
    rewrite N.land_spec, (testbit_shift1 w Hw), E, Nat.eqb_refl in F. discriminate.
  - apply negb_false_iff. apply N.eqb_eq. apply bits_ext. intros b. rewrite N.land_spec, (testbit_shift1 w Hw), N.bits_0.
    destruct (Nat.eqb_spec b k) as [-> | Hb]; [rewrite E; auto | apply andb_false_r].
Qed.
Lemma getExponent_raw t S v : raw t S -> v < w * length t -> sq_getExponent w t v = Some (S v).
Proof.
  intros H Hv. unfold sq_getExponent, getWordOffset, getBitOffset.
  assert (Hi : v / w < length t) by (apply Nat.div_lt_upper_bound; lia).
  destruct (nth_error t (v / w)) eqn:E; [| apply nth_error_None in E; lia].
  f_equal. rewrite land_shift. apply (nth_error_nth _ _ 0%N) in E. rewrite <- E. rewrite (H (v / w) (v mod w)).
  pose proof (Nat.mod_upper_bound v w ltac:(lia)). destruct (Nat.ltb_spec (v mod w) w); [| lia]. cbn.
  rewrite (Nat.mul_comm (v / w)). rewrite <- Nat.div_mod by lia. auto.
Qed.
Lemma update_length a i x : length (list_update a i x) = length a.
Proof. revert i; induction a as [| y a IH]; intros [| i]; cbn; auto. Qed.
Lemma update_nth a i x j : i < length a -> nth j (list_update a i x) 0%N = if j =? i then x else nth j a 0%N.
Proof.
  revert i j; induction a as [| y a IH]; intros [| i] [| j] H; cbn [length] in *; try lia; cbn; auto.
  apply IH. lia.
Qed.
Lemma setExponent_raw t S v b : raw t S -> v < w * length t ->
  exists t', sq_setExponent w t v b = Some t' /\ length t' = length t /\ raw t' (s_update S v b).
Proof.
  intros H Hv. unfold sq_setExponent, getWordOffset, getBitOffset.
  assert (Hi : v / w < length t) by (apply Nat.div_lt_upper_bound; lia).
  destruct (nth_error t (v / w)) as [x |] eqn:E; [| apply nth_error_None in E; lia].
  eexists. split; [reflexivity |]. rewrite update_length. split; auto. intros i k. rewrite update_nth by auto.
  apply (nth_error_nth _ _ 0%N) in E. pose proof (Nat.mod_upper_bound v w ltac:(lia)) as Hm.
  pose proof (Nat.div_mod v w ltac:(lia)) as Hd. rewrite Nat.mul_comm in Hd. unfold s_update.
  destruct (Nat.eqb_spec i (v / w)) as [-> | Hne].
  - rewrite N.lor_spec, N.ldiff_spec, (testbit_shift1 w Hw). rewrite <- E, (H (v / w) k).
    assert (Hb : N.testbit (N.shiftl (if b then 1 else 0) (N.of_nat (v mod w))) (N.of_nat k) = (k =? v mod w) && b).
    { destruct b; [rewrite (testbit_shift1 w Hw), andb_true_r; auto |]. rewrite N.shiftl_0_l, N.bits_0, andb_false_r. auto. }
    rewrite Hb. destruct (Nat.eqb_spec k (v mod w)) as [-> | Hk].
    + rewrite <- Hd, Nat.eqb_refl. destruct (Nat.ltb_spec (v mod w) w); [| lia]. cbn. rewrite andb_false_r. auto.
    + rewrite andb_true_r. cbn. rewrite orb_false_r. f_equal.
      destruct (Nat.eqb_spec (v / w * w + k) v); [lia | auto].
  - rewrite (H i k). destruct (Nat.ltb_spec k w) as [Hk | Hk]; auto. cbn.
    destruct (Nat.eqb_spec (i * w + k) v) as [Ev | Ev]; auto. elim Hne. subst v.
    rewrite Nat.div_add_l by lia. rewrite Nat.div_small by lia. lia.
Qed.

Lemma packed_get n t s v : packed w n t s -> v < n -> sq_getExponent w t v = Some (s v).
Proof.
  intros H Hv. apply packed_raw in H. destruct H as [Hl Hr]. rewrite (getExponent_raw _ _ v Hr) by lia.
  apply Nat.ltb_lt in Hv. rewrite Hv. auto.
Qed.
Lemma packed_set n t s v b : packed w n t s -> v < n ->
  exists t', sq_setExponent w t v b = Some t' /\ packed w n t' (s_update s v b).
Proof.
  intros H Hv. apply packed_raw in H. destruct H as [Hl Hr].
  destruct (setExponent_raw _ _ v b Hr ltac:(lia)) as (t' & E & Hl' & Hr'). exists t'. split; auto.
  apply packed_raw. rewrite Hl'. split; auto.
  intros i k. rewrite (Hr' i k). unfold s_update. destruct (Nat.eqb_spec (i * w + k) v) as [-> | Hne]; auto.
  apply Nat.ltb_lt in Hv. rewrite Hv. auto.
Qed.
Lemma raw_zero m : raw (repeat 0%N m) (fun _ => false).
Proof.
  intros i b. rewrite andb_false_r. replace (nth i (repeat 0%N m) 0%N) with 0%N; [apply N.bits_0 |].
  revert i; induction m as [| m IH]; intros [| i]; cbn; auto.
Qed.
Lemma newTerm_packed n : packed w n (sq_newTerm w n) (fun _ => false).
Proof.
  apply packed_raw. unfold sq_newTerm. rewrite repeat_length. split; [apply wordCount_spec; auto |].
  intros i b. rewrite (raw_zero _ i b), !andb_false_r. auto.
Qed.
Lemma setAll_packed n l t s k : packed w n t s -> k + length l <= n ->
  exists t', sq_setAll w t k l = Some t' /\
    packed w n t' (fun v => if (k <=? v) && (v <? k + length l) then nth (v - k) l false else s v).
Proof.
  revert t s k; induction l as [| b l IH]; intros t s k H Hk; cbn [sq_setAll length] in *.
  - exists t. split; auto. revert H. apply (packed_ext w Hw). intros v Hv.
    destruct (Nat.leb_spec k v), (Nat.ltb_spec v (k + 0)); cbn; auto; lia.
  - destruct (packed_set n t s k b H ltac:(lia)) as (t1 & -> & H1).
    destruct (IH t1 _ (S k) H1 ltac:(lia)) as (t' & E & H'). exists t'. split; auto. revert H'. apply (packed_ext w Hw).
    intros v Hv. unfold s_update.
    destruct (Nat.leb_spec (S k) v), (Nat.ltb_spec v (S k + length l)), (Nat.leb_spec k v),
      (Nat.ltb_spec v (k + S (length l))), (Nat.eqb_spec v k); cbn; try lia; auto.
    + replace (v - k) with (S (v - S k)) by lia. auto.
    + subst v. rewrite Nat.sub_diag. auto.
Qed.
Lemma parse_packed l : exists t, sq_newTermParse w l = Some t /\ packed w (length l) t (fun v => nth v l false).
Proof.
  destruct (setAll_packed (length l) l _ _ 0 (newTerm_packed (length l)) ltac:(lia)) as (t & E & H). exists t. split; auto.
  revert H. apply (packed_ext w Hw). intros v Hv. cbn [Nat.leb Nat.add andb].
  destruct (Nat.ltb_spec v (length l)); [| lia]. rewrite Nat.sub_0_r. auto.
Qed.
Lemma isValid_packed n t s : packed w n t s -> sq_isValid w t n = Some true.
Proof.
  intros [Hl Hb]. unfold sq_isValid. destruct (Nat.eqb_spec (n - w * (n / w)) 0) as [E | E]; auto.
  pose proof (Nat.div_mod n w ltac:(lia)) as Hd.
  assert (Hi : n / w < length t) by nia.
  destruct (nth_error t (n / w)) as [x |] eqn:En; [| apply nth_error_None in En; lia].
  apply (nth_error_nth _ _ 0%N) in En. f_equal. apply N.eqb_eq. apply bits_ext. intros b.
  rewrite N.ldiff_spec, N.bits_0, (wd_low w Hw (n - w * (n / w)) b). rewrite <- En, (Hb (n / w) b).
  destruct (Nat.ltb_spec b (n - w * (n / w))), (Nat.ltb_spec (n / w * w + b) n), (b <? w), (s (n / w * w + b));
    auto; nia.
Qed.

(** ** Counting *)
Lemma pos_bits_nth p b : nth b (pos_bits p) false = N.testbit (Npos p) (N.of_nat b).
Proof.
  revert b; induction p as [p IH | p IH |]; intros [| b]; cbn [pos_bits nth]; auto.
  - rewrite IH. rewrite Nat2N.inj_succ. change (N.pos p~1) with (2 * N.pos p + 1)%N.
    symmetry. apply N.testbit_odd_succ. lia.
  - rewrite IH. rewrite Nat2N.inj_succ. change (N.pos p~0) with (2 * N.pos p)%N.
    symmetry. apply N.testbit_even_succ. lia.
  - destruct b; auto.
Qed.
Lemma word_bits_nth x b : nth b (word_bits x) false = N.testbit x (N.of_nat b).
Proof. destruct x as [| p]; cbn [word_bits]; [rewrite N.bits_0; destruct b; auto | apply pos_bits_nth]. Qed.
Lemma pos_bits_last p : pos_bits p <> [] /\ nth (length (pos_bits p) - 1) (pos_bits p) false = true.
Proof.
  induction p as [p [H1 H2] | p [H1 H2] |]; cbn [pos_bits length]; split; try discriminate; auto.
  - destruct (pos_bits p) as [| b l] eqn:E; [congruence |]. cbn [length] in *. rewrite Nat.sub_succ, Nat.sub_0_r in *.
    cbn [nth]. replace (S (length l) - 0) with (S (length l)) by lia. auto.
  - destruct (pos_bits p) as [| b l] eqn:E; [congruence |]. cbn [length] in *. rewrite Nat.sub_succ, Nat.sub_0_r in *. auto.
Qed.
Lemma word_bits_length k x s : wd k x s -> length (word_bits x) <= k.
Proof.
  intros H. destruct x as [| p]; cbn [word_bits]; [cbn; lia |]. destruct (pos_bits_last p) as [H1 H2].
  rewrite pos_bits_nth in H2. destruct (Nat.lt_ge_cases (length (pos_bits p) - 1) k) as [Hk | Hk].
  - destruct (pos_bits p); [congruence | cbn in *; lia].
  - rewrite (wd_high k _ s _ H Hk) in H2. discriminate.
Qed.
Lemma filter_map {A B} (f : A -> B) (g : B -> bool) l : filter g (map f l) = map f (filter (fun a => g (f a)) l).
Proof. induction l as [| a l IH]; cbn; auto. destruct (g (f a)); cbn; rewrite IH; auto. Qed.
Lemma count_bits (l : list bool) m : length l <= m ->
  length (filter (fun b : bool => b) l) = length (filter (fun v => nth v l false) (seq 0 m)).
Proof.
  revert m; induction l as [| b l IH]; intros m Hm.
  - cbn. clear Hm. generalize 0 at 2. induction m as [| m IH]; intros k; cbn; auto. destruct k; cbn; auto.
  - cbn [length] in Hm. destruct m as [| m]; [lia |]. rewrite <- cons_seq, <- seq_shift. cbn [filter nth].
    rewrite filter_map. cbn [nth]. destruct b; cbn [length]; rewrite map_length, (IH m ltac:(lia)); auto.
Qed.
Lemma bit_count_wd k x s : wd k x s -> bit_count x = length (s_list k s).
Proof.
  intros H. unfold bit_count, s_list. rewrite (count_bits _ k (word_bits_length k x s H)). f_equal.
  apply filter_ext_in. intros v Hv. apply in_seq in Hv. rewrite word_bits_nth. apply (wd_bit k); auto; lia.
Qed.
Lemma map_add_seq k m : map (Nat.add w) (seq k m) = seq (w + k) m.
Proof. revert k; induction m as [| m IH]; intros k; cbn [seq map]; auto. rewrite IH. rewrite Nat.add_succ_r. auto. Qed.
Lemma s_list_split n A : w < n -> s_list n A = s_list w A ++ map (Nat.add w) (s_list (n - w) (fun v => A (w + v))).
Proof.
  intros H. unfold s_list. replace (seq 0 n) with (seq 0 w ++ map (Nat.add w) (seq 0 (n - w))).
  - rewrite filter_app, filter_map. auto.
  - replace n with (w + (n - w)) at 2 by lia. rewrite seq_app. f_equal. cbn [Nat.add].
    rewrite map_add_seq, Nat.add_0_r. auto.
Qed.
Lemma support_pk n a A : pk w n a A -> sq_getSizeOfSupport w a n = Some (length (s_list n A)).
Proof.
  intros Ha. unfold sq_getSizeOfSupport. destruct (Nat.eqb_spec n 0) as [-> | Hn0]; auto.
  enough (H : forall c, sq_support_loop w a n c = Some (c + length (s_list n A))) by apply H.
  revert n a A Ha Hn0.
  apply (pk_ind1 w Hw (fun n a A => n <> 0 -> forall c, sq_support_loop w a n c = Some (c + length (s_list n A)))).
  - intros n x A Hn Hx Hn0 c. cbn [sq_support_loop]. destruct (Nat.leb_spec n w); [| lia].
    rewrite (bit_count_wd n x A Hx). auto.
  - intros n x a A Hn Hx Ha IH Hn0 c. cbn [sq_support_loop]. destruct (Nat.leb_spec n w); [lia |].
    rewrite IH by lia. rewrite (bit_count_wd w x A Hx). rewrite (s_list_split n A Hn), app_length, map_length. f_equal. lia.
Qed.

(** ** Lexicographic comparison *)
Lemma lowbit z : z <> 0%N -> exists k, N.ldiff z (z - 1) = N.shiftl 1 (N.of_nat k) /\ N.testbit z (N.of_nat k) = true /\
  forall j, j < k -> N.testbit z (N.of_nat j) = false.
Proof.
  destruct z as [| p]; [congruence | intros _]. rewrite N.sub_1_r. induction p as [p IH | p IH |].
  - exists 0. split; [| split; [auto | lia]].
    change (N.pred (N.pos p~1)) with (N.pos p~0). change (N.pos p~1) with (2 * N.pos p + 1)%N.
    change (N.pos p~0) with (2 * N.pos p)%N. apply bits_ext. intros b. rewrite N.ldiff_spec.
    destruct b as [| b].
    + change (N.of_nat 0) with 0%N. rewrite N.testbit_odd_0, N.testbit_even_0. auto.
    + rewrite Nat2N.inj_succ, N.testbit_odd_succ, N.testbit_even_succ by lia.
      rewrite andb_negb_r. destruct (N.of_nat b); auto.
  - destruct IH as (k & E & H1 & H2). exists (S k).
    assert (Ep : N.pred (N.pos p~0) = N.succ_double (N.pred (N.pos p))) by (destruct p; reflexivity).
    rewrite Ep. split; [| split].
    + apply bits_ext. intros b. rewrite N.ldiff_spec, (testbit_shift1 w Hw).
      change (N.pos p~0) with (2 * N.pos p)%N. rewrite N.succ_double_spec. destruct b as [| b].
      * change (N.of_nat 0) with 0%N. rewrite N.testbit_even_0. auto.
      * rewrite Nat2N.inj_succ, N.testbit_odd_succ, N.testbit_even_succ by lia. rewrite <- N.ldiff_spec, E, (testbit_shift1 w Hw). auto.
    + rewrite Nat2N.inj_succ. change (N.pos p~0) with (2 * N.pos p)%N. rewrite N.testbit_even_succ by lia. auto.
    + intros [| j] Hj; [auto |]. rewrite Nat2N.inj_succ. change (N.pos p~0) with (2 * N.pos p)%N.
      rewrite N.testbit_even_succ by lia. apply H2. lia.
  - exists 0. split; [reflexivity |]. split; [auto | lia].
Qed.
Lemma lex_word k x y A B : wd k x A -> wd k y B -> x <> y ->
  exists j, j < k /\ A j <> B j /\ (forall u, u < j -> A u = B u) /\
    (N.land x (N.ldiff (N.lxor x y) (N.lxor x y - 1)) =? 0)%N = negb (A j).
Proof.
  intros Hx Hy Hne. assert (Hz : N.lxor x y <> 0%N) by (intros E; apply N.lxor_eq in E; auto).
  destruct (lowbit _ Hz) as (j & E & H1 & H2). exists j. rewrite N.lxor_spec in H1. rewrite (Hx j), (Hy j) in H1.
  destruct (Nat.ltb_spec j k) as [Hj | Hj]; [| discriminate H1]. cbn in H1. split; auto. split; [| split].
  - intros F. rewrite F, xorb_nilpotent in H1. discriminate.
  - intros u Hu. specialize (H2 u Hu). rewrite N.lxor_spec, (wd_bit k x A u Hx), (wd_bit k y B u Hy) in H2 by lia.
    apply xorb_eq. auto.
  - rewrite E. pose proof (land_shift x j) as H. rewrite (wd_bit k x A j Hx Hj) in H. rewrite <- H. rewrite negb_involutive. auto.
Qed.
Lemma lexLess_pk n a b A B : pk w n a A -> pk w n b B ->
  exists r, sq_lexLess w a b n = Some r /\ (r = true <-> s_lex n A B).
Proof.
  intros Ha Hb. unfold sq_lexLess. destruct (Nat.eqb_spec n 0) as [-> | Hn0].
  { exists false. split; auto. split; [discriminate |]. intros (v & Hv & _). lia. }
  revert n a b A B Ha Hb Hn0.
  apply (pk_ind2 w Hw (fun n a b A B => n <> 0 -> exists r, sq_lexLess_loop w a b n = Some r /\ (r = true <-> s_lex n A B))).
  - intros n x y A B Hn Hx Hy Hn0. cbn [sq_lexLess_loop]. destruct (N.eqb_spec x y) as [E | E]; cbn [negb].
    + destruct (Nat.leb_spec n w); [| lia]. exists false. split; auto. split; [discriminate |].
      intros (v & Hv & H1 & H2 & _). pose proof (proj1 (wd_eq n x y A B Hx Hy) E v Hv). congruence.
    + destruct (lex_word n x y A B Hx Hy E) as (j & Hj & Hd & Hs & Er). eexists. split; [reflexivity |].
      rewrite Er. rewrite negb_true_iff. split.
      * intros HA. exists j. split; auto. split; auto. split; auto. destruct (B j); congruence.
      * intros (v & Hv & H1 & H2 & H3). destruct (lt_eq_lt_dec v j) as [[H | H] | H].
        -- specialize (Hs v H). congruence.
        -- subst v. auto.
        -- specialize (H3 j H). congruence.
  - intros n x y a b A B Hn Hx Hy Ha Hb IH Hn0. destruct IH as (r & Er & Hr); [lia |].
    cbn [sq_lexLess_loop]. destruct (N.eqb_spec x y) as [E | E]; cbn [negb].
    + destruct (Nat.leb_spec n w); [lia |]. exists r. split; auto. rewrite Hr.
      pose proof (proj1 (wd_eq w x y A B Hx Hy) E) as HE. split.
      * intros (v & Hv & H1 & H2 & H3). exists (w + v). split; [lia |]. split; auto. split; auto. intros u Hu.
        destruct (Nat.lt_ge_cases u w) as [Hu' | Hu']; [apply HE; auto |].
        replace u with (w + (u - w)) by lia. apply H3. lia.
      * intros (v & Hv & H1 & H2 & H3). destruct (Nat.lt_ge_cases v w) as [Hv' | Hv'].
        { rewrite (HE v Hv') in H1. congruence. }
        exists (v - w). split; [lia |]. replace (w + (v - w)) with v by lia. split; auto. split; auto.
        intros u Hu. apply H3. lia.
    + destruct (lex_word w x y A B Hx Hy E) as (j & Hj & Hd & Hs & Er'). eexists. split; [reflexivity |].
      rewrite Er'. rewrite negb_true_iff. split.
      * intros HA. exists j. split; [lia |]. split; auto. split; auto. destruct (B j); congruence.
      * intros (v & Hv & H1 & H2 & H3). destruct (lt_eq_lt_dec v j) as [[H | H] | H].
        -- specialize (Hs v H). congruence.
        -- subst v. auto.
        -- specialize (H3 j H). congruence.
Qed.
End S.
