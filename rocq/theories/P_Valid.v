(** From the specification of slices to the invariants used in the proofs. *)
From Coq Require Import List Arith Bool ZArith Lia Permutation Relations Sorted.
Import ListNotations.
From Verif Require Import Spec Spec_Slice Spec_Run M_Term M_Ideal M_Slice M_Partition M_Msm M_Tasks P_Term P_Ideal P_Bridge P_Msm1 P_Msm2 P_Msm3 P_Msm4 P_Msm5
  P_Part P_Indep P_Proj P_Split P_Process P_Run P_Tasks.

Lemma i_lcm_length : forall n I, length (i_lcm n I) = n.
Proof.
  intros n I. unfold i_lcm. assert (H : forall L a, length a = n -> length (fold_left (t_lcm n) L a) = n).
  { induction L as [|g L IH]; intros a Ha; simpl; auto. apply IH. apply t_lcm_length. }
  apply H. apply t_identity_length.
Qed.

Lemma i_lcm_is_lcm : forall n I, in_ring n I -> is_lcm n I (i_lcm n I).
Proof.
  intros n I Hr. apply in_ring_wf in Hr. split; [apply i_lcm_length|]. split.
  - intros g Hg. apply divs_iff with n; auto; [apply i_lcm_length|]. intros v Hv. apply i_lcm_ge; auto.
  - intros l Hl Hd. apply divs_iff with n; auto; [apply i_lcm_length|]. intros v Hv.
    destruct (Nat.eq_dec ((i_lcm n I) @ v) 0) as [E|E]; [lia|].
    destruct (i_lcm_attained n I v Hv ltac:(lia)) as [g [Hg E']]. rewrite <- E'.
    apply Hd in Hg as Hx. apply (divs_iff n) in Hx; auto.
Qed.

Lemma is_lcm_unique : forall n I a b, is_lcm n I a -> is_lcm n I b -> a = b.
Proof.
  intros n I a b [A1 [A2 A3]] [B1 [B2 B3]]. apply le_n_antisym with n; auto.
  - apply divs_iff; auto.
  - apply divs_iff; auto.
Qed.

Lemma is_lcm_i : forall n I l, in_ring n I -> is_lcm n I l -> l = i_lcm n I.
Proof. intros n I l Hr Hl. apply is_lcm_unique with n I; auto. apply i_lcm_is_lcm; auto. Qed.

Lemma sdiv_iff : forall n a b, length a = n -> length b = n -> (strictly_divides a b <-> sdiv_n n a b).
Proof.
  intros n a b Ha Hb. split; intros [H1 [v Hv]].
  - split; [intros w Hw; apply H1|]. destruct (Nat.lt_ge_cases v n) as [L|L].
    + exists v. split; auto. lia.
    + rewrite nth_overflow in Hv by lia. lia.
  - split.
    + intros w. destruct (Nat.lt_ge_cases w n) as [L|L]; [apply H1; auto|]. left. apply nth_overflow. lia.
    + exists v. destruct Hv as [_ Hv]. lia.
Qed.

Lemma minl_lists : forall n I, in_ring n I -> minl n I -> lists_minimal_generators n I I.
Proof.
  intros n I Hr Hm. pose proof Hr as Hw. apply in_ring_wf in Hw. split; [apply Hm|]. intros g. split.
  - intros Hg. split; auto. split.
    + apply in_ideal_iff with n; auto. apply inI_self; auto.
    + intros h [k [Hk Hd]] Hh. assert (Lh : length h = n).
      { pose proof (divs_length _ _ Hd). rewrite <- (Hw k Hk). auto. }
      apply (divs_iff n) in Hd, Hh; auto. assert (k = g) by (apply Hm; auto; eapply le_n_trans; eauto). subst k.
      apply le_n_antisym with n; auto.
  - intros [Hl [[k [Hk Hd]] Hu]]. rewrite <- (Hu k); auto. apply in_ideal_iff with n; auto. apply inI_self; auto.
Qed.

Lemma doubleLcm_false : forall n l g, doubleLcm n l g = false <->
  forall i j, i < j < n -> ~ (g @ i = l @ i /\ g @ j = l @ j).
Proof.
  intros n l g. unfold doubleLcm. rewrite Nat.leb_gt. set (f := fun v => g @ v =? l @ v). split.
  - intros H i j Hij [Ei Ej]. assert (Hl : length [i; j] <= length (filter f (seq 0 n))).
    { apply NoDup_incl_length; [repeat constructor; simpl; intuition lia|]. intros x [<-|[<-|[]]]; apply filter_In.
      - split; [apply in_seq; lia|apply Nat.eqb_eq; auto].
      - split; [apply in_seq; lia|apply Nat.eqb_eq; auto]. }
    simpl in Hl. lia.
  - intros H. destruct (filter f (seq 0 n)) as [|i [|j t]] eqn:E; simpl; try lia. exfalso.
    assert (Hs : StronglySorted lt (filter f (seq 0 n))).
    { clear. generalize 0. induction n as [|n IH]; intros a; simpl; [constructor|]. destruct (f a).
      - constructor; auto. apply Forall_forall. intros x Hx. apply filter_In in Hx. destruct Hx as [Hx _]. apply in_seq in Hx. lia.
      - auto. }
    assert (Hi : In i (filter f (seq 0 n))) by (rewrite E; left; auto).
    assert (Hj : In j (filter f (seq 0 n))) by (rewrite E; right; left; auto).
    rewrite E in Hs. inversion Hs; subst. inversion H3; subst. apply filter_In in Hi, Hj.
    destruct Hi as [_ Hi], Hj as [Hj1 Hj]. apply in_seq in Hj1. apply Nat.eqb_eq in Hi, Hj.
    apply (H i j); auto. lia.
Qed.

Lemma valid_iff : forall s, valid_slice s <-> slice_ok s /\ sndl s.
Proof.
  intros s. split.
  - intros [[A1 A2] [B1 B2] C D E F G]. pose proof A1 as A1'. pose proof B1 as B1'. apply in_ring_wf in A1', B1'. split.
    + constructor; auto.
      * apply minimal_list_minl; auto.
      * apply minimal_list_minl; auto.
      * intros Hu. apply is_lcm_i; auto.
      * intros x g Hx Hg Hd. apply (E x g Hx Hg). apply sdiv_iff with (s_n s); auto.
    + intros Hf g Hg. apply doubleLcm_false. intros i j Hij. apply G with (l := i_lcm (s_n s) (s_I s)); auto.
      apply i_lcm_is_lcm; auto.
  - intros [[WI WS MI MS Q LC N HT] Hd].
    assert (RI : in_ring (s_n s) (s_I s)) by (apply in_ring_wf; auto).
    assert (RS : in_ring (s_n s) (s_S s)) by (apply in_ring_wf; auto).
    constructor; auto.
    + split; auto. apply minl_lists; auto.
    + split; auto. apply minl_lists; auto.
    + intros Hu. rewrite LC by auto. apply i_lcm_is_lcm; auto.
    + intros x g Hx Hg H. apply (N x g Hx Hg). apply sdiv_iff; auto.
    + intros l Hl Hf g i j Hg Hij. apply is_lcm_i in Hl; auto. subst l.
      revert i j Hij. apply doubleLcm_false. apply Hd; auto.
Qed.

Lemma content_iff : forall s d, slice_ok s -> (slice_content s d <-> con s d).
Proof.
  intros s d Hok. unfold slice_content, con, sker, ker.
  assert (RI : in_ring (s_n s) (s_I s)) by (apply in_ring_wf, (ok_wfI s Hok)).
  pose proof (ok_wfS s Hok) as WS. pose proof (ok_q s Hok) as Q.
  split; intros [m H].
  - destruct H as [H1 [H2 ->]]. exists m. apply max_standard_msm in H1; auto. split; [split; auto|].
    + intros H. apply H2. apply in_ideal_iff with (s_n s); auto. apply H1.
    + apply mono_mul_product; auto. apply H1.
  - destruct H as [[H1 H2] ->]. exists m. split; [apply max_standard_msm; auto|]. split.
    + intros H. apply H2. apply in_ideal_iff; auto. apply H1.
    + symmetry. apply mono_mul_product; auto. apply H1.
Qed.

Lemma lists_iff : forall s out, slice_ok s -> (lists_content s out <-> emits s out).
Proof.
  intros s out Hok. unfold lists_content, emits. split; intros [H1 H2]; split; auto; intros d; rewrite H2.
  - apply content_iff; auto.
  - symmetry. apply content_iff; auto.
Qed.

Lemma adjusted_iff : forall s, wf (s_n s) (s_I s) -> (exponent_one_everywhere s <-> adjusted (s_n s) (s_I s)).
Proof.
  intros s Hw. split; intros H.
  - intros v h Hv Hh Hp. eapply H; eauto.
  - intros i h Hh Hp. apply H with h; auto. destruct (Nat.lt_ge_cases i (s_n s)); auto.
    rewrite nth_overflow in Hp by (rewrite (Hw h Hh); lia). lia.
Qed.

Lemma legal_iff : forall s p, slice_ok s -> (legal_pivot s p <-> legal s p).
Proof.
  intros s p Hok. pose proof (ok_wfI s Hok) as WI. pose proof (ok_wfS s Hok) as WS.
  assert (RI : in_ring (s_n s) (s_I s)) by (apply in_ring_wf; auto).
  unfold legal_pivot, legal, sB, inB. split.
  - intros [L [[i Hi] [HI [HS Hl]]]]. split; auto. split.
    + exists i. split; auto. destruct (Nat.lt_ge_cases i (s_n s)); auto. rewrite nth_overflow in Hi by lia. lia.
    + split; auto. split; [intros v Hv; apply Hl; auto; apply i_lcm_is_lcm; auto|]. split; intros H.
      * apply HI. apply in_ideal_iff with (s_n s); auto.
      * apply HS. apply in_ideal_iff with (s_n s); auto.
  - intros [L [[i [Hi Hp]] [_ [Hl [HI HS]]]]]. split; auto. split; [exists i; auto|]. split; [|split].
    + intros H. apply HI. apply in_ideal_iff; auto.
    + intros H. apply HS. apply in_ideal_iff; auto.
    + intros l Hll v Hv. apply is_lcm_i in Hll; auto. subst l. auto.
Qed.

Lemma reord_iff : forall s s', same_up_to_order s s' <-> reordered s s'.
Proof.
  intros s s'. split.
  - intros [A [B [C [D [E [F G]]]]]]. constructor; auto.
  - intros [A B C D E F G]. split; [auto|]. split; [auto|]. split; [auto|]. split; [auto|]. split; [auto|]. split; auto.
Qed.

(** ** C25 *)
Lemma v_initial : forall n I, in_ring n I -> lists_minimal_generators n I I ->
  valid_slice (msm_initial n I) /\ s_n (msm_initial n I) = n /\
  forall d, slice_content (msm_initial n I) d <-> exists m, max_standard n I m /\ d = map S m.
Proof.
  intros n I Hr Hm. apply minimal_list_minl in Hm; auto. pose proof Hr as Hw. apply in_ring_wf in Hw.
  destruct (initial_spec n I Hw Hm) as [A [B [C [D [E F]]]]]. split; [apply valid_iff; auto|]. split; auto.
  intros d. rewrite content_iff, F by auto. split; intros [m [H1 H2]]; exists m; split; auto; apply max_standard_msm; auto.
Qed.

Lemma mono_mul_divs : forall n q p d, length q = n -> length p = n -> length d = n ->
  (divs (mono_mul q p) d <-> forall v, v < n -> q @ v + p @ v <= d @ v).
Proof.
  intros n q p d Hq Hp Hd. rewrite (divs_iff n); auto; [|rewrite mono_mul_length; lia]. unfold le_n.
  split; intros H v Hv; specialize (H v Hv); rewrite mono_mul_nth in * by lia; auto.
Qed.

Lemma sker_len : forall s m, sker s m -> length m = s_n s.
Proof. intros s m [[H _] _]. auto. Qed.

Lemma v_inner : forall s p s' ch, valid_slice s -> length p = s_n s -> msm_innerSlice s p = (s', ch) ->
  valid_slice s' /\ s_n s' = s_n s /\
  forall d, slice_content s' d <-> slice_content s d /\ divs (mono_mul (s_q s) p) d.
Proof.
  intros s p s' ch Hv Hp E. apply valid_iff in Hv. destruct Hv as [Hok Hd].
  destruct (msm_innerSlice_spec s p s' ch Hok Hd Hp E) as [A [B [C _]]].
  split; [apply valid_iff; auto|]. pose proof (in_n _ _ _ C) as En. split; auto.
  intros d. rewrite !content_iff by auto. unfold con. rewrite (in_q _ _ _ C), En. set (n := s_n s) in *.
  pose proof (ok_q s Hok) as Q. fold n in Q. split.
  - intros [m [Hm ->]]. pose proof (sker_len _ _ Hm) as Lm. rewrite En in Lm. apply (in_ker _ _ _ C) in Hm; auto. fold n in Hm. split.
    + exists (t_product n m p). split; auto. apply term_ext with n; auto using t_product_length.
      intros v Hv. rewrite !t_product_nth by auto. lia.
    + apply (mono_mul_divs n); auto using t_product_length. intros v Hv. rewrite !t_product_nth by auto. lia.
  - intros [[m [Hm ->]] Hdv]. pose proof (sker_len _ _ Hm) as Lm. fold n in Lm. rewrite (mono_mul_divs n) in Hdv; auto using t_product_length.
    set (m0 := tabulate n (fun v => m @ v - p @ v)).
    assert (E0 : t_product n m0 p = m).
    { apply term_ext with n; auto using t_product_length. intros v Hv. specialize (Hdv v Hv). rewrite t_product_nth in Hdv by auto.
      rewrite t_product_nth by auto. unfold m0. rewrite tabulate_nth by auto. lia. }
    exists m0. split.
    + apply (in_ker _ _ _ C); [apply tabulate_length|]. fold n. rewrite E0. auto.
    + rewrite <- E0. apply term_ext with n; auto using t_product_length. intros v Hv. rewrite !t_product_nth by auto. lia.
Qed.

Lemma v_outer : forall s p, valid_slice s -> length p = s_n s -> (exists i, 0 < nth i p 0) ->
  valid_slice (msm_outerSlice s p) /\ s_n (msm_outerSlice s p) = s_n s /\
  forall d, slice_content (msm_outerSlice s p) d <-> slice_content s d /\ ~ divs (mono_mul (s_q s) p) d.
Proof.
  intros s p Hv Hp [i Hi]. apply valid_iff in Hv. destruct Hv as [Hok Hd].
  assert (Hpp : exists v, v < s_n s /\ 0 < p @ v).
  { exists i. split; auto. destruct (Nat.lt_ge_cases i (s_n s)); auto. rewrite nth_overflow in Hi by lia. lia. }
  destruct (msm_outerSlice_spec s p Hok Hd Hp Hpp) as [A [B C]].
  split; [apply valid_iff; auto|]. pose proof (out_n _ _ _ C) as En. split; auto.
  intros d. rewrite !content_iff by auto. unfold con. rewrite (out_q _ _ _ C), En. set (n := s_n s) in *.
  pose proof (ok_q s Hok) as Q. fold n in Q. split.
  - intros [m [Hm ->]]. apply (out_ker _ _ _ C) in Hm. destruct Hm as [Hm Hn]. split; [exists m; auto|].
    intros H. apply Hn. rewrite (mono_mul_divs n) in H; auto using t_product_length. intros v Hv. fold n in Hv. specialize (H v Hv).
    rewrite t_product_nth in H by auto. lia.
  - intros [[m [Hm ->]] Hn]. exists m. split; auto. apply (out_ker _ _ _ C). split; auto. intros H. apply Hn.
    apply (mono_mul_divs n); auto using t_product_length. intros v Hv. specialize (H v Hv). rewrite t_product_nth by auto. lia.
Qed.

Lemma keeps_same : forall s s', slice_ok s -> slice_ok s' -> sndl s' -> same_con s s' -> keeps_content s s'.
Proof.
  intros s s' Hok A B C. split; [apply valid_iff; auto|]. split; [apply (sc_n _ _ C)|].
  intros d. rewrite !content_iff by auto. apply (sc_con _ _ C).
Qed.

Lemma v_simplify : forall s, valid_slice s ->
  (exists s' ch, msm_adjustMultiply s = Some (s', ch) /\ keeps_content s s') /\
  (exists s' ch, msm_applyLowerBound s = Some (s', ch) /\ keeps_content s s') /\
  ((s_n s = 0 -> s_S s = []) -> forall s' ch, sl_pruneSubtract s = (s', ch) -> keeps_content s s') /\
  ((s_n s = 0 -> s_S s = []) -> exists s' ch, msm_simplify s = Some (s', ch) /\ keeps_content s s').
Proof.
  intros s Hv. apply valid_iff in Hv. destruct Hv as [Hok Hd].
  assert (Hz : (s_n s = 0 -> s_S s = []) -> 0 < s_n s \/ s_S s = []).
  { intros H. destruct (Nat.eq_dec (s_n s) 0) as [E|E]; [right; auto|left; lia]. }
  split; [|split; [|split]].
  - destruct (adjustMultiply_spec (S (exp_sum (s_n s) (slcm s))) s false Hok Hd ltac:(lia)) as [s' [ch [E [A [B [C _]]]]]].
    exists s', ch. split; auto. apply keeps_same; auto.
  - destruct (applyLowerBound_spec s Hok Hd) as [s' [ch [E [A [B [C _]]]]]]. exists s', ch. split; auto. apply keeps_same; auto.
  - intros H s' ch E. destruct (pruneSubtract_spec s s' ch Hok Hd (Hz H) E) as [A [B [C _]]]. apply keeps_same; auto.
  - intros H. destruct (simplify_spec s Hok Hd (Hz H)) as [s' [ch [E [A [B [C _]]]]]]. exists s', ch. split; auto. apply keeps_same; auto.
Qed.

Lemma v_normalize : forall s s' ch, in_ring (s_n s) (s_I s) -> lists_minimal_generators (s_n s) (s_I s) (s_I s) ->
  length (s_q s) = s_n s -> in_ring (s_n s) (s_S s) ->
  sl_normalize s = (s', ch) ->
  s_n s' = s_n s /\ s_S s' = s_S s /\ s_q s' = s_q s /\ incl (s_I s') (s_I s) /\
  (forall x g, In x (s_S s') -> In g (s_I s') -> ~ strictly_divides x g) /\
  forall d, slice_content s' d <-> slice_content s d.
Proof.
  intros s s' ch RI HM Q RS E. apply minimal_list_minl in HM; auto. pose proof RI as WI. apply in_ring_wf in WI.
  pose proof RS as WS. apply in_ring_wf in WS.
  unfold sl_normalize in E. destruct (norm_loop (s_n s) (s_S s) (s_I s) (s_upd s) false) as [[I' upd'] rem] eqn:En.
  injection E as <- <-. destruct (normalize_spec _ _ _ _ _ _ _ En WI HM) as [A [B [C [D [F _]]]]].
  cbn [s_n s_S s_q s_I]. split; auto. split; auto. split; auto. split; auto. split.
  - intros x g Hx Hg H. apply (D x g Hx Hg). apply sdiv_iff; auto.
  - assert (RI' : in_ring (s_n s) I') by (apply in_ring_wf; auto).
    assert (K : forall J m, in_ring (s_n s) J -> (max_standard (s_n s) J m /\ ~ in_ideal (s_S s) m <-> ker (s_n s) J (s_S s) m)).
    { intros J m RJ. unfold ker. rewrite <- max_standard_msm by auto. split; intros [H1 H2]; split; auto; intros H; apply H2.
      - apply in_ideal_iff with (s_n s); auto. apply H1.
      - apply in_ideal_iff; auto. apply H1. }
    intros d. unfold slice_content. cbn [s_n s_I s_S s_q]. split; intros [m [H1 [H2 H3]]]; exists m.
    + assert (Hk : ker (s_n s) I' (s_S s) m) by (apply K; auto). apply F in Hk. apply K in Hk; auto. tauto.
    + assert (Hk : ker (s_n s) (s_I s) (s_S s) m) by (apply K; auto). apply F in Hk. apply K in Hk; auto. tauto.
Qed.

Lemma v_double : forall s s' ch, valid_slice s -> msm_removeDoubleLcm s = (s', ch) -> keeps_content s s'.
Proof.
  intros s s' ch Hv E. apply valid_iff in Hv. destruct Hv as [Hok Hd].
  destruct (removeDoubleLcm_spec s Hok) as [A [B [C _]]]. rewrite E in *. cbn [fst] in *.
  apply keeps_same; auto. apply sub_same. auto.
Qed.

(** ** Base cases *)
Lemma simplify_empty_n0 : forall s s' ch, msm_simplify s = Some (s', ch) -> slice_ok s -> sndl s -> s_n s' = s_n s.
Proof.
  intros s s' ch E Hok Hd. unfold msm_simplify in E. destruct (applyLowerBound_spec s Hok Hd) as [s1 [c1 [E1 [A [B [C _]]]]]].
  rewrite E1 in E. pose proof (sc_n _ _ C). unfold sl_pruneSubtract in E. destruct (s_S s1) as [|x S].
  - injection E as <- _. auto.
  - cbv zeta in E. destruct (i_removeIf _ _) as [S' any]. injection E as <- _. cbn [s_n].
    destruct (touch_facts s1) as [T _]. congruence.
Qed.

Lemma ready_pre : forall simp s, ready simp s -> base_pre simp s.
Proof.
  intros simp s [H0 [H1 H2]]. split; auto. destruct simp.
  - destruct (H1 eq_refl) as [s0 [ch [V E]]]. apply valid_iff in V. destruct V as [Hok Hd].
    pose proof (simplify_empty_n0 _ _ _ E Hok Hd) as En.
    assert (HS : simplified_ideal (s_n s) (s_I s)).
    { destruct (Nat.eq_dec (s_n s0) 0) as [Z|Z].
      - split; [lia|lia].
      - destruct (simplify_spec s0 Hok Hd ltac:(left; lia)) as [s' [ch' [E' [_ [_ [_ D]]]]]]. rewrite E in E'. injection E' as <- <-. exact D. }
    split; [apply HS|auto].
  - split; [apply H2; auto|discriminate].
Qed.

Lemma v_base : forall simp s s' r, valid_slice s -> ready simp s -> msm_baseCase s simp = (s', r) ->
  match r with
  | Base out => lists_content s out
  | BaseUB => False
  | NotBase => keeps_content s s'
  end.
Proof.
  intros simp s s' r Hv Hr E. apply valid_iff in Hv. destruct Hv as [Hok Hd].
  pose proof (baseCase_spec s simp s' r Hok Hd (ready_pre _ _ Hr) E) as H. destruct r; auto.
  - destruct H as [-> Hn]. destruct (touch_nonbase_ok s Hok Hd) as [A [B [C D]]].
    split; [apply valid_iff; auto|]. destruct (touch_facts s) as [T _]. split; auto. intros d. rewrite !content_iff by auto. apply D.
  - apply lists_iff; auto.
Qed.

(** ** Rules *)
Lemma identity_repeat : forall n, t_identity n = repeat 0 n.
Proof.
  intros n. apply term_ext with n; [apply t_identity_length|apply repeat_length|]. intros v Hv. rewrite t_identity_nth.
  symmetry. apply nth_repeat.
Qed.

Lemma var_in_ideal : forall n I v, wf n I -> minl n I -> v < n -> (exists g, In g I /\ 2 <= g @ v) \/ (full n (i_lcm n I)) ->
  (in_ideal I (times_var (repeat 0 n) v) <-> In (var_pow n v 1) I).
Proof.
  intros n I v Hw Hm Hv Hx.
  assert (E : times_var (repeat 0 n) v = var_pow n v 1).
  { apply term_ext with n; [rewrite times_var_length; apply repeat_length|apply t_set_length|]. intros w Hw'.
    rewrite times_var_nth by (rewrite repeat_length; auto). rewrite nth_repeat. rewrite var_pow_nth by auto.
    destruct (w =? v); auto. }
  rewrite E. split.
  - intros [g [Hg Hd]]. apply (divs_iff n) in Hd; auto; [|apply t_set_length].
    assert (g @ v <> 0).
    { intros Hz. assert (Hz' : forall w, w < n -> g @ w = 0).
      { intros w Hw'. specialize (Hd w Hw'). rewrite var_pow_nth in Hd by auto. destruct (Nat.eqb_spec w v) as [Ew|Ew]; [rewrite Ew; auto|lia]. }
      destruct Hx as [[h [Hh Hh2]]|Hf].
      - assert (g = h) by (apply Hm; auto; intros w Hw'; rewrite Hz' by auto; lia). subst h. rewrite Hz' in Hh2 by auto. lia.
      - destruct (i_lcm_attained n I v Hv (Hf v Hv)) as [h [Hh Eh]].
        assert (g = h) by (apply Hm; auto; intros w Hw'; rewrite Hz' by auto; lia). subst h. specialize (Hf v Hv). lia. }
    assert (Eg : g = var_pow n v 1).
    { apply term_ext with n; auto; [apply t_set_length|]. intros w Hw'. specialize (Hd w Hw'). rewrite var_pow_nth in * by auto.
      destruct (Nat.eqb_spec w v) as [Ew|Ew]; [rewrite Ew in *; lia|lia]. }
    rewrite <- Eg. auto.
  - intros H. exists (var_pow n v 1). split; auto. apply divs_iff with n; try apply t_set_length. apply le_n_refl.
Qed.

Lemma legal_pivot_sound : forall f, legal_pivot_rule f <-> pivot_sound f.
Proof.
  intros f. split.
  - intros H simp rnd k s0 s Hok Hd E. destruct (H simp rnd k s0 s) as [s' [p [k' [A [B C]]]]]; auto; [apply valid_iff; auto|].
    exists s', p, k'. split; auto. split; [apply reord_iff; auto|]. apply legal_iff; auto.
    destruct (notbase_nonbase s0 simp s Hok Hd E) as [-> _]. apply touch_ok; auto.
  - intros H simp rnd k s0 s Hv E. apply valid_iff in Hv. destruct Hv as [Hok Hd].
    destruct (H simp rnd k s0 s Hok Hd E) as [s' [p [k' [A [B C]]]]].
    exists s', p, k'. split; auto. split; [apply reord_iff; auto|]. apply legal_iff; auto.
    destruct (notbase_nonbase s0 simp s Hok Hd E) as [-> _]. apply touch_ok; auto.
Qed.

Lemma legal_label_sound : forall f, legal_label_rule f <-> label_sound f.
Proof.
  intros f. split.
  - intros H simp s0 s Hok Hd E Ha. destruct (notbase_nonbase s0 simp s Hok Hd E) as [-> Hnb].
    pose proof (touch_ok s0 Hok) as Hok1.
    destruct (H simp s0 (sl_touch s0)) as [v [A [B C]]]; auto; [apply valid_iff; auto|apply adjusted_iff; auto; apply (ok_wfI _ Hok1)|].
    exists v. split; auto. split; auto. intros Hx. apply C. apply var_in_ideal; auto.
    + apply (ok_wfI _ Hok1).
    + apply (ok_minI _ Hok1).
    + right. apply (nb_full _ _ Hnb).
  - intros H simp s0 s Hv E Ha. apply valid_iff in Hv. destruct Hv as [Hok Hd].
    destruct (notbase_nonbase s0 simp s Hok Hd E) as [-> Hnb].
    pose proof (touch_ok s0 Hok) as Hok1.
    destruct (H simp s0 (sl_touch s0) Hok Hd E) as [v [A [B C]]]; [apply adjusted_iff; auto; apply (ok_wfI _ Hok1)|].
    exists v. split; auto. split; auto. intros Hx. apply C. apply var_in_ideal in Hx; auto.
    + apply (ok_wfI _ Hok1).
    + apply (ok_minI _ Hok1).
    + right. apply (nb_full _ _ Hnb).
Qed.

Lemma legal_conf_ok : forall c, legal_config c -> conf_ok c.
Proof.
  intros c H. unfold legal_config, conf_ok in *. destruct (c_split c).
  - apply legal_pivot_sound; auto.
  - apply legal_label_sound; auto.
Qed.

Lemma builtin_rules :
  legal_pivot_rule minimum_pivot /\ legal_pivot_rule median_pivot /\ legal_pivot_rule maximum_pivot /\
  legal_pivot_rule mingen_pivot /\ legal_pivot_rule gcd_pivot /\ legal_pivot_rule indep_pivot /\
  legal_label_rule maxlabel_var /\ legal_label_rule varlabel_var /\ legal_label_rule minlabel_var.
Proof.
  split; [apply legal_pivot_sound, pivot_sound0_sound, minimum_sound|].
  split; [apply legal_pivot_sound, pivot_sound0_sound, median_sound|].
  split; [apply legal_pivot_sound, pivot_sound0_sound, maximum_sound|].
  split; [apply legal_pivot_sound, pivot_sound0_sound, mingen_sound|].
  split; [apply legal_pivot_sound, pivot_sound0_sound, gcd_sound|].
  split; [apply legal_pivot_sound, pivot_sound0_sound, indep_sound|].
  split; [apply legal_label_sound, label_sound0_sound, maxlabel_sound|].
  split; [apply legal_label_sound, label_sound0_sound, varlabel_sound|].
  apply legal_label_sound, label_sound0_sound, minlabel_sound.
Qed.

(** ** The run *)
Lemma v_run : forall c rnd n I, legal_config c -> in_ring n I -> lists_minimal_generators n I I -> uncompressed_ok c n I ->
  exists out, msm_run c rnd n I = Some out /\ NoDup out /\
    forall d, In d out <-> exists m, max_standard n I m /\ d = map S m.
Proof.
  intros c rnd n I Hc Hr Hm Hu. pose proof Hr as Hw. apply in_ring_wf in Hw.
  destruct (msm_run_spec c rnd n I (legal_conf_ok c Hc) Hw (minimal_list_minl n I Hr Hm) Hu) as [out [A [B C]]].
  exists out. split; auto. split; auto. intros d. rewrite C. split; intros [m [H1 H2]]; exists m; split; auto; apply max_standard_msm; auto.
Qed.

Lemma v_same : forall c rnd c' rnd' n I, legal_config c -> legal_config c' ->
  in_ring n I -> lists_minimal_generators n I I -> uncompressed_ok c n I -> uncompressed_ok c' n I ->
  exists out out', msm_run c rnd n I = Some out /\ msm_run c' rnd' n I = Some out' /\ Permutation out out'.
Proof.
  intros c rnd c' rnd' n I Hc Hc' Hr Hm Hu Hu'.
  destruct (v_run c rnd n I Hc Hr Hm Hu) as [o1 [A1 [B1 C1]]].
  destruct (v_run c' rnd' n I Hc' Hr Hm Hu') as [o2 [A2 [B2 C2]]].
  exists o1, o2. split; auto. split; auto. apply NoDup_Permutation; auto. intros d. rewrite C1, C2. tauto.
Qed.

(** ** C27 *)
Lemma v_indep : forall simp s0 s, valid_slice s0 -> msm_baseCase s0 simp = (s, NotBase) ->
  exists r, indep_analyze s = Some r /\
  forall big rest, r = Some (big, rest) ->
    Permutation (big ++ rest) (seq 0 (s_n s)) /\ 2 <= length big /\ 2 <= length rest /\
    valid_slice (sl_setToProjOf s big) /\ valid_slice (sl_setToProjOf s rest) /\
    (forall d, length d = s_n s ->
       (slice_content s d <->
        slice_content (sl_setToProjOf s big) (map (fun v => nth v d 0) big) /\
        slice_content (sl_setToProjOf s rest) (map (fun v => nth v d 0) rest))) /\
    (forall xs ys, lists_content (sl_setToProjOf s big) xs -> lists_content (sl_setToProjOf s rest) ys ->
       lists_content s (combine_left (s_n s) big rest (t_identity (s_n s)) xs ys) /\
       length (combine_left (s_n s) big rest (t_identity (s_n s)) xs ys) = length xs * length ys).
Proof.
  intros simp s0 s Hv E. apply valid_iff in Hv. destruct Hv as [Hok0 Hd0].
  destruct (notbase_nonbase s0 simp s Hok0 Hd0 E) as [-> Hnb]. destruct (touch_nonbase_ok s0 Hok0 Hd0) as [Hok [Hd _]].
  set (s := sl_touch s0) in *.
  destruct (indep_analyze_spec s Hok) as [r [Er Hr]]. exists r. split; auto. intros big rest ->.
  destruct Hr as [f [-> [-> [L1 [L2 [OI OS]]]]]].
  pose proof (nb_one _ _ Hnb) as HB1. pose proof HB1 as [_ [_ [N1 N2]]].
  pose proof (not_one_sided _ f _ OI N1) as SI1. pose proof (not_one_sided _ f _ OS N2) as SS1.
  set (f' := fun i => negb (f i)) in *.
  assert (SI2 : sided (s_n s) f' (s_I s)) by (apply sided_swap; auto).
  assert (SS2 : sided (s_n s) f' (s_S s)) by (apply sided_swap; auto).
  change (filter f (seq 0 (s_n s))) with (off (s_n s) f) in *. change (filter f' (seq 0 (s_n s))) with (off (s_n s) f') in *.
  pose proof (nb_full _ _ Hnb) as Hfull. pose proof (nb_lcm _ _ Hnb) as Hlcm.
  destruct (proj_slice_ok s f Hok Hfull Hd Hlcm SI1 SS1) as [P1 P2]; [unfold blen; lia|].
  destruct (proj_slice_ok s f' Hok Hfull Hd Hlcm SI2 SS2) as [Q1 Q2]; [unfold blen; lia|].
  split. { apply Permutation_sym. unfold off, f'. generalize (seq 0 (s_n s)). clear.
    induction l as [|x l IH]; auto. cbn [filter]. destruct (f x); cbn [negb].
    - simpl. apply perm_skip. auto.
    - eapply Permutation_trans; [apply perm_skip; exact IH|]. apply Permutation_middle. }
  split; auto. split; auto. split; [apply valid_iff; auto|]. split; [apply valid_iff; auto|]. split.
  - intros d Hl. rewrite !content_iff by auto. apply con_two; auto.
  - intros xs ys Hx Hy. apply lists_iff in Hx, Hy; auto. split; [apply lists_iff; auto; apply combine_emits; auto|].
    assert (R : forall ys t, length (fst (combine_right (s_n s) (off (s_n s) f') t ys)) = length ys).
    { induction ys0 as [|y ys0 IH]; intros t; auto. cbn [combine_right]. specialize (IH (proj_inverse (s_n s) (off (s_n s) f') t y)).
      destruct (combine_right _ _ _ ys0). simpl in *. auto. }
    generalize (t_identity (s_n s)). clear Hx Hy. induction xs as [|x xs IH]; intros t; auto. cbn [combine_left].
    specialize (R ys (proj_inverse (s_n s) (off (s_n s) f) t x)). destruct (combine_right _ _ _ ys) as [o t2]. simpl in *.
    rewrite app_length, IH. unfold mono, term in *. rewrite R. lia.
Qed.

(** ** C28 *)
Lemma merge_conn : forall n (R : nat -> nat) i j x y, (forall v, v < n -> R v < n /\ R (R v) = R v) -> i < n -> j < n ->
  (merge R i j x = merge R i j y <->
   R x = R y \/ (R x = R i /\ R y = R j) \/ (R x = R j /\ R y = R i)).
Proof.
  intros n R i j x y HR Hi Hj. unfold merge.
  destruct (Nat.eqb_spec (R x) (R j)), (Nat.eqb_spec (R y) (R j)); split; intros; try tauto; try lia.
Qed.

Lemma run_ops_spec : forall n ops p R G ops0, PI n p R G -> Forall (op_in n) ops -> Forall (op_in n) ops0 ->
  (forall x y, x < n -> y < n -> (R x = R y <-> connected ops0 x y)) ->
  exists p' R' G', run_ops p ops = Some p' /\ PI n p' R' G' /\
    (forall x y, x < n -> y < n -> (R' x = R' y <-> connected (ops0 ++ ops) x y)) /\
    (forall r, cnt R' r G' = cnt R' r (G ++ flat_map (fun o => match o with AddToSet i => [i] | _ => [] end) ops)).
Proof.
  intros n. induction ops as [|o ops IH]; intros p R G ops0 HP Hops Hops0 HC.
  - exists p, R, G. split; auto. split; auto. split; [rewrite app_nil_r; auto|]. simpl. intros r. rewrite app_nil_r. auto.
  - inversion Hops as [|? ? Ho Hops']; subst.
    assert (Hmono : forall x y o', connected ops0 x y -> connected (ops0 ++ [o']) x y).
    { intros x y o' H. induction H; [apply rst_step; apply in_or_app; left; auto|apply rst_refl|apply rst_sym; auto|eapply rst_trans; eauto]. }
    assert (Happ : forall o', ops0 ++ o' :: ops = (ops0 ++ [o']) ++ ops) by (intros; rewrite <- app_assoc; auto).
    assert (Hsame : forall o', (forall i j, o' <> Join i j) -> forall x y, connected (ops0 ++ [o']) x y <-> connected ops0 x y).
    { intros o' Hne x y. split; [|apply Hmono]. intros H. induction H as [x y H| | |]; [|apply rst_refl|apply rst_sym; auto|eapply rst_trans; eauto].
      apply rst_step. unfold joined in *. apply in_app_or in H. destruct H as [H|[H|[]]]; auto. exfalso. eapply Hne; eauto. }
    rewrite Happ. destruct o as [i j|i|i]; cbn [op_in] in Ho.
    + destruct Ho as [Hi Hj]. destruct (join_spec n p R G i j HP Hi Hj) as [J1 J2].
      assert (Hops1 : Forall (op_in n) (ops0 ++ [Join i j])) by (apply Forall_app; split; auto; repeat constructor; auto).
      assert (Hij : connected (ops0 ++ [Join i j]) i j) by (apply rst_step; apply in_or_app; right; left; auto).
      assert (Hlt : forall x y, connected (ops0 ++ [Join i j]) x y -> x < n -> y < n).
      { intros x y H. assert (Hb : (x < n <-> y < n)).
        { induction H as [x y H| | |]; try tauto. unfold joined in H. rewrite Forall_forall in Hops1. apply Hops1 in H. cbn in H. tauto. }
        tauto. }
      destruct (Nat.eq_dec (R i) (R j)) as [Er|Er].
      * destruct (J1 Er) as [p1 [E1 [P1 _]]].
        destruct (IH p1 R G (ops0 ++ [Join i j]) P1 Hops' Hops1) as [p' [R' [G' [A B]]]].
        { intros x y Hx Hy. rewrite HC by auto. split; [apply Hmono|]. intros H.
          assert (H' : x < n -> y < n -> connected ops0 x y); [|auto]. clear Hx Hy.
          assert (H2 : x < n -> connected ops0 x y).
          { induction H as [x y H|x|x y H IHr|x y z H1 IHr1 H2 IHr2]; intros Hx.
            - unfold joined in H. apply in_app_or in H. destruct H as [H|[H|[]]]; [apply rst_step; auto|]. injection H as <- <-. apply HC; auto.
            - apply rst_refl.
            - apply rst_sym. apply IHr. apply (Hlt y x); [apply rst_sym; auto|auto].
            - eapply rst_trans; [apply IHr1; auto|]. apply IHr2. eapply Hlt; eauto. }
          auto. }
        exists p', R', G'. cbn [run_ops]. rewrite E1. split; auto.
      * destruct (J2 Er) as [p1 [E1 [P1 _]]].
        destruct (IH p1 (merge R i j) G (ops0 ++ [Join i j]) P1 Hops' Hops1) as [p' [R' [G' [A B]]]].
        { intros x y Hx Hy. 
          assert (HRR : forall v, v < n -> R v < n /\ R (R v) = R v) by (intros v Hv; exact (PI_lt n p R G v HP Hv)).
          rewrite (merge_conn n) by auto. split.
          - intros [H|[[H1 H2]|[H1 H2]]].
            + apply Hmono. apply HC; auto.
            + eapply rst_trans; [apply Hmono; apply (HC x i); auto|]. eapply rst_trans; [exact Hij|]. apply Hmono. apply HC; auto.
            + eapply rst_trans; [apply Hmono; apply (HC x j); auto|]. eapply rst_trans; [apply rst_sym; exact Hij|]. apply Hmono. apply HC; auto.
          - intros H. rewrite <- (merge_conn n) by auto. clear Hy.
            induction H as [x y H|x|x y H IHr|x y z H1 IHr1 H2 IHr2].
            + unfold joined in H. apply in_app_or in H. destruct H as [H|[H|[]]].
              * rewrite (merge_conn n) by auto. left. assert (Hy : y < n) by (apply (Hlt x y); auto; apply rst_step; apply in_or_app; auto).
                apply HC; auto. apply rst_step; auto.
              * injection H as <- <-. rewrite (merge_conn n) by auto. auto.
            + auto.
            + symmetry. apply IHr. apply (Hlt y x); [apply rst_sym; auto|auto].
            + rewrite IHr1 by auto. apply IHr2. eapply Hlt; eauto. }
        exists p', R', G'. cbn [run_ops]. rewrite E1. split; auto.
    + destruct (addToSet_spec n p R G i HP Ho) as [p1 [E1 [P1 _]]].
      destruct (IH p1 R (i :: G) (ops0 ++ [AddToSet i]) P1 Hops') as [p' [R' [G' [A [B [C D]]]]]].
      { apply Forall_app; split; auto; repeat constructor; auto. }
      { intros x y Hx Hy. rewrite HC by auto. symmetry. apply Hsame. discriminate. }
      exists p', R', G'. cbn [run_ops]. rewrite E1. split; auto. split; auto. split; auto.
      intros r. rewrite D. unfold cnt. simpl. rewrite !filter_app. simpl.
      destruct (R' i =? r); simpl; rewrite !app_length; simpl; lia.
    + destruct (getRoot_spec n p R G i HP Ho) as [p1 [E1 [P1 _]]].
      destruct (IH p1 R G (ops0 ++ [GetRoot i]) P1 Hops') as [p' [R' [G' [A [B [C D]]]]]].
      { apply Forall_app; split; auto; repeat constructor; auto. }
      { intros x y Hx Hy. rewrite HC by auto. symmetry. apply Hsame. discriminate. }
      exists p', R', G'. cbn [run_ops]. rewrite E1. split; auto.
Qed.

Lemma v_partition : forall n ops, Forall (op_in n) ops ->
  exists p, run_ops (p_reset n) ops = Some p /\
  (forall x y, x < n -> y < n -> exists p1 p2 rx ry,
     p_getRoot p x = Some (p1, rx) /\ p_getRoot p y = Some (p2, ry) /\ (rx = ry <-> connected ops x y)) /\
  (forall k, k < p_count p -> exists offs rep,
     proj_reset p k = Some offs /\ StronglySorted lt offs /\ rep < n /\
     (forall v, In v offs <-> v < n /\ connected ops rep v) /\
     p_getSetSize p k = Some (Z.of_nat (length (filter (fun i => existsb (Nat.eqb i) offs) (added ops))))) /\
  (forall k, p_count p <= k -> proj_reset p k = None) /\
  (forall v, v < n -> exists k offs, k < p_count p /\ proj_reset p k = Some offs /\ In v offs) /\
  (forall j k offs offs' v, proj_reset p j = Some offs -> proj_reset p k = Some offs' -> In v offs -> In v offs' -> j = k).
Proof.
  intros n ops Hops.
  destruct (run_ops_spec n ops (p_reset n) (fun i => i) [] [] (reset_PI n) Hops (Forall_nil _)) as [p [R [G [E [HP [HC HG]]]]]].
  { intros x y _ _. split; [intros ->; apply rst_refl|]. intros H. induction H as [x y []| | |]; congruence. }
  cbn [app] in *. exists p. split; auto.
  assert (Hroot : forall r, In r (p_roots p) <-> r < n /\ R r = r).
  { intros r. unfold p_roots. rewrite filter_In, in_seq, (pi_size _ _ _ _ HP). destruct HP as [Hs [d [HA _]] _ _]. unfold p_size in Hs. split.
    - intros [H1 H2]. apply Z.ltb_lt in H2. split; [lia|]. apply (pa_neg _ _ _ _ HA); auto. lia.
    - intros [H1 H2]. split; [lia|]. apply Z.ltb_lt. rewrite <- H2. apply (pa_root _ _ _ _ HA). lia. }
  assert (Hk : forall k r, nth_error (p_roots p) k = Some r ->
     proj_reset p k = Some (filter (fun i => R i =? r) (seq 0 n))).
  { intros k r Ek. unfold proj_reset. rewrite Ek, (pi_size _ _ _ _ HP). apply class_members_spec with n G; auto.
    intros x Hx. apply in_seq in Hx. lia. }
  split; [|split; [|split; [|split]]].
  - intros x y Hx Hy. destruct (getRoot_spec n p R G x HP Hx) as [p1 [E1 _]]. destruct (getRoot_spec n p R G y HP Hy) as [p2 [E2 _]].
    exists p1, p2, (R x), (R y). split; auto.
  - intros k Hkc. rewrite (pi_count _ _ _ _ HP) in Hkc.
    destruct (nth_error (p_roots p) k) as [r|] eqn:Ek; [|apply nth_error_None in Ek; lia].
    pose proof (nth_error_In _ _ Ek) as Hr. apply Hroot in Hr. destruct Hr as [Hrn Hrr].
    assert (Hmem : forall v, In v (filter (fun i => R i =? r) (seq 0 n)) <-> v < n /\ connected ops r v).
    { intros v. rewrite filter_In, in_seq, Nat.eqb_eq. split.
      - intros [H1 H2]. split; [lia|]. apply HC; [auto|lia|congruence].
      - intros [H1 H2]. split; [lia|]. apply HC in H2; auto. congruence. }
    exists (filter (fun i => R i =? r) (seq 0 n)), r. split; [auto|]. split; [|split; [auto|split; [auto|]]].
    + clear. generalize 0. induction n as [|n IH]; intros a; simpl; [constructor|]. destruct (R a =? r); auto. constructor; auto.
      apply Forall_forall. intros x Hx. apply filter_In in Hx. destruct Hx as [Hx _]. apply in_seq in Hx. lia.
    + rewrite (getSetSize_spec n p R G k r HP Ek). do 2 f_equal. rewrite HG. unfold cnt. cbn [app].
      change (flat_map (fun o => match o with AddToSet i => [i] | _ => [] end) ops) with (added ops). f_equal.
      apply filter_ext_in. intros x Hx.
      assert (Hxn : x < n).
      { unfold added in Hx. apply in_flat_map in Hx. destruct Hx as [o [Ho Hx]]. rewrite Forall_forall in Hops. specialize (Hops o Ho).
        destruct o; cbn in Hx, Hops; try contradiction. destruct Hx as [<-|[]]. auto. }
      destruct (Nat.eqb_spec (R x) r) as [Ex|Ex].
      * symmetry. apply existsb_exists. exists x. split; [|apply Nat.eqb_refl]. apply filter_In. split; [apply in_seq; lia|]. apply Nat.eqb_eq; auto.
      * symmetry. apply not_true_false. intros H. apply existsb_exists in H. destruct H as [y [Hy1 Hy2]]. apply Nat.eqb_eq in Hy2. subst y.
        apply filter_In in Hy1. destruct Hy1 as [_ Hy1]. apply Nat.eqb_eq in Hy1. auto.
  - intros k Hkc. rewrite (pi_count _ _ _ _ HP) in Hkc. unfold proj_reset. apply nth_error_None in Hkc. rewrite Hkc. auto.
  - intros v Hv. destruct (PI_lt n p R G v HP Hv) as [H1 H2]. assert (Hr : In (R v) (p_roots p)) by (apply Hroot; auto).
    apply In_nth_error in Hr. destruct Hr as [k Ek]. exists k. eexists. split; [rewrite (pi_count _ _ _ _ HP); apply nth_error_Some; congruence|].
    split; [eauto|]. apply filter_In. split; [apply in_seq; lia|apply Nat.eqb_refl].
  - intros j k offs offs' v Ej Ek Hj Hk'. 
    destruct (nth_error (p_roots p) j) as [a|] eqn:Ea; [|unfold proj_reset in Ej; rewrite Ea in Ej; discriminate].
    destruct (nth_error (p_roots p) k) as [b|] eqn:Eb; [|unfold proj_reset in Ek; rewrite Eb in Ek; discriminate].
    rewrite (Hk _ _ Ea) in Ej. rewrite (Hk _ _ Eb) in Ek. injection Ej as <-. injection Ek as <-.
    apply filter_In in Hj, Hk'. destruct Hj as [_ Hj], Hk' as [_ Hk']. apply Nat.eqb_eq in Hj, Hk'.
    assert (a = b) by congruence. subst b. 
    assert (HN : NoDup (p_roots p)) by (unfold p_roots; apply NoDup_filter, seq_NoDup).
    rewrite NoDup_nth_error in HN. apply HN; [apply nth_error_Some; congruence|congruence].
Qed.

Lemma v_projection : forall n offs m to from, StronglySorted lt offs -> (forall o, In o offs -> o < n) ->
  length m = n -> length to = n -> length from = length offs ->
  proj_project offs (proj_inverse n offs to from) = from /\
  proj_inverse n offs m (proj_project offs m) = m /\
  (forall v, v < n -> ~ In v offs -> nth v (proj_inverse n offs to from) 0 = nth v to 0).
Proof.
  intros n offs m to from Hs Ho Hm Ht Hf.
  assert (HN : NoDup offs).
  { clear -Hs. induction Hs as [|a l H1 IH H2]; constructor; auto. intros Hin. rewrite Forall_forall in H2. specialize (H2 a Hin). lia. }
  assert (Hpp : forall to' x, length to' = n -> length x = length offs -> proj_project offs (proj_inverse n offs to' x) = x).
  { intros to' x Ht' Hx. destruct (proj_inverse_spec n offs to' x Ht' HN Ho Hx) as [A [B C]].
    apply nth_ext with 0 0.
    - unfold proj_project. rewrite map_length. auto.
    - intros k Hk. unfold proj_project in *. rewrite map_length in Hk.
      rewrite (nth_indep _ 0 ((fun o => (proj_inverse n offs to' x) @ o) 0)) by (rewrite map_length; auto).
      rewrite (map_nth (fun o => (proj_inverse n offs to' x) @ o)). apply B; auto. }
  split; auto. split.
  - assert (Hl : length (proj_project offs m) = length offs) by apply map_length.
    destruct (proj_inverse_spec n offs m (proj_project offs m) Hm HN Ho Hl) as [A [B C]].
    apply term_ext with n; auto. intros v Hv. destruct (in_dec Nat.eq_dec v offs) as [Hin|Hin]; [|auto].
    apply In_nth with (d := 0) in Hin. destruct Hin as [k [Hk <-]]. rewrite B by auto.
    unfold proj_project. rewrite (nth_indep _ 0 ((fun o => m @ o) 0)) by (rewrite map_length; auto). rewrite (map_nth (fun o => m @ o)). auto.
  - destruct (proj_inverse_spec n offs to from Ht HN Ho Hf) as [A [B C]]. auto.
Qed.

(** ** C29 *)
Lemma v_machine : forall c rnd n I, legal_config c -> in_ring n I -> lists_minimal_generators n I I -> uncompressed_ok c n I ->
  exists out steps k hp total log,
    msm_run c rnd n I = Some out /\
    (forall fuel, steps <= fuel -> machine_run fuel c rnd n I = Some ((hp, k, out), total, log)) /\
    Forall (fun o => o = None) hp /\
    added_ids log = seq 0 total /\ Permutation (ran_ids log) (seq 0 total) /\ lifo log.
Proof.
  intros c rnd n I Hc Hr Hm Hu. destruct (v_run c rnd n I Hc Hr Hm Hu) as [out [E _]].
  destruct (machine_refines c rnd n I out E) as [steps [k [hp [total [log [A [B [C [D F]]]]]]]]].
  exists out, steps, k, hp, total, log. split; auto.
Qed.
