(** The slice algorithm for maximal standard monomials is exact for every sound configuration. *)
From Coq Require Import List Arith Bool Lia Permutation.
Import ListNotations.
From Verif Require Import Spec Spec_Slice Spec_Run M_Term M_Ideal M_Slice M_Partition M_Msm P_Term P_Ideal P_Msm1 P_Msm2 P_Msm3 P_Msm4 P_Msm5
  P_Indep P_Proj P_Split.

Definition pivot_sound (f : pivot_rule) : Prop := forall simp rnd k s0 s, slice_ok s0 -> sndl s0 ->
  msm_baseCase s0 simp = (s, NotBase) ->
  exists s' p k', f rnd k s = Some (s', p, k') /\ reordered s s' /\ legal s p.
Definition label_sound (f : label_rule) : Prop := forall simp s0 s, slice_ok s0 -> sndl s0 ->
  msm_baseCase s0 simp = (s, NotBase) -> adjusted (s_n s) (s_I s) ->
  exists v, f s = Some v /\ v < s_n s /\ ~ In (var_pow (s_n s) v 1) (s_I s).
Definition conf_ok (c : config) : Prop :=
  match c_split c with PivotSplit f => pivot_sound f | LabelSplit f => label_sound f end.

Definition inv (c : config) (s : slice) : Prop :=
  slice_ok s /\ sndl s /\ base_pre (c_simp c) s /\
  (c_simp c = false -> is_label c = true -> adjusted (s_n s) (s_I s)).

Lemma NoDup_app_i : forall {A} (l l' : list A), NoDup l -> NoDup l' -> (forall x, In x l -> In x l' -> False) -> NoDup (l ++ l').
Proof.
  intros A. induction l as [|a l IH]; intros l' H H' Hd; auto. inversion H; subst. simpl. constructor.
  - rewrite in_app_iff. intros [Ha|Ha]; auto. apply (Hd a); auto. left; auto.
  - apply IH; auto. intros x Hx Hx'. apply (Hd x); auto. right; auto.
Qed.

Lemma adj_one : forall I, wf 1 I -> minl 1 I -> adjusted 1 I -> forall g, In g I -> g @ 0 <= 1.
Proof.
  intros I Hw Hm Ha g Hg. destruct (Nat.eq_dec (g @ 0) 0) as [E|E]; [lia|].
  destruct (Ha 0 g ltac:(lia) Hg ltac:(lia)) as [h [Hh E1]]. rewrite (minl_1_single I g h Hm Hg Hh). lia.
Qed.

Lemma st_simplify_spec : forall c s, slice_ok s -> sndl s -> 0 < s_n s ->
  (s_n s = 1 -> c_simp c = false -> is_label c = false -> forall g, In g (s_I s) -> g @ 0 <= 1) ->
  exists s', st_simplify c s = Some s' /\ inv c s' /\ same_con s s'.
Proof.
  intros c s Hok Hd Hn H1. unfold st_simplify. unfold inv, is_label in *. destruct (c_simp c) eqn:Es.
  - destruct (simplify_spec s Hok Hd (or_introl Hn)) as [s' [ch [E [A [B [C D]]]]]]. rewrite E. exists s'.
    pose proof (sc_n _ _ C) as En. split; auto. split; auto. split; auto. split; auto. split; [|congruence].
    split; [lia|]. split; [|auto]. intros E1. apply (proj2 D). auto.
  - destruct (c_split c) as [f|f].
    + exists s. split; auto. split; [|apply same_refl]. split; auto. split; auto. split; [|congruence].
      split; [lia|]. split; [|congruence]. intros E1. apply H1; auto.
    + unfold msm_adjustMultiply.
      destruct (adjustMultiply_spec (S (exp_sum (s_n s) (i_lcm (s_n s) (s_I s)))) s false Hok Hd (Nat.lt_succ_diag_r _)) as [s' [ch [E [A [B [C D]]]]]].
      rewrite E. exists s'. pose proof (sc_n _ _ C) as En. split; auto. split; auto. split; auto. split; auto. split; [|auto].
      split; [lia|]. split; [|congruence]. intros E1. pose proof (ok_wfI _ A) as W. pose proof (ok_minI _ A) as M.
      rewrite E1 in *. apply adj_one; auto.
Qed.

Lemma emits_same : forall s s' out, same_con s s' -> emits s' out -> emits s out.
Proof. intros s s' out H [A B]. split; auto. intros m. rewrite B. apply (sc_con _ _ H). Qed.

Lemma emits_union : forall s a b oa ob, (forall m, con s m <-> con a m \/ con b m) ->
  (forall m, con a m -> con b m -> False) -> emits a oa -> emits b ob -> emits s (oa ++ ob).
Proof.
  intros s a b oa ob H Hd [A1 A2] [B1 B2]. split.
  - apply NoDup_app_i; auto. intros m Ha Hb. apply (Hd m); [apply A2|apply B2]; auto.
  - intros m. rewrite in_app_iff, A2, B2, H. tauto.
Qed.

Lemma le_n_dec : forall n a b, le_n n a b \/ ~ le_n n a b.
Proof.
  intros n a b. destruct (t_divides n a b) eqn:E.
  - left. apply t_divides_iff. auto.
  - right. intros H. apply t_divides_iff in H. congruence.
Qed.

Lemma outer_con : forall s p s' m, outer_rel s p s' ->
  (con s' m <-> exists m', sker s m' /\ ~ le_n (s_n s) p m' /\ m = t_product (s_n s) m' (s_q s)).
Proof.
  intros s p s' m H. unfold con. rewrite (out_n _ _ _ H), (out_q _ _ _ H). split.
  - intros [m' [A B]]. apply (out_ker _ _ _ H) in A. exists m'. tauto.
  - intros [m' [A [B C]]]. exists m'. split; auto. apply (out_ker _ _ _ H). auto.
Qed.

Lemma sker_length : forall s m, sker s m -> length m = s_n s.
Proof. intros s m [[H _] _]. auto. Qed.

Lemma pivot_con : forall s p inner outer, length (s_q s) = s_n s -> length p = s_n s ->
  inner_rel s p inner -> outer_rel s p outer ->
  (forall m, con s m <-> con inner m \/ con outer m) /\ (forall m, con inner m -> con outer m -> False).
Proof.
  intros s p a b Hq Hp Ha Hb. split.
  - intros m. rewrite (inner_con s p a m Ha Hq Hp), (outer_con s p b m Hb). split.
    + intros [m' [A B]]. destruct (le_n_dec (s_n s) p m'); [left|right]; exists m'; auto.
    + intros [[m' [A [_ B]]]|[m' [A [_ B]]]]; exists m'; auto.
  - intros m A B. apply (inner_con s p a m Ha Hq Hp) in A. apply (outer_con s p b m Hb) in B.
    destruct A as [x [A1 [A2 A3]]], B as [y [B1 [B2 B3]]]. rewrite A3 in B3.
    apply product_inj in B3; [|apply sker_length; auto|apply sker_length; auto]. subst. auto.
Qed.

Lemma inner_one_lt : forall s p s', inner_rel s p s' -> sB s (t_identity (s_n s)) ->
  (exists v, v < s_n s /\ 0 < p @ v) -> smu s' < smu s.
Proof.
  intros s p s' H H1 [v [Hv Hp]]. apply (inner_mu_lt s p s' (t_identity (s_n s))); auto.
  intros Hle. specialize (Hle v Hv). rewrite t_identity_nth in Hle. lia.
Qed.

(** ** Reordered slices *)
Lemma perm_inI : forall n I J m, Permutation I J -> (inI n I m <-> inI n J m).
Proof.
  intros n I J m H. split; intros [g [A B]]; exists g; split; auto.
  - apply (Permutation_in g H); auto.
  - apply (Permutation_in g (Permutation_sym H)); auto.
Qed.
Lemma perm_lcm : forall n I J, Permutation I J -> i_lcm n I = i_lcm n J.
Proof.
  intros n I J H. apply term_ext with n; try apply i_lcm_length. intros v Hv. apply Nat.le_antisymm; apply i_lcm_incl; auto.
  - intros g Hg. apply (Permutation_in g H); auto.
  - intros g Hg. apply (Permutation_in g (Permutation_sym H)); auto.
Qed.
Lemma re_ok : forall s s', reordered s s' -> slice_ok s -> sndl s -> slice_ok s' /\ sndl s'.
Proof.
  intros s s' [A B C D E F G] Hok Hd. split.
  - constructor; rewrite ?A, ?C, ?D, ?E, ?F, ?G; [|exact (ok_wfS s Hok)| |exact (ok_minS s Hok)|exact (ok_q s Hok)| | |exact (ok_hint s Hok)].
    + intros g Hg. apply (ok_wfI s Hok). apply (Permutation_in g B); auto.
    + apply minl_perm with (s_I s); [apply Permutation_sym; auto|exact (ok_minI s Hok)].
    + rewrite (perm_lcm _ _ _ B). exact (ok_lcm s Hok).
    + intros x g Hx Hg. apply (ok_norm s Hok); auto. apply (Permutation_in g B); auto.
  - unfold sndl, ndl. rewrite A, (perm_lcm _ _ _ B). intros Hf g Hg. apply Hd; auto. apply (Permutation_in g B); auto.
Qed.
Lemma re_B : forall s s' m, reordered s s' -> (sB s' m <-> sB s m).
Proof.
  intros s s' m [A B C D E F G]. unfold sB, inB. rewrite A, C, (perm_lcm _ _ _ B), (perm_inI _ _ _ m B). tauto.
Qed.
Lemma re_same : forall s s', reordered s s' -> same_con s s'.
Proof.
  intros s s' H. pose proof H as [A B C D E F G]. constructor; auto.
  - intros m. unfold con, sker, ker, msm. rewrite A, C, D.
    split; intros [m' [[[M1 [M2 M3]] M4] M5]]; exists m'; (split; [split; auto; split; auto; split|auto]).
    + rewrite <- (perm_inI _ _ _ _ B); auto.
    + intros v Hv. rewrite <- (perm_inI _ _ _ _ B); auto.
    + rewrite (perm_inI _ _ _ _ B); auto.
    + intros v Hv. rewrite (perm_inI _ _ _ _ B); auto.
  - apply (mu_le _ _ _ _ _ _ (fun m => m)); auto. intros m. apply (re_B s s' m H).
Qed.

(** ** Label splits *)
Lemma couldBe_iff : forall s v g, couldBeLabel s v g = true <->
  g @ v = 1 /\ ~ inI (s_n s) (s_S s) (t_set (s_n s) g v (g @ v - 1)) /\
  forall w, w < s_n s -> (t_set (s_n s) g v (g @ v - 1)) @ w <> s_lcm s @ w.
Proof.
  intros s v g. unfold couldBeLabel. cbv zeta. rewrite !andb_true_iff, !negb_true_iff, Nat.eqb_eq, !not_true_false, i_contains_iff.
  split.
  - intros [[A B] C]. split; auto. split; auto. intros w Hw E. apply C. apply existsb_seq. exists w. split; auto. apply Nat.eqb_eq; auto.
  - intros [A [B C]]. split; auto. intros H. apply existsb_seq in H. destruct H as [w [Hw E]]. apply Nat.eqb_eq in E. apply (C w); auto.
Qed.

Lemma var_colon_nth : forall n g v w, w < n -> (t_set n g v (g @ v - 1)) @ w = if w =? v then g @ v - 1 else g @ w.
Proof. intros. apply t_set_nth; auto. Qed.

Section Label.
Variables (simp : bool) (s : slice) (v : nat).
Hypothesis Hok : slice_ok s.
Hypothesis Hd : sndl s.
Hypothesis Hb : nonbase simp s.
Hypothesis Hv : v < s_n s.
Hypothesis Hx : ~ In (var_pow (s_n s) v 1) (s_I s).
Let n := s_n s.
Let tm (g : term) := t_set n g v (g @ v - 1).

Lemma label_at_zero : forall m, sker s m -> m @ v = 0 ->
  exists g, In g (s_I s) /\ couldBeLabel s v g = true /\ le_n n (tm g) m.
Proof.
  intros m [Hm HS] Hz. destruct (msm_lab n (s_I s) m v Hm Hv) as [g [Hg [L1 L2]]]. exists g. split; auto.
  assert (Hle : le_n n (tm g) m).
  { intros w Hw. unfold tm. rewrite var_colon_nth by auto. destruct (Nat.eqb_spec w v) as [->|N]; [lia|]. apply L2; auto. }
  split; auto. apply couldBe_iff. split; [lia|]. fold n. fold (tm g). split.
  - intros [x [X1 X2]]. apply HS. exists x. split; auto. eapply le_n_trans; eauto.
  - intros w Hw. rewrite (nb_lcm _ _ Hb). pose proof (msm_lt_lcm n (s_I s) m w Hm Hw). specialize (Hle w Hw). unfold slcm. fold n. lia.
Qed.

Lemma label_term_legal : forall g, In g (s_I s) -> couldBeLabel s v g = true -> legal s (tm g).
Proof.
  intros g Hg Hc. apply couldBe_iff in Hc. fold n in Hc. fold (tm g) in Hc. destruct Hc as [C1 [C2 C3]].
  assert (Hlt : forall w, w < n -> (tm g) @ w <= g @ w).
  { intros w Hw. unfold tm. rewrite var_colon_nth by auto. destruct (Nat.eqb_spec w v) as [->|N]; lia. }
  split; [apply t_set_length|]. split; [|split; [apply t_set_length|split; [|split]]].
  - destruct (existsb (fun w => 0 <? (tm g) @ w) (seq 0 n)) eqn:E.
    + apply existsb_seq in E. destruct E as [w [Hw E]]. apply Nat.ltb_lt in E. exists w; auto.
    + exfalso. apply Hx. replace (var_pow (s_n s) v 1) with g; auto. apply pure_of; auto.
      * apply (ok_wfI s Hok); auto.
      * intros w Hw Hne. pose proof (existsb_false_all _ _ E w ltac:(apply in_seq; unfold n; lia)) as Z. cbv beta in Z.
        apply Nat.ltb_ge in Z. unfold tm in Z. rewrite var_colon_nth in Z by auto.
        rewrite (proj2 (Nat.eqb_neq w v) Hne) in Z. lia.
  - intros w Hw. specialize (C3 w Hw). rewrite (nb_lcm _ _ Hb) in C3. specialize (Hlt w Hw).
    pose proof (i_lcm_ge n (s_I s) g w Hw Hg). unfold slcm in C3. fold n in C3 |- *. lia.
  - intros [h [H1 H2]]. assert (h = g).
    { apply (proj2 (ok_minI s Hok)); auto. intros w Hw. specialize (H2 w Hw). specialize (Hlt w Hw). fold n in H2. lia. }
    subst h. specialize (H2 v Hv). unfold tm in H2. rewrite var_colon_nth, Nat.eqb_refl in H2 by auto. lia.
  - exact C2.
Qed.

Lemma term_zero : forall g m, In g (s_I s) -> g @ v = 1 -> sker s m -> le_n n (tm g) m -> m @ v = 0.
Proof.
  intros g m Hg Hg1 [[_ [Hm _]] _] Hle. destruct (Nat.eq_dec (m @ v) 0) as [E|E]; auto. exfalso. apply Hm. exists g. split; auto.
  intros w Hw. specialize (Hle w Hw). unfold tm in Hle. rewrite var_colon_nth in Hle by auto.
  destruct (Nat.eqb_spec w v) as [E0|N]; [rewrite E0; lia|lia].
Qed.

Lemma labelSlices_spec : match labelSlices s v with (h, r) =>
  slice_ok r /\ sndl r /\ s_n r = n /\ smu r < smu s /\
  match h with
  | None => forall m, con s m <-> con r m
  | Some h => slice_ok h /\ sndl h /\ s_n h = n /\ smu h < smu s /\
      (forall m, con s m <-> con r m \/ con h m) /\ (forall m, con r m -> con h m -> False)
  end end.
Proof.
  set (xv := t_set n (t_identity n) v 1).
  assert (Lx : length xv = s_n s) by apply t_set_length.
  assert (Xpos : exists w, w < s_n s /\ 0 < xv @ w).
  { exists v. split; auto. unfold xv. change (t_set n (t_identity n) v 1) with (var_pow n v 1).
    rewrite var_pow_nth, Nat.eqb_refl; auto. }
  assert (Xle : forall m, le_n n xv m <-> 0 < m @ v).
  { intros m. unfold xv. change (t_set n (t_identity n) v 1) with (var_pow n v 1). split.
    - intros H. specialize (H v Hv). rewrite var_pow_nth, Nat.eqb_refl in H; auto.
    - intros H w Hw. rewrite var_pow_nth by auto. destruct (Nat.eqb_spec w v) as [->|]; lia. }
  pose proof (ok_q s Hok) as Hq. pose proof (nb_one _ _ Hb) as H1.
  destruct (msm_innerSlice s xv) as [ix cx] eqn:Ex.
  destruct (msm_innerSlice_spec s xv ix cx Hok Hd Lx Ex) as [X1 [X2 [X3 _]]].
  unfold labelSlices. cbv zeta. fold n. fold xv. rewrite Ex. cbn [fst].
  destruct (filter (couldBeLabel s v) (s_I s)) as [|g T] eqn:ET.
  - split; auto. split; auto. split; [apply (in_n _ _ _ X3)|]. split; [eapply inner_one_lt; eauto|].
    intros m. rewrite (inner_con s xv ix m X3 Hq Lx). split.
    + intros [m' [A B]]. exists m'. split; auto. split; auto. apply Xle.
      destruct (Nat.eq_dec (m' @ v) 0) as [E|E]; [|lia]. exfalso.
      destruct (label_at_zero m' A E) as [g [G1 [G2 _]]].
      assert (Hin : In g (filter (couldBeLabel s v) (s_I s))) by (apply filter_In; auto). rewrite ET in Hin. destruct Hin.
    + intros [m' [A [_ B]]]. exists m'. auto.
  - assert (Hg : In g (s_I s) /\ couldBeLabel s v g = true).
    { apply filter_In. rewrite ET. left; auto. }
    destruct Hg as [Hg Hc]. destruct (label_term_legal g Hg Hc) as [Lt [Tpos TB]].
    pose proof (proj1 (proj1 (couldBe_iff s v g) Hc)) as Hg1.
    destruct (msm_innerSlice s (tm g)) as [it ct] eqn:Et.
    destruct (msm_innerSlice_spec s (tm g) it ct Hok Hd Lt Et) as [T1 [T2 [T3 _]]].
    fold (tm g). destruct T as [|g' T].
    + rewrite Et. cbn [fst]. split; auto. split; auto. split; [apply (in_n _ _ _ X3)|]. split; [eapply inner_one_lt; eauto|].
      split; auto. split; auto. split; [apply (in_n _ _ _ T3)|]. split; [eapply inner_one_lt; eauto|].
      split.
      * intros m. rewrite (inner_con s xv ix m X3 Hq Lx), (inner_con s (tm g) it m T3 Hq Lt). split.
        -- intros [m' [A B]]. destruct (Nat.eq_dec (m' @ v) 0) as [E|E].
           ++ right. exists m'. split; auto. split; auto. destruct (label_at_zero m' A E) as [g0 [G1 [G2 G3]]].
              assert (Hin : In g0 (filter (couldBeLabel s v) (s_I s))) by (apply filter_In; auto). rewrite ET in Hin.
              destruct Hin as [<-|[]]. auto.
           ++ left. exists m'. split; auto. split; auto. apply Xle. lia.
        -- intros [[m' [A [_ B]]]|[m' [A [_ B]]]]; exists m'; auto.
      * intros m A B. apply (inner_con s xv ix m X3 Hq Lx) in A. apply (inner_con s (tm g) it m T3 Hq Lt) in B.
        destruct A as [x [A1 [A2 A3]]], B as [y [B1 [B2 B3]]]. rewrite A3 in B3.
        apply product_inj in B3; [|apply sker_length; auto|apply sker_length; auto]. subst y.
        apply Xle in A2. pose proof (term_zero g x Hg Hg1 B1 B2). lia.
    + rewrite Et. cbn [fst].
      destruct (msm_outerSlice_spec s (tm g) Hok Hd Lt Tpos) as [O1 [O2 O3]].
      split; auto. split; auto. split; [apply (out_n _ _ _ O3)|]. split; [apply (outer_mu_lt s (tm g)); auto|].
      split; auto. split; auto. split; [apply (in_n _ _ _ T3)|]. split; [eapply inner_one_lt; eauto|].
      destruct (pivot_con s (tm g) it (msm_outerSlice s (tm g)) Hq Lt T3 O3) as [P1 P2].
      split; [intros m; rewrite P1; tauto|intros m A B; apply (P2 m); auto].
Qed.
End Label.

(** ** The recursion *)
Lemma touch_nonbase_ok : forall s, slice_ok s -> sndl s -> slice_ok (sl_touch s) /\ sndl (sl_touch s) /\ smu (sl_touch s) = smu s /\
  (forall m, con (sl_touch s) m <-> con s m).
Proof.
  intros s Hok Hd. destruct (touch_facts s) as [A [B [C [D [E F]]]]]. split; [apply touch_ok; auto|].
  split; [unfold sndl; rewrite A, B; auto|]. split; [unfold smu; rewrite A, B, C; auto|]. apply con_touch.
Qed.

Lemma notbase_nonbase : forall s0 simp s, slice_ok s0 -> sndl s0 -> msm_baseCase s0 simp = (s, NotBase) ->
  s = sl_touch s0 /\ nonbase false s.
Proof.
  intros s0 simp s Hok Hd E.
  assert (Hs : s = sl_touch s0 /\ s_n s0 <> 0 /\ s_n s0 <> 1 /\ msm_baseCase s0 false = (s, NotBase)).
  { revert E. unfold msm_baseCase. cbv zeta. destruct (length (s_I s0) <? s_n s0); [discriminate|].
    destruct (t_sizeOfSupport (s_n s0) (s_lcm (sl_touch s0)) <? s_n s0) eqn:Hfull; [discriminate|].
    destruct (Nat.eqb_spec (s_n s0) 0) as [E0|N0]; [discriminate|].
    destruct (Nat.eqb_spec (s_n s0) 1) as [E1|N1]; [discriminate|].
    destruct (touch_facts s0) as [A [B [C [D [E F]]]]]. pose proof (touch_lcm s0 Hok) as L. fold (slcm s0) in L.
    destruct simp; cbn [negb]; intros HE.
    - destruct (Nat.eqb_spec (s_n s0) 2) as [E2|N2]; [discriminate|].
      destruct (Nat.ltb_spec (s_n s0) (length (s_I (sl_touch s0)))) as [Hlt|Hge]; [|discriminate].
      destruct (length (s_I (sl_touch s0)) =? s_n s0 + 1); [destruct (oneMoreGeneratorBaseCase (sl_touch s0)); discriminate|].
      destruct (twoNonMaxBaseCase (sl_touch s0)); [discriminate|]. injection HE as <-.
      split; auto. split; auto. split; auto.
      destruct (t_isSquareFree (s_n s0) (s_lcm (sl_touch s0))) eqn:Esf.
      + exfalso. rewrite L in Esf, Hfull. rewrite t_isSquareFree_iff in Esf.
        assert (Hv : isvars (s_n s0) (s_I s0)).
        { apply squarefree_isvars; auto; [apply (ok_wfI s0 Hok)|apply (ok_minI s0 Hok)|lia|]. apply size_full. auto. }
        pose proof (isvars_length _ _ (proj1 (ok_minI s0 Hok)) Hv) as Hlen. rewrite B in Hlt. unfold ideal in *. lia.
      + destruct (Nat.eqb_spec (length (s_I (sl_touch s0))) (s_n s0)); [lia|auto].
    - destruct (t_isSquareFree (s_n s0) (s_lcm (sl_touch s0))) eqn:Esf; [discriminate|].
      destruct (length (s_I (sl_touch s0)) =? s_n s0).
      + exfalso. destruct (s_S (sl_touch s0)); [discriminate|].
        destruct (msm_innerSlice _ _) as [s1 ch]. destruct (length (s_I s1) <? s_n s0); discriminate.
      + injection HE as <-. auto. }
  destruct Hs as [-> [N0 [N1 E']]]. split; auto.
  assert (Hpre : base_pre false s0) by (split; [lia|split; [lia|discriminate]]).
  pose proof (baseCase_spec s0 false _ _ Hok Hd Hpre E') as [_ H]. exact H.
Qed.

Lemma pivot_sound0_sound : forall f, pivot_sound0 f -> pivot_sound f.
Proof.
  intros f H simp rnd k s0 s Hok Hd E. destruct (notbase_nonbase s0 simp s Hok Hd E) as [-> Hnb].
  destruct (touch_nonbase_ok s0 Hok Hd) as [Hok1 [Hd1 _]]. apply (H false); auto.
Qed.
Lemma label_sound0_sound : forall f, label_sound0 f -> label_sound f.
Proof.
  intros f H simp s0 s Hok Hd E. destruct (notbase_nonbase s0 simp s Hok Hd E) as [-> Hnb].
  destruct (touch_nonbase_ok s0 Hok Hd) as [Hok1 [Hd1 _]]. apply (H false); auto.
Qed.

Theorem process_spec : forall c rnd, conf_ok c -> forall fuel s k, inv c s -> s_n s + smu s < fuel ->
  exists out k', process fuel c rnd k s = Some (out, k') /\ emits s out.
Proof.
  intros c rnd Hc. induction fuel as [|fuel IH]; intros s k Hi Hfuel; [lia|].
  destruct Hi as [Hok [Hd [Hpre Hadj]]]. cbn [process].
  destruct (msm_baseCase s (c_simp c)) as [s1 r] eqn:Eb.
  pose proof (baseCase_spec s (c_simp c) s1 r Hok Hd Hpre Eb) as HB.
  destruct r as [|out|]; [|exists out, k; auto|destruct HB].
  destruct HB as [-> Hnb]. destruct (touch_nonbase_ok s Hok Hd) as [Hok1 [Hd1 [Hmu1 Hcon1]]].
  destruct (touch_facts s) as [En [EI [ES [Eq _]]]].
  assert (Hem : forall out, emits (sl_touch s) out -> emits s out) by (intros out; apply emits_touch).
  set (s1 := sl_touch s) in *. pose proof (nb_n _ _ Hnb) as Hn.
  assert (Hadj1 : is_label c = true -> adjusted (s_n s1) (s_I s1)).
  { intros Hl. destruct (c_simp c) eqn:Es; [apply SI_adjusted, (nb_SI _ _ Hnb); auto|]. rewrite En, EI. auto. }
  destruct (indep_analyze_spec s1 Hok1) as [ra [Ea Ha]].
  assert (Hind : exists ra', (if c_indep c then indep_analyze s1 else Some None) = Some ra' /\ (ra' = None \/ ra' = ra)).
  { destruct (c_indep c); [exists ra|exists None]; auto. }
  destruct Hind as [ra' [Ei Hra]]. rewrite Ei. clear Ei.
  destruct ra' as [[big rest]|].
  { (* independence split *)
    destruct Hra as [Hra|<-]; [discriminate|]. destruct Ha as [f [-> [-> [L1 [L2 [OI OS]]]]]].
    pose proof (nb_one _ _ Hnb) as HB1. pose proof HB1 as [_ [_ [N1 N2]]].
    pose proof (not_one_sided _ f _ OI N1) as SI1. pose proof (not_one_sided _ f _ OS N2) as SS1.
    set (f' := fun i => negb (f i)) in *.
    assert (SI2 : sided (s_n s1) f' (s_I s1)) by (apply sided_swap; auto).
    assert (SS2 : sided (s_n s1) f' (s_S s1)) by (apply sided_swap; auto).
    change (filter f (seq 0 (s_n s1))) with (off (s_n s1) f) in *. change (filter f' (seq 0 (s_n s1))) with (off (s_n s1) f') in *.
    assert (Hlen : length (off (s_n s1) f) + length (off (s_n s1) f') = s_n s1).
    { unfold off. rewrite <- (seq_length (s_n s1) 0) at 3. generalize (seq 0 (s_n s1)). intros l.
      induction l as [|x l IHl]; auto. cbn [filter]. unfold f' at 1. destruct (f x); cbn [negb length]; lia. }
    pose proof (nb_full _ _ Hnb) as Hfull. pose proof (nb_lcm _ _ Hnb) as Hlcm.
    assert (Hside : forall h, sided (s_n s1) h (s_I s1) -> sided (s_n s1) h (s_S s1) -> 2 <= length (off (s_n s1) h) ->
       length (off (s_n s1) h) < s_n s1 ->
       inv c (sl_setToProjOf s1 (off (s_n s1) h)) /\ s_n (sl_setToProjOf s1 (off (s_n s1) h)) + smu (sl_setToProjOf s1 (off (s_n s1) h)) < fuel).
    { intros h HhI HhS H2 Hlt. destruct (proj_slice_ok s1 h Hok1 Hfull Hd1 Hlcm HhI HhS) as [P1 P2]; [unfold blen; lia|].
      split; [split; [auto|split; [auto|split]]|].
      - split; [cbn; lia|]. split; [cbn; lia|]. intros Es. split; [|cbn; lia]. intros _. right.
        apply (PI_SI (s_n s1) h (s_I s1) HhI). apply (nb_SI _ _ Hnb); auto.
      - intros Es Hl. apply (PI_adjusted (s_n s1) h (s_I s1) HhI). auto.
      - pose proof (proj_smu s1 h Hfull HB1 HhI HhS). cbn [s_n sl_setToProjOf] in *. lia. }
    destruct (Hside f' SI2 SS2 L2 ltac:(lia)) as [I2 F2]. destruct (Hside f SI1 SS1 L1 ltac:(lia)) as [I1 F1].
    destruct (IH _ k I2 F2) as [ys [k1 [Ey Hy]]]. rewrite Ey.
    destruct (IH _ k1 I1 F1) as [xs [k2 [Exs Hxs]]]. rewrite Exs.
    eexists. eexists. split; [reflexivity|]. apply Hem. apply combine_emits; auto. }
  clear Ha Ea Hra ra.
  unfold conf_ok in Hc. unfold is_label in Hadj1. destruct (c_split c) as [f|f] eqn:Esp.
  - (* pivot *)
    destruct (Hc (c_simp c) rnd k s s1 Hok Hd Eb) as [s2 [p [k0 [Ef [Hre [Lp [Ppos PB]]]]]]]. rewrite Ef.
    destruct (re_ok s1 s2 Hre Hok1 Hd1) as [Hok2 Hd2]. pose proof (re_same s1 s2 Hre) as Hsame. pose proof (re_n _ _ Hre) as En2.
    rewrite <- En2 in Lp, Ppos. apply (re_B s1 s2 p Hre) in PB.
    destruct (msm_innerSlice s2 p) as [si ci] eqn:Ein.
    destruct (msm_innerSlice_spec s2 p si ci Hok2 Hd2 Lp Ein) as [I1 [I2 [I3 _]]].
    destruct (msm_outerSlice_spec s2 p Hok2 Hd2 Lp Ppos) as [O1 [O2 O3]]. cbn [fst].
    assert (HB2 : sB s2 (t_identity (s_n s2))). { rewrite En2. apply (re_B s1 s2 _ Hre). apply (nb_one _ _ Hnb). }
    pose proof (inner_one_lt s2 p si I3 HB2 Ppos) as Mi. pose proof (outer_mu_lt s2 p _ O3 PB) as Mo.
    pose proof (sc_mu _ _ Hsame) as M12. pose proof (in_n _ _ _ I3) as Ni. pose proof (out_n _ _ _ O3) as No.
    destruct (st_simplify_spec c si I1 I2) as [inner [Es1 [Hi1 Hsc1]]]; [lia|lia|]. rewrite Es1.
    destruct (st_simplify_spec c (msm_outerSlice s2 p) O1 O2) as [outer [Es2 [Hi2 Hsc2]]]; [lia|lia|]. rewrite Es2.
    pose proof (sc_mu _ _ Hsc1). pose proof (sc_mu _ _ Hsc2). pose proof (sc_n _ _ Hsc1). pose proof (sc_n _ _ Hsc2).
    destruct (pivot_con s2 p si _ (ok_q _ Hok2) Lp I3 O3) as [C1 C2].
    assert (Fi : s_n inner + smu inner < fuel) by lia. assert (Fo : s_n outer + smu outer < fuel) by lia.
    destruct (length (s_I inner) <? length (s_I outer)).
    + destruct (IH inner k0 Hi1 Fi) as [o1 [k1 [E1 Q1]]]. rewrite E1.
      destruct (IH outer k1 Hi2 Fo) as [o2 [k2 [E2 Q2]]]. rewrite E2.
      eexists. eexists. split; [reflexivity|]. apply Hem. apply (emits_same _ _ _ Hsame).
      apply emits_union with si (msm_outerSlice s2 p); auto; eapply emits_same; eauto.
    + destruct (IH outer k0 Hi2 Fo) as [o1 [k1 [E1 Q1]]]. rewrite E1.
      destruct (IH inner k1 Hi1 Fi) as [o2 [k2 [E2 Q2]]]. rewrite E2.
      eexists. eexists. split; [reflexivity|]. apply Hem. apply (emits_same _ _ _ Hsame).
      apply emits_union with (msm_outerSlice s2 p) si.
      * intros m. rewrite C1. tauto.
      * intros m A B. apply (C2 m); auto.
      * eapply emits_same; eauto.
      * eapply emits_same; eauto.
  - (* label *)
    destruct (Hc (c_simp c) s s1 Hok Hd Eb (Hadj1 eq_refl)) as [v [Ef [Hv Hx]]]. rewrite Ef.
    pose proof (labelSlices_spec (c_simp c) s1 v Hok1 Hd1 Hnb Hv Hx) as HL.
    destruct (labelSlices s1 v) as [h r]. destruct HL as [R1 [R2 [R3 [R4 HL]]]].
    destruct (st_simplify_spec c r R1 R2) as [r' [Er [Hir Hsr]]]; [lia|lia|]. rewrite Er.
    pose proof (sc_mu _ _ Hsr). pose proof (sc_n _ _ Hsr).
    assert (Fr : s_n r' + smu r' < fuel) by lia.
    destruct h as [h|].
    + destruct HL as [T1 [T2 [T3 [T4 [T5 T6]]]]].
      destruct (st_simplify_spec c h T1 T2) as [h' [Eh [Hih Hsh]]]; [lia|lia|]. rewrite Eh.
      pose proof (sc_mu _ _ Hsh). pose proof (sc_n _ _ Hsh).
      assert (Fh : s_n h' + smu h' < fuel) by lia.
      destruct (IH r' k Hir Fr) as [o1 [k1 [E1 Q1]]]. rewrite E1.
      destruct (IH h' k1 Hih Fh) as [o2 [k2 [E2 Q2]]]. rewrite E2.
      eexists. eexists. split; [reflexivity|]. apply Hem.
      apply emits_union with r h; auto; eapply emits_same; eauto.
    + destruct (IH r' k Hir Fr) as [o1 [k1 [E1 Q1]]]. rewrite E1. exists o1, k1. split; auto. apply Hem.
      pose proof (emits_same _ _ _ Hsr Q1) as [Q2 Q3]. split; auto. intros m. rewrite Q3. symmetry. apply HL.
Qed.
