(** How the operations on slices move the divisor and the dominator. *)
From Coq Require Import List Arith Bool Lia Permutation.
Import ListNotations.
From Verif Require Import Spec Spec_Slice Spec_Run M_Term M_Ideal M_Slice M_Partition M_Msm P_Term P_Ideal P_Msm1 P_Msm2 P_Msm3 P_Msm4 P_Msm5
  P_Indep P_Proj P_Split P_Process M_Api M_Opt.

(** the multiply grows and multiply * lcm shrinks *)
Definition shr (s s' : slice) : Prop :=
  s_n s' = s_n s /\ forall v, v < s_n s ->
    (s_q s) @ v <= (s_q s') @ v /\ (s_q s') @ v + (slcm s') @ v <= (s_q s) @ v + (slcm s) @ v.

Lemma shr_refl : forall s, shr s s. Proof. intros s. split; auto. Qed.
Lemma shr_trans : forall a b c, shr a b -> shr b c -> shr a c.
Proof.
  intros a b c [A1 A2] [B1 B2]. split; [congruence|]. intros v Hv. specialize (A2 v Hv). rewrite A1 in B2. specialize (B2 v Hv). lia.
Qed.

Lemma shr_inner : forall s p s', inner_rel s p s' -> (forall v, v < s_n s -> p @ v <= (slcm s) @ v) -> shr s s'.
Proof.
  intros s p s' H Hp. split; [apply H|]. intros v Hv. rewrite (in_q _ _ _ H), t_product_nth by auto.
  pose proof (i_lcm_colon_le (s_n s) (s_I s) p (s_I s') v Hv (in_I _ _ _ H)) as X. specialize (Hp v Hv).
  unfold slcm in *. rewrite (in_n _ _ _ H). lia.
Qed.
Lemma shr_incl : forall s s', s_n s' = s_n s -> s_q s' = s_q s -> incl (s_I s') (s_I s) -> shr s s'.
Proof.
  intros s s' E Eq Hi. split; auto. intros v Hv. rewrite Eq. unfold slcm. rewrite E.
  pose proof (i_lcm_incl (s_n s) (s_I s') (s_I s) v Hv Hi). lia.
Qed.
Lemma shr_outer : forall s p s', outer_rel s p s' -> shr s s'.
Proof. intros s p s' H. apply shr_incl; apply H. Qed.
Lemma shr_touch : forall s, shr s (sl_touch s).
Proof. intros s. destruct (touch_facts s) as [A [B [C [D _]]]]. apply shr_incl; auto. rewrite B. apply incl_refl. Qed.
Lemma shr_touch_inv : forall s, shr (sl_touch s) s.
Proof. intros s. destruct (touch_facts s) as [A [B [C [D _]]]]. apply shr_incl; auto. rewrite B. apply incl_refl. Qed.
Lemma shr_re : forall s s', reordered s s' -> shr s s'.
Proof. intros s s' H. apply shr_incl; try apply H. intros g Hg. apply (Permutation_in g (re_I _ _ H)); auto. Qed.
Lemma shr_clear : forall s, shr s (sl_clear s).
Proof. intros s. apply shr_incl; auto. intros g []. Qed.

Lemma adjustMultiply_shr : forall fuel s ch s' ch', slice_ok s -> sndl s ->
  adjustMultiply fuel msm_innerSlice s ch = Some (s', ch') -> shr s s'.
Proof.
  induction fuel as [|fuel IH]; intros s ch s' ch' Hok Hd H; [discriminate|]. cbn [adjustMultiply] in H. cbv zeta in H.
  set (b := t_decrement (s_n s) (adj_bound (s_n s) (s_I s))) in *.
  destruct (t_isIdentity (s_n s) b); [injection H as <- <-; apply shr_refl|].
  destruct (msm_innerSlice s b) as [s1 real] eqn:Es.
  destruct (msm_innerSlice_spec s b s1 real Hok Hd (t_decrement_length _ _) Es) as [O1 [D1 [R1 _]]].
  assert (H1 : shr s s1).
  { apply (shr_inner s b s1 R1). intros v Hv. unfold b. rewrite t_decrement_nth by auto.
    destruct (adj_bound_spec (s_n s) (s_I s) v Hv) as [_ [B _]].
    destruct (Nat.eq_dec ((adj_bound (s_n s) (s_I s)) @ v) 0) as [E|E]; [lia|].
    destruct (B ltac:(lia)) as [g [Hg Eg]]. pose proof (i_lcm_ge (s_n s) (s_I s) g v Hv Hg). unfold slcm. lia. }
  destruct real; [|injection H as <- <-; auto]. apply shr_trans with s1; auto. eapply IH; eauto.
Qed.

Lemma lb_loop_shr : forall fuel s ch steps var s' ch', slice_ok s -> sndl s -> 2 <= s_n s -> var < s_n s ->
  lb_loop fuel s ch steps var = Some (s', ch') -> shr s s'.
Proof.
  induction fuel as [|fuel IH]; intros s ch steps var s' ch' Hok Hd Hn Hv H; cbn [lb_loop] in H.
  { destruct (steps <? s_n s); [discriminate|]. injection H as <- <-. apply shr_refl. }
  destruct (steps <? s_n s); [|injection H as <- <-; apply shr_refl].
  destruct (msm_getLowerBound s var) as [s1 r] eqn:E.
  destruct (getLowerBound_spec s var s1 r Hok Hn Hv E) as [-> Hr]. destruct (touch_facts s) as [A [B [C [D _]]]].
  destruct (touch_nonbase_ok s Hok Hd) as [O1 [D1 _]].
  destruct r as [b|].
  - destruct Hr as [Lb [_ Hb]]. apply shr_trans with (sl_touch s); [apply shr_touch|].
    assert (Hm : forall k, S k mod s_n (sl_touch s) < s_n (sl_touch s)) by (intros; rewrite A; apply Nat.mod_upper_bound; lia).
    destruct (t_isIdentity (s_n (sl_touch s)) b).
    + eapply IH; [exact O1|exact D1|lia| |exact H]. apply Hm.
    + destruct (msm_innerSlice (sl_touch s) b) as [s2 big] eqn:Ei. rewrite <- A in Lb.
      destruct (msm_innerSlice_spec _ b s2 big O1 D1 Lb Ei) as [O2 [D2 [R2 _]]].
      apply shr_trans with s2.
      * apply (shr_inner _ b s2 R2). intros v Hv'. rewrite A in Hv'. rewrite Hb, t_set_nth by auto.
        destruct (lb_fold_spec (s_n s) (slcm s) var (s_I s) v Hv') as [X _].
        destruct (lb_fold_spec (s_n s) (slcm s) var (s_I s) var Hv) as [Y _].
        unfold slcm in *. rewrite A, B. destruct (Nat.eqb_spec v var) as [->|]; lia.
      * eapply IH; [exact O2|exact D2| | |exact H]; rewrite (in_n _ _ _ R2); [lia|apply Hm].
  - injection H as <- <-. apply shr_trans with (sl_touch s); [apply shr_touch|apply shr_clear].
Qed.

Lemma prune_shr : forall s, shr s (fst (sl_pruneSubtract s)).
Proof.
  intros s. unfold sl_pruneSubtract. destruct (s_S s) eqn:E; [apply shr_refl|]. cbv zeta.
  destruct (i_removeIf _ _) as [S' any]. cbn [fst]. destruct (touch_facts s) as [A [B [C [D _]]]].
  apply shr_incl; cbn; auto. rewrite B. apply incl_refl.
Qed.

Lemma simplify_shr : forall s s' ch, slice_ok s -> sndl s -> 0 < s_n s -> msm_simplify s = Some (s', ch) -> shr s s'.
Proof.
  intros s s' ch Hok Hd Hn H. unfold msm_simplify in H. destruct (msm_applyLowerBound s) as [[s1 lb]|] eqn:E; [|discriminate].
  pose proof (prune_shr s1) as P. destruct (sl_pruneSubtract s1) as [s2 pr]. injection H as <- <-. cbn [fst] in P.
  apply shr_trans with s1; auto. unfold msm_applyLowerBound in E. destruct (s_I s) eqn:EI; [injection E as <- <-; apply shr_refl|].
  destruct (Nat.eqb_spec (s_n s) 1) as [E1|N1].
  - eapply adjustMultiply_shr; eauto.
  - eapply lb_loop_shr; [exact Hok|exact Hd|lia|apply (ok_hint s Hok); auto|exact E].
Qed.

Lemma st_simplifyB_fst : forall c s, st_simplify c s = match st_simplifyB c s with Some (s', _) => Some s' | None => None end.
Proof.
  intros c s. unfold st_simplify, st_simplifyB. destruct (c_simp c); auto. destruct (c_split c); auto.
Qed.

Lemma st_simplifyB_shr : forall c s s' ch, slice_ok s -> sndl s -> 0 < s_n s -> st_simplifyB c s = Some (s', ch) -> shr s s'.
Proof.
  intros c s s' ch Hok Hd Hn H. unfold st_simplifyB in H. destruct (c_simp c); [eapply simplify_shr; eauto|].
  destruct (c_split c); [injection H as <- <-; apply shr_refl|]. eapply adjustMultiply_shr; eauto.
Qed.

Lemma labelSlices_shr : forall simp s v h r, slice_ok s -> sndl s -> nonbase simp s -> v < s_n s ->
  ~ In (var_pow (s_n s) v 1) (s_I s) -> labelSlices s v = (h, r) ->
  shr s r /\ match h with None => True | Some h => shr s h end.
Proof.
  intros simp s v h r Hok Hd Hb Hv Hx0 H. pose proof (nb_full _ _ Hb) as Hf. unfold labelSlices in H. cbv zeta in H.
  set (xv := t_set (s_n s) (t_identity (s_n s)) v 1) in *.
  assert (Hx : shr s (fst (msm_innerSlice s xv))).
  { destruct (msm_innerSlice s xv) as [ix cx] eqn:Ex.
    destruct (msm_innerSlice_spec s xv ix cx Hok Hd (t_set_length _ _ _ _) Ex) as [_ [_ [X3 _]]].
    apply (shr_inner s xv ix X3). intros w Hw. unfold xv. change (t_set (s_n s) (t_identity (s_n s)) v 1) with (var_pow (s_n s) v 1).
    rewrite var_pow_nth by auto. specialize (Hf w Hw). destruct (w =? v); lia. }
  assert (Ht : forall g, In g (s_I s) -> shr s (fst (msm_innerSlice s (t_set (s_n s) g v (g @ v - 1))))).
  { intros g Hg. destruct (msm_innerSlice s (t_set (s_n s) g v (g @ v - 1))) as [ix cx] eqn:Ex.
    destruct (msm_innerSlice_spec s _ ix cx Hok Hd (t_set_length _ _ _ _) Ex) as [_ [_ [X3 _]]].
    apply (shr_inner s _ ix X3). intros w Hw. rewrite t_set_nth by auto. pose proof (i_lcm_ge (s_n s) (s_I s) g w Hw Hg). unfold slcm.
    destruct (Nat.eqb_spec w v) as [->|]; lia. }
  destruct (filter (couldBeLabel s v) (s_I s)) as [|g T] eqn:ET; [injection H as <- <-; auto|].
  assert (Hg : In g (s_I s) /\ couldBeLabel s v g = true) by (apply filter_In; rewrite ET; left; auto).
  destruct Hg as [Hg Hc]. destruct (label_term_legal simp s v Hok Hb Hv Hx0 g Hg Hc) as [Lt [Tpos _]].
  destruct T as [|g' T]; injection H as <- <-; split; auto.
  apply (shr_outer s (t_set (s_n s) g v (g @ v - 1))). apply msm_outerSlice_spec; auto.
Qed.
