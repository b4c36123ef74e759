(** The Hilbert slice recursion is exact: every term with nonzero coefficient is emitted once, with its coefficient. *)
From Coq Require Import List Arith Bool ZArith Lia Permutation.
Import ListNotations.
From Verif Require Import Spec M_Term M_Ideal M_Slice M_Partition M_Msm M_Api M_Hilbert P_Term P_Ideal P_Bridge P_Msm1 P_Msm2
  P_Msm3 P_Msm4 P_Msm5 P_Indep P_Proj P_Split P_Process P_Run P_Hil1 P_Hil2 P_Hil3 P_Hil4.
Local Open Scope nat_scope.

Definition hemits (s : slice) (out : list cterm) : Prop :=
  NoDup (map snd out) /\ forall c d, In (c, d) out <-> val s c d.

Lemma hemits_same : forall s s' out, same_val s s' -> hemits s' out -> hemits s out.
Proof. intros s s' out H [A B]. split; auto. intros c d. rewrite B. apply (sv_val _ _ H). Qed.

Lemma hemits_union : forall s a b o1 o2, (forall c d, val s c d <-> val a c d \/ val b c d) ->
  (forall c c' d, val a c d -> val b c' d -> False) -> hemits a o1 -> hemits b o2 -> hemits s (o1 ++ o2).
Proof.
  intros s a b o1 o2 H Hd [A1 A2] [B1 B2]. split.
  - rewrite map_app. apply NoDup_app_i; auto. intros d Hx Hy. apply in_map_iff in Hx, Hy.
    destruct Hx as [[c1 d1] [E1 Hx]], Hy as [[c2 d2] [E2 Hy]]. simpl in *. subst. apply A2 in Hx. apply B2 in Hy. eauto.
  - intros c d. rewrite in_app_iff, A2, B2. symmetry. apply H.
Qed.

Lemma pivot_val : forall s p inner ci, slice_ok s -> length p = s_n s -> (exists v, v < s_n s /\ 0 < p @ v) ->
  sl_innerSlice s p = (inner, ci) ->
  (forall c d, val s c d <-> val inner c d \/ val (sl_outerSlice s p) c d) /\
  (forall c c' d, val inner c d -> val (sl_outerSlice s p) c' d -> False).
Proof.
  intros s p a ci Hok Hp Hpos Ha. split.
  - intros c d. rewrite (inner_val s p a ci c d Hok Hp Ha), (outer_val s p c d Hok Hp Hpos). split.
    + intros [m [A B]]. destruct (le_n_dec (s_n s) p m); [left|right]; exists m; auto.
    + intros [[m [A [_ B]]]|[m [A [_ B]]]]; exists m; auto.
  - intros c c' d A B. apply (inner_val s p a ci c d Hok Hp Ha) in A. apply (outer_val s p c' d Hok Hp Hpos) in B.
    destruct A as [x [A1 [A2 A3]]], B as [y [B1 [B2 B3]]]. rewrite A3 in B3.
    apply product_inj in B3; [|apply A1|apply B1]. subst. auto.
Qed.

(** ** Base case *)
Lemma hil_base_spec : forall s s1 r, slice_ok s -> 0 < s_n s -> hil_baseCase s = (s1, r) ->
  s1 = sl_touch s /\
  match r with
  | HUB => False
  | HBase out => hemits s out
  | HNotBase => pivotable s1
  end.
Proof.
  intros s s1 r Hok Hn. unfold hil_baseCase. cbv zeta. destruct (touch_facts s) as [A [B [C [D [E F]]]]].
  pose proof (touch_lcm s Hok) as L. fold (slcm s) in L. rewrite A, B, D, L.
  destruct (t_sizeOfSupport (s_n s) (slcm s) <? s_n s) eqn:Esz.
  { intros H. injection H as <- <-. split; auto. split; [constructor|]. intros c d. split; [intros []|].
    intros [m [Hk _]]. exfalso. apply kv_inB in Hk; auto. destruct Hk as [_ [Hb _]].
    apply Nat.ltb_lt in Esz. assert (Hf : full (s_n s) (slcm s)).
    { intros v Hv. specialize (Hb v Hv). unfold slcm. lia. }
    apply size_full in Hf. apply Nat.ltb_ge in Hf. lia. }
  apply size_full in Esz. destruct (t_isSquareFree (s_n s) (slcm s)) eqn:Esf; cbn [negb].
  - rewrite (proj2 (Nat.eqb_neq _ _)) by lia. rewrite t_isSquareFree_iff in Esf.
    assert (H1 : ~ inI (s_n s) (s_I s) (t_identity (s_n s))) by (apply full_not_one; auto; apply Hok).
    rewrite (hb_coefficient_spec (s_n s) (s_I s)); [| apply Hok | apply Hok | | ].
    + intros H. injection H as <- <-. split; auto.
      change (P_Hil2.F (s_n s) (s_I s) (seq 0 (s_n s))) with (hv (s_n s) (s_I s) (t_identity (s_n s))).
      assert (HV : forall c d, val s c d <-> c = hv (s_n s) (s_I s) (t_identity (s_n s)) /\ c <> 0%Z /\ d = s_q s).
      { assert (Eq : t_product (s_n s) (t_identity (s_n s)) (s_q s) = s_q s).
        { apply term_ext with (s_n s); [apply t_product_length|exact (ok_q s Hok)|]. intros v Hv.
          rewrite t_product_nth, t_identity_nth by auto. lia. }
        intros c d. split.
        - intros [m [Hk ->]]. assert (Em : m = t_identity (s_n s)).
          { apply kv_inB in Hk as Hb; auto. destruct Hb as [Hl [Hb _]].
            apply term_ext with (s_n s); auto using t_identity_length. intros v Hv. rewrite t_identity_nth.
            specialize (Hb v Hv). specialize (Esf v Hv). unfold slcm in Esf. lia. }
          subst m. destruct Hk as [_ [_ [Hc Hz]]]. rewrite Eq. auto.
        - intros [Hc [Hz ->]]. exists (t_identity (s_n s)). split; [|auto]. split; [apply t_identity_length|].
          split; [|auto]. apply (one_sB s Hok Hn Esz). }
      destruct (Z.eqb_spec (hv (s_n s) (s_I s) (t_identity (s_n s))) 0) as [Z|NZ].
      * split; [constructor|]. intros c d. rewrite HV. split; [intros []|]. intros [-> [H _]]. contradiction.
      * split; [repeat constructor; auto|]. intros c d. rewrite HV. simpl. split.
        -- intros [H|[]]. injection H as <- <-. auto.
        -- intros [-> [_ ->]]. auto.
    + intros g v Hg Hv. specialize (Esf v Hv). pose proof (i_lcm_ge (s_n s) (s_I s) g v Hv Hg). unfold slcm in Esf. lia.
    + intros g Hg. destruct (t_firstNonZero_spec (s_n s) g) as [[Q1 [Q2 Q3]]|[Q1 Q2]]; [exists (t_firstNonZero (s_n s) g); auto|].
      exfalso. apply H1. exists g. split; auto. intros v Hv. rewrite Q2 by auto. lia.
  - intros H. injection H as <- <-. split; auto. unfold slcm in *. constructor; unfold slcm; rewrite ?A, ?B; auto.
    destruct (existsb (fun v => 2 <=? (i_lcm (s_n s) (s_I s)) @ v) (seq 0 (s_n s))) eqn:Ex.
    + apply existsb_seq in Ex. destruct Ex as [v [Hv Ex]]. apply Nat.leb_le in Ex. eauto.
    + exfalso. assert (t_isSquareFree (s_n s) (i_lcm (s_n s) (s_I s)) = true); [|congruence].
      apply t_isSquareFree_iff. intros v Hv. pose proof (existsb_false_all _ _ Ex v ltac:(apply in_seq; lia)) as Z.
      cbv beta in Z. apply Nat.leb_gt in Z. lia.
Qed.

(** ** Independence splits *)
Section Two.
Variable n : nat.
Variable f : nat -> bool.
Let f' := fun i => negb (f i).
Notation Pf := (P n f).
Notation Pg := (P n f').
Notation nf := (blen n f).
Notation ng := (blen n f').

Lemma off_perm : Permutation (seq 0 n) (off n f ++ off n f').
Proof.
  unfold off. generalize (seq 0 n). induction l as [|x l IH]; simpl; auto. unfold f' at 1. destruct (f x); simpl.
  - constructor. exact IH.
  - eapply perm_trans; [constructor; exact IH|]. apply Permutation_middle.
Qed.
Lemma off_seq : forall h, map (fun i => nth i (off n h) 0) (seq 0 (blen n h)) = off n h.
Proof.
  intros h. unfold blen. generalize (off n h). induction l as [|x l IH]; simpl; auto. f_equal.
  rewrite <- seq_shift, map_map. exact IH.
Qed.
Lemma dif_block : forall h F m, length m = n -> dif (off n h) (fun x => F (P n h x)) m = dif (seq 0 (blen n h)) F (P n h m).
Proof.
  intros h F m Hm. rewrite <- (off_seq h) at 1.
  apply (dif_transport (fun x x' => length x = n /\ x' = P n h x)); auto.
  - intros x x' i Hi [Hx ->]. apply seq_lt in Hi. destruct (off_nth n h i Hi) as [A [B C]].
    split; [rewrite times_var_length; auto|]. rewrite (times_var_up n x) by auto. rewrite P_up by auto. rewrite C.
    apply times_var_up; auto. apply P_length.
  - intros x x' [_ ->]. auto.
Qed.
Lemma P_tv_other : forall h x v, h v = false -> P n h (tv x v) = P n h x.
Proof.
  intros h x v Hf. apply term_ext with (blen n h); try apply P_length. intros k Hk.
  destruct (off_nth n h k Hk) as [A [B C]]. rewrite !P_nth by auto. apply tv_nth_neq. intros E. rewrite E in B. congruence.
Qed.

Lemma hv_two : forall I m, sided n f I -> length m = n ->
  hv n I m = (hv nf (PI_ n f I) (Pf m) * hv ng (PI_ n f' I) (Pg m))%Z.
Proof.
  intros I m Hs Hm. unfold hv. rewrite (dif_perm _ _ off_perm).
  rewrite <- (dif_block f (fun x => 1 - ind nf (PI_ n f I) x)%Z m Hm).
  rewrite <- (dif_block f' (fun x => 1 - ind ng (PI_ n f' I) x)%Z m Hm).
  rewrite <- dif_product.
  - apply dif_ext. intros x _. destruct (i_contains_dec nf (PI_ n f I) (Pf x)) as [A|A].
    + rewrite (ind_1 n I x), (ind_1 nf _ _ A); [lia|]. apply (inI_two n f I x Hs). auto.
    + destruct (i_contains_dec ng (PI_ n f' I) (Pg x)) as [B|B].
      * rewrite (ind_1 n I x), (ind_1 ng _ _ B); [lia|]. apply (inI_two n f I x Hs). auto.
      * rewrite (ind_0 n I x), (ind_0 nf _ _ A), (ind_0 ng _ _ B); [lia|]. intros H. apply (inI_two n f I x Hs) in H. tauto.
  - intros x v Hv. apply off_in in Hv. rewrite P_tv_other; auto. unfold f'. destruct Hv as [_ ->]. auto.
  - intros x v Hv. apply off_in in Hv. rewrite P_tv_other; auto. destruct Hv as [_ Hv]. unfold f' in Hv. apply negb_true_iff; auto.
Qed.

Lemma hil_combine_right_spec : forall c ys tmp, length tmp = n -> (forall y, In y ys -> length (snd y) = ng) ->
  fst (hil_combine_right n (off n f') c tmp ys) = map (fun y => ((c * fst y)%Z, mix n f (Pf tmp) (snd y))) ys /\
  length (snd (hil_combine_right n (off n f') c tmp ys)) = n.
Proof.
  intros c. induction ys as [|[d y] ys IH]; intros tmp Ht Hy; simpl; auto.
  destruct (inv_g n f tmp y Ht (Hy (d, y) ltac:(left; auto))) as [A [B C]]. fold f' in A, B, C.
  specialize (IH (proj_inverse n (off n f') tmp y) A ltac:(intros; apply Hy; right; auto)).
  destruct (hil_combine_right n (off n f') c (proj_inverse n (off n f') tmp y) ys) as [out tmp2]. simpl in *.
  destruct IH as [IH1 IH2]. split; auto. rewrite IH1, C. f_equal. f_equal. rewrite <- B at 2. rewrite <- C. apply mix_eq; auto.
Qed.

Lemma hil_combine_left_spec : forall xs ys tmp, length tmp = n ->
  (forall x, In x xs -> length (snd x) = nf) -> (forall y, In y ys -> length (snd y) = ng) ->
  hil_combine_left n (off n f) (off n f') tmp xs ys =
  flat_map (fun x => map (fun y => ((fst x * fst y)%Z, mix n f (snd x) (snd y))) ys) xs.
Proof.
  induction xs as [|[c x] xs IH]; intros ys tmp Ht Hx Hy; simpl; auto.
  destruct (inv_f n f tmp x Ht (Hx (c, x) ltac:(left; auto))) as [A [B C]].
  destruct (hil_combine_right_spec c ys (proj_inverse n (off n f) tmp x) A Hy) as [D E].
  destruct (hil_combine_right n (off n f') c (proj_inverse n (off n f) tmp x) ys) as [out tmp2]. simpl in *.
  rewrite D, B. f_equal. apply IH; auto.
Qed.
End Two.

Lemma val_two : forall s f c d, slice_ok s -> sided (s_n s) f (s_I s) -> sided (s_n s) f (s_S s) -> length d = s_n s ->
  (val s c d <-> exists c1 c2, c = (c1 * c2)%Z /\ val (sl_setToProjOf s (off (s_n s) f)) c1 (P (s_n s) f d) /\
     val (sl_setToProjOf s (off (s_n s) (fun i => negb (f i)))) c2 (P (s_n s) (fun i => negb (f i)) d)).
Proof.
  intros s f c d Hok HI HS Hd. unfold val, kv, sl_setToProjOf. cbn [s_n s_I s_S s_q]. set (n := s_n s) in *.
  set (f' := fun i => negb (f i)).
  change (length (off n f)) with (blen n f). change (length (off n f')) with (blen n f').
  change (map (proj_project (off n f)) (filter (proj_keep n (off n f)) (s_I s))) with (PI_ n f (s_I s)).
  change (map (proj_project (off n f)) (filter (proj_keep n (off n f)) (s_S s))) with (PI_ n f (s_S s)).
  change (map (proj_project (off n f')) (filter (proj_keep n (off n f')) (s_I s))) with (PI_ n f' (s_I s)).
  change (map (proj_project (off n f')) (filter (proj_keep n (off n f')) (s_S s))) with (PI_ n f' (s_S s)).
  change (proj_project (off n f) (s_q s)) with (P n f (s_q s)). change (proj_project (off n f') (s_q s)) with (P n f' (s_q s)).
  split.
  - intros [m [[Hl [H2 [H3 H4]]] ->]]. rewrite (hv_two n f (s_I s) m HI Hl) in H3. fold f' in H3.
    rewrite (inI_two n f (s_S s) m HS) in H2. fold f' in H2.
    exists (hv (blen n f) (PI_ n f (s_I s)) (P n f m)), (hv (blen n f') (PI_ n f' (s_I s)) (P n f' m)).
    split; auto. split; eexists; (split; [split; [apply P_length|split; [|split; [reflexivity|]]]|apply P_product]).
    + tauto.
    + intros E. rewrite E in H3. lia.
    + tauto.
    + intros E. rewrite E in H3. lia.
  - intros [c1 [c2 [Hc [[m1 [[L1 [S1 [K1 Z1]]] E1]] [m2 [[L2 [S2 [K2 Z2]]] E2]]]]]].
    assert (Eg : P n f' (mix n f m1 m2) = m2) by (apply mix_Pg; auto).
    assert (Ef : P n f (mix n f m1 m2) = m1) by (apply mix_Pf; auto).
    exists (mix n f m1 m2). split.
    + split; [apply mix_length|]. split; [|split].
      * intros H. apply (inI_two n f _ _ HS) in H. fold f' in H. rewrite Ef, Eg in H. tauto.
      * rewrite (hv_two n f (s_I s) _ HI (mix_length n f m1 m2)). fold f'. rewrite Ef, Eg, <- K1, <- K2. auto.
      * rewrite Hc. intros E. apply Z.mul_eq_0 in E. tauto.
    + rewrite (mix_eq n f d Hd). fold f'. rewrite E1, E2. apply term_ext with n; [apply mix_length|apply t_product_length|].
      intros v Hv. rewrite t_product_nth by auto. unfold mix. rewrite !tabulate_nth by auto. fold f'.
      destruct (f v) eqn:E.
      * destruct (off_idx n f v Hv E) as [Q1 Q2]. rewrite t_product_nth by auto. rewrite P_idx by auto. auto.
      * assert (E' : f' v = true) by (unfold f'; rewrite E; auto).
        destruct (off_idx n f' v Hv E') as [Q1 Q2]. rewrite t_product_nth by auto. rewrite P_idx by auto. auto.
Qed.

Lemma val_length : forall s c d, val s c d -> length d = s_n s.
Proof. intros s c d [m' [_ ->]]. apply t_product_length. Qed.


Lemma combine_hemits : forall s f xs ys, slice_ok s -> sided (s_n s) f (s_I s) -> sided (s_n s) f (s_S s) ->
  hemits (sl_setToProjOf s (off (s_n s) f)) xs ->
  hemits (sl_setToProjOf s (off (s_n s) (fun i => negb (f i)))) ys ->
  hemits s (hil_combine_left (s_n s) (off (s_n s) f) (off (s_n s) (fun i => negb (f i))) (t_identity (s_n s)) xs ys).
Proof.
  intros s f xs ys Hok HI HS [NX EX] [NY EY]. set (n := s_n s) in *. set (f' := fun i => negb (f i)) in *.
  assert (Lx : forall x, In x xs -> length (snd x) = blen n f).
  { intros [c x] Hx. apply EX in Hx. apply val_length in Hx. exact Hx. }
  assert (Ly : forall y, In y ys -> length (snd y) = blen n f').
  { intros [c y] Hy. apply EY in Hy. apply val_length in Hy. exact Hy. }
  pose proof (hil_combine_left_spec n f xs ys (t_identity n) (t_identity_length n) Lx Ly) as E. fold f' in E. rewrite E.
  split.
  - match goal with |- NoDup (map snd ?L) =>
      assert (Em : map snd L = flat_map (fun x => map (mix n f x) (map snd ys)) (map snd xs)) end.
    { clear. induction xs as [|x xs IH]; simpl; auto. rewrite map_app, IH. f_equal. rewrite !map_map. auto. }
    rewrite Em. clear Em.
    assert (Lx' : forall x, In x (map snd xs) -> length x = blen n f).
    { intros x Hx. apply in_map_iff in Hx. destruct Hx as [y [<- Hy]]. auto. }
    assert (Ly' : forall x, In x (map snd ys) -> length x = blen n f').
    { intros x Hx. apply in_map_iff in Hx. destruct Hx as [y [<- Hy]]. auto. }
    apply NoDup_flat_map; auto.
    + intros x Hx. apply NoDup_map_inj; auto. intros y y' Hy Hy' Em.
      rewrite <- (mix_Pg n f x y (Ly' y Hy)), <- (mix_Pg n f x y' (Ly' y' Hy')), Em. auto.
    + intros x x' m Hx Hx' Hm Hm'. apply in_map_iff in Hm, Hm'. destruct Hm as [y [E1 _]], Hm' as [y' [E2 _]].
      rewrite <- (mix_Pf n f x y (Lx' x Hx)), <- (mix_Pf n f x' y' (Lx' x' Hx')). congruence.
  - intros c m. rewrite in_flat_map. split.
    + intros [[c1 x] [Hx Hm]]. apply in_map_iff in Hm. destruct Hm as [[c2 y] [Em Hy]]. simpl in Em. injection Em as <- <-.
      apply (val_two s f _ _ Hok HI HS); [apply mix_length|]. fold n f'. exists c1, c2. split; auto.
      rewrite mix_Pf by (apply (Lx _ Hx)). assert (Eg : P n f' (mix n f x y) = y) by (apply mix_Pg; apply (Ly _ Hy)). rewrite Eg.
      split; [apply EX|apply EY]; auto.
    + intros Hc. assert (Hl : length m = n) by (apply val_length in Hc; exact Hc).
      apply (val_two s f c m Hok HI HS Hl) in Hc. fold n f' in Hc. destruct Hc as [c1 [c2 [-> [C1 C2]]]].
      apply EX in C1. apply EY in C2.
      exists (c1, P n f m). split; auto. apply in_map_iff. exists (c2, P n f' m). split; auto. simpl. f_equal.
      symmetry. apply mix_eq; auto.
Qed.

(** ** The recursion *)
Lemma re_ok1 : forall s s', reordered s s' -> slice_ok s -> slice_ok s'.
Proof.
  intros s s' [A B C D E F G] Hok.
  constructor; rewrite ?A, ?C, ?D, ?E, ?F, ?G; [|exact (ok_wfS s Hok)| |exact (ok_minS s Hok)|exact (ok_q s Hok)| | |exact (ok_hint s Hok)].
  - intros g Hg. apply (ok_wfI s Hok). apply (Permutation_in g B); auto.
  - apply minl_perm with (s_I s); [apply Permutation_sym; auto|exact (ok_minI s Hok)].
  - rewrite (perm_lcm _ _ _ B). exact (ok_lcm s Hok).
  - intros x g Hx Hg. apply (ok_norm s Hok); auto. apply (Permutation_in g B); auto.
Qed.
Lemma re_same_val : forall s s', reordered s s' -> same_val s s'.
Proof.
  intros s s' H. pose proof H as [A B C D E F G].
  assert (HV : forall m, hv (s_n s) (s_I s') m = hv (s_n s) (s_I s) m).
  { intros m. apply hv_ext. intros x _ _. apply perm_inI. auto. }
  constructor; auto.
  - intros c d. unfold val, kv. rewrite A, C, D. split; intros [m [[M1 [M2 [M3 M4]]] M5]]; exists m; rewrite HV in *; auto.
  - apply (mu_le _ _ _ _ _ _ (fun m => m)); auto. intros m. apply (re_B s s' m H).
Qed.

Definition hrule_ok (f : pivot_rule) : Prop := forall rnd k s0 s, slice_ok s0 -> hil_baseCase s0 = (s, HNotBase) ->
  exists s' p k', f rnd k s = Some (s', p, k') /\ reordered s s' /\ legal s p.
Definition hconf_ok (c : config) : Prop := exists f, c_split c = PivotSplit f /\ hrule_ok f.

Lemma hil_base_n0 : forall s s', s_n s = 0 -> hil_baseCase s <> (s', HNotBase).
Proof.
  intros s s' H. unfold hil_baseCase. cbv zeta. destruct (touch_facts s) as [A _]. rewrite A, H. simpl.
  intros Hc. discriminate.
Qed.
Lemma hrule1 : forall f, pivot_sound1 f -> hrule_ok f.
Proof.
  intros f H rnd k s0 s Hok E. destruct (Nat.eq_dec (s_n s0) 0) as [E0|N0]; [exfalso; exact (hil_base_n0 _ _ E0 E)|].
  destruct (hil_base_spec s0 s _ Hok ltac:(lia) E) as [-> Hp]. apply H; auto. apply touch_ok; auto.
Qed.

Theorem hil_process_spec : forall c rnd, hconf_ok c -> forall fuel s k, slice_ok s -> 0 < s_n s -> s_n s + smu s < fuel ->
  exists out k', hil_process fuel c rnd k s = Some (out, k') /\ hemits s out.
Proof.
  intros c rnd Hc. induction fuel as [|fuel IH]; intros s k Hok Hn Hfuel; [lia|]. cbn [hil_process].
  destruct (hil_baseCase s) as [s1 r] eqn:Eb. destruct (hil_base_spec s s1 r Hok Hn Eb) as [-> HB].
  destruct r as [|out|]; [|exists out, k; auto|destruct HB]. pose proof (touch_ok s Hok) as Hok1.
  pose proof (touch_same_val s) as Ht. pose proof (sv_n _ _ Ht) as En. pose proof (sv_mu _ _ Ht) as Emu.
  set (s1 := sl_touch s) in *. 
  assert (HB1 : sB s1 (t_identity (s_n s1))) by (apply one_sB; auto; [lia|apply (pv_full _ HB)]).
  destruct (indep_analyze_spec s1 Hok1) as [ra [Ea Ha]].
  assert (Hind : exists ra', (if c_indep c then indep_analyze s1 else Some None) = Some ra' /\ (ra' = None \/ ra' = ra)).
  { destruct (c_indep c); [exists ra|exists None]; auto. }
  destruct Hind as [ra' [Ei Hra]]. rewrite Ei. clear Ei.
  destruct ra' as [[big rest]|].
  { (* independence split *)
    destruct Hra as [Hra|<-]; [discriminate|]. destruct Ha as [f [-> [-> [L1 [L2 [OI OS]]]]]].
    pose proof HB1 as [_ [_ [N1 N2]]].
    pose proof (not_one_sided _ f _ OI N1) as SI1. pose proof (not_one_sided _ f _ OS N2) as SS1.
    set (f' := fun i => negb (f i)) in *.
    assert (SI2 : sided (s_n s1) f' (s_I s1)) by (apply sided_swap; auto).
    assert (SS2 : sided (s_n s1) f' (s_S s1)) by (apply sided_swap; auto).
    change (filter f (seq 0 (s_n s1))) with (off (s_n s1) f) in *. change (filter f' (seq 0 (s_n s1))) with (off (s_n s1) f') in *.
    assert (Hlen : length (off (s_n s1) f) + length (off (s_n s1) f') = s_n s1).
    { unfold off. rewrite <- (seq_length (s_n s1) 0) at 3. generalize (seq 0 (s_n s1)). intros l.
      induction l as [|x l IHl]; auto. cbn [filter]. unfold f' at 1. destruct (f x); cbn [negb length]; lia. }
    assert (Hside : forall h, sided (s_n s1) h (s_I s1) -> sided (s_n s1) h (s_S s1) -> 2 <= length (off (s_n s1) h) ->
       length (off (s_n s1) h) < s_n s1 ->
       slice_ok (sl_setToProjOf s1 (off (s_n s1) h)) /\ s_n (sl_setToProjOf s1 (off (s_n s1) h)) + smu (sl_setToProjOf s1 (off (s_n s1) h)) < fuel).
    { intros h HhI HhS H2 Hlt. split; [apply proj_slice_ok1; auto; [apply (pv_lcm _ HB)|unfold blen; lia]|].
      pose proof (proj_smu s1 h (pv_full _ HB) HB1 HhI HhS). cbn [s_n sl_setToProjOf] in *. lia. }
    destruct (Hside f' SI2 SS2 L2 ltac:(lia)) as [I2 F2]. destruct (Hside f SI1 SS1 L1 ltac:(lia)) as [I1 F1].
    destruct (IH _ k I2 ltac:(cbn [s_n sl_setToProjOf]; lia) F2) as [ys [k1 [Ey Hy]]]. rewrite Ey.
    destruct (IH _ k1 I1 ltac:(cbn [s_n sl_setToProjOf]; lia) F1) as [xs [k2 [Exs Hxs]]]. rewrite Exs.
    eexists. eexists. split; [reflexivity|]. apply (hemits_same _ _ _ Ht). apply combine_hemits; auto. }
  clear Ha Ea Hra ra. destruct Hc as [f [Esp Hf]]. rewrite Esp.
  destruct (Hf rnd k s s1 Hok Eb) as [s2 [p [k0 [Ef [Hre [Lp [Ppos PB]]]]]]]. rewrite Ef.
  pose proof (re_ok1 s1 s2 Hre Hok1) as Hok2. pose proof (re_same_val s1 s2 Hre) as Hsame. pose proof (re_n _ _ Hre) as En2.
  rewrite <- En2 in Lp, Ppos. apply (re_B s1 s2 p Hre) in PB.
  destruct (sl_innerSlice s2 p) as [si ci] eqn:Ein.
  destruct (sl_innerSlice_spec s2 p si ci Hok2 Lp Ein) as [I1 [I3 _]].
  destruct (sl_outerSlice_spec s2 p Hok2 Lp Ppos) as [O1 [O3 _]]. cbn [fst].
  assert (HB2 : sB s2 (t_identity (s_n s2))). { rewrite En2. apply (re_B s1 s2 _ Hre). auto. }
  pose proof (inner_one_lt s2 p si I3 HB2 Ppos) as Mi. pose proof (outer_mu_lt s2 p _ O3 PB) as Mo.
  pose proof (sv_mu _ _ Hsame) as M12. pose proof (in_n _ _ _ I3) as Ni. pose proof (out_n _ _ _ O3) as No.
  destruct (hil_st_simplify_spec c si I1) as [inner [Es1 [Hi1 Hsc1]]]; [lia|]. rewrite Es1.
  destruct (hil_st_simplify_spec c (sl_outerSlice s2 p) O1) as [outer [Es2 [Hi2 Hsc2]]]; [lia|]. rewrite Es2.
  pose proof (sv_mu _ _ Hsc1). pose proof (sv_mu _ _ Hsc2). pose proof (sv_n _ _ Hsc1). pose proof (sv_n _ _ Hsc2).
  destruct (pivot_val s2 p si ci Hok2 Lp Ppos Ein) as [C1 C2].
  assert (Fi : s_n inner + smu inner < fuel) by lia. assert (Fo : s_n outer + smu outer < fuel) by lia.
  assert (Nin : 0 < s_n inner) by lia. assert (Nou : 0 < s_n outer) by lia.
  destruct (length (s_I inner) <? length (s_I outer)).
  + destruct (IH inner k0 Hi1 Nin Fi) as [o1 [k1 [E1 Q1]]]. rewrite E1.
    destruct (IH outer k1 Hi2 Nou Fo) as [o2 [k2 [E2 Q2]]]. rewrite E2.
    eexists. eexists. split; [reflexivity|]. apply (hemits_same _ _ _ Ht). apply (hemits_same _ _ _ Hsame).
    apply hemits_union with si (sl_outerSlice s2 p); auto; eapply hemits_same; eauto.
  + destruct (IH outer k0 Hi2 Nou Fo) as [o1 [k1 [E1 Q1]]]. rewrite E1.
    destruct (IH inner k1 Hi1 Nin Fi) as [o2 [k2 [E2 Q2]]]. rewrite E2.
    eexists. eexists. split; [reflexivity|]. apply (hemits_same _ _ _ Ht). apply (hemits_same _ _ _ Hsame).
    apply hemits_union with (sl_outerSlice s2 p) si.
    * intros m d. rewrite C1. tauto.
    * intros a b d A B. apply (C2 b a d); auto.
    * eapply hemits_same; eauto.
    * eapply hemits_same; eauto.
Qed.
