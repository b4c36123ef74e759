(** Slices of the Hilbert algorithm: what they stand for, and simplification. *)
From Coq Require Import List Arith Bool ZArith Lia Permutation.
Import ListNotations.
From Verif Require Import Spec M_Term M_Ideal M_Slice M_Partition M_Msm M_Api M_Hilbert P_Term P_Ideal P_Bridge P_Msm1 P_Msm2
  P_Msm3 P_Msm4 P_Msm5 P_Indep P_Proj P_Split P_Process P_Hil1 P_Hil2 P_Hil3.
Local Open Scope nat_scope.

(** the coefficient of m*x1...xn in the numerator *)
Definition hv (n : nat) (J : ideal) (m : term) : Z := dif (seq 0 n) (fun x => (1 - ind n J x)%Z) m.

Lemma seq_lt : forall n v, In v (seq 0 n) <-> v < n.
Proof. intros. rewrite in_seq. lia. Qed.

Lemma hv_label : forall n J m v, hv n J m <> 0%Z -> length m = n -> v < n ->
  exists g, In g J /\ g @ v = S (m @ v) /\ forall w, w < n -> g @ w <= S (m @ w).
Proof.
  intros n J m v Hz Hm Hv.
  destruct (existsb (fun g => (g @ v =? S (m @ v)) && forallb (fun w => g @ w <=? S (m @ w)) (seq 0 n)) J) eqn:Ex.
  - apply existsb_exists in Ex. destruct Ex as [g [Hg Ex]]. apply andb_true_iff in Ex. destruct Ex as [E1 E2].
    apply Nat.eqb_eq in E1. rewrite forallb_forall in E2. exists g. split; auto. split; auto. intros w Hw.
    apply Nat.leb_le. apply E2. apply seq_lt; auto.
  - exfalso. apply Hz. unfold hv. apply (dif_zero _ _ _ v); [apply seq_NoDup|apply seq_lt; auto|].
    intros x Hl Hxv _ Hb. f_equal. apply ind_iff. split.
    + intros [g [Hg Hle]]. exists g. split; auto. intros w Hw.
      pose proof (existsb_false_all _ _ Ex g Hg) as E. cbv beta in E.
      assert (Hall : forall u, u < n -> g @ u <= S (m @ u)).
      { intros u Hu. specialize (Hle u Hu). specialize (Hb u). destruct (Nat.eq_dec u v) as [->|Hne].
        - rewrite tv_nth_eq in Hle by lia. lia.
        - rewrite tv_nth_neq in Hle by auto. lia. }
      assert (E2 : forallb (fun w => g @ w <=? S (m @ w)) (seq 0 n) = true).
      { apply forallb_forall. intros u Hu. apply seq_lt in Hu. apply Nat.leb_le. auto. }
      rewrite E2, andb_true_r in E. apply Nat.eqb_neq in E.
      destruct (Nat.eq_dec w v) as [->|Hne].
      * specialize (Hall v Hw). lia.
      * specialize (Hle w Hw). rewrite tv_nth_neq in Hle; auto.
    + intros [g [Hg Hle]]. exists g. split; auto. intros w Hw. specialize (Hle w Hw). rewrite tv_nth.
      destruct ((w =? v) && (v <? length x)); lia.
Qed.

Lemma hv_not_in : forall n J m, hv n J m <> 0%Z -> 0 < n -> ~ inI n J m.
Proof.
  intros n J m Hz Hn [g [Hg Hle]]. apply Hz. unfold hv. rewrite (dif_ext _ _ (fun _ => 0%Z)).
  - apply dif_const0.
  - intros x Hx. rewrite ind_1; [lia|]. exists g. split; auto. intros v Hv. specialize (Hle v Hv).
    pose proof (reach_ge _ _ _ v Hx). lia.
Qed.

Lemma hv_nil : forall n m, 0 < n -> hv n [] m = 0%Z.
Proof.
  intros n m Hn. unfold hv. rewrite (dif_ext _ _ (fun _ => 1%Z)).
  - apply dif_const. destruct n; [lia|discriminate].
  - intros x _. rewrite ind_0; [reflexivity|apply inI_nil].
Qed.

Lemma hv_ext : forall n J J' m, (forall x, length x = length m -> (forall w, m @ w <= x @ w <= S (m @ w)) -> (inI n J x <-> inI n J' x)) ->
  hv n J m = hv n J' m.
Proof.
  intros n J J' m H. unfold hv. apply dif_ext. intros x Hx. f_equal. apply ind_iff. apply H.
  - eapply reach_length; eauto.
  - intros w. split; [eapply reach_ge; eauto|eapply reach_le; eauto]. apply seq_NoDup.
Qed.

Lemma hv_colon : forall n I p J m, is_colon n I p J -> length m = n -> hv n J m = hv n I (t_product n m p).
Proof.
  intros n I p J m HJ Hm. unfold hv.
  rewrite <- (map_id (seq 0 n)) at 1.
  apply (dif_transport (fun x x' => length x = n /\ x' = t_product n x p)); auto.
  - intros x x' i Hi [Hx ->]. apply seq_lt in Hi. split; [rewrite times_var_length; auto|].
    apply term_ext with n; [rewrite times_var_length; apply t_product_length|apply t_product_length|].
    intros v Hv. rewrite tv_nth, !t_product_nth, tv_nth, t_product_length by auto. rewrite Hx.
    destruct ((v =? i) && (i <? n)); lia.
  - intros x x' [Hx ->]. f_equal. apply ind_iff. apply (is_colon_inI n I p J HJ).
Qed.

(** generators strictly divisible by an element of S that does not divide m do not count *)
Lemma hv_filter : forall n J f m, length m = n ->
  (forall g, In g J -> f g = false -> exists x, sdiv_n n x g /\ ~ le_n n x m) ->
  hv n (filter f J) m = hv n J m.
Proof.
  intros n J f m Hm H. apply hv_ext. intros x Hl Hb. split.
  - apply inI_incl. apply incl_filter.
  - intros [g [Hg Hle]]. destruct (f g) eqn:Ef.
    + exists g. split; auto. apply filter_In; auto.
    + exfalso. destruct (H g Hg Ef) as [y [[Hd _] Hn]]. apply Hn. intros v Hv.
      specialize (Hle v Hv). specialize (Hb v). destruct (Hd v Hv); lia.
Qed.

(** ** Content *)
Definition kv (s : slice) (m : term) (c : Z) : Prop :=
  length m = s_n s /\ ~ inI (s_n s) (s_S s) m /\ c = hv (s_n s) (s_I s) m /\ c <> 0%Z.
Definition val (s : slice) (c : Z) (d : term) : Prop :=
  exists m, kv s m c /\ d = t_product (s_n s) m (s_q s).

Lemma kv_label : forall s m c v, kv s m c -> v < s_n s ->
  exists g, In g (s_I s) /\ g @ v = S (m @ v) /\ forall w, w < s_n s -> g @ w <= S (m @ w).
Proof. intros s m c v [H1 [H2 [H3 H4]]] Hv. apply hv_label; auto. congruence. Qed.

Lemma kv_inB : forall s m c, kv s m c -> 0 < s_n s -> sB s m.
Proof.
  intros s m c Hk Hn. pose proof Hk as [H1 [H2 [H3 H4]]]. split; auto. split; [|split; auto].
  - intros v Hv. destruct (kv_label s m c v Hk Hv) as [g [Hg [E _]]].
    pose proof (i_lcm_ge (s_n s) (s_I s) g v Hv Hg). lia.
  - apply hv_not_in; auto. congruence.
Qed.

Lemma inner_kv : forall s p s' ch, slice_ok s -> length p = s_n s -> sl_innerSlice s p = (s', ch) ->
  forall m c, length m = s_n s -> (kv s' m c <-> kv s (t_product (s_n s) m p) c).
Proof.
  intros s p s' ch Hok Hp H m c Hm. unfold sl_innerSlice in H. cbv zeta in H.
  destruct Hok as [WI WS MI MS Q LC N HT]. set (n := s_n s) in *.
  pose proof (minimizer_colonTerm_spec n (s_I s) p WI MI Hp) as CI.
  pose proof (minimizer_colonTerm_spec n (s_S s) p WS MS Hp) as CS.
  unfold i_colonReminimize in H.
  destruct (minimizer_colonTerm n (s_I s) p) as [I1 c1]. destruct (minimizer_colonTerm n (s_S s) p) as [S1 c2].
  cbn [fst snd] in CI, CS. destruct CI as [CI _]. destruct CS as [CS _].
  assert (Hgen : forall f, (forall g, In g I1 -> f g = false -> exists x, In x S1 /\ sdiv_n n x g) ->
    forall l u h, kv (mkSlice n (filter f I1) S1 (t_product n (s_q s) p) l u h) m c <-> kv s (t_product n m p) c).
  { intros f Hf l u h. unfold kv. cbn [s_n s_S s_I]. fold n. rewrite (is_colon_inI n (s_S s) p S1 CS m).
    split; intros [A1 [A2 [A3 A4]]]; (split; [auto using t_product_length|split; [auto|split; [|auto]]]);
      rewrite A3, <- (hv_colon n (s_I s) p I1 m CI Hm); [|symmetry]; apply hv_filter; auto;
      intros g Hg Ef; destruct (Hf g Hg Ef) as [x [Hx Hd]]; exists x; (split; [auto|]); intros Hle; apply A2;
      apply (is_colon_inI n (s_S s) p S1 CS m); exists x; auto. }
  destruct (c1 || c2) eqn:Ec.
  - unfold sl_normalize in H. cbn [s_n s_I s_S s_q s_lcm s_upd s_hint] in H.
    destruct (norm_loop n S1 I1 (s_upd s) false) as [[I2 upd2] rem] eqn:EN. cbn [fst s_n s_I s_S s_q s_lcm s_upd s_hint] in H.
    destruct (norm_loop_spec _ _ _ _ _ _ _ _ EN) as [f [-> [_ [R _]]]].
    destruct (length (filter f I1) =? length (s_I s)); injection H as <- <-; apply Hgen; auto.
  - cbn [s_I s_S s_q s_lcm s_upd s_hint] in H. rewrite <- (filter_same (fun _ => true) I1) in H by auto.
    destruct (length (filter (fun _ => true) I1) =? length (s_I s)); injection H as <- <-; apply Hgen; discriminate.
Qed.

Lemma outer_kv : forall s p, slice_ok s -> length p = s_n s -> (exists v, v < s_n s /\ 0 < p @ v) ->
  forall m c, (kv (sl_outerSlice s p) m c <-> kv s m c /\ ~ le_n (s_n s) p m).
Proof.
  intros s p Hok Hp Hpn m c. destruct Hok as [WI WS MI MS Q LC N HT]. unfold sl_outerSlice, kv. cbn [s_n s_S s_I].
  set (n := s_n s) in *.
  destruct (insertReminimize_spec n (s_S s) p WS MS Hp) as [A1 [A2 [A3 A4]]].
  set (I1 := i_removeStrictMultiples n (s_I s) p).
  assert (HI1 : length m = n -> ~ le_n n p m -> hv n I1 m = hv n (s_I s) m).
  { intros Hm Hnp. unfold I1, i_removeStrictMultiples. apply hv_filter; auto. intros g Hg Ef.
    apply negb_false_iff, t_strictlyDivides_iff in Ef. exists p. auto. }
  destruct (Nat.ltb_spec 1 (t_sizeOfSupport n p)) as [Hsz|Hsz].
  - rewrite A4. split.
    + intros [B1 [B2 [B3 B4]]]. assert (Hnp : ~ le_n n p m) by tauto. rewrite HI1 in B3 by auto. tauto.
    + intros [[B1 [B2 [B3 B4]]] Hnp]. rewrite HI1 by auto. tauto.
  - assert (E1 : t_sizeOfSupport n p = 1).
    { destruct (Nat.eq_dec (t_sizeOfSupport n p) 0) as [E0|]; [|lia].
      destruct Hpn as [v [Hv Hx]]. pose proof (proj1 (t_sizeOfSupport_0 n p) E0 v Hv). lia. }
    apply t_sizeOfSupport_1 in E1. destruct E1 as [v [Hv [Hx Hz]]]. split.
    + intros [B1 [B2 [B3 B4]]]. assert (Hnp : ~ le_n n p m).
      { intros Hle. specialize (Hle v Hv). rewrite B3 in B4. destruct (hv_label n I1 m v B4 B1 Hv) as [g [Hg [Eg _]]].
        unfold I1, i_removeStrictMultiples in Hg. apply filter_In in Hg. destruct Hg as [Hg Ef].
        apply negb_true_iff in Ef. assert (t_strictlyDivides n p g = true); [|congruence].
        apply t_strictlyDivides_iff. split.
        - intros w Hw. destruct (Nat.eq_dec w v) as [->|Hne]; [lia|left; auto].
        - exists v. split; auto. lia. }
      rewrite HI1 in B3 by auto. tauto.
    + intros [[B1 [B2 [B3 B4]]] Hnp]. rewrite HI1 by auto. tauto.
Qed.

Record same_val (s s' : slice) : Prop := mkSv {
  sv_n : s_n s' = s_n s;
  sv_val : forall c d, val s' c d <-> val s c d;
  sv_mu : smu s' <= smu s }.
Lemma sv_refl : forall s, same_val s s.
Proof. intros. constructor; auto. tauto. Qed.
Lemma sv_trans : forall a b c, same_val a b -> same_val b c -> same_val a c.
Proof.
  intros a b c [A1 A2 A3] [B1 B2 B3]. constructor; try congruence; try lia.
  intros x d. rewrite B2. auto.
Qed.

Lemma inner_val : forall s p s' ch c d, slice_ok s -> length p = s_n s -> sl_innerSlice s p = (s', ch) ->
  (val s' c d <-> exists m, kv s m c /\ le_n (s_n s) p m /\ d = t_product (s_n s) m (s_q s)).
Proof.
  intros s p s' ch c d Hok Hp Hs. destruct (sl_innerSlice_spec s p s' ch Hok Hp Hs) as [_ [H _]].
  pose proof (inner_kv s p s' ch Hok Hp Hs) as HK.
  unfold val. rewrite (in_n _ _ _ H), (in_q _ _ _ H). set (n := s_n s) in *.
  split.
  - intros [m' [H1 ->]]. assert (Hl : length m' = n) by (destruct H1 as [H1 _]; rewrite (in_n _ _ _ H) in H1; auto).
    exists (t_product n m' p). split; [|split].
    + apply HK; auto.
    + intros v Hv. rewrite t_product_nth by auto. lia.
    + apply term_ext with n; auto using t_product_length. intros v Hv. rewrite !t_product_nth by auto. lia.
  - intros [m' [H1 [H2 ->]]]. assert (Hm' : length m' = n) by (apply H1).
    assert (E : t_product n (t_colon n m' p) p = m').
    { apply term_ext with n; auto using t_product_length. intros v Hv.
      rewrite t_product_nth, t_colon_nth by auto. specialize (H2 v Hv). lia. }
    exists (t_colon n m' p). split.
    + apply HK; [apply t_colon_length|]. rewrite E. auto.
    + apply term_ext with n; auto using t_product_length. intros v Hv.
      rewrite !t_product_nth, t_colon_nth by auto. specialize (H2 v Hv). lia.
Qed.

Lemma outer_val : forall s p c d, slice_ok s -> length p = s_n s -> (exists v, v < s_n s /\ 0 < p @ v) ->
  (val (sl_outerSlice s p) c d <-> exists m, kv s m c /\ ~ le_n (s_n s) p m /\ d = t_product (s_n s) m (s_q s)).
Proof.
  intros s p c d Hok Hp Hpn. unfold val. split.
  - intros [m [A B]]. apply (outer_kv s p Hok Hp Hpn) in A. exists m. split; [tauto|]. split; [tauto|]. exact B.
  - intros [m [A [B C]]]. exists m. split; [apply (outer_kv s p Hok Hp Hpn); auto|exact C].
Qed.

Lemma inner_same_val : forall s p s' ch, slice_ok s -> length p = s_n s -> sl_innerSlice s p = (s', ch) ->
  (forall m c, kv s m c -> le_n (s_n s) p m) -> same_val s s'.
Proof.
  intros s p s' ch Hok Hp Hs Hall. destruct (sl_innerSlice_spec s p s' ch Hok Hp Hs) as [_ [H _]]. constructor.
  - apply H.
  - intros c d. rewrite (inner_val s p s' ch c d Hok Hp Hs). unfold val. split.
    + intros [m' [A [B C]]]. eauto.
    + intros [m' [A B]]. exists m'. split; auto. split; eauto.
  - eapply inner_mu_le; eauto.
Qed.

Lemma touch_same_val : forall s, same_val s (sl_touch s).
Proof.
  intros s. destruct (touch_facts s) as [A [B [C [D [E F]]]]]. constructor; auto.
  - intros c d. unfold val, kv. rewrite A, B, C, D. tauto.
  - unfold smu. rewrite A, B, C. auto.
Qed.

(** ** Simplification *)
Lemma hil_adjust_spec : forall fuel s ch, slice_ok s -> exp_sum (s_n s) (slcm s) < fuel ->
  exists s' ch', adjustMultiply fuel sl_innerSlice s ch = Some (s', ch') /\ slice_ok s' /\ same_val s s'.
Proof.
  induction fuel as [|fuel IH]; intros s ch Hok Hf; [lia|]. cbn [adjustMultiply]. cbv zeta.
  set (n := s_n s) in *. set (b := t_decrement n (adj_bound n (s_I s))).
  assert (Hlb : length b = s_n s) by apply t_decrement_length.
  destruct (t_isIdentity n b) eqn:Ei.
  - exists s, ch. split; auto. split; auto. apply sv_refl.
  - apply t_isIdentity_false in Ei. destruct Ei as [x [Hx Hbx]].
    destruct (sl_innerSlice s b) as [s1 real] eqn:Es.
    destruct (sl_innerSlice_spec s b s1 real Hok Hlb Es) as [O1 [R1 _]].
    assert (HS1 : same_val s s1).
    { apply (inner_same_val s b s1 real Hok Hlb Es). intros m c Hk v Hv. fold n in Hv. unfold b.
      rewrite t_decrement_nth by auto. destruct (kv_label s m c v Hk Hv) as [g [Hg [Eg _]]].
      destruct (adj_bound_spec n (s_I s) v Hv) as [_ [_ C]]. specialize (C g Hg ltac:(lia)). lia. }
    destruct real.
    + destruct (IH s1 true O1) as [s' [ch' [E [O' C']]]].
      * assert (exp_sum (s_n s1) (slcm s1) < exp_sum (s_n s) (slcm s)); [|fold n in H; lia].
        apply inner_exp_sum with b x; auto. unfold b in *. rewrite t_decrement_nth in * by auto.
        destruct (adj_bound_spec n (s_I s) x Hx) as [_ [B _]]. destruct (B ltac:(lia)) as [g [Hg Eg]].
        pose proof (i_lcm_ge n (s_I s) g x Hx Hg). unfold slcm. fold n. lia.
      * exists s', ch'. split; auto. split; auto. eapply sv_trans; eauto.
    + exists s1, true. auto.
Qed.

Lemma gcd_fold_le : forall n l b w, w < n ->
  let r := (fold_left (fun b h => t_gcd n b h) l b) @ w in r <= b @ w /\ forall g, In g l -> r <= g @ w.
Proof.
  induction l as [|a l IH]; intros b w Hw; cbn [fold_left]; cbv zeta.
  - split; auto. intros g [].
  - destruct (IH (t_gcd n b a) w Hw) as [H1 H2]. rewrite t_gcd_nth in H1 by auto. split; [lia|].
    intros g [<-|Hg]; [lia|auto].
Qed.

Lemma hil_clear_same : forall s, 0 < s_n s -> (forall m c, ~ kv s m c) -> same_val s (sl_clear s).
Proof.
  intros s Hn Hk. constructor; auto.
  - intros c d. unfold val. split; intros [m' [H _]]; exfalso.
    + destruct H as [_ [_ [H1 H2]]]. cbn [sl_clear s_n s_I] in H1. rewrite hv_nil in H1; auto.
    + eapply Hk; eauto.
  - unfold smu. apply (mu_le _ _ _ _ _ _ (fun m => m)); auto.
    simpl. intros m [Hl [Hb _]]. specialize (Hb 0 Hn). unfold i_lcm in Hb. simpl in Hb. rewrite t_identity_nth in Hb. lia.
Qed.

Lemma hil_lb_loop_spec : forall fuel s ch steps var, slice_ok s -> 0 < s_n s -> var < s_n s ->
  exp_sum (s_n s) (slcm s) * S (s_n s) + (s_n s - steps) <= fuel ->
  exists s' ch', hil_lb_loop fuel s ch steps var = Some (s', ch') /\ slice_ok s' /\ same_val s s'.
Proof.
  induction fuel as [|fuel IH]; intros s ch steps var Hok Hn Hvar Hf; cbn [hil_lb_loop];
  destruct (Nat.ltb_spec steps (s_n s)) as [Hst|Hst].
  - lia.
  - exists s, ch. split; auto. split; auto. apply sv_refl.
  - unfold hil_getLowerBound.
    destruct (filter (fun g => negb (g @ var =? 0)) (s_I s)) as [|g0 rest] eqn:Ef.
    + exists (sl_clear s), true. split; auto. split; [apply (clear_ok s Hok)|]. apply hil_clear_same; auto.
      intros m c Hk. destruct (kv_label s m c var Hk Hvar) as [g [Hg [Eg _]]].
      assert (Hin : In g (filter (fun g => negb (g @ var =? 0)) (s_I s))).
      { apply filter_In. split; auto. rewrite Eg. auto. }
      rewrite Ef in Hin. destruct Hin.
    + set (b := t_decrement (s_n s) (fold_left (fun b h => t_gcd (s_n s) b h) rest g0)).
      assert (Hb : forall g w, In g (s_I s) -> g @ var <> 0 -> w < s_n s -> b @ w <= g @ w - 1).
      { intros g w Hg Hgv Hw. unfold b. rewrite t_decrement_nth by auto.
        destruct (gcd_fold_le (s_n s) rest g0 w Hw) as [B1 B2].
        assert (Hin : In g (filter (fun g => negb (g @ var =? 0)) (s_I s))).
        { apply filter_In. split; auto. apply negb_true_iff, Nat.eqb_neq; auto. }
        rewrite Ef in Hin. destruct Hin as [<-|Hin]; [lia|]. specialize (B2 g Hin). lia. }
      assert (Hlb : length b = s_n s) by apply t_decrement_length.
      assert (Hvar' : S var mod s_n s < s_n s) by (apply Nat.mod_upper_bound; lia).
      destruct (t_isIdentity (s_n s) b) eqn:Ei.
      * destruct (IH s ch (S steps) (S var mod s_n s)) as [s' [ch' [H1 [H2 H3]]]]; auto; [lia|].
        exists s', ch'. auto.
      * destruct (sl_innerSlice s b) as [s2 big] eqn:Es.
        destruct (sl_innerSlice_spec s b s2 big Hok Hlb Es) as [O2 [R2 _]].
        apply t_isIdentity_false in Ei. destruct Ei as [x [Hx Hbx]].
        assert (HS2 : same_val s s2).
        { apply (inner_same_val s b s2 big Hok Hlb Es). intros m c Hk w Hw.
          destruct (kv_label s m c var Hk Hvar) as [g [Hg [Eg Hle]]]. specialize (Hb g w Hg ltac:(lia) Hw).
          specialize (Hle w Hw). lia. }
        assert (Hsum : exp_sum (s_n s2) (slcm s2) < exp_sum (s_n s) (slcm s)).
        { apply inner_exp_sum with b x; auto. 
          assert (Hg0 : In g0 (filter (fun g => negb (g @ var =? 0)) (s_I s))) by (rewrite Ef; simpl; auto).
          apply filter_In in Hg0. destruct Hg0 as [Hg0 Eg0]. apply negb_true_iff, Nat.eqb_neq in Eg0.
          specialize (Hb g0 x Hg0 Eg0 Hx). pose proof (i_lcm_ge (s_n s) (s_I s) g0 x Hx Hg0). unfold slcm. lia. }
        assert (En2 : s_n s2 = s_n s) by (apply (in_n _ _ _ R2)). rewrite En2 in *.
        destruct (IH s2 true (if big then 0 else S steps) (S var mod s_n s)) as [s' [ch' [H1 [H2 H3]]]]; auto; rewrite ?En2; auto.
        -- destruct big; nia.
        -- exists s', ch'. split; auto. split; auto. eapply sv_trans; eauto.
  - exists s, ch. split; auto. split; auto. apply sv_refl.
Qed.

Lemma hil_prune_spec : forall s s' ch, slice_ok s -> 0 < s_n s -> sl_pruneSubtract s = (s', ch) ->
  slice_ok s' /\ same_val s s'.
Proof.
  intros s s' ch Hok Hn0 H. unfold sl_pruneSubtract in H. destruct (s_S s) as [|x S0] eqn:ES.
  - injection H as <- <-. auto using sv_refl.
  - cbv zeta in H. unfold i_removeIf in H.
    destruct (touch_facts s) as [A [B [C [D [E F]]]]]. pose proof (touch_ok s Hok) as Hok1.
    pose proof (touch_same_val s) as Hsc1. pose proof (touch_lcm s Hok) as L.
    set (s1 := sl_touch s) in *. 
    set (f := fun g => negb (negb (t_strictlyDivides (s_n s1) g (s_lcm s1)) || i_contains (s_n s1) (s_I s1) g)) in *.
    injection H as <- <-.
    set (s2 := mkSlice (s_n s1) (s_I s1) (filter f (s_S s1)) (s_q s1) (s_lcm s1) (s_upd s1) (s_hint s1)).
    split.
    + destruct Hok1 as [O1 O2 O3 O4 O5 O6 O7 O8]. constructor; simpl; auto.
      * intros g Hg. apply O2. apply filter_In in Hg. tauto.
      * apply minl_filter; auto.
      * intros y g Hy Hg. apply O7; auto. apply filter_In in Hy. tauto.
    + eapply sv_trans; [exact Hsc1|].
      assert (HS : forall m, length m = s_n s ->
        (forall v, v < s_n s -> m @ v < (i_lcm (s_n s) (s_I s)) @ v) -> ~ inI (s_n s) (s_I s) m ->
        (inI (s_n s) (filter f (s_S s)) m <-> inI (s_n s) (s_S s) m)).
      { intros m Hl Hb Hm. split.
        - apply inI_incl. apply incl_filter.
        - intros [y [Hy Hle]]. destruct (f y) eqn:Hf.
          + exists y. split; auto. apply filter_In; auto.
          + exfalso. unfold f in Hf. apply negb_false_iff, orb_true_iff in Hf.
            rewrite A, B, L in Hf. destruct Hf as [Hf|Hf].
            * apply negb_true_iff, not_true_false in Hf. apply Hf. apply t_strictlyDivides_iff. split.
              -- intros v Hv. specialize (Hle v Hv). specialize (Hb v Hv). lia.
              -- exists 0. split; auto. specialize (Hb 0 Hn0). lia.
            * apply i_contains_iff in Hf. apply Hm. eapply inI_mono; eauto. }
      assert (HK : forall m c, kv s2 m c <-> kv s1 m c).
      { intros m c. unfold kv, s2. cbn [s_n s_I s_S]. rewrite A, B, C.
        split; intros [H1 [H2 [H3 H4]]]; (split; [auto|split; [|auto]]).
        - assert (H5 : kv (mkSlice (s_n s) (s_I s) (filter f (s_S s)) (s_q s) (s_lcm s) false 0) m c) by (split; auto).
          apply kv_inB in H5; auto. destruct H5 as [_ [K1 [K2 _]]]. rewrite <- HS; auto.
        - assert (H5 : kv s m c) by (split; auto). apply kv_inB in H5; auto. destruct H5 as [_ [K1 [K2 _]]]. rewrite HS; auto. }
      constructor; auto.
      * intros c d. unfold val. cbn [s2 s_n s_q]. split; intros [m' [H1 H2]]; exists m'; split; auto; apply HK; auto.
      * unfold smu. apply (mu_le _ _ _ _ _ _ (fun m => m)); auto. unfold s2; simpl. rewrite A, B, C.
        intros m [Hl [Hb [H1 H2]]]. split; auto. split; auto. split; auto. rewrite <- HS; auto.
Qed.

Lemma hil_simplify_spec : forall s, slice_ok s -> 0 < s_n s ->
  exists s' ch, hil_simplify s = Some (s', ch) /\ slice_ok s' /\ same_val s s'.
Proof.
  intros s Hok Hn. unfold hil_simplify.
  assert (Hlb : exists s1 c1, hil_applyLowerBound s = Some (s1, c1) /\ slice_ok s1 /\ same_val s s1).
  { unfold hil_applyLowerBound. destruct (s_I s) as [|g I] eqn:EI.
    - exists s, false. split; auto. split; auto. apply sv_refl.
    - destruct (s_n s =? 1).
      + apply hil_adjust_spec; auto. 
      + apply hil_lb_loop_spec; auto.
        * apply Hok; auto.
        * unfold lb_fuel. fold (slcm s). nia. }
  destruct Hlb as [s1 [c1 [-> [O1 C1]]]]. destruct (sl_pruneSubtract s1) as [s2 c2] eqn:Ep.
  destruct (hil_prune_spec s1 s2 c2 O1) as [O2 C2]; auto.
  { rewrite (sv_n _ _ C1). auto. }
  exists s2, (c1 || c2). split; auto. split; auto. eapply sv_trans; eauto.
Qed.

Lemma hil_st_simplify_spec : forall c s, slice_ok s -> 0 < s_n s ->
  exists s', hil_st_simplify c s = Some s' /\ slice_ok s' /\ same_val s s'.
Proof.
  intros c s Hok Hn. unfold hil_st_simplify. destruct (c_simp c).
  - destruct (hil_simplify_spec s Hok Hn) as [s' [ch [-> H]]]. exists s'. auto.
  - destruct (c_split c).
    + exists s. split; auto. split; auto. apply sv_refl.
    + unfold hil_adjustMultiply.
      destruct (hil_adjust_spec (S (exp_sum (s_n s) (i_lcm (s_n s) (s_I s)))) s false Hok (Nat.lt_succ_diag_r _)) as [s' [ch [-> H]]].
      exists s'. auto.
Qed.
