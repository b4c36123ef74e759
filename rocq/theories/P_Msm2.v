(** Invariant of slices and the effect of innerSlice / outerSlice. *)
From Coq Require Import List Arith Bool Lia Permutation.
Import ListNotations.
From Verif Require Import M_Term M_Ideal M_Slice P_Term P_Ideal P_Msm1.

Record slice_ok (s : slice) : Prop := mkOk {
  ok_wfI : wf (s_n s) (s_I s);
  ok_wfS : wf (s_n s) (s_S s);
  ok_minI : minl (s_n s) (s_I s);
  ok_minS : minl (s_n s) (s_S s);
  ok_q : length (s_q s) = s_n s;
  ok_lcm : s_upd s = true -> s_lcm s = i_lcm (s_n s) (s_I s);
  ok_norm : normalized (s_n s) (s_S s) (s_I s);
  ok_hint : 0 < s_n s -> s_hint s < s_n s }.

Definition ndl (n : nat) (I : ideal) : Prop :=
  full n (i_lcm n I) -> forall g, In g I -> doubleLcm n (i_lcm n I) g = false.
Definition sndl (s : slice) : Prop := ndl (s_n s) (s_I s).

Definition sker (s : slice) (m : term) : Prop := ker (s_n s) (s_I s) (s_S s) m.

(** the standard monomials of I and S in the open box below the lcm *)
Definition inB (n : nat) (I S : ideal) (m : term) : Prop :=
  length m = n /\ (forall v, v < n -> m @ v < (i_lcm n I) @ v) /\ ~ inI n I m /\ ~ inI n S m.
Definition sB (s : slice) (m : term) : Prop := inB (s_n s) (s_I s) (s_S s) m.

Lemma ker_inB : forall n I S m, ker n I S m -> inB n I S m.
Proof.
  intros n I S m [Hm Hs]. split; [apply Hm|]. split; [|split; auto; apply Hm].
  intros v Hv. apply msm_lt_lcm; auto.
Qed.

(** ** touch *)
Lemma touch_facts : forall s, s_n (sl_touch s) = s_n s /\ s_I (sl_touch s) = s_I s /\
  s_S (sl_touch s) = s_S s /\ s_q (sl_touch s) = s_q s /\ s_hint (sl_touch s) = s_hint s /\
  s_upd (sl_touch s) = true.
Proof. intros s. unfold sl_touch. destruct (s_upd s) eqn:E; simpl; auto 10. Qed.

Lemma touch_lcm : forall s, slice_ok s -> s_lcm (sl_touch s) = i_lcm (s_n s) (s_I s).
Proof. intros s H. unfold sl_touch. destruct (s_upd s) eqn:E; simpl; auto. apply (ok_lcm s H E). Qed.

Lemma touch_ok : forall s, slice_ok s -> slice_ok (sl_touch s).
Proof.
  intros s H. pose proof (touch_lcm s H) as Hl. unfold sl_touch in *.
  destruct (s_upd s) eqn:E; auto. destruct H. constructor; simpl in *; auto.
Qed.

(** ** colon without killed exponents *)
Lemma is_colon_nokill : forall n I p J, wf n I -> minl n I -> is_colon n I p J ->
  (forall g v, In g I -> v < n -> g @ v = 0 \/ p @ v < g @ v) ->
  forall g, In g I -> In (t_colon n g p) J.
Proof.
  intros n I p J Hw Hm [_ [_ [H1 H2]]] Hk g Hg. destruct (H2 g Hg) as [k [Hk1 Hle]].
  destruct (H1 k Hk1) as [g' [Hg' ->]].
  assert (g' = g).
  { apply Hm; auto. intros v Hv. specialize (Hle v Hv). rewrite !t_colon_nth in Hle by auto.
    specialize (Hk g' v Hg' Hv). lia. }
  subst; auto.
Qed.

Lemma length_eq_all : forall n I p J, wf n I -> minl n I -> is_colon n I p J -> length J = length I ->
  forall g, In g I -> In (t_colon n g p) J.
Proof.
  intros n I p J Hw Hm [[Hnd _] [_ [H1 _]]] Hl g Hg.
  assert (Hi : incl J (map (fun g => t_colon n g p) I)).
  { intros k Hk. destruct (H1 k Hk) as [g' [Hg' ->]]. apply (in_map (fun g => t_colon n g p)); auto. }
  assert (Hi2 : incl (map (fun g => t_colon n g p) I) J).
  { apply NoDup_length_incl; auto. rewrite map_length. lia. }
  apply Hi2. apply (in_map (fun g => t_colon n g p)); auto.
Qed.

Lemma i_lcm_colon_le : forall n I p J v, v < n ->
  (forall k, In k J -> exists g, In g I /\ k = t_colon n g p) ->
  (i_lcm n J) @ v <= (i_lcm n I) @ v - p @ v.
Proof.
  intros n I p J v Hv H. apply i_lcm_lub; auto. intros k Hk. destruct (H k Hk) as [g [Hg ->]].
  rewrite t_colon_nth by auto. pose proof (i_lcm_ge n I g v Hv Hg). lia.
Qed.

Lemma i_lcm_colon_eq : forall n I p J,
  (forall k, In k J -> exists g, In g I /\ k = t_colon n g p) ->
  (forall g, In g I -> In (t_colon n g p) J) ->
  i_lcm n J = t_colon n (i_lcm n I) p.
Proof.
  intros n I p J H1 H2. apply term_ext with n; auto using i_lcm_length, t_colon_length.
  intros v Hv. rewrite t_colon_nth by auto. apply Nat.le_antisymm.
  - apply i_lcm_colon_le; auto.
  - destruct (Nat.eq_dec ((i_lcm n I) @ v) 0) as [E|]; [lia|].
    destruct (i_lcm_attained n I v Hv ltac:(lia)) as [g [Hg E]]. rewrite <- E.
    rewrite <- t_colon_nth with (n := n) by auto. apply i_lcm_ge; auto.
Qed.

(** ** normalize *)
Lemma normalize_spec : forall n I S upd I' upd' rem,
  norm_loop n S I upd false = (I', upd', rem) -> wf n I -> minl n I ->
  wf n I' /\ minl n I' /\ incl I' I /\ normalized n S I' /\
  (forall m, ker n I' S m <-> ker n I S m) /\
  (forall m, inB n I' S m -> inB n I S m) /\
  (upd' = true -> I' = I /\ upd = true) /\ length I' <= length I.
Proof.
  intros n I S upd I' upd' rem H Hw Hm. destruct (norm_loop_spec _ _ _ _ _ _ _ _ H) as [f [-> [N [R [U L]]]]].
  split. { intros g Hg. apply filter_In in Hg. apply Hw; tauto. }
  split. { apply minl_filter; auto. }
  split. { apply incl_filter. }
  split; auto. split. { intros m. apply norm_ker; auto. }
  split; auto.
  intros m [Hl [Hb [HI HS]]]. split; auto. split.
  - intros v Hv. specialize (Hb v Hv). pose proof (i_lcm_incl n (filter f I) I v Hv (incl_filter _ _)). lia.
  - split; auto. intros [g [Hg Hle]]. destruct (f g) eqn:E.
    + apply HI. exists g. split; auto. apply filter_In; auto.
    + destruct (R g Hg E) as [s [Hs Hd]]. apply HS. exists s. split; auto. eapply sdiv_le_m; eauto.
Qed.

(** ** removeDoubleLcm *)
Lemma dl_inB : forall n I S m, inB n (filter (fun g => negb (doubleLcm n (i_lcm n I) g)) I) S m -> inB n I S m.
Proof.
  intros n I S m [Hl [Hb [HI HS]]]. set (f := fun g => negb (doubleLcm n (i_lcm n I) g)) in *.
  assert (Hb' : forall v, v < n -> m @ v < (i_lcm n I) @ v).
  { intros v Hv. specialize (Hb v Hv). pose proof (i_lcm_incl n (filter f I) I v Hv (incl_filter _ _)). lia. }
  split; auto. split; auto. split; auto. intros [g [Hg Hle]]. destruct (f g) eqn:E.
  - apply HI. exists g. split; auto. apply filter_In; auto.
  - unfold f in E. apply negb_false_iff in E. apply doubleLcm_iff in E.
    destruct E as [a [b [Ha [Hb2 [Hne [Ea Eb]]]]]]. specialize (Hle a Ha). specialize (Hb' a Ha). lia.
Qed.

Record sub_rel (s s' : slice) : Prop := mkSub {
  sub_n : s_n s' = s_n s;
  sub_S : s_S s' = s_S s;
  sub_q : s_q s' = s_q s;
  sub_I : incl (s_I s') (s_I s);
  sub_ker : forall m, sker s' m <-> sker s m;
  sub_B : forall m, sB s' m -> sB s m }.

Lemma sub_refl : forall s, sub_rel s s.
Proof. intros s. constructor; auto using incl_refl. intros; tauto. Qed.
Lemma sub_trans : forall a b c, sub_rel a b -> sub_rel b c -> sub_rel a c.
Proof.
  intros a b c [A1 A2 A3 A4 A5 A6] [B1 B2 B3 B4 B5 B6]. constructor; try congruence.
  - eapply incl_tran; eauto.
  - intros m. rewrite B5. apply A5.
  - auto.
Qed.

Lemma touch_sub : forall s, sub_rel s (sl_touch s).
Proof.
  intros s. destruct (touch_facts s) as [A [B [C [D [E F]]]]].
  constructor; auto; unfold sker, sB; rewrite ?A, ?B, ?C; auto using incl_refl. intros; tauto.
Qed.

Lemma filter_same : forall {A} (f : A -> bool) l, (forall x, In x l -> f x = true) -> filter f l = l.
Proof.
  induction l as [|a l IH]; intros H; simpl; auto. rewrite H by (left; auto). f_equal. apply IH.
  intros; apply H; right; auto.
Qed.

Lemma existsb_false_all : forall {A} (f : A -> bool) l, existsb f l = false -> forall x, In x l -> f x = false.
Proof.
  intros A f l H x Hx. destruct (f x) eqn:E; auto. exfalso.
  assert (existsb f l = true) by (apply existsb_exists; exists x; auto). congruence.
Qed.

Lemma rdl_loop_spec : forall fuel s, slice_ok s -> length (s_I s) < fuel ->
  slice_ok (fst (rdl_loop fuel s)) /\ sub_rel s (fst (rdl_loop fuel s)) /\
  (forall g, In g (s_I (fst (rdl_loop fuel s))) ->
     doubleLcm (s_n s) (i_lcm (s_n s) (s_I (fst (rdl_loop fuel s)))) g = false) /\
  (snd (rdl_loop fuel s) = false -> s_I (fst (rdl_loop fuel s)) = s_I s).
Proof.
  induction fuel as [|fuel IH]; intros s Hok Hf; [lia|]. cbn [rdl_loop]. cbv zeta.
  destruct (touch_facts s) as [A [B [C [D [E F]]]]]. pose proof (touch_lcm s Hok) as L.
  pose proof (touch_ok s Hok) as Hok1. pose proof (touch_sub s) as Hsub1.
  set (s1 := sl_touch s) in *. unfold i_removeIf. cbv iota beta.
  destruct (existsb (doubleLcm (s_n s1) (s_lcm s1)) (s_I s1)) eqn:Ex.
  - cbn [fst snd].
    set (I' := filter (fun g => negb (doubleLcm (s_n s1) (s_lcm s1) g)) (s_I s1)).
    set (s2 := mkSlice (s_n s1) I' (s_S s1) (s_q s1) (s_lcm s1) false (s_hint s1)).
    assert (Hi : incl I' (s_I s1)) by apply incl_filter.
    assert (Hok2 : slice_ok s2).
    { destruct Hok1. constructor; simpl; auto; try congruence.
      - intros g Hg. apply ok_wfI0; auto.
      - apply minl_filter; auto.
      - intros x g Hx Hg. apply ok_norm0; auto. }
    assert (Hsub2 : sub_rel s1 s2).
    { constructor; simpl; auto; unfold sker, sB; simpl; unfold I'; rewrite L, A, B.
      - intros m. unfold ker. rewrite dl_msm. tauto.
      - intros m. apply dl_inB. }
    assert (Hlt : length (s_I s2) < fuel).
    { simpl. assert (length I' < length (s_I s1)).
      { apply existsb_exists in Ex. destruct Ex as [g [Hg Eg]]. apply filter_length_lt with g; auto.
        rewrite Eg; auto. }
      rewrite B in H. lia. }
    destruct (IH s2 Hok2 Hlt) as [P1 [P2 [P3 P4]]].
    split; auto. split; [|split; [|congruence]].
    + eapply sub_trans; [exact Hsub1|]. eapply sub_trans; eauto.
    + simpl in P3. rewrite A in P3. exact P3.
  - cbn [fst snd]. split; auto. split; auto. split; [|auto].
    intros g Hg. rewrite B, <- L. rewrite <- A. apply (existsb_false_all _ _ Ex). auto.
Qed.

Lemma removeDoubleLcm_spec : forall s, slice_ok s ->
  slice_ok (fst (msm_removeDoubleLcm s)) /\ sub_rel s (fst (msm_removeDoubleLcm s)) /\
  sndl (fst (msm_removeDoubleLcm s)) /\
  (snd (msm_removeDoubleLcm s) = false -> s_I (fst (msm_removeDoubleLcm s)) = s_I s).
Proof.
  intros s Hok. unfold msm_removeDoubleLcm. destruct (s_I s) as [|g I] eqn:E.
  - simpl. split; auto. split; [apply sub_refl|]. split; auto. unfold sndl, ndl. rewrite E. intros _ g [].
  - rewrite <- E. destruct (rdl_loop_spec (S (length (s_I s))) s Hok ltac:(lia)) as [P1 [P2 [P3 P4]]].
    split; auto. split; auto. split; auto. unfold sndl, ndl. rewrite (sub_n _ _ P2). intros _ h Hh. apply P3; auto.
Qed.

(** ** innerSlice *)
Record inner_rel (s : slice) (p : term) (s' : slice) : Prop := mkInner {
  in_n : s_n s' = s_n s;
  in_q : s_q s' = t_product (s_n s) (s_q s) p;
  in_I : forall k, In k (s_I s') -> exists g, In g (s_I s) /\ k = t_colon (s_n s) g p;
  in_S : forall k, In k (s_S s') -> exists g, In g (s_S s) /\ k = t_colon (s_n s) g p;
  in_ker : forall m, length m = s_n s -> (sker s' m <-> sker s (t_product (s_n s) m p));
  in_B : forall m, sB s' m -> sB s (t_product (s_n s) m p) }.

(** nothing killed, and every generator survives *)
Record unchanged_rel (s : slice) (p : term) (s' : slice) : Prop := mkUnch {
  un_I : forall g v, In g (s_I s) -> v < s_n s -> g @ v = 0 \/ p @ v < g @ v;
  un_S : forall g v, In g (s_S s) -> v < s_n s -> g @ v = 0 \/ p @ v < g @ v;
  un_all : forall g, In g (s_I s) -> In (t_colon (s_n s) g p) (s_I s');
  un_allS : forall g, In g (s_S s) -> In (t_colon (s_n s) g p) (s_S s') }.

Lemma colon_inB : forall n I S J T p m, is_colon n I p J -> is_colon n S p T ->
  inB n J T m -> inB n I S (t_product n m p).
Proof.
  intros n I S J T p m HI HS [Hl [Hb [H1 H2]]]. split; [apply t_product_length|]. split; [|split].
  - intros v Hv. rewrite t_product_nth by auto. specialize (Hb v Hv).
    pose proof (i_lcm_colon_le n I p J v Hv (proj1 (proj2 (proj2 HI)))). lia.
  - rewrite <- (is_colon_inI n I p J HI). auto.
  - rewrite <- (is_colon_inI n S p T HS). auto.
Qed.

Lemma ndl_colon : forall n I J p,
  (forall k, In k J -> exists g, In g I /\ k = t_colon n g p) ->
  (forall g, In g I -> In (t_colon n g p) J) -> ndl n I -> ndl n J.
Proof.
  intros n I J p H1 H2 Hn Hf k Hk. rewrite (i_lcm_colon_eq n I p J H1 H2) in *.
  destruct (H1 k Hk) as [g [Hg ->]].
  assert (Hfull : full n (i_lcm n I)).
  { intros v Hv. specialize (Hf v Hv). rewrite t_colon_nth in Hf by auto. lia. }
  specialize (Hn Hfull g Hg). apply not_true_false in Hn. apply not_true_false. intros E. apply Hn.
  apply doubleLcm_iff in E. apply doubleLcm_iff. destruct E as [v [w [Hv [Hw [Hne [E1 E2]]]]]].
  exists v, w. repeat (split; auto); rewrite !t_colon_nth in * by auto.
  - specialize (Hf v Hv). rewrite t_colon_nth in Hf by auto. lia.
  - specialize (Hf w Hw). rewrite t_colon_nth in Hf by auto. lia.
Qed.

Lemma sl_innerSlice_spec : forall s p s' ch, slice_ok s -> length p = s_n s ->
  sl_innerSlice s p = (s', ch) ->
  slice_ok s' /\ inner_rel s p s' /\ (ch = false -> unchanged_rel s p s') /\
  (s_upd s' = true -> forall g, In g (s_I s) -> In (t_colon (s_n s) g p) (s_I s')).
Proof.
  intros s p s' ch Hok Hp H. unfold sl_innerSlice in H. cbv zeta in H.
  destruct Hok as [WI WS MI MS Q LC N HT]. set (n := s_n s) in *.
  pose proof (minimizer_colonTerm_spec n (s_I s) p WI MI Hp) as CI.
  pose proof (minimizer_colonTerm_spec n (s_S s) p WS MS Hp) as CS.
  unfold i_colonReminimize in H.
  destruct (minimizer_colonTerm n (s_I s) p) as [I1 c1]. destruct (minimizer_colonTerm n (s_S s) p) as [S1 c2].
  cbn [fst snd] in CI, CS. destruct CI as [CI [FI LI]]. destruct CS as [CS [FS LS]].
  assert (KI : c1 = false -> forall g v, In g (s_I s) -> v < n -> g @ v = 0 \/ p @ v < g @ v).
  { intros E g v Hg Hv. destruct (Nat.eq_dec (g @ v) 0); auto. destruct (Nat.lt_ge_cases (p @ v) (g @ v)); auto.
    exfalso. assert (c1 = true) by (apply FI; exists g, v; repeat split; auto; lia). congruence. }
  assert (KS : c2 = false -> forall g v, In g (s_S s) -> v < n -> g @ v = 0 \/ p @ v < g @ v).
  { intros E g v Hg Hv. destruct (Nat.eq_dec (g @ v) 0); auto. destruct (Nat.lt_ge_cases (p @ v) (g @ v)); auto.
    exfalso. assert (c2 = true) by (apply FS; exists g, v; repeat split; auto; lia). congruence. }
  destruct (c1 || c2) eqn:Ec.
  - (* changed *)
    unfold sl_normalize in H. cbn [s_n s_I s_S s_q s_lcm s_upd s_hint] in H.
    destruct (norm_loop n S1 I1 (s_upd s) false) as [[I2 upd2] rem] eqn:EN. cbn [fst s_n s_I s_S s_q s_lcm s_upd s_hint] in H.
    destruct (normalize_spec _ _ _ _ _ _ _ EN (proj1 (proj2 CI)) (proj1 CI)) as [W2 [M2 [Inc2 [N2 [K2 [B2 [U2 L2]]]]]]].
    assert (HI2 : forall k, In k I2 -> exists g, In g (s_I s) /\ k = t_colon n g p).
    { intros k Hk. apply (proj1 (proj2 (proj2 CI))). auto. }
    assert (Hpn : exists v, v < n /\ 0 < p @ v).
    { apply orb_true_iff in Ec. destruct Ec as [E|E].
      - apply FI in E. destruct E as [g [v [_ [Hv Hx]]]]. exists v. split; auto; lia.
      - apply FS in E. destruct E as [g [v [_ [Hv Hx]]]]. exists v. split; auto; lia. }
    assert (Hhint : t_firstNonZero n p < n).
    { destruct (t_firstNonZero_spec n p) as [[H1 _]|[_ H1]]; auto.
      destruct Hpn as [v [Hv Hx]]. rewrite H1 in Hx by auto. lia. }
    assert (Hrel : forall l u h, inner_rel s p (mkSlice n I2 S1 (t_product n (s_q s) p) l u h)).
    { intros l u h. constructor; simpl; auto; unfold sker, sB; simpl; fold n.
      - apply CS.
      - intros m Hm. rewrite K2. apply ker_inner; auto.
      - intros m Hm. eapply colon_inB; eauto. }
    assert (Hcount : length I2 = length (s_I s) -> forall g, In g (s_I s) -> In (t_colon n g p) I2).
    { intros Hl. assert (El : length I1 = length (s_I s)).
      { apply Nat.le_antisymm; [|rewrite <- Hl; exact L2].
        rewrite <- (map_length (fun g => t_colon n g p) (s_I s)). apply NoDup_incl_length; [apply CI|].
        intros k Hk. destruct (proj1 (proj2 (proj2 CI)) k Hk) as [g [Hg ->]].
        apply (in_map (fun g => t_colon n g p)); auto. }
      assert (I2all : incl I1 I2).
      { apply NoDup_length_incl; [apply M2| |exact Inc2]. rewrite El, Hl. apply Nat.le_refl. }
      intros g Hg. apply I2all. exact (length_eq_all n (s_I s) p I1 WI MI CI El g Hg). }
    destruct (Nat.eqb_spec (length I2) (length (s_I s))) as [El|El]; injection H as <- <-.
    + split; [|split; [|split]]; auto; try congruence.
      * constructor; simpl; auto.
        -- apply CS.
        -- apply CS.
        -- apply t_product_length.
        -- intros Hu. destruct (U2 Hu) as [_ Hu0]. rewrite (LC Hu0). symmetry.
           apply i_lcm_colon_eq; auto.
    + split; [|split; [|split]]; auto; simpl; try congruence.
      constructor; simpl; auto; try congruence.
      * apply CS.
      * apply CS.
      * apply t_product_length.
  - (* unchanged *)
    apply orb_false_iff in Ec. destruct Ec as [-> ->]. cbn [s_I s_S s_q s_lcm s_upd s_hint] in H.
    rewrite (LI eq_refl), Nat.eqb_refl in H. injection H as <- <-.
    assert (HA : forall g, In g (s_I s) -> In (t_colon n g p) I1).
    { apply is_colon_nokill; auto. }
    assert (HAS : forall g, In g (s_S s) -> In (t_colon n g p) S1).
    { apply is_colon_nokill; auto. }
    split; [|split; [|split]]; auto.
    + constructor; simpl; auto.
      * apply CI.
      * apply CS.
      * apply CI.
      * apply CS.
      * apply t_product_length.
      * intros Hu. rewrite (LC Hu). symmetry. apply i_lcm_colon_eq; auto. apply CI.
      * intros x k Hx Hk [D1 [v [Hv D2]]].
        destruct (proj1 (proj2 (proj2 CS)) x Hx) as [x0 [Hx0 ->]].
        destruct (proj1 (proj2 (proj2 CI)) k Hk) as [g [Hg ->]].
        apply (N x0 g Hx0 Hg). split.
        -- intros w Hw. specialize (D1 w Hw). rewrite !t_colon_nth in D1 by auto.
           specialize (KS eq_refl x0 w Hx0 Hw). lia.
        -- exists v. split; auto. rewrite t_colon_nth in D2 by auto. lia.
    + constructor; simpl; auto; unfold sker, sB; simpl; fold n.
      * apply CI.
      * apply CS.
      * intros m Hm. apply ker_inner; auto.
      * intros m Hm. eapply colon_inB; eauto.
    + intros _. constructor; simpl; auto.
Qed.

Lemma inner_sub : forall s p s1 s2, inner_rel s p s1 -> sub_rel s1 s2 -> inner_rel s p s2.
Proof.
  intros s p s1 s2 [A1 A2 A3 A4 A5 A6] [B1 B2 B3 B4 B5 B6]. constructor; try congruence.
  - intros k Hk. apply A3. auto.
  - rewrite B2. auto.
  - intros m Hm. rewrite B5. auto.
  - auto.
Qed.

Lemma msm_innerSlice_spec : forall s p s' ch, slice_ok s -> sndl s -> length p = s_n s ->
  msm_innerSlice s p = (s', ch) ->
  slice_ok s' /\ sndl s' /\ inner_rel s p s' /\ (ch = false -> unchanged_rel s p s').
Proof.
  intros s p s' ch Hok Hd Hp H. unfold msm_innerSlice in H.
  destruct (sl_innerSlice s p) as [s1 c1] eqn:E. destruct (sl_innerSlice_spec s p s1 c1 Hok Hp E) as [O1 [R1 [U1 A1]]].
  destruct (s_upd s1) eqn:Eu.
  - injection H as <- <-. split; auto. split; auto. unfold sndl in *. rewrite (in_n _ _ _ R1).
    apply ndl_colon with (s_I s) p; auto. apply R1.
  - destruct (removeDoubleLcm_spec s1 O1) as [O2 [S2 [D2 F2]]].
    destruct (msm_removeDoubleLcm s1) as [s2 rem]. cbn [fst snd] in *. injection H as <- <-.
    split; auto. split; auto. split; [eapply inner_sub; eauto|].
    intros Hc. apply orb_false_iff in Hc. destruct Hc as [-> ->].
    destruct (U1 eq_refl) as [V1 V2 V3 V4]. constructor; auto.
    + rewrite (F2 eq_refl). auto.
    + rewrite (sub_S _ _ S2). auto.
Qed.

(** ** outerSlice *)
Record outer_rel (s : slice) (p : term) (s' : slice) : Prop := mkOuter {
  out_n : s_n s' = s_n s;
  out_q : s_q s' = s_q s;
  out_I : incl (s_I s') (s_I s);
  out_ker : forall m, sker s' m <-> sker s m /\ ~ le_n (s_n s) p m;
  out_B : forall m, sB s' m -> sB s m /\ ~ le_n (s_n s) p m }.

Lemma insertReminimize_spec : forall n S p, wf n S -> minl n S -> length p = n ->
  let S' := i_insertReminimize n S p in
  wf n S' /\ minl n S' /\ (forall x, In x S' -> In x S \/ x = p) /\
  (forall m, inI n S' m <-> inI n S m \/ le_n n p m).
Proof.
  intros n S p Hw Hm Hp S'. unfold S', i_insertReminimize.
  destruct (i_contains n S p) eqn:E.
  - apply i_contains_iff in E. repeat (split; auto). intros [H|H]; auto. eapply inI_mono; eauto.
  - assert (HE : ~ inI n S p) by (rewrite <- i_contains_iff; congruence).
    unfold i_insert, i_removeMultiples. set (F := filter _ S).
    assert (HF : forall x, In x F <-> In x S /\ ~ le_n n p x).
    { intros x. unfold F. rewrite filter_In, negb_true_iff, not_true_false, t_divides_iff. tauto. }
    split; [|split; [|split]].
    + intros x Hx. apply in_app_or in Hx. destruct Hx as [Hx|[<-|[]]]; auto. apply Hw, HF; auto.
    + apply minl_snoc.
      * apply minl_filter; auto.
      * intros k Hk Hle. apply HE. exists k. split; auto. apply HF; auto.
      * intros k Hk. apply HF in Hk. tauto.
    + intros x Hx. apply in_app_or in Hx. destruct Hx as [Hx|[<-|[]]]; auto. left. apply HF; auto.
    + intros m. split.
      * intros [g [Hg Hle]]. apply in_app_or in Hg. destruct Hg as [Hg|[<-|[]]]; auto.
        left. exists g. split; auto. apply HF; auto.
      * intros [[g [Hg Hle]]|Hle].
        -- destruct (t_divides n p g) eqn:Ed.
           ++ apply t_divides_iff in Ed. exists p. split; [apply in_or_app; right; left; auto|]. eapply le_n_trans; eauto.
           ++ exists g. split; auto. apply in_or_app. left. apply HF. split; auto. rewrite <- t_divides_iff. congruence.
        -- exists p. split; auto. apply in_or_app; right; left; auto.
Qed.

Lemma sl_outerSlice_spec : forall s p, slice_ok s -> length p = s_n s ->
  (exists v, v < s_n s /\ 0 < p @ v) ->
  slice_ok (sl_outerSlice s p) /\ outer_rel s p (sl_outerSlice s p) /\
  (s_upd (sl_outerSlice s p) = true -> s_I (sl_outerSlice s p) = s_I s).
Proof.
  intros s p Hok Hp Hpn. destruct Hok as [WI WS MI MS Q LC N HT]. unfold sl_outerSlice.
  set (n := s_n s) in *. set (I1 := i_removeStrictMultiples n (s_I s) p).
  set (S1 := if 1 <? t_sizeOfSupport n p then i_insertReminimize n (s_S s) p else s_S s).
  assert (Hinc : incl I1 (s_I s)) by apply incl_filter.
  destruct (insertReminimize_spec n (s_S s) p WS MS Hp) as [A1 [A2 [A3 A4]]].
  assert (HI1 : forall g, In g I1 -> ~ sdiv_n n p g).
  { intros g Hg. unfold I1, i_removeStrictMultiples in Hg. apply filter_In in Hg.
    rewrite <- t_strictlyDivides_iff. destruct Hg as [_ Hg]. apply negb_true_iff in Hg. congruence. }
  assert (HS1 : forall x, In x S1 -> In x (s_S s) \/ x = p).
  { intros x. unfold S1. destruct (1 <? t_sizeOfSupport n p); auto. }
  assert (HS1I : forall m, inI n S1 m -> inI n (s_S s) m \/ le_n n p m).
  { intros m. unfold S1. destruct (1 <? t_sizeOfSupport n p); auto. intros; apply A4; auto. }
  assert (HS1J : forall m, inI n (s_S s) m -> inI n S1 m).
  { intros m. unfold S1. destruct (1 <? t_sizeOfSupport n p); auto. intros; apply A4; auto. }
  assert (Hnp : forall m, (forall v, v < n -> m @ v < (i_lcm n I1) @ v) -> ~ inI n S1 m -> ~ le_n n p m).
  { intros m Hb Hs Hle. unfold S1 in Hs. destruct (Nat.ltb_spec 1 (t_sizeOfSupport n p)) as [Hsz|Hsz].
    - apply Hs. apply A4; auto.
    - assert (E1 : t_sizeOfSupport n p = 1).
      { destruct (Nat.eq_dec (t_sizeOfSupport n p) 0) as [E0|]; [|lia].
        destruct Hpn as [v [Hv Hx]]. pose proof (proj1 (t_sizeOfSupport_0 n p) E0 v Hv). lia. }
      apply t_sizeOfSupport_1 in E1. destruct E1 as [v [Hv [Hx Hz]]].
      specialize (Hle v Hv). specialize (Hb v Hv).
      destruct (i_lcm_attained n I1 v Hv ltac:(lia)) as [g [Hg Eg]].
      apply (HI1 g Hg). split.
      + intros w Hw. destruct (Nat.eq_dec w v) as [->|Hne]; [lia|left; auto].
      + exists v. split; auto. lia. }
  assert (HremI : forall m, ~ le_n n p m -> (msm n I1 m <-> msm n (s_I s) m)).
  { intros m Hm. apply msm_remove_strict; auto. }
  set (u := if length I1 =? length (s_I s) then s_upd s else false).
  assert (HU : u = true -> I1 = s_I s /\ s_upd s = true).
  { unfold u. destruct (Nat.eqb_spec (length I1) (length (s_I s))) as [E|]; [|congruence].
    intros Hu. split; auto. unfold I1, i_removeStrictMultiples. apply filter_same.
    apply filter_length_all. exact E. }
  split; [|split].
  - constructor; simpl; fold n.
    + intros g Hg. apply WI. auto.
    + unfold S1. destruct (1 <? t_sizeOfSupport n p); auto.
    + apply minl_filter; auto.
    + unfold S1. destruct (1 <? t_sizeOfSupport n p); auto.
    + auto.
    + intros Hu. destruct (HU Hu) as [-> Hu0]. auto.
    + intros x g Hx Hg. destruct (HS1 x Hx) as [Hx'| ->]; auto.
    + intros _. destruct (t_firstNonZero_spec n p) as [[H1 _]|[_ H1]]; auto.
      destruct Hpn as [v [Hv Hx]]. rewrite H1 in Hx by auto. lia.
  - constructor; simpl; auto; unfold sker, sB; simpl; fold n.
    + intros m. split.
      * intros Hk. assert (Hm : ~ le_n n p m).
        { destruct Hk as [Hk1 Hk2]. apply Hnp; auto. intros v Hv. apply msm_lt_lcm; auto. }
        destruct Hk as [Hk1 Hk2]. split; auto. split; [apply HremI; auto|auto].
      * intros [[Hk1 Hk2] Hm]. split; [apply HremI; auto|]. intros H. apply HS1I in H. tauto.
    + intros m [Hl [Hb [H1 H2]]]. assert (Hm : ~ le_n n p m) by (apply Hnp; auto). split; auto.
      split; auto. split.
      * intros v Hv. specialize (Hb v Hv). pose proof (i_lcm_incl n I1 (s_I s) v Hv Hinc). lia.
      * split; auto. intros [g [Hg Hle]]. destruct (t_strictlyDivides n p g) eqn:Ed.
        -- apply t_strictlyDivides_iff in Ed. apply Hm. eapply sdiv_le_m; eauto.
        -- apply H1. exists g. split; auto. apply filter_In. rewrite Ed. auto.
  - simpl. intros Hu. apply HU; auto.
Qed.

Lemma msm_outerSlice_spec : forall s p, slice_ok s -> sndl s -> length p = s_n s ->
  (exists v, v < s_n s /\ 0 < p @ v) ->
  slice_ok (msm_outerSlice s p) /\ sndl (msm_outerSlice s p) /\ outer_rel s p (msm_outerSlice s p).
Proof.
  intros s p Hok Hd Hp Hpn. unfold msm_outerSlice. cbv zeta.
  destruct (sl_outerSlice_spec s p Hok Hp Hpn) as [O1 [R1 U1]].
  destruct (s_upd (sl_outerSlice s p)) eqn:E.
  - split; auto. split; auto. unfold sndl. rewrite (U1 eq_refl), (out_n _ _ _ R1). exact Hd.
  - destruct (removeDoubleLcm_spec _ O1) as [O2 [S2 [D2 F2]]]. split; auto. split; auto.
    destruct R1 as [A1 A2 A3 A4 A5], S2 as [B1 B2 B3 B4 B5 B6]. constructor; try congruence.
    + eapply incl_tran; eauto.
    + intros m. rewrite B5. auto.
    + intros m Hm. auto.
Qed.
