(** The graders of the two programs, the degree split, and the result of a run. *)
From Coq Require Import List Arith Bool ZArith Lia Permutation.
Import ListNotations.
From Verif Require Import Spec Spec_Slice Spec_Run M_Term M_Ideal M_Slice M_Partition M_Msm P_Term P_Ideal P_Bridge P_Msm1 P_Msm2 P_Msm3 P_Msm4 P_Msm5
  P_Indep P_Proj P_Split P_Process P_Run P_Valid M_Api P_Corner M_Opt P_Opt1 P_Opt2 P_Opt3 P_Opt4.

(** ** Graders *)
Definition tval (tr : translator) (v e : nat) : Z := nth e (nth v tr []) 0%Z.
Record tr_ok (n : nat) (tr : translator) : Prop := mkTrOk {
  to_len : forall v, v < n -> length (nth v tr []) <> 0;
  to_mono : forall v e e', v < n -> 1 <= e -> e <= e' -> e' < getMaxId tr v -> (tval tr v e <= tval tr v e')%Z;
  to_max : forall v e, v < n -> 1 <= e -> e < getMaxId tr v -> (tval tr v (getMaxId tr v) <= tval tr v e)%Z }.

Lemma make_row : forall w tr v, v < length w ->
  nth v (g_grades (gr_make w tr)) [] = map (Z.mul (nth v w 0%Z)) (nth v tr []).
Proof.
  intros w tr v Hv. unfold gr_make. cbn [g_grades].
  rewrite nth_indep with (d' := (fun v => map (Z.mul (nth v w 0%Z)) (nth v tr [])) 0) by (rewrite map_length, seq_length; auto).
  rewrite (map_nth (fun v => map (Z.mul (nth v w 0%Z)) (nth v tr []))), seq_nth; auto.
Qed.
Lemma make_gval : forall w tr v e, v < length w -> gval (gr_make w tr) v e = (nth v w 0 * tval tr v e)%Z.
Proof.
  intros w tr v e Hv. unfold gval, tval. rewrite make_row by auto.
  rewrite <- (map_nth (Z.mul (nth v w 0%Z))). f_equal. lia.
Qed.
Lemma make_max : forall w tr v, v < length w -> getMaxExponent (gr_make w tr) v = getMaxId tr v.
Proof. intros. unfold getMaxExponent, getMaxId. rewrite make_row, map_length; auto. Qed.
Lemma make_sign : forall w tr v, getGradeSign (gr_make w tr) v = Z.sgn (nth v w 0%Z).
Proof. intros. unfold getGradeSign, gr_make. cbn [g_signs]. change 0%Z with (Z.sgn 0) at 1. apply map_nth. Qed.
Lemma make_n : forall w tr, gr_n (gr_make w tr) = length w.
Proof. intros. unfold gr_n, gr_make. cbn [g_grades]. rewrite map_length, seq_length. auto. Qed.

Lemma make_ok : forall n w tr, length w = n -> tr_ok n tr -> gr_ok n (gr_make w tr).
Proof.
  intros n w tr Hw [A B C]. constructor.
  - rewrite make_n; auto.
  - intros v Hv. rewrite make_row, map_length by lia. auto.
  - intros v Hv. rewrite make_sign, make_max by lia. intros S. assert (0 < nth v w 0)%Z by (destruct (nth v w 0%Z); cbn in S; lia). clear S. split.
    + intros e e' H1 H2 H3. rewrite !make_gval by lia. specialize (B v e e' Hv H1 H2 H3). nia.
    + intros e H1 H2. rewrite !make_gval by lia. specialize (C v e Hv H1 H2). nia.
  - intros v Hv. rewrite make_sign, make_max by lia. intros S. assert (nth v w 0 < 0)%Z by (destruct (nth v w 0%Z); cbn in S; lia). clear S. split.
    + intros e e' H1 H2 H3. rewrite !make_gval by lia. specialize (B v e e' Hv H1 H2 H3). nia.
    + intros e H1 H2. rewrite !make_gval by lia. specialize (C v e Hv H1 H2). nia.
  - intros v Hv. rewrite make_sign. intros S e. apply (proj1 (Z.sgn_null_iff _)) in S. rewrite make_gval by lia. rewrite S. lia.
Qed.

(** ** The degree split *)
Lemma degree_fold : forall n g s, gr_ok n g -> s_n s = n -> inr g s -> s_lcm s = slcm s -> forall l best,
  (forall v, In v l -> v < n) -> exists r, foldM (degree_step g s) l best = Some r /\
   (fst best < n /\ 2 <= (slcm s) @ (fst best) -> fst r < n /\ 2 <= (slcm s) @ (fst r)) /\
   (snd best = (-1)%Z -> (fst r < n /\ 2 <= (slcm s) @ (fst r)) \/ forall v, In v l -> (slcm s) @ v <= 1).
Proof.
  intros n g s Hg Es Hi Hl. induction l as [|v l IH]; intros best Hv; cbn [foldM].
  - exists best. split; auto. split; auto. intros _. right. intros v [].
  - unfold degree_step at 1. rewrite Hl. pose proof (Hv v (or_introl eq_refl)) as Hv0.
    assert (Hv' : forall w, In w l -> w < n) by (intros; apply Hv; right; auto).
    destruct (Nat.leb_spec ((slcm s) @ v) 1) as [L|L].
    + cbn [bind]. destruct (IH best Hv') as [r [E [H1 H2]]]. exists r. split; auto. split; auto. intros Hb. destruct (H2 Hb) as [X|X]; auto. right.
      intros w [<-|Hw]; auto.
    + rewrite <- Es in Hv0. destruct (Hi v Hv0) as [Q1 Q2]. rewrite Es in Hv0.
      set (base := (s_q s) @ v) in *. set (lc := (slcm s) @ v) in *.
      assert (Hd : 1 <= lc / 2 /\ lc / 2 <= lc - 1).
      { split; [apply Nat.div_le_lower_bound; lia|]. assert (lc / 2 < lc) by (apply Nat.div_lt; lia). lia. }
      set (mid := if (base + lc / 2 =? getMaxExponent g v) && (base <? base + lc / 2) then base + lc / 2 - 1 else base + lc / 2).
      assert (Hm : base <= mid /\ mid < getMaxExponent g v).
      { unfold mid. destruct (Nat.eqb_spec (base + lc / 2) (getMaxExponent g v)); destruct (Nat.ltb_spec base (base + lc / 2)); cbn [andb]; lia. }
      cbv zeta. fold base lc. fold mid.
      rewrite (getGrade_some n g v mid Hg Hv0 ltac:(lia)). cbn [bind].
      rewrite (getGrade_some n g v base Hg Hv0 ltac:(lia)). cbn [bind].
      set (d := if (getGradeSign g v <? 0)%Z then (- (gval g v mid - gval g v base))%Z else (gval g v mid - gval g v base)%Z).
      assert (Hdiff : (0 <= d)%Z).
      { unfold d. destruct (Z.ltb_spec (getGradeSign g v) 0) as [N|N].
        - destruct (go_neg n g Hg v Hv0 N) as [P _]. specialize (P base mid Q1 ltac:(lia) ltac:(lia)). lia.
        - destruct (Z.eq_dec (getGradeSign g v) 0) as [Z0|Z0]; [rewrite !(go_zero n g Hg v Hv0 Z0); lia|].
          destruct (go_pos n g Hg v Hv0 ltac:(lia)) as [P _]. specialize (P base mid Q1 ltac:(lia) ltac:(lia)). lia. }
      destruct (IH (if (snd best <? d)%Z then (v, d) else best) Hv') as [r [E [H1 _]]]. exists r. split; auto. split.
      * intros Hb. apply H1. destruct (Z.ltb_spec (snd best) d); cbn [fst]; auto.
      * intros Hb. left. apply H1. destruct (Z.ltb_spec (snd best) d); cbn [fst]; [|lia]. split; auto.
Qed.

Lemma degree_sound : forall n g, gr_ok n g -> opivot_sound g n (graded_degree_pivot g).
Proof.
  intros n g Hg simp rnd k s0 s Es Hok Hd Hi Eb. destruct (notbase_nonbase s0 simp s Hok Hd Eb) as [-> Hnb].
  destruct (touch_nonbase_ok s0 Hok Hd) as [Hok1 [Hd1 _]]. destruct (touch_facts s0) as [E1 _].
  assert (Hi1 : inr g (sl_touch s0)) by (apply (shr_inr g s0); auto; apply shr_touch).
  set (s := sl_touch s0) in *. assert (Es1 : s_n s = n) by lia.
  unfold graded_degree_pivot. cbv zeta. rewrite Es1.
  destruct (degree_fold n g s Hg Es1 Hi1 (nb_lcm _ _ Hnb) (seq 0 n) (0, (-1)%Z)) as [r [E [_ H]]].
  { intros v Hv. apply in_seq in Hv. lia. }
  rewrite E. cbn [bind]. destruct (H eq_refl) as [[A B]|X].
  - do 3 eexists. split; [reflexivity|]. split; [apply re_refl|]. rewrite (nb_lcm _ _ Hnb), <- Es1. apply pure_legal; auto.
    + apply (nb_full _ _ Hnb).
    + lia.
    + apply Nat.div_le_lower_bound; lia.
    + apply Nat.div_lt; lia.
  - destruct (nb_big _ _ Hnb) as [v [Hv Hb]]. specialize (X v ltac:(apply in_seq; lia)). lia.
Qed.

(** ** The result of a run *)
Record optres (oc : oconfig) (n : nat) (I : ideal) (st : ostate) : Prop := mkOres {
  ors_none : o_sols st = [] -> forall d, ~ corner n I d;
  ors_in : forall t, In t (o_sols st) -> corner n I t /\ deg (oc_g oc) t = o_value st;
  ors_max : o_sols st <> [] -> forall d, corner n I d -> (deg (oc_g oc) d <= o_value st)%Z;
  ors_nodup : NoDup (o_sols st);
  ors_one : oc_all oc = false -> length (o_sols st) <= 1;
  ors_all : oc_all oc = true -> o_value st <> 0%Z -> forall d, corner n I d -> deg (oc_g oc) d = o_value st -> In d (o_sols st) }.

Lemma run_opt : forall oc rnd n I, gr_ok n (oc_g oc) -> oconf_ok oc n -> wf n I -> minl n I -> uncompressed_ok (oc_c oc) n I ->
  (forall v, v < n -> (i_lcm n I) @ v <= getMaxExponent (oc_g oc) v) ->
  exists st, o_run oc rnd n I = Some st /\ optres oc n I st.
Proof.
  intros oc rnd n I Hg Hc Hw Hm Hu Hl. destruct (Nat.eq_dec n 0) as [->|Hn].
  - pose proof (go_n 0 _ Hg) as En.
    assert (Hd : forall t, getDegree (oc_g oc) t = Some 0%Z) by (intros t; unfold getDegree; rewrite En; reflexivity).
    assert (Hd' : forall t, deg (oc_g oc) t = 0%Z) by (intros t; unfold deg; rewrite En; reflexivity).
    destruct (minl_0 I Hw Hm) as [->| ->].
    + exists (mkOst [[]] 0 0). split.
      * unfold o_run. assert (E1 : o_simplify oc ost_init (msm_initial 0 []) = Some (msm_initial 0 [])) by reflexivity.
        rewrite E1. cbn [bind]. unfold run_fuel. cbn [o_process].
        assert (E2 : forall b, exists s, msm_baseCase (msm_initial 0 []) b = (s, Base [[]])) by (intros []; eexists; vm_compute; reflexivity).
        destruct (E2 (c_simp (oc_c oc))) as [s2 E3]. rewrite E3. cbn [foldM bind]; unfold o_consume; rewrite Hd; cbn [bind ost_init o_sols o_value o_beat orb]; destruct (oc_all oc); reflexivity.
      * assert (Hco : corner 0 [] []).
        { split; auto. split; [intros; lia|]. split; [intros g []|intros; lia]. }
        constructor; cbn [o_sols o_value].
        -- discriminate.
        -- intros t [<-|[]]. auto.
        -- intros _ d _. rewrite Hd'. lia.
        -- repeat constructor; auto.
        -- auto.
        -- intros _ X. congruence.
    + exists ost_init. split.
      * unfold o_run. assert (E1 : exists s, o_simplify oc ost_init (msm_initial 0 [[]]) = Some s /\ exists s', msm_baseCase s (c_simp (oc_c oc)) = (s', Base [])).
        { unfold o_simplify. cbn [ost_init o_sols]. unfold st_simplifyB. replace (s_I (msm_initial 0 [[]])) with ([[]] : ideal) by reflexivity.
          destruct (oc_bound oc), (c_simp (oc_c oc)), (c_split (oc_c oc)); eexists; (split; [vm_compute; reflexivity|]); eexists; vm_compute; reflexivity. }
        destruct E1 as [s [E1 [s' E2]]]. rewrite E1. cbn [bind]. unfold run_fuel. cbn [o_process]. rewrite E2. reflexivity.
      * constructor; cbn [ost_init o_sols o_value].
        -- intros _ d [_ [_ [H _]]]. destruct (H [] (or_introl eq_refl)) as [v [Hv _]]. lia.
        -- intros t [].
        -- congruence.
        -- constructor.
        -- cbn. lia.
        -- congruence.
  - destruct (o_run_spec oc n rnd Hg ltac:(lia) Hc I Hw Hm Hu Hl) as [out [E [N [S1 S2]]]]. eexists. split; [exact E|].
    destruct out as [|t0 out'].
    + cbn [runl fold_left] in *. constructor; cbn [ost_init o_sols o_value].
      * intros _ d Hd. apply corner_iff in Hd. destruct Hd as [m [Hmm ->]]. destruct (S2 m Hmm) as [X|[X _]]; [destruct X|apply X; reflexivity].
      * intros t [].
      * congruence.
      * constructor.
      * cbn. lia.
      * congruence.
    + set (out := t0 :: out') in *. pose proof (runl_summary oc out (runl oc out ost_init) ltac:(discriminate) eq_refl) as [A B C D E' F G].
      set (st := runl oc out ost_init) in *. constructor.
      * congruence.
      * intros t Ht. apply B in Ht. destruct Ht as [Ht1 Ht2]. split; auto. apply corner_iff. apply S1; auto.
      * intros _ d Hd. apply corner_iff in Hd. destruct Hd as [m [Hmm ->]]. destruct (S2 m Hmm) as [X|[_ X]]; [apply C; auto|lia].
      * apply E'; auto.
      * intros Ha. destruct (F Ha). lia.
      * intros Ha Hv d Hd Ed. apply corner_iff in Hd. destruct Hd as [m [Hmm ->]]. destruct (G Ha) as [[G1 G2]|[G1 G2]]; [|congruence].
        destruct (S2 m Hmm) as [X|[_ X]]; [apply G2; auto|lia].
Qed.
