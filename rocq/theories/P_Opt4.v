(** The recursion of the optimization, and the run. *)
From Coq Require Import List Arith Bool ZArith Lia Permutation.
Import ListNotations.
From Verif Require Import Spec Spec_Slice Spec_Run M_Term M_Ideal M_Slice M_Partition M_Msm P_Term P_Ideal P_Bridge P_Msm1 P_Msm2 P_Msm3 P_Msm4 P_Msm5
  P_Indep P_Proj P_Split P_Process P_Run M_Api M_Opt P_Opt1 P_Opt2 P_Opt3.

(** ** Consuming a list of terms *)
Definition cns (all : bool) (d : Z) (st : ostate) (t : term) : ostate :=
  if (match o_sols st with [] => true | _ => false end) || (o_beat st <? d)%Z then
    if all && (d =? o_value st)%Z then mkOst (o_sols st ++ [t]) (o_value st) (o_beat st)
    else mkOst [t] d (d - (if all then 1 else 0))%Z
  else st.
Definition runl (oc : oconfig) (out : list term) (st : ostate) : ostate :=
  fold_left (fun st t => cns (oc_all oc) (deg (oc_g oc) t) st t) out st.

Lemma cns_mono : forall all d st t, o_sols st <> [] -> o_sols (cns all d st t) <> [] /\ (o_beat st <= o_beat (cns all d st t))%Z.
Proof.
  intros all d st t H. unfold cns. destruct (o_sols st) as [|x l] eqn:E; [congruence|]. cbn [orb].
  destruct (Z.ltb_spec (o_beat st) d) as [L|L]; [|rewrite E; split; [discriminate|lia]].
  destruct (all && (d =? o_value st)%Z); cbn; [split; [discriminate|lia]|]. split; [discriminate|]. destruct all; lia.
Qed.
Lemma runl_mono : forall oc out st, o_sols st <> [] -> o_sols (runl oc out st) <> [] /\ (o_beat st <= o_beat (runl oc out st))%Z.
Proof.
  intros oc. induction out as [|t out IH]; intros st H; [split; auto; reflexivity|]. cbn [runl fold_left].
  destruct (cns_mono (oc_all oc) (deg (oc_g oc) t) st t H) as [A B]. destruct (IH _ A) as [C D]. split; [exact C|]. unfold runl in D. lia.
Qed.
Lemma runl_app : forall oc a b st, runl oc (a ++ b) st = runl oc b (runl oc a st).
Proof. intros. apply fold_left_app. Qed.

Lemma consume_some : forall oc n st t, gr_ok n (oc_g oc) -> (forall v, v < n -> t @ v <= getMaxExponent (oc_g oc) v) ->
  o_consume oc st t = Some (cns (oc_all oc) (deg (oc_g oc) t) st t).
Proof.
  intros oc n st t Hg Ht. unfold o_consume. rewrite (getDegree_some n _ t Hg Ht). cbn [bind]. unfold cns.
  destruct ((match o_sols st with [] => true | _ => false end) || _); auto. destruct (oc_all oc && _); auto.
Qed.
Lemma foldM_consume : forall oc n out st, gr_ok n (oc_g oc) ->
  (forall t, In t out -> forall v, v < n -> t @ v <= getMaxExponent (oc_g oc) v) ->
  foldM (o_consume oc) out st = Some (runl oc out st).
Proof.
  intros oc n. induction out as [|t out IH]; intros st Hg H; auto. cbn [foldM].
  rewrite (consume_some oc n st t Hg (H t (or_introl eq_refl))). cbn [bind]. apply IH; auto. intros; apply H; auto. right; auto.
Qed.

(** ** Which strategies are allowed *)
Definition opivot_sound (g : grader) (n : nat) (f : pivot_rule) : Prop := forall simp rnd k s0 s, s_n s0 = n ->
  slice_ok s0 -> sndl s0 -> inr g s0 -> msm_baseCase s0 simp = (s, NotBase) ->
  exists s' p k', f rnd k s = Some (s', p, k') /\ reordered s s' /\ legal s p.
Definition oconf_ok (oc : oconfig) (n : nat) : Prop :=
  match c_split (oc_c oc) with PivotSplit f => opivot_sound (oc_g oc) n f | LabelSplit f => label_sound f end.

Section Proc.
Variables (oc : oconfig) (n : nat) (rnd : nat -> nat).
Let g := oc_g oc.
Let c := oc_c oc.
Hypothesis Hg : gr_ok n g.
Hypothesis Hn : 0 < n.
Hypothesis Hc : oconf_ok oc n.

(** [out] was consumed, and what is missing cannot improve on the result *)
Record done (s : slice) (st : ostate) (out : list term) : Prop := mkDone {
  dn_nodup : NoDup out; dn_sub : forall m, In m out -> con s m;
  dn_all : forall m, con s m -> In m out \/ (o_sols (runl oc out st) <> [] /\ (deg g m <= o_beat (runl oc out st))%Z) }.

Lemma done_same : forall s s' st out, (forall m, con s' m <-> con s m) -> done s st out -> done s' st out.
Proof. intros s s' st out H [A B C]. constructor; auto; intros m Hm; [apply H|apply C, H]; auto. Qed.

Lemma done_ored : forall s s' st0 st out, ored g st0 s s' -> (st0 = st \/ exists o, st = runl oc o st0) -> done s' st out -> done s st out.
Proof.
  intros s s' st0 st out [A B C D] H [E F G]. constructor; auto. intros m Hm. destruct (D m Hm) as [X|[X Y]]; auto. right.
  assert (Hst : o_sols st <> [] /\ (o_beat st0 <= o_beat st)%Z).
  { destruct H as [<-|[o ->]]; [split; auto; lia|]. apply runl_mono; auto. }
  destruct Hst as [S1 S2]. destruct (runl_mono oc out st S1) as [S3 S4]. split; auto. lia.
Qed.

Lemma done_union : forall s a b st oa ob, (forall m, con s m <-> con a m \/ con b m) -> (forall m, con a m -> con b m -> False) ->
  done a st oa -> done b (runl oc oa st) ob -> done s st (oa ++ ob).
Proof.
  intros s a b st oa ob H Hd [A1 A2 A3] [B1 B2 B3]. constructor.
  - apply NoDup_app_i; auto. intros m X Y. apply (Hd m); auto.
  - intros m Hm. apply in_app_iff in Hm. apply H. destruct Hm; auto.
  - intros m Hm. rewrite in_app_iff, runl_app. apply H in Hm. destruct Hm as [Hm|Hm].
    + destruct (A3 m Hm) as [X|[X Y]]; auto. right. destruct (runl_mono oc ob _ X). split; auto. lia.
    + destruct (B3 m Hm) as [X|X]; auto.
Qed.

Lemma inr_out : forall s out, s_n s = n -> inr g s -> (forall m, In m out -> con s m) ->
  forall t, In t out -> forall v, v < n -> t @ v <= getMaxExponent g v.
Proof.
  intros s out Es Hi H t Ht v Hv. rewrite <- Es in Hv. pose proof (con_within s t v (H t Ht) Hv). specialize (Hi v Hv). lia.
Qed.

Theorem o_process_spec : forall fuel s k st, inv c s -> s_n s = n -> inr g s -> n + smu s < fuel ->
  exists out k', o_process fuel oc rnd k st s = Some (runl oc out st, k') /\ done s st out.
Proof.
  induction fuel as [|fuel IH]; intros s k st Hi Es Hr Hfuel; [lia|].
  destruct Hi as [Hok [Hd [Hpre Hadj]]]. cbn [o_process]. fold c.
  destruct (msm_baseCase s (c_simp c)) as [s1 r] eqn:Eb.
  pose proof (baseCase_spec s (c_simp c) s1 r Hok Hd Hpre Eb) as HB.
  destruct r as [|out|]; [| |destruct HB].
  2:{ destruct HB as [HB1 HB2]. exists out, k.
      rewrite (foldM_consume oc n out st Hg (inr_out s out Es Hr (fun m => proj1 (HB2 m)))). split; auto.
      constructor; auto; intros m Hm; [|left]; apply HB2; auto. }
  destruct HB as [-> Hnb]. destruct (touch_nonbase_ok s Hok Hd) as [Hok1 [Hd1 [Hmu1 Hcon1]]].
  destruct (touch_facts s) as [En [EI [ES [Eq _]]]].
  assert (Hr1 : inr g (sl_touch s)) by (apply (shr_inr g s); auto; apply shr_touch).
  assert (Hem : forall st out, done (sl_touch s) st out -> done s st out) by (intros st' out; apply done_same; intros m; symmetry; apply Hcon1).
  set (s1 := sl_touch s) in *. pose proof (nb_n _ _ Hnb) as Hn2.
  assert (Hone : forall s', s_n s' = n -> one_ok c s') by (intros s' E' X; lia).
  assert (Hadj1 : is_label c = true -> adjusted (s_n s1) (s_I s1)).
  { intros Hl. destruct (c_simp c) eqn:Esi; [apply SI_adjusted, (nb_SI _ _ Hnb); auto|]. rewrite En, EI. auto. }
  unfold oconf_ok in Hc. fold c in Hc. unfold is_label in Hadj1. destruct (c_split c) as [f|f] eqn:Esp.
  - destruct (Hc (c_simp c) rnd k s s1 Es Hok Hd Hr Eb) as [s2 [p [k0 [Ef [Hre [Lp [Ppos PB]]]]]]]. rewrite Ef. cbn [bind].
    destruct (re_ok s1 s2 Hre Hok1 Hd1) as [Hok2 Hd2]. pose proof (re_same s1 s2 Hre) as Hsame. pose proof (re_n _ _ Hre) as En2.
    pose proof (shr_re _ _ Hre) as Sre.
    rewrite <- En2 in Lp, Ppos. apply (re_B s1 s2 p Hre) in PB.
    destruct (msm_innerSlice s2 p) as [si ci] eqn:Ein.
    destruct (msm_innerSlice_spec s2 p si ci Hok2 Hd2 Lp Ein) as [I1 [I2 [I3 _]]].
    destruct (msm_outerSlice_spec s2 p Hok2 Hd2 Lp Ppos) as [O1 [O2 O3]]. cbn [fst].
    assert (HB2 : sB s2 (t_identity (s_n s2))). { rewrite En2. apply (re_B s1 s2 _ Hre). apply (nb_one _ _ Hnb). }
    pose proof (inner_one_lt s2 p si I3 HB2 Ppos) as Mi. pose proof (outer_mu_lt s2 p _ O3 PB) as Mo.
    pose proof (sc_mu _ _ Hsame) as M12. pose proof (in_n _ _ _ I3) as Ni. pose proof (out_n _ _ _ O3) as No.
    assert (Hr2 : inr g s2) by (apply (shr_inr g s1); auto).
    assert (Sin : shr s2 si).
    { apply (shr_inner s2 p si I3). intros v Hv. destruct PB as [_ [X _]]. specialize (X v Hv). unfold slcm. lia. }
    pose proof (shr_outer s2 p _ O3) as Sou.
    destruct (simplify_o oc n st si Hg Hn) as [inner [Es1 [Hi1 Hsc1]]]; auto; [lia|apply Hone; lia|apply (shr_inr g s2); auto|]. rewrite Es1. cbn [bind].
    destruct (simplify_o oc n st (msm_outerSlice s2 p) Hg Hn) as [outer [Es2 [Hi2 Hsc2]]]; auto; [lia|apply Hone; lia|apply (shr_inr g s2); auto|].
    rewrite Es2. cbn [bind].
    pose proof (or_mu _ _ _ _ Hsc1). pose proof (or_mu _ _ _ _ Hsc2).
    pose proof (or_shr _ _ _ _ Hsc1) as S1. pose proof (or_shr _ _ _ _ Hsc2) as S2.
    assert (N1 : s_n inner = n) by (destruct S1; lia). assert (N2 : s_n outer = n) by (destruct S2; lia).
    assert (R1 : inr g inner) by (apply (shr_inr g si); auto; apply (shr_inr g s2); auto).
    assert (R2 : inr g outer) by (apply (shr_inr g (msm_outerSlice s2 p)); auto; apply (shr_inr g s2); auto).
    destruct (pivot_con s2 p si _ (ok_q _ Hok2) Lp I3 O3) as [C1 C2].
    assert (Fi : n + smu inner < fuel) by lia. assert (Fo : n + smu outer < fuel) by lia.
    assert (Hfin : forall st out, done s2 st out -> done s st out).
    { intros st' out' Hx. apply Hem. apply (done_same s2); auto. intros m. symmetry. apply (sc_con _ _ Hsame). }
    destruct (length (s_I inner) <? length (s_I outer)).
    + destruct (IH inner k0 st Hi1 N1 R1 Fi) as [o1 [k1 [E1 Q1]]]. rewrite E1. cbn [bind fst snd].
      destruct (IH outer k1 (runl oc o1 st) Hi2 N2 R2 Fo) as [o2 [k2 [E2 Q2]]]. rewrite E2.
      exists (o1 ++ o2), k2. split; [rewrite runl_app; auto|]. apply Hfin.
      apply done_union with si (msm_outerSlice s2 p); auto; eapply done_ored; eauto.
    + destruct (IH outer k0 st Hi2 N2 R2 Fo) as [o1 [k1 [E1 Q1]]]. rewrite E1. cbn [bind fst snd].
      destruct (IH inner k1 (runl oc o1 st) Hi1 N1 R1 Fi) as [o2 [k2 [E2 Q2]]]. rewrite E2.
      exists (o1 ++ o2), k2. split; [rewrite runl_app; auto|]. apply Hfin.
      apply done_union with (msm_outerSlice s2 p) si.
      * intros m. rewrite C1. tauto.
      * intros m A B. apply (C2 m); auto.
      * eapply done_ored; eauto.
      * eapply done_ored; eauto.
  - destruct (Hc (c_simp c) s s1 Hok Hd Eb (Hadj1 eq_refl)) as [v [Ef [Hv Hx]]]. rewrite Ef. cbn [bind].
    pose proof (labelSlices_spec (c_simp c) s1 v Hok1 Hd1 Hnb Hv Hx) as HL.
    destruct (labelSlices s1 v) as [h r] eqn:El. destruct HL as [R1 [R2 [R3 [R4 HL]]]].
    destruct (labelSlices_shr (c_simp c) s1 v h r Hok1 Hd1 Hnb Hv Hx El) as [Sr Sh].
    destruct (simplify_o oc n st r Hg Hn) as [r' [Er [Hir Hsr]]]; auto; [lia|apply Hone; lia|apply (shr_inr g s1); auto|].
    pose proof (or_mu _ _ _ _ Hsr). pose proof (or_shr _ _ _ _ Hsr) as Sr'.
    assert (Nr : s_n r' = n) by (destruct Sr'; lia).
    assert (Ir : inr g r') by (apply (shr_inr g r); auto; apply (shr_inr g s1); auto).
    assert (Fr : n + smu r' < fuel) by lia.
    destruct h as [h|].
    + destruct HL as [T1 [T2 [T3 [T4 [T5 T6]]]]].
      destruct (simplify_o oc n st h Hg Hn) as [h' [Eh [Hih Hsh]]]; auto; [lia|apply Hone; lia|apply (shr_inr g s1); auto|].
      pose proof (or_mu _ _ _ _ Hsh). pose proof (or_shr _ _ _ _ Hsh) as Sh'.
      assert (Nh : s_n h' = n) by (destruct Sh'; lia).
      assert (Ih : inr g h') by (apply (shr_inr g h); auto; apply (shr_inr g s1); auto).
      assert (Fh : n + smu h' < fuel) by lia.
      rewrite Eh. cbn [bind]. rewrite Er. cbn [bind].
      destruct (IH r' k st Hir Nr Ir Fr) as [o1 [k1 [E1 Q1]]]. rewrite E1. cbn [bind fst snd].
      destruct (IH h' k1 (runl oc o1 st) Hih Nh Ih Fh) as [o2 [k2 [E2 Q2]]]. rewrite E2.
      exists (o1 ++ o2), k2. split; [rewrite runl_app; auto|]. apply Hem.
      apply done_union with r h; auto; eapply done_ored; eauto.
    + rewrite Er. cbn [bind]. destruct (IH r' k st Hir Nr Ir Fr) as [o1 [k1 [E1 Q1]]]. rewrite E1. exists o1, k1. split; auto. apply Hem.
      apply (done_same r); [intros m; apply HL|]. eapply done_ored; eauto.
Qed.

(** the run *)
Theorem o_run_spec : forall I, wf n I -> minl n I -> uncompressed_ok c n I ->
  (forall v, v < n -> (i_lcm n I) @ v <= getMaxExponent g v) ->
  exists out, o_run oc rnd n I = Some (runl oc out ost_init) /\ NoDup out /\
    (forall d, In d out -> exists m, msm n I m /\ d = map S m) /\
    (forall m, msm n I m -> In (map S m) out \/
       (o_sols (runl oc out ost_init) <> [] /\ (deg g (map S m) <= o_beat (runl oc out ost_init))%Z)).
Proof.
  intros I Hw Hm Hu Hl. destruct (initial_spec n I Hw Hm) as [A [B [C [D [E F]]]]]. unfold o_run.
  assert (Hlc : forall v, v < n -> (slcm (msm_initial n I)) @ v <= (i_lcm n I) @ v).
  { intros v Hv. unfold slcm. rewrite C. apply i_lcm_incl; auto. }
  assert (Hi : inr g (msm_initial n I)).
  { intros v Hv. rewrite C in Hv. specialize (Hlc v Hv). specialize (Hl v Hv).
    destruct (removeDoubleLcm_spec (raw_slice n I) (raw_ok n I Hw Hm)) as [_ [Bx _]].
    change (fst (msm_removeDoubleLcm (raw_slice n I))) with (msm_initial n I) in *.
    rewrite (sub_q _ _ Bx). cbn [raw_slice s_q].
    assert (E1 : (repeat 1 n) @ v = 1).
    { clear -Hv. revert v Hv. induction n as [|k IH]; intros v Hv; [lia|]. destruct v; simpl; auto. apply IH. lia. }
    rewrite E1. lia. }
  destruct (simplify_o oc n ost_init (msm_initial n I) Hg Hn) as [s [Es [Hin Hs]]]; auto.
  { intros E1 E2 E3. rewrite C in E1. unfold uncompressed_ok, c in Hu. destruct Hu as [Hu|[Hu|[Hu|Hu]]]; [lia|congruence|congruence|].
    specialize (Hlc 0 ltac:(lia)). destruct (Nat.eq_dec ((i_lcm n I) @ 0) 0) as [Z|Z]; [lia|].
    destruct (i_lcm_attained n I 0 ltac:(lia) ltac:(lia)) as [h [Hh Eh]]. specialize (Hu h Hh). lia. }
  rewrite Es. cbn [bind]. pose proof (or_mu _ _ _ _ Hs). pose proof (or_shr _ _ _ _ Hs) as Sh.
  assert (Ns : s_n s = n) by (destruct Sh; lia).
  destruct (o_process_spec (run_fuel n I) s 0 ost_init Hin Ns (shr_inr g _ _ Sh Hi)) as [out [k' [Ep [P1 P2 P3]]]]; [unfold run_fuel; lia|].
  rewrite Ep. cbn [bind fst]. exists out. split; auto. split; auto. split.
  - intros d Hd. apply F. apply (or_sub _ _ _ _ Hs). auto.
  - intros m Hmm. apply P3. destruct (or_lost _ _ _ _ Hs (map S m)) as [X|[X _]]; auto.
    + apply F. exists m. auto.
    + exfalso. apply X. reflexivity.
Qed.
End Proc.

Lemma NoDup_snoc : forall {A} (l : list A) x, NoDup (l ++ [x]) -> NoDup l.
Proof. intros A l x H. apply NoDup_remove_1 in H. rewrite app_nil_r in H. auto. Qed.

(** ** What consuming a list amounts to *)
Section Fold.
Variable oc : oconfig.
Let d := deg (oc_g oc).

Record summary (out : list term) (st : ostate) : Prop := mkSum {
  su_ne : o_sols st <> [];
  su_sols : forall t, In t (o_sols st) -> In t out /\ d t = o_value st;
  su_max : forall t, In t out -> (d t <= o_value st)%Z;
  su_beat : (o_beat st <= o_value st)%Z;
  su_nodup : NoDup out -> NoDup (o_sols st);
  su_one : oc_all oc = false -> length (o_sols st) = 1 /\ o_beat st = o_value st;
  su_all : oc_all oc = true ->
     (o_beat st = (o_value st - 1)%Z /\ forall t, In t out -> d t = o_value st -> In t (o_sols st)) \/
     (o_value st = 0%Z /\ o_beat st = 0%Z) }.

Lemma runl_summary : forall out st, out <> [] -> st = runl oc out ost_init -> summary out st.
Proof.
  induction out as [|t out IH] using rev_ind; intros st Hne ->; [congruence|]. rewrite runl_app. cbn [runl fold_left]. fold d.
  destruct out as [|t0 out'].
  - clear IH. cbn [runl fold_left]. unfold cns, ost_init. cbn [o_sols o_beat o_value orb].
    destruct (oc_all oc && (d t =? 0)%Z) eqn:E.
    + apply andb_true_iff in E. destruct E as [E1 E2]. apply Z.eqb_eq in E2. constructor; cbn.
      * discriminate.
      * intros x [<-|[]]. auto.
      * intros x [<-|[]]. lia.
      * lia.
      * intros; repeat constructor; auto.
      * congruence.
      * intros _. right. auto.
    + constructor; cbn.
      * discriminate.
      * intros x [<-|[]]. auto.
      * intros x [<-|[]]. lia.
      * destruct (oc_all oc); lia.
      * intros; repeat constructor; auto.
      * intros ->. split; auto. lia.
      * intros ->. left. split; auto.
  - set (o := t0 :: out') in *. pose proof (IH (runl oc o ost_init) ltac:(discriminate) eq_refl) as [A B C D E F G]. clear IH.
    set (st := runl oc o ost_init) in *. unfold cns. destruct (o_sols st) as [|x l] eqn:Es; [congruence|]. cbn [orb].
    destruct (Z.ltb_spec (o_beat st) (d t)) as [L|L].
    + destruct (oc_all oc && (d t =? o_value st)%Z) eqn:Ea.
      * apply andb_true_iff in Ea. destruct Ea as [E1 E2]. apply Z.eqb_eq in E2. constructor; cbn [o_sols o_value o_beat].
        -- discriminate.
        -- intros y Hy. apply in_app_iff in Hy. rewrite in_app_iff. destruct Hy as [Hy|[<-|[]]]; [|split; [right; left; auto|auto]].
           apply B in Hy. tauto.
        -- intros y Hy. apply in_app_iff in Hy. destruct Hy as [Hy|[<-|[]]]; [auto|lia].
        -- lia.
        -- intros N. apply NoDup_app_i; [apply E; apply NoDup_snoc in N; auto|repeat constructor; auto|].
           intros y Y1 [<-|[]]. apply B in Y1. apply NoDup_remove_2 in N. apply N. rewrite app_nil_r. tauto.
        -- congruence.
        -- intros _. destruct (G E1) as [[G1 G2]|[G1 G2]]; [left|lia]. split; auto. intros y Hy Ey. apply in_app_iff in Hy. apply in_app_iff.
           destruct Hy as [Hy|[<-|[]]]; [left; auto|right; left; auto].
      * assert (Hlt : (o_value st < d t)%Z).
        { destruct (oc_all oc) eqn:Ht; [|destruct (F eq_refl); lia]. rewrite andb_true_l in Ea. apply Z.eqb_neq in Ea.
          destruct (G eq_refl) as [[G1 G2]|[G1 G2]]; lia. }
        constructor; cbn [o_sols o_value o_beat].
        -- discriminate.
        -- intros y [<-|[]]. split; auto. apply in_app_iff. right; left; auto.
        -- intros y Hy. apply in_app_iff in Hy. destruct Hy as [Hy|[<-|[]]]; [apply C in Hy; lia|lia].
        -- destruct (oc_all oc); lia.
        -- intros; repeat constructor; auto.
        -- intros ->. split; auto. lia.
        -- intros ->. left. split; auto. intros y Hy Ey. apply in_app_iff in Hy. destruct Hy as [Hy|[<-|[]]]; [apply C in Hy; lia|left; auto].
    + constructor; rewrite ?Es; auto.
      * intros y Hy. rewrite in_app_iff. apply B in Hy. tauto.
      * intros y Hy. apply in_app_iff in Hy. destruct Hy as [Hy|[<-|[]]]; [auto|lia].
      * intros N. apply E. apply NoDup_snoc in N; auto.
      * intros Ht. destruct (G Ht) as [[G1 G2]|[G1 G2]]; [left|right; auto]. split; auto.
        intros y Hy Ey. apply in_app_iff in Hy. destruct Hy as [Hy|[<-|[]]]; [auto|lia].
Qed.
End Fold.
