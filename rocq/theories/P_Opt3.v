(** Simplification with bounds loses only terms that cannot improve on the best value. *)
From Coq Require Import List Arith Bool ZArith Lia Permutation.
Import ListNotations.
From Verif Require Import Spec Spec_Slice Spec_Run M_Term M_Ideal M_Slice M_Partition M_Msm P_Term P_Ideal P_Msm1 P_Msm2 P_Msm3 P_Msm4 P_Msm5
  P_Indep P_Proj P_Split P_Process M_Api M_Opt P_Opt1 P_Opt2.

(** every exponent met is an index of the grader's table *)
Definition inr (g : grader) (s : slice) : Prop :=
  forall v, v < s_n s -> 1 <= (s_q s) @ v /\ (s_q s) @ v + (slcm s) @ v <= S (getMaxExponent g v).
Lemma shr_inr : forall g s s', shr s s' -> inr g s -> inr g s'.
Proof. intros g s s' [A B] H v Hv. rewrite A in Hv. specialize (B v Hv). specialize (H v Hv). lia. Qed.

Definition one_ok (c : config) (s : slice) : Prop :=
  s_n s = 1 -> c_simp c = false -> is_label c = false -> (slcm s) @ 0 <= 1.
Lemma shr_one : forall c s s', shr s s' -> one_ok c s -> one_ok c s'.
Proof. intros c s s' [A B] H E1 E2 E3. rewrite A in E1. specialize (H E1 E2 E3). specialize (B 0 ltac:(lia)). lia. Qed.

Section Red.
Variable g : grader.
Variable beat : Z.

Record red (s s' : slice) : Prop := mkRed {
  rd_ok : slice_ok s'; rd_ndl : sndl s'; rd_shr : shr s s'; rd_mu : smu s' <= smu s;
  rd_sub : forall m, con s' m -> con s m;
  rd_lost : forall m, con s m -> con s' m \/ (deg g m <= beat)%Z }.

Lemma red_trans : forall a b c, red a b -> red b c -> red a c.
Proof.
  intros a b c [A1 A2 A3 A4 A5 A6] [B1 B2 B3 B4 B5 B6]. constructor; auto; [eapply shr_trans; eauto|lia|].
  intros m Hm. destruct (A6 m Hm) as [H|H]; auto.
Qed.
Lemma red_same : forall s s', slice_ok s' -> sndl s' -> shr s s' -> same_con s s' -> red s s'.
Proof.
  intros s s' A B C D. constructor; auto; [apply (sc_mu _ _ D)| |]; intros m Hm; [|left]; apply (sc_con _ _ D); auto.
Qed.
Lemma red_touch : forall s, slice_ok s -> sndl s -> red s (sl_touch s).
Proof.
  intros s A B. destruct (touch_nonbase_ok s A B) as [O1 [D1 [M1 C1]]]. constructor; auto; [apply shr_touch|lia| |]; intros m Hm; [|left]; apply C1; auto.
Qed.
Lemma inv_touch : forall c s, inv c s -> inv c (sl_touch s).
Proof.
  intros c s [A [B [C D]]]. destruct (touch_nonbase_ok s A B) as [O1 [D1 _]]. destruct (touch_facts s) as [E1 [E2 [E3 _]]].
  unfold inv, base_pre in *. rewrite E1, E2, E3. auto.
Qed.
Lemma inv_clear : forall c s, slice_ok s -> 0 < s_n s -> inv c (sl_clear s).
Proof.
  intros c s A Hn. destruct (clear_ok s A) as [O1 D1]. split; auto. split; auto. cbn. split; [split; [intros X; change (s_n s = 0) in X; exfalso; lia|split; [intros _ h []|]]|].
  - intros _. split; [left; auto|intros _ h []].
  - intros _ _ v h _ [].
Qed.
Lemma inv_nil : forall c s, slice_ok s -> sndl s -> 0 < s_n s -> s_I s = [] -> inv c s.
Proof.
  intros c s A B Hn E. split; auto. split; auto. unfold base_pre. rewrite E. cbn. split; [split; [intros; exfalso; lia|split; [intros _ h []|]]|].
  - intros _. split; [left; auto|intros _ h []].
  - intros _ _ v h _ [].
Qed.
Lemma red_clear : forall s, slice_ok s -> 0 < s_n s -> (forall m, con s m -> (deg g m <= beat)%Z) -> red s (sl_clear s).
Proof.
  intros s A Hn H. destruct (clear_ok s A) as [O1 D1]. constructor; auto; [apply shr_clear| |].
  - unfold smu. apply (mu_le _ _ _ _ _ _ (fun m => m)); auto.
    simpl. intros m [Hl [Hb _]]. specialize (Hb 0 Hn). unfold i_lcm in Hb. simpl in Hb. rewrite t_identity_nth in Hb. lia.
  - intros m [m' [[Hm _] _]]. exfalso. simpl in Hm. eapply msm_nil; eauto.
Qed.

Lemma simplifyB_red : forall c s, slice_ok s -> sndl s -> 0 < s_n s -> one_ok c s ->
  exists s' ch, st_simplifyB c s = Some (s', ch) /\ inv c s' /\ red s s'.
Proof.
  intros c s A B Hn H1. destruct (st_simplify_spec c s A B Hn) as [s' [E [Hi Hs]]].
  { intros E1 E2 E3 h Hh. specialize (H1 E1 E2 E3). pose proof (i_lcm_ge (s_n s) (s_I s) h 0 ltac:(lia) Hh). unfold slcm in H1. lia. }
  rewrite st_simplifyB_fst in E. destruct (st_simplifyB c s) as [[s2 ch]|] eqn:E2; [|discriminate]. injection E as ->.
  exists s', ch. split; auto. split; auto. apply red_same; try apply Hi; auto. eapply st_simplifyB_shr; eauto.
Qed.

Lemma con_within : forall s m v, con s m -> v < s_n s -> (s_q s) @ v <= m @ v /\ m @ v < (s_q s) @ v + (slcm s) @ v.
Proof.
  intros s m v [m' [[Hm _] ->]] Hv. rewrite t_product_nth by auto. pose proof (msm_lt_lcm _ _ _ v Hm Hv). unfold slcm. lia.
Qed.

Definition exact_dom (s : slice) (dom : term) : Prop :=
  forall v, v < s_n s -> 1 <= (slcm s) @ v /\ dom @ v = (s_q s) @ v + (slcm s) @ v - 1.

Lemma getDominator_spec : forall c s, slice_ok s -> sndl s -> 0 < s_n s ->
  match o_getDominator s with
  | (s1, None) => inv c s1 /\ red s s1
  | (s1, Some dom) => s1 = sl_touch s /\ exact_dom s1 dom
  end.
Proof.
  intros c s A B Hn. unfold o_getDominator. cbv zeta. destruct (touch_facts s) as [E1 [E2 [E3 [E4 _]]]]. pose proof (touch_lcm s A) as L.
  pose proof (touch_ok s A) as A1. rewrite E1.
  destruct (existsb _ _) eqn:Ex.
  - apply existsb_seq in Ex. destruct Ex as [v [Hv Ev]]. apply Nat.eqb_eq in Ev. rewrite L in Ev.
    split; [apply inv_clear; auto; lia|]. apply red_trans with (sl_touch s); [apply red_touch; auto|].
    apply red_clear; auto; [lia|]. intros m Hm. apply (proj1 (con_touch s m)) in Hm. pose proof (con_within s m v Hm Hv). unfold slcm in *. lia.
  - split; auto. intros v Hv. rewrite E1 in Hv. rewrite tabulate_nth by auto. unfold slcm. rewrite E1, E2, L.
    split; auto. pose proof (existsb_false_all _ _ Ex v ltac:(apply in_seq; lia)) as X. cbv beta in X. apply Nat.eqb_neq in X. rewrite L in X. lia.
Qed.
End Red.

Section Loop.
Variable oc : oconfig.
Variable n : nat.
Let g := oc_g oc.
Let c := oc_c oc.
Hypothesis Hg : gr_ok n g.
Hypothesis Hn : 0 < n.
Variable beat : Z.

(** an upper bound for everything in the slice, not necessarily tight *)
Definition loose_dom (s : slice) (dom : term) : Prop :=
  forall v, v < s_n s -> dom @ v <= getMaxExponent g v /\ (s_q s) @ v + (slcm s) @ v <= S (dom @ v) /\ (s_q s) @ v <= S (dom @ v).

Lemma loop_elim : oc_bound oc <> UseBoundToEliminateAndSimplify -> forall fuel (first : bool) s dom,
  (if first then 2 else 1) <= fuel -> s_n s = n -> slice_ok s -> sndl s -> one_ok c s -> inr g s -> loose_dom s dom ->
  exists s', o_loop fuel oc beat first s dom = Some s' /\ inv c s' /\ red g beat s s'.
Proof.
  intros Hb. induction fuel as [|fuel IH]; intros first s dom Hf Es A B H1 Hi Hd; [destruct first; lia|].
  cbn [o_loop]. fold g.
  assert (Hr : forall v, v < n -> 1 <= (s_q s) @ v /\ (s_q s) @ v <= S (dom @ v) /\ dom @ v <= getMaxExponent g v).
  { intros v Hv. rewrite <- Es in Hv. specialize (Hi v Hv). specialize (Hd v Hv). lia. }
  rewrite (getUpperBound_some n g (s_q s) dom Hg Hr). cbn [bind].
  destruct (Z.leb_spec (ubs g (s_q s) dom (seq 0 n)) beat) as [L|L].
  { eexists. split; [reflexivity|]. split; [apply inv_clear; auto; lia|]. apply red_clear; auto; [lia|]. intros m Hm.
    pose proof (upper_bound n g (s_q s) dom Hg Hr m) as U. assert (within n (s_q s) dom m).
    { intros v Hv. rewrite <- Es in Hv. pose proof (con_within s m v Hm Hv). specialize (Hd v Hv). lia. }
    specialize (U H). lia. }
  assert (X : exists s', bind (st_simplifyB c s) (fun r => let (s1, changed) := r in
              if first && changed then o_loop fuel oc beat false s1 dom else Some s1) = Some s' /\ inv c s' /\ red g beat s s').
  { destruct (simplifyB_red g beat c s A B ltac:(lia) H1) as [s1 [ch [E [I1 R1]]]]. rewrite E. cbn [bind].
    destruct (first && ch) eqn:Ef; [|exists s1; auto]. apply andb_true_iff in Ef. destruct Ef as [-> ->].
    pose proof (rd_shr _ _ _ _ R1) as S1. destruct (IH false s1 dom) as [s' [E' [I' R']]]; try (apply R1).
    - lia.
    - destruct S1. lia.
    - apply (shr_one c s); auto.
    - apply (shr_inr g s); auto.
    - intros v Hv. destruct S1 as [S1 S2]. rewrite S1 in Hv. specialize (S2 v Hv). specialize (Hd v Hv). lia.
    - exists s'. split; auto. split; auto. eapply red_trans; eauto. }
  destruct (oc_bound oc); [exact X|exact X|congruence].
Qed.

Lemma relevant_change : forall oldDiv oldDom newDiv newDom l, o_relevant g oldDiv oldDom newDiv newDom l = true ->
  exists v, In v l /\ ~ (oldDiv @ v = newDiv @ v /\ oldDom @ v = newDom @ v).
Proof.
  intros a b a' b'. induction l as [|v l IH]; cbn [o_relevant]; intros H; [discriminate|].
  destruct ((a @ v =? a' @ v) && (b @ v =? b' @ v)) eqn:E.
  - destruct (IH H) as [w [Hw X]]. exists w. split; [right|]; auto.
  - exists v. split; [left; auto|]. intros [E1 E2]. rewrite E1, E2, !Nat.eqb_refl in E. discriminate.
Qed.

Lemma exact_loose : forall s dom, inr g s -> exact_dom s dom -> loose_dom s dom.
Proof. intros s dom Hi H v Hv. specialize (H v Hv). specialize (Hi v Hv). lia. Qed.
Lemma exact_range : forall s dom, s_n s = n -> inr g s -> exact_dom s dom ->
  forall v, v < n -> 1 <= (s_q s) @ v /\ (s_q s) @ v <= S (dom @ v) /\ dom @ v <= getMaxExponent g v.
Proof. intros s dom Es Hi H v Hv. rewrite <- Es in Hv. specialize (H v Hv). specialize (Hi v Hv). lia. Qed.

Lemma boundSimplify_spec : forall s dom, s_n s = n -> slice_ok s -> sndl s -> inr g s -> exact_dom s dom ->
  exists r, o_boundSimplify g beat (ubs g (s_q s) dom (seq 0 n)) s dom = Some r /\
    match r with None => True | Some s1 => red g beat s s1 end.
Proof.
  intros s dom Es A B Hi He. pose proof (exact_range s dom Es Hi He) as Hr.
  assert (Hq : forall v, v < n -> (s_q s) @ v <= dom @ v).
  { intros v Hv. rewrite <- Es in Hv. specialize (He v Hv). lia. }
  assert (Hw : forall m, con s m -> within n (s_q s) dom m).
  { intros m Hm v Hv. rewrite <- Es in Hv. pose proof (con_within s m v Hm Hv). specialize (He v Hv). lia. }
  unfold o_boundSimplify. destruct (getInner_spec n g (s_q s) dom Hg Hr beat Hq) as [r [E Hs]]. rewrite E. cbn [bind].
  destruct r as [p|].
  - destruct Hs as [Lp [Hp Hlost]]. eexists. split; [reflexivity|]. cbv iota beta. rewrite <- Es in Lp.
    destruct (msm_innerSlice s p) as [si ci] eqn:Ei. cbn [fst]. destruct (msm_innerSlice_spec s p si ci A B Lp Ei) as [I1 [I2 [I3 _]]].
    pose proof (inner_con s p si) as IC. constructor; auto.
    + apply (shr_inner s p si I3). intros v Hv. specialize (He v Hv). rewrite Es in Hv. specialize (Hp v Hv). lia.
    + apply (inner_mu_le s p si I3).
    + intros m Hm. apply (IC m I3 (ok_q s A) Lp) in Hm. destruct Hm as [m' [X [_ ->]]]. exists m'. auto.
    + intros m Hm. destruct Hm as [m' [X ->]] eqn:Em. destruct (le_n_dec (s_n s) p m') as [Y|Y].
      * left. apply (IC _ I3 (ok_q s A) Lp). exists m'. auto.
      * right. apply Hlost; [apply Hw; auto|].
        destruct (existsb (fun v => m' @ v <? p @ v) (seq 0 n)) eqn:Ex.
        -- apply existsb_seq in Ex. destruct Ex as [v [Hv Ev]]. apply Nat.ltb_lt in Ev. exists v. split; auto.
           rewrite t_product_nth by lia. lia.
        -- exfalso. apply Y. intros v Hv. rewrite Es in Hv. pose proof (existsb_false_all _ _ Ex v ltac:(apply in_seq; lia)) as Z. cbv beta in Z.
           apply Nat.ltb_ge in Z. lia.
  - clear Hs E. rewrite (go_n n g Hg). destruct (getOuter_spec n g (s_q s) dom Hg Hr beat Hq) as [r [E Hs]]. rewrite E. cbn [bind].
    destruct r as [[v e]|]; [|exists None; auto]. destruct Hs as [Hv [He1 Hlost]]. eexists. split; [reflexivity|]. cbv iota beta.
    set (p := t_set (s_n s) (t_identity (s_n s)) v e). assert (Lp : length p = s_n s) by apply t_set_length.
    assert (Pp : forall w, w < s_n s -> p @ w = if w =? v then e else 0) by (intros w Hw'; unfold p; rewrite t_set_nth, t_identity_nth; auto).
    destruct (msm_outerSlice_spec s p A B Lp) as [O1 [O2 O3]].
    { exists v. rewrite Es. split; auto. rewrite Pp, Nat.eqb_refl by lia. lia. }
    constructor; auto.
    + apply (shr_outer s p). auto.
    + unfold smu. apply (mu_le _ _ _ _ _ _ (fun m => m)); auto. intros m Hm. apply (out_B _ _ _ O3); auto.
    + intros m Hm. apply (outer_con s p _ m O3) in Hm. destruct Hm as [m' [X [_ ->]]]. exists m'. auto.
    + intros m [m' [X ->]]. destruct (le_n_dec (s_n s) p m') as [Y|Y].
      * right. apply Hlost; [apply Hw; exists m'; auto|]. rewrite t_product_nth by lia. specialize (Y v ltac:(lia)).
        rewrite Pp, Nat.eqb_refl in Y by lia. lia.
      * left. apply (outer_con s p _ _ O3). exists m'. auto.
Qed.

Lemma relevant_smaller : forall s s' dom dom', s_n s = n -> shr s s' -> exact_dom s dom -> exact_dom s' dom' ->
  o_relevant g (s_q s) dom (s_q s') dom' (seq 0 (gr_n g)) = true -> exp_sum n (slcm s') < exp_sum n (slcm s).
Proof.
  intros s s' dom dom' Es [S1 S2] E1 E2 H. rewrite (go_n n g Hg) in H. apply relevant_change in H. destruct H as [v [Hv Hc]]. apply in_seq in Hv.
  apply exp_sum_lt with v; [|lia|].
  - intros w Hw. rewrite <- Es in Hw. specialize (S2 w Hw). lia.
  - specialize (S2 v ltac:(lia)). specialize (E1 v ltac:(lia)). specialize (E2 v ltac:(lia)). lia.
Qed.

Lemma loop_simp : oc_bound oc = UseBoundToEliminateAndSimplify -> forall fuel first s dom,
  exp_sum n (slcm s) < fuel -> s_n s = n -> slice_ok s -> sndl s -> one_ok c s -> inr g s -> exact_dom s dom ->
  exists s', o_loop fuel oc beat first s dom = Some s' /\ inv c s' /\ red g beat s s'.
Proof.
  intros Hb. induction fuel as [|fuel IH]; intros first s dom Hf Es A B H1 Hi He; [lia|].
  cbn [o_loop]. fold g c. pose proof (exact_range s dom Es Hi He) as Hr.
  rewrite (getUpperBound_some n g (s_q s) dom Hg Hr). cbn [bind].
  destruct (Z.leb_spec (ubs g (s_q s) dom (seq 0 n)) beat) as [L|L].
  { eexists. split; [reflexivity|]. split; [apply inv_clear; auto; lia|]. apply red_clear; auto; [lia|]. intros m Hm.
    pose proof (upper_bound n g (s_q s) dom Hg Hr m) as U. assert (within n (s_q s) dom m).
    { intros v Hv. rewrite <- Es in Hv. pose proof (con_within s m v Hm Hv). specialize (He v Hv). lia. }
    specialize (U H). lia. }
  rewrite Hb. cbv zeta.
  (* the recursive call *)
  assert (Hrec : forall s1 dom1, red g beat s s1 -> exact_dom s1 dom1 ->
     o_relevant g (s_q s) dom (s_q s1) dom1 (seq 0 (gr_n g)) = true ->
     exists s', o_loop fuel oc beat false s1 dom1 = Some s' /\ inv c s' /\ red g beat s s').
  { intros s1 dom1 R1 E1 Hrel. pose proof (rd_shr _ _ _ _ R1) as S1.
    pose proof (relevant_smaller s s1 dom dom1 Es S1 He E1 Hrel).
    destruct (IH false s1 dom1) as [s' [E' [I' R']]]; try (apply R1); auto.
    - lia.
    - destruct S1. lia.
    - apply (shr_one c s); auto.
    - apply (shr_inr g s); auto.
    - exists s'. split; auto. split; auto. eapply red_trans; eauto. }
  (* the usual simplification *)
  assert (Husual : forall s1, red g beat s s1 -> exists s',
     bind (st_simplifyB c s1) (fun r => let (s2, changed) := r in
       if changed then match o_getDominator s2 with
          | (s3, None) => Some s3
          | (s3, Some dom3) => if o_relevant g (s_q s) dom (s_q s3) dom3 (seq 0 (gr_n g)) then o_loop fuel oc beat false s3 dom3 else Some s3
          end
       else Some s2) = Some s' /\ inv c s' /\ red g beat s s').
  { intros s1 R1. pose proof (rd_shr _ _ _ _ R1) as S1. assert (En1 : s_n s1 = n) by (destruct S1; lia).
    destruct (simplifyB_red g beat c s1 (rd_ok _ _ _ _ R1) (rd_ndl _ _ _ _ R1) ltac:(lia) (shr_one c s s1 S1 H1)) as [s2 [ch [E2 [I2 R2]]]].
    rewrite E2. cbn [bind]. pose proof (red_trans _ _ _ _ _ R1 R2) as R12. destruct ch; [|exists s2; auto].
    assert (En2 : s_n s2 = n) by (pose proof (rd_shr _ _ _ _ R12) as [? _]; lia).
    pose proof (getDominator_spec g beat c s2 (rd_ok _ _ _ _ R2) (rd_ndl _ _ _ _ R2) ltac:(lia)) as G.
    destruct (o_getDominator s2) as [s3 [dom3|]].
    - destruct G as [-> G]. assert (R3 : red g beat s (sl_touch s2)) by (eapply red_trans; [exact R12|apply red_touch; apply R2]).
      destruct (o_relevant g (s_q s) dom (s_q (sl_touch s2)) dom3 (seq 0 (gr_n g))) eqn:Er; [apply Hrec; auto|].
      exists (sl_touch s2). split; auto. split; auto. apply inv_touch; auto.
    - exists s3. split; auto. split; [apply G|]. eapply red_trans; [exact R12|apply G]. }
  destruct (boundSimplify_spec s dom Es A B Hi He) as [r [Er Hs]]. rewrite Er. cbn [bind]. destruct r as [s1|].
  - assert (En1 : s_n s1 = n) by (pose proof (rd_shr _ _ _ _ Hs) as [? _]; lia).
    pose proof (getDominator_spec g beat c s1 (rd_ok _ _ _ _ Hs) (rd_ndl _ _ _ _ Hs) ltac:(lia)) as G.
    destruct (o_getDominator s1) as [s1' [dom1|]].
    + destruct G as [-> G]. assert (R3 : red g beat s (sl_touch s1)) by (eapply red_trans; [exact Hs|apply red_touch; apply Hs]).
      destruct (o_relevant g (s_q s) dom (s_q (sl_touch s1)) dom1 (seq 0 (gr_n g))) eqn:Erel; [apply Hrec; auto|].
      apply Husual; auto.
    + exists s1'. split; auto. split; [apply G|]. eapply red_trans; [exact Hs|apply G].
  - apply Husual. constructor; auto. apply shr_refl.
Qed.
End Loop.

(** simplify *)
Record ored (g : grader) (st : ostate) (s s' : slice) : Prop := mkOred {
  or_shr : shr s s'; or_mu : smu s' <= smu s;
  or_sub : forall m, con s' m -> con s m;
  or_lost : forall m, con s m -> con s' m \/ (o_sols st <> [] /\ (deg g m <= o_beat st)%Z) }.

Lemma simplify_o : forall oc n st s, gr_ok n (oc_g oc) -> 0 < n -> s_n s = n -> slice_ok s -> sndl s -> one_ok (oc_c oc) s ->
  inr (oc_g oc) s -> exists s', o_simplify oc st s = Some s' /\ inv (oc_c oc) s' /\ ored (oc_g oc) st s s'.
Proof.
  intros oc n st s Hg Hn Es A B H1 Hi. unfold o_simplify. destruct (s_I s) as [|h t] eqn:EI.
  { exists s. split; auto. split; [apply inv_nil; auto; lia|]. constructor; auto. apply shr_refl. }
  assert (Usual : exists s', bind (st_simplifyB (oc_c oc) s) (fun r => Some (fst r)) = Some s' /\ inv (oc_c oc) s' /\ ored (oc_g oc) st s s').
  { destruct (st_simplify_spec (oc_c oc) s A B ltac:(lia)) as [s' [E [I1 S1]]].
    { intros E1 E2 E3 x Hx. specialize (H1 E1 E2 E3). pose proof (i_lcm_ge (s_n s) (s_I s) x 0 ltac:(lia) Hx). unfold slcm in H1. lia. }
    rewrite st_simplifyB_fst in E. destruct (st_simplifyB (oc_c oc) s) as [[s2 ch]|] eqn:E2; [|discriminate]. injection E as ->.
    exists s'. split; auto. split; auto. constructor.
    - eapply st_simplifyB_shr; eauto; lia.
    - apply (sc_mu _ _ S1).
    - intros m Hm. apply (sc_con _ _ S1); auto.
    - intros m Hm. left. apply (sc_con _ _ S1); auto. }
  destruct (o_sols st) as [|t0 ts] eqn:Eso; [destruct (oc_bound oc); exact Usual|].
  assert (Hbound : exists s', match o_getDominator s with
          | (s1, None) => Some s1
          | (s1, Some dom) =>
              o_loop (S (S (exp_sum (s_n s1) (i_lcm (s_n s1) (s_I s1))))) oc (o_beat st) true s1 dom
          end = Some s' /\ inv (oc_c oc) s' /\ red (oc_g oc) (o_beat st) s s').
  { pose proof (getDominator_spec (oc_g oc) (o_beat st) (oc_c oc) s A B ltac:(lia)) as G.
    destruct (o_getDominator s) as [s1 [dom|]]; [|exists s1; destruct G; auto]. destruct G as [-> G].
    pose proof (red_touch (oc_g oc) (o_beat st) s A B) as R. pose proof (rd_shr _ _ _ _ R) as S1. destruct (touch_facts s) as [E1 [E2 _]].
    assert (Hex : forall b, oc_bound oc = b -> exists s', o_loop (S (S (exp_sum (s_n (sl_touch s)) (i_lcm (s_n (sl_touch s)) (s_I (sl_touch s)))))) oc (o_beat st) true (sl_touch s) dom = Some s' /\
       inv (oc_c oc) s' /\ red (oc_g oc) (o_beat st) (sl_touch s) s').
    { intros b Hb. destruct b.
      - apply (loop_elim oc n Hg Hn); auto; try apply R; try congruence; [lia|apply (shr_one _ s); auto|apply (shr_inr _ s); auto|].
        apply (exact_loose oc n Hn); auto. apply (shr_inr _ s); auto.
      - apply (loop_elim oc n Hg Hn); auto; try apply R; try congruence; [lia|apply (shr_one _ s); auto|apply (shr_inr _ s); auto|].
        apply (exact_loose oc n Hn); auto. apply (shr_inr _ s); auto.
      - apply (loop_simp oc n Hg Hn); auto; try apply R; [|lia|apply (shr_one _ s); auto|apply (shr_inr _ s); auto].
        unfold slcm. rewrite E1, E2, Es. lia. }
    destruct (Hex _ eq_refl) as [s' [E' [I' R']]]. exists s'. split; auto. split; auto. eapply red_trans; eauto. }
  destruct Hbound as [s' [E' [I' [R1 R2 R3 R4 R5 R6]]]].
  assert (Hres : exists s', match o_getDominator s with
          | (s1, None) => Some s1
          | (s1, Some dom) =>
              o_loop (S (S (exp_sum (s_n s1) (i_lcm (s_n s1) (s_I s1))))) oc (o_beat st) true s1 dom
          end = Some s' /\ inv (oc_c oc) s' /\ ored (oc_g oc) st s s').
  { exists s'. split; auto. split; auto. constructor; auto. intros m Hm. destruct (R6 m Hm); auto. right. split; auto. rewrite Eso. discriminate. }
  destruct (oc_bound oc); [exact Usual|exact Hres|exact Hres].
Qed.
