(** The dimension by optimization, and the degree split. *)
From Coq Require Import List Arith Bool ZArith Lia Permutation.
Import ListNotations.
From Verif Require Import Spec Spec_Slice Spec_Run Spec_Api Spec_Dim M_Term M_Ideal M_Slice M_Partition M_Msm P_Term P_Ideal P_Bridge P_Msm1 P_Msm2 P_Msm3 P_Msm4 P_Msm5
  P_Indep P_Proj P_Split P_Process P_Run P_Valid M_Api P_Corner P_Translator P_Internal P_Api P_Api3 M_Dim P_Dim P_Dim2 M_Opt Spec_Opt P_Opt1 P_Opt2 P_Opt3 P_Opt4 P_Opt5 P_Opt6 P_Opt7.

Lemma int_cover : forall n I J E, wf n I -> internal n I J -> (cover n J E <-> cover n I E).
Proof.
  intros n I J E Hw HJ. split.
  - intros H h Hh. destruct (int_nonempty n I J h HJ Hw Hh) as [g [Hg Hle]]. destruct (H g Hg) as [v [X [Y Z]]]. exists v. split; auto. split; auto.
    specialize (Hle v X). assert (0 < phi I v (g @ v)); [|lia]. apply (emb_pos n (K I) (phi I)); auto using phi_embedding. apply (int_below _ _ _ HJ); auto.
  - intros H g Hg. assert (Hi : in_ideal I (image n (phi I) g)).
    { apply (int_ideal _ _ _ HJ); [apply tabulate_length|]. exists g. split; auto. intros v Hv. rewrite image_nth; auto. }
    apply (in_ideal_iff n) in Hi; auto; [|apply tabulate_length]. destruct Hi as [h [Hh Hle]]. destruct (H h Hh) as [v [X [Y Z]]]. exists v. split; auto. split; auto.
    specialize (Hle v X). rewrite image_nth in Hle by auto. apply (emb_pos n (K I) (phi I) v); auto using phi_embedding; [apply (int_below _ _ _ HJ); auto|lia].
Qed.

Lemma radical_ids : forall n I J, internal n I J -> min_of n (radical_of n J) (co_ideal (sf_takeRadical (co_of n I J))).
Proof.
  intros n I J HJ. unfold sf_takeRadical, co_of. cbn [co_ideal co_n co_tr].
  destruct (t_isSquareFree n (i_lcm n J)) eqn:Esq.
  - rewrite t_isSquareFree_iff in Esq.
    assert (E : radical_of n J = J).
    { unfold radical_of. rewrite <- (map_id J) at 2. apply map_ext_in. intros g Hg.
      transitivity (tabulate n (fun v => g @ v)); [|apply tabulate_id; apply (int_wf _ _ _ HJ); auto]. apply tabulate_ext. intros v Hv.
      pose proof (i_lcm_ge n J g v Hv Hg). specialize (Esq v Hv). destruct (Nat.eqb_spec (g @ v) 0); lia. }
    rewrite E. split; [apply (int_minl _ _ _ HJ)|]. split; [apply incl_refl|]. intros x Hx. apply inI_self; auto.
  - assert (E : map (fun g => tabulate n (fun v => if 1 <? g @ v then 1 else g @ v)) (setInfinityPowersToZero n (tr_initialize n I) J) = radical_of n J).
    { unfold radical_of, setInfinityPowersToZero. rewrite map_map. apply map_ext_in. intros g Hg. apply tabulate_ext. intros v Hv.
      rewrite !tabulate_nth by auto. rewrite maxId_eq by auto. pose proof (int_below _ _ _ HJ g v Hg Hv).
      destruct (Nat.eqb_spec (g @ v) (K I v)); [lia|]. destruct (Nat.ltb_spec 1 (g @ v)); destruct (Nat.eqb_spec (g @ v) 0); lia. }
    rewrite E. apply i_minimize_spec.
Qed.

Lemma inner_minus : forall c n, length c = n -> (forall v, v < n -> c @ v <= 1) ->
  inner_product (repeat (-1)%Z n) c = (- Z.of_nat (support_size c))%Z.
Proof.
  intros c n <-. induction c as [|e c IH]; intros H; auto.
  cbn [length repeat inner_product]. rewrite IH by (intros v Hv; apply (H (S v)); cbn [length]; lia).
  assert (He : e <= 1) by (apply (H 0); cbn [length]; lia). unfold support_size. cbn [filter]. destruct e as [|[|e]]; cbn [Nat.ltb Nat.leb]; [lia|cbn [length]; lia|lia].
Qed.

Lemma zeroOne_K : forall n v, v < n -> K [repeat 0 n; repeat 1 n] v = 2.
Proof. intros. unfold K. rewrite U_zeroOne; auto. Qed.
Lemma zeroOne_phi : forall n v i, v < n -> i <= 1 -> phi [repeat 0 n; repeat 1 n] v i = i.
Proof. intros n v i Hv Hi. unfold phi. rewrite U_zeroOne by auto. destruct i as [|[|i]]; auto. lia. Qed.

Lemma g_sf_dimension : forall p rnd n I Q, legal_oparams p -> (n <> 1 \/ op_simp p = true) -> in_ring n I -> internal n I Q ->
  sf_computeDimension p rnd (co_of n I Q) false = api_dimension n I /\
  sf_computeDimension p rnd (co_of n I Q) true = api_codimension n I.
Proof.
  intros p rnd n I Q Hp Hs Hr HQ. pose proof Hr as Hw. apply in_ring_wf in Hw.
  destruct (p_codimension n I Hr) as [d [D1 [D2 D3]]]. rewrite D1, D3.
  assert (Hone : i_containsIdentity n Q = true <-> in_ideal I (repeat 0 n)).
  { rewrite i_containsIdentity_iff. rewrite (int_ideal _ _ _ HQ (repeat 0 n) (repeat_length 0 n)). split.
    - intros [g [Hg Hz]]. exists g. split; auto. intros v Hv. rewrite Hz, phi_0 by auto. lia.
    - intros [g [Hg Hz]]. exists g. split; auto. intros v Hv. specialize (Hz v Hv). rewrite nth_repeat in Hz.
      destruct (Nat.eq_dec (g @ v) 0); auto. pose proof (phi_lt I v 0 (g @ v) ltac:(lia) (int_below _ _ _ HQ g v Hg Hv)). lia. }
  unfold sf_computeDimension. change (co_n (co_of n I Q)) with n. change (co_ideal (co_of n I Q)) with Q.
  destruct (i_containsIdentity n Q) eqn:E1.
  { destruct D2 as [D2 _]. rewrite D2 by (apply Hone; auto). split; f_equal; lia. }
  assert (N1 : ~ in_ideal I (repeat 0 n)) by (intros H; apply Hone in H; congruence).
  pose proof (radical_ids n I Q HQ) as HJ. set (J := co_ideal (sf_takeRadical (co_of n I Q))) in *.
  assert (Eco : sf_takeRadical (co_of n I Q) = mkCommon n J (tr_initialize n [repeat 0 n; repeat 1 n])) by reflexivity.
  rewrite Eco. clear Eco. set (B := [repeat 0 n; repeat 1 n]) in *.
  assert (HwJ : wf n J). { apply (min_of_wf n (radical_of n Q) J); auto. intros g Hg. unfold radical_of in Hg. apply in_map_iff in Hg. destruct Hg as [h [<- _]]. apply tabulate_length. }
  assert (H01 : forall g v, In g J -> v < n -> g @ v <= 1).
  { intros g v Hg Hv. destruct HJ as [_ [Hi _]]. apply Hi in Hg. unfold radical_of in Hg. apply in_map_iff in Hg. destruct Hg as [h [<- _]].
    rewrite tabulate_nth by auto. destruct (_ =? 0); lia. }
  assert (Hcov : forall E, cover n J E <-> cover n I E).
  { intros E. rewrite (radical_cover n Q J E HJ). apply (int_cover n I Q); auto. }
  assert (Hind : forall V, independent_set n J V <-> independent_set n I V).
  { intros V. assert (G : forall A C, (forall E, cover n A E <-> cover n C E) -> independent_set n A V -> independent_set n C V).
    { intros A C HE HA. pose proof HA as [X1 [X2 X3]]. split; auto. split; auto. destruct (indep_cover n A V HA) as [Y _]. apply HE in Y.
      intros g Hg. destruct (Y g Hg) as [v [Z1 [Z2 Z3]]]. exists v. split; auto. split; auto. unfold inb in Z3. destruct (in_dec Nat.eq_dec v V); auto. discriminate. }
    split; apply G; auto. intros E. symmetry. auto. }
  assert (HbJ : below n (K B) J). { intros g v Hg Hv. unfold B. rewrite zeroOne_K by auto. specialize (H01 g v Hg Hv). lia. }
  assert (HIJ : forall m, length m = n -> (in_ideal J m <-> exists g, In g J /\ forall v, v < n -> phi B v (g @ v) <= m @ v)).
  { intros m Hm. rewrite (in_ideal_iff n) by auto. split; intros [g [Hg H]]; exists g; split; auto; intros v Hv; specialize (H v Hv); unfold B in *;
      rewrite zeroOne_phi in * by auto; auto. }
  assert (HbJ' : forall g v, In g J -> v < n -> g @ v < K B v) by (intros; apply HbJ; auto).
  (* the decomposition *)
  destruct (run_inf (mkConfig false true (PivotSplit median_pivot)) (fun _ => 0) n (tr_initialize n B) J (K B)) as [out [R1 [R2 R3]]]; auto.
  { apply builtin_rules. }
  { apply HJ. }
  { intros. apply maxId_eq; auto. }
  { intros. apply K_bounds. }
  { right. left. auto. }
  assert (HJ' : with_infinity n (K B) J (addPurePowersAtInfinity n (tr_initialize n B) J)) by (apply add_infinity; intros; apply maxId_eq; auto).
  assert (HD : irreducible_decomposition n J (map (comp n (K B) (phi B)) out)).
  { apply (decomp_all n (K B) (phi B) J (addPurePowersAtInfinity n (tr_initialize n B) J)); auto using phi_embedding. }
  set (D := map (comp n (K B) (phi B)) out) in *.
  assert (HD01 : forall c, In c D -> forall v, v < n -> c @ v <= 1).
  { intros c Hc v Hv. unfold D in Hc. apply in_map_iff in Hc. destruct Hc as [t [<- Ht]]. rewrite comp_nth by auto.
    destruct (Nat.eqb_spec (t @ v) (K B v)) as [|Ne]; [lia|]. apply R3 in Ht.
    pose proof (corner_le_K n (K B) J _ HbJ' HJ' t v Ht Hv). unfold B in *. rewrite zeroOne_K in * by auto. rewrite zeroOne_phi; auto; lia. }
  (* the codimension *)
  destruct D2 as [_ D2]. destruct (D2 N1) as [[V [V1 ->]] V2].
  assert (HrJ : in_ring n J) by (apply in_ring_wf; auto).
  assert (HrD : in_ring n D) by (destruct HD; auto).
  destruct (codim_of_decomp n J D V) as [[c0 [C1 C2]] C3]; auto.
  { destruct HD as [_ [_ [HD _]]]. auto. }
  { apply Hind; auto. }
  { intros W HW. apply Hind in HW. specialize (V2 W HW). lia. }
  assert (Hle : length V <= n). { destruct (indep_cover n I V V1). lia. }
  destruct (decomposition_program p rnd n B J J (repeat (-1)%Z n) false) as [L [v [P1 [P2 [P3 _]]]]]; auto.
  { apply repeat_length. }
  { apply HJ. }
  { destruct Hs; auto. }
  rewrite P1. cbn [bind snd]. destruct v as [x|].
  - destruct P2 as [Q1 [Q2 Q3]]. destruct L as [|c L]; [congruence|]. destruct (Q3 c (or_introl eq_refl)) as [[Q4 Q5] Q6].
    apply (component_iff n J D c HD) in Q4. assert (Lc : forall c, In c D -> length c = n) by (unfold in_ring in HrD; rewrite Forall_forall in HrD; auto).
    specialize (Q5 c0 (proj2 (component_iff n J D c0 HD) C1)). rewrite !inner_minus in Q5 by auto. rewrite inner_minus in Q6 by auto.
    specialize (C3 c Q4). split; f_equal; lia.
  - exfalso. destruct P2 as [_ Qn]. apply (Qn c0). apply (component_iff n J D c0 HD). auto.
Qed.

Lemma p_sf_dimension : forall p rnd n I, legal_oparams p -> (n <> 1 \/ op_simp p = true) -> in_ring n I ->
  sf_computeDimension p rnd (setIdeal false n I) false = api_dimension n I /\
  sf_computeDimension p rnd (setIdeal false n I) true = api_codimension n I.
Proof. intros. rewrite set_co. apply g_sf_dimension; auto. apply J1_internal, in_ring_wf; auto. Qed.

(** ** The degree split *)
Lemma within_inr : forall g s, in_ring (s_n s) (s_I s) -> within_ids (getMaxExponent g) s -> inr g s.
Proof.
  intros g s Hr H v Hv. unfold within_ids in H. apply (H v (slcm s) Hv). apply i_lcm_is_lcm; auto.
Qed.

Lemma p_degree_rule : forall n I l (dec : bool) simp rnd k s0 s, length l = n ->
  let tr := if dec then tr_decrement (tr_initialize n I) else tr_initialize n I in
  s_n s0 = n -> valid_slice s0 -> within_ids (getMaxId tr) s0 -> msm_baseCase s0 simp = (s, NotBase) ->
  exists s' p k', graded_degree_pivot (gr_make l tr) rnd k s = Some (s', p, k') /\ same_up_to_order s s' /\ legal_pivot s p.
Proof.
  intros n I l dec simp rnd k s0 s Hl tr Hn Hv Hw Hb. pose proof Hv as Hv'. apply valid_iff in Hv'. destruct Hv' as [Hok Hd].
  assert (Htr : tr_ok n tr) by (unfold tr; destruct dec; [apply dec_ok|]; apply init_ok).
  pose proof (make_ok n l tr Hl Htr) as Hg.
  destruct (degree_sound n _ Hg simp rnd k s0 s Hn Hok Hd) as [s' [p [k' [A [B C]]]]]; auto.
  - apply within_inr; [apply Hv|]. intros i x Hi Hx. rewrite make_max by lia. apply Hw; auto.
  - exists s', p, k'. split; auto. split; [apply reord_iff; auto|]. apply legal_iff; auto.
    destruct (notbase_nonbase s0 simp s Hok Hd Hb) as [-> _]. apply touch_ok; auto.
Qed.

Lemma p_initial_within : forall n I (dec : bool), in_ring n I ->
  let tr := if dec then tr_decrement (tr_initialize n I) else tr_initialize n I in
  let s0 := msm_initial n (co_ideal (setIdeal false n I)) in
  s_n s0 = n /\ valid_slice s0 /\ within_ids (getMaxId tr) s0.
Proof.
  intros n I dec Hr tr s0. change (co_ideal (setIdeal false n I)) with (J1 n I) in s0.
  destruct (initial_spec n (J1 n I) (J1_wf n I) (J1_minl n I)) as [A [B [C [D _]]]]. fold s0 in A, B, C, D.
  split; auto. split; [apply valid_iff; auto|].
  assert (Hk : forall v, v < n -> getMaxId tr v = K I v) by (intros v Hv; unfold tr; destruct dec; rewrite ?dec_max; apply maxId_eq; auto).
  assert (Q : s_q s0 = repeat 1 n).
  { destruct (removeDoubleLcm_spec (raw_slice n (J1 n I)) (raw_ok n (J1 n I) (J1_wf n I) (J1_minl n I))) as [_ [R _]]. exact (sub_q _ _ R). }
  intros i l Hi Hl. rewrite C in Hi. rewrite Hk by auto. apply is_lcm_i in Hl; [|apply in_ring_wf, (ok_wfI _ A)]. subst l.
  rewrite Q. assert (X : nth i (repeat 1 n) 0 = 1) by (rewrite nth_indep with (d' := 1) by (rewrite repeat_length; auto); apply nth_repeat).
  rewrite X. split; auto. rewrite C. destruct (Nat.eq_dec ((i_lcm n (s_I s0)) @ i) 0) as [Z|N]; [rewrite Z; lia|].
  destruct (i_lcm_attained n (s_I s0) i Hi ltac:(lia)) as [g [Hg Eg]]. rewrite <- Eg. pose proof (J1_below n I g i (D g Hg) Hi). lia.
Qed.
