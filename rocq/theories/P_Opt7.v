(** The two programs: maximal standard monomials and irreducible components. *)
From Coq Require Import List Arith Bool ZArith Lia Permutation.
Import ListNotations.
From Verif Require Import Spec Spec_Slice Spec_Run Spec_Api M_Term M_Ideal M_Slice M_Partition M_Msm P_Term P_Ideal P_Bridge P_Msm1 P_Msm2 P_Msm3 P_Msm4 P_Msm5
  P_Indep P_Proj P_Split P_Process P_Run P_Valid M_Api P_Corner P_Translator P_Internal P_Api P_Api3 M_Opt Spec_Opt P_Opt1 P_Opt2 P_Opt3 P_Opt4 P_Opt5 P_Opt6 P_Dim2.

(** ** Maximal standard monomials *)
Definition std_of (n : nat) (I : big_ideal) (d : term) : mono := map pred (image n (phi I) d).

Lemma std_range : forall n I J d v, internal n I J -> corner n J d -> v < n -> 0 < d @ v /\ d @ v < K I v /\ 0 < phi I v (d @ v).
Proof.
  intros n I J d v HJ [_ [Hp [_ Hl]]] Hv. assert (H1 : 0 < d @ v) by auto. assert (H2 : d @ v < K I v).
  { destruct (Hl v Hv) as [g [Hg [E _]]]. rewrite <- E. apply (int_below _ _ _ HJ); auto. }
  split; auto. split; auto. apply (emb_pos n (K I) (phi I)); auto using phi_embedding.
Qed.
Lemma std_nth : forall n I d v, v < n -> (std_of n I d) @ v = pred (phi I v (d @ v)).
Proof.
  intros n I d v Hv. unfold std_of. change ((map pred (image n (phi I) d)) @ v) with (nth v (map pred (image n (phi I) d)) (pred 0)).
  rewrite map_nth, image_nth; auto.
Qed.
Lemma std_inj : forall n I J d e, internal n I J -> corner n J d -> corner n J e -> std_of n I d = std_of n I e -> d = e.
Proof.
  intros n I J d e HJ Hd He E. apply term_ext with n; [apply Hd|apply He|]. intros v Hv.
  assert (Ev : (std_of n I d) @ v = (std_of n I e) @ v) by congruence. rewrite !std_nth in Ev by auto.
  destruct (std_range n I J d v HJ Hd Hv) as [A1 [A2 A3]]. destruct (std_range n I J e v HJ He Hv) as [B1 [B2 B3]].
  apply (emb_inj n (K I) (phi I) v); auto using phi_embedding. lia.
Qed.
Lemma standard_iff : forall n I J m, in_ring n I -> internal n I J -> (max_standard n I m <-> exists d, corner n J d /\ m = std_of n I d).
Proof.
  intros n I J m Hr HJ. pose proof Hr as Hw. apply in_ring_wf in Hw. rewrite (max_standard_msm n I m Hr). rewrite <- (msm_eqI n _ _ m (image_eqI n I J Hw HJ)).
  assert (G : msm n (map (image n (phi I)) J) m <-> corner n (map (image n (phi I)) J) (map S m)).
  { rewrite corner_iff. split; [intros H; exists m; auto|]. intros [m' [H E]].
    assert (m = m') by (rewrite <- (map_pred_S m), E; apply map_pred_S). subst; auto. }
  rewrite G, (corner_image n (K I) (phi I)) by (auto using phi_embedding, (int_below _ _ _ HJ)). split.
  - intros [d [Hd E]]. exists d. split; auto. unfold std_of. rewrite <- E. symmetry. apply map_pred_S.
  - intros [d [Hd ->]]. exists d. split; auto. unfold std_of. rewrite map_map.
    transitivity (map (fun x => x) (image n (phi I) d)); [|apply map_id]. apply map_ext_in. intros e He.
    unfold image, tabulate in He. apply in_map_iff in He. destruct He as [v [<- Hv]]. apply in_seq in Hv.
    destruct (std_range n I J d v HJ Hd ltac:(lia)) as [_ [_ X]]. lia.
Qed.

Lemma g_standard_sized : forall p rnd n I J l all, legal_oparams p -> in_ring n I -> internal n I J -> length l = n ->
  exists L v, solveStandardProgram p rnd (co_of n I J) l all = Some (block n L, v) /\
    optimum_reported (max_standard n I) l L v /\ (all = false -> length L <= 1) /\
    (all = true -> v <> Some 0%Z -> forall m, optimal (max_standard n I) l m -> In m L) /\
    sized_run p rnd n J (tr_decrement (tr_initialize n I)) l all.
Proof.
  intros p rnd n I J l all Hp Hr HJ Hl. pose proof Hr as Hw. apply in_ring_wf in Hw.
  unfold solveStandardProgram, co_of. cbn [co_n co_ideal co_tr].
  apply (program_sized p rnd n J (tr_decrement (tr_initialize n I)) l all (max_standard n I) (std_of n I)); auto.
  - apply dec_ok, init_ok.
  - apply (int_wf _ _ _ HJ).
  - apply (int_minl _ _ _ HJ).
  - destruct (Nat.eq_dec n 1) as [->|]; [|left; auto]. right. right. right. intros g Hg. apply int_one with I J; auto.
  - intros v Hv. rewrite dec_max, maxId_eq by auto. destruct (Nat.eq_dec ((i_lcm n J) @ v) 0) as [->|N]; [lia|].
    destruct (i_lcm_attained n J v Hv ltac:(lia)) as [g [Hg <-]]. pose proof (int_below _ _ _ HJ g v Hg Hv). lia.
  - intros m. apply (standard_iff n I J); auto.
  - intros d Hd. split; [unfold std_of, image; rewrite map_length; apply tabulate_length|].
    intros v Hv. destruct (std_range n I J d v HJ Hd Hv) as [A [B C]]. rewrite std_nth by auto.
    unfold getExponent. rewrite dec_row, nth_error_map, tr_nth, table_nth by auto.
    destruct (Nat.ltb_spec (d @ v) (K I v)); [|lia]. cbn [option_map]. f_equal. lia.
  - intros d e Hd He. apply (std_inj n I J); auto.
Qed.
Lemma g_standard_program : forall p rnd n I J l all, legal_oparams p -> in_ring n I -> internal n I J -> length l = n ->
  exists L v, solveStandardProgram p rnd (co_of n I J) l all = Some (block n L, v) /\
    optimum_reported (max_standard n I) l L v /\ (all = false -> length L <= 1) /\
    (all = true -> v <> Some 0%Z -> forall m, optimal (max_standard n I) l m -> In m L).
Proof.
  intros p rnd n I J l all Hp Hr HJ Hl. destruct (g_standard_sized p rnd n I J l all Hp Hr HJ Hl) as [L [v [A [B [C [D _]]]]]]. exists L, v. auto.
Qed.

Lemma p_standard_program : forall p rnd n I l all, legal_oparams p -> in_ring n I -> length l = n ->
  exists L v, solveStandardProgram p rnd (setIdeal false n I) l all = Some (block n L, v) /\
    optimum_reported (max_standard n I) l L v /\ (all = false -> length L <= 1) /\
    (all = true -> v <> Some 0%Z -> forall m, optimal (max_standard n I) l m -> In m L).
Proof. intros. rewrite set_co. apply g_standard_program; auto. apply J1_internal, in_ring_wf; auto. Qed.

Lemma p_solveStandard : forall p rnd n I l, legal_oparams p -> in_ring n I -> length l = n ->
  ((exists m, optimal (max_standard n I) l m /\ api_solveStandard p rnd n I l = Some (true, block n [m])) \/
   ((forall m, ~ max_standard n I m) /\ api_solveStandard p rnd n I l = Some (false, block n []))).
Proof.
  intros p rnd n I l Hp Hr Hl. destruct (p_standard_program p rnd n I l false Hp Hr Hl) as [L [v [E [R [One _]]]]].
  unfold api_solveStandard. rewrite E. cbn [bind fst snd]. specialize (One eq_refl). destruct v as [x|].
  - destruct R as [R1 [R2 R3]]. left. destruct L as [|m [|m' L]]; [congruence| |cbn in One; lia].
    exists m. split; auto. apply R3. left. auto.
  - destruct R as [-> R]. right. auto.
Qed.

(** ** Irreducible components *)
Lemma decomposition_incl : forall n I D D' c, irreducible_decomposition n I D -> irreducible_decomposition n I D' -> In c D ->
  exists c', In c' D' /\ forall m, length m = n -> in_irreducible c' m -> in_irreducible c m.
Proof.
  intros n I D D' c [A1 [A2 [A3 A4]]] [B1 [B2 [B3 B4]]] Hc.
  destruct (max_entry D') as [M HM]. destruct (A4 c Hc) as [w [W1 [W2 W3]]].
  assert (Lc : length c = n) by (unfold in_ring in A1; rewrite Forall_forall in A1; auto).
  destruct (max_entry [w]) as [N HN].
  set (m := tabulate n (fun v => if c @ v =? 0 then M + N else c @ v - 1)).
  assert (Lm : length m = n) by apply tabulate_length.
  assert (Wm : forall v, v < n -> w @ v <= m @ v).
  { intros v Hv. unfold m. rewrite tabulate_nth by auto. destruct (Nat.eqb_spec (c @ v) 0) as [E|E].
    - specialize (HN w v (or_introl eq_refl)). lia.
    - assert (~ (0 < c @ v /\ c @ v <= w @ v)); [|lia]. intros H.
      apply W2. apply A3; auto. intros c' Hc'. destruct (list_eq_dec Nat.eq_dec c' c) as [->|Ne]; [exists v; auto|auto]. }
  assert (Nm : ~ in_irreducible c m).
  { intros [i [P Q]]. assert (i < n) by (destruct (le_lt_dec n i); auto; rewrite nth_overflow in P by lia; lia).
    unfold m in Q. rewrite tabulate_nth in Q by auto. destruct (Nat.eqb_spec (c @ i) 0); lia. }
  assert (NI : ~ in_ideal I m). { intros H. apply Nm. apply (proj1 (A3 m Lm) H). auto. }
  destruct (not_inb_dec (fun x => existsb (fun v => (0 <? x @ v) && (x @ v <=? m @ v)) (seq 0 n)) D') as [All|[x [Hx Fx]]].
  - exfalso. apply NI. apply B3; auto. intros x Hx. specialize (All x Hx). apply existsb_exists in All. destruct All as [v [_ B]].
    apply andb_true_iff in B. destruct B as [X1 X2]. apply Nat.ltb_lt in X1. apply Nat.leb_le in X2. exists v. auto.
  - exists x. split; auto. intros t Ht [i [P Q]].
    assert (Lx : length x = n) by (unfold in_ring in B1; rewrite Forall_forall in B1; auto).
    assert (Hi : i < n) by (destruct (le_lt_dec n i); auto; rewrite nth_overflow in P by lia; lia).
    exists i. assert (X : m @ i < x @ i).
    { destruct (le_lt_dec (x @ i) (m @ i)) as [L|L]; auto. exfalso.
      assert (existsb (fun v => (0 <? x @ v) && (x @ v <=? m @ v)) (seq 0 n) = true); [|congruence].
      apply existsb_exists. exists i. split; [apply in_seq; lia|]. apply andb_true_iff. split; [apply Nat.ltb_lt; auto|apply Nat.leb_le; auto]. }
    unfold m in X. rewrite tabulate_nth in X by auto. specialize (HM x i Hx). destruct (Nat.eqb_spec (c @ i) 0); lia.
Qed.

Lemma irr_incl_le : forall n c c', length c = n -> length c' = n ->
  (forall m, length m = n -> in_irreducible c' m -> in_irreducible c m) ->
  forall i, 0 < c' @ i -> 0 < c @ i /\ c @ i <= c' @ i.
Proof.
  intros n c c' Lc Lc' H i P. assert (Hi : i < n) by (destruct (le_lt_dec n i); auto; rewrite nth_overflow in P by lia; lia).
  destruct (H (tabulate n (fun v => if v =? i then c' @ i else 0))) as [j [X Y]].
  - apply tabulate_length.
  - exists i. split; auto. rewrite tabulate_nth by auto. rewrite Nat.eqb_refl. auto.
  - assert (Hj : j < n) by (destruct (le_lt_dec n j); auto; rewrite nth_overflow in X by lia; lia).
    rewrite tabulate_nth in Y by auto. destruct (Nat.eqb_spec j i) as [->|]; lia.
Qed.

Lemma decomposition_unique : forall n I D D', irreducible_decomposition n I D -> irreducible_decomposition n I D' ->
  forall c, In c D -> In c D'.
Proof.
  intros n I D D' HD HD' c Hc. destruct (decomposition_incl n I D D' c HD HD' Hc) as [c' [Hc' S1]].
  destruct (decomposition_incl n I D' D c' HD' HD Hc') as [c2 [Hc2 S2]].
  assert (Lc : length c = n) by (destruct HD as [A1 _]; unfold in_ring in A1; rewrite Forall_forall in A1; auto).
  assert (Lc' : length c' = n) by (destruct HD' as [A1 _]; unfold in_ring in A1; rewrite Forall_forall in A1; auto).
  assert (E2 : c2 = c).
  { destruct (list_eq_dec Nat.eq_dec c2 c) as [E|Ne]; auto. exfalso. destruct HD as [A1 [A2 [A3 A4]]].
    destruct (A4 c Hc) as [w [W1 [W2 W3]]]. apply W2. apply A3; auto. intros x Hx.
    destruct (list_eq_dec Nat.eq_dec x c) as [->|Nx]; auto. }
  subst c2. pose proof (irr_incl_le n c c' Lc Lc' S1) as I1. pose proof (irr_incl_le n c' c Lc' Lc S2) as I2.
  assert (c = c'); [|subst; auto]. apply term_ext with n; auto. intros v Hv.
  specialize (I1 v). specialize (I2 v). lia.
Qed.

Lemma component_iff : forall n I D c, irreducible_decomposition n I D -> (irreducible_component n I c <-> In c D).
Proof.
  intros n I D c HD. split; [|intros H; exists D; auto]. intros [D' [HD' Hc]]. apply (decomposition_unique n I D' D); auto.
Qed.

(** the program on an ideal of ids *)
Lemma decomposition_sized : forall p rnd n B J I l all, legal_oparams p -> length l = n ->
  wf n J -> minl n J -> below n (K B) J ->
  (n <> 1 \/ op_simp p = true \/ forall g, In g (addPurePowersAtInfinity n (tr_initialize n B) J) -> g @ 0 <= 1) ->
  (forall m, length m = n -> (in_ideal I m <-> exists g, In g J /\ forall v, v < n -> phi B v (g @ v) <= m @ v)) ->
  exists L v, solveIrreducibleDecompositionProgram p rnd (mkCommon n J (tr_initialize n B)) l all = Some (block n L, v) /\
    optimum_reported (irreducible_component n I) l L v /\ (all = false -> length L <= 1) /\
    (all = true -> v <> Some 0%Z -> forall m, optimal (irreducible_component n I) l m -> In m L) /\
    sized_run p rnd n (if i_containsIdentity n J then J else addPurePowersAtInfinity n (tr_initialize n B) J) (tr_initialize n B) l all.
Proof.
  intros p rnd n B J I l all Hp Hl Hw Hm Hb Hu HI. unfold solveIrreducibleDecompositionProgram. cbn [co_n co_ideal co_tr].
  set (J' := if i_containsIdentity n J then J else addPurePowersAtInfinity n (tr_initialize n B) J).
  assert (EJ : J' = addPurePowersAtInfinity n (tr_initialize n B) J).
  { unfold J'. destruct (i_containsIdentity n J) eqn:E; auto. apply i_containsIdentity_iff in E. apply hasPure_n in E.
    unfold addPurePowersAtInfinity. rewrite E. auto. }
  rewrite EJ. clear EJ J'. set (J' := addPurePowersAtInfinity n (tr_initialize n B) J) in *.
  assert (HJ' : with_infinity n (K B) J J') by (apply add_infinity; intros; apply maxId_eq; auto).
  assert (HB' : forall g v, In g J -> v < n -> g @ v < K B v) by (intros g v Hg Hv; apply (Hb g v Hg Hv)).
  (* the list of all corners, from the run without bounds *)
  destruct (run_inf (mkConfig false true (PivotSplit median_pivot)) (fun _ => 0) n (tr_initialize n B) J (K B)) as [out [R1 [R2 R3]]]; auto.
  { apply builtin_rules. }
  { intros. apply maxId_eq; auto. }
  { intros. apply K_bounds. }
  { right. left. auto. }
  fold J' in R3.
  assert (HD : irreducible_decomposition n I (map (comp n (K B) (phi B)) out)).
  { apply (decomp_all n (K B) (phi B) J J'); auto using phi_embedding. }
  assert (Hle : forall d v, corner n J' d -> v < n -> d @ v <= K B v).
  { intros d v Hd Hv. apply (corner_le_K n (K B) J J'); auto. }
  apply (program_sized p rnd n J' (tr_initialize n B) l all (irreducible_component n I) (comp n (K B) (phi B))); auto.
  - apply init_ok.
  - apply add_wf; auto.
  - apply add_minl; auto; [intros v Hv; rewrite maxId_eq by auto; apply K_bounds|]. intros g v Hg Hv. rewrite maxId_eq by auto. auto.
  - destruct Hu as [Hu|[Hu|Hu]]; [left; auto|right; left; auto|right; right; right; auto].
  - intros v Hv. rewrite maxId_eq by auto. destruct (Nat.eq_dec ((i_lcm n J') @ v) 0) as [->|N]; [lia|].
    destruct (i_lcm_attained n J' v Hv ltac:(lia)) as [g [Hg Eg]]. rewrite <- Eg in *. destruct HJ' as [_ [_ H3]].
    destruct (H3 g Hg) as [Hg'|[w [Hw' [E1 E2]]]]; [specialize (HB' g v Hg' Hv); lia|].
    destruct (Nat.eq_dec v w) as [->|Ne]; [lia|]. specialize (E2 v Hv Ne). lia.
  - intros m. rewrite (component_iff n I _ m HD). rewrite in_map_iff. split.
    + intros [d [<- Hd]]. exists d. split; auto. apply R3; auto.
    + intros [d [Hd ->]]. exists d. split; auto. apply R3; auto.
  - intros d Hd. split; [apply tabulate_length|]. intros v Hv. rewrite comp_nth, getExponent_eq by auto. specialize (Hle d v Hd Hv).
    destruct (Nat.ltb_spec (d @ v) (K B v)); destruct (Nat.eqb_spec (d @ v) (K B v)); auto; lia.
  - intros d d' Hd Hd' E. apply (comp_inj n (K B) (phi B) J J'); auto using phi_embedding.
Qed.
Lemma decomposition_program : forall p rnd n B J I l all, legal_oparams p -> length l = n ->
  wf n J -> minl n J -> below n (K B) J ->
  (n <> 1 \/ op_simp p = true \/ forall g, In g (addPurePowersAtInfinity n (tr_initialize n B) J) -> g @ 0 <= 1) ->
  (forall m, length m = n -> (in_ideal I m <-> exists g, In g J /\ forall v, v < n -> phi B v (g @ v) <= m @ v)) ->
  exists L v, solveIrreducibleDecompositionProgram p rnd (mkCommon n J (tr_initialize n B)) l all = Some (block n L, v) /\
    optimum_reported (irreducible_component n I) l L v /\ (all = false -> length L <= 1) /\
    (all = true -> v <> Some 0%Z -> forall m, optimal (irreducible_component n I) l m -> In m L).
Proof.
  intros p rnd n B J I l all H1 H2 H3 H4 H5 H6 H7. destruct (decomposition_sized p rnd n B J I l all H1 H2 H3 H4 H5 H6 H7) as [L [v [X [Y [Z [W _]]]]]]. exists L, v. auto.
Qed.

Lemma g_decomposition_sized : forall p rnd n I J l all, legal_oparams p -> in_ring n I -> internal n I J -> length l = n ->
  exists L v, solveIrreducibleDecompositionProgram p rnd (co_of n I J) l all = Some (block n L, v) /\
    optimum_reported (irreducible_component n I) l L v /\ (all = false -> length L <= 1) /\
    (all = true -> v <> Some 0%Z -> forall m, optimal (irreducible_component n I) l m -> In m L) /\
    sized_run p rnd n (if i_containsIdentity n J then J else addPurePowersAtInfinity n (tr_initialize n I) J) (tr_initialize n I) l all.
Proof.
  intros p rnd n I J l all Hp Hr HJ Hl. pose proof Hr as Hw. apply in_ring_wf in Hw. pose proof HJ as [Jw Jm Jb Ji].
  apply decomposition_sized; auto.
  destruct (Nat.eq_dec n 1) as [->|]; [|left; auto]. right. right. intros g Hg.
  destruct (Jinf_one (mkConfig false false (PivotSplit median_pivot)) 1 I J Hw HJ) as [X|[X|[X|X]]]; try congruence; try discriminate. apply X. auto.
Qed.
Lemma g_decomposition_program : forall p rnd n I J l all, legal_oparams p -> in_ring n I -> internal n I J -> length l = n ->
  exists L v, solveIrreducibleDecompositionProgram p rnd (co_of n I J) l all = Some (block n L, v) /\
    optimum_reported (irreducible_component n I) l L v /\ (all = false -> length L <= 1) /\
    (all = true -> v <> Some 0%Z -> forall m, optimal (irreducible_component n I) l m -> In m L).
Proof.
  intros p rnd n I J l all Hp Hr HJ Hl. destruct (g_decomposition_sized p rnd n I J l all Hp Hr HJ Hl) as [L [v [A [B [C [D _]]]]]]. exists L, v. auto.
Qed.
Lemma p_decomposition_program : forall p rnd n I l all, legal_oparams p -> in_ring n I -> length l = n ->
  exists L v, solveIrreducibleDecompositionProgram p rnd (setIdeal false n I) l all = Some (block n L, v) /\
    optimum_reported (irreducible_component n I) l L v /\ (all = false -> length L <= 1) /\
    (all = true -> v <> Some 0%Z -> forall m, optimal (irreducible_component n I) l m -> In m L).
Proof. intros. rewrite set_co. apply g_decomposition_program; auto. apply J1_internal, in_ring_wf; auto. Qed.
