(** The whole run of the slice algorithm, in terms of the specification. *)
From Coq Require Import List Arith Bool Lia Permutation.
Import ListNotations.
From Verif Require Import Spec Spec_Slice Spec_Run M_Term M_Ideal M_Slice M_Partition M_Msm P_Term P_Ideal P_Bridge P_Msm1 P_Msm2 P_Msm3 P_Msm4 P_Msm5
  P_Indep P_Proj P_Split P_Process.

Lemma box_volume : forall l, length (box l) = term_volume l.
Proof.
  induction l as [|e l IH]; auto. cbn [box term_volume fold_right].
  assert (H : forall L, length (flat_map (fun x => map (cons x) (box l)) L) = length L * length (box l)).
  { induction L as [|x L IHL]; auto. simpl. rewrite app_length, map_length, IHL. auto. }
  rewrite H, seq_length, IH. auto.
Qed.

Lemma smu_volume : forall s, smu s <= term_volume (slcm s).
Proof. intros s. unfold smu, mu, blist. rewrite <- box_volume. apply filter_length_le. Qed.

Lemma times_var_up : forall n m i, length m = n -> i < n -> times_var m i = up n m i.
Proof.
  intros n m i Hm Hi. apply term_ext with n; [rewrite times_var_length; auto|apply t_set_length|].
  intros v Hv. rewrite times_var_nth by lia. rewrite up_nth by auto. destruct (Nat.eqb_spec v i) as [->|]; auto.
Qed.

Lemma max_standard_msm : forall n I m, in_ring n I -> (max_standard n I m <-> msm n I m).
Proof.
  intros n I m Hr. apply in_ring_wf in Hr. unfold max_standard, msm. split; intros [A [B C]]; split; auto.
  - split; [intros H; apply B; apply in_ideal_iff with n; auto|]. intros v Hv. apply in_ideal_iff; auto.
    + apply t_set_length.
    + rewrite <- times_var_up; auto.
  - split; [intros H; apply B; apply in_ideal_iff; auto|]. intros i Hi. rewrite times_var_up with (n := n) by auto.
    apply in_ideal_iff with n; auto. apply t_set_length.
Qed.

Lemma product_ones : forall n m, length m = n -> t_product n m (repeat 1 n) = map S m.
Proof.
  intros n m Hm. apply term_ext with n; [apply t_product_length|rewrite map_length; auto|]. intros v Hv.
  rewrite t_product_nth by auto. rewrite (nth_indep (map S m) 0 (S 0)) by (rewrite map_length; lia). rewrite map_nth.
  assert (E : (repeat 1 n) @ v = 1).
  { clear -Hv. revert v Hv. induction n as [|n IH]; intros v Hv; [lia|]. destruct v; simpl; auto. apply IH. lia. }
  rewrite E. lia.
Qed.

Definition raw_slice (n : nat) (I : ideal) : slice := mkSlice n I [] (repeat 1 n) (t_identity n) false 0.

Lemma raw_ok : forall n I, wf n I -> minl n I -> slice_ok (raw_slice n I).
Proof.
  intros n I Hw Hm. constructor; cbn; auto.
  - intros g [].
  - split; [constructor|]. intros g h [].
  - apply repeat_length.
  - discriminate.
  - intros x g [].
Qed.

Lemma initial_spec : forall n I, wf n I -> minl n I ->
  slice_ok (msm_initial n I) /\ sndl (msm_initial n I) /\ s_n (msm_initial n I) = n /\ incl (s_I (msm_initial n I)) I /\
  smu (msm_initial n I) <= term_volume (i_lcm n I) /\
  (forall d, con (msm_initial n I) d <-> exists m, msm n I m /\ d = map S m).
Proof.
  intros n I Hw Hm. destruct (removeDoubleLcm_spec (raw_slice n I) (raw_ok n I Hw Hm)) as [A [B [C _]]].
  change (fst (msm_removeDoubleLcm (raw_slice n I))) with (msm_initial n I) in *.
  split; auto. split; auto. split; [apply (sub_n _ _ B)|]. split; [apply (sub_I _ _ B)|]. split.
  - pose proof (sub_same _ _ B) as Hs. pose proof (sc_mu _ _ Hs). pose proof (smu_volume (raw_slice n I)).
    unfold slcm in *. cbn [raw_slice s_n s_I] in *. lia.
  - intros d. rewrite (sc_con _ _ (sub_same _ _ B)). unfold con, sker, ker. cbn [raw_slice s_n s_I s_S s_q]. split.
    + intros [m [[M1 _] ->]]. exists m. split; auto. apply product_ones. apply M1.
    + intros [m [M1 ->]]. exists m. split; [split; auto; apply inI_nil|]. symmetry. apply product_ones. apply M1.
Qed.

Lemma minl_0 : forall I, wf 0 I -> minl 0 I -> I = [] \/ I = [[]].
Proof.
  intros I Hw [HN Hm]. destruct I as [|g [|h I]]; auto.
  - right. f_equal. apply length_zero_iff_nil. apply Hw. left; auto.
  - exfalso. assert (E : g = h) by (apply Hm; [left; auto|right; left; auto|intros v Hv; lia]). subst h.
    inversion HN; subst. apply H1. left; auto.
Qed.

Lemma msm_run_spec : forall c rnd n I, conf_ok c -> wf n I -> minl n I -> uncompressed_ok c n I ->
  exists out, msm_run c rnd n I = Some out /\ NoDup out /\
    forall d, In d out <-> exists m, msm n I m /\ d = map S m.
Proof.
  intros c rnd n I Hc Hw Hm Hu. destruct (Nat.eq_dec n 0) as [->|Hn].
  - destruct (minl_0 I Hw Hm) as [->| ->].
    + exists [[]]. split.
      * unfold msm_run, st_simplify. destruct c as [ci cs cp]. cbn [c_simp c_split]. destruct cs, cp; vm_compute; reflexivity.
      * split; [repeat constructor; auto|]. intros d. split.
        -- intros [<-|[]]. exists []. split; auto. split; auto. split; [apply inI_nil|]. intros; lia.
        -- intros [m [[Hl _] ->]]. apply length_zero_iff_nil in Hl. subst m. left; auto.
    + exists []. split.
      * unfold msm_run, st_simplify. destruct c as [ci cs cp]. cbn [c_simp c_split]. destruct cs, cp; vm_compute; reflexivity.
      * split; [constructor|]. intros d. split; [intros []|]. intros [m [[_ [Hx _]] _]]. apply Hx. exists []. split; [left; auto|].
        intros v Hv. lia.
  - destruct (initial_spec n I Hw Hm) as [A [B [C [D [E F]]]]]. unfold msm_run.
    destruct (st_simplify_spec c (msm_initial n I) A B) as [s [Es [Hi Hs]]]; [lia| |].
    { intros E1 E2 E3 g Hg. apply D in Hg. destruct Hu as [Hu|[Hu|[Hu|Hu]]]; [lia|congruence|congruence|auto]. }
    rewrite Es. pose proof (sc_mu _ _ Hs). pose proof (sc_n _ _ Hs).
    destruct (process_spec c rnd Hc (run_fuel n I) s 0 Hi) as [out [k' [Ep [H1 H2]]]]; [unfold run_fuel; lia|].
    rewrite Ep. exists out. split; auto. split; auto. intros d. rewrite H2, (sc_con _ _ Hs). apply F.
Qed.
