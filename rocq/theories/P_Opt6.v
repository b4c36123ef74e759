(** The optimization programs at the level of the facade and of the API. *)
From Coq Require Import List Arith Bool ZArith Lia Permutation.
Import ListNotations.
From Verif Require Import Spec Spec_Slice Spec_Run Spec_Api M_Term M_Ideal M_Slice M_Partition M_Msm P_Term P_Ideal P_Bridge P_Msm1 P_Msm2 P_Msm3 P_Msm4 P_Msm5
  P_Indep P_Proj P_Split P_Process P_Run P_Valid M_Api P_Corner P_Translator P_Api P_Api3 M_Opt Spec_Opt P_Opt1 P_Opt2 P_Opt3 P_Opt4 P_Opt5.

(** ** Legal parameters *)
Lemma op_conf_ok : forall p n g all, legal_oparams p -> gr_ok n g -> oconf_ok (op_config p g all) n.
Proof.
  intros p n g all H Hg. unfold oconf_ok, op_config, legal_oparams in *. cbn [oc_c oc_g c_split]. destruct (op_split p) as [[f|f]|].
  - apply legal_pivot_sound in H. intros simp rnd k s0 s _ A B _ C. apply (H simp rnd k s0 s); auto.
  - apply legal_label_sound; auto.
  - apply degree_sound; auto.
Qed.

(** ** Translators *)
Lemma init_tval : forall n I v i, v < n -> tval (tr_initialize n I) v i = if i <? K I v then Z.of_nat (phi I v i) else 0%Z.
Proof.
  intros n I v i Hv. unfold tval. rewrite tr_nth by auto. pose proof (table_nth I v i) as T.
  destruct (Nat.ltb_spec i (K I v)) as [L|L].
  - apply nth_error_nth. auto.
  - destruct (Nat.eqb_spec i (K I v)) as [E|E].
    + apply nth_error_nth. auto.
    + apply nth_overflow. rewrite table_length. lia.
Qed.
Lemma init_len : forall n I v, v < n -> length (nth v (tr_initialize n I) []) = S (K I v).
Proof. intros. rewrite tr_nth by auto. apply table_length. Qed.
Lemma init_ok : forall n I, tr_ok n (tr_initialize n I).
Proof.
  intros n I. constructor.
  - intros v Hv. rewrite init_len by auto. lia.
  - intros v e e' Hv H1 H2 H3. rewrite maxId_eq in H3 by auto. rewrite !init_tval by auto.
    destruct (Nat.ltb_spec e (K I v)); [|lia]. destruct (Nat.ltb_spec e' (K I v)); [|lia].
    destruct (Nat.eq_dec e e') as [->|]; [lia|]. pose proof (phi_lt I v e e'). lia.
  - intros v e Hv H1 H2. rewrite maxId_eq in * by auto. rewrite !init_tval by auto. rewrite Nat.ltb_irrefl.
    destruct (Nat.ltb_spec e (K I v)); lia.
Qed.

Lemma dec_row : forall tr v, nth v (tr_decrement tr) [] = map (fun e => (e - 1)%Z) (nth v tr []).
Proof. intros. unfold tr_decrement. rewrite <- (map_nth (map (fun e => (e - 1)%Z))). reflexivity. Qed.
Lemma dec_max : forall tr v, getMaxId (tr_decrement tr) v = getMaxId tr v.
Proof. intros. unfold getMaxId. rewrite dec_row, map_length. auto. Qed.
Lemma dec_tval : forall tr v e, e < length (nth v tr []) -> tval (tr_decrement tr) v e = (tval tr v e - 1)%Z.
Proof.
  intros tr v e He. unfold tval. rewrite dec_row.
  rewrite nth_indep with (d' := (fun e => (e - 1)%Z) 0%Z) by (rewrite map_length; auto). rewrite (map_nth (fun e => (e - 1)%Z)). reflexivity.
Qed.
Lemma dec_ok : forall n tr, tr_ok n tr -> tr_ok n (tr_decrement tr).
Proof.
  intros n tr [A B C]. constructor.
  - intros v Hv. rewrite dec_row, map_length. auto.
  - intros v e e' Hv H1 H2 H3. rewrite dec_max in H3. pose proof (B v e e' Hv H1 H2 H3). unfold getMaxId in H3.
    rewrite !dec_tval by lia. lia.
  - intros v e Hv H1 H2. rewrite !dec_max in *. pose proof (C v e Hv H1 H2). pose proof (A v Hv). unfold getMaxId in H2 |- *.
    unfold getMaxId in H. rewrite !dec_tval by lia. lia.
Qed.

(** ** The inner product *)
Lemma inner_sum : forall l m, length m = length l ->
  inner_product l m = fold_right (fun v a => (nth v l 0 * Z.of_nat (nth v m 0%nat) + a)%Z) 0%Z (seq 0 (length l)).
Proof.
  induction l as [|x l IH]; intros [|e m] H; try discriminate; auto. cbn [inner_product length seq fold_right nth].
  f_equal. rewrite IH by (cbn in H; lia). rewrite <- seq_shift. generalize (seq 0 (length l)).
  induction l0 as [|v l0 IHl]; auto. cbn [map fold_right nth]. rewrite IHl. auto.
Qed.

(** ** The generic program *)
Definition sized_run (p : oparams) (rnd : nat -> nat) (n : nat) (J : ideal) (tr : translator) (l : list Z) (all : bool) : Prop :=
  forall st, o_run (op_config p (gr_make l tr) all) rnd n J = Some st -> Forall (fun t => length t = n) (o_sols st).
Lemma program_sized : forall p rnd n J tr l all (P : mono -> Prop) (f : term -> mono),
  legal_oparams p -> length l = n -> tr_ok n tr -> wf n J -> minl n J ->
  uncompressed_ok (oc_c (op_config p (gr_make l tr) all)) n J ->
  (forall v, v < n -> (i_lcm n J) @ v <= getMaxId tr v) ->
  (forall m, P m <-> exists d, corner n J d /\ m = f d) ->
  (forall d, corner n J d -> length (f d) = n /\ forall v, v < n -> getExponent tr v (d @ v) = Some (Z.of_nat ((f d) @ v))) ->
  (forall d d', corner n J d -> corner n J d' -> f d = f d' -> d = d') ->
  exists L v, solveProgram p rnd (mkCommon n J tr) l all = Some (block n L, v) /\ optimum_reported P l L v /\
    (all = false -> length L <= 1) /\
    (all = true -> v <> Some 0%Z -> forall m, optimal P l m -> In m L) /\ sized_run p rnd n J tr l all.
Proof.
  intros p rnd n J tr l all P f Hp Hl Htr Hw Hm Hu Hlcm HP Hf Hinj.
  pose proof (make_ok n l tr Hl Htr) as Hg. set (g := gr_make l tr) in *. set (oc := op_config p g all) in *.
  assert (Hdeg : forall d, corner n J d -> deg g d = inner_product l (f d)).
  { intros d Hd. destruct (Hf d Hd) as [Lf Tf]. rewrite inner_sum by lia. unfold deg, degs.
    rewrite (go_n n g Hg), <- Hl. assert (G : forall k, (forall v, In v k -> v < n) ->
      fold_right (fun (v : nat) (a : Z) => (gval g v (d @ v) + a)%Z) 0%Z k =
      fold_right (fun (v : nat) (a : Z) => (nth v l 0 * Z.of_nat (nth v (f d) 0%nat) + a)%Z) 0%Z k).
    { induction k as [|v k IH]; intros H; auto. cbn [fold_right]. rewrite IH by (intros; apply H; right; auto). f_equal.
      assert (Hv : v < n) by (apply H; left; auto). unfold g. rewrite make_gval by lia. f_equal.
      specialize (Tf v Hv). unfold getExponent in Tf. unfold tval. apply nth_error_nth. auto. }
    apply G. intros v Hv. apply in_seq in Hv. lia. }
  destruct (run_opt oc rnd n J) as [st [E R]]; auto.
  { apply op_conf_ok; auto. }
  { intros v Hv. unfold oc, op_config. cbn [oc_g]. unfold g. rewrite make_max by lia. auto. }
  destruct R as [R1 R2 R3 R4 R5 R6].
  exists (map f (o_sols st)), (match o_sols st with [] => None | _ => Some (o_value st) end). split; [|split; [|split; [|split]]].
  - unfold solveProgram. cbn [co_tr co_n co_ideal]. fold g. fold oc. rewrite E. cbn [bind].
    rewrite (emit_block n tr (o_sols st) f).
    + cbn [bind]. auto.
    + intros t Ht. apply R2 in Ht. destruct Ht as [Hc _]. destruct (Hf t Hc) as [Lf Tf].
      rewrite (translate_spec n _ _ (fun v => Z.of_nat ((f t) @ v))) by auto. f_equal. unfold znat. rewrite of_nat_tabulate. f_equal.
      apply tabulate_id. auto.
  - unfold optimum_reported. destruct (o_sols st) as [|t0 ts] eqn:Es.
    + split; auto. intros m Hm'. apply HP in Hm'. destruct Hm' as [d [Hd _]]. apply (R1 eq_refl d Hd).
    + split; [discriminate|]. split.
      * apply NoDup_map_on; auto. intros x y Hx Hy Exy. apply Hinj; auto; [apply (R2 x Hx)|apply (R2 y Hy)].
      * intros m Hi. apply in_map_iff in Hi. destruct Hi as [d [<- Hd]]. destruct (R2 d Hd) as [Hc Hv].
        unfold oc, op_config in Hv, R3. cbn [oc_g] in Hv, R3. rewrite <- Hdeg by auto. split; auto. split.
        -- apply HP. exists d. auto.
        -- intros m' Hm'. apply HP in Hm'. destruct Hm' as [d' [Hd' ->]]. rewrite <- !Hdeg by auto. rewrite Hv. apply R3; auto. discriminate.
  - intros Ha. rewrite map_length. apply R5. auto.
  - intros Ha Hz m [H1 H2]. apply HP in H1. destruct H1 as [d [Hd ->]].
    destruct (o_sols st) as [|t0 ts] eqn:Es; [exfalso; apply (R1 eq_refl d Hd)|].
    apply in_map. apply R6; auto; [congruence|]. unfold oc, op_config. cbn [oc_g].
    destruct (R2 t0 (or_introl eq_refl)) as [C0 V0]. unfold oc, op_config in V0, R3. cbn [oc_g] in V0, R3.
    pose proof (R3 ltac:(discriminate) d Hd). specialize (H2 (f t0)). rewrite <- !Hdeg in H2 by auto.
    assert (P (f t0)) by (apply HP; eauto). specialize (H2 H0). lia.
  - intros st' E'. fold g in E'. fold oc in E'. rewrite E in E'. injection E' as <-. apply Forall_forall. intros t Ht. apply R2 in Ht. apply Ht.
Qed.
Lemma program : forall p rnd n J tr l all (P : mono -> Prop) (f : term -> mono),
  legal_oparams p -> length l = n -> tr_ok n tr -> wf n J -> minl n J ->
  uncompressed_ok (oc_c (op_config p (gr_make l tr) all)) n J ->
  (forall v, v < n -> (i_lcm n J) @ v <= getMaxId tr v) ->
  (forall m, P m <-> exists d, corner n J d /\ m = f d) ->
  (forall d, corner n J d -> length (f d) = n /\ forall v, v < n -> getExponent tr v (d @ v) = Some (Z.of_nat ((f d) @ v))) ->
  (forall d d', corner n J d -> corner n J d' -> f d = f d' -> d = d') ->
  exists L v, solveProgram p rnd (mkCommon n J tr) l all = Some (block n L, v) /\ optimum_reported P l L v /\
    (all = false -> length L <= 1) /\
    (all = true -> v <> Some 0%Z -> forall m, optimal P l m -> In m L).
Proof.
  intros p rnd n J tr l all P f H1 H2 H3 H4 H5 H6 H7 H8 H9 H10.
  destruct (program_sized p rnd n J tr l all P f H1 H2 H3 H4 H5 H6 H7 H8 H9 H10) as [L [v [A [B [C [D _]]]]]]. exists L, v. auto.
Qed.
