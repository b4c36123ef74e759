(** The API functions based on the slice algorithm. *)
From Coq Require Import List Arith Bool ZArith Lia Permutation Sorted.
Import ListNotations.
From Verif Require Import Spec Spec_Slice Spec_Run Spec_Api M_Term M_Ideal M_Slice M_Msm M_Api P_Term P_Ideal P_Bridge P_Msm1 P_Process P_Run P_Valid P_Corner P_Decomp P_Translator P_Internal.

(** ** one run with pure powers *)
Lemma run_inf : forall c rnd n tr J (KK : nat -> nat), legal_config c -> wf n J -> minl n J ->
  (forall v, v < n -> getMaxId tr v = KK v) -> (forall v, v < n -> 0 < KK v) -> below n KK J ->
  uncompressed_ok c n (addPurePowersAtInfinity n tr J) ->
  exists out, msm_run c rnd n (addPurePowersAtInfinity n tr J) = Some out /\ NoDup out /\
    forall d, In d out <-> corner n (addPurePowersAtInfinity n tr J) d.
Proof.
  intros c rnd n tr J KK Hc Hw Hm HK HP HB Hu.
  destruct (msm_run_spec c rnd n (addPurePowersAtInfinity n tr J) (legal_conf_ok c Hc)) as [out [A [B C]]]; auto.
  - apply add_wf; auto.
  - apply add_minl; auto; [intros v Hv; rewrite HK; auto|]. intros g v Hg Hv. rewrite HK by auto. apply HB; auto.
  - exists out. split; auto. split; auto. intros d. rewrite C. symmetry. apply corner_iff.
Qed.

Definition Jinf (n : nat) (I : big_ideal) (J : ideal) : ideal := addPurePowersAtInfinity n (tr_initialize n I) J.

Lemma Jinf_one : forall c n I J, wf n I -> internal n I J -> uncompressed_ok c n (Jinf n I J).
Proof.
  intros c n I J Hw HJ. destruct (Nat.eq_dec n 1) as [->|]; [|left; auto]. right. right. right.
  intros g Hg. apply add_in in Hg. destruct Hg as [Hg|[v [Hv [E0 [E1 ->]]]]]; [apply int_one with I J; auto|].
  assert (v = 0) by lia. subst v. rewrite inf_nth by lia. simpl. rewrite maxId_eq by auto.
  destruct J as [|g L] eqn:EJ.
  - destruct I as [|h I]; [exact (proj2 (K_bounds [] 0))|]. exfalso.
    destruct (int_nonempty _ _ _ h HJ Hw (or_introl eq_refl)) as [k [[] _]].
  - exfalso. destruct (Nat.eq_dec (g @ 0) 0) as [Z|P].
    + rewrite not_true_false in E1. apply E1. apply hasPure_n. exists g. split; [left; auto|]. intros w Hw'. assert (w = 0) by lia. subst; auto.
    + rewrite not_true_false in E0. apply E0. apply hasPure_iff; [lia|]. exists g. split; [left; auto|]. split; [lia|]. intros; lia.
Qed.

Lemma with_inf : forall n I J, with_infinity n (K I) J (Jinf n I J).
Proof. intros. apply add_infinity. intros. apply maxId_eq; auto. Qed.

Definition co_of (n : nat) (I : big_ideal) (J : ideal) : common := mkCommon n J (tr_initialize n I).
Lemma set_co : forall n I, setIdeal false n I = co_of n I (J1 n I).
Proof. reflexivity. Qed.

Lemma encoded_spec : forall c rnd n I J, legal_config c -> wf n I -> internal n I J ->
  exists out, encodedIrrDecom c rnd (co_of n I J) = Some out /\ NoDup out /\
    (forall d, In d out <-> corner n (Jinf n I J) d) /\
    (forall d v, In d out -> v < n -> 0 < d @ v /\ d @ v <= K I v) /\
    irreducible_decomposition n I (map (comp n (K I) (phi I)) out).
Proof.
  intros c rnd n I J Hc Hw HJ. pose proof HJ as [Jw Jm Jb Ji].
  destruct (run_inf c rnd n (tr_initialize n I) J (K I)) as [out [A [B C]]]; auto.
  - intros. apply maxId_eq; auto.
  - intros. apply K_bounds.
  - apply Jinf_one; auto.
  - exists out. split; [exact A|]. split; auto. split; auto. split.
    + intros d v Hd Hv. apply C in Hd. split; [apply Hd; auto|].
      apply (corner_le_K n (K I) J (Jinf n I J)); auto using with_inf.
    + apply (decomp_all n (K I) (phi I) J (Jinf n I J)); auto using phi_embedding, with_inf.
Qed.

Lemma translate_comp : forall n I d, (forall v, v < n -> d @ v <= K I v) ->
  translate n (tr_initialize n I) d = Some (znat (comp n (K I) (phi I) d)).
Proof.
  intros n I d H. rewrite (translate_spec n _ _ (fun v => Z.of_nat (if d @ v =? K I v then 0 else phi I v (d @ v)))).
  - unfold znat, comp. f_equal. apply of_nat_tabulate.
  - intros v Hv. rewrite getExponent_eq by auto. specialize (H v Hv).
    destruct (Nat.ltb_spec (d @ v) (K I v)); destruct (Nat.eqb_spec (d @ v) (K I v)); auto; lia.
Qed.

Lemma emit_block : forall n tr ts (f : term -> mono), (forall t, In t ts -> translate n tr t = Some (znat (f t))) ->
  emit n tr ts = Some (block n (map f ts)).
Proof.
  intros n tr ts f H. unfold emit. rewrite (translate_all_spec n tr ts (fun t => znat (f t))) by auto.
  unfold block. rewrite !map_map. auto.
Qed.

Lemma g_irr : forall c rnd n I J, legal_config c -> in_ring n I -> internal n I J -> exists D,
  computeIrreducibleDecomposition c rnd (co_of n I J) = Some (block n D) /\ irreducible_decomposition n I D.
Proof.
  intros c rnd n I J Hc Hr HJ. apply in_ring_wf in Hr. destruct (encoded_spec c rnd n I J Hc Hr HJ) as [out [A [B [C [E F]]]]].
  exists (map (comp n (K I) (phi I)) out). split; auto. unfold computeIrreducibleDecomposition. rewrite A. cbn [bind co_of co_n co_tr].
  apply emit_block. intros d Hd. apply translate_comp. intros v Hv. apply E; auto.
Qed.

Lemma p_irr : forall c rnd n I, legal_config c -> in_ring n I -> exists D,
  computeIrreducibleDecomposition c rnd (setIdeal false n I) = Some (block n D) /\ irreducible_decomposition n I D.
Proof. intros c rnd n I Hc Hr. rewrite set_co. apply g_irr; auto. apply J1_internal, in_ring_wf; auto. Qed.

Lemma p_irrMonomials : forall c rnd n I, legal_config c -> in_ring n I -> I <> [] -> exists D,
  api_irrDecomMonomials c rnd n I = Some (true, block n D) /\ irreducible_decomposition n I D.
Proof.
  intros c rnd n I Hc Hr Hn. destruct (p_irr c rnd n I Hc Hr) as [D [A B]]. exists D. split; auto.
  unfold api_irrDecomMonomials. destruct I; [congruence|]. rewrite A. auto.
Qed.

(** ** the decoder *)
Lemma pure_power_eq : forall n i e, pure_power n i (Z.of_nat e) = znat (var_power n i e).
Proof.
  intros. unfold pure_power, znat, var_power. rewrite map_map. apply map_ext. intros j. destruct (j =? i); auto.
Qed.
Lemma znat_nth : forall c i, nth i (znat c) 0%Z = Z.of_nat (nth i c 0).
Proof. intros. unfold znat. change 0%Z with (Z.of_nat 0). apply map_nth. Qed.

Lemma decoder_consume : forall n L rest, decoder n (map (fun m => Consume (znat m)) L ++ rest) =
  concat (map (fun c => block n (irreducible_generators n c)) L) ++ decoder n rest.
Proof.
  induction L as [|c L IH]; intros rest; cbn [map app concat decoder]; auto.
  assert (E : forall l, map (fun i => Consume (pure_power n i (nth i (znat c) 0%Z))) (filter (fun i => negb (nth i (znat c) 0 =? 0)%Z) l) =
     map (fun x => Consume (znat (var_power n x (nth x c 0)))) (filter (fun i => 0 <? nth i c 0) l)).
  { induction l as [|i l IHl]; auto. cbn [filter]. rewrite znat_nth.
    destruct (Z.eqb_spec (Z.of_nat (nth i c 0)) 0) as [E|E]; destruct (Nat.ltb_spec 0 (nth i c 0)) as [L'|L']; try lia; cbn [negb map]; auto.
    rewrite IHl, znat_nth, pure_power_eq. auto. }
  rewrite IH, E. unfold block at 2. unfold irreducible_generators at 2. rewrite map_map.
  cbn [app]. rewrite <- !app_assoc. reflexivity.
Qed.
Lemma decoder_block : forall k n L, decoder k (block n L) = concat (map (fun c => block n (irreducible_generators n c)) L).
Proof. intros. unfold block at 1. cbn [decoder]. rewrite decoder_consume. cbn [decoder]. apply app_nil_r. Qed.

Lemma p_irrIdeals : forall c rnd n I, legal_config c -> in_ring n I -> I <> [] -> exists D,
  api_irrDecomIdeals c rnd n I = Some (concat (map (fun d => block n (irreducible_generators n d)) D)) /\
  irreducible_decomposition n I D.
Proof.
  intros c rnd n I Hc Hr Hn. destruct (p_irrMonomials c rnd n I Hc Hr Hn) as [D [A B]]. exists D. split; auto.
  unfold api_irrDecomIdeals. rewrite A. cbn [bind]. rewrite decoder_block, app_nil_r. auto.
Qed.

(** ** maximal standard monomials *)
Lemma msm_eqI : forall n A B m, eqI n A B -> (msm n A m <-> msm n B m).
Proof.
  intros n A B m H. unfold msm. split; intros [H1 [H2 H3]]; split; auto; split.
  1, 3: intros Hi; apply H2; apply H; auto. all: intros v Hv; apply H; auto.
Qed.

Lemma image_eqI : forall n I J, wf n I -> internal n I J -> eqI n (map (image n (phi I)) J) I.
Proof.
  intros n I J Hw HJ m. set (m' := tabulate n (fun v => m @ v)).
  assert (Em : forall A, inI n A m <-> inI n A m').
  { intros A. unfold m'. split; intros [g [Hg Hle]]; exists g; (split; auto); intros v Hv; specialize (Hle v Hv); rewrite ?tabulate_nth in * by auto; auto. }
  rewrite (Em I). rewrite <- (in_ideal_iff n I m') by (auto; apply tabulate_length).
  rewrite (int_ideal _ _ _ HJ) by apply tabulate_length. split.
  - intros [g [Hg Hle]]. apply in_map_iff in Hg. destruct Hg as [h [<- Hh]]. exists h. split; auto. intros v Hv.
    specialize (Hle v Hv). rewrite image_nth in Hle by auto. unfold m'. rewrite tabulate_nth; auto.
  - intros [g [Hg Hle]]. exists (image n (phi I) g). split; [apply in_map; auto|]. intros v Hv. specialize (Hle v Hv).
    unfold m' in Hle. rewrite tabulate_nth in Hle by auto. rewrite image_nth; auto.
Qed.

Lemma map_pred_S : forall m, map pred (map S m) = m.
Proof. intros. rewrite map_map. rewrite <- map_id. apply map_ext. auto. Qed.

Lemma NoDup_map_on : forall {A B} (f : A -> B) l, NoDup l -> (forall x y, In x l -> In y l -> f x = f y -> x = y) -> NoDup (map f l).
Proof.
  induction l as [|a l IH]; intros Hn Hf; simpl; [constructor|]. inversion Hn; subst. constructor.
  - intros Hi. apply in_map_iff in Hi. destruct Hi as [b [E Hb]]. assert (b = a); [|subst; auto]. apply Hf; simpl; auto.
  - apply IH; auto. intros. apply Hf; simpl; auto.
Qed.

Lemma g_msm : forall c rnd n I J, legal_config c -> in_ring n I -> internal n I J -> exists L,
  computeMaximalStandardMonomials c rnd (co_of n I J) = Some (block n L) /\ NoDup L /\ forall m, In m L <-> max_standard n I m.
Proof.
  intros c rnd n I J Hc Hr HJ. pose proof Hr as Hw. apply in_ring_wf in Hw. pose proof HJ as [Jw Jm Jb Ji].
  assert (Hu : uncompressed_ok c n J).
  { destruct (Nat.eq_dec n 1) as [->|]; [|left; auto]. right. right. right. intros g Hg. apply int_one with I J; auto. }
  destruct (msm_run_spec c rnd n J (legal_conf_ok c Hc) Jw Jm Hu) as [out [A [B C]]].
  assert (C' : forall d, In d out <-> corner n J d) by (intros d; rewrite C; symmetry; apply corner_iff).
  assert (Hd : forall d v, In d out -> v < n -> 0 < d @ v /\ d @ v < K I v).
  { intros d v Hd Hv. apply C' in Hd. destruct Hd as [_ [Hp [_ Hl]]]. split; auto.
    destruct (Hl v Hv) as [g [Hg [E _]]]. rewrite <- E. apply Jb; auto. }
  set (f := fun d => map pred (image n (phi I) d)).
  assert (Hpos : forall d v, In d out -> v < n -> 0 < phi I v (d @ v)).
  { intros d v Hi Hv. destruct (Hd d v Hi Hv). apply (emb_pos n (K I) (phi I)); auto using phi_embedding. }
  exists (map f out). split; [|split].
  - unfold computeMaximalStandardMonomials, co_of. cbn [co_n co_ideal co_tr]. rewrite A. cbn [bind]. apply emit_block. intros d Hi.
    rewrite (translate_spec n _ _ (fun v => Z.of_nat (pred (phi I v (d @ v))))).
    + f_equal. unfold znat, f, image, tabulate. rewrite !map_map. auto.
    + intros v Hv. destruct (Hd d v Hi Hv) as [D1 D2]. specialize (Hpos d v Hi Hv).
      unfold getExponent, tr_decrement. rewrite nth_indep with (d' := map (fun e => (e - 1)%Z) []) by (rewrite map_length; unfold tr_initialize; rewrite map_length, seq_length; auto).
      rewrite map_nth. rewrite nth_error_map. rewrite tr_nth, table_nth by auto.
      destruct (Nat.ltb_spec (d @ v) (K I v)); [|lia]. cbn [option_map]. f_equal. lia.
  - apply NoDup_map_on; auto. intros d e Hi He E. apply term_ext with n; [apply C'; auto|apply C'; auto|].
    intros v Hv. assert (Ev : (f d) @ v = (f e) @ v) by congruence. unfold f in Ev.
    change ((map pred (image n (phi I) d)) @ v) with (nth v (map pred (image n (phi I) d)) (pred 0)) in Ev.
    change ((map pred (image n (phi I) e)) @ v) with (nth v (map pred (image n (phi I) e)) (pred 0)) in Ev.
    rewrite !map_nth, !image_nth in Ev by auto. pose proof (Hpos d v Hi Hv). pose proof (Hpos e v He Hv).
    destruct (Hd d v Hi Hv). destruct (Hd e v He Hv).
    apply (emb_inj n (K I) (phi I) v); auto using phi_embedding. lia.
  - intros m. rewrite (max_standard_msm n I m Hr). rewrite <- (msm_eqI n _ _ m (image_eqI n I J Hw HJ)).
    assert (G : msm n (map (image n (phi I)) J) m <-> corner n (map (image n (phi I)) J) (map S m)).
    { rewrite corner_iff. split; [intros H; exists m; auto|]. intros [m' [H E]].
      assert (m = m') by (rewrite <- (map_pred_S m), E; apply map_pred_S). subst; auto. }
    rewrite G, (corner_image n (K I) (phi I)) by (auto using phi_embedding, Jb).
    rewrite in_map_iff. split.
    + intros [d [<- Hi]]. exists d. split; [apply C'; auto|]. unfold f. rewrite map_map.
      transitivity (map (fun x => x) (image n (phi I) d)); [|apply map_id]. apply map_ext_in. intros e He.
      unfold image, tabulate in He. apply in_map_iff in He. destruct He as [v [<- Hv]]. apply in_seq in Hv.
      specialize (Hpos d v Hi ltac:(lia)). lia.
    + intros [d [Hi E]]. exists d. split; [|apply C'; auto]. unfold f. rewrite <- E. apply map_pred_S.
Qed.
Lemma p_msm : forall c rnd n I, legal_config c -> in_ring n I -> exists L,
  api_maximalStandardMonomials c rnd n I = Some (block n L) /\ NoDup L /\ forall m, In m L <-> max_standard n I m.
Proof. intros c rnd n I Hc Hr. unfold api_maximalStandardMonomials. rewrite set_co. apply g_msm; auto. apply J1_internal, in_ring_wf; auto. Qed.
