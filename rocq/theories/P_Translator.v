(** Lemmas about the translation between exponents and ids. *)
From Coq Require Import List Arith Bool ZArith Lia Permutation Sorted.
Import ListNotations.
From Verif Require Import Spec M_Term M_Ideal M_Slice M_Msm M_Api P_Term P_Ideal P_Bridge P_Corner.

(** ** std::unique on a sorted list *)
Lemma unique_aux_spec : forall x l, StronglySorted le (x :: l) ->
  StronglySorted lt (x :: unique_aux Nat.eqb x l) /\
  (forall e, In e (x :: unique_aux Nat.eqb x l) <-> In e (x :: l)) /\
  length (unique_aux Nat.eqb x l) <= length l.
Proof.
  intros x l. revert x. induction l as [|y l IH]; intros x H; cbn [unique_aux].
  - repeat split; auto; constructor; constructor.
  - inversion H as [|? ? Hs Hf]; subst. inversion Hf as [|? ? Hxy Hf']; subst.
    destruct (Nat.eqb_spec x y) as [E|E].
    + subst y. destruct (IH x Hs) as [A [B C]]. split; auto. split; [|cbn [length]; lia].
      intros e. rewrite B. simpl. tauto.
    + destruct (IH y Hs) as [A [B C]]. split; [|split; [|cbn [length]; lia]].
      * constructor; auto. rewrite Forall_forall. intros e He. apply B in He.
        destruct He as [<-|He]; [lia|]. inversion Hs as [|? ? Hs' Hf2]; subst. rewrite Forall_forall in Hf2.
        specialize (Hf2 e He). lia.
      * intros e. split; intros [->|Hi]; simpl; auto.
        -- right. apply B in Hi. exact Hi.
        -- right. apply B. exact Hi.
Qed.

Lemma sort_nat : forall l, StronglySorted le (std_sort Nat.ltb l).
Proof.
  intros l.
  assert (H : StronglySorted (before Nat.ltb) (std_sort Nat.ltb l)).
  { apply std_sort_sorted.
    - intros x y H. apply Nat.ltb_lt in H. apply Nat.ltb_ge. lia.
    - unfold before. intros x y z H1 H2. apply Nat.ltb_ge in H1, H2. apply Nat.ltb_ge. lia. }
  induction H as [|x l' Hs IH Hf]; constructor; auto. rewrite Forall_forall in *. intros y Hy.
  specialize (Hf y Hy). unfold before in Hf. apply Nat.ltb_ge in Hf. auto.
Qed.

Lemma std_unique_spec : forall l, let u := std_unique Nat.eqb (std_sort Nat.ltb l) in
  StronglySorted lt u /\ (forall e, In e u <-> In e l) /\ length u <= length l.
Proof.
  intros l. cbv zeta. pose proof (sort_nat l) as Hs. pose proof (std_sort_length Nat.ltb l) as Hl.
  pose proof (std_sort_in Nat.ltb l) as Hi. destruct (std_sort Nat.ltb l) as [|x s]; unfold std_unique.
  - split; [constructor|]. split; [intros e; apply Hi|simpl; lia].
  - destruct (unique_aux_spec x s Hs) as [A [B C]]. split; auto. split; [|simpl in *; lia].
    intros e. rewrite B. apply Hi.
Qed.

Lemma collect_in : forall es seen e, In e (collect seen es) \/ In e seen <-> In e es \/ In e seen.
Proof.
  induction es as [|x es IH]; intros seen e; cbn [collect]; [tauto|].
  destruct (x <=? 900).
  - destruct (existsb (Nat.eqb x) seen) eqn:E.
    + apply existsb_exists in E. destruct E as [y [Hy E]]. apply Nat.eqb_eq in E. subst y.
      rewrite IH. simpl. split; [tauto|]. intros [[->|H]|H]; auto.
    + specialize (IH (x :: seen) e). simpl in *. tauto.
  - specialize (IH seen e). simpl in *. tauto.
Qed.
Lemma collect_length : forall es seen, length (collect seen es) <= length es.
Proof.
  induction es as [|x es IH]; intros seen; cbn [collect]; [auto|].
  destruct (x <=? 900); [destruct (existsb _ _)|]; simpl.
  - specialize (IH seen). lia.
  - specialize (IH (x :: seen)). lia.
  - specialize (IH seen). lia.
Qed.

Lemma sorted_nth : forall l i j, StronglySorted lt l -> i < j -> j < length l -> nth i l 0 < nth j l 0.
Proof.
  induction l as [|x l IH]; intros i j Hs Hij Hj; [simpl in Hj; lia|].
  inversion Hs as [|? ? Hs' Hf]; subst. rewrite Forall_forall in Hf. destruct j as [|j]; [lia|].
  simpl in Hj. destruct i as [|i]; simpl.
  - apply Hf. apply nth_In. lia.
  - apply IH; auto; lia.
Qed.

(** ** the table of a variable *)
Definition U (I : big_ideal) (v : nat) : list nat :=
  std_unique Nat.eqb (std_sort Nat.ltb (0 :: collect [0] (map (fun g => nth v g 0) I))).
Definition phi (I : big_ideal) (v i : nat) : nat := nth i (U I v) 0.
Definition K (I : big_ideal) (v : nat) : nat := length (U I v).

Lemma U_sorted : forall I v, StronglySorted lt (U I v).
Proof. intros. apply std_unique_spec. Qed.
Lemma U_in : forall I v e, In e (U I v) <-> e = 0 \/ exists g, In g I /\ e = nth v g 0.
Proof.
  intros I v e. unfold U. destruct (std_unique_spec (0 :: collect [0] (map (fun g => nth v g 0) I))) as [_ [H _]].
  rewrite H. pose proof (collect_in (map (fun g => nth v g 0) I) [0] e) as C.
  assert (M : In e (map (fun g => nth v g 0) I) <-> exists g, In g I /\ e = nth v g 0).
  { rewrite in_map_iff. split; intros [g [A B]]; exists g; auto. }
  rewrite <- M. simpl in *. split; intros; destruct (Nat.eq_dec e 0); intuition congruence.
Qed.
Lemma K_bounds : forall I v, 0 < K I v /\ K I v <= S (length I).
Proof.
  intros I v. unfold K. split.
  - assert (H : In 0 (U I v)) by (apply U_in; auto). destruct (U I v); simpl; [destruct H|lia].
  - unfold U. destruct (std_unique_spec (0 :: collect [0] (map (fun g => nth v g 0) I))) as [_ [_ H]].
    simpl in H. pose proof (collect_length (map (fun g => nth v g 0) I) [0]) as C. rewrite map_length in C.
    simpl in *. lia.
Qed.
Lemma phi_lt : forall I v i j, i < j -> j < K I v -> phi I v i < phi I v j.
Proof. intros I v i j. apply sorted_nth. apply U_sorted. Qed.
Lemma phi_0 : forall I v, phi I v 0 = 0.
Proof.
  intros I v. assert (H : In 0 (U I v)) by (apply U_in; auto). apply In_nth with (d := 0) in H.
  destruct H as [j [Hj E]]. destruct j; auto. pose proof (phi_lt I v 0 (S j) ltac:(lia) Hj). unfold phi in *. lia.
Qed.
Lemma phi_embedding : forall n I, embedding n (K I) (phi I).
Proof. intros n I v _. split; [apply K_bounds|]. split; [apply phi_0|]. apply phi_lt. Qed.

Lemma table_eq : forall I v, extractExponents I v = map Z.of_nat (U I v) ++ [0%Z].
Proof. reflexivity. Qed.
Lemma tr_nth : forall n I v, v < n -> nth v (tr_initialize n I) [] = extractExponents I v.
Proof.
  intros n I v Hv. unfold tr_initialize. rewrite nth_indep with (d' := extractExponents I 0) by (rewrite map_length, seq_length; auto).
  rewrite map_nth, seq_nth; auto.
Qed.
Lemma table_length : forall I v, length (extractExponents I v) = S (K I v).
Proof. intros. rewrite table_eq, app_length, map_length. simpl. unfold K. lia. Qed.
Lemma maxId_eq : forall n I v, v < n -> getMaxId (tr_initialize n I) v = K I v.
Proof. intros n I v Hv. unfold getMaxId. rewrite tr_nth, table_length by auto. lia. Qed.

Lemma table_nth : forall I v i, nth_error (extractExponents I v) i =
  if i <? K I v then Some (Z.of_nat (phi I v i)) else if i =? K I v then Some 0%Z else None.
Proof.
  intros I v i. rewrite table_eq. unfold K, phi. destruct (Nat.ltb_spec i (length (U I v))) as [L|L].
  - rewrite nth_error_app1 by (rewrite map_length; auto). rewrite nth_error_map.
    rewrite (nth_error_nth' _ 0 L). reflexivity.
  - rewrite nth_error_app2 by (rewrite map_length; auto). rewrite map_length.
    destruct (Nat.eqb_spec i (length (U I v))) as [E|E].
    + subst i. rewrite Nat.sub_diag. reflexivity.
    + apply nth_error_None. simpl. lia.
Qed.
Lemma getExponent_eq : forall n I v i, v < n -> getExponent (tr_initialize n I) v i =
  if i <? K I v then Some (Z.of_nat (phi I v i)) else if i =? K I v then Some 0%Z else None.
Proof. intros. unfold getExponent. rewrite tr_nth by auto. apply table_nth. Qed.

(** ** shrinkExponent finds the index *)
Lemma lower_bound_spec : forall l e, StronglySorted lt l -> In e l ->
  lower_bound (map Z.of_nat l) (Z.of_nat e) < length l /\ nth (lower_bound (map Z.of_nat l) (Z.of_nat e)) l 0 = e.
Proof.
  induction l as [|x l IH]; intros e Hs Hi; [destruct Hi|]. inversion Hs as [|? ? Hs' Hf]; subst. rewrite Forall_forall in Hf.
  cbn [map lower_bound]. destruct (Z.ltb_spec (Z.of_nat x) (Z.of_nat e)) as [L|L].
  - destruct Hi as [->|Hi]; [lia|]. destruct (IH e Hs' Hi). simpl. split; [lia|auto].
  - destruct Hi as [->|Hi]; [simpl; split; [lia|auto]|]. specialize (Hf e Hi). lia.
Qed.
Lemma shrink_spec : forall n I v e, v < n -> In e (U I v) ->
  shrinkExponent (tr_initialize n I) v e < K I v /\ phi I v (shrinkExponent (tr_initialize n I) v e) = e.
Proof.
  intros n I v e Hv Hi. unfold shrinkExponent. rewrite tr_nth, table_eq, removelast_last by auto.
  apply lower_bound_spec; auto. apply U_sorted.
Qed.

(** ** the shrunk ideal *)
Definition J0 (n : nat) (I : big_ideal) : ideal := shrinkBigIdeal n (tr_initialize n I) I.
Definition J1 (n : nat) (I : big_ideal) : ideal := i_minimize n (J0 n I).

Lemma J0_wf : forall n I, wf n (J0 n I).
Proof. intros n I g Hg. apply in_map_iff in Hg. destruct Hg as [h [<- _]]. apply tabulate_length. Qed.
Lemma J0_below : forall n I, below n (K I) (J0 n I).
Proof.
  intros n I g v Hg Hv. apply in_map_iff in Hg. destruct Hg as [h [<- Hh]]. rewrite tabulate_nth by auto.
  apply shrink_spec; auto. apply U_in. right. exists h. auto.
Qed.
Lemma J0_image : forall n I, wf n I -> map (image n (phi I)) (J0 n I) = I.
Proof.
  intros n I Hw. unfold J0, shrinkBigIdeal. rewrite map_map.
  assert (G : forall L, incl L I -> map (fun g => image n (phi I) (tabulate n (fun v => shrinkExponent (tr_initialize n I) v (nth v g 0)))) L = L).
  { induction L as [|g L IH]; intros Hi; simpl; auto. rewrite IH by (intros x Hx; apply Hi; right; auto). f_equal.
    assert (Hg : In g I) by (apply Hi; left; auto). apply term_ext with n; [apply tabulate_length|apply Hw; auto|].
    intros v Hv. rewrite image_nth, tabulate_nth by auto. apply shrink_spec; auto. apply U_in. right. exists g. auto. }
  apply G. apply incl_refl.
Qed.

Lemma J1_min : forall n I, min_of n (J0 n I) (J1 n I).
Proof. intros. apply i_minimize_spec. Qed.
Lemma J1_incl : forall n I, incl (J1 n I) (J0 n I).
Proof. intros n I g. apply (J1_min n I). Qed.
Lemma J1_wf : forall n I, wf n (J1 n I).
Proof. intros n I. apply (min_of_wf n (J0 n I)); [apply J0_wf|apply J1_min]. Qed.
Lemma J1_minl : forall n I, minl n (J1 n I).
Proof. intros n I. apply (J1_min n I). Qed.
Lemma J1_below : forall n I, below n (K I) (J1 n I).
Proof. intros n I g v Hg. apply (J0_below n I); auto. apply J1_incl. auto. Qed.

Lemma J1_ideal : forall n I m, wf n I -> length m = n ->
  (in_ideal I m <-> exists g, In g (J1 n I) /\ forall v, v < n -> phi I v (g @ v) <= m @ v).
Proof.
  intros n I m Hw Hm. rewrite (in_ideal_iff n) by auto. pose proof (J0_image n I Hw) as HI. split.
  - intros [g [Hg Hle]]. rewrite <- HI in Hg. apply in_map_iff in Hg. destruct Hg as [h [<- Hh]].
    destruct (min_of_eqI n _ _ (J1_min n I) h) as [_ E]. destruct (E (inI_self n _ h Hh)) as [h' [Hh' Hl]].
    exists h'. split; auto. intros v Hv. specialize (Hle v Hv). rewrite image_nth in Hle by auto.
    assert (phi I v (h' @ v) <= phi I v (h @ v)); [|lia].
    apply (emb_le n (K I) (phi I)); auto using phi_embedding; [apply (J1_below n I); auto|apply (J0_below n I); auto].
  - intros [g [Hg Hle]]. exists (image n (phi I) g). split.
    + assert (Hi : In (image n (phi I) g) (map (image n (phi I)) (J0 n I))) by (apply in_map, J1_incl; auto).
      rewrite HI in Hi. exact Hi.
    + intros v Hv. rewrite image_nth; auto.
Qed.

(** ** pure powers at infinity *)
Lemma pure_iff : forall n g v, v < n -> ((negb (1 <? t_sizeOfSupport n g) && (t_firstNonZero n g =? v)) = true <->
  0 < g @ v /\ forall w, w < n -> w <> v -> g @ w = 0).
Proof.
  intros n g v Hv. rewrite andb_true_iff, negb_true_iff, Nat.ltb_ge, Nat.eqb_eq.
  destruct (t_firstNonZero_spec n g) as [[A [B C]]|[A C]].
  - split.
    + intros [S E]. rewrite E in *. assert (S1 : t_sizeOfSupport n g = 1).
      { destruct (Nat.eq_dec (t_sizeOfSupport n g) 0) as [Z|Z]; [|lia]. rewrite t_sizeOfSupport_0 in Z. specialize (Z v Hv). lia. }
      apply t_sizeOfSupport_1 in S1. destruct S1 as [u [U1 [U2 U3]]].
      assert (v = u). { destruct (Nat.eq_dec v u); auto. specialize (U3 v Hv ltac:(auto)). lia. } subst u. auto.
    + intros [P Z]. assert (E : t_firstNonZero n g = v).
      { destruct (Nat.eq_dec (t_firstNonZero n g) v); auto. rewrite Z in B by auto. lia. }
      split; auto. enough (t_sizeOfSupport n g = 1) by lia. apply t_sizeOfSupport_1. exists v. auto.
  - split; [intros [_ E]; lia|]. intros [P Z]. rewrite C in P by auto. lia.
Qed.
Lemma hasPure_iff : forall n J v, v < n -> (hasPurePower n J v = true <->
  exists g, In g J /\ 0 < g @ v /\ forall w, w < n -> w <> v -> g @ w = 0).
Proof.
  intros n J v Hv. unfold hasPurePower. rewrite existsb_exists. split; intros [g [Hg H]]; exists g; split; auto; apply pure_iff; auto.
Qed.
Lemma hasPure_n : forall n J, hasPurePower n J n = true <-> exists g, In g J /\ forall w, w < n -> g @ w = 0.
Proof.
  intros n J. unfold hasPurePower. rewrite existsb_exists. split; intros [g [Hg H]]; exists g; split; auto.
  - apply andb_true_iff in H. destruct H as [_ E]. apply Nat.eqb_eq in E.
    destruct (t_firstNonZero_spec n g) as [[A _]|[_ C]]; [lia|auto].
  - pose proof H as H0. apply t_sizeOfSupport_0 in H0. rewrite H0. simpl. apply Nat.eqb_eq.
    destruct (t_firstNonZero_spec n g) as [[A [B _]]|[E _]]; auto. rewrite H in B by auto. lia.
Qed.

Lemma add_in : forall n tr J g, In g (addPurePowersAtInfinity n tr J) -> In g J \/
  exists v, v < n /\ hasPurePower n J v = false /\ hasPurePower n J n = false /\ g = t_set n (t_identity n) v (getMaxId tr v).
Proof.
  intros n tr J g H. unfold addPurePowersAtInfinity in H. destruct (hasPurePower n J n) eqn:E; auto.
  apply in_app_or in H. destruct H as [H|H]; auto. right. apply in_map_iff in H. destruct H as [v [<- H]].
  apply filter_In in H. destruct H as [A B]. apply in_seq in A. apply negb_true_iff in B. exists v. split; [lia|auto].
Qed.

Lemma inf_nth : forall n v e w, w < n -> (t_set n (t_identity n) v e) @ w = if w =? v then e else 0.
Proof. intros. rewrite t_set_nth by auto. rewrite t_identity_nth. auto. Qed.

Lemma add_infinity : forall n tr J (KK : nat -> nat), (forall v, v < n -> getMaxId tr v = KK v) ->
  with_infinity n KK J (addPurePowersAtInfinity n tr J).
Proof.
  intros n tr J KK HK. split; [|split].
  - intros g Hg. unfold addPurePowersAtInfinity. destruct (hasPurePower n J n); auto. apply in_or_app. auto.
  - intros v Hv. unfold addPurePowersAtInfinity. destruct (hasPurePower n J n) eqn:E.
    + apply hasPure_n in E. destruct E as [g [Hg H]]. exists g. auto.
    + destruct (hasPurePower n J v) eqn:Ev.
      * apply hasPure_iff in Ev; auto. destruct Ev as [g [Hg [_ H]]]. exists g. split; auto. apply in_or_app. auto.
      * exists (t_set n (t_identity n) v (getMaxId tr v)). split.
        -- apply in_or_app. right. apply in_map_iff. exists v. split; auto. apply filter_In. split; [apply in_seq; lia|].
           rewrite Ev. auto.
        -- intros w Hw Hne. rewrite inf_nth by auto. destruct (Nat.eqb_spec w v); [contradiction|auto].
  - intros g Hg. apply add_in in Hg. destruct Hg as [Hg|[v [Hv [_ [_ ->]]]]]; auto. right. exists v. split; auto.
    split.
    + rewrite inf_nth by auto. rewrite Nat.eqb_refl. auto.
    + intros w Hw Hne. rewrite inf_nth by auto. destruct (Nat.eqb_spec w v); [contradiction|auto].
Qed.

Lemma add_wf : forall n tr J, wf n J -> wf n (addPurePowersAtInfinity n tr J).
Proof.
  intros n tr J Hw g Hg. apply add_in in Hg. destruct Hg as [Hg|[v [_ [_ [_ ->]]]]]; auto. apply t_set_length.
Qed.

Lemma add_minl : forall n tr J, wf n J -> minl n J -> (forall v, v < n -> 0 < getMaxId tr v) ->
  (forall g v, In g J -> v < n -> g @ v < getMaxId tr v) -> minl n (addPurePowersAtInfinity n tr J).
Proof.
  intros n tr J Hw Hm HK HB. unfold addPurePowersAtInfinity. destruct (hasPurePower n J n) eqn:E; auto.
  set (F := filter (fun v => negb (hasPurePower n J v)) (seq 0 n)).
  assert (HF : forall v, In v F -> v < n /\ hasPurePower n J v = false).
  { intros v Hv. apply filter_In in Hv. destruct Hv as [A B]. apply in_seq in A. apply negb_true_iff in B. split; [lia|auto]. }
  apply minl_app; auto.
  - assert (G : forall u v, In u F -> In v F ->
      le_n n (t_set n (t_identity n) u (getMaxId tr u)) (t_set n (t_identity n) v (getMaxId tr v)) -> u = v).
    { intros u v Hu Hv H. destruct (HF u Hu) as [Lu _]. specialize (H u Lu). rewrite !inf_nth in H by auto.
      rewrite Nat.eqb_refl in H. destruct (Nat.eqb_spec u v); auto. specialize (HK u Lu). lia. }
    assert (HFn : NoDup F) by (apply NoDup_filter, seq_NoDup).
    split.
    + assert (G2 : forall l, incl l F -> NoDup l -> NoDup (map (fun v => t_set n (t_identity n) v (getMaxId tr v)) l)).
      { induction l as [|u l IH]; intros Hi Hn; simpl; [constructor|]. inversion Hn; subst. constructor.
        - intros Hin. apply in_map_iff in Hin. destruct Hin as [v [Ev Hv]]. assert (v = u); [|subst; auto].
          apply G; [apply Hi; right; auto|apply Hi; left; auto|]. rewrite Ev. apply le_n_refl.
        - apply IH; auto. intros x Hx. apply Hi. right. auto. }
      apply G2; auto. apply incl_refl.
    + intros g h Hg Hh H. apply in_map_iff in Hg. destruct Hg as [u [<- Hu]]. apply in_map_iff in Hh. destruct Hh as [v [<- Hv]].
      rewrite (G u v); auto.
  - intros g h Hg Hh H. apply in_map_iff in Hh. destruct Hh as [v [<- Hv]]. destruct (HF v Hv) as [Lv Ev].
    assert (Z : forall w, w < n -> w <> v -> g @ w = 0).
    { intros w Hw' Hne. specialize (H w Hw'). rewrite inf_nth in H by auto. destruct (Nat.eqb_spec w v); [contradiction|lia]. }
    destruct (Nat.eq_dec (g @ v) 0) as [Zv|Pv].
    + rewrite not_true_false in E. apply E. apply hasPure_n. exists g. split; auto. intros w Hw'.
      destruct (Nat.eq_dec w v) as [->|]; auto.
    + rewrite not_true_false in Ev. apply Ev. apply hasPure_iff; auto. exists g. split; auto. split; auto. lia.
  - intros g h Hg Hh H. apply in_map_iff in Hh. destruct Hh as [v [<- Hv]]. destruct (HF v Hv) as [Lv _].
    specialize (H v Lv). rewrite inf_nth in H by auto. rewrite Nat.eqb_refl in H. specialize (HB g v Hg Lv). lia.
Qed.

(** ** translating terms *)
Lemma translate_from_spec : forall tr t (f : nat -> Z) k v,
  (forall w, v <= w < v + k -> getExponent tr w (t @ w) = Some (f w)) ->
  translate_from tr t v k = Some (map f (seq v k)).
Proof.
  induction k as [|k IH]; intros v H; cbn [translate_from seq map]; auto.
  rewrite H by lia. rewrite IH; auto. intros w Hw. apply H. lia.
Qed.
Lemma translate_spec : forall n tr t f, (forall v, v < n -> getExponent tr v (t @ v) = Some (f v)) ->
  translate n tr t = Some (map f (seq 0 n)).
Proof. intros. apply translate_from_spec. intros w Hw. apply H. lia. Qed.
Lemma translate_all_spec : forall n tr ts g, (forall t, In t ts -> translate n tr t = Some (g t)) ->
  translate_all n tr ts = Some (map g ts).
Proof.
  induction ts as [|t ts IH]; intros g H; cbn [translate_all map]; auto. rewrite (H t) by (left; auto).
  rewrite (IH g); auto. intros t' Ht'. apply H. right. auto.
Qed.
Lemma of_nat_tabulate : forall n f, map (fun v => Z.of_nat (f v)) (seq 0 n) = map Z.of_nat (tabulate n f).
Proof. intros. unfold tabulate. rewrite map_map. auto. Qed.
