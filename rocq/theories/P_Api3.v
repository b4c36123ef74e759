(** Associated primes and primary decomposition through the API. *)
From Coq Require Import List Arith Bool ZArith Lia Permutation Sorted.
Import ListNotations.
From Verif Require Import Spec Spec_Slice Spec_Run Spec_Api M_Term M_Ideal M_Slice M_Msm M_Api P_Term P_Ideal P_Bridge P_Msm1 P_Process P_Run P_Valid P_Corner P_Decomp P_Translator P_Internal P_Api P_Api2.

(** ** removeDuplicates *)
Lemma unique_lex : forall n x l, StronglySorted (before (t_lexLess n)) (x :: l) -> wf n (x :: l) ->
  NoDup (x :: unique_aux (t_equals n) x l) /\ (forall e, In e (x :: unique_aux (t_equals n) x l) <-> In e (x :: l)) /\
  StronglySorted (before (t_lexLess n)) (x :: unique_aux (t_equals n) x l).
Proof.
  intros n x l. revert x. induction l as [|y l IH]; intros x Hs Hw; cbn [unique_aux].
  - split; [repeat constructor; auto|]. split; [tauto|auto].
  - inversion Hs as [|? ? Hs' Hf]; subst. inversion Hf as [|? ? Hxy Hf']; subst.
    assert (Hwx : length x = n) by (apply Hw; left; auto). assert (Hwy : length y = n) by (apply Hw; right; left; auto).
    destruct (t_equals n x y) eqn:E.
    + apply t_equals_eq in E; auto. subst y. destruct (IH x Hs') as [A [B C]].
      { intros g Hg. apply Hw. right. auto. }
      split; auto. split; auto. intros e. rewrite B. simpl. tauto.
    + destruct (IH y Hs') as [A [B C]]. { intros g Hg. apply Hw. right. auto. }
      assert (Hne : x <> y). { intros ->. rewrite (proj2 (t_equals_eq n y y Hwy Hwy) eq_refl) in E. discriminate. }
      assert (Hall : forall z, In z (y :: unique_aux (t_equals n) y l) -> before (t_lexLess n) x z).
      { intros z Hz. apply B in Hz. destruct Hz as [<-|Hz]; auto. rewrite Forall_forall in Hf'. auto. }
      assert (Hall2 : forall z, In z (y :: unique_aux (t_equals n) y l) -> before (t_lexLess n) y z).
      { intros z Hz. apply B in Hz. inversion Hs' as [|? ? _ Hf2]; subst. rewrite Forall_forall in Hf2.
        destruct Hz as [<-|Hz]; auto. unfold before, t_lexLess, t_lexCompare. rewrite lex_from_refl. auto. }
      split; [|split].
      * constructor; auto. intros Hi. specialize (Hall2 x Hi). unfold before in *. apply Hne.
        rewrite t_lexLess_false in *. unfold t_lexCompare in *. rewrite lex_from_antisym in Hall2.
        assert (Eq : lex_from x y 0 n = Eq) by (destruct (lex_from x y 0 n); simpl in *; congruence).
        apply term_ext with n; auto. intros v Hv. rewrite lex_from_eq in Eq. apply Eq. lia.
      * intros e. split; intros [->|Hi]; simpl; auto; right; apply B; auto.
      * constructor; auto. rewrite Forall_forall. auto.
Qed.

Lemma removeDuplicates_spec : forall n I, wf n I -> NoDup (i_removeDuplicates n I) /\ (forall e, In e (i_removeDuplicates n I) <-> In e I).
Proof.
  intros n I Hw. unfold i_removeDuplicates. pose proof (std_sort_lex_sorted n I) as Hs. pose proof (std_sort_in (t_lexLess n) I) as Hi.
  destruct (std_sort (t_lexLess n) I) as [|x l]; unfold std_unique.
  - split; [constructor|auto].
  - destruct (unique_lex n x l Hs) as [A [B _]].
    { intros g Hg. apply Hw. apply Hi. auto. }
    split; auto. intros e. rewrite B. apply Hi.
Qed.

(** ** C11 *)
Lemma U_zeroOne : forall n v, v < n -> U [repeat 0 n; repeat 1 n] v = [0;1].
Proof.
  intros n v Hv. unfold U. cbn [map]. assert (E0 : nth v (repeat 0 n) 0 = 0) by apply nth_repeat.
  assert (E1 : nth v (repeat 1 n) 0 = 1). { rewrite nth_indep with (d' := 1) by (rewrite repeat_length; auto). apply nth_repeat. }
  rewrite E0, E1. reflexivity.
Qed.

Lemma translate_zeroOne : forall n s, length s = n -> (forall v, v < n -> s @ v <= 1) -> translate n (tr_zeroOne n) s = Some (znat s).
Proof.
  intros n s Hl H. rewrite (translate_spec n _ _ (fun v => Z.of_nat (s @ v))).
  - f_equal. unfold znat. rewrite of_nat_tabulate. f_equal. apply tabulate_id. auto.
  - intros v Hv. unfold tr_zeroOne. rewrite getExponent_eq by auto. unfold K, phi. rewrite U_zeroOne by auto.
    specialize (H v Hv). destruct (s @ v) as [|[|k]]; [reflexivity|reflexivity|lia].
Qed.

Lemma supports_spec : forall n I out, (forall d v, In d out -> v < n -> d @ v <= K I v) ->
  supports_of n (tr_initialize n I) out = Some (map (fun d => supp n (comp n (K I) (phi I) d)) out).
Proof.
  induction out as [|d out IH]; intros H; cbn [supports_of map]; auto.
  unfold support_of. rewrite translate_comp by (intros v Hv; apply H; [left|]; auto). cbn [bind].
  rewrite IH by (intros d' v Hd'; apply H; right; auto). cbn [bind]. f_equal. f_equal.
  unfold znat, supp, comp, tabulate. rewrite !map_map. apply map_ext_in. intros v Hv. apply in_seq in Hv.
  fold (tabulate n (fun v0 => if d @ v0 =? K I v0 then 0 else phi I v0 (d @ v0))). rewrite tabulate_nth by lia.
  destruct (if d @ v =? K I v then 0 else phi I v (d @ v)); reflexivity.
Qed.

Lemma g_ass : forall c rnd n I J, legal_config c -> in_ring n I -> internal n I J -> exists Ss,
  computeAssociatedPrimes c rnd (co_of n I J) = Some (block n Ss) /\
  NoDup Ss /\ forall s, In s Ss <-> associated_prime n I s.
Proof.
  intros c rnd n I J Hc Hr HJ. pose proof Hr as Hw. apply in_ring_wf in Hw.
  destruct (encoded_spec c rnd n I J Hc Hw HJ) as [out [A [B [C [E F]]]]].
  set (rad := map (fun d => supp n (comp n (K I) (phi I) d)) out).
  assert (Hwr : wf n rad). { intros s Hs. apply in_map_iff in Hs. destruct Hs as [d [<- _]]. apply tabulate_length. }
  destruct (removeDuplicates_spec n rad Hwr) as [G1 G2]. exists (i_removeDuplicates n rad). split; [|split; auto].
  - unfold computeAssociatedPrimes. cbv zeta. rewrite A. cbn [bind co_of co_n co_tr].
    rewrite supports_spec by (intros d v Hd Hv; apply E; auto). cbn [bind]. fold rad.
    rewrite (emit_block n _ _ (fun s => s)).
    + rewrite map_id. auto.
    + intros s Hs. apply G2 in Hs. apply translate_zeroOne; auto. intros v Hv. apply in_map_iff in Hs. destruct Hs as [d [<- _]].
      unfold supp. rewrite tabulate_nth by auto. destruct (_ =? 0); lia.
  - intros s. rewrite G2. rewrite (ass_iff n I _ s F). unfold rad. rewrite in_map_iff. split.
    + intros [d [<- Hd]]. exists (comp n (K I) (phi I) d). split; auto. apply in_map. auto.
    + intros [x [Hx ->]]. apply in_map_iff in Hx. destruct Hx as [d [<- Hd]]. exists d. auto.
Qed.
Lemma p_ass : forall c rnd n I, legal_config c -> in_ring n I -> exists Ss,
  api_associatedPrimes c rnd n I = Some (concat (map (fun s => block n (irreducible_generators n s)) Ss)) /\
  NoDup Ss /\ forall s, In s Ss <-> associated_prime n I s.
Proof.
  intros c rnd n I Hc Hr. destruct (g_ass c rnd n I (J1 n I) Hc Hr) as [Ss [A B]]; [apply J1_internal, in_ring_wf; auto|].
  exists Ss. split; auto. unfold api_associatedPrimes. rewrite set_co, A. cbn [bind]. rewrite decoder_block. auto.
Qed.

(** ** primary decomposition *)
Definition idf (v i : nat) : nat := i.
Lemma id_embedding : forall n KK, (forall v, v < n -> 0 < KK v) -> embedding n KK idf.
Proof. intros n KK H v Hv. repeat split; auto. Qed.

Lemma emb_floor : forall n KK ph m, embedding n KK ph -> exists t, length t = n /\
  forall v, v < n -> t @ v < KK v /\ ph v (t @ v) <= m @ v /\ forall i, i < KK v -> ph v i <= m @ v -> i <= t @ v.
Proof.
  intros n KK ph m HE.
  exists (tabulate n (fun v => length (filter (fun i => (0 <? i) && (ph v i <=? m @ v)) (seq 0 (KK v))))).
  split; [apply tabulate_length|]. intros v Hv. rewrite tabulate_nth by auto. destruct (HE v Hv) as [K0 [Z M]].
  assert (G : forall k, 0 < k -> k <= KK v -> exists j, j < k /\ ph v j <= m @ v /\
       (forall i, i < k -> ph v i <= m @ v -> i <= j) /\
       length (filter (fun i => (0 <? i) && (ph v i <=? m @ v)) (seq 0 k)) = j).
  { induction k as [|k IH]; intros Hk Hle; [lia|]. destruct (Nat.eq_dec k 0) as [->|Hk0].
    - exists 0. split; [lia|]. split; [lia|]. split; [intros; lia|]. reflexivity.
    - destruct (IH ltac:(lia) ltac:(lia)) as [j [A [B [C D]]]]. rewrite seq_S, filter_app, app_length, D.
      cbn [filter]. replace (0 + k) with k by lia.
      assert (0 <? k = true) as -> by (apply Nat.ltb_lt; lia). cbn [andb].
      destruct (Nat.leb_spec (ph v k) (m @ v)) as [L|L].
      + assert (j = k - 1).
        { destruct (Nat.eq_dec j (k - 1)); auto. exfalso.
          assert (k - 1 <= j); [|lia]. apply C; [lia|]. pose proof (M (k - 1) k ltac:(lia) ltac:(lia)). lia. }
        exists k. split; [lia|]. split; auto. split; [intros; lia|]. simpl. lia.
      + exists j. split; [lia|]. split; auto. split; [|simpl; lia]. intros i Hi Hv'.
        destruct (Nat.eq_dec i k) as [->|]; [lia|]. apply C; auto. lia. }
  destruct (G (KK v) K0 (Nat.le_refl _)) as [j [A [B [C D]]]]. rewrite D. auto.
Qed.

Lemma encodedDual_reflect : forall n a c, le_n n c a -> t_encodedDual n c a = reflect_pt n a c.
Proof.
  intros n a c H. unfold t_encodedDual, reflect_pt. apply tabulate_ext. intros v Hv. specialize (H v Hv).
  destruct (Nat.eqb_spec (c @ v) 0); lia.
Qed.

Lemma reflect_in_irr : forall n a c m, length c = n -> le_n n c a ->
  ((exists i, 0 < (reflect_pt n a c) @ i /\ a @ i + 1 <= m @ i + (reflect_pt n a c) @ i) <-> in_irreducible c m).
Proof.
  intros n a c m Hl Hle. rewrite (in_irr_iff n) by auto. split.
  - intros [v [A B]]. destruct (Nat.lt_ge_cases v n) as [Hv|Hv].
    + exists v. split; auto. unfold reflect_pt in *. rewrite tabulate_nth in * by auto. specialize (Hle v Hv).
      destruct (Nat.eqb_spec (c @ v) 0); lia.
    + unfold reflect_pt in A. rewrite tabulate_out in A by auto. lia.
  - intros [v [Hv [A B]]]. exists v. unfold reflect_pt. rewrite tabulate_nth by auto. specialize (Hle v Hv).
    destruct (Nat.eqb_spec (c @ v) 0); lia.
Qed.

(** the irreducible decomposition in ids *)
Definition cid (n : nat) (I : big_ideal) : term -> term := comp n (K I) idf.
Lemma setInf_eq : forall n I L, setInfinityPowersToZero n (tr_initialize n I) L = map (cid n I) L.
Proof.
  intros n I L. unfold setInfinityPowersToZero, cid, comp. apply map_ext. intros g. apply tabulate_ext. intros v Hv.
  rewrite maxId_eq by auto. auto.
Qed.
Lemma comp_cid : forall n I d, comp n (K I) (phi I) d = image n (phi I) (cid n I d).
Proof.
  intros n I d. unfold cid, comp, image. apply tabulate_ext. intros v Hv. rewrite tabulate_nth by auto. unfold idf.
  destruct (d @ v =? K I v); auto. rewrite phi_0. auto.
Qed.
Lemma cid_decomp : forall n I J out, internal n I J -> NoDup out -> (forall d, In d out <-> corner n (Jinf n I J) d) ->
  irreducible_decomposition n J (map (cid n I) out).
Proof.
  intros n I J out HJ Hn Ho. apply (decomp_all n (K I) idf J (Jinf n I J)); auto using with_inf.
  - apply id_embedding. intros. apply K_bounds.
  - intros g v. apply (int_below _ _ _ HJ).
  - intros m Hm. rewrite (in_ideal_iff n); [reflexivity|apply (int_wf _ _ _ HJ)|auto].
Qed.

(** ** runs *)
Lemma hasSame_iff : forall n a b, t_hasSameSupport n a b = true <-> same_support n a b.
Proof. intros. apply t_hasSameSupport_iff. Qed.

Lemma runs_concat : forall n l Gs, support_runs n l Gs -> concat Gs = l.
Proof. intros n l Gs H. induction H; simpl in *; auto; [f_equal; auto|rewrite IHsupport_runs; auto]. Qed.
Lemma runs_functional : forall n l Gs Gs', support_runs n l Gs -> support_runs n l Gs' -> Gs = Gs'.
Proof.
  intros n l Gs Gs' H. revert Gs'. induction H as [|c|c d l G Gs Hs H IH|c d l Gs Hs H IH]; intros Gs' H'; inversion H'; subst; auto; try contradiction.
  - match goal with H5 : support_runs n (d :: l) _ |- _ => apply IH in H5; congruence end.
  - match goal with H5 : support_runs n (d :: l) _ |- _ => apply IH in H5; congruence end.
Qed.

Lemma nodup_app_l : forall {A} (a b : list A), NoDup (a ++ b) -> NoDup a.
Proof. induction a as [|x a IH]; intros b H; [constructor|]. simpl in H. inversion H; subst. constructor; [|eapply IH; eauto]. intros Hx. apply H2. apply in_or_app. auto. Qed.
Lemma nodup_app_r : forall {A} (a b : list A), NoDup (a ++ b) -> NoDup b.
Proof. induction a as [|x a IH]; intros b H; auto. simpl in H. inversion H; subst. eapply IH; eauto. Qed.

Section Group.
Variables (n : nat) (I : big_ideal) (J : ideal) (D0 : list term) (lcm : term).
Hypothesis HD : irreducible_decomposition n J D0.
Hypothesis Hll : length lcm = n.
Hypothesis Hlcm : forall c, In c D0 -> le_n n c lcm.
Hypothesis HlK : forall v, v < n -> lcm @ v < K I v.
Hypothesis Hl1 : n = 1 -> lcm @ 0 <= 1.

Lemma group_spec : forall c rnd G, legal_config c -> G <> [] -> incl G D0 -> NoDup G -> exists comps B,
  msm_run c rnd n (addPurePowersAtInfinity n (tr_initialize n I) (map (fun g => t_encodedDual n g lcm) G)) = Some comps /\
  emit n (tr_initialize n I) (map (fun g => t_encodedDual n g lcm) (setInfinityPowersToZero n (tr_initialize n I) comps)) = Some (block n B) /\
  in_ring n B /\ lists_minimal n (fun m => forall x, In x G -> in_irreducible (image n (phi I) x) m) B.
Proof.
  intros c rnd G Hc HG Hi Hnd.
  assert (HwG : forall x, In x G -> length x = n) by (intros x Hx; apply (d_len n _ _ HD); auto).
  set (dual := map (reflect_pt n lcm) G).
  assert (Ed : map (fun g => t_encodedDual n g lcm) G = dual).
  { apply map_ext_in. intros x Hx. apply encodedDual_reflect. auto. }
  rewrite Ed.
  assert (Hwd : wf n dual). { intros g Hg. apply in_map_iff in Hg. destruct Hg as [x [<- _]]. apply tabulate_length. }
  assert (Hmd : minl n dual).
  { apply minl_sub with (map (reflect_pt n lcm) D0).
    - apply reflect_minl with J; auto.
    - intros g Hg. apply in_map_iff in Hg. destruct Hg as [x [<- Hx]]. apply in_map. auto.
    - pose proof (reflect_minl n J D0 lcm HD Hlcm) as [Hn _]. 
      apply NoDup_map_on; auto. intros x y Hx Hy E. clear -Hn Hi Hx Hy E.
      apply Hi in Hx. apply Hi in Hy. clear Hi. induction D0 as [|d D IH]; [destruct Hx|]. simpl in Hn. inversion Hn; subst.
      destruct Hx as [->|Hx], Hy as [->|Hy]; auto.
      + exfalso. apply H1. rewrite E. apply in_map. auto.
      + exfalso. apply H1. rewrite <- E. apply in_map. auto. }
  assert (Hdl : forall g v, In g dual -> v < n -> g @ v <= lcm @ v).
  { intros g v Hg Hv. apply in_map_iff in Hg. destruct Hg as [x [<- Hx]]. unfold reflect_pt. rewrite tabulate_nth by auto.
    destruct (Nat.eqb_spec (x @ v) 0); lia. }
  assert (HB : below n (K I) dual).
  { intros g v Hg Hv. specialize (Hdl g v Hg Hv). specialize (HlK v Hv). lia. }
  assert (HB' : forall g v, In g dual -> v < n -> g @ v < K I v) by (intros g v; apply HB).
  destruct (run_inf c rnd n (tr_initialize n I) dual (K I)) as [comps [A [B C]]]; auto.
  { intros. apply maxId_eq; auto. } { intros. apply K_bounds. }
  { destruct (Nat.eq_dec n 1) as [E|]; [|left; auto]. right. right. right. intros g Hg. apply add_in in Hg.
    destruct Hg as [Hg|[v [Hv [E0 [E1 ->]]]]].
    - specialize (Hdl g 0 Hg ltac:(lia)). specialize (Hl1 E). lia.
    - exfalso. destruct G as [|x G']; [congruence|]. assert (Hx : In (reflect_pt n lcm x) dual) by (left; auto).
      destruct (Nat.eq_dec ((reflect_pt n lcm x) @ 0) 0) as [Z|P].
      + rewrite not_true_false in E1. apply E1. apply hasPure_n. exists (reflect_pt n lcm x). split; auto. intros w Hw. assert (w = 0) by lia. subst; auto.
      + rewrite not_true_false in E0. apply E0. assert (v = 0) by lia. subst v. apply hasPure_iff; [lia|].
        exists (reflect_pt n lcm x). split; auto. split; [lia|]. intros; lia. }
  set (J' := addPurePowersAtInfinity n (tr_initialize n I) dual) in *.
  assert (HJ : with_infinity n (K I) dual J') by (apply add_infinity; intros; apply maxId_eq; auto).
  assert (HE : embedding n (K I) idf) by (apply id_embedding; intros; apply K_bounds).
  assert (HD2 : irreducible_decomposition n dual (map (cid n I) comps)).
  { apply (decomp_all n (K I) idf dual J'); auto. intros m Hm. rewrite (in_ideal_iff n) by auto. reflexivity. }
  assert (Hlcm2 : forall x, In x (map (cid n I) comps) -> le_n n x lcm).
  { intros x Hx v Hv. apply in_map_iff in Hx. destruct Hx as [d [<- Hd]]. apply C in Hd. unfold cid. rewrite comp_nth by auto. unfold idf.
    destruct (Nat.eqb_spec (d @ v) (K I v)); [lia|]. pose proof (corner_le_K n (K I) dual J' HB' HJ d v Hd Hv).
    destruct (corner_label n (K I) dual J' HJ d v Hd Hv ltac:(lia)) as [g [Hg [Eg _]]]. rewrite <- Eg. auto. }
  set (B0 := map (reflect_pt n lcm) (map (cid n I) comps)).
  assert (EB0 : map (fun g => t_encodedDual n g lcm) (setInfinityPowersToZero n (tr_initialize n I) comps) = B0).
  { rewrite setInf_eq. apply map_ext_in. intros x Hx. apply encodedDual_reflect. auto. }
  destruct (dual_gens n dual (map (cid n I) comps) lcm Hwd HD2 Hll Hlcm2) as [G1 [G2 G3]].
  fold B0 in G1, G2, G3.
  assert (HwB : wf n B0). { intros g Hg. apply in_map_iff in Hg. destruct Hg as [x [<- _]]. apply tabulate_length. }
  assert (HmB : minl n B0) by (apply reflect_minl with dual; auto).
  assert (HBB : forall b v, In b B0 -> v < n -> b @ v < K I v).
  { intros b v Hb Hv. apply in_map_iff in Hb. destruct Hb as [x [<- Hx]]. unfold reflect_pt. rewrite tabulate_nth by auto.
    specialize (HlK v Hv). destruct (Nat.eqb_spec (x @ v) 0); [apply K_bounds|lia]. }
  assert (Hmem : forall m, length m = n -> (in_ideal B0 m <-> forall x, In x G -> in_irreducible x m)).
  { intros m Hm. rewrite G3 by auto. unfold in_alexander_dual, dual. split.
    - intros H x Hx. apply (reflect_in_irr n lcm); auto. apply H. apply in_map. auto.
    - intros H g Hg. apply in_map_iff in Hg. destruct Hg as [x [<- Hx]]. apply (reflect_in_irr n lcm); auto. }
  exists comps, (map (image n (phi I)) B0). split; [exact A|].
  assert (HwI : wf n (map (image n (phi I)) B0)).
  { intros g Hg. apply in_map_iff in Hg. destruct Hg as [x [<- _]]. apply tabulate_length. }
  split; [|split; [apply in_ring_wf; auto|]].
  - rewrite EB0. apply emit_block. intros b Hb. rewrite translate_comp by (intros v Hv; specialize (HBB b v Hb Hv); lia).
    f_equal. f_equal. apply term_ext with n; [apply tabulate_length|apply tabulate_length|]. intros v Hv. rewrite comp_nth, image_nth by auto.
    specialize (HBB b v Hb Hv). destruct (Nat.eqb_spec (b @ v) (K I v)); [lia|auto].
  - assert (HmI : minl n (map (image n (phi I)) B0)).
    { apply minl_incl_map with (I := B0); auto using incl_refl. intros g h Hg Hh H v Hv. specialize (H v Hv).
      rewrite !image_nth in H by auto.
      exact (proj1 (emb_le n (K I) (phi I) v _ _ (phi_embedding n I) Hv (HBB g v Hg Hv) (HBB h v Hh Hv)) H). }
    assert (HKx : forall x v, In x G -> v < n -> x @ v < K I v).
    { intros x v Hx Hv. pose proof (Hlcm x (Hi x Hx) v Hv). specialize (HlK v Hv). lia. }
    assert (Hpos : forall x v, In x G -> v < n -> (0 < (image n (phi I) x) @ v <-> 0 < x @ v)).
    { intros x v Hx Hv. rewrite image_nth by auto. apply (emb_pos n (K I)); auto using phi_embedding. }
    assert (Hmem2 : forall m, length m = n -> ((forall x, In x G -> in_irreducible (image n (phi I) x) m) <-> inI n (map (image n (phi I)) B0) m)).
    { intros m Hm. split.
      - intros H. destruct (emb_floor n (K I) (phi I) m (phi_embedding n I)) as [t [Ht Hf]].
        assert (Hin : in_ideal B0 t).
        { apply Hmem; auto. intros x Hx. specialize (H x Hx). apply (in_irr_iff n) in H; [|apply tabulate_length].
          destruct H as [v [Hv [P Q]]]. apply (in_irr_iff n); auto. exists v. split; auto. split; [apply Hpos; auto|].
          rewrite image_nth in Q by auto. apply Hf; auto. }
        apply (in_ideal_iff n) in Hin; auto. destruct Hin as [b [Hb Hle]]. exists (image n (phi I) b). split; [apply in_map; auto|].
        intros v Hv. rewrite image_nth by auto. destruct (Hf v Hv) as [F1 [F2 _]].
        apply Nat.le_trans with (phi I v (t @ v)); auto. apply (emb_le n (K I)); auto using phi_embedding.
      - intros [g [Hg Hle]] x Hx. apply in_map_iff in Hg. destruct Hg as [b [<- Hb]].
        assert (Hbm : in_ideal B0 b). { apply (in_ideal_iff n); auto. apply inI_self; auto. }
        pose proof (proj1 (Hmem b (HwB b Hb)) Hbm x Hx) as Q. apply (in_irr_iff n) in Q; auto. destruct Q as [v [Hv [P Q]]].
        apply (in_irr_iff n); [apply tabulate_length|]. exists v. split; auto. split; [apply Hpos; auto|].
        specialize (Hle v Hv). rewrite image_nth in * by auto. apply Nat.le_trans with (phi I v (b @ v)); auto.
        apply (emb_le n (K I)); auto using phi_embedding. }
    destruct (minl_minimal_in n _ _ HwI HmI Hmem2) as [M1 M2]. split; auto. split; auto.
    intros m Hm. rewrite (in_ideal_iff n) by auto. symmetry. auto.
Qed.

Lemma take_group_spec : forall s l a b, take_group n s l = (a, b) -> l = a ++ b /\
  (forall x, In x a -> t_hasSameSupport n s x = true) /\ (forall x b', b = x :: b' -> t_hasSameSupport n s x = false).
Proof.
  induction l as [|t l IH]; intros a b E; cbn [take_group] in E.
  - inversion E; subst. split; auto. split; [intros x []|discriminate].
  - destruct (t_hasSameSupport n s t) eqn:Es.
    + destruct (take_group n s l) as [a' b'] eqn:Et. inversion E; subst. destruct (IH a' b eq_refl) as [A [B C]].
      split; [simpl; congruence|]. split; auto. intros x [<-|Hx]; auto.
    + inversion E; subst. split; auto. split; [intros x []|]. intros x b' Eb. inversion Eb; subst. auto.
Qed.

Definition good_group (G B : list mono) : Prop :=
  G <> [] /\ (forall x y, In x G -> In y G -> same_support n x y) /\ in_ring n B /\
  lists_minimal n (fun m => forall x, In x G -> in_irreducible x m) B.

Lemma image_support : forall x y, (forall v, v < n -> x @ v < K I v) -> (forall v, v < n -> y @ v < K I v) ->
  t_hasSameSupport n x y = true -> same_support n (image n (phi I) x) (image n (phi I) y).
Proof.
  intros x y Hx Hy H v Hv. rewrite t_hasSameSupport_iff in H. specialize (H v Hv). rewrite !image_nth by auto.
  pose proof (emb_pos n (K I) (phi I) v (x @ v) (phi_embedding n I) Hv (Hx v Hv)).
  pose proof (emb_pos n (K I) (phi I) v (y @ v) (phi_embedding n I) Hv (Hy v Hv)). lia.
Qed.

Lemma image_support_iff : forall x y, (forall v, v < n -> x @ v < K I v) -> (forall v, v < n -> y @ v < K I v) ->
  (same_support n x y <-> same_support n (image n (phi I) x) (image n (phi I) y)).
Proof.
  intros x y Hx Hy. unfold same_support. split; intros H v Hv; specialize (H v Hv); rewrite !image_nth in * by auto;
  pose proof (emb_pos n (K I) (phi I) v (x @ v) (phi_embedding n I) Hv (Hx v Hv));
  pose proof (emb_pos n (K I) (phi I) v (y @ v) (phi_embedding n I) Hv (Hy v Hv)); lia.
Qed.

Lemma take_runs : forall l t grp rest Gs, (forall x v, In x (t :: l) -> v < n -> x @ v < K I v) -> take_group n t l = (grp, rest) ->
  support_runs n (map (image n (phi I)) rest) Gs ->
  support_runs n (map (image n (phi I)) (t :: l)) (map (image n (phi I)) (t :: grp) :: Gs).
Proof.
  induction l as [|u l IH]; intros t grp rest Gs HK E H; cbn [take_group] in E.
  - injection E as <- <-. inversion H. constructor.
  - pose proof (image_support_iff t u (fun v => HK t v (or_introl eq_refl)) (fun v => HK u v (or_intror (or_introl eq_refl)))) as HS.
    destruct (t_hasSameSupport n t u) eqn:Es.
    + destruct (take_group n t l) as [a b] eqn:Et. injection E as <- <-. apply hasSame_iff in Es.
      assert (Et' : take_group n u l = (a, b)).
      { rewrite <- Et. clear -Es. assert (Q : forall x, t_hasSameSupport n u x = t_hasSameSupport n t x).
        { intros x. apply eq_true_iff_eq. rewrite !t_hasSameSupport_iff. split; intros H v Hv; specialize (H v Hv); specialize (Es v Hv); tauto. }
        induction l as [|y l IHl]; cbn [take_group]; auto. rewrite Q. destruct (t_hasSameSupport n t y); auto. rewrite IHl. auto. }
      apply (IH u a b Gs) in Et'; auto; [|intros x v Hx; apply HK; right; auto].
      cbn [map] in *. apply runs_same; [apply HS; auto|auto].
    + injection E as <- <-. cbn [map] in *. apply runs_new; auto. intros Hs. apply HS in Hs. apply hasSame_iff in Hs. congruence.
Qed.

Lemma loop_spec : forall fuel c rnd k l, legal_config c -> length l <= fuel -> incl l D0 -> NoDup l -> exists Gs Bs,
  primary_loop fuel c rnd k n (tr_initialize n I) lcm l = Some (concat (map (block n) Bs)) /\
  support_runs n (map (image n (phi I)) l) Gs /\ Forall2 good_group Gs Bs.
Proof.
  induction fuel as [|fuel IH]; intros c rnd k l Hc Hf Hi Hn.
  - destruct l; [|simpl in Hf; lia]. exists [], []. simpl. split; auto. split; constructor.
  - destruct l as [|t l]; [exists [], []; simpl; split; auto; split; constructor|]. cbn [primary_loop].
    destruct (take_group n t l) as [grp rest] eqn:Et. destruct (take_group_spec t l grp rest Et) as [E1 [E2 _]]. subst l.
    assert (HKl : forall x v, In x (t :: grp ++ rest) -> v < n -> x @ v < K I v).
    { intros x v Hx Hv. pose proof (Hlcm x (Hi x Hx) v Hv). specialize (HlK v Hv). lia. }
    assert (Hi1 : incl (t :: grp) D0). { intros x Hx. apply Hi. simpl in *. rewrite in_app_iff. tauto. }
    assert (Hi2 : incl rest D0). { intros x Hx. apply Hi. right. apply in_or_app. auto. }
    assert (Hn1 : NoDup (t :: grp)). { apply (nodup_app_l (t :: grp) rest). auto. }
    assert (Hn2 : NoDup rest). { apply (nodup_app_r (t :: grp) rest). auto. }
    destruct (group_spec c (rnd k) (t :: grp) Hc ltac:(discriminate) Hi1 Hn1) as [comps [B [A1 [A2 [A3 A4]]]]].
    destruct (IH c rnd (S k) rest Hc) as [Gs [Bs [B1 [B2 B3]]]]; auto.
    { simpl in Hf. rewrite app_length in Hf. lia. }
    exists (map (image n (phi I)) (t :: grp) :: Gs), (B :: Bs). split; [|split].
    + rewrite A1. cbn [bind]. rewrite A2. cbn [bind]. rewrite B1. cbn [bind]. auto.
    + apply take_runs with rest; auto.
    + constructor; auto. split; [discriminate|].
      assert (Hs : forall x, In x (t :: grp) -> t_hasSameSupport n t x = true).
      { intros x [<-|Hx]; auto. apply t_hasSameSupport_iff. tauto. }
      assert (HK : forall x v, In x (t :: grp) -> v < n -> x @ v < K I v).
      { intros x v Hx Hv. pose proof (Hlcm x (Hi1 x Hx) v Hv). specialize (HlK v Hv). lia. }
      split; [|split; auto].
      * intros x y Hx Hy. apply in_map_iff in Hx. destruct Hx as [x' [<- Hx]]. apply in_map_iff in Hy. destruct Hy as [y' [<- Hy]].
        apply image_support; auto. pose proof (Hs x' Hx) as S1. pose proof (Hs y' Hy) as S2.
        rewrite t_hasSameSupport_iff in *. intros v Hv. specialize (S1 v Hv). specialize (S2 v Hv). tauto.
      * destruct A4 as [M1 [M2 M3]].
        assert (Eq : forall m, (forall x, In x (map (image n (phi I)) (t :: grp)) -> in_irreducible x m) <-> (forall x, In x (t :: grp) -> in_irreducible (image n (phi I) x) m)).
        { intros m. split; intros H x Hx; [apply H; apply in_map; auto|]. apply in_map_iff in Hx. destruct Hx as [y [<- Hy]]. auto. }
        split; auto. split; [|intros m Hm; rewrite M3 by auto; symmetry; apply Eq].
        intros e. rewrite M2. unfold minimal_in. split; intros [X [Y Z]]; split; auto; split; try (apply Eq; auto; fail);
          intros h Hh Hp; apply Z; auto; apply Eq; auto.
Qed.
End Group.

(** ** sorting *)
Lemma lex_from_cons : forall k x a y b v, lex_from (x :: a) (y :: b) (S v) k = lex_from a b v k.
Proof. induction k as [|k IH]; intros; cbn [lex_from nth]; auto. rewrite IH. auto. Qed.
Lemma lex_from_lt : forall n a b, length a = n -> length b = n -> (lex_from a b 0 n = Lt <-> lex_lt a b).
Proof.
  induction n as [|n IH]; intros a b Ha Hb; destruct a as [|x a]; destruct b as [|y b]; try discriminate; cbn [lex_from lex_lt nth].
  - split; [discriminate|tauto].
  - simpl in Ha, Hb. rewrite lex_from_cons. destruct (Nat.eqb_spec x y) as [E|E].
    + rewrite IH by lia. subst. split; [auto|]. intros [L|[_ L]]; [lia|auto].
    + destruct (Nat.ltb_spec x y) as [L|L]; split; auto; try discriminate; intros [H|[H _]]; lia.
Qed.
Lemma lex_image : forall n I a b, (forall v, v < n -> a @ v < K I v) -> (forall v, v < n -> b @ v < K I v) ->
  lex_from (image n (phi I) a) (image n (phi I) b) 0 n = lex_from a b 0 n.
Proof.
  intros n I a b Ha Hb.
  assert (G : forall k v, v + k <= n -> lex_from (image n (phi I) a) (image n (phi I) b) v k = lex_from a b v k).
  { induction k as [|k IH]; intros v Hv; cbn [lex_from]; auto. rewrite !image_nth by lia. rewrite IH by lia.
    pose proof (emb_lt n (K I) (phi I) v (a @ v) (b @ v) (phi_embedding n I) ltac:(lia) (Ha v ltac:(lia)) (Hb v ltac:(lia))).
    pose proof (emb_lt n (K I) (phi I) v (b @ v) (a @ v) (phi_embedding n I) ltac:(lia) (Hb v ltac:(lia)) (Ha v ltac:(lia))).
    destruct (Nat.eqb_spec (a @ v) (b @ v)) as [E|E]; destruct (Nat.eqb_spec (phi I v (a @ v)) (phi I v (b @ v))) as [E'|E'];
    destruct (Nat.ltb_spec (a @ v) (b @ v)); destruct (Nat.ltb_spec (phi I v (a @ v)) (phi I v (b @ v))); auto; try lia. }
  apply G. lia.
Qed.

Lemma sorted_unique : forall l l', Permutation l l' -> StronglySorted (fun a b => lex_lt b a) l -> StronglySorted (fun a b => lex_lt b a) l' -> l = l'.
Proof.
  assert (Hirr : forall a, ~ lex_lt a a). { induction a as [|x a IH]; simpl; [tauto|]. intros [H|[_ H]]; [lia|auto]. }
  assert (Htr : forall a b c, lex_lt a b -> lex_lt b c -> lex_lt a c).
  { induction a as [|x a IH]; intros [|y b] [|z c]; simpl; try tauto. intros [H|[E H]] [H'|[E' H']]; try lia. subst. right. eauto. }
  induction l as [|a l IH]; intros l' HP Hs Hs'.
  - apply Permutation_nil in HP. auto.
  - destruct l' as [|b l']; [apply Permutation_sym, Permutation_nil in HP; discriminate|].
    inversion Hs as [|? ? S1 F1]; subst. inversion Hs' as [|? ? S2 F2]; subst. rewrite Forall_forall in F1, F2.
    assert (E : a = b).
    { assert (Ha : In a (b :: l')) by (apply (Permutation_in a HP); left; auto).
      assert (Hb : In b (a :: l)) by (apply (Permutation_in b (Permutation_sym HP)); left; auto).
      destruct Ha as [|Ha]; auto. destruct Hb as [|Hb]; auto. exfalso. apply (Hirr a). eapply Htr; [apply F2; eauto|apply F1; auto]. }
    subst b. f_equal. apply IH; auto. apply Permutation_cons_inv with a. auto.
Qed.

Lemma g_primary : forall c rnd n I J, legal_config c -> in_ring n I -> internal n I J -> exists D Gs Bs,
  computePrimaryDecomposition c rnd (co_of n I J) = Some (concat (map (block n) Bs)) /\
  irreducible_decomposition n I D /\ StronglySorted (fun a b => lex_lt b a) D /\ support_runs n D Gs /\
  Forall2 (good_group n) Gs Bs /\ (forall m, length m = n -> (in_ideal I m <-> forall B, In B Bs -> in_ideal B m)).
Proof.
  intros c rnd n I J Hc Hr HJ. pose proof Hr as Hw. apply in_ring_wf in Hw.
  destruct (encoded_spec c (rnd 0) n I J Hc Hw HJ) as [out [A [B [C [E F]]]]].
  set (D0 := i_sortReverseLex n (map (cid n I) out)).
  assert (HP : Permutation D0 (map (cid n I) out)) by apply std_sort_perm.
  assert (HD : irreducible_decomposition n J D0).
  { destruct (cid_decomp n I J out HJ B C) as [H1 [H2 [H3 H4]]]. split; [|split; [|split]].
    - apply in_ring_wf. apply in_ring_wf in H1. intros g Hg. apply H1. apply Permutation_in with D0; auto.
    - apply Permutation_NoDup with (map (cid n I) out); auto. apply Permutation_sym; auto.
    - intros m Hm. rewrite H3 by auto. split; intros H x Hx; apply H; [apply Permutation_in with D0|apply Permutation_in with (map (cid n I) out)]; auto. apply Permutation_sym; auto.
    - intros x Hx. destruct (H4 x) as [m [M1 [M2 M3]]]; [apply Permutation_in with D0; auto|]. exists m. split; auto. split; auto.
      intros y Hy. apply M3. apply Permutation_in with D0; auto. }
  assert (HKc : forall x v, In x D0 -> v < n -> x @ v < K I v /\ (n = 1 -> x @ v <= 1)).
  { intros x v Hx Hv. apply (Permutation_in x HP) in Hx. apply in_map_iff in Hx. destruct Hx as [d [<- Hd]].
    unfold cid. rewrite comp_nth by auto. unfold idf. destruct (E d v Hd Hv) as [E1 E2]. pose proof (K_bounds I v).
    destruct (Nat.eqb_spec (d @ v) (K I v)); [lia|]. split; [lia|]. intros Hn1. apply C in Hd.
    destruct (corner_label n (K I) J (Jinf n I J) (with_inf n I J) d v Hd Hv ltac:(lia)) as [g [Hg [Eg _]]]. rewrite <- Eg.
    assert (v = 0) by lia. subst v. rewrite Hn1 in *. apply int_one with I J; auto. }
  destruct (loop_spec n I J D0 (i_lcm n D0) HD) with (fuel := length D0) (c := c) (rnd := rnd) (k := 1) (l := D0)
    as [Gs [Bs [L1 [L2 L3]]]]; auto using incl_refl, i_lcm_length.
  - intros x Hx v Hv. apply i_lcm_ge; auto.
  - intros v Hv. destruct (Nat.eq_dec ((i_lcm n D0) @ v) 0) as [->|Hp]; [apply K_bounds|].
    destruct (i_lcm_attained n D0 v Hv ltac:(lia)) as [g [Hg <-]]. apply HKc; auto.
  - intros Hn1. apply i_lcm_lub; [lia|]. intros g Hg. apply HKc; auto. lia.
  - apply HD.
  - set (D := map (comp n (K I) (phi I)) out) in *. exists (map (image n (phi I)) D0), Gs, Bs.
    assert (HPD : Permutation (map (image n (phi I)) D0) D).
    { unfold D. replace (map (comp n (K I) (phi I)) out) with (map (image n (phi I)) (map (cid n I) out))
        by (rewrite map_map; apply map_ext; intros d; symmetry; apply comp_cid).
      apply Permutation_map. auto. }
    assert (HwD : wf n D0) by (apply in_ring_wf; apply HD).
    split.
    { unfold computePrimaryDecomposition. cbv zeta. cbn [co_of co_n co_tr]. rewrite A. cbn [bind].
      rewrite setInf_eq. fold D0. exact L1. }
    split.
    { destruct F as [H1 [H2 [H3 H4]]]. split; [|split; [|split]].
      - apply in_ring_wf. apply in_ring_wf in H1. intros g Hg. apply H1. apply (Permutation_in g HPD); auto.
      - apply Permutation_NoDup with D; auto. apply Permutation_sym; auto.
      - intros m Hm. rewrite H3 by auto. split; intros H x Hx; apply H; [apply (Permutation_in x HPD)|apply (Permutation_in x (Permutation_sym HPD))]; auto.
      - intros x Hx. destruct (H4 x) as [m [M1 [M2 M3]]]; [apply (Permutation_in x HPD); auto|]. exists m. split; auto. split; auto.
        intros y Hy. apply M3. apply (Permutation_in y HPD); auto. }
    split.
    { pose proof (std_sort_revlex_sorted n (map (cid n I) out)) as HS. fold (i_sortReverseLex n (map (cid n I) out)) in HS. fold D0 in HS.
      pose proof HD as [_ [HnD _]]. clear -HS HwD HnD HKc. clearbody D0. revert HwD HnD HKc.
      induction HS as [|x l HS IH Hf]; intros HwD HnD HKc; cbn [map]; constructor.
      - apply IH; [intros y Hy; apply HwD; right; auto|inversion HnD; auto|intros y v Hy; apply HKc; right; auto].
      - rewrite Forall_forall. intros z Hz. apply in_map_iff in Hz. destruct Hz as [y [<- Hy]].
        rewrite Forall_forall in Hf. specialize (Hf y Hy). unfold before, t_revLexLess, t_lexCompare in Hf.
        assert (Lx : length x = n) by (apply HwD; left; auto). assert (Ly : length y = n) by (apply HwD; right; auto).
        apply (lex_from_lt n); try apply tabulate_length. rewrite lex_image by (intros v Hv; apply HKc; simpl; auto).
        destruct (lex_from y x 0 n) eqn:El; auto; [|discriminate]. exfalso.
        rewrite lex_from_eq in El. assert (y = x); [|subst; inversion HnD; auto]. apply term_ext with n; auto. intros v Hv. apply El. lia. }
    split; auto. split; auto.
    intros m Hm. pose proof F as [_ [_ [F3 _]]]. rewrite F3 by auto.
    assert (Q : forall Gs Bs, Forall2 (good_group n) Gs Bs -> ((forall x, In x (concat Gs) -> in_irreducible x m) <-> forall B, In B Bs -> in_ideal B m)).
    { intros gs bs H. induction H as [|g b gs bs Hg _ IH]; [split; intros _ x []|]. cbn [concat].
      destruct Hg as [_ [_ [_ [_ [_ M3]]]]]. specialize (M3 m Hm). split.
      - intros H b' [<-|Hb]; [apply M3; intros; apply H; apply in_or_app; auto|]. apply IH; auto. intros x Hx. apply H. apply in_or_app. auto.
      - intros H x Hx. apply in_app_or in Hx. destruct Hx as [Hx|Hx]; [apply M3; auto; apply H; left; auto|].
        apply (proj2 IH); auto. intros b' Hb. apply H. right. auto. }
    rewrite <- (Q Gs Bs L3). rewrite (runs_concat n _ _ L2).
    split; intros H x Hx; apply H; [apply (Permutation_in x HPD)|apply (Permutation_in x (Permutation_sym HPD))]; auto.
Qed.
Lemma p_primary : forall c rnd n I, legal_config c -> in_ring n I -> exists D Gs Bs,
  api_primaryDecomposition c rnd n I = Some (concat (map (block n) Bs)) /\
  irreducible_decomposition n I D /\ StronglySorted (fun a b => lex_lt b a) D /\ support_runs n D Gs /\
  Forall2 (good_group n) Gs Bs /\ (forall m, length m = n -> (in_ideal I m <-> forall B, In B Bs -> in_ideal B m)).
Proof. intros c rnd n I Hc Hr. unfold api_primaryDecomposition. rewrite set_co. apply g_primary; auto. apply J1_internal, in_ring_wf; auto. Qed.
