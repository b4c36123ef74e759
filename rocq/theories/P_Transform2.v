(** Pure powers, deformation, transposing and unused variables. *)
From Coq Require Import List Arith Bool ZArith Lia Ascii Sorted Permutation.
Import ListNotations.
From Verif Require Import Spec M_Term M_Ideal M_Api M_Names Spec_Names M_Intersect Spec_Intersect M_Transform Spec_Transform
  P_Term P_Ideal P_Corner P_Translator P_Names P_Names2 P_Intersect P_Intersect2 P_Intersect3 P_Transform.

(** ** Pure powers *)
Lemma lcm_gen n : forall I l v, v < n -> nth v (fold_left (fun lcm g => tabulate n (fun v => if nth v lcm 0 <? nth v g 0 then nth v g 0 else nth v lcm 0)) I l) 0 = Nat.max (nth v l 0) (largest_exponent v I).
Proof.
  induction I as [|g I IH]; intros l v L; cbn [fold_left]; [unfold largest_exponent; cbn; lia|]. rewrite IH by auto. rewrite tabulate_nth by auto. unfold largest_exponent. cbn [map]. unfold list_max. cbn [fold_right].
  destruct (Nat.ltb_spec (nth v l 0) (nth v g 0)); lia.
Qed.
Lemma lcm_spec n I v : v < n -> nth v (bi_lcm n I) 0 = largest_exponent v I.
Proof. intros L. unfold bi_lcm. rewrite lcm_gen by auto. rewrite tabulate_nth by auto. reflexivity. Qed.
Lemma largest_ge v I g : In g I -> nth v g 0 <= largest_exponent v I.
Proof.
  unfold largest_exponent. induction I as [|h I IH]; intros H; [destruct H|]. cbn [map]. unfold list_max in *. cbn [fold_right]. destruct H as [->|H]; [lia|]. specialize (IH H). lia.
Qed.
Lemma contains_iff n I t : wf n I -> length t = n -> (bi_contains n I t = true <-> in_ideal I t).
Proof.
  intros W L. unfold bi_contains. rewrite existsb_exists. split; intros [g [Hg H]]; exists g; (split; auto).
  - apply (divs_pt n); auto. rewrite forallb_forall in H. intros v Hv. specialize (H v). assert (In v (seq 0 n)) as X by (apply in_seq; lia). apply H in X. destruct (Nat.ltb_spec (nth v t 0) (nth v g 0)); [discriminate|lia].
  - apply forallb_forall. intros v Hv. apply in_seq in Hv. apply (divs_to n) in H; auto. specialize (H v). destruct (Nat.ltb_spec (nth v t 0) (nth v g 0)); auto. lia.
Qed.
Lemma contains_identity n I : wf n I -> (bi_containsIdentity n I = true <-> in_ideal I (repeat 0 n)).
Proof.
  intros W. unfold bi_containsIdentity. rewrite existsb_exists. split; intros [g [Hg H]]; exists g; (split; auto).
  - apply (divs_pt n); auto; [apply repeat_length|]. rewrite forallb_forall in H. intros v Hv. specialize (H v). assert (In v (seq 0 n)) as X by (apply in_seq; lia). apply H in X. apply Nat.eqb_eq in X. lia.
  - apply forallb_forall. intros v Hv. apply in_seq in Hv. apply (divs_to n) in H; auto; [|apply repeat_length]. specialize (H v). rewrite nth_repeat in H. apply Nat.eqb_eq. lia.
Qed.
Lemma pure_length n v e : length (pure_power n v e) = n.
Proof. unfold pure_power. now rewrite map_length, seq_length. Qed.
Lemma pure_nth n v e w : w < n -> nth w (pure_power n v e) 0 = if w =? v then e else 0.
Proof.
  intros L. unfold pure_power. rewrite nth_indep with (d' := if length (seq 0 n) =? v then e else 0) by now rewrite map_length, seq_length.
  rewrite (map_nth (fun w => if w =? v then e else 0)). now rewrite seq_nth.
Qed.
Section Pure.
  Variables (n : nat) (I : big_ideal).
  Hypothesis W : wf n I.
  Definition pp (v : nat) : list nat := pure_power n v (S (largest_exponent v I)).
  Lemma pp_code v : v < n -> tabulate n (fun w => if w =? v then nth w (bi_lcm n I) 0 + 1 else 0) = pp v.
  Proof.
    intros L. apply term_ext with n; [apply tabulate_length|apply pure_length|]. intros w Hw. rewrite tabulate_nth by auto. unfold pp. rewrite pure_nth by auto. destruct (Nat.eqb_spec w v) as [->|]; auto. rewrite lcm_spec by auto. lia.
  Qed.
  Lemma pp_in v : v < n -> (in_ideal I (pp v) <-> has_pure_power n v I).
  Proof.
    intros L. split; [intros H; exists (S (largest_exponent v I)); exact H|]. intros [e [g [Hg D]]]. exists g. split; auto. apply (divs_to n) in D; auto; [|apply pure_length]. apply (divs_pt n); auto; [apply pure_length|].
    intros w Hw. specialize (D w Hw). unfold pp. rewrite pure_nth in D by auto. rewrite pure_nth by auto. destruct (Nat.eqb_spec w v) as [E|E]; [rewrite E in *|exact D]. pose proof (largest_ge v I g Hg). lia.
  Qed.
  Lemma pp_divs u v : u < n -> v < n -> divs (pp u) (pp v) -> u = v.
  Proof.
    intros Lu Lv D. apply (divs_to n) in D; try apply pure_length. specialize (D u Lu). unfold pp in D. rewrite !pure_nth in D by auto. rewrite Nat.eqb_refl in D. destruct (Nat.eqb_spec u v); auto. lia.
  Qed.
  Lemma pure_loop : forall k var A, var + k = n -> Forall (fun a => exists u, u < var /\ a = pp u) A ->
    exists B, pure_from n (bi_lcm n I) var k (I ++ A) = I ++ A ++ B /\ NoDup B /\ (forall a, In a B <-> exists v, var <= v < n /\ ~ has_pure_power n v I /\ a = pp v).
  Proof.
    induction k as [|k IH]; intros var A E F; cbn [pure_from].
    - exists []. rewrite app_nil_r. split; auto. split; [constructor|]. intros a. split; [intros []|intros [v [X _]]; lia].
    - rewrite pp_code by lia. assert (WA : wf n (I ++ A)).
      { intros g Hg. apply in_app_iff in Hg as [Hg|Hg]; auto. rewrite Forall_forall in F. destruct (F g Hg) as [u [_ ->]]. apply pure_length. }
      assert (C : bi_contains n (I ++ A) (pp var) = true <-> has_pure_power n var I).
      { rewrite contains_iff by (auto; apply pure_length). rewrite <- pp_in by lia. split.
        - intros [g [Hg D]]. apply in_app_iff in Hg as [Hg|Hg]; [exists g; auto|]. rewrite Forall_forall in F. destruct (F g Hg) as [u [Lu ->]]. apply pp_divs in D; lia.
        - intros [g [Hg D]]. exists g. split; auto. apply in_app_iff. auto. }
      destruct (bi_contains n (I ++ A) (pp var)) eqn:Q.
      + assert (H : has_pure_power n var I) by tauto. destruct (IH (S var) A) as [B [X [Y Z]]]; [lia | eapply Forall_impl; [|exact F]; cbn; intros a [u [Lu ->]]; exists u; split; auto; lia |].
        exists B. split; auto. split; auto. intros a. rewrite Z. split; intros [v [L [P ->]]]; exists v; (split; [|split; auto]); try lia. assert (v <> var) by congruence. lia.
      + assert (H : ~ has_pure_power n var I) by (intros X; apply C in X; discriminate). destruct (IH (S var) (A ++ [pp var])) as [B [X [Y Z]]]; [lia | |].
        { apply Forall_app. split; [eapply Forall_impl; [|exact F]; cbn; intros a [u [Lu ->]]; exists u; split; auto; lia | repeat constructor; exists var; split; auto; lia]. }
        rewrite app_assoc in X. exists (pp var :: B). split; [etransitivity; [exact X | now rewrite <- !app_assoc]|]. split.
        * constructor; auto. rewrite Z. intros [v [L [_ P]]]. apply (f_equal (fun t => nth var t 0)) in P. unfold pp in P. rewrite !pure_nth in P by lia. rewrite Nat.eqb_refl in P. destruct (Nat.eqb_spec var v); [lia|discriminate].
        * intros a. cbn [In]. rewrite Z. split.
          -- intros [<-|[v [L P]]]; [exists var; split; [lia|auto] | exists v; split; [lia|auto]].
          -- intros [v [L [P ->]]]. destruct (Nat.eq_dec v var) as [->|N]; [left; auto|]. right. exists v. split; [lia|auto].
  Qed.
End Pure.
Theorem p_pure names I : good_named (names, I) -> let n := length names in exists A, if_addPurePowers (names, I) = (names, I ++ A) /\ good_named (names, I ++ A) /\ NoDup A /\
  (forall a, In a A <-> exists v, v < n /\ ~ has_pure_power n v I /\ a = pure_power n v (S (largest_exponent v I))) /\
  forall m, length m = n -> (in_ideal (I ++ A) m <-> in_ideal I m \/ exists v, v < n /\ largest_exponent v I < nth v m 0).
Proof.
  intros G n. apply good_wf in G as [N W]. fold n in W. destruct (pure_loop n I W n 0 [] eq_refl (Forall_nil _)) as [A [X [Y Z]]]. rewrite app_nil_r in X. cbn [app] in X. exists A.
  unfold if_addPurePowers. cbn [fst snd]. fold n. rewrite X. split; auto.
  assert (IA : forall a, In a A <-> exists v, v < n /\ ~ has_pure_power n v I /\ a = pp n I v).
  { intros a. rewrite Z. split; intros [v [L P]]; exists v; (split; [lia|auto]). }
  assert (WA : wf n (I ++ A)) by (intros g Hg; apply in_app_iff in Hg as [Hg|Hg]; auto; apply IA in Hg as [v [_ [_ ->]]]; apply pure_length).
  split; [apply good_wf; auto|]. split; auto. split; [exact IA|]. intros m Lm. split.
  - intros [g [Hg D]]. apply in_app_iff in Hg as [Hg|Hg]; [left; exists g; auto|]. right. apply IA in Hg as [v [L [_ ->]]]. exists v. split; auto. apply (divs_to n) in D; auto; [|apply pure_length].
    specialize (D v L). unfold pp in D. rewrite pure_nth, Nat.eqb_refl in D by auto. lia.
  - intros [[g [Hg D]]|[v [L H]]]; [exists g; split; auto; apply in_app_iff; auto|].
    assert (Dm : divs (pp n I v) m). { apply (divs_pt n); auto; [apply pure_length|]. intros w Hw. unfold pp. rewrite pure_nth by auto. destruct (Nat.eqb_spec w v) as [->|]; lia. }
    destruct (bi_contains n I (pp n I v)) eqn:Q.
    + apply contains_iff in Q; auto; [|apply pure_length]. destruct Q as [g [Hg D]]. exists g. split; [apply in_app_iff; auto|]. apply (divs_to n) in D; auto; [|apply pure_length]. apply (divs_to n) in Dm; auto; [|apply pure_length].
      apply (divs_pt n); auto. intros w Hw. specialize (D w Hw). specialize (Dm w Hw). lia.
    + exists (pp n I v). split; auto. apply in_app_iff. right. apply IA. exists v. split; auto. split; auto. intros P. apply pp_in in P; auto. apply (contains_iff n I _ W (pure_length n v _)) in P. unfold pp in Q. rewrite Q in P. discriminate P.
Qed.

(** ** Deforming *)
Lemma deform_length n c : forall I g, length (bi_deform_from n c g I) = length I.
Proof. induction I as [|h I IH]; intros g; cbn; auto. Qed.
Lemma deform_wf n c : forall I g, wf n (bi_deform_from n c g I).
Proof. induction I as [|h I IH]; intros g x Hx; [destruct Hx|]. destruct Hx as [<-|Hx]; [apply tabulate_length|eapply IH; eauto]. Qed.
Lemma deform_nth n c : forall I g i v, i < length I -> v < n -> nth v (nth i (bi_deform_from n c g I) []) 0 = if 0 <? nth v (nth i I []) 0 then nth v (nth i I []) 0 * c + (g + i) else 0.
Proof.
  induction I as [|h I IH]; intros g i v L Lv; cbn [length] in L; [lia|]. cbn [bi_deform_from]. destruct i as [|i]; cbn [nth].
  - rewrite tabulate_nth by auto. rewrite Nat.add_0_r. destruct (Nat.ltb_spec 0 (nth v h 0)); lia.
  - rewrite IH by (auto; lia). now rewrite <- plus_n_Sm.
Qed.
Theorem p_deform names I : good_named (names, I) -> exists D, if_deform (names, I) = (names, D) /\ good_named (names, D) /\ length D = length I /\
  forall i j v, i < length I -> j < length I -> v < length names ->
    let g := nth v (nth i I []) 0 in let h := nth v (nth j I []) 0 in let d := nth v (nth i D []) 0 in let e := nth v (nth j D []) 0 in
    (g = 0 -> d = 0) /\ (g < h -> d < e) /\ (i < j -> 0 < g -> g = h -> d < e) /\ d <= length I.
Proof.
  intros G. apply good_wf in G as [N W]. set (n := length names) in *. set (B := bi_deform n I). exists (J0 n B). unfold if_deform. cbn [fst snd]. fold n. split; auto.
  assert (LD : length (J0 n B) = length I) by (unfold J0, shrinkBigIdeal, B, bi_deform; now rewrite map_length, deform_length).
  split; [apply good_wf; split; [auto|apply J0_wf]|]. split; auto. intros i j v Li Lj Lv. cbv zeta. set (g := nth v (nth i I []) 0). set (h := nth v (nth j I []) 0). set (d := nth v (nth i (J0 n B) []) 0). set (e := nth v (nth j (J0 n B) []) 0).
  assert (P : forall k, k < length I -> nth v (nth k (J0 n B) []) 0 < K B v /\ phi B v (nth v (nth k (J0 n B) []) 0) = if 0 <? nth v (nth k I []) 0 then nth v (nth k I []) 0 * length I + k else 0).
  { intros k Lk. split; [apply (J0_below n B); auto; apply nth_In; unfold ideal, term in *; lia|].
    assert (Wb : wf n B) by apply deform_wf.
    assert (M : nth v (nth k (map (image n (phi B)) (J0 n B)) []) 0 = nth v (nth k B []) 0) by now rewrite J0_image.
    assert (M' : nth v (nth k B []) 0 = if 0 <? nth v (nth k I []) 0 then nth v (nth k I []) 0 * length I + k else 0) by (apply (deform_nth n (length I) I 0 k v); auto).
    rewrite <- M', <- M. rewrite nth_indep with (l := map _ _) (d' := image n (phi B) []) by (rewrite map_length; unfold ideal, term in *; lia). rewrite (map_nth (image n (phi B))). now rewrite image_nth. }
  destruct (P i Li) as [Kd Ed]. destruct (P j Lj) as [Ke Ee]. fold d in Kd, Ed. fold e in Ke, Ee. fold g in Ed. fold h in Ee. pose proof (phi_embedding n B) as E.
  pose proof (emb_lt n (K B) (phi B) v d e E Lv Kd Ke) as LT. rewrite Ed, Ee in LT.
  split; [|split; [|split]].
  - intros Z. rewrite Z in Ed. cbn in Ed. destruct (E v Lv) as [K0 [Z0 _]]. apply (emb_inj n (K B) (phi B) v); auto. etransitivity; [exact Ed | symmetry; exact Z0].
  - intros L. apply LT. destruct (Nat.ltb_spec 0 g), (Nat.ltb_spec 0 h); try nia.
  - intros L Pg Q. apply LT. destruct (Nat.ltb_spec 0 g), (Nat.ltb_spec 0 h); try nia.
  - assert (LB : length B = length I) by apply deform_length. assert (X : K B v <= S (length B)) by apply K_bounds. rewrite LB in X. apply Nat.lt_succ_r. eapply Nat.lt_le_trans; [exact Kd|exact X].
Qed.

(** ** Transposing *)
Lemma numbered_eq n : numbered n = default_names n. Proof. reflexivity. Qed.
Lemma numbered_length n : length (numbered n) = n. Proof. unfold numbered. now rewrite map_length, seq_length. Qed.
Lemma numbered_nodup n : NoDup (numbered n).
Proof.
  unfold numbered. apply FinFun.Injective_map_NoDup; [|apply seq_NoDup]. intros a b E. injection E as E. apply nat_str_inj in E. lia.
Qed.
Lemma transpose_row names I i : i < length names -> nth i (snd (ta_transpose (names, I))) [] = map (fun g => nth i g 0) I.
Proof.
  intros L. cbn [ta_transpose snd fst]. rewrite nth_indep with (d' := map (fun g => nth (length names) g 0) I) by now rewrite map_length, seq_length.
  rewrite (map_nth (fun var => map (fun g => nth var g 0) I)). now rewrite seq_nth.
Qed.
Theorem p_transpose names I : good_named (names, I) -> exists T, ta_transpose (names, I) = (default_names (length I), T) /\ good_named (default_names (length I), T) /\
  length T = length names /\ (forall i j, i < length names -> j < length I -> nth j (nth i T []) 0 = nth i (nth j I []) 0) /\
  (0 < length names -> snd (ta_transpose (ta_transpose (names, I))) = I).
Proof.
  intros G. apply good_wf in G as [N W]. exists (snd (ta_transpose (names, I))). split; [reflexivity|].
  assert (LT : length (snd (ta_transpose (names, I))) = length names) by (cbn; now rewrite map_length, seq_length).
  assert (WT : wf (length I) (snd (ta_transpose (names, I)))) by (intros t Ht; cbn in Ht; apply in_map_iff in Ht as [v [<- _]]; apply map_length).
  assert (EN : forall i j, i < length names -> j < length I -> nth j (nth i (snd (ta_transpose (names, I))) []) 0 = nth i (nth j I []) 0).
  { intros i j Li Lj. rewrite transpose_row by auto. rewrite nth_indep with (d' := nth i [] 0) by now rewrite map_length. now rewrite (map_nth (fun g => nth i g 0)). }
  split; [apply good_wf; split; [apply numbered_nodup | rewrite <- numbered_eq, numbered_length; auto]|]. split; auto. split; auto.
  intros P. destruct (ta_transpose (names, I)) as [nm T] eqn:Q. cbn [snd] in *. assert (Lnm : length nm = length I) by (injection Q as <- _; apply numbered_length).
  apply nth_ext with (d := []) (d' := []); [cbn; now rewrite map_length, seq_length|]. cbn [ta_transpose snd fst]. rewrite map_length, seq_length. intros j Lj. pose proof (transpose_row nm T j Lj) as R. cbn [ta_transpose snd fst] in R. rewrite R.
  apply nth_ext with (d := 0) (d' := 0); [rewrite map_length, LT; symmetry; apply W, nth_In; unfold big_ideal in *; lia|]. rewrite map_length, LT. intros i Li. rewrite nth_indep with (d' := nth j [] 0) by (rewrite map_length; lia). rewrite (map_nth (fun g => nth j g 0)). apply EN; auto. lia.
Qed.
