(** Proofs about the transformations of one ideal. *)
From Coq Require Import List Arith Bool ZArith Lia Ascii Sorted Permutation.
Import ListNotations.
From Verif Require Import Spec M_Term M_Ideal M_Api M_Names Spec_Names M_Intersect Spec_Intersect M_Transform Spec_Transform
  P_Term P_Ideal P_Corner P_Translator P_Names P_Names2 P_Intersect P_Intersect2 P_Intersect3.

Lemma good_wf names I : good_named (names, I) <-> NoDup names /\ wf (length names) I.
Proof. unfold good_named, wf. cbn [fst snd]. rewrite Forall_forall. reflexivity. Qed.
Lemma divs_pt n g m : length g = n -> length m = n -> (divs g m <-> forall v, v < n -> nth v g 0 <= nth v m 0).
Proof. intros A B. apply (divs_iff n); auto. Qed.
Lemma divs_to n g m : divs g m -> length g = n -> length m = n -> le_n n g m.
Proof. intros D A B. apply (divs_iff n); auto. Qed.

(** ** Translating there and back *)
Lemma back n I : wf n I -> insert_translated n (tr_initialize n I) (shrinkBigIdeal n (tr_initialize n I) I) = Some I.
Proof. intros W. change (shrinkBigIdeal n (tr_initialize n I) I) with (J0 n I). rewrite insert_ok by apply J0_below. now rewrite J0_image. Qed.

(** ** Radical *)
Lemma radical_wf n I : wf n (bi_takeRadical n I).
Proof. intros g H. unfold bi_takeRadical in H. apply in_map_iff in H as [h [<- _]]. apply tabulate_length. Qed.
Lemma radical_nth n g v : v < n -> nth v (tabulate n (fun v => if 1 <? nth v g 0 then 1 else nth v g 0)) 0 = Nat.min 1 (nth v g 0).
Proof. intros L. rewrite tabulate_nth by auto. destruct (Nat.ltb_spec 1 (nth v g 0)); lia. Qed.
Lemma power_length k m : length (mono_power k m) = length m. Proof. apply map_length. Qed.
Lemma power_nth k m v : nth v (mono_power k m) 0 = k * nth v m 0.
Proof. unfold mono_power. rewrite <- (map_nth (fun e => k * e)). f_equal. lia. Qed.
Lemma bounded_exists n g : exists b, forall v, v < n -> nth v g 0 <= b.
Proof.
  induction n as [|n [b IH]]; [exists 0; intros; lia|]. exists (Nat.max b (nth n g 0)). intros v L. destruct (Nat.eq_dec v n) as [->|N]; [lia|]. specialize (IH v). lia.
Qed.
Theorem p_radical names I : good_named (names, I) -> exists R, if_takeRadical (names, I) = Some (names, R) /\ good_named (names, R) /\
  Forall2 (fun g r => forall v, v < length names -> nth v r 0 = Nat.min 1 (nth v g 0)) I R /\
  forall m, length m = length names -> (in_ideal R m <-> exists k, in_ideal I (mono_power k m)).
Proof.
  intros G. apply good_wf in G as [N W]. set (n := length names) in *. exists (bi_takeRadical n I). unfold if_takeRadical. cbn [fst snd]. fold n. rewrite back by apply radical_wf. cbn [bind]. split; auto.
  split; [apply good_wf; split; [auto|apply radical_wf]|]. split.
  - unfold bi_takeRadical. apply Forall2_map_r. apply Forall_forall. intros g Hg v Hv. now apply radical_nth.
  - intros m Lm. split.
    + intros [r [Hr D]]. pose proof (radical_wf n I r Hr) as Lr. unfold bi_takeRadical in Hr. apply in_map_iff in Hr as [g [<- Hg]]. apply (divs_to n) in D; auto.
      destruct (bounded_exists n g) as [b Hb]. exists b, g. split; auto. apply (divs_pt n); auto; [now rewrite power_length|]. intros v Hv. specialize (D v Hv). rewrite radical_nth in D by auto. rewrite power_nth. specialize (Hb v Hv). destruct (nth v m 0); nia.
    + intros [k [g [Hg D]]]. exists (tabulate n (fun v => if 1 <? nth v g 0 then 1 else nth v g 0)). split; [unfold bi_takeRadical; apply in_map_iff; exists g; auto|].
      apply (divs_to n) in D; auto; [|now rewrite power_length]. apply (divs_pt n); auto; [apply tabulate_length|]. intros v Hv. rewrite radical_nth by auto. specialize (D v Hv). rewrite power_nth in D. destruct (nth v m 0); lia.
Qed.

(** ** Minimizing *)
Theorem p_minimize names I : good_named (names, I) -> exists R, if_minimize (names, I) = Some (names, R) /\ good_named (names, R) /\
  lists_minimal_generators (length names) I R.
Proof.
  intros G. apply good_wf in G as [N W]. set (n := length names) in *. unfold if_minimize. cbn [fst snd]. fold n. change (shrinkBigIdeal n (tr_initialize n I) I) with (J0 n I). change (i_minimize n (J0 n I)) with (J1 n I).
  assert (P : Permutation (i_sortReverseLex n (J1 n I)) (J1 n I)) by apply std_sort_perm.
  assert (B : below n (K I) (i_sortReverseLex n (J1 n I))) by (intros g v Hg Hv; apply (J1_below n I); auto; eapply Permutation_in; eauto).
  assert (Wf : wf n (i_sortReverseLex n (J1 n I))) by (intros g Hg; apply (J1_wf n I); eapply Permutation_in; eauto).
  rewrite insert_ok by auto. cbn [bind]. exists (map (image n (phi I)) (i_sortReverseLex n (J1 n I))). split; auto.
  assert (Wi : wf n (map (image n (phi I)) (i_sortReverseLex n (J1 n I)))) by (intros g Hg; apply in_map_iff in Hg as [h [<- _]]; apply tabulate_length).
  split; [apply good_wf; auto|]. apply minl_lists_minimal; auto.
  - apply (image_minl n (K I)); auto using phi_embedding. eapply minl_perm; [apply Permutation_sym; exact P|]. apply J1_minl.
  - intros m. assert (E : inI n (map (image n (phi I)) (i_sortReverseLex n (J1 n I))) m <-> exists g, In g (J1 n I) /\ forall v, v < n -> phi I v (nth v g 0) <= nth v m 0).
    { split.
      - intros [x [Hx L]]. apply in_map_iff in Hx as [g [<- Hg]]. exists g. split; [eapply Permutation_in; eauto|]. intros v Hv. specialize (L v Hv). now rewrite image_nth in L.
      - intros [g [Hg L]]. exists (image n (phi I) g). split; [apply in_map; eapply Permutation_in; [apply Permutation_sym; exact P|auto]|]. intros v Hv. rewrite image_nth by auto. auto. }
    rewrite E. clear E. set (m' := tabulate n (fun v => nth v m 0)).
    transitivity (in_ideal I m').
    + rewrite (J1_ideal n I m' W) by apply tabulate_length. split; intros [g [Hg L]]; exists g; (split; auto); intros v Hv; specialize (L v Hv); unfold m' in *; rewrite tabulate_nth in * by auto; auto.
    + rewrite (in_ideal_iff n) by (auto; apply tabulate_length). split; intros [g [Hg L]]; exists g; (split; auto); intros v Hv; specialize (L v Hv); unfold m' in *; rewrite tabulate_nth in * by auto; auto.
Qed.

(** ** Products *)
Lemma product_nth n : forall I p v, v < n -> nth v (fold_left (fun p g => tabulate n (fun v => nth v p 0 + nth v g 0)) I p) 0 = nth v p 0 + exponent_in_product v I.
Proof.
  induction I as [|g I IH]; intros p v L; cbn [fold_left]; [unfold exponent_in_product; cbn; lia|]. rewrite IH by auto. rewrite tabulate_nth by auto. unfold exponent_in_product. cbn [map list_sum fold_right]. unfold list_sum. cbn [fold_right]. lia.
Qed.
Lemma product_length n : forall I p, length p = n -> length (fold_left (fun p g => tabulate n (fun v => nth v p 0 + nth v g 0)) I p) = n.
Proof. induction I as [|g I IH]; intros p L; cbn [fold_left]; auto. apply IH. apply tabulate_length. Qed.
Lemma products_gen names : forall ideals acc, Forall (fun K => fst K = names) ideals ->
  exists P, if_takeProducts ideals (names, acc) = TOk (names, acc ++ P) /\
    Forall2 (fun K p => length p = length names /\ forall v, v < length names -> nth v p 0 = exponent_in_product v (snd K)) ideals P.
Proof.
  induction ideals as [|K ideals IH]; intros acc F; cbn [if_takeProducts fst snd].
  - exists []. rewrite app_nil_r. auto.
  - inversion F as [|? ? E F']; subst. assert (names_eqb (fst K) (fst K) = true) as -> by now apply names_eqb_iff. cbv zeta. set (p := fold_left _ (snd K) _).
    destruct (IH (acc ++ [p]) F') as [P [A B]]. exists (p :: P). split; [etransitivity; [exact A | now rewrite <- app_assoc]|]. constructor; auto. split; [apply product_length, tabulate_length|]. intros v Hv. unfold p. rewrite product_nth by auto. rewrite tabulate_nth by auto. reflexivity.
Qed.
Lemma products_err names : forall ideals acc, Exists (fun K => fst K <> names) ideals -> if_takeProducts ideals (names, acc) = TErr.
Proof.
  induction ideals as [|K ideals IH]; intros acc E; [inversion E|]. cbn [if_takeProducts fst snd]. destruct (names_eqb names (fst K)) eqn:Q; auto. apply names_eqb_iff in Q. inversion E; subst; [congruence|]. apply IH. auto.
Qed.

(** ** Swapping 0 and 1 *)
Theorem p_swap01 names I : good_named (names, I) -> exists R, if_swap01 (names, I) = (names, R) /\ good_named (names, R) /\
  Forall2 (fun g r => forall v, v < length names -> (nth v g 0 = 0 -> nth v r 0 = 1) /\ (nth v g 0 = 1 -> nth v r 0 = 0) /\ (1 < nth v g 0 -> nth v r 0 = nth v g 0)) I R.
Proof.
  intros G. apply good_wf in G as [N W]. eexists. split; [reflexivity|]. cbn [fst snd]. split.
  - apply good_wf. split; auto. intros g H. apply in_map_iff in H as [h [<- _]]. apply tabulate_length.
  - apply Forall2_map_r. apply Forall_forall. intros g _ v Hv. rewrite tabulate_nth by auto. destruct (Nat.eqb_spec (nth v g 0) 1), (Nat.eqb_spec (nth v g 0) 0); lia.
Qed.

(** ** Projecting *)
Lemma erase_spec {A} var (t : list A) : var < length t -> erase_at var t = Some (firstn var t ++ skipn (S var) t).
Proof. intros L. unfold erase_at. apply Nat.ltb_lt in L. now rewrite L. Qed.
Lemma removed_nth {A} (d : A) var t v : nth v (firstn var t ++ skipn (S var) t) d = if v <? var then nth v t d else nth (S v) t d.
Proof.
  destruct (Nat.lt_ge_cases var (length t)) as [L|L].
  - assert (F : length (firstn var t) = var) by (rewrite firstn_length; lia). destruct (Nat.ltb_spec v var).
    + rewrite app_nth1 by lia. clear F. revert t v H L. induction var as [|var IH]; intros [|x t] [|v] H L; cbn in *; auto; try lia. apply IH; lia.
    + rewrite app_nth2 by lia. rewrite F. clear F. replace (S v) with (S var + (v - var)) by lia. generalize (v - var). clear. intros k. revert t. induction (S var) as [|s IH]; intros t; cbn; auto. destruct t; [destruct k; auto|]. cbn. apply IH.
  - rewrite firstn_all2, skipn_all2, app_nil_r by lia. destruct (Nat.ltb_spec v var); auto. rewrite !nth_overflow by lia. auto.
Qed.
Lemma removed_length {A} var (t : list A) : var < length t -> length (firstn var t ++ skipn (S var) t) = length t - 1.
Proof. intros L. rewrite app_length, firstn_length, skipn_length. lia. Qed.
Lemma put_length v e m : v <= length m -> length (put_at v e m) = S (length m).
Proof. intros L. unfold put_at. rewrite app_length, firstn_length. cbn [length]. rewrite skipn_length. lia. Qed.
Lemma put_nth v e m w : v <= length m -> nth w (put_at v e m) 0 = if w <? v then nth w m 0 else if w =? v then e else nth (w - 1) m 0.
Proof.
  intros L. unfold put_at. assert (F : length (firstn v m) = v) by (rewrite firstn_length; lia). destruct (Nat.ltb_spec w v).
  - rewrite app_nth1 by lia. clear F. revert m w H L. induction v as [|v IH]; intros [|x m] [|w] H L; cbn in *; auto; try lia. apply IH; lia.
  - rewrite app_nth2 by lia. rewrite F. destruct (Nat.eqb_spec w v) as [->|N]; [now rewrite Nat.sub_diag|]. destruct (w - v) as [|k] eqn:Q; [lia|]. cbn [nth]. replace (w - 1) with (v + k) by lia. clear. revert m. induction v as [|v IH]; intros m; cbn; auto. destruct m; [destruct k; auto|]. apply IH.
Qed.
Lemma removed_nodup {A} var (t : list A) : NoDup t -> NoDup (firstn var t ++ skipn (S var) t).
Proof.
  intros N. destruct (Nat.lt_ge_cases var (length t)) as [L|L].
  - destruct t as [|d t0]; [cbn in L; lia|]. set (t := d :: t0) in *. rewrite <- (firstn_skipn var t) in N. destruct (skipn var t) as [|x r] eqn:Q.
    + apply (f_equal (@length A)) in Q. rewrite skipn_length in Q. cbn [length] in *. lia.
    + assert (E : skipn (S var) t = r). { clear N. revert Q. generalize t. clear. induction var as [|var IH]; intros [|y t] Q; cbn in *; try discriminate; [congruence|]. now apply IH. }
      rewrite E. now apply NoDup_remove_1 in N.
  - rewrite firstn_all2, skipn_all2, app_nil_r by lia. auto.
Qed.
Lemma mapO_erase var n : forall I, wf n I -> var < n -> mapO (erase_at var) I = Some (map (fun g => firstn var g ++ skipn (S var) g) I).
Proof. intros I W L. apply mapO_some. apply Forall_forall. intros g Hg. apply erase_spec. rewrite (W g Hg). auto. Qed.
Theorem p_project names I var : good_named (names, I) -> var < length names -> exists R,
  bi_projectVar var (names, I) = Some (remove_at var names, R) /\ good_named (remove_at var names, R) /\
  forall m, length m = length names - 1 -> (in_ideal R m <-> exists k, in_ideal I (put_at var k m)).
Proof.
  intros G L. apply good_wf in G as [N W]. unfold bi_projectVar. cbn [fst snd]. rewrite (mapO_erase var (length names)) by auto. cbn [bind]. set (n := length names) in *.
  exists (map (fun g => firstn var g ++ skipn (S var) g) I). split; auto. assert (Ln : length (remove_at var names) = n - 1) by (unfold remove_at; now apply removed_length).
  assert (Wr : forall g, In g I -> length (firstn var g ++ skipn (S var) g) = n - 1) by (intros g Hg; rewrite removed_length; rewrite (W g Hg); auto).
  split; [apply good_wf; split; [now apply removed_nodup|]; intros r Hr; apply in_map_iff in Hr as [g [<- Hg]]; rewrite Ln; auto|].
  intros m Lm. split.
  - intros [r [Hr D]]. apply in_map_iff in Hr as [g [<- Hg]]. apply (divs_to (n - 1)) in D; auto. exists (nth var g 0), g. split; auto. apply (divs_pt n); auto; [rewrite put_length by lia; lia|].
    intros v Hv. rewrite put_nth by lia. destruct (Nat.ltb_spec v var).
    + specialize (D v). rewrite removed_nth in D. destruct (Nat.ltb_spec v var); [|lia]. apply D. lia.
    + destruct (Nat.eqb_spec v var) as [->|]; [lia|]. specialize (D (v - 1)). rewrite removed_nth in D. destruct (Nat.ltb_spec (v - 1) var); [lia|]. replace (S (v - 1)) with v in D by lia. apply D. lia.
  - intros [k [g [Hg D]]]. exists (firstn var g ++ skipn (S var) g). split; [apply in_map_iff; exists g; auto|]. apply (divs_to n) in D; auto; [|rewrite put_length by lia; lia]. apply (divs_pt (n - 1)); auto.
    intros v Hv. rewrite removed_nth. destruct (Nat.ltb_spec v var).
    + specialize (D v). rewrite put_nth in D by lia. destruct (Nat.ltb_spec v var); [|lia]. apply D. lia.
    + specialize (D (S v)). rewrite put_nth in D by lia. destruct (Nat.ltb_spec (S v) var); [lia|]. destruct (Nat.eqb_spec (S v) var); [lia|]. replace (S v - 1) with v in D by lia. apply D. lia.
Qed.
