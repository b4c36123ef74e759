(** The canonical output depends only on the ideal. *)
From Coq Require Import String Ascii.
From Coq Require Import List Arith Bool ZArith Lia Sorted Permutation.
Import ListNotations.
From Verif Require Import M_Term M_Ideal M_Slice M_Msm M_Api M_Names M_IO Spec_IO P_Names P_IO P_IO2 P_IO3 P_IO4 P_IO5 P_IO6 P_IO7 P_IO8 P_IO9 P_IO10 M_Intersect M_Transform M_Actions M_Cli P_Cli2 P_Cli3 P_Cli4 P_Cli5 P_Cli6 P_Cli7.
From Verif Require Import Spec_Names P_Names2 P_Transform4 P_Cli1 Spec_Slice Spec_Run P_Term P_Ideal P_Decomp P_Internal P_Translator P_Api P_Api2 P_Api3 P_Api4 P_Api5.
From Verif Require Import Spec Spec_Api Spec_Cli.
Local Notation length := List.length.

(** ** The same monomial over other names *)
Definition pull (l l' : list str) (m : mono) : mono := map (exponent_of 0 l' m) l.
Lemma pull_same l l' m : NoDup l -> Permutation l l' -> length m = length l' -> same_term 0 l l' (pull l l' m) m.
Proof.
  intros N P L. split; auto. intros s. unfold exponent_of at 2. destruct (index_of s l) as [i|] eqn:E.
  - apply index_of_nth in E; auto. unfold pull. symmetry. apply nth_error_nth. now rewrite nth_error_map, E.
  - apply index_of_none in E. unfold exponent_of. destruct (index_of s l') as [j|] eqn:F; auto. exfalso. apply E. apply index_of_nth in F; [|eapply Permutation_NoDup; eauto].
    apply (Permutation_in _ (Permutation_sym P)). eapply nth_error_In; eauto.
Qed.
Lemma divs_named l g m : NoDup l -> length g = length l -> length m = length l -> (divs g m <-> forall s, exponent_of 0 l g s <= exponent_of 0 l m s).
Proof.
  intros N Lg Lm. rewrite (divs_iff (length l)) by auto. unfold le_n. split.
  - intros H s. unfold exponent_of. destruct (index_of s l) as [i|] eqn:E; auto. apply index_of_nth in E; auto. apply H. apply nth_error_Some. congruence.
  - intros H i Hi. specialize (H (nth i l [])). unfold exponent_of in H. assert (X : index_of (nth i l []) l = Some i) by (apply index_of_nth; auto; now apply nth_error_nth'). now rewrite X in H.
Qed.
Lemma ideal_named l l' gens gens' m m' : NoDup l -> NoDup l' -> in_ring (length l) gens -> length m = length l -> Forall2 (same_term 0 l l') gens gens' -> same_term 0 l l' m m' ->
  (in_ideal gens m <-> in_ideal gens' m').
Proof.
  intros N N' R Lm F [Lm' Hm]. unfold in_ideal. induction F as [|g g' G G' [Lg Hg] F IH]; [split; intros [? [[] _]]|]. inversion R as [|? ? R1 R2]; subst. specialize (IH R2).
  assert (X : divs g m <-> divs g' m').
  { rewrite (divs_named l) by auto. rewrite (divs_named l') by auto. split; intros H s; [rewrite Hg, Hm|rewrite <- Hg, <- Hm]; apply H. }
  split; intros [h [[<-|Hh] Hd]].
  - exists g'. split; [now left|now apply X].
  - destruct (proj1 IH (ex_intro _ h (conj Hh Hd))) as [k [A B]]. exists k. split; auto. now right.
  - exists g. split; [now left|now apply X].
  - destruct (proj2 IH (ex_intro _ h (conj Hh Hd))) as [k [A B]]. exists k. split; auto. now right.
Qed.
Lemma same_output names1 gens1 names2 gens2 l1 G1 l2 G2 : legal_names names1 -> legal_names names2 -> in_ring (length names1) gens1 -> in_ring (length names2) gens2 ->
  same_input names1 gens1 names2 gens2 -> output_ring true names1 gens1 l1 G1 -> output_ring true names2 gens2 l2 G2 -> l2 = l1 /\ same_ideal (length l1) G1 G2.
Proof.
  intros [N1 _] [N2 _] R1 R2 [P H] [P1 [A1 F1]] [P2 [A2 F2]].
  assert (l2 = l1) as ->. { apply ascending_unique; auto. eapply Permutation_trans; [apply Permutation_sym; exact P2|]. eapply Permutation_trans; [apply Permutation_sym; exact P|exact P1]. }
  split; auto. intros m Hm. assert (NL : NoDup l1) by (eapply Permutation_NoDup; [exact P1|exact N1]).
  pose proof (pull_same names1 l1 m N1 P1 Hm) as S1. pose proof (pull_same names2 l1 m N2 P2 Hm) as S2.
  assert (L1 : length (pull names1 l1 m) = length names1) by apply map_length. assert (L2 : length (pull names2 l1 m) = length names2) by apply map_length.
  rewrite <- (ideal_named names1 l1 gens1 G1 _ m N1 NL R1 L1 F1 S1). rewrite <- (ideal_named names2 l1 gens2 G2 _ m N2 NL R2 L2 F2 S2).
  apply H; auto. split; auto. intros s. destruct S1 as [_ S1]. destruct S2 as [_ S2]. now rewrite <- S1, <- S2.
Qed.

(** ** The same output *)
Lemma input_good o file names gens : input_is o file names gens -> legal_names names /\ in_ring (length names) gens.
Proof. intros [_ [E _]]. apply read_good in E. now apply good_znat in E. Qed.
Lemma canon_sort n L L' : in_ring n L -> Permutation L L' -> lexsort L = lexsort L'.
Proof. apply lexsort_unique. Qed.

Section Two.
  Context (o1 o2 : options) (rnd1 rnd2 : nat -> nat) (file1 file2 : text) (names1 names2 : list str) (gens1 gens2 : list mono).
  Hypothesis (C1 : o_canon o1 = true) (C2 : o_canon o2 = true) (F : out_format o1 file1 = out_format o2 file2) (HS : same_input names1 gens1 names2 gens2).
  Hypothesis (H1 : input_is o1 file1 names1 gens1) (H2 : input_is o2 file2 names2 gens2).
  Lemma two_same l1 G1 l2 G2 : output_ring (o_canon o1) names1 gens1 l1 G1 -> output_ring (o_canon o2) names2 gens2 l2 G2 -> l2 = l1 /\ same_ideal (length l1) G1 G2.
  Proof. rewrite C1, C2. intros X Y. destruct (input_good _ _ _ _ H1), (input_good _ _ _ _ H2). apply (same_output names1 gens1 names2 gens2 l1 G1 l2 G2); auto. Qed.
  Lemma irr_same encode : irrdecom_action o1 encode rnd1 file1 = irrdecom_action o2 encode rnd2 file2.
  Proof.
    destruct (irr_run o1 encode rnd1 file1 names1 gens1 H1) as [l1 [G1 [D1 [A1 [B1 [R1 [E1 ->]]]]]]]. destruct (irr_run o2 encode rnd2 file2 names2 gens2 H2) as [l2 [G2 [D2 [A2 [B2 [R2 [E2 ->]]]]]]].
    destruct (two_same _ _ _ _ A1 A2) as [-> S0]. rewrite C1, C2, F. cbn [canon1]. assert (E : lexsort D1 = lexsort D2) by (apply (lexsort_unique (length l1)); [apply E1|]; eapply decomp_unique; eauto). now rewrite E.
  Qed.
  Lemma msm_same increment : maxstandard_action o1 increment rnd1 file1 = maxstandard_action o2 increment rnd2 file2.
  Proof.
    destruct (msm_text o1 increment rnd1 file1 names1 gens1 H1) as [l1 [G1 [D1 [A1 [B1 [R1 [I1 [E1 [M1 ->]]]]]]]]]. destruct (msm_text o2 increment rnd2 file2 names2 gens2 H2) as [l2 [G2 [D2 [A2 [B2 [R2 [I2 [E2 [M2 ->]]]]]]]]].
    destruct (two_same _ _ _ _ A1 A2) as [-> S0]. rewrite C1, C2, F. cbn [canon1]. f_equal. do 3 f_equal. apply (lexsort_unique (length l1)); auto.
    assert (P : Permutation D1 D2) by (apply NoDup_Permutation; auto; intros m; rewrite M1, M2; now apply same_max). destruct increment; auto. now apply Permutation_map.
  Qed.
  Lemma ass_same : assoprimes_action o1 rnd1 file1 = assoprimes_action o2 rnd2 file2.
  Proof.
    destruct (ass_text o1 rnd1 file1 names1 gens1 H1) as [l1 [G1 [D1 [A1 [B1 [R1 [I1 [E1 [M1 ->]]]]]]]]]. destruct (ass_text o2 rnd2 file2 names2 gens2 H2) as [l2 [G2 [D2 [A2 [B2 [R2 [I2 [E2 [M2 ->]]]]]]]]].
    destruct (two_same _ _ _ _ A1 A2) as [-> S0]. rewrite C1, C2, F. cbn [canon1]. f_equal. do 3 f_equal. apply (lexsort_unique (length l1)); auto.
    apply NoDup_Permutation; auto; intros m; rewrite M1, M2; now apply same_ass.
  Qed.
  Lemma primary_same r1 r2 : primdecom_action o1 r1 file1 = primdecom_action o2 r2 file2.
  Proof.
    destruct (primary_text o1 r1 file1 names1 gens1 H1) as [l1 [G1 [D1 [Gs1 [Bs1 [A1 [B1 [R1 [I1 [E1 [M1 [U1 [V1 [_ ->]]]]]]]]]]]]]]. destruct (primary_text o2 r2 file2 names2 gens2 H2) as [l2 [G2 [D2 [Gs2 [Bs2 [A2 [B2 [R2 [I2 [E2 [M2 [U2 [V2 [_ ->]]]]]]]]]]]]]].
    destruct (two_same _ _ _ _ A1 A2) as [-> S0]. rewrite C1, C2, F. cbn [canon2]. f_equal. f_equal. f_equal.
    assert (D1 = D2) as -> by (apply sorted_unique; auto; eapply decomp_unique; eauto). assert (Gs1 = Gs2) as -> by (eapply runs_functional; eauto).
    rewrite !map_rev. f_equal. clear -I1 V1 V2. revert Bs2 V2. induction V1 as [|G B Gs Bs V X IH]; intros Bs2 V2; inversion V2 as [|? B' ? Bs' V' X']; subst; auto. inversion I1; subst. cbn [map]. f_equal; auto.
    apply (lexsort_unique (length l1)); auto. destruct V as [_ [_ [_ V]]]. destruct V' as [_ [_ [_ V']]]. eapply lists_minimal_perm; [|exact V|exact V']. tauto.
  Qed.
End Two.
Lemma dual_same o1 o2 rnd1 rnd2 file1 file2 names1 names2 gens1 gens2 : o_canon o1 = true -> o_canon o2 = true -> out_format o1 file1 = out_format o2 file2 -> same_input names1 gens1 names2 gens2 ->
  dual_input_is o1 file1 names1 gens1 None -> dual_input_is o2 file2 names2 gens2 None -> alexdual_action o1 rnd1 file1 = alexdual_action o2 rnd2 file2.
Proof.
  intros C1 C2 F HS H1 H2. destruct (dual_good _ _ _ _ _ H1) as [N1 [R1 _]]. destruct (dual_good _ _ _ _ _ H2) as [N2 [R2 _]].
  destruct (dual_text o1 rnd1 file1 names1 gens1 None H1) as [l1 [G1 [A1 [_ [I1 [_ [a1 [M1 [L1 [X1 [Y1 ->]]]]]]]]]]]. destruct (dual_text o2 rnd2 file2 names2 gens2 None H2) as [l2 [G2 [A2 [_ [I2 [_ [a2 [M2 [L2 [X2 [Y2 ->]]]]]]]]]]].
  rewrite C1 in A1. rewrite C2 in A2. destruct (same_output _ _ _ _ _ _ _ _ N1 N2 R1 R2 HS A1 A2) as [-> S0]. rewrite C1, C2, F. cbn [canon1]. do 3 f_equal.
  assert (a2 = a1) as ->.
  { destruct M1 as [La [B1 K1]]. destruct M2 as [Lb [B2 K2]].
    assert (Q : forall a, above_minimal_generators (length l1) G1 a <-> above_minimal_generators (length l1) G2 a).
    { intros a. unfold above_minimal_generators. split; intros H g Hg; apply H; now apply (same_minimal (length l1) G1 G2). }
    assert (D1 : divs a1 a2) by (apply K1; auto; now apply Q). assert (D2 : divs a2 a1) by (apply K2; auto; now apply Q).
    clear -D1 D2. revert a2 D1 D2. induction a1 as [|x a IH]; intros [|y b] X Y; inversion X; inversion Y; subst; auto. f_equal; [lia|auto]. }
  apply (lexsort_unique (length l1)); auto. eapply lists_minimal_perm; [|exact Y1|exact Y2]. intros m _. now apply (same_dual (length l1)).
Qed.

(** ** Errors in the input *)
Lemma outcome {A} m f file (r : res A) : (forall names gens, read_ideal m f file = Ok (names, map znat gens) -> exists a, r = Ok a) ->
  (read_ideal m f file = SyntaxError -> r = SyntaxError) -> (read_ideal m f file = OtherError -> r = OtherError) -> (read_ideal m f file = InvalidArgument -> r = InvalidArgument) ->
  same_outcome (read_ideal m f file) r.
Proof.
  intros H1 H2 H3 H4. pose proof (read_ideal_gd m f file) as G. destruct (read_ideal m f file) as [J| | | | |]; cbn [gd] in G; try contradiction; cbn [same_outcome].
  - destruct (good_form J G) as [gens E]. destruct (H1 (fst J) gens) as [a ->]; [now rewrite E at 1|exact I].
  - now rewrite H2.
  - now rewrite H3.
  - now rewrite H4.
Qed.
Lemma above_dec n gens a : in_ring n gens -> length a = n -> above_minimal_generators n gens a \/ ~ above_minimal_generators n gens a.
Proof.
  intros R L. apply in_ring_wf in R. pose proof (above_iff n gens (J1 n gens) a R (J1_internal n gens R) L) as H.
  destruct (forallb (fun v => nth v (lcmI n gens (J1 n gens)) 0 <=? nth v a 0) (seq 0 n)) eqn:X.
  - left. apply H. intros v Hv. rewrite forallb_forall in X. apply Nat.leb_le. apply X. apply in_seq. lia.
  - right. intros Y. apply H in Y. assert (F : forallb (fun v => nth v (lcmI n gens (J1 n gens)) 0 <=? nth v a 0) (seq 0 n) = true); [|congruence].
    apply forallb_forall. intros v Hv. apply in_seq in Hv. apply Nat.leb_le. apply Y. lia.
Qed.
Lemma irr_no_lists o rnd file : ~ list_format (out_format o file) -> irrdecom_action o false rnd file = OtherError.
Proof. intros H. unfold irrdecom_action. rewrite if_list_eq. unfold if_list. now rewrite no_list. Qed.
Lemma max_no_lists o increment rnd file : ~ list_format (out_format o file) -> maxstandard_action o increment rnd file = OtherError /\ assoprimes_action o rnd file = OtherError.
Proof. intros H. unfold maxstandard_action, assoprimes_action. rewrite !if_list_eq. unfold if_list. now rewrite no_list. Qed.
Lemma primary_no_lists o rnd file : ~ list_format (out_format o file) -> primdecom_action o rnd file = OtherError.
Proof. intros H. unfold primdecom_action. rewrite if_list_eq. unfold if_list. now rewrite no_list. Qed.
Section Any.
  Context (o : options) (file : text).
  Hypothesis (Hc : legal_config (o_config o)) (M : o_minimal o = false).
  Lemma read_input names gens : read_ideal (o_max o) (in_format o file) file = Ok (names, map znat gens) -> input_is o file names gens.
  Proof. intros E. split; auto. split; auto. rewrite M. discriminate. Qed.
  Lemma any_irr encode rnd : if (encode : bool) then same_outcome (read_ideal (o_max o) (in_format o file) file) (irrdecom_action o encode rnd file)
    else list_outcome (out_format o file) (read_ideal (o_max o) (in_format o file) file) (irrdecom_action o encode rnd file).
  Proof.
    destruct encode; [|split; intros HL; [|unfold irrdecom_action; rewrite if_list_eq; unfold if_list; now rewrite no_list]].
    all: apply outcome; [intros names gens E|intros E; unfold irrdecom_action; rewrite ?if_list_eq, ?if_list_ok by exact HL; unfold cli_read; now rewrite E..].
    - destruct (irr_printed o true rnd file names gens (read_input _ _ E) (or_introl eq_refl)) as [? [? [? [out [_ [_ [_ [X _]]]]]]]]. eauto.
    - destruct (irr_printed o false rnd file names gens (read_input _ _ E) (or_intror HL)) as [? [? [? [out [_ [_ [_ [X _]]]]]]]]. eauto.
  Qed.
  Lemma any_msm increment rnd : list_outcome (out_format o file) (read_ideal (o_max o) (in_format o file) file) (maxstandard_action o increment rnd file).
  Proof.
    split; intros HL; [|unfold maxstandard_action; rewrite if_list_eq; unfold if_list; now rewrite no_list].
    apply outcome; [intros names gens E|intros E; unfold maxstandard_action; rewrite if_list_eq, if_list_ok by exact HL; unfold cli_read; now rewrite E..].
    destruct (max_printed o increment rnd file names gens (read_input _ _ E) HL) as [? [? [? [out [_ [_ [_ [_ [X _]]]]]]]]]. eauto.
  Qed.
  Lemma any_ass rnd : list_outcome (out_format o file) (read_ideal (o_max o) (in_format o file) file) (assoprimes_action o rnd file).
  Proof.
    split; intros HL; [|unfold assoprimes_action; rewrite if_list_eq; unfold if_list; now rewrite no_list].
    apply outcome; [intros names gens E|intros E; unfold assoprimes_action; rewrite if_list_eq, if_list_ok by exact HL; unfold cli_read; now rewrite E..].
    destruct (ass_printed o rnd file names gens (read_input _ _ E) HL) as [? [? [? [out [_ [_ [_ [_ [X _]]]]]]]]]. eauto.
  Qed.
  Lemma any_primary rnd : list_outcome (out_format o file) (read_ideal (o_max o) (in_format o file) file) (primdecom_action o rnd file).
  Proof.
    split; intros HL; [|unfold primdecom_action; rewrite if_list_eq; unfold if_list; now rewrite no_list].
    apply outcome; [intros names gens E|intros E; unfold primdecom_action; rewrite if_list_eq, if_list_ok by exact HL; unfold cli_read; now rewrite E..].
    destruct (primary_text o rnd file names gens (read_input _ _ E)) as [l [G [D [Gs [Bs [_ [_ [_ [_ [_ [_ [_ [_ [_ X]]]]]]]]]]]]]]. rewrite X, if_list_ok by exact HL. apply ltext_ok.
  Qed.
  Lemma any_dual rnd : match read_dual (o_max o) (in_format o file) file with
    | Ok (_, None) => exists out, alexdual_action o rnd file = Ok out
    | Ok (_, Some _) => (exists out, alexdual_action o rnd file = Ok out) \/ alexdual_action o rnd file = OtherError
    | r => same_outcome r (alexdual_action o rnd file) end.
  Proof.
    pose proof (read_dual_gd (o_max o) (in_format o file) file) as G. destruct (read_dual (o_max o) (in_format o file) file) as [[J pt]| | | | |] eqn:E; cbn [gd] in G; try contradiction;
      try (cbn [same_outcome]; unfold alexdual_action; rewrite E; exact I).
    destruct G as [G P]. cbn [fst snd] in *. destruct (good_form J G) as [gens EJ]. rewrite EJ in E.
    assert (X : exists point, pt = option_map znat point).
    { destruct pt as [a|]; [|exists None; reflexivity]. destruct P as [_ P]. exists (Some (map Z.to_nat a)). cbn [option_map]. f_equal. unfold znat. rewrite map_map. rewrite <- (map_id a) at 1. apply map_ext_in. intros e He. rewrite Forall_forall in P. specialize (P e He). lia. }
    destruct X as [point ->]. assert (DI : dual_input_is o file (fst J) gens point) by (split; auto; split; auto; rewrite M; discriminate).
    destruct (dual_text o rnd file (fst J) gens point DI) as [l [G' [A [B [C [D F]]]]]]. cbv zeta in F. destruct point as [a|]; cbn [option_map].
    - destruct (dual_good _ _ _ _ _ DI) as [_ [_ La]].
      destruct (above_dec (length l) G' a C ltac:(congruence)) as [X|X]; [left; destruct (proj1 F X) as [L [_ [_ Y]]]; eauto|right; now apply F].
    - destruct F as [a [_ [L [_ [_ X]]]]]. eauto.
  Qed.
End Any.
Lemma any_outcome : forall o file, legal_config (o_config o) -> o_minimal o = false ->
  (forall rnd, same_outcome (read_ideal (o_max o) (in_format o file) file) (irrdecom_action o true rnd file)) /\
  (forall rnd, list_outcome (out_format o file) (read_ideal (o_max o) (in_format o file) file) (irrdecom_action o false rnd file)) /\
  (forall increment rnd, list_outcome (out_format o file) (read_ideal (o_max o) (in_format o file) file) (maxstandard_action o increment rnd file)) /\
  (forall rnd, list_outcome (out_format o file) (read_ideal (o_max o) (in_format o file) file) (assoprimes_action o rnd file)) /\
  (forall rnd, list_outcome (out_format o file) (read_ideal (o_max o) (in_format o file) file) (primdecom_action o rnd file)) /\
  (forall rnd, match read_dual (o_max o) (in_format o file) file with
    | Ok (_, None) => exists out, alexdual_action o rnd file = Ok out
    | Ok (_, Some _) => (exists out, alexdual_action o rnd file = Ok out) \/ alexdual_action o rnd file = OtherError
    | r => same_outcome r (alexdual_action o rnd file)
    end).
Proof.
  intros o file Hc M. split; [|split; [|split; [|split; [|split]]]]; intros; [now apply (any_irr o file Hc M true)|now apply (any_irr o file Hc M false)|now apply any_msm|now apply any_ass|now apply any_primary|now apply any_dual].
Qed.
Lemma canonical_same : forall o1 o2 file1 file2 names1 names2 gens1 gens2, o_canon o1 = true -> o_canon o2 = true -> out_format o1 file1 = out_format o2 file2 ->
  same_input names1 gens1 names2 gens2 -> input_is o1 file1 names1 gens1 -> input_is o2 file2 names2 gens2 ->
  (forall encode rnd1 rnd2, irrdecom_action o1 encode rnd1 file1 = irrdecom_action o2 encode rnd2 file2) /\
  (forall increment rnd1 rnd2, maxstandard_action o1 increment rnd1 file1 = maxstandard_action o2 increment rnd2 file2) /\
  (forall rnd1 rnd2, assoprimes_action o1 rnd1 file1 = assoprimes_action o2 rnd2 file2) /\
  (forall rnd1 rnd2, primdecom_action o1 rnd1 file1 = primdecom_action o2 rnd2 file2) /\
  (forall rnd1 rnd2, alexdual_action o1 rnd1 file1 = alexdual_action o2 rnd2 file2).
Proof.
  intros o1 o2 file1 file2 names1 names2 gens1 gens2 C1 C2 F HS H1 H2.
  split; [intros; now apply (irr_same o1 o2 _ _ file1 file2 names1 names2 gens1 gens2)|]. split; [intros; now apply (msm_same o1 o2 _ _ file1 file2 names1 names2 gens1 gens2)|].
  split; [intros; now apply (ass_same o1 o2 _ _ file1 file2 names1 names2 gens1 gens2)|]. split; [intros; now apply (primary_same o1 o2 file1 file2 names1 names2 gens1 gens2)|].
  intros. destruct H1 as [A1 [B1 D1]]. destruct H2 as [A2 [B2 D2]]. apply (dual_same o1 o2 _ _ file1 file2 names1 names2 gens1 gens2); auto; (split; [auto|split; [apply read_dual_ideal; auto|auto]]).
Qed.
