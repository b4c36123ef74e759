(** Proofs about the action analyze. *)
From Coq Require Import String Ascii.
From Coq Require Import List Arith Bool ZArith Lia Permutation.
Import ListNotations.
From Verif Require Import M_Term M_Ideal M_Api M_Names M_IO M_Intersect M_Transform M_Actions M_Bigatti M_Cli M_Analyze Spec_Transform Spec_Intersect.
From Verif Require Import P_Term P_Ideal P_Corner P_Translator P_Internal P_Api2 P_Transform P_Generic P_IO9 P_Cli5 P_Cli6.
From Verif Require Import Spec Spec_Api Spec_IO Spec_Slice Spec_Scarf Spec_Cli Spec_Analyze.
Local Notation length := List.length.

(** ** Minimal generators *)
Lemma minimal_in_gens n gens g : in_ring n gens -> minimal_generator n gens g -> In g gens.
Proof. intros R [L [[h [H D]] M]]. rewrite <- (M h); auto. exists h. split; auto. clear. induction h; constructor; auto. Qed.
Lemma minimal_count n gens M : in_ring n gens -> lists_minimal_generators n gens M -> (length M = length gens <-> lists_minimal_generators n gens gens).
Proof.
  intros R [N H]. assert (S0 : incl M gens) by (intros g Hg; apply (minimal_in_gens n); auto; now apply H). split.
  - intros E. split.
    + apply (NoDup_incl_NoDup N); auto. lia.
    + intros g. rewrite <- H. split; auto. apply (NoDup_length_incl N); auto. lia.
  - intros [N' H']. apply Permutation_length. apply NoDup_Permutation; auto. intros g. now rewrite H, H'.
Qed.
Lemma minimal_same n gens M : in_ring n gens -> lists_minimal_generators n gens M -> forall L, lists_minimal_generators n M L <-> lists_minimal_generators n gens L.
Proof.
  intros R H.
  assert (E : forall g, minimal_generator n M g <-> minimal_generator n gens g).
  { assert (Q : forall g, length g = n -> (in_ideal M g <-> in_ideal gens g)).
    { intros g L. assert (W : wf n gens) by (intros x Hx; unfold in_ring in R; rewrite Forall_forall in R; now apply R).
      destruct (i_minimize_spec n gens) as [A [B C]].
      assert (P : lists_minimal_generators n gens (i_minimize n gens)) by (apply minl_lists_minimal; auto; [intros x Hx; apply W; now apply B|apply min_of_eqI; exact (conj A (conj B C))]).
      destruct P as [_ P]. destruct H as [_ H]. split.
      - intros [h [Hh D]]. exists h. split; auto. apply (minimal_in_gens n); auto. now apply H.
      - intros [h [Hh D]]. destruct (C h Hh) as [x [Hx Lx]]. exists x. split; [apply H, P, Hx|]. apply (divs_iff n); auto. assert (Lh : le_n n h g) by (apply (divs_to n); auto). intros v Hv. specialize (Lx v Hv). specialize (Lh v Hv). lia. }
    assert (LD : forall x y, divs x y -> length x = length y) by (intros x y D; induction D; cbn; auto).
    intros g. split; intros [L [I0 X]]; (split; [auto|split; [now apply Q|]]); intros h Hh D; apply X; auto; apply Q; auto; rewrite (LD _ _ D); auto. }
  intros L. unfold lists_minimal_generators. split; intros [N X]; (split; [auto|]); intros g; rewrite X; [apply E|symmetry; apply E].
Qed.

(** ** Genericity of the translated ideal *)
Lemma strongly_members n A B : (forall g, In g A <-> In g B) -> strongly_generic n A -> strongly_generic n B.
Proof. intros E H a b v Ha Hb. apply H; now apply E. Qed.
Lemma weakly_members n A B : (forall g, In g A <-> In g B) -> weakly_generic n A -> weakly_generic n B.
Proof. intros E H a b v Ha Hb Hn Hv X Y. destruct (H a b v) as [g [G D]]; auto; try now apply E. exists g. split; auto. now apply E. Qed.

Section Image.
Context (n : nat) (KK : nat -> nat) (ph : nat -> nat -> nat) (J : ideal).
Hypothesis E : embedding n KK ph.
Hypothesis B : below n KK J.
Hypothesis W : wf n J.
Let im := image n ph.
Lemma im_nth g v : v < n -> nth v (im g) 0 = ph v (nth v g 0).
Proof. apply image_nth. Qed.
Lemma im_inj a b : In a J -> In b J -> im a = im b -> a = b.
Proof.
  intros Ha Hb X. apply (nth_ext a b 0 0); [now rewrite (W a), (W b)|]. intros v Hv. rewrite (W a Ha) in Hv. apply (emb_inj n KK ph v); auto; try apply B; auto. rewrite <- !im_nth by auto. now rewrite X.
Qed.
Lemma im_zero a v : In a J -> v < n -> (nth v (im a) 0 = 0 <-> nth v a 0 = 0).
Proof. intros Ha Hv. rewrite im_nth by auto. pose proof (emb_pos n KK ph v (nth v a 0) E Hv (B a v Ha Hv)). lia. Qed.
Lemma im_eq a b v : In a J -> In b J -> v < n -> (nth v (im a) 0 = nth v (im b) 0 <-> nth v a 0 = nth v b 0).
Proof. intros Ha Hb Hv. rewrite !im_nth by auto. split; [|congruence]. apply (emb_inj n KK ph v); auto; apply B; auto. Qed.
Lemma im_length a : length (im a) = n. Proof. apply tabulate_length. Qed.
Lemma pair_nth a b v : length a = n -> length b = n -> nth v (pair_lcm a b) 0 = Nat.max (nth v a 0) (nth v b 0).
Proof.
  intros La Lb. unfold pair_lcm. destruct (Nat.lt_ge_cases v n) as [H|H].
  - rewrite (nth_indep _ 0 (Nat.max (fst (0, 0)) (snd (0, 0)))) by (rewrite map_length, combine_length; lia).
    rewrite (map_nth (fun p => Nat.max (fst p) (snd p))). rewrite combine_nth by lia. reflexivity.
  - rewrite !nth_overflow; auto; try lia. rewrite map_length, combine_length. lia.
Qed.
Lemma sd_iff g a b : In g J -> In a J -> In b J -> (strictly_divides (im g) (pair_lcm (im a) (im b)) <-> strictly_divides g (pair_lcm a b)).
Proof.
  intros Hg Ha Hb. unfold strictly_divides.
  assert (P : forall v, v < n -> (nth v (im g) 0 < nth v (pair_lcm (im a) (im b)) 0 <-> nth v g 0 < nth v (pair_lcm a b) 0)).
  { intros v Hv. rewrite !pair_nth by (auto using im_length). rewrite !im_nth by auto.
    pose proof (emb_lt n KK ph v (nth v g 0) (nth v a 0) E Hv (B g v Hg Hv) (B a v Ha Hv)). pose proof (emb_lt n KK ph v (nth v g 0) (nth v b 0) E Hv (B g v Hg Hv) (B b v Hb Hv)). lia. }
  assert (Q : forall v, v < n -> (0 < nth v (pair_lcm (im a) (im b)) 0 <-> 0 < nth v (pair_lcm a b) 0)).
  { intros v Hv. rewrite !pair_nth by (auto using im_length). pose proof (im_zero a v Ha Hv). pose proof (im_zero b v Hb Hv). lia. }
  assert (O : forall t i, length t = n -> n <= i -> nth i t 0 = 0) by (intros t i L H; apply nth_overflow; lia).
  assert (LP : forall x y, length x = n -> length y = n -> length (pair_lcm x y) = n) by (intros x y Lx Ly; unfold pair_lcm; rewrite map_length, combine_length; lia).
  pose proof (W g Hg) as Lg. pose proof (W a Ha) as La. pose proof (W b Hb) as Lb.
  split; intros [X [i Y]]; (split; [intros v; destruct (Nat.lt_ge_cases v n) as [Hv|Hv]; [|left; apply O; auto using im_length]; destruct (X v) as [Z0|Z0]; [left; now apply im_zero|right; now apply P]|]); exists i;
    (destruct (Nat.lt_ge_cases i n) as [Hi|Hi]; [now apply Q|rewrite O in Y; auto using im_length; lia]).
Qed.
Lemma strongly_image : strongly_generic n (map im J) <-> strongly_generic n J.
Proof.
  split; intros H a b v.
  - intros Ha Hb N Hv X. apply (im_zero a v Ha Hv). apply (H (im a) (im b)); auto using in_map; [intros Y; apply N; now apply im_inj|now apply im_eq].
  - intros Ha Hb N Hv X. apply in_map_iff in Ha, Hb. destruct Ha as [a' [<- Ha]], Hb as [b' [<- Hb]]. apply im_zero; auto. apply (H a' b'); auto; [congruence|now apply im_eq].
Qed.
Lemma weakly_image : weakly_generic n (map im J) <-> weakly_generic n J.
Proof.
  split; intros H a b v.
  - intros Ha Hb N Hv X Y. destruct (H (im a) (im b) v) as [g [G D]]; auto using in_map; [intros Z0; apply N; now apply im_inj|now apply im_eq|pose proof (im_zero a v Ha Hv); lia|].
    apply in_map_iff in G. destruct G as [g' [<- G]]. exists g'. split; auto. now apply sd_iff.
  - intros Ha Hb N Hv X Y. apply in_map_iff in Ha, Hb. destruct Ha as [a' [<- Ha]], Hb as [b' [<- Hb]].
    destruct (H a' b' v) as [g [G D]]; auto; [congruence|now apply im_eq|pose proof (im_zero a' v Ha Hv); lia|]. exists (im g). split; [now apply in_map|]. now apply sd_iff.
Qed.
End Image.

(** ** The summary *)
Lemma yes_answer b : yes_no b = answer b. Proof. reflexivity. Qed.
Lemma summary names gens : in_ring (length names) gens -> exists minimal strong weak,
  (minimal = true <-> lists_minimal_generators (length names) gens gens) /\
  (forall M, lists_minimal_generators (length names) gens M -> (strong = true <-> strongly_generic (length names) M)) /\
  (forall M, lists_minimal_generators (length names) gens M -> (weak = true <-> weakly_generic (length names) M)) /\
  printAnalysis (names, gens) = summary_text (length names) (length gens) minimal strong weak.
Proof.
  intros R. set (n := length names) in *. assert (Wg : wf n gens) by (intros x Hx; unfold in_ring in R; rewrite Forall_forall in R; now apply R).
  pose proof (J1_internal n gens Wg) as HJ. pose proof (image_minimal n gens _ Wg HJ) as HM. set (J := J1 n gens) in *.
  assert (ML : minl n J) by apply J1_minl. assert (WJ : wf n J) by apply J1_wf. assert (BJ : below n (K gens) J) by apply J1_below.
  assert (ND : NoDup J) by (destruct HM as [X _]; now apply NoDup_map_inv in X).
  assert (RJ : in_ring n J) by (apply Forall_forall; exact WJ).
  assert (L0 : length (J0 n gens) = length gens) by (unfold J0, shrinkBigIdeal; now rewrite map_length).
  exists (length J =? length (J0 n gens)), (i_isStronglyGeneric n J), (i_isWeaklyGeneric n J). split; [|split; [|split]].
  - rewrite Nat.eqb_eq, L0. rewrite <- (minimal_count n gens _ R HM). now rewrite map_length.
  - intros M H. rewrite (p_strongly_generic n J ND). rewrite <- (strongly_image n (K gens) (phi gens) J) by (auto using phi_embedding).
    assert (Q : forall g, In g (map (image n (phi gens)) J) <-> In g M) by (intros g; rewrite (proj2 HM g), (proj2 H g); tauto). split; apply strongly_members; [exact Q|intros g; now rewrite Q].
  - intros M H. rewrite (p_weakly_generic n J RJ ND). rewrite <- (weakly_image n (K gens) (phi gens) J) by (auto using phi_embedding).
    assert (Q : forall g, In g (map (image n (phi gens)) J) <-> In g M) by (intros g; rewrite (proj2 HM g), (proj2 H g); tauto). split; apply weakly_members; [exact Q|intros g; now rewrite Q].
  - unfold printAnalysis, summary_text, requested, line. cbn [fst snd]. fold n. change (shrinkBigIdeal n (tr_initialize n gens) gens) with (J0 n gens). change (i_minimize n (J0 n gens)) with J. rewrite !yes_answer.
    rewrite <- L0 at 1. rewrite <- !app_assoc. reflexivity.
Qed.

(** ** The lcm *)
Definition lc (l : list nat) (gens : list mono) : list nat := fold_left (fun l g => map (fun p => Nat.max (fst p) (snd p)) (combine l g)) gens l.
Lemma ac_fold names : forall gens count l, fold_left ac_term (map znat gens) (AC names count (znat l)) = AC names (count + length gens) (znat (lc l gens)).
Proof.
  induction gens as [|g gens IH]; intros count l; cbn [map fold_left lc length]; [now rewrite Nat.add_0_r|].
  replace (count + S (length gens)) with (S count + length gens) by lia. etransitivity; [|exact (IH (S count) (map (fun p => Nat.max (fst p) (snd p)) (combine l g)))]. f_equal. unfold ac_term. cbn [ac_names ac_count ac_lcm]. f_equal. unfold znat. clear. revert g. induction l as [|x l IH]; intros [|y g]; cbn [map combine]; auto. rewrite IH. cbn [fst snd]. f_equal.
  destruct (Z.ltb_spec (Z.of_nat x) (Z.of_nat y)); f_equal; lia.
Qed.
Lemma lc_length n : forall gens l, in_ring n gens -> length l = n -> length (lc l gens) = n.
Proof.
  unfold lc. induction gens as [|g gens IH]; intros l R L; cbn [fold_left]; auto. inversion R; subst. apply IH; auto. rewrite map_length, combine_length. lia.
Qed.
Lemma lc_le n v k : v < n -> forall gens l, in_ring n gens -> length l = n -> (nth v (lc l gens) 0 <= k <-> nth v l 0 <= k /\ forall g, In g gens -> nth v g 0 <= k).
Proof.
  intros Hv. unfold lc. induction gens as [|g gens IH]; intros l R L; cbn [fold_left]; [split; [intros H; split; auto; intros g []|tauto]|].
  inversion R as [|? ? R1 R2]; subst. rewrite IH; auto; [|rewrite map_length, combine_length; lia].
  rewrite (nth_indep _ 0 (Nat.max (fst (0, 0)) (snd (0, 0)))) by (rewrite map_length, combine_length; lia). rewrite (map_nth (fun p => Nat.max (fst p) (snd p))), combine_nth by lia. cbn [fst snd].
  split; intros [A C]; split; try lia.
  - intros h [<-|H]; [lia|auto].
  - specialize (C g (or_introl eq_refl)). lia.
  - intros h H. apply C. now right.
Qed.
Lemma lc_lcm n gens : in_ring n gens -> least_common_multiple n gens (lc (repeat 0 n) gens).
Proof.
  intros R. split; [apply lc_length; auto; apply repeat_length|]. intros m L. rewrite (divs_pt n) by (auto; apply lc_length; auto; apply repeat_length).
  assert (G : forall g, In g gens -> length g = n) by (unfold in_ring in R; now rewrite Forall_forall in R).
  split.
  - intros H g Hg. apply (divs_pt n); auto. intros v Hv. specialize (H v Hv). apply (lc_le n v) in H; auto using repeat_length. now apply H.
  - intros H v Hv. apply (lc_le n v); auto using repeat_length. split; [rewrite nth_repeat; lia|]. intros g Hg. apply (divs_pt n g m); auto.
Qed.
(** ** The largest exponent *)
Lemma max_element_ge : forall l e, (e <= max_element e l)%Z /\ Forall (fun x => (x <= max_element e l)%Z) l /\ In (max_element e l) (e :: l).
Proof.
  induction l as [|x l IH]; intros e; cbn [max_element]; [split; [lia|split; [constructor|now left]]|].
  destruct (IH (if (e <? x)%Z then x else e)) as [A [C D]]. destruct (Z.ltb_spec e x) as [H|H].
  - split; [lia|]. split; [constructor; auto|]. now right.
  - split; [lia|]. split; [constructor; auto; lia|]. destruct D as [D|D]; [left; exact D|right; right; exact D].
Qed.
Lemma max_spec n gens : in_ring n gens -> 0 < n -> exists k, largest_exponent gens k /\
  match znat (lc (repeat 0 n) gens) with e :: l => max_element e l | [] => 0%Z end = Z.of_nat k.
Proof.
  intros R N. pose proof (lc_length n gens (repeat 0 n) R (repeat_length _ _)) as L.
  set (l := lc (repeat 0 n) gens) in *.
  assert (G : forall g, In g gens -> length g = n) by (unfold in_ring in R; now rewrite Forall_forall in R).
  assert (X : exists k, In k l /\ (forall e, In e l -> e <= k) /\ match znat l with e :: l' => max_element e l' | [] => 0%Z end = Z.of_nat k).
  { destruct l as [|e l'] eqn:El; [cbn in L; lia|]. cbn [znat map]. destruct (max_element_ge (map Z.of_nat l') (Z.of_nat e)) as [A [C D]].
    change (Z.of_nat e :: map Z.of_nat l') with (map Z.of_nat (e :: l')) in D. apply in_map_iff in D. destruct D as [k [Ek Hk]]. exists k. split; auto. split; [|congruence].
    rewrite <- Ek in A, C. rewrite Forall_forall in C. intros x [<-|Hx]; [lia|]. specialize (C (Z.of_nat x) (in_map _ _ _ Hx)). lia. }
  destruct X as [k [Hk [Mk Ek]]]. exists k. split; auto. split.
  - intros g e Hg He. apply In_nth with (d := 0) in He. destruct He as [v [Hv <-]]. rewrite (G g Hg) in Hv. apply Nat.le_trans with (nth v l 0); [|apply Mk, nth_In; lia].
    apply (proj2 (proj1 (lc_le n v (nth v l 0) Hv gens (repeat 0 n) R (repeat_length _ _)) (Nat.le_refl _))); auto.
  - apply In_nth with (d := 0) in Hk. destruct Hk as [v [Hv Ev]]. rewrite L in Hv. destruct (Nat.eq_dec k 0) as [|K0]; [now left|right].
    destruct (in_dec Nat.eq_dec k (map (fun g => nth v g 0) gens)) as [H|H].
    + apply in_map_iff in H. destruct H as [g [Eg Hg]]. exists g. split; auto. rewrite <- Eg. apply nth_In. rewrite (G g Hg). exact Hv.
    + exfalso. assert (Q : nth v l 0 <= k - 1); [|lia]. apply (lc_le n v); auto using repeat_length. split; [rewrite nth_repeat; lia|]. intros g Hg.
      assert (Y : nth v g 0 <= k). { rewrite <- Ev. apply (proj2 (proj1 (lc_le n v (nth v l 0) Hv gens (repeat 0 n) R (repeat_length _ _)) (Nat.le_refl _))); auto. }
      assert (nth v g 0 <> k) by (intros Z0; apply H, in_map_iff; eauto). lia.
Qed.
Lemma max_none gens : in_ring 0 gens -> largest_exponent gens 0.
Proof. intros R. split; [|now left]. intros g e Hg He. unfold in_ring in R. rewrite Forall_forall in R. specialize (R g Hg). destruct g; [destruct He|discriminate]. Qed.
Lemma ac_names_of names gens : in_ring (length names) gens -> ac_ideal (names, map znat gens) = AC names (length gens) (znat (lc (repeat 0 (length names)) gens)).
Proof.
  intros R. unfold ac_ideal, ac_ring. cbn [fst snd ac_count]. assert (X : map (fun _ => 0%Z) names = znat (repeat 0 (length names))) by (unfold znat; clear; induction names; cbn; congruence). rewrite X. rewrite ac_fold. reflexivity.
Qed.

(** ** The action *)
Lemma summary_sized (b : bool) names gens : legal_names names -> in_ring (length names) gens -> exists J out minimal strong weak M,
  (if b then bind (if_minimize (names, gens)) (fun R => Some (R, line (if length gens =? length (snd R) then lit "1" else lit "0"))) else Some ((names, gens), [])) = Some (J, out) /\
  (minimal = true <-> lists_minimal_generators (length names) gens gens) /\
  (forall M, lists_minimal_generators (length names) gens M -> (strong = true <-> strongly_generic (length names) M)) /\
  (forall M, lists_minimal_generators (length names) gens M -> (weak = true <-> weakly_generic (length names) M)) /\
  lists_minimal_generators (length names) gens M /\ out = requested b (if minimal then lit "1" else lit "0") /\
  printAnalysis J = summary_text (length names) (if b then length M else length gens) (b || minimal) strong weak.
Proof.
  intros N R. destruct (p_minimize names gens) as [M [E [G H]]]; [apply good_wf; split; [apply N|]; unfold in_ring in R; rewrite Forall_forall in R; exact R|].
  destruct (summary names gens R) as [minimal [strong [weak [A [B [C D]]]]]]. destruct b.
  - assert (RM : in_ring (length names) M) by (apply good_wf in G; apply Forall_forall; apply G).
    destruct (summary names M RM) as [m' [s' [w' [A' [B' [C' D']]]]]]. pose proof (minimal_same (length names) gens M R H) as Q.
    exists (names, M), (line (if length gens =? length M then lit "1" else lit "0")), minimal, s', w', M. split; [unfold bind; match goal with |- context [if_minimize ?x] => replace (if_minimize x) with (Some (names, M)) by (symmetry; exact E) end; reflexivity|]. split; auto.
    split; [intros L HL; apply B'; now apply Q|]. split; [intros L HL; apply C'; now apply Q|]. split; auto. split.
    + cbn [requested]. unfold line. f_equal. pose proof (minimal_count (length names) gens M R H) as X. destruct (Nat.eqb_spec (length gens) (length M)) as [Y|Y].
      * replace minimal with true; auto. symmetry. apply A, X. auto.
      * destruct minimal; auto. exfalso. apply Y. symmetry. apply X. now apply A.
    + etransitivity; [exact D'|]. f_equal. cbn [orb]. apply A'. now apply Q.
  - exists (names, gens), [], minimal, strong, weak, M. cbn [requested orb]. repeat (split; auto).
Qed.
Lemma analyze_ok o file names gens : read_ideal (ao_max o) (ao_input o file) file = Ok (names, map znat gens) -> exists l k minimal strong weak M,
  facts (length names) gens l k minimal /\ genericity (length names) gens strong weak /\ lists_minimal_generators (length names) gens M /\
  analyze_action o file = Ok (requested_text o (ao_output o file) names l (length gens) k minimal ++
    if 2 <=? ao_summary o then summary_text (length names) (if ao_minimal o then length M else length gens) (ao_minimal o || minimal) strong weak else []).
Proof.
  intros E. pose proof (read_good _ _ _ _ E) as G. apply good_znat in G. destruct G as [N R].
  destruct (summary_sized (ao_minimal o) names gens N R) as [J [out [minimal [strong [weak [M [A [B [C [D [H [F S0]]]]]]]]]]]].
  assert (X : exists k, largest_exponent gens k /\ (if length names =? 0 then line (lit "0") else
    line (z_str (match znat (lc (repeat 0 (length names)) gens) with e :: l => max_element e l | [] => 0%Z end))) = line (z_str (Z.of_nat k))).
  { destruct (Nat.eqb_spec (length names) 0) as [Z0|Z0].
    - exists 0. split; auto. apply max_none. now rewrite <- Z0.
    - destruct (max_spec (length names) gens R ltac:(lia)) as [k [P Q]]. exists k. split; auto. now rewrite Q. }
  destruct X as [k [K1 K2]]. exists (lc (repeat 0 (length names)) gens), k, minimal, strong, weak, M. split; [constructor; auto using lc_lcm|]. split; [constructor; auto|]. split; auto.
  unfold analyze_action. rewrite E. cbn [rbind]. rewrite ac_names_of by auto.
  assert (T : analyzeStreaming o (ao_output o file) (AC names (length gens) (znat (lc (repeat 0 (length names)) gens))) ++ out = requested_text o (ao_output o file) names (lc (repeat 0 (length names)) gens) (length gens) k minimal).
  { unfold analyzeStreaming, requested_text. cbn [ac_names ac_count ac_lcm]. rewrite K2, F. destruct (ao_lcm o), (ao_varCount o), (ao_genCount o), (ao_maxExp o), (ao_summary o =? 1); unfold requested, line; cbn [app]; rewrite <- ?app_assoc; cbn [app]; rewrite <- ?app_assoc; reflexivity. }
  destruct (ao_minimal o || (1 <? ao_summary o)) eqn:W0.
  - unfold analyzeIdeal. replace (to_nideal (names, map znat gens)) with (names, gens) by (unfold to_nideal; cbn [fst snd]; f_equal; symmetry; apply (nideal_znat names)). cbn [snd].
    match goal with |- context [bind ?x _] => match x with context [if_minimize] => replace x with (Some (J, out)) by (symmetry; exact A) end end. cbn [bind]. rewrite app_assoc, T. f_equal. f_equal.
    destruct (2 <=? ao_summary o); auto.
  - apply orb_false_iff in W0. destruct W0 as [W1 W2]. rewrite <- T, F, W1. cbn [requested]. rewrite app_nil_r. destruct (Nat.leb_spec 2 (ao_summary o)) as [L|L]; [apply Nat.ltb_ge in W2; lia|]. now rewrite app_nil_r.
Qed.

Lemma analyze_short o file names gens : read_ideal (ao_max o) (ao_input o file) file = Ok (names, map znat gens) -> ao_summary o < 2 -> exists l k minimal,
  facts (length names) gens l k minimal /\ analyze_action o file = Ok (requested_text o (ao_output o file) names l (length gens) k minimal).
Proof.
  intros E L. destruct (analyze_ok o file names gens E) as [l [k [minimal [strong [weak [M [A [B [C D]]]]]]]]]. exists l, k, minimal. split; auto. rewrite D. f_equal.
  destruct (Nat.leb_spec 2 (ao_summary o)); [lia|]. apply app_nil_r.
Qed.
Lemma analyze_long o file names gens : read_ideal (ao_max o) (ao_input o file) file = Ok (names, map znat gens) -> 2 <= ao_summary o ->
  (ao_minimal o = true -> lists_minimal_generators (length names) gens gens) -> exists l k minimal strong weak,
  facts (length names) gens l k minimal /\ genericity (length names) gens strong weak /\
  analyze_action o file = Ok (requested_text o (ao_output o file) names l (length gens) k minimal ++ summary_text (length names) (length gens) minimal strong weak).
Proof.
  intros E L H. destruct (analyze_ok o file names gens E) as [l [k [minimal [strong [weak [M [A [B [C D]]]]]]]]]. exists l, k, minimal, strong, weak. split; auto. split; auto. rewrite D. f_equal. f_equal.
  destruct (Nat.leb_spec 2 (ao_summary o)); [|lia]. destruct (ao_minimal o); auto. specialize (H eq_refl). pose proof (read_good _ _ _ _ E) as G. apply good_znat in G.
  cbn [orb]. replace minimal with true by (symmetry; now apply (fa_minimal _ _ _ _ _ A)). f_equal. apply (minimal_count (length names)); auto. apply G.
Qed.
Lemma analyze_errors o file : match read_ideal (ao_max o) (ao_input o file) file with
  | Ok _ => exists out, analyze_action o file = Ok out
  | SyntaxError => analyze_action o file = SyntaxError
  | OtherError => analyze_action o file = OtherError
  | InvalidArgument => analyze_action o file = InvalidArgument
  | _ => False
  end.
Proof.
  destruct (read_ideal (ao_max o) (ao_input o file) file) as [J| | | | |] eqn:E; try (unfold analyze_action; rewrite E; reflexivity).
  - pose proof (read_good _ _ _ _ E) as G. destruct (good_form J G) as [gens EJ]. rewrite EJ in E. destruct (analyze_ok o file _ _ E) as [l [k [m [s [w [M [_ [_ [_ X]]]]]]]]]. eauto.
  - pose proof (reading_total (ao_max o) (ao_input o file) file) as H. rewrite E in H. apply H.
  - pose proof (reading_total (ao_max o) (ao_input o file) file) as H. rewrite E in H. apply H.
Qed.
Lemma lcm_line m f names l : legal_names names -> length l = length names -> format_fits m f names [] -> exists rest,
  handler_readTerm m f names (fmt_writeTerm f names (znat l)) = Ok (znat l, rest) /\ eat rest = [].
Proof. intros N L F. apply handler_term_yes; auto. apply (znat_monomials (length names) [l]). repeat constructor. exact L. Qed.
