(** The consumer protocol and independence of the generators, for polynomials, dimensions and optimization. *)
From Coq Require Import List Arith Bool ZArith Lia Permutation.
Import ListNotations.
From Verif Require Import Spec Spec_Run Spec_Api Spec_Hilbert Spec_Dim Spec_Opt M_Term M_Ideal M_Slice M_Msm M_Api M_Hilbert M_Dim M_Opt
  P_Term P_Ideal P_Bridge P_Hil7 P_Hil8 P_Dim P_Opt7.

Lemma poly_block_protocol : forall n p, Forall (fun t => length (snd t) = n) p -> poly_protocol n false (poly_block n p).
Proof.
  intros n p H. unfold poly_block. cbn [poly_protocol]. split; auto. split; auto.
  induction H as [|t p Ht Hp IH]; cbn [map app poly_protocol]; [auto|]. split; auto. split; auto. unfold znat. rewrite map_length. auto.
Qed.

Lemma block_protocol2 : forall n L, Forall (fun m => length m = n) L -> protocol n false (block n L).
Proof.
  intros n L H. unfold block. cbn [protocol]. split; auto. split; auto.
  induction H as [|t p Ht Hp IH]; cbn [map app protocol]; [auto|]. split; auto. split; auto. unfold znat. rewrite map_length. auto.
Qed.

Lemma p_protocol2 : forall c p rnd n I l, legal_hilbert_config c -> legal_oparams p -> in_ring n I -> length l = n ->
  (exists evs, api_multigradedHilbertPoincareSeries c rnd n I = Some evs /\ poly_protocol n false evs) /\
  (exists evs, api_univariateHilbertPoincareSeries c rnd n I = Some evs /\ poly_protocol 1 false evs) /\
  (exists ok evs, api_solveStandard p rnd n I l = Some (ok, evs) /\ protocol n false evs).
Proof.
  intros c p rnd n I l Hc Hp Hr Hl. split; [|split].
  - destruct (p_coefficients c rnd n I Hc Hr) as [q [A [[_ B] _]]]. exists (poly_block n q). split; auto. apply poly_block_protocol.
    apply Forall_forall. intros t Ht. rewrite Forall_forall in B. apply (B t Ht).
  - destruct (p_univariate c rnd n I Hc Hr) as [q [r [_ [A _]]]]. exists (poly_block 1 (uni_poly r)). split; auto. apply poly_block_protocol.
    apply Forall_forall. intros t Ht. unfold uni_poly in Ht. apply in_map_iff in Ht. destruct Ht as [x [<- _]]. reflexivity.
  - destruct (p_solveStandard p rnd n I l Hp Hr Hl) as [[m [[Hm _] E]]|[_ E]]; rewrite E; eexists; eexists; (split; [reflexivity|]); apply block_protocol2; auto.
    constructor; auto. apply Hm.
Qed.

Lemma same_numerator : forall n I I' p, same_ideal n I I' -> multigraded_numerator n I p -> multigraded_numerator n I' p.
Proof. intros n I I' p H Hp m Hm. destruct (Hp m Hm) as [A B]. split; intros X; [apply A|apply B; intros Y; apply X]; apply H; auto. Qed.

Lemma degree_coef_perm : forall p q k, Permutation p q -> degree_coef p k = degree_coef q k.
Proof.
  intros p q k H. induction H as [|[c d] p q H IH|[c d] [c' d'] p|p q r H1 IH1 H2 IH2]; cbn [degree_coef]; auto; try lia.
Qed.

Lemma descending_in : forall x k p, descending ((x, k) :: p) -> forall y j, In (y, j) p -> j < k.
Proof. intros x k p [_ [A _]] y j H. rewrite Forall_forall in A. apply (A (y, j) H). Qed.
Lemma descending_eq : forall p q, descending p -> descending q -> (forall t, In t p <-> In t q) -> p = q.
Proof.
  induction p as [|[x k] p IH]; intros [|[y j] q] Hp Hq H; auto.
  - exfalso. apply (H (y, j)). left; auto.
  - exfalso. apply (H (x, k)). left; auto.
  - assert (E : (x, k) = (y, j)).
    { destruct (proj1 (H (x, k)) (or_introl eq_refl)) as [E|E]; auto. destruct (proj2 (H (y, j)) (or_introl eq_refl)) as [F|F]; auto.
      pose proof (descending_in y j q Hq x k E). pose proof (descending_in x k p Hp y j F). lia. }
    inversion E; subst y j. f_equal. apply IH; [apply Hp|apply Hq|]. intros [z i]. split; intros X.
    + destruct (proj1 (H (z, i)) (or_intror X)) as [E'|E']; auto. inversion E'; subst. pose proof (descending_in z i p Hp z i X). lia.
    + destruct (proj2 (H (z, i)) (or_intror X)) as [E'|E']; auto. inversion E'; subst. pose proof (descending_in z i q Hq z i X). lia.
Qed.

Lemma same_independent : forall n I I' V, in_ring n I -> in_ring n I' -> same_ideal n I I' -> independent_set n I V -> independent_set n I' V.
Proof.
  intros n I I' V Hr Hr' H [A [B C]]. split; auto. split; auto. intros g Hg.
  assert (Lg : length g = n) by (unfold in_ring in Hr'; rewrite Forall_forall in Hr'; auto).
  assert (X : in_ideal I g). { apply H; auto. exists g. split; auto. unfold divs. clear. induction g; constructor; auto. }
  destruct X as [h [Hh Hd]]. assert (Lh : length h = n) by (unfold in_ring in Hr; rewrite Forall_forall in Hr; auto).
  destruct (C h Hh) as [v [P [Q R]]]. exists v. split; auto. split; auto. apply (divs_iff n) in Hd; auto. specialize (Hd v P). lia.
Qed.
Lemma same_dimension : forall n I I' d, in_ring n I -> in_ring n I' -> same_ideal n I I' -> is_dimension n I d -> is_dimension n I' d.
Proof.
  intros n I I' d Hr Hr' H [A B]. assert (S : same_ideal n I' I) by (intros m Hm; symmetry; apply H; auto). split.
  - intros X. apply A. apply S; auto. apply repeat_length.
  - intros X. destruct B as [[V [V1 V2]] V3]; [intros Y; apply X; apply H; auto; apply repeat_length|]. split.
    + exists V. split; auto. apply (same_independent n I); auto.
    + intros W HW. apply V3. apply (same_independent n I'); auto.
Qed.

Lemma same_max_standard : forall n I I' m, same_ideal n I I' -> max_standard n I m -> max_standard n I' m.
Proof.
  intros n I I' m H [A [B C]]. split; auto. split.
  - intros X. apply B. apply H; auto.
  - intros i Hi. apply H; auto. rewrite <- A. clear. revert i. induction m as [|e m IH]; intros [|i]; cbn [times_var length]; auto.
Qed.

Lemma p_independent2 : forall c p rnd c' p' rnd' n I I' l, legal_hilbert_config c -> legal_hilbert_config c' -> legal_oparams p -> legal_oparams p' ->
  in_ring n I -> in_ring n I' -> same_ideal n I I' -> length l = n ->
  (exists q q', api_multigradedHilbertPoincareSeries c rnd n I = Some (poly_block n q) /\
     api_multigradedHilbertPoincareSeries c' rnd' n I' = Some (poly_block n q') /\ Permutation q q') /\
  (exists evs, api_univariateHilbertPoincareSeries c rnd n I = Some evs /\ api_univariateHilbertPoincareSeries c' rnd' n I' = Some evs) /\
  (exists d, api_dimension n I = Some d /\ api_dimension n I' = Some d) /\
  (exists d, api_codimension n I = Some d /\ api_codimension n I' = Some d) /\
  ((exists m m', api_solveStandard p rnd n I l = Some (true, block n [m]) /\ api_solveStandard p' rnd' n I' l = Some (true, block n [m']) /\
      inner_product l m = inner_product l m') \/
   (api_solveStandard p rnd n I l = Some (false, block n []) /\ api_solveStandard p' rnd' n I' l = Some (false, block n []))).
Proof.
  intros c p rnd c' p' rnd' n I I' l Hc Hc' Hp Hp' Hr Hr' H Hl.
  assert (S : same_ideal n I' I) by (intros m Hm; symmetry; apply H; auto).
  split; [|split; [|split; [|split]]].
  - destruct (p_coefficients c rnd n I Hc Hr) as [q [A [B [_ C]]]]. destruct (p_coefficients c' rnd' n I' Hc' Hr') as [q' [A' [B' [_ C']]]].
    exists q, q'. split; auto. split; auto. apply (p_numerator_unique n I'); auto. apply (same_numerator n I); auto.
  - destruct (p_univariate c rnd n I Hc Hr) as [q [r [A [B [C [D _]]]]]]. destruct (p_univariate c' rnd' n I' Hc' Hr') as [q' [r' [A' [B' [C' [D' _]]]]]].
    destruct (p_coefficients c rnd n I Hc Hr) as [q1 [A1 [B1 [_ C1]]]]. destruct (p_coefficients c' rnd' n I' Hc' Hr') as [q2 [A2 [B2 [_ C2]]]].
    assert (P : Permutation q q').
    { assert (E : forall a b, poly_block n a = poly_block n b -> a = b).
      { intros a b Eab. unfold poly_block in Eab. injection Eab as Eab. apply app_inv_tail in Eab. revert b Eab. induction a as [|[x m] a IH]; intros [|[y m'] b] X; auto; try discriminate.
        cbn [map fst snd] in X. injection X as X1 X2 X3. f_equal; [|apply IH; auto]. subst y. f_equal.
        unfold znat in X2. revert m' X2. induction m as [|e m IHm]; intros [|e' m'] X2; auto; try discriminate. cbn [map] in X2. injection X2 as Y1 Y2. f_equal; [lia|auto]. }
      assert (q = q1) by (apply E; congruence). assert (q' = q2) by (apply E; congruence). subst q q'.
      apply (p_numerator_unique n I'); auto. apply (same_numerator n I); auto. }
    assert (r = r'). { apply descending_eq; auto. intros [x k]. rewrite D, D'. rewrite (degree_coef_perm q q' k P). tauto. }
    subst r'. exists (poly_block 1 (uni_poly r)). auto.
  - destruct (p_dimension n I Hr) as [d [A B]]. destruct (p_dimension n I' Hr') as [d' [A' B']].
    assert (d = d') by (apply (dimension_unique n I'); auto; apply (same_dimension n I); auto). subst d'. eauto.
  - destruct (p_codimension n I Hr) as [d [A [B C]]]. destruct (p_codimension n I' Hr') as [d' [A' [B' C']]].
    assert (d = d') by (apply (dimension_unique n I'); auto; apply (same_dimension n I); auto). subst d'. eauto.
  - destruct (p_solveStandard p rnd n I l Hp Hr Hl) as [[m [[M1 M2] E]]|[N E]]; destruct (p_solveStandard p' rnd' n I' l Hp' Hr' Hl) as [[m' [[M1' M2'] E']]|[N' E']].
    + left. exists m, m'. split; auto. split; auto. pose proof (M2 m' (same_max_standard n I' I m' S M1')). pose proof (M2' m (same_max_standard n I I' m H M1)). lia.
    + exfalso. apply (N' m). apply (same_max_standard n I); auto.
    + exfalso. apply (N m'). apply (same_max_standard n I'); auto.
    + right. auto.
Qed.
