(** The action that computes Alexander duals, from text to text. *)
From Coq Require Import String Ascii.
From Coq Require Import List Arith Bool ZArith Lia Sorted Permutation.
Import ListNotations.
From Verif Require Import M_Term M_Ideal M_Slice M_Msm M_Api M_Names M_IO Spec_IO P_Names P_IO P_IO2 P_IO3 P_IO4 P_IO5 P_IO6 P_IO7 P_IO8 P_IO9 P_IO10 M_Intersect M_Transform M_Actions M_Cli P_Cli2 P_Cli3 P_Cli4 P_Cli5 P_Cli6.
From Verif Require Import Spec_Names P_Names2 P_Transform4 P_Cli1 Spec_Slice Spec_Run P_Term P_Ideal P_Decomp P_Internal P_Api P_Api2 P_Api3 P_Api4 P_Api5.
From Verif Require Import Spec Spec_Api Spec_Cli.
Local Notation length := List.length.

Lemma dual_good o file names gens point : dual_input_is o file names gens point ->
  legal_names names /\ in_ring (length names) gens /\ match point with Some a => length a = length names | None => True end.
Proof.
  intros [_ [E _]]. pose proof (read_dual_gd (o_max o) (in_format o file) file) as G. rewrite E in G. cbn [gd] in G. destruct G as [G P]. cbn [fst snd] in *. apply good_znat in G. destruct G as [N R].
  split; auto. split; auto. destruct point as [a|]; auto. cbn [option_map] in P. destruct P as [P _]. unfold znat in P. now rewrite map_length in P.
Qed.
Lemma dual_text o rnd file names gens point : dual_input_is o file names gens point -> exists names' gens',
  output_ring (o_canon o) names gens names' gens' /\ legal_names names' /\ in_ring (length names') gens' /\ length names' = length names /\
  let result a := exists L, in_ring (length names') L /\ lists_minimal (length names') (in_alexander_dual gens' a) L /\
    alexdual_action o rnd file = Ok (stext (out_format o file) names' (map znat (canon1 (o_canon o) L))) in
  match point with
  | None => exists a, lcm_of_minimal_generators (length names') gens' a /\ result a
  | Some a => (above_minimal_generators (length names') gens' a -> result a) /\ (~ above_minimal_generators (length names') gens' a -> alexdual_action o rnd file = OtherError)
  end.
Proof.
  intros H. destruct (dual_good _ _ _ _ _ H) as [N [R P]]. destruct H as [Hc [E M]].
  destruct (cli_set_legal (o_minimal o) (o_canon o) names gens N R M) as [names' [gens' [J [A [B [C [D F]]]]]]]. exists names', gens'. split; auto. split; auto. split; auto.
  assert (LN : length names' = length names) by (destruct (o_canon o); cbn [output_ring] in F; [destruct F as [F _]; apply Permutation_sym, Permutation_length in F; auto|destruct F as [-> _]; auto]). split; auto.
  cbv zeta.
  assert (ACT : alexdual_action o rnd file = match bind (match point with Some a => Some (znat a) | None => getLcmOfIdeal (co_of (length names') gens' J) end) (told_dual (o_config o) rnd names' (co_of (length names') gens' J)) with
      | None => Undefined | Some None => OtherError | Some r => cli_write o file false r end).
  { unfold alexdual_action. rewrite E. cbn [rbind]. rewrite nideal_znat. cbn [fst]. rewrite A. destruct point; reflexivity. }
  assert (OK : forall a, length a = length names' -> above_minimal_generators (length names') gens' a ->
     match told_dual (o_config o) rnd names' (co_of (length names') gens' J) (znat a) with
      | None => Undefined | Some None => OtherError | Some r => cli_write o file false r end = alexdual_action o rnd file ->
     exists L, in_ring (length names') L /\ lists_minimal (length names') (in_alexander_dual gens' a) L /\
    alexdual_action o rnd file = Ok (stext (out_format o file) names' (map znat (canon1 (o_canon o) L)))).
  { intros a La HA X. destruct (told_dual_ok (o_config o) rnd (length names') gens' J a names' Hc C D La HA) as [ts [L [Y [V [Z0 [W _]]]]]]. exists L. split; [eapply valued_ring; eauto|]. split; auto. rewrite <- X, Y. cbn [cli_write].
    apply (output_one (length names')); auto. }
  destruct point as [a|]; cbn [bind] in ACT.
  - split; intros HA; [apply OK; auto; congruence|]. rewrite ACT. rewrite told_dual_error; auto; [unfold znat; rewrite map_length; congruence|]. intros [b [X Y]]. apply znat_inj in X. subst. contradiction.
  - pose proof (lcmI_least (length names') gens' J (proj1 (in_ring_wf _ _) C) D) as HL. exists (lcmI (length names') gens' J). split; auto. destruct HL as [L1 [L2 _]]. apply OK; auto. rewrite ACT, getLcm_spec by auto. reflexivity.
Qed.
Lemma ascending_output canon names gens names' gens' : NoDup names -> in_ring (length names) gens -> (canon = true -> ascending names) -> output_ring canon names gens names' gens' ->
  names' = names /\ gens' = gens.
Proof.
  intros N R A. destruct canon; cbn [output_ring]; auto. intros [P [A' F]]. specialize (A eq_refl). assert (names' = names) as -> by (symmetry; apply ascending_unique; auto). split; auto.
  clear P A A'. induction F as [|g g' l l' [L H] F IH]; auto. inversion R; subst. f_equal; auto. apply (exponent_ext 0 names); auto.
Qed.
Lemma dual_printed o rnd file names gens point : dual_input_is o file names gens point -> (o_canon o = true -> point = None \/ ascending names) -> exists names' gens',
  output_ring (o_canon o) names gens names' gens' /\
  let n := length names' in
  let prints a := exists L out, lists_minimal n (in_alexander_dual gens' a) L /\ (o_canon o = true -> descending L) /\
    alexdual_action o rnd file = Ok out /\ shows_ideal (o_max o) (out_format o file) names' L out in
  match point with
  | None => exists a, lcm_of_minimal_generators n gens' a /\ prints a
  | Some a => names' = names /\ gens' = gens /\ (above_minimal_generators n gens' a -> prints a) /\ (~ above_minimal_generators n gens' a -> alexdual_action o rnd file = OtherError)
  end.
Proof.
  intros H HC. destruct (dual_text o rnd file names gens point H) as [names' [gens' [A [B [C [D E]]]]]]. exists names', gens'. split; auto. cbv zeta in *.
  assert (OK : forall a, (exists L, in_ring (length names') L /\ lists_minimal (length names') (in_alexander_dual gens' a) L /\
    alexdual_action o rnd file = Ok (stext (out_format o file) names' (map znat (canon1 (o_canon o) L)))) ->
    exists L out, lists_minimal (length names') (in_alexander_dual gens' a) L /\ (o_canon o = true -> descending L) /\
    alexdual_action o rnd file = Ok out /\ shows_ideal (o_max o) (out_format o file) names' L out).
  { intros a [L [X [Y Z0]]]. exists (canon1 (o_canon o) L). eexists. split; [|split; [apply (canon1_descending (length names')); auto; apply Y|split; [exact Z0|apply stext_shows; auto; now apply canon1_ring]]].
    destruct Y as [Y1 [Y2 Y3]]. pose proof (canon1_perm (o_canon o) L) as P. split; [eapply Permutation_NoDup; eauto|]. assert (Q : forall c, In c L <-> In c (canon1 (o_canon o) L)) by (intros c; split; apply Permutation_in; auto using Permutation_sym).
    split; [intros c; rewrite <- Q; apply Y2|]. intros m Hm. rewrite <- Y3 by auto. split; intros [g [G1 G2]]; exists g; split; auto; now apply Q. }
  destruct point as [a|].
  - destruct (dual_good _ _ _ _ _ H) as [N [R _]]. destruct (ascending_output (o_canon o) names gens names' gens' (proj1 N) R) as [-> ->]; auto.
    { intros X. destruct (HC X) as [Y|Y]; [discriminate|auto]. }
    split; auto. split; auto. split; intros X; [apply OK|]; now apply E.
  - destruct E as [a [X Y]]. exists a. auto.
Qed.
