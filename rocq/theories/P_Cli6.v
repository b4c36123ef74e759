(** Reading the input of the action that computes Alexander duals. *)
From Coq Require Import String Ascii.
From Coq Require Import List Arith Bool ZArith Lia Sorted Permutation.
Import ListNotations.
From Verif Require Import M_Term M_Ideal M_Slice M_Msm M_Api M_Names M_IO Spec_IO P_Names P_IO P_IO2 P_IO3 P_IO4 P_IO5 P_IO6 P_IO7 P_IO8 P_IO9 P_IO10 M_Intersect M_Transform M_Actions M_Cli P_Cli2 P_Cli3 P_Cli4 P_Cli5.
From Verif Require Import Spec_Names P_Names2 P_Transform4 P_Cli1 Spec_Slice Spec_Run P_Term P_Ideal P_Decomp P_Internal P_Api P_Api2 P_Api3 P_Api4 P_Api5.
From Verif Require Import Spec Spec_Api Spec_Cli.
Local Notation length := List.length.

(** ** Any file *)
Lemma fmt_term_gd m f ic s : inside ic -> gd (fun p => in_term (fst p) /\ frame ic (fst p) /\ length (snd p) <= length s) (fmt_readTerm m f ic s).
Proof.
  intros I. assert (W : forall r, gd (term_post ic s) r -> gd (fun p => in_term (fst p) /\ frame ic (fst p) /\ length (snd p) <= length s) r).
  { intros r H. eapply gd_imp; [exact H|]. intros p [A [B C]]. split; [|split]; auto. lia. }
  destruct f; cbn [fmt_readTerm]; try (apply W; first [now apply m2_term_gd|now apply cocoa_term_gd|now apply term_gd]).
  eapply gd_bind; [apply beginTerm_gd; auto|]. intros ic' [P Q]. destruct (ic_names ic') as [|x xs] eqn:E.
  - eapply gd_bind; [apply expect_str_gd|]. intros s' L. cbn [gd fst snd]. auto.
  - rewrite <- E. eapply gd_imp; [apply f4_term_gd; auto|]. intros p [A [B C]]. split; [|split]; auto. eapply frame_trans; eauto.
Qed.
Definition good_point_for (names : list str) (a : list Z) : Prop := length a = length names /\ Forall (fun e => 0 <= e)%Z a.
Lemma handler_term_gd m f names s : legal_names names -> gd (fun p => good_point_for names (fst p)) (handler_readTerm m f names s).
Proof.
  intros N. unfold handler_readTerm. eapply gd_bind; [apply consumeRing_gd; [apply start_outside|exact N]|]. intros ic1 [P1 [Q1 R1]].
  eapply gd_bind; [apply beginIdeal_gd; auto|]. intros ic2 [P2 [Q2 R2]]. eapply gd_bind; [apply fmt_term_gd; auto|]. intros [ic3 s3] [P3 [[Q3 R3] _]]. cbn [fst snd] in *.
  destruct P3 as [J [t [T [A [[B1 [B2 B3]] [C D]]]]]]. unfold endIdeal. rewrite A. cbn [rbind]. unfold big_ideals. cbn [ic_ideals].
  assert (E0 : ic_ideals ic3 = []) by (destruct R1, R2, R3; unfold keeps in *; cbn in *; congruence). rewrite E0. cbn [map rev app fst snd] in *.
  assert (M : monomials (length names) (to_big J)) by (rewrite Q3, Q2, Q1 in B2; exact B2). clear B2.
  assert (MR : monomials (length names) (rev (to_big J))) by (apply Forall_rev; exact M). destruct (rev (to_big J)) as [|t' T'] eqn:E.
  - rewrite D in E. cbn in E. destruct (rev T); discriminate.
  - cbn [gd fst]. inversion MR; subst; auto.
Qed.
Definition good_dual (p : list str * list (list Z) * option (list Z)) : Prop :=
  good_ideal (fst p) /\ match snd p with Some a => good_point_for (fst (fst p)) a | None => True end.
Lemma read_dual_gd m f file : gd good_dual (read_dual m f file).
Proof.
  unfold read_dual. eapply gd_bind; [apply ideal_gd, start_outside|]. intros [ic r] [P [_ [N _]]]. cbn [fst snd] in *.
  pose proof (big_good ic P) as G. destruct (big_ideals ic) as [|J Js] eqn:E.
  - unfold big_ideals in E. destruct (ic_ideals ic); [discriminate|]. cbn in E. destruct (rev _); discriminate.
  - inversion G as [|? ? G1 _]; subst. destruct (hasMoreInput r) as [b s]. eapply gd_bind with (Q := fun p => match fst p with Some a => good_point_for (fst J) a | None => True end).
    + destruct b; [|exact I]. eapply gd_bind; [apply handler_term_gd; apply G1|]. intros [t s'] H. exact H.
    + intros [pt s'] H. eapply gd_bind; [apply expectEOF_gd|]. intros _ _. split; auto.
Qed.
Lemma read_dual_ideal m f file J : read_ideal m f file = Ok J -> read_dual m f file = Ok (J, None).
Proof.
  unfold read_ideal, read_dual. destruct (handler_readIdeal m f ic_new _) as [[ic s]| | | | |]; cbn [rbind]; try discriminate.
  unfold expectEOF, hasMoreInput. destruct (eat s) eqn:E; cbn [rbind]; try discriminate. destruct (big_ideals ic); [discriminate|]. intros X. injection X as ->. cbn [rbind]. now cbn.
Qed.

(** ** A file made of an ideal and a point *)
Lemma single_rest m f names J rest : legal_names names -> monomials (length names) J -> format_fits m f names J -> (f = Fourti2 -> not_name rest) ->
  exists ic r, handler_readIdeal m f ic_new (" "%char :: itext f names J ++ rest) = Ok (ic, r) /\ ended names false [] J ic /\ eat r = eat rest.
Proof.
  intros L M R N. assert (F : Forall (fine_term names false) J) by (eapply Forall_impl; [|exact M]; intros t [A B]; split; auto; split; auto; discriminate).
  assert (C : is_common f -> exists ic r, common_readIdeal m f ic_new (" "%char :: (ringt f names ++ baret f names J) ++ rest) = Ok (ic, r) /\ ended names false [] J ic /\ eat r = eat rest).
  { intros C. unfold common_readIdeal. rewrite app_rest. rewrite (ring_read m f names _ (baret f names J ++ rest) C L) by (eauto using fits_nil). cbn [rbind consumeRing ic_new ic_cur ic_require ic_ideals].
    apply (bare_read m names false [] L f J (nl :: baret f names J ++ rest) rest C); eauto using fits_nil. }
  destruct f; cbn [handler_readIdeal itext]; try (apply C; unfold is_common; auto; fail).
  - erewrite expect_char_yes; [|unfold nm_text; lits; reflexivity]. cbn [rbind].
    apply (nm_ideal names false [] J [] _ rest); auto; unfold nm_text; lits; reflexivity.
  - destruct R as [R1 R2]. apply (f4_ideal m names false [] J [] _ rest); auto.
Qed.
Lemma fmt_term_yes m f names a T ic s : legal_names names -> monomials (length names) [a] -> format_fits m f names [] -> st names false [] T ic ->
  eat s = eat (fmt_writeTerm f names a) -> exists ic' r, fmt_readTerm m f ic s = Ok (ic', r) /\ st names false [] (a :: T) ic' /\ eat r = [].
Proof.
  intros L M R S0 E. assert (Fa : fine_term names false a) by (inversion M as [|? ? [A B] _]; subst; split; auto; split; auto; discriminate).
  assert (FO : follow []) by (split; [exact I|split; discriminate]).
  assert (P : eat (fmt_writeTerm f names a) = fmt_writeTerm f names a -> f <> CoCoA4 -> f <> Fourti2 ->
    exists ic' r, consumeTermProductNotation ic s = Ok (ic', r) /\ st names false [] (a :: T) ic' /\ eat r = []).
  { intros X Y Z0. destruct (term_yes names false [] L ic a T s [] S0 Fa) as [ic' [r [A [B C]]]]; auto; [|eauto]. rewrite E, X, app_nil_r. destruct f; auto; congruence. }
  assert (W : eat (writeTermProduct names a) = writeTermProduct names a).
  { pose proof (writeTerm_head names false L a [] Fa) as [H _]. now rewrite !app_nil_r in H. }
  destruct f; cbn [fmt_readTerm]; try (apply P; auto; discriminate).
  - destruct P as [ic' [r [A [B C]]]]; auto; try discriminate. unfold m2_readTerm. rewrite A. cbn [rbind]. rewrite match_char_no by (rewrite C; discriminate). exists ic', (eat r). split; auto. split; auto. now rewrite eat_idem.
  - destruct (pbody_read m names false [] R (pairs 0 a) ic a T s []) as [ic' [r [A [B C]]]]; auto; try discriminate.
    + apply Fa.
    + now apply (pairs_good names false).
    + apply pairs_nodup.
    + exact (set_all_pairs a []).
    + rewrite E. cbn [fmt_writeTerm]. pose proof (cocoa_body names a) as H. cbn [tbody] in H. rewrite H. rewrite <- (app_nil_r (pbody (pairs 0 a))) at 1. apply pbody_eat.
    + eauto.
  - destruct (begin_term names false [] T ic S0) as [ic' [A B]]. rewrite A. cbn [rbind]. assert (NM : ic_names ic' = names) by (destruct B as [K [-> _]]; reflexivity). rewrite NM.
    destruct Fa as [F1 [F2 F3]]. destruct names as [|x names].
    + destruct a; [|discriminate]. cbn [fmt_writeTerm fourti2_writeTerm map concat app] in E. rewrite app_nil_r in E.
      erewrite (expect_str_yes (lit "_fourtitwo_identity") s []); [|rewrite app_nil_r; exact E]. cbn [rbind]. exists ic', []. auto.
    + destruct a as [|e a]; [discriminate|]. cbn [fmt_writeTerm app] in E. unfold fourti2_writeTerm in E.
      destruct (f4_term (x :: names) false [] (e :: a) [] ic' T s [nl]) as [ic2 [r [X [Y Z0]]]]; auto; try discriminate.
      * cbn [app]. rewrite (zeros (x :: names) (e :: a) F1). exact B.
      * intros _. reflexivity.
      * rewrite F1 in X. exists ic2, r. auto.
Qed.
Lemma handler_term_yes m f names a s : legal_names names -> monomials (length names) [a] -> format_fits m f names [] -> eat s = eat (fmt_writeTerm f names a) ->
  exists r, handler_readTerm m f names s = Ok (a, r) /\ eat r = [].
Proof.
  intros L M R E. unfold handler_readTerm. cbn [consumeRing ic_new ic_cur ic_require ic_ideals rbind].
  destruct (begin_ideal names false []) as [ic [A B]]. rewrite A. cbn [rbind]. destruct (fmt_term_yes m f names a [] ic s) as [ic' [r [C [D F]]]]; auto. rewrite C. cbn [rbind].
  destruct (end_ideal names false [] [a] ic' D) as [ic2 [X [K [-> [Y _]]]]]. rewrite X. cbn [rbind]. unfold big_ideals. cbn [ic_ideals map rev app fst snd]. rewrite Y. cbn [rev app]. eauto.
Qed.
Lemma point_first f names a : legal_names names -> monomials (length names) [a] -> eat (fmt_writeTerm f names a) <> [] /\ (f = Fourti2 -> not_name (fmt_writeTerm f names a)).
Proof.
  intros L M. assert (Fa : fine_term names false a) by (inversion M as [|? ? [A B] _]; subst; split; auto; split; auto; discriminate).
  assert (W : eat (writeTermProduct names a) <> []).
  { pose proof (writeTerm_head names false L a [] Fa) as [H H']. rewrite !app_nil_r in H. rewrite H. intros X. destruct (pairs 0 a) eqn:E.
    - unfold writeTermProduct in X. rewrite (powers_pairs names a [] (proj1 Fa)) in X. cbn [List.length app] in X. rewrite E in X. discriminate.
    - destruct H' as [c [r [Y _]]]; [congruence|]. congruence. }
  destruct f; cbn [fmt_writeTerm]; try (split; [exact W|discriminate]).
  - split; [|discriminate]. pose proof (cocoa_body names a) as H. cbn [tbody] in H. rewrite H. pose proof (pbody_eat (pairs 0 a) []) as X. rewrite !app_nil_r in X. rewrite X. destruct (pairs 0 a) as [|p ps]; [discriminate|]. cbn [pbody map concat]. destruct (ctext_head p) as [r ->]. discriminate.
  - destruct a as [|e a]; [split; [discriminate|reflexivity]|]. cbn [app]. unfold fourti2_writeTerm. cbn [map concat]. inversion M as [|? ? [_ B] _]; subst. inversion B as [|? ? B1 B2]; subst.
    destruct (z_str_digits e B1) as [D1 D2]. destruct (z_str e) as [|d ds] eqn:Ez; [congruence|]. inversion D1 as [|? ? D3 _]; subst.
    assert (X : forall rest, eat ((" "%char :: d :: ds) ++ rest) = d :: ds ++ rest). { intros rest. change (eat ((" "%char :: d :: ds) ++ rest)) with (eat ((d :: ds) ++ rest)). rewrite <- Ez. rewrite eat_z by auto. rewrite Ez. reflexivity. }
    rewrite app_rest. split; [rewrite X; discriminate|]. intros _. unfold not_name. rewrite X. clear -D3. unfold isdigit, isalpha in *. destruct d as [[] [] [] [] [] [] [] []]; vm_compute in *; congruence.
Qed.
Lemma dual_file m f names J a : legal_names names -> monomials (length names) J -> monomials (length names) [a] -> format_fits m f names J ->
  read_dual m f (itext f names J ++ fmt_writeTerm f names a) = Ok (names, J, Some a).
Proof.
  intros L M Ma R. destruct (point_first f names a L Ma) as [P1 P2]. unfold read_dual. destruct (single_rest m f names J (fmt_writeTerm f names a) L M R P2) as [ic [r [A [B C]]]]. rewrite A. cbn [rbind].
  destruct B as [K [-> [B _]]]. unfold big_ideals. cbn [ic_ideals map rev app fst snd]. rewrite B, rev_involutive.
  unfold hasMoreInput. rewrite C. destruct (eat (fmt_writeTerm f names a)) as [|c s] eqn:E; [congruence|]. rewrite <- E.
  assert (FN : format_fits m f names []) by (destruct f; cbn [format_fits List.length] in *; auto; destruct R as [R1 R2]; split; auto; unfold fits in *; pose proof (Nat2Z.is_nonneg (length names)); change (Z.of_nat 0) with 0%Z; clear -R1 H; apply (Z.le_trans _ (Z.of_nat (length names))); auto). destruct (handler_term_yes m f names a (eat (fmt_writeTerm f names a)) L Ma FN (eat_idem _)) as [r2 [X Y]]. cbn [fst]. rewrite X. cbn [rbind]. unfold expectEOF. rewrite Y. reflexivity.
Qed.
