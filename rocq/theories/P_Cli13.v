(** The action that computes Hilbert-Poincare series. *)
From Coq Require Import String Ascii.
From Coq Require Import List Arith Bool ZArith Lia Permutation Sorted.
Import ListNotations.
From Verif Require Import M_Term M_Ideal M_Slice M_Msm M_Api M_Hilbert M_Names M_IO Spec_IO M_Opt M_Poly M_IOPoly M_Bigatti M_Scarf M_Orderer M_ScarfFacade M_Cli M_Cli2 M_Cli3.
From Verif Require Import P_Names P_IO P_IO9 P_Names2 P_Cli3 P_Cli4 P_Cli5 P_Cli8 P_Term P_Ideal P_Internal P_Translator P_Api P_Api4 P_Poly P_IOPoly P_IOPoly2 P_IOPoly3 P_IOPoly4 P_Orderer P_Hil7 P_Hil8 P_Valid P_Bigatti6 P_Scarf3 P_Scarf4 P_Cli11 P_Cli12.
From Verif Require Import Spec_Names Spec_Slice Spec_Run Spec_Poly Spec_IOPoly Spec_Bigatti Spec_Scarf Spec_Orderer Spec_Hilbert Spec Spec_Api.
From Verif Require Import Spec_Cli Spec_Cli3.
Local Open Scope nat_scope.
Local Notation length := List.length.
Local Notation descending := Spec_Hilbert.descending.

(** ** Monomials over other names *)
Lemma same_sym l l' (m m' : mono) : length m = length l -> same_term 0 l l' m m' -> same_term 0 l' l m' m.
Proof. intros L [L' H]. split; auto. Qed.
Lemma same_unique l l' (m a b : mono) : NoDup l' -> same_term 0 l l' m a -> same_term 0 l l' m b -> a = b.
Proof. intros N [La Ha] [Lb Hb]. apply (exponent_ext 0 l'); auto. intros s. now rewrite Ha, Hb. Qed.
Lemma divs_length a b : divs a b -> length a = length b.
Proof. intros H. unfold divs in H. induction H; cbn; auto. Qed.
Lemma divs_same l l' (a b a' b' : mono) : NoDup l -> NoDup l' -> length a = length l -> length b = length l -> same_term 0 l l' a a' -> same_term 0 l l' b b' -> (divs a b <-> divs a' b').
Proof.
  intros N N' La Lb [La' Ha] [Lb' Hb]. rewrite (divs_named l) by auto. rewrite (divs_named l') by auto. split; intros H s; [rewrite Ha, Hb|rewrite <- Ha, <- Hb]; apply H.
Qed.
Lemma minimal_same l l' gens gens' h h' : NoDup l -> Permutation l l' -> in_ring (length l) gens -> Forall2 (same_term 0 l l') gens gens' -> length h = length l -> same_term 0 l l' h h' ->
  minimal_generator (length l) gens h -> minimal_generator (length l') gens' h'.
Proof.
  intros N P R F Lh S [_ [A B]]. assert (N' : NoDup l') by (eapply Permutation_NoDup; eauto). pose proof S as [Lh' Hh']. split; auto. split; [eapply (ideal_named l l' gens gens' h h'); eauto|].
  intros k' Hk D. assert (Lk' : length k' = length l') by (rewrite (divs_length _ _ D); auto). pose proof (pull_same l l' k' N P Lk') as Sk. assert (Lk : length (pull l l' k') = length l) by apply map_length.
  assert (E : pull l l' k' = h). { apply B; [eapply (ideal_named l l' gens gens' _ k'); eauto|]. apply (divs_same l l' _ _ k' h'); auto. }
  rewrite E in Sk. eapply same_unique; eauto.
Qed.
Lemma forall2_in_r {A B} (R : A -> B -> Prop) l l' y : Forall2 R l l' -> In y l' -> exists x, In x l /\ R x y.
Proof. intros H. induction H as [|a b l l' H1 H IH]; intros Hi; [destruct Hi|]. destruct Hi as [<-|Hi]; [exists a; simpl; auto|]. destruct (IH Hi) as [x [X Y]]. exists x. simpl. auto. Qed.
Lemma exponents_same canon names gens names' gens' : legal_names names -> in_ring (length names) gens -> output_ring canon names gens names' gens' ->
  exponents_of_minimal_generators (length names) gens -> exponents_of_minimal_generators (length names') gens'.
Proof.
  intros [N _] R O H. destruct canon; [|destruct O as [-> ->]; auto]. destruct O as [P [_ F]]. assert (N' : NoDup names') by (eapply Permutation_NoDup; eauto).
  intros g' v Hg' Hv Pos. destruct (forall2_in_r _ _ _ _ F Hg') as [g [Hg [Lg' Eg]]]. specialize (Eg (nth v names' [])).
  assert (I' : index_of (nth v names' []) names' = Some v) by (apply index_of_nth; auto; now apply nth_error_nth').
  destruct (index_of (nth v names' []) names) as [u|] eqn:Iu.
  2:{ exfalso. apply index_of_none in Iu. apply Iu. apply (Permutation_in _ (Permutation_sym P)). now apply nth_In. }
  unfold exponent_of in Eg. rewrite I', Iu in Eg. apply index_of_nth in Iu; auto. assert (Hu : u < length names) by (apply nth_error_Some; congruence).
  destruct (H g u Hg Hu ltac:(lia)) as [h [Hm Eh]]. assert (Lh : length h = length names) by apply Hm.
  pose proof (pull_same names' names h N' (Permutation_sym P) Lh) as S. apply same_sym in S; [|apply map_length]. exists (pull names' names h). split; [apply (minimal_same names names' gens gens' h); auto|].
  destruct S as [_ S]. specialize (S (nth v names' [])). unfold exponent_of in S. rewrite I' in S. rewrite (proj2 (index_of_nth (nth v names' []) names u N) Iu) in S. etransitivity; [exact S|]. etransitivity; [exact Eh|]. symmetry. exact Eg.
Qed.
(** The number of monomials outside does not depend on the order of the variables. *)
Lemma degree_perm a b : Permutation a b -> degree a = degree b.
Proof. intros H. induction H; cbn [degree]; lia. Qed.
Lemma exponents_self (l : list str) (m : mono) : NoDup l -> length m = length l -> map (exponent_of 0 l m) l = m.
Proof.
  intros N L. apply nth_error_ext. intros i. rewrite nth_error_map. destruct (nth_error l i) as [s|] eqn:E; cbn [option_map].
  - unfold exponent_of. rewrite (proj2 (index_of_nth s l i N) E). symmetry. apply nth_error_nth'. rewrite L. apply nth_error_Some. congruence.
  - symmetry. apply nth_error_None. rewrite L. now apply nth_error_None.
Qed.
Lemma pull_degree l l' m : NoDup l' -> Permutation l l' -> length m = length l' -> degree (pull l l' m) = degree m.
Proof. intros N P L. unfold pull. rewrite <- (exponents_self l' m N L) at 2. apply degree_perm, Permutation_map, P. Qed.
Lemma univariate_same canon names gens names' gens' q : legal_names names -> in_ring (length names) gens -> output_ring canon names gens names' gens' ->
  univariate_numerator (length names') gens' q -> univariate_numerator (length names) gens q.
Proof.
  intros [N _] R O H. destruct canon; [|destruct O as [-> ->]; auto]. destruct O as [P [_ F]]. assert (N' : NoDup names') by (eapply Permutation_NoDup; eauto).
  intros k. destruct (H k) as [L [NL [HL E]]]. exists (map (pull names names') L). split; [|split].
  - apply NoDup_map_on; auto. intros a b Ha Hb Eab. apply HL in Ha, Hb. pose proof (pull_same names names' a N P (proj1 Ha)) as Sa. pose proof (pull_same names names' b N P (proj1 Hb)) as Sb. rewrite Eab in Sa. eapply same_unique; eauto.
  - intros m. rewrite in_map_iff. split.
    + intros [m' [<- Hm']]. apply HL in Hm'. destruct Hm' as [Lm [Dm Om]]. split; [apply map_length|]. split; [now rewrite pull_degree|]. intros X. apply Om.
      eapply (ideal_named names names' gens gens' (pull names names' m') m'); eauto; [apply map_length|]. now apply pull_same.
    + intros [Lm [Dm Om]]. pose proof (pull_same names' names m N' (Permutation_sym P) Lm) as S. assert (Lp : length (pull names' names m) = length names') by apply map_length. exists (pull names' names m).
      assert (E' : pull names names' (pull names' names m) = m).
      { pose proof (pull_same names names' _ N P Lp) as T. apply same_sym in T; [|apply map_length]. eapply same_unique; [exact N|exact T|exact S]. }
      split; auto. apply HL. split; auto. split; [now rewrite pull_degree by auto using Permutation_sym|]. intros X. apply Om. eapply (ideal_named names names' gens gens' m); eauto. now apply same_sym in S.
  - rewrite map_length. etransitivity; [|exact E]. assert (length names' = length names) as -> by (symmetry; now apply Permutation_length). auto.
Qed.

(** ** Reading *)
Lemma has_poly f : has_polynomials f = true <-> polynomial_format f.
Proof. unfold polynomial_format. destruct f; cbn; split; intros H; auto; try discriminate; repeat (destruct H as [H|H]); try discriminate. Qed.
Lemma hilbert_good o file names gens : hilbert_input o file names gens -> legal_names names /\ in_ring (length names) gens.
Proof. intros [E _]. apply read_good in E. now apply good_znat in E. Qed.
Lemma hilbert_read_ok o file names gens : polynomial_format (ho_output o file) -> hilbert_input o file names gens -> exists names' gens' J,
  hilbert_read o file = Ok (names', co_of (length names') gens' J) /\ legal_names names' /\ in_ring (length names') gens' /\ internal (length names') gens' J /\ output_ring (ho_canon o) names gens names' gens'.
Proof.
  intros Ff H. destruct (hilbert_good _ _ _ _ H) as [N R]. destruct H as [E M]. destruct (cli_set_legal (ho_minimal o) (ho_canon o) names gens N R M) as [names' [gens' [J [A B]]]]. exists names', gens', J. split; auto.
  unfold hilbert_read. apply has_poly in Ff. rewrite Ff. cbn [rbind]. rewrite E. cbn [rbind]. rewrite nideal_znat. cbn [fst]. now rewrite A.
Qed.
(** ** Running *)
Definition co_good (o : hilbert_options) (names' : list str) (gens' : list mono) (J : ideal) : Prop :=
  in_ring (length names') gens' /\ internal (length names') gens' J /\ (ho_algorithm o = lit "deform" -> ho_strong o = false -> exponents_of_minimal_generators (length names') gens').
Definition multi_good (o : hilbert_options) (names' : list str) (gens' : list mono) (p : poly) : Prop :=
  normal_poly (length names') p /\ multigraded_numerator (length names') gens' p /\ (ho_canon o = true -> descending_terms p).
Definition run_good (o : hilbert_options) (file : text) (names' : list str) (gens' : list mono) (r : res text) : Prop :=
  if ho_univariate o then exists out q, uni_series_output (length names') gens' (ho_canon o) out q /\ r = write_polynomial (ho_output o file) [lit "t"] (received (uni_poly q))
  else exists p, multi_good o names' gens' p /\ r = streamed (ho_output o file) names' (received p).
Lemma deform_or o names gens : (ho_algorithm o = lit "deform" -> ho_strong o = false -> exponents_of_minimal_generators names gens) -> ho_algorithm o = lit "deform" ->
  ho_strong o = true \/ exponents_of_minimal_generators names gens.
Proof. intros H E. destruct (ho_strong o) eqn:X; auto. Qed.
Lemma finish_multi_run o file names' gens' J ts p : ho_univariate o = false -> polynomial_format (ho_output o file) -> fed (length names') gens' (ho_canon o) ts p ->
  run_good o file names' gens' (multigraded_output (ho_output o file) names' (co_of (length names') gens' J) (Some ts)).
Proof.
  intros U Ff F. unfold run_good. rewrite U. exists p. split; [split; [apply F|split; apply F]|]. eapply output_fed; eauto.
Qed.
Lemma finish_uni_run o file names' gens' r q : ho_univariate o = true -> uni_series_output (length names') gens' (ho_canon o) r q -> run_good o file names' gens' (univariate_output (ho_output o file) r).
Proof. intros U F. unfold run_good. rewrite U. exists r, q. split; auto. unfold univariate_output. now rewrite (us_out _ _ _ _ _ F). Qed.
Lemma degree_split x : In x degree_names -> In x split_names.
Proof. intros [<-|[<-|[]]]; vm_compute; tauto. Qed.
Lemma hilbert_run o e file names gens : hilbert_choice o -> rearranging e -> polynomial_format (ho_output o file) -> hilbert_input o file names gens -> deformable o names gens ->
  exists names' gens' steps, output_ring (ho_canon o) names gens names' gens' /\ legal_names names' /\ in_ring (length names') gens' /\
    forall fuel, steps <= fuel -> run_good o file names' gens' (hilbert_action o (with_steps e fuel) file).
Proof.
  intros Hc [Ra [Ru [Rd Re]]] Ff H Hd. destruct (hilbert_good _ _ _ _ H) as [N R]. destruct (hilbert_read_ok o file names gens Ff H) as [names' [gens' [J [A [B [C [D E]]]]]]]. exists names', gens'.
  assert (G : exists steps, forall fuel, steps <= fuel -> run_good o file names' gens' (hilbert_action o (with_steps e fuel) file)).
  2:{ destruct G as [steps G]. exists steps. auto. }
  unfold hilbert_action. destruct Hc as [[Ha Hx]|[[Ha [x [Hx [X1 X2]]]]|[Ha [O1 O2]]]]; rewrite Ha.
  - destruct (str_dec (lit "bigatti") (lit "bigatti")) as [_|X]; [|congruence]. unfold hilbert_bigatti. pose proof (createPivot_spec (ho_split o) (ho_widen o)) as P.
    destruct (createPivot (ho_split o) (ho_widen o)) as [pv| | | | |]; try (destruct P; fail); [|exfalso; destruct Hx as [x Hx]; now apply (P x)]. destruct P as [_ P]. cbn [rbind]. rewrite A. cbn [rbind with_steps m_fuel m_arr m_uni].
    destruct (ho_univariate o) eqn:U.
    + destruct (bigatti_uni (length names') gens' J D (ho_simplify o) (ho_generic o) pv (m_uni e) (ho_canon o) (P _) Ru) as [steps S]. exists steps. intros fuel Hf. destruct (S fuel Hf) as [q Q]. eapply finish_uni_run; eauto.
    + destruct (bigatti_fed (length names') gens' J D (ho_simplify o) (ho_generic o) pv (m_arr e) (ho_canon o) (P _) Ra) as [steps S]. exists steps. intros fuel Hf. destruct (S fuel Hf) as [ts [p [Q W]]]. rewrite Q. eapply finish_multi_run; eauto.
  - destruct (str_dec (lit "slice") (lit "bigatti")) as [X|_]; [exfalso; vm_compute in X; discriminate|]. destruct (str_dec (lit "slice") (lit "slice")) as [_|X]; [|congruence]. unfold hilbert_slice_algorithm.
    pose proof (slice_config_spec false (ho_indep o) (ho_simplify o) (ho_split o)) as P. destruct (slice_config false (ho_indep o) (ho_simplify o) (ho_split o)) as [c| | | | |]; try (destruct P; fail).
    2:{ exfalso. destruct P as [P|[[_ [y [P1 P2]]]|P]]; [now apply (P x)|rewrite (abbreviates_unique _ _ _ _ Hx P1) in X1; auto|]. apply X2.
        assert (Q : abbreviates split_names (ho_split o) (ho_split o)). { split; [|now left]. apply degree_split, P. } now rewrite (abbreviates_unique _ _ _ _ Hx Q). }
    destruct P as [y [P1 [P2 [P3 [P4 [P5 P6]]]]]]. rewrite <- (abbreviates_unique _ _ _ _ Hx P1) in *. destruct (in_dec str_dec x degree_names) as [Y|_]; [now exfalso|]. destruct P6 as [_ P6]. specialize (P6 X1).
    exists 0. intros fuel _. cbn [rbind]. rewrite A. cbn [rbind with_steps m_rand]. destruct (ho_univariate o) eqn:U.
    + destruct (slice_uni (length names') gens' J C D c (m_rand e) (ho_canon o) P6) as [q Q]. eapply finish_uni_run; eauto.
    + destruct (slice_fed (length names') gens' J C D c (m_rand e) (ho_canon o) P6) as [ts [p [Q W]]]. rewrite Q. eapply finish_multi_run; eauto.
  - destruct (str_dec (lit "deform") (lit "bigatti")) as [X|_]; [exfalso; vm_compute in X; discriminate|]. destruct (str_dec (lit "deform") (lit "slice")) as [X|_]; [exfalso; vm_compute in X; discriminate|].
    destruct (str_dec (lit "deform") (lit "deform")) as [_|X]; [|congruence]. unfold hilbert_deform.
    pose proof (createOrder_spec (ho_enum o)) as P1. destruct (createOrder (ho_enum o)) as [eord| | | | |]; try (destruct P1; fail); [|now exfalso].
    pose proof (createOrder_spec (ho_deform o)) as P2. destruct (createOrder (ho_deform o)) as [dord| | | | |]; try (destruct P2; fail); [|now exfalso].
    cbn [rbind]. rewrite A. cbn [rbind with_steps m_shuffleD m_shuffleE m_arr m_uni m_fuel co_of co_n co_ideal].
    assert (HG : ho_strong o = true \/ exponents_of_minimal_generators (length names') gens').
    { destruct (ho_strong o) eqn:W; auto. right. apply (exponents_same (ho_canon o) names gens); auto. }
    assert (Pd : forall l, Permutation (M_ScarfFacade.ordered (m_shuffleD e) (length names') dord l) l) by (intros; apply ordered_perm; auto).
    assert (Pe : forall l, Permutation (M_ScarfFacade.ordered (m_shuffleE e) (length names') eord l) l) by (intros; apply ordered_perm; auto).
    pose proof (with_defined 0 (length names') gens' J (ho_strong o) (m_shuffleD e) (m_shuffleE e) dord eord (fun _ _ => Some []) D Rd Re) as W. unfold scarf_with in W. cbn [co_n co_ideal] in W.
    match goal with |- context [match ?b with Some _ => _ | None => Undefined end] => destruct b eqn:Eb end.
    2:{ exfalso. destruct (o_order (m_shuffleD e) (length names') dord J) eqn:E1; cbn [bind] in Eb; [|discriminate]. rewrite Eb in W. discriminate. }
    clear W. destruct (ho_univariate o) eqn:U.
    + destruct (scarf_uni (length names') gens' J D (ho_strong o) _ _ (m_uni e) (ho_canon o) Pd Pe Ru HG) as [steps S]. exists steps. intros fuel Hf. destruct (S fuel Hf) as [q Q]. eapply finish_uni_run; eauto.
    + destruct (scarf_fed (length names') gens' J D (ho_strong o) _ _ (m_arr e) (ho_canon o) Pd Pe Ra HG) as [steps S]. exists steps. intros fuel Hf. destruct (S fuel Hf) as [ts [p [Q W]]].
      change (mkCommon (length names') J (tr_initialize (length names') gens')) with (co_of (length names') gens' J). rewrite Q. eapply finish_multi_run; eauto.
Qed.

(** ** What is printed *)
Lemma received_terms n p : normal_poly n p -> Spec_IOPoly.terms_of n (received p).
Proof.
  intros [_ F]. unfold Spec_IOPoly.terms_of, monomials, received. rewrite map_map. apply Forall_map. eapply Forall_impl; [|exact F]. intros [c m] [_ L]. cbn [snd] in *. split; [unfold znat; now rewrite map_length|].
  apply Forall_map, Forall_forall. intros; lia.
Qed.
Lemma t_names : legal_names [lit "t"].
Proof. split; [repeat constructor; auto|]. constructor; auto. cbn. split; auto. right. vm_compute. lia. Qed.
Lemma streamed_ok f names q : polynomial_format f -> exists out, streamed f names q = Ok out.
Proof. intros Ff. destruct (write_polynomial_ok f names q Ff) as [out E]. destruct f; cbn [streamed]; eauto. cbn [p_header rbind]. eauto. Qed.
Lemma written_shows max f names p n out : polynomial_format f -> legal_names names -> length names = n -> normal_poly n p -> write_polynomial f names (received p) = Ok out -> shows_polynomial max f names (received p) out.
Proof.
  intros Ff N L P E F. destruct (poly_round_trip max f names (received p) Ff N) as [file [q [W [R [_ S]]]]]; auto; [rewrite L; now apply received_terms|]. rewrite E in W. injection W as <-. exists q. auto.
Qed.
Lemma cocoa_full f p : cocoa_readable f p -> f = CoCoA4 -> Forall (fun ct => full_or_one (snd ct)) (received p).
Proof.
  intros H E. specialize (H E). unfold received. apply Forall_map. eapply Forall_impl; [|exact H]. intros [c m] [X|X]; cbn [fst snd] in *; [left|right]; unfold znat; apply Forall_map; (eapply Forall_impl; [|exact X]); intros; cbn beta in *; lia.
Qed.
Theorem p_hilbert_multi o e file names gens : hilbert_choice o -> rearranging e -> polynomial_format (ho_output o file) -> hilbert_input o file names gens -> deformable o names gens -> ho_univariate o = false ->
  exists names' gens' steps, output_ring (ho_canon o) names gens names' gens' /\ forall fuel, steps <= fuel -> exists p out,
    hilbert_action o (with_steps e fuel) file = Ok out /\ normal_poly (length names') p /\ multigraded_numerator (length names') gens' p /\ (ho_canon o = true -> descending_terms p) /\
    (cocoa_readable (ho_output o file) p -> shows_polynomial (ho_max o) (ho_output o file) names' (received p) out).
Proof.
  intros Hc He Ff Hi Hd U. destruct (hilbert_run o e file names gens Hc He Ff Hi Hd) as [names' [gens' [steps [A [B [C D]]]]]]. exists names', gens', steps. split; auto. intros fuel Hf. specialize (D fuel Hf). unfold run_good in D. rewrite U in D.
  destruct D as [p [[P1 [P2 P3]] E]]. destruct (streamed_ok (ho_output o file) names' (received p) Ff) as [out W]. exists p, out. rewrite E. split; auto. split; auto. split; auto. split; auto.
  intros X. rewrite (streamed_full _ _ _ Ff (cocoa_full _ _ X)) in W. eapply written_shows; eauto.
Qed.
Lemma some_numerator n I : in_ring n I -> exists p, normal_poly n p /\ multigraded_numerator n I p.
Proof.
  intros R. assert (L : legal_hilbert_config (mkConfig false false (PivotSplit minimum_pivot))) by (exists minimum_pivot; split; [reflexivity|apply builtin_hrules]).
  destruct (hil_api _ (fun _ => 0) n I (J1 n I) L R (J1_internal n I (proj1 (in_ring_wf n I) R))) as [out [_ [_ [X Y]]]]. eauto.
Qed.
Lemma uni_normal n I canonical out q : in_ring n I -> uni_series_output n I canonical out q -> normal_poly 1 (uni_poly q).
Proof.
  intros R [A B C D E]. destruct (some_numerator n I R) as [p [N M]]. split.
  - assert (EQ : map snd (uni_poly q) = map (fun k => [k]) (map snd q)) by (unfold uni_poly; rewrite !map_map; reflexivity). rewrite EQ. apply NoDup_map_on; auto. intros a b _ _ X. now injection X.
  - apply Forall_forall. intros [c m] H. unfold uni_poly in H. apply in_map_iff in H. destruct H as [[c' k] [X H]]. injection X as <- <-. apply (C p N M) in H. cbn. tauto.
Qed.
Theorem p_hilbert_uni o e file names gens : hilbert_choice o -> rearranging e -> polynomial_format (ho_output o file) -> hilbert_input o file names gens -> deformable o names gens -> ho_univariate o = true ->
  exists steps, forall fuel, steps <= fuel -> exists q out,
    hilbert_action o (with_steps e fuel) file = Ok out /\ normal_poly 1 (uni_poly q) /\ univariate_numerator (length names) gens q /\ (ho_canon o = true -> descending q) /\
    shows_polynomial (ho_max o) (ho_output o file) [lit "t"] (received (uni_poly q)) out.
Proof.
  intros Hc He Ff Hi Hd U. destruct (hilbert_good _ _ _ _ Hi) as [N R]. destruct (hilbert_run o e file names gens Hc He Ff Hi Hd) as [names' [gens' [steps [A [B [C D]]]]]]. exists steps. intros fuel Hf. specialize (D fuel Hf). unfold run_good in D. rewrite U in D.
  destruct D as [r [q [Q E]]]. destruct (write_polynomial_ok (ho_output o file) [lit "t"] (received (uni_poly q)) Ff) as [out W]. exists q, out. rewrite E. split; auto. pose proof (uni_normal _ _ _ _ _ C Q) as NQ. split; auto.
  split; [eapply univariate_same; eauto; apply Q|]. split; [apply Q|]. eapply written_shows; eauto using t_names.
Qed.
(** ** The canonical text *)
Lemma descending_terms_unique : forall p q, descending_terms p -> descending_terms q -> Permutation p q -> p = q.
Proof.
  assert (G : forall p, descending_terms p -> forall x, In x (map snd p) -> forall c m p', p = (c, m) :: p' -> x = m \/ lex_lt x m).
  { intros p H x Hx c m p' ->. cbn [map snd] in Hx. destruct Hx as [<-|Hx]; auto. right. inversion H as [|? ? H1 H2]; subst. apply in_map_iff in Hx. destruct Hx as [y [<- Hy]]. rewrite Forall_forall in H2. now apply H2. }
  induction p as [|[c m] p IH]; intros [|[d k] q] Hp Hq P.
  - auto.
  - apply Permutation_nil in P. discriminate.
  - apply Permutation_sym, Permutation_nil in P. discriminate.
  - assert (X : In (c, m) ((d, k) :: q)) by (eapply Permutation_in; [exact P|simpl; auto]). assert (Y : In (d, k) ((c, m) :: p)) by (eapply Permutation_in; [apply Permutation_sym; exact P|simpl; auto]).
    assert (E : (c, m) = (d, k)).
    { inversion Hp as [|? ? P1 P2]; inversion Hq as [|? ? Q1 Q2]; subst. rewrite Forall_forall in *. destruct X as [X|X]; auto. destruct Y as [Y|Y]; auto. apply P2 in Y. apply Q2 in X. cbn [snd] in *. exfalso. apply (P_Poly.lex_irr m). eapply P_Poly.lex_trans; eauto. }
    rewrite E in *. f_equal. inversion Hp; inversion Hq; subst. apply IH; auto. eapply Permutation_cons_inv; eauto.
Qed.
Lemma numerator_same n I I' p : same_ideal n I I' -> multigraded_numerator n I' p -> multigraded_numerator n I p.
Proof. intros S H m Hm. destruct (H m Hm) as [A B]. pose proof (S m Hm) as Q. split; intros X; [apply A; tauto|apply B; tauto]. Qed.
Lemma descending_unique : forall q r, descending q -> descending r -> (forall x, In x q <-> In x r) -> q = r.
Proof.
  induction q as [|[c k] q IH]; intros [|[d j] r] Hq Hr H.
  - auto.
  - exfalso. apply (H (d, j)). simpl; auto.
  - exfalso. apply (H (c, k)). simpl; auto.
  - destruct Hq as [Hc [Fq Dq]]. destruct Hr as [Hd [Fr Dr]]. rewrite Forall_forall in *.
    assert (E : (c, k) = (d, j)).
    { destruct (proj1 (H (c, k)) ltac:(simpl; auto)) as [X|X]; auto. destruct (proj2 (H (d, j)) ltac:(simpl; auto)) as [Y|Y]; auto. apply Fr in X. apply Fq in Y. cbn [snd] in *. lia. }
    injection E as -> ->. f_equal. apply IH; auto. intros x. specialize (H x). cbn [In] in H. split; intros X.
    + destruct (proj1 H (or_intror X)) as [<-|Y]; auto. apply Fq in X. cbn in X. lia.
    + destruct (proj2 H (or_intror X)) as [<-|Y]; auto. apply Fr in X. cbn in X. lia.
Qed.
Theorem p_hilbert_same o1 o2 e1 e2 file1 file2 names1 names2 gens1 gens2 :
  hilbert_choice o1 -> hilbert_choice o2 -> rearranging e1 -> rearranging e2 -> hilbert_input o1 file1 names1 gens1 -> hilbert_input o2 file2 names2 gens2 ->
  deformable o1 names1 gens1 -> deformable o2 names2 gens2 -> same_input names1 gens1 names2 gens2 ->
  polynomial_format (ho_output o1 file1) -> ho_output o2 file2 = ho_output o1 file1 -> ho_univariate o2 = ho_univariate o1 -> ho_canon o1 = true -> ho_canon o2 = true ->
  exists steps out, forall fuel1 fuel2, steps <= fuel1 -> steps <= fuel2 -> hilbert_action o1 (with_steps e1 fuel1) file1 = Ok out /\ hilbert_action o2 (with_steps e2 fuel2) file2 = Ok out.
Proof.
  intros C1 C2 R1 R2 I1 I2 D1 D2 S Ff F2 U2 K1 K2. destruct (hilbert_good _ _ _ _ I1) as [N1 G1]. destruct (hilbert_good _ _ _ _ I2) as [N2 G2].
  destruct (hilbert_run o1 e1 file1 names1 gens1 C1 R1 Ff I1 D1) as [l1 [J1 [s1 [A1 [B1 [M1 H1]]]]]]. assert (Ff2 : polynomial_format (ho_output o2 file2)) by now rewrite F2.
  destruct (hilbert_run o2 e2 file2 names2 gens2 C2 R2 Ff2 I2 D2) as [l2 [J2 [s2 [A2 [B2 [M2 H2]]]]]]. rewrite K1 in A1. rewrite K2 in A2.
  destruct (same_output _ _ _ _ _ _ _ _ N1 N2 G1 G2 S A1 A2) as [-> SI]. exists (Nat.max s1 s2).
  assert (Q : forall f1 f2, s1 <= f1 -> s2 <= f2 -> exists out, hilbert_action o1 (with_steps e1 f1) file1 = Ok out /\ hilbert_action o2 (with_steps e2 f2) file2 = Ok out).
  { intros f1 f2 L1 L2. specialize (H1 f1 L1). specialize (H2 f2 L2). unfold run_good in H1, H2. rewrite U2, F2, K2 in H2. rewrite K1 in H1. destruct (ho_univariate o1).
    - destruct H1 as [r1 [q1 [Q1 ->]]]. destruct H2 as [r2 [q2 [Q2 ->]]]. destruct (some_numerator (length l1) J1 M1) as [p [P1 P2]].
      assert (P3 : multigraded_numerator (length l1) J2 p). { eapply numerator_same; [|exact P2]. intros m Hm. pose proof (SI m Hm). tauto. }
      assert (q1 = q2) as ->. { apply descending_unique; [now apply Q1|now apply Q2|]. intros [x k]. rewrite (us_coefs _ _ _ _ _ Q1 p P1 P2), (us_coefs _ _ _ _ _ Q2 p P1 P3). tauto. }
      destruct (write_polynomial_ok (ho_output o1 file1) [lit "t"] (received (uni_poly q2)) Ff) as [out W]. eauto.
    - destruct H1 as [p1 [[P1 [P2 P3]] ->]]. destruct H2 as [p2 [[Q1 [Q2 Q3]] ->]].
      assert (p1 = p2) as ->. { apply descending_terms_unique; auto. eapply p_numerator_unique; eauto. eapply numerator_same; eauto. }
      destruct (streamed_ok (ho_output o1 file1) l1 (received p2) Ff) as [out W]. eauto. }
  destruct (Q _ _ (Nat.le_max_l s1 s2) (Nat.le_max_r s1 s2)) as [out [E1 E2]]. exists out. intros f1 f2 L1 L2.
  destruct (Q f1 (Nat.max s1 s2) ltac:(lia) ltac:(lia)) as [x [X1 X2]]. destruct (Q (Nat.max s1 s2) f2 ltac:(lia) ltac:(lia)) as [y [Y1 Y2]]. split; congruence.
Qed.
(** ** Errors *)
Theorem p_hilbert_refused o e file : ~ hilbert_choice o -> ~ degree_abbreviated o -> hilbert_action o e file = OtherError.
Proof.
  intros H D. unfold hilbert_action. destruct (str_dec (ho_algorithm o) (lit "bigatti")) as [E|_].
  { unfold hilbert_bigatti. pose proof (createPivot_spec (ho_split o) (ho_widen o)) as P. destruct (createPivot (ho_split o) (ho_widen o)); try (destruct P; fail); [|reflexivity]. exfalso. apply H. left. split; auto. apply P. }
  destruct (str_dec (ho_algorithm o) (lit "slice")) as [E|_].
  { unfold hilbert_slice_algorithm. pose proof (slice_config_spec false (ho_indep o) (ho_simplify o) (ho_split o)) as P. destruct (slice_config false (ho_indep o) (ho_simplify o) (ho_split o)) as [c| | | | |]; try (destruct P; fail); [|reflexivity].
    exfalso. destruct P as [x [P1 [P2 [P3 [_ [_ P6]]]]]]. destruct (in_dec str_dec x degree_names) as [X|X].
    - apply D. split; auto. exists x. split; auto. split; auto. intros Y. apply P2. now rewrite Y.
    - apply H. right. left. split; auto. exists x. split; auto. split; auto. intros Y. apply P3 in Y. discriminate. }
  destruct (str_dec (ho_algorithm o) (lit "deform")) as [E|_]; [|reflexivity].
  unfold hilbert_deform. pose proof (createOrder_spec (ho_enum o)) as P1. destruct (createOrder (ho_enum o)); try (destruct P1; fail); [|reflexivity].
  pose proof (createOrder_spec (ho_deform o)) as P2. destruct (createOrder (ho_deform o)); try (destruct P2; fail); [|reflexivity]. exfalso. apply H. right. right. auto.
Qed.
Lemma action_read o e file : hilbert_choice o -> (forall r, hilbert_read o file <> Ok r) ->
  hilbert_action o e file = match hilbert_read o file with Ok _ => Undefined | SyntaxError => SyntaxError | OtherError => OtherError | InvalidArgument => InvalidArgument | OutOfFuel => OutOfFuel | Undefined => Undefined end.
Proof.
  intros Hc HR. unfold hilbert_action. destruct Hc as [[Ha Hx]|[[Ha [x [Hx [X1 X2]]]]|[Ha [O1 O2]]]]; rewrite Ha.
  - destruct (str_dec (lit "bigatti") (lit "bigatti")) as [_|X]; [|congruence]. unfold hilbert_bigatti. pose proof (createPivot_spec (ho_split o) (ho_widen o)) as P.
    destruct (createPivot (ho_split o) (ho_widen o)) as [pv| | | | |]; try (destruct P; fail); [|exfalso; destruct Hx as [x Hx]; now apply (P x)]. cbn [rbind]. destruct (hilbert_read o file) as [r| | | | |]; auto. now exfalso; apply (HR r).
  - destruct (str_dec (lit "slice") (lit "bigatti")) as [X|_]; [exfalso; vm_compute in X; discriminate|]. destruct (str_dec (lit "slice") (lit "slice")) as [_|X]; [|congruence]. unfold hilbert_slice_algorithm.
    pose proof (slice_config_spec false (ho_indep o) (ho_simplify o) (ho_split o)) as P. destruct (slice_config false (ho_indep o) (ho_simplify o) (ho_split o)) as [c| | | | |]; try (destruct P; fail).
    2:{ exfalso. destruct P as [P|[[_ [y [P1 P2]]]|P]]; [now apply (P x)|rewrite (abbreviates_unique _ _ _ _ Hx P1) in X1; auto|]. apply X2.
        assert (Q : abbreviates split_names (ho_split o) (ho_split o)). { split; [|now left]. apply degree_split, P. } now rewrite (abbreviates_unique _ _ _ _ Hx Q). }
    cbn [rbind]. destruct (hilbert_read o file) as [r| | | | |]; auto. now exfalso; apply (HR r).
  - destruct (str_dec (lit "deform") (lit "bigatti")) as [X|_]; [exfalso; vm_compute in X; discriminate|]. destruct (str_dec (lit "deform") (lit "slice")) as [X|_]; [exfalso; vm_compute in X; discriminate|].
    destruct (str_dec (lit "deform") (lit "deform")) as [_|X]; [|congruence]. unfold hilbert_deform.
    pose proof (createOrder_spec (ho_enum o)) as P1. destruct (createOrder (ho_enum o)) as [eord| | | | |]; try (destruct P1; fail); [|now exfalso].
    pose proof (createOrder_spec (ho_deform o)) as P2. destruct (createOrder (ho_deform o)) as [dord| | | | |]; try (destruct P2; fail); [|now exfalso].
    cbn [rbind]. destruct (hilbert_read o file) as [r| | | | |]; auto. now exfalso; apply (HR r).
Qed.
Theorem p_hilbert_format o e file : hilbert_choice o -> ~ polynomial_format (ho_output o file) -> hilbert_action o e file = OtherError.
Proof.
  intros Hc Ff. assert (E : hilbert_read o file = OtherError).
  { unfold hilbert_read. destruct (has_polynomials (ho_output o file)) eqn:X; [apply has_poly in X; now exfalso|reflexivity]. }
  rewrite (action_read o e file Hc); [now rewrite E|intros r; rewrite E; discriminate].
Qed.
Theorem p_hilbert_outcome o e file : hilbert_choice o -> rearranging e -> polynomial_format (ho_output o file) -> ho_minimal o = false -> (ho_algorithm o = lit "deform" -> ho_strong o = true) ->
  exists steps, forall fuel, steps <= fuel -> same_outcome (read_ideal (ho_max o) (ho_input o file) file) (hilbert_action o (with_steps e fuel) file).
Proof.
  intros Hc He Ff Hm Hs. pose proof (proj1 (reading_total (ho_max o) (ho_input o file) file)) as T. destruct (read_ideal (ho_max o) (ho_input o file) file) as [J| | | | |] eqn:E; try (destruct T; fail).
  { destruct (good_form J T) as [gens EJ]. assert (Hi : hilbert_input o file (fst J) gens) by (split; [now rewrite E, <- EJ|congruence]).
    destruct (hilbert_run o e file (fst J) gens Hc He Ff Hi) as [names' [gens' [steps [A [B [C D]]]]]]; [intros X Y; rewrite (Hs X) in Y; discriminate|]. exists steps. intros fuel Hf. specialize (D fuel Hf). unfold run_good in D.
    destruct (ho_univariate o); [destruct D as [r [q [_ ->]]]; destruct (write_polynomial_ok (ho_output o file) [lit "t"] (received (uni_poly q)) Ff) as [out ->]|destruct D as [p [_ ->]]; destruct (streamed_ok (ho_output o file) names' (received p) Ff) as [out ->]]; exact Logic.I. }
  all: exists 0; intros fuel _; assert (ER : forall r, hilbert_read o file <> Ok r) by (intros r; unfold hilbert_read; rewrite (proj2 (has_poly _) Ff); cbn [rbind]; rewrite E; discriminate);
    rewrite (action_read o (with_steps e fuel) file Hc ER); unfold hilbert_read; rewrite (proj2 (has_poly _) Ff); cbn [rbind]; rewrite E; exact Logic.I.
Qed.
