(** Polynomials in the formats count and null. *)
From Coq Require Import String Ascii.
From Coq Require Import List Arith Bool ZArith Lia Permutation Sorted.
Import ListNotations.
From Verif Require Import M_Term M_Ideal M_Slice M_Msm M_Api M_Hilbert M_Names M_IO Spec_IO M_Opt M_Poly M_IOPoly M_Bigatti M_Scarf M_Orderer M_ScarfFacade M_Cli M_Cli2 M_Cli3.
From Verif Require Import P_Names P_IO P_IO9 P_Names2 P_Cli3 P_Cli4 P_Cli5 P_Cli8 P_Term P_Ideal P_Internal P_Translator P_Api P_Api4 P_Poly P_IOPoly P_IOPoly2 P_IOPoly3 P_IOPoly4 P_Orderer P_Hil7 P_Hil8 P_Valid P_Bigatti6 P_Scarf3 P_Scarf4 P_Cli11 P_Cli12 P_Cli13.
From Verif Require Import M_Main M_Count Spec_Main P_Main P_Main2 P_Main3 P_Count2.
From Verif Require Import Spec_Names Spec_Slice Spec_Run Spec_Poly Spec_IOPoly Spec_Bigatti Spec_Scarf Spec_Orderer Spec_Hilbert Spec Spec_Api.
From Verif Require Import Spec_Cli Spec_Cli3 Spec_Cli2 Spec_Count.
Local Open Scope nat_scope.
Local Notation length := List.length.
Local Notation descending := Spec_Hilbert.descending.

(** ** Counting *)
Lemma stream_line {A} (ts : list A) : forall k, count_stream k ts = line_with (k + Z.of_nat (length ts)).
Proof.
  induction ts as [|t ts IH]; intros k; cbn [count_stream length]; [unfold count_done, line_with; do 2 f_equal; lia|]. rewrite IH. f_equal. lia.
Qed.
Lemma stream_counts {A} s (ts : list A) k : length ts = k -> match s with Nothing => Ok [] | Counting => Ok (count_stream 0 ts) end = Ok (counts s [k]).
Proof. intros <-. destruct s; auto. rewrite stream_line. cbn [counts map concat]. now rewrite app_nil_r. Qed.
(** ** Running *)
Lemma hilbert_reads_ok o file names gens : hilbert_input o file names gens -> exists names' gens' J,
  hilbert_reads o file = Ok (names', co_of (length names') gens' J) /\ legal_names names' /\ in_ring (length names') gens' /\ internal (length names') gens' J /\ output_ring (ho_canon o) names gens names' gens'.
Proof.
  intros H. destruct (hilbert_good _ _ _ _ H) as [N R]. destruct H as [E M]. destruct (cli_set_legal (ho_minimal o) (ho_canon o) names gens N R M) as [names' [gens' [J [A B]]]]. exists names', gens', J. split; auto.
  unfold hilbert_reads. rewrite E. cbn [rbind]. rewrite nideal_znat. cbn [fst]. now rewrite A.
Qed.
Definition sink_good (s : sink) (o : hilbert_options) (names' : list str) (gens' : list mono) (r : res text) : Prop :=
  if ho_univariate o then exists out q, uni_series_output (length names') gens' (ho_canon o) out q /\ r = Ok (counts s [length q])
  else exists p, multi_good o names' gens' p /\ r = Ok (counts s [length p]).
Lemma finish_multi_sink s o names' gens' J ts p : ho_univariate o = false -> fed (length names') gens' (ho_canon o) ts p ->
  sink_good s o names' gens' (multigraded_sink s (co_of (length names') gens' J) (Some ts)).
Proof.
  intros U F. unfold sink_good. rewrite U. exists p. split; [split; [apply F|split; apply F]|].
  unfold multigraded_sink. cbn [bind co_of co_n co_tr]. rewrite (inside_values _ _ ts (fed_inside _ _ _ _ _ F)). cbn [bind].
  apply stream_counts. rewrite (fed_values _ _ _ _ _ F). unfold values. now rewrite map_length.
Qed.
Lemma finish_uni_sink s o names' gens' r q : ho_univariate o = true -> uni_series_output (length names') gens' (ho_canon o) r q -> sink_good s o names' gens' (univariate_sink s r).
Proof.
  intros U F. unfold sink_good. rewrite U. exists r, q. split; auto. unfold univariate_sink. rewrite (us_out _ _ _ _ _ F). apply stream_counts. unfold received, uni_poly. now rewrite !map_length.
Qed.
Lemma hilbert_sinks s o e file names gens : hilbert_choice o -> rearranging e -> hilbert_input o file names gens -> deformable o names gens ->
  exists names' gens' steps, output_ring (ho_canon o) names gens names' gens' /\ legal_names names' /\ in_ring (length names') gens' /\
    forall fuel, steps <= fuel -> sink_good s o names' gens' (hilbert_sink s o (with_steps e fuel) file).
Proof.
  intros Hc [Ra [Ru [Rd Re]]] H Hd. destruct (hilbert_good _ _ _ _ H) as [N R]. destruct (hilbert_reads_ok o file names gens H) as [names' [gens' [J [A [B [C [D E]]]]]]]. exists names', gens'.
  assert (G : exists steps, forall fuel, steps <= fuel -> sink_good s o names' gens' (hilbert_sink s o (with_steps e fuel) file)).
  2:{ destruct G as [steps G]. exists steps. auto. }
  unfold hilbert_sink. destruct Hc as [[Ha Hx]|[[Ha [x [Hx [X1 X2]]]]|[Ha [O1 O2]]]]; rewrite Ha.
  - destruct (str_dec (lit "bigatti") (lit "bigatti")) as [_|X]; [|congruence]. unfold bigatti_sink. pose proof (createPivot_spec (ho_split o) (ho_widen o)) as P.
    destruct (createPivot (ho_split o) (ho_widen o)) as [pv| | | | |]; try (destruct P; fail); [|exfalso; destruct Hx as [x Hx]; now apply (P x)]. destruct P as [_ P]. cbn [rbind]. rewrite A. cbn [rbind with_steps m_fuel m_arr m_uni].
    destruct (ho_univariate o) eqn:U.
    + destruct (bigatti_uni (length names') gens' J D (ho_simplify o) (ho_generic o) pv (m_uni e) (ho_canon o) (P _) Ru) as [steps S]. exists steps. intros fuel Hf. destruct (S fuel Hf) as [q Q]. eapply finish_uni_sink; eauto.
    + destruct (bigatti_fed (length names') gens' J D (ho_simplify o) (ho_generic o) pv (m_arr e) (ho_canon o) (P _) Ra) as [steps S]. exists steps. intros fuel Hf. destruct (S fuel Hf) as [ts [p [Q W]]]. rewrite Q. eapply finish_multi_sink; eauto.
  - destruct (str_dec (lit "slice") (lit "bigatti")) as [X|_]; [exfalso; vm_compute in X; discriminate|]. destruct (str_dec (lit "slice") (lit "slice")) as [_|X]; [|congruence]. unfold slice_sink.
    pose proof (slice_config_spec false (ho_indep o) (ho_simplify o) (ho_split o)) as P. destruct (slice_config false (ho_indep o) (ho_simplify o) (ho_split o)) as [c| | | | |]; try (destruct P; fail).
    2:{ exfalso. destruct P as [P|[[_ [y [P1 P2]]]|P]]; [now apply (P x)|rewrite (abbreviates_unique _ _ _ _ Hx P1) in X1; auto|]. apply X2.
        assert (Q : abbreviates split_names (ho_split o) (ho_split o)). { split; [|now left]. apply degree_split, P. } now rewrite (abbreviates_unique _ _ _ _ Hx Q). }
    destruct P as [y [P1 [P2 [P3 [P4 [P5 P6]]]]]]. rewrite <- (abbreviates_unique _ _ _ _ Hx P1) in *. destruct (in_dec str_dec x degree_names) as [Y|_]; [now exfalso|]. destruct P6 as [_ P6]. specialize (P6 X1).
    exists 0. intros fuel _. cbn [rbind]. rewrite A. cbn [rbind with_steps m_rand]. destruct (ho_univariate o) eqn:U.
    + destruct (slice_uni (length names') gens' J C D c (m_rand e) (ho_canon o) P6) as [q Q]. eapply finish_uni_sink; eauto.
    + destruct (slice_fed (length names') gens' J C D c (m_rand e) (ho_canon o) P6) as [ts [p [Q W]]]. rewrite Q. eapply finish_multi_sink; eauto.
  - destruct (str_dec (lit "deform") (lit "bigatti")) as [X|_]; [exfalso; vm_compute in X; discriminate|]. destruct (str_dec (lit "deform") (lit "slice")) as [X|_]; [exfalso; vm_compute in X; discriminate|].
    destruct (str_dec (lit "deform") (lit "deform")) as [_|X]; [|congruence]. unfold deform_sink.
    pose proof (createOrder_spec (ho_enum o)) as P1. destruct (createOrder (ho_enum o)) as [eord| | | | |]; try (destruct P1; fail); [|now exfalso].
    pose proof (createOrder_spec (ho_deform o)) as P2. destruct (createOrder (ho_deform o)) as [dord| | | | |]; try (destruct P2; fail); [|now exfalso].
    cbn [rbind]. rewrite A. cbn [rbind with_steps m_shuffleD m_shuffleE m_arr m_uni m_fuel co_of co_n co_ideal].
    assert (HG : ho_strong o = true \/ exponents_of_minimal_generators (length names') gens').
    { destruct (ho_strong o) eqn:W; auto. right. apply (exponents_same (ho_canon o) names gens); auto. }
    assert (Pd : forall l, Permutation (M_ScarfFacade.ordered (m_shuffleD e) (length names') dord l) l) by (intros; apply ordered_perm; auto).
    assert (Pe : forall l, Permutation (M_ScarfFacade.ordered (m_shuffleE e) (length names') eord l) l) by (intros; apply ordered_perm; auto).
    pose proof (with_defined 0 (length names') gens' J (ho_strong o) (m_shuffleD e) (m_shuffleE e) dord eord (fun _ _ => Some []) D Rd Re) as W. unfold scarf_with in W. cbn [co_n co_ideal] in W.
    match goal with |- context [match ?b with Some _ => _ | None => Undefined end] => destruct b eqn:Eb end.
    2:{ exfalso. destruct (o_order (m_shuffleD e) (length names') dord J) eqn:E1; cbn [bind] in Eb; [|discriminate]. rewrite Eb in W. discriminate. }
    clear W. destruct (ho_univariate o) eqn:U.
    + destruct (scarf_uni (length names') gens' J D (ho_strong o) _ _ (m_uni e) (ho_canon o) Pd Pe Ru HG) as [steps S]. exists steps. intros fuel Hf. destruct (S fuel Hf) as [q Q]. eapply finish_uni_sink; eauto.
    + destruct (scarf_fed (length names') gens' J D (ho_strong o) _ _ (m_arr e) (ho_canon o) Pd Pe Ra HG) as [steps S]. exists steps. intros fuel Hf. destruct (S fuel Hf) as [ts [p [Q W]]].
      change (mkCommon (length names') J (tr_initialize (length names') gens')) with (co_of (length names') gens' J). rewrite Q. eapply finish_multi_sink; eauto.
Qed.
(** ** The program *)
Lemma s_hilbert w args v i s file : command args "hilbert" v -> input_choice v i -> sink_choice v s ->
  frobby_sink w args file = hilbert_sink s (hilbert_opts w v i None) (w_machine w) file.
Proof. intros C I O. the_sink C w file p R. unfold hilbert_performs. values. rewrite (input_choice_ok v i I), (sink_choice_ok v s O). reflexivity. Qed.
Lemma s_ptransform w args v i s file : command args "ptransform" v -> input_choice v i -> sink_choice v s ->
  frobby_sink w args file = ptransform_sink s (w_max w) (on v "canon") (on v "sort") (input_format i file) file.
Proof. intros C I O. the_sink C w file p R. unfold ptransform_performs, one_format. values. rewrite (input_choice_ok v i I), (sink_choice_ok v s O). reflexivity. Qed.
Theorem n_hilbert_multi w args v i s file names gens : let ho := hilbert_opts w v i None in
  command args "hilbert" v -> input_choice v i -> sink_choice v s -> reads_as w v i file names gens ->
  hilbert_choice ho -> rearranging (w_machine w) -> deformable ho names gens -> on v "univariate" = false ->
  exists names' gens' steps, output_ring (on v "canon") names gens names' gens' /\ forall fuel, steps <= fuel -> exists p,
    normal_poly (length names') p /\ multigraded_numerator (length names') gens' p /\
    frobby_sink (with_fuel w fuel) args file = Ok (counts s [length p]).
Proof.
  intros ho C I O [R1 R2] H1 H2 H3 H4.
  destruct (hilbert_sinks s ho (w_machine w) file names gens H1 H2 (conj R1 R2) H3) as (names' & gens' & steps & A & _ & _ & B).
  exists names', gens', steps. split; [exact A|]. intros fuel Hf. specialize (B fuel Hf). unfold sink_good in B.
  change (ho_univariate ho) with (on v "univariate") in B. rewrite H4 in B. destruct B as (p & (B1 & B2 & _) & B3). exists p. split; auto. split; auto.
  rewrite (s_hilbert (with_fuel w fuel) args v i s file C I O). exact B3.
Qed.
Theorem n_hilbert_uni w args v i s file names gens : let ho := hilbert_opts w v i None in
  command args "hilbert" v -> input_choice v i -> sink_choice v s -> reads_as w v i file names gens ->
  hilbert_choice ho -> rearranging (w_machine w) -> deformable ho names gens -> on v "univariate" = true ->
  exists steps, forall fuel, steps <= fuel -> exists q,
    normal_poly 1 (uni_poly q) /\ univariate_numerator (length names) gens q /\
    frobby_sink (with_fuel w fuel) args file = Ok (counts s [length q]).
Proof.
  intros ho C I O [R1 R2] H1 H2 H3 H4. destruct (hilbert_good ho file names gens (conj R1 R2)) as [N R].
  destruct (hilbert_sinks s ho (w_machine w) file names gens H1 H2 (conj R1 R2) H3) as (names' & gens' & steps & A & A1 & A2 & B).
  exists steps. intros fuel Hf. specialize (B fuel Hf). unfold sink_good in B.
  change (ho_univariate ho) with (on v "univariate") in B. rewrite H4 in B. destruct B as (out & q & B1 & B3). exists q.
  split; [eapply uni_normal; eauto|]. split; [eapply univariate_same; eauto; apply B1|].
  rewrite (s_hilbert (with_fuel w fuel) args v i s file C I O). exact B3.
Qed.
Theorem n_ptransform w args args' v v' i s o file : command args "ptransform" v -> command args' "ptransform" v' -> same_but_format v v' ->
  input_choice v i -> sink_choice v s -> output_choice v' o ->
  (exists names p, frobby w args' file = write_polynomial (output_format i o file) names p /\ frobby_sink w args file = Ok (counts s [length p])) \/
  (frobby w args' file = frobby_sink w args file /\ forall out, frobby_sink w args file <> Ok out).
Proof.
  intros C C' H I O O'. rewrite (s_ptransform w args v i s file C I O), (p_ptransform w args' v' i o file C' (same_input_choice v v' i H I) O').
  rewrite !(fun x => same_on v v' x H) by discriminate. unfold ptransform, ptransform_sink. change (match i with Some f => f | None => autoDetect file end) with (input_format i file).
  destruct (read_polynomial _ _ _) as [[names p]| | | | |]; cbn [rbind]; try (right; split; [reflexivity|discriminate]).
  destruct (ptransform_change _ _ _ _) as [[names' p']| | | | |]; cbn [rbind]; try (right; split; [reflexivity|discriminate]).
  left. exists names', p'. split; auto. destruct s; auto. cbn [counts map concat]. now rewrite app_nil_r.
Qed.
