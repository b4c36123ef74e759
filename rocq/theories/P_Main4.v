(** Errors in the options, and the program from the command line and the input to the output. *)
From Coq Require Import String Ascii.
From Coq Require Import List Arith Bool ZArith Lia Permutation.
Import ListNotations.
From Verif Require Import M_Term M_Msm M_Slice M_Names M_IO Spec_IO M_Opt M_Api M_Cli M_Cli2 M_Cli3 M_Analyze M_Actions M_Frob M_IOPoly M_Transform Spec_Slice Spec_Run Spec_Opt Spec_Hilbert Spec_Names Spec_Cli3 P_Names P_Cli5 P_Cli12 M_Main Spec_Main P_Main P_Main2 P_Main3.
From Verif Require Import Spec_Euler Spec_EulerCfg Spec_Poly Spec_IOPoly Spec_Bigatti Spec_Dim.
From Verif Require Import T_Analyze T_Cli T_Cli2 T_Cli3.
From Verif Require Import Spec Spec_Api Spec_Cli Spec_Cli2.
Local Open Scope nat_scope.
Local Notation length := List.length.
Lemma config_cases indep simp split : (exists c, slice_config true indep simp split = Ok c) \/ slice_config true indep simp split = OtherError.
Proof. pose proof (slice_config_spec true indep simp split) as H. destruct (slice_config true indep simp split); try destruct H; eauto. Qed.
Lemma oparams_cases s e b split : (exists c, slice_oparams s e b split = Ok c) \/ slice_oparams s e b split = OtherError.
Proof. pose proof (slice_oparams_spec s e b split) as H. destruct (slice_oparams s e b split); try destruct H; eauto. Qed.
Ltac decomposition_values R :=
  repeat match goal with
  | |- context [getBool ?p ?x] => rewrite (read_bool p _ _ x _ R ltac:(in_table)); cbn [rbind]
  | |- context [getString ?p ?x] => rewrite (read_word p _ _ x _ R ltac:(in_table)); cbn [rbind]
  end.
Lemma reads_sub p v a : reads p v (table a) -> In a ["irrdecom"; "primdecom"; "alexdual"; "assoprimes"; "maxstandard"; "hilbert"]%string -> reads p v decomposition_options.
Proof. intros R H x d Hd. apply R. now apply decomposition_sub. Qed.
Lemma slice_error w args a v file : command args a v -> In a slice_actions ->
  (forall p, reads p v decomposition_options -> slice_options w p = OtherError) -> frobby w args file = OtherError.
Proof.
  intros C Ha E. unfold slice_actions in Ha. cbn [In] in Ha.
  destruct Ha as [<-|[<-|[<-|[<-|[<-|[]]]]]]; the_action C w file p R;
    unfold irrdecom_perform, primdecom_perform, alexdual_perform, assoprimes_perform, maxstandard_perform;
    (rewrite E; [reflexivity|]); (eapply reads_sub; [exact R|]); cbn; tauto.
Qed.
Theorem p_unknown_split w args a v file : command args a v -> In a slice_actions -> unknown_split v -> frobby w args file = OtherError.
Proof.
  intros C Ha U. apply (slice_error w args a v file C Ha). intros p R. unfold slice_options. decomposition_values R.
  pose proof (slice_config_spec true (on v "independence") (on v "simplify") (word v "split")) as S. destruct (slice_config true _ _ _) as [c| | | | |]; try destruct S; auto.
  destruct H as (B & G & _). destruct U as [U|U]; [now destruct G|now destruct (U x)].
Qed.
Theorem p_unknown_output w args a v file : command args a v -> In a (slice_actions ++ format_actions) -> (exists i, input_choice v i) ->
  unknown_format "input" (word v "oformat") -> frobby w args file = OtherError.
Proof.
  intros C Ha [i I] U. apply input_choice_ok in I. apply format_or_unknown in U. apply in_app_iff in Ha. destruct Ha as [Ha|Ha].
  - apply (slice_error w args a v file C Ha). intros p R. unfold slice_options. decomposition_values R. rewrite I, U.
    destruct (config_cases (on v "independence") (on v "simplify") (word v "split")) as [[c ->]| ->]; reflexivity.
  - unfold format_actions in Ha. cbn [In] in Ha. destruct Ha as [<-|[<-|[<-|[<-|[<-|[<-|[]]]]]]]; the_action C w file p R.
    + unfold hilbert_perform. values. rewrite I, U. reflexivity.
    + unfold optimize_perform. values. rewrite I, U. destruct (oparams_cases (on v "simplify") (on v "boundSimplify") true (word v "split")) as [[c ->]| ->]; reflexivity.
    + unfold transform_perform, both_formats. values. rewrite I, U. reflexivity.
    + unfold ptransform_perform. values. rewrite I, U. reflexivity.
    + unfold intersection_perform, both_formats. values. rewrite I, U. reflexivity.
    + unfold analyze_perform. values. rewrite I, U. reflexivity.
Qed.
Theorem p_unknown_input w args a v file : command args a v -> ~ In a ["frobdyn"; "genideal"; "genfrob"; "frobgrob"; "latformat"]%string -> (a = "dimension"%string -> on v "useSlice" = false) ->
  unknown_format "autodetect" (word v "iformat") -> frobby w args file = OtherError.
Proof.
  intros C N D U. apply format_or_unknown in U. assert (Ha : In a (slice_actions ++ format_actions ++ ["euler"; "dimension"; "frobdyn"; "genideal"; "genfrob"; "frobgrob"; "latformat"]%string)).
  { destruct C as (a0 & t & options & s & _ & _ & H & _). assert (E : forall b, lit a = lit b -> a = b).
    { intros b E. rewrite <- (string_of_list_ascii_of_string a), <- (string_of_list_ascii_of_string b). f_equal. exact E. }
    unfold options_of in H. cbn [In] in H. repeat (destruct H as [H|H]; [apply (f_equal fst) in H; cbn [fst] in H; symmetry in H; apply E in H; subst a; unfold slice_actions, format_actions; cbn; tauto|]). destruct H. }
  apply in_app_iff in Ha. destruct Ha as [Ha|Ha]; [|apply in_app_iff in Ha; destruct Ha as [Ha|Ha]].
  - apply (slice_error w args a v file C Ha). intros p R. unfold slice_options. decomposition_values R. rewrite U.
    destruct (config_cases (on v "independence") (on v "simplify") (word v "split")) as [[c ->]| ->]; reflexivity.
  - unfold format_actions in Ha. cbn [In] in Ha. destruct Ha as [<-|[<-|[<-|[<-|[<-|[<-|[]]]]]]]; the_action C w file p R.
    + unfold hilbert_perform. values. rewrite U. reflexivity.
    + unfold optimize_perform. values. rewrite U. destruct (oparams_cases (on v "simplify") (on v "boundSimplify") true (word v "split")) as [[c ->]| ->]; reflexivity.
    + unfold transform_perform, both_formats. values. rewrite U. reflexivity.
    + unfold ptransform_perform. values. rewrite U. reflexivity.
    + unfold intersection_perform, both_formats. values. rewrite U. reflexivity.
    + unfold analyze_perform. values. rewrite U. reflexivity.
  - cbn [In] in Ha. destruct Ha as [<-|[<-|Ha]]; [| |exfalso; apply N; cbn [In]; tauto]; the_action C w file p R.
    + unfold euler_perform. values. rewrite U. reflexivity.
    + unfold dimension_perform. values. rewrite (D eq_refl), U. reflexivity.
Qed.
(** ** From the command line and the input to the output *)
Lemma reads_input w v i o c file names gens : reads_as w v i file names gens -> legal_config c -> input_is (slice_opts w v i o c) file names gens.
Proof. intros [H1 H2] L. split; [exact L|]. split; [exact H1|exact H2]. Qed.
Theorem e_irrdecom w args v i o file names gens : command args "irrdecom" v -> input_choice v i -> output_choice v o -> split_choice v -> reads_as w v i file names gens ->
  on v "encode" = true \/ list_format (output_format i o file) ->
  exists names' gens' D out, output_ring (on v "canon") names gens names' gens' /\ irreducible_decomposition (length names') gens' D /\
    (on v "canon" = true -> descending D) /\ frobby w args file = Ok out /\
    if on v "encode" then shows_ideal (w_max w) (output_format i o file) names' D out
    else shows_ideals (w_max w) (output_format i o file) names' (map (irreducible_generators (length names')) D) out.
Proof.
  intros C I O S R HL. destruct (p_irrdecom w args v i o file C I O S) as (c & L & _ & _ & ->).
  exact (C75_irrdecom (slice_opts w v i o c) (on v "encode") (w_rand w) file names gens (reads_input w v i o c file names gens R L) HL).
Qed.
Theorem e_maxstandard w args v i o file names gens : command args "maxstandard" v -> input_choice v i -> output_choice v o -> split_choice v -> reads_as w v i file names gens ->
  list_format (output_format i o file) ->
  exists names' gens' L out, output_ring (on v "canon") names gens names' gens' /\ NoDup L /\
    (forall m, In m L <-> if on v "increment" then exists s, max_standard (length names') gens' s /\ m = map S s else max_standard (length names') gens' m) /\
    (on v "canon" = true -> descending L) /\ frobby w args file = Ok out /\ shows_ideal (w_max w) (output_format i o file) names' L out.
Proof.
  intros C I O S R HL. destruct (p_maxstandard w args v i o file C I O S) as (c & L & _ & _ & ->).
  exact (C76_maxstandard (slice_opts w v i o c) (on v "increment") (w_rand w) file names gens (reads_input w v i o c file names gens R L) HL).
Qed.
Theorem e_assoprimes w args v i o file names gens : command args "assoprimes" v -> input_choice v i -> output_choice v o -> split_choice v -> reads_as w v i file names gens ->
  list_format (output_format i o file) ->
  exists names' gens' Ss out, output_ring (on v "canon") names gens names' gens' /\ NoDup Ss /\ (forall s, In s Ss <-> associated_prime (length names') gens' s) /\
    (on v "canon" = true -> descending Ss) /\ frobby w args file = Ok out /\ shows_ideal (w_max w) (output_format i o file) names' Ss out.
Proof.
  intros C I O S R HL. destruct (p_assoprimes w args v i o file C I O S) as (c & L & _ & _ & ->).
  exact (C76_assoprimes (slice_opts w v i o c) (w_rand w) file names gens (reads_input w v i o c file names gens R L) HL).
Qed.
Theorem e_primdecom w args v i o file names gens : command args "primdecom" v -> input_choice v i -> output_choice v o -> split_choice v -> reads_as w v i file names gens ->
  list_format (output_format i o file) ->
  exists names' gens' D Gs Bs Cs out, let n := length names' in
  output_ring (on v "canon") names gens names' gens' /\ irreducible_decomposition n gens' D /\ descending D /\ support_runs n D Gs /\ Forall2 (same_support_intersection n) Gs Bs /\
  (forall m, length m = n -> (in_ideal gens' m <-> forall B, In B Bs -> in_ideal B m)) /\
  (forall s, associated_prime n gens' s <-> exists B, In B Bs /\ length s = n /\ (forall i, nth i s 0 <= 1) /\ radical_is n B s) /\
  (if on v "canon" then same_lists Bs Cs /\ Forall descending Cs /\ Sorted.StronglySorted (fun L K => ~ list_before K L) Cs else Cs = Bs) /\
  frobby w args file = Ok out /\ shows_ideals (w_max w) (output_format i o file) names' Cs out.
Proof.
  intros C I O S R HL. destruct (p_primdecom w args v i o file C I O S) as (c & L & _ & _ & ->).
  exact (C77_primdecom (slice_opts w v i o c) (w_rands w) file names gens (reads_input w v i o c file names gens R L) HL).
Qed.

Theorem e_no_lists w args a v i o file : command args a v -> In a slice_actions -> a <> "alexdual"%string -> (a = "irrdecom"%string -> on v "encode" = false) ->
  input_choice v i -> output_choice v o -> split_choice v -> ~ list_format (output_format i o file) -> frobby w args file = OtherError.
Proof.
  intros C Ha NA E I O S HL. unfold slice_actions in Ha. cbn [In] in Ha. destruct Ha as [<-|[<-|[<-|[<-|[<-|[]]]]]].
  - destruct (p_irrdecom w args v i o file C I O S) as (c & L & _ & _ & ->). rewrite (E eq_refl). now apply C75_no_lists.
  - destruct (p_primdecom w args v i o file C I O S) as (c & L & _ & _ & ->). now apply C77_no_lists.
  - congruence.
  - destruct (p_assoprimes w args v i o file C I O S) as (c & L & _ & _ & ->). exact (proj2 (C76_no_lists (slice_opts w v i o c) false (w_rand w) file HL)).
  - destruct (p_maxstandard w args v i o file C I O S) as (c & L & _ & _ & ->). exact (proj1 (C76_no_lists (slice_opts w v i o c) (on v "increment") (w_rand w) file HL)).
Qed.

Theorem e_dimension w args v i file names gens : command args "dimension" v -> input_choice v i ->
  read_ideal (w_max w) (input_format i file) file = Ok (names, map znat gens) ->
  (on v "useSlice" = false -> on v "squareFreeAndMinimal" = true -> square_free gens /\ lists_minimal_generators (length names) gens gens) ->
  exists d, Spec_Dim.is_dimension (length names) gens d /\
    frobby w args file = Ok (line_with (if on v "codim" then Z.of_nat (length names) - d else d)).
Proof.
  intros C I R SQ. rewrite (p_dimension w args v i file C I).
  apply (C84_dimension (DO (w_max w) (if on v "useSlice" then None else i) (on v "codim") (on v "squareFreeAndMinimal") (on v "useSlice")) (w_rand w) file names gens); auto.
  cbn [do_max do_in]. destruct (on v "useSlice"); [|exact R]. cbn [the_format]. replace (autoDetect file) with (input_format i file); auto.
  symmetry. apply (C86_detection (w_max w)). left. eauto.
Qed.
Theorem e_hilbert_multi w args v i o file names gens : let ho := hilbert_opts w v i o in
  command args "hilbert" v -> input_choice v i -> output_choice v o -> reads_as w v i file names gens ->
  hilbert_choice ho -> rearranging (w_machine w) -> polynomial_format (output_format i o file) -> deformable ho names gens -> on v "univariate" = false ->
  exists names' gens' steps, output_ring (on v "canon") names gens names' gens' /\ forall fuel, steps <= fuel -> exists p out,
    frobby (with_fuel w fuel) args file = Ok out /\
    normal_poly (length names') p /\ Spec_Hilbert.multigraded_numerator (length names') gens' p /\ (on v "canon" = true -> Spec_Poly.descending_terms p) /\
    (cocoa_readable (output_format i o file) p -> shows_polynomial (w_max w) (output_format i o file) names' (received p) out).
Proof.
  intros ho C I O [R1 R2] H1 H2 H3 H4 H5.
  destruct (C87_multigraded_partial ho (w_machine w) file names gens H1 H2 H3 (conj R1 R2) H4 H5) as (names' & gens' & steps & A & B).
  exists names', gens', steps. split; [exact A|]. intros fuel Hf. destruct (B fuel Hf) as (p & out & B1 & B2). exists p, out. split; auto.
  rewrite (p_hilbert (with_fuel w fuel) args v i o file C I O). exact B1.
Qed.
Theorem e_hilbert_uni w args v i o file names gens : let ho := hilbert_opts w v i o in
  command args "hilbert" v -> input_choice v i -> output_choice v o -> reads_as w v i file names gens ->
  hilbert_choice ho -> rearranging (w_machine w) -> polynomial_format (output_format i o file) -> deformable ho names gens -> on v "univariate" = true ->
  exists steps, forall fuel, steps <= fuel -> exists q out,
    frobby (with_fuel w fuel) args file = Ok out /\
    normal_poly 1 (uni_poly q) /\ Spec_Hilbert.univariate_numerator (length names) gens q /\ (on v "canon" = true -> Spec_Hilbert.descending q) /\
    shows_polynomial (w_max w) (output_format i o file) [lit "t"] (received (uni_poly q)) out.
Proof.
  intros ho C I O [R1 R2] H1 H2 H3 H4 H5.
  destruct (C87_univariate_partial ho (w_machine w) file names gens H1 H2 H3 (conj R1 R2) H4 H5) as (steps & B).
  exists steps. intros fuel Hf. destruct (B fuel Hf) as (p & out & B1 & B2). exists p, out. split; auto.
  rewrite (p_hilbert (with_fuel w fuel) args v i o file C I O). exact B1.
Qed.
Theorem e_euler w args v i file names gens : command args "euler" v -> input_choice v i ->
  In (word v "pivot") kinds_of_pivot -> legal_std (word v "stdPivot") -> legal_gen (word v "genPivot") -> In (word v "autotranspose") transpose_names ->
  on v "uniqueDiv" = true -> ~ mentions (lit "random") (word v "stdPivot") -> ~ mentions (lit "random") (word v "genPivot") ->
  read_square_free (w_max w) (input_format i file) file = Ok (names, gens) ->
  exists chi k, Spec_Euler.is_euler (length names) (action_faces (on v "swap01") gens) chi /\
    forall fuel, k <= fuel -> frobby (with_fuel w fuel) args file = Ok (line_with chi).
Proof.
  intros C I H1 H2 H3 H4 H5 H6 H7 R.
  destruct (C85_euler_steady (EO (w_max w) i (word v "pivot") (word v "stdPivot") (word v "genPivot") (word v "autotranspose")
    (on v "uniqueDiv") (on v "manyDiv") (on v "impliedDiv") (on v "swap01") (w_word w) (w_rands w) (w_tries w)) file names gens) as (chi & k & A & B); auto.
  { split; auto. }
  exists chi, k. split; auto. intros fuel Hf. rewrite (p_euler (with_fuel w fuel) args v i file C I). exact (B fuel Hf).
Qed.

Theorem e_canonical a w1 w2 args1 args2 v1 v2 i1 i2 o1 o2 file1 file2 names1 names2 gens1 gens2 : In a slice_actions ->
  command args1 a v1 -> command args2 a v2 -> on v1 "canon" = true -> on v2 "canon" = true ->
  (a = "irrdecom"%string -> on v1 "encode" = on v2 "encode") -> (a = "maxstandard"%string -> on v1 "increment" = on v2 "increment") ->
  input_choice v1 i1 -> output_choice v1 o1 -> split_choice v1 -> input_choice v2 i2 -> output_choice v2 o2 -> split_choice v2 ->
  output_format i1 o1 file1 = output_format i2 o2 file2 ->
  reads_as w1 v1 i1 file1 names1 gens1 -> reads_as w2 v2 i2 file2 names2 gens2 -> same_input names1 gens1 names2 gens2 ->
  frobby w1 args1 file1 = frobby w2 args2 file2.
Proof.
  intros Ha C1 C2 K1 K2 E1 E2 I1 O1 S1 I2 O2 S2 F R1 R2 SI.
  assert (Q : forall c1 c2, legal_config c1 -> legal_config c2 -> _) by
    exact (fun c1 c2 L1 L2 => C79_canonical (slice_opts w1 v1 i1 o1 c1) (slice_opts w2 v2 i2 o2 c2) file1 file2 names1 names2 gens1 gens2 K1 K2 F SI
      (reads_input w1 v1 i1 o1 c1 file1 names1 gens1 R1 L1) (reads_input w2 v2 i2 o2 c2 file2 names2 gens2 R2 L2)).
  unfold slice_actions in Ha. cbn [In] in Ha. destruct Ha as [<-|[<-|[<-|[<-|[<-|[]]]]]].
  - destruct (p_irrdecom w1 args1 v1 i1 o1 file1 C1 I1 O1 S1) as (c1 & L1 & _ & _ & ->), (p_irrdecom w2 args2 v2 i2 o2 file2 C2 I2 O2 S2) as (c2 & L2 & _ & _ & ->).
    rewrite (E1 eq_refl). now apply Q.
  - destruct (p_primdecom w1 args1 v1 i1 o1 file1 C1 I1 O1 S1) as (c1 & L1 & _ & _ & ->), (p_primdecom w2 args2 v2 i2 o2 file2 C2 I2 O2 S2) as (c2 & L2 & _ & _ & ->). now apply Q.
  - destruct (p_alexdual w1 args1 v1 i1 o1 file1 C1 I1 O1 S1) as (c1 & L1 & _ & _ & ->), (p_alexdual w2 args2 v2 i2 o2 file2 C2 I2 O2 S2) as (c2 & L2 & _ & _ & ->). now apply Q.
  - destruct (p_assoprimes w1 args1 v1 i1 o1 file1 C1 I1 O1 S1) as (c1 & L1 & _ & _ & ->), (p_assoprimes w2 args2 v2 i2 o2 file2 C2 I2 O2 S2) as (c2 & L2 & _ & _ & ->). now apply Q.
  - destruct (p_maxstandard w1 args1 v1 i1 o1 file1 C1 I1 O1 S1) as (c1 & L1 & _ & _ & ->), (p_maxstandard w2 args2 v2 i2 o2 file2 C2 I2 O2 S2) as (c2 & L2 & _ & _ & ->).
    rewrite (E2 eq_refl). now apply Q.
Qed.
(** ** Some outcome *)
Lemma choice_or_unknown other name : modelled_format name -> (exists f, format_choice other name f) \/ unknown_format other name.
Proof.
  intros M. destruct (str_dec name (lit other)) as [->|N]; [left; exists None; reflexivity|].
  pose proof (created_spec formatFactory name format_nodup) as H. rewrite format_factory in H. destruct (created_with_prefix formatFactory name) as [g| | | | |]; try destruct H.
  - left. destruct H as [A B]. apply M in A as Hx. apply in_map_iff in Hx. destruct Hx as [[y f] [Ey Hy]]. cbn in Ey. subst y. exists (Some f). exists x. auto.
  - right. split; auto.
Qed.
Lemma split_or_unknown v : plain_split v -> split_choice v \/ unknown_split v.
Proof.
  intros P. pose proof (created_spec splitFactory (word v "split") split_nodup) as H. rewrite split_factory in H. destruct (created_with_prefix splitFactory (word v "split")) as [g| | | | |]; try destruct H.
  - destruct H as [A B]. destruct (in_dec str_dec x degree_names) as [D|D]; [right; left; rewrite (P x A D); exact D|left; exists x; auto].
  - right. right. auto.
Qed.
Lemma same_outcome_reports {A B} (r : res A) (s : res B) : same_outcome r s -> reports s.
Proof. destruct r, s; cbn; auto. Qed.
Lemma list_outcome_reports {A B} f (r : res A) (s : res B) : list_outcome f r s -> reports s.
Proof. intros [H1 H2]. destruct (has_lists f) eqn:E; [eapply same_outcome_reports; apply H1; now apply has_list|]. rewrite H2; [exact I|]. intros H. apply has_list in H. congruence. Qed.
Theorem e_reports w args a v file : command args a v -> In a slice_actions -> on v "minimal" = false ->
  modelled_format (word v "iformat") -> modelled_format (word v "oformat") -> plain_split v -> reports (frobby w args file).
Proof.
  intros C Ha M F1 F2 P. destruct (choice_or_unknown "autodetect" _ F1) as [[i I]|U].
  2:{ rewrite (p_unknown_input w args a v file C); [exact Logic.I| | |auto]; unfold slice_actions in Ha; cbn [In] in Ha |- *; [intuition congruence|intros ->; intuition discriminate]. }
  destruct (choice_or_unknown "input" _ F2) as [[o O]|U].
  2:{ rewrite (p_unknown_output w args a v file C); [exact Logic.I| | |auto]; [apply in_app_iff; auto|exists i; exact I]. }
  destruct (split_or_unknown v P) as [S|U]; [|rewrite (p_unknown_split w args a v file C Ha U); exact Logic.I].
  assert (Q : forall c, legal_config c -> _) by exact (fun c L => C80_errors (slice_opts w v i o c) file L M).
  unfold slice_actions in Ha. cbn [In] in Ha. destruct Ha as [<-|[<-|[<-|[<-|[<-|[]]]]]].
  - destruct (p_irrdecom w args v i o file C I O S) as (c & L & _ & _ & ->). destruct (on v "encode"); [eapply same_outcome_reports|eapply list_outcome_reports]; apply (Q c L).
  - destruct (p_primdecom w args v i o file C I O S) as (c & L & _ & _ & ->). eapply list_outcome_reports. apply (Q c L).
  - destruct (p_alexdual w args v i o file C I O S) as (c & L & _ & _ & ->). destruct (Q c L) as (_ & _ & _ & _ & _ & H). specialize (H (w_rand w)).
    destruct (read_dual _ _ _) as [[J [pt|]]| | | | |]; [destruct H as [[out ->]| ->]; exact Logic.I|destruct H as [out ->]; exact Logic.I|eapply same_outcome_reports; exact H..].
  - destruct (p_assoprimes w args v i o file C I O S) as (c & L & _ & _ & ->). eapply list_outcome_reports. apply (Q c L).
  - destruct (p_maxstandard w args v i o file C I O S) as (c & L & _ & _ & ->). eapply list_outcome_reports. apply (Q c L).
Qed.
Theorem e_reports_more w args a v file : command args a v ->
  (a = "dimension"%string /\ (on v "useSlice" = true \/ (on v "squareFreeAndMinimal" = false /\ modelled_format (word v "iformat")))) \/
  (a = "optimize"%string /\ on v "minimal" = false /\ modelled_format (word v "iformat") /\ modelled_format (word v "oformat")) \/
  (a = "analyze"%string /\ modelled_format (word v "iformat") /\ modelled_format (word v "oformat")) ->
  reports (frobby w args file).
Proof.
  intros C [[-> H]|[[-> [M [F1 F2]]]|[-> [F1 F2]]]].
  - destruct (on v "useSlice") eqn:U.
    + rewrite (p_dimension_slice w args v file C U).
      pose proof (C84_errors (DO (w_max w) None (on v "codim") (on v "squareFreeAndMinimal") true) (w_rand w) file (or_introl eq_refl)) as E.
      destruct (read_ideal _ _ _); [destruct E as [d ->]| | | | |]; try rewrite E; try exact Logic.I; destruct E.
    + destruct H as [H|[SQ F1]]; [discriminate|]. destruct (choice_or_unknown "autodetect" _ F1) as [[i I]|X]; [|rewrite (p_unknown_input w args "dimension" v file C); auto; [exact Logic.I|cbn [In]; intuition discriminate]].
      rewrite (p_dimension w args v i file C I), U.
      pose proof (C84_errors (DO (w_max w) i (on v "codim") (on v "squareFreeAndMinimal") false) (w_rand w) file (or_intror SQ)) as E.
      destruct (read_ideal _ _ _); [destruct E as [d ->]| | | | |]; try rewrite E; try exact Logic.I; destruct E.
  - destruct (choice_or_unknown "autodetect" _ F1) as [[i I]|X]; [|rewrite (p_unknown_input w args "optimize" v file C); auto; [exact Logic.I|cbn [In]; intuition discriminate|discriminate]].
    destruct (choice_or_unknown "input" _ F2) as [[o O]|X]; [|rewrite (p_unknown_output w args "optimize" v file C); auto; [exact Logic.I|cbn; tauto|exists i; exact I]].
    pose proof (slice_oparams_spec (on v "simplify") (on v "boundSimplify") true (word v "split")) as S.
    destruct (slice_oparams (on v "simplify") (on v "boundSimplify") true (word v "split")) as [q| | | | |] eqn:Q; try destruct S.
    + destruct H0 as (_ & _ & _ & S). destruct (p_optimize w args v i o file C I O S) as (q' & L & _ & _ & _ & ->).
      match goal with |- reports (optimize_print ?oo ?r ?f) => pose proof (C83_errors oo r f L M) as E end.
      destruct (read_optimize _ _ _); [destruct E as [d ->]| | | | |]; try rewrite E; try exact Logic.I; destruct E.
    + the_action C w file p R. unfold optimize_perform. values. rewrite Q. exact Logic.I.
  - destruct (choice_or_unknown "autodetect" _ F1) as [[i I]|X]; [|rewrite (p_unknown_input w args "analyze" v file C); auto; [exact Logic.I|cbn [In]; intuition discriminate|discriminate]].
    destruct (choice_or_unknown "input" _ F2) as [[o O]|X]; [|rewrite (p_unknown_output w args "analyze" v file C); auto; [exact Logic.I|cbn; tauto|exists i; exact I]].
    rewrite (p_analyze w args v i o file C I O). match goal with |- reports (analyze_action ?oo ?f) => pose proof (T_Analyze.C81_errors oo f) as E end.
    destruct (read_ideal _ _ _); [destruct E as [d ->]| | | | |]; try rewrite E; try exact Logic.I; destruct E.
Qed.
