(** Each action with its options. *)
From Coq Require Import String Ascii.
From Coq Require Import List Arith Bool ZArith Lia.
Import ListNotations.
From Verif Require Import M_Term M_Msm M_Names M_IO M_Opt M_Cli M_Cli2 M_Cli3 M_Analyze M_Actions M_Frob M_IOPoly M_Transform Spec_Slice Spec_Run Spec_Opt Spec_Hilbert Spec_Names Spec_Cli3 P_Names P_Cli12 M_Main Spec_Main P_Main P_Main2.
Local Open Scope nat_scope.
Local Notation length := List.length.
Lemma slice_options_ok w args a v p i o : reads p v (table a) ->
  (forall x d, In (x, d) decomposition_options -> In (x, d) (table a)) ->
  input_choice v i -> output_choice v o -> split_choice v -> command args a v ->
  exists c, legal_config c /\ c_indep c = on v "independence" /\ c_simp c = on v "simplify" /\
    slice_options w p = Ok (Opts (w_max w) i o (on v "canon") (on v "minimal") c).
Proof.
  intros R0 D I O (x & A & G) C. assert (R : reads p v decomposition_options) by (intros y d H; apply R0, D, H). clear R0 D.
  unfold slice_options.
  repeat match goal with
  | |- context [getBool ?p ?x] => rewrite (read_bool p v decomposition_options x _ R ltac:(in_table)); cbn [rbind]
  | |- context [getString ?p ?x] => rewrite (read_word p v decomposition_options x _ R ltac:(in_table)); cbn [rbind]
  end.
  pose proof (slice_config_spec true (on v "independence") (on v "simplify") (word v "split")) as S.
  destruct (slice_config true (on v "independence") (on v "simplify") (word v "split")) as [c| | | | |]; try destruct S.
  - rename x0 into y. destruct H as (B & _ & _ & S1 & S2 & S3). pose proof (abbreviates_unique _ _ _ _ A B) as <-. destruct (in_dec str_dec x degree_names); [tauto|]. destruct S3 as [S3 _].
    exists c. cbn [rbind]. rewrite (input_choice_ok v i I), (output_choice_ok v o O). auto.
  - exfalso. eapply H; eauto.
  - exfalso. destruct H as [[H _]|H]; [discriminate|]. assert (B : abbreviates split_names (word v "split") (word v "split")).
    { split; auto. destruct H as [<-|[<-|[]]]; vm_compute; tauto. }
    pose proof (abbreviates_unique _ _ _ _ A B) as ->. auto.
Qed.
(** ** The equations *)
Ltac sub_table := let x := fresh in let d := fresh in let H := fresh in intros x d H; revert H; unfold table; cbn; tauto.
Lemma decomposition_sub a : In a ["irrdecom"; "primdecom"; "alexdual"; "assoprimes"; "maxstandard"; "hilbert"]%string ->
  forall x d, In (x, d) decomposition_options -> In (x, d) (table a).
Proof.
  intros Ha x d H. assert (C : forallb (fun a => within_options decomposition_options (table a)) ["irrdecom"; "primdecom"; "alexdual"; "assoprimes"; "maxstandard"; "hilbert"]%string = true) by (vm_compute; reflexivity).
  rewrite forallb_forall in C. exact (within_options_spec _ _ (C a Ha) _ H).
Qed.
Ltac slices C w file i o p R H4 :=
  let c := fresh "c" in let H1 := fresh in let H2 := fresh in let H3 := fresh in
  match type of C with command ?args ?a ?v =>
    the_action C w file p R;
    destruct (slice_options_ok w args a v p i o R (decomposition_sub a ltac:(cbn; tauto))) as (c & H1 & H2 & H3 & H4); auto;
    exists c; split; [exact H1|]; split; [exact H2|]; split; [exact H3|]
  end.
Lemma p_irrdecom w args v i o file : command args "irrdecom" v -> input_choice v i -> output_choice v o -> split_choice v ->
  exists c, legal_config c /\ c_indep c = on v "independence" /\ c_simp c = on v "simplify" /\
    frobby w args file = irrdecom_action (slice_opts w v i o c) (on v "encode") (w_rand w) file.
Proof. intros C I O S. slices C w file i o p R HS. unfold irrdecom_perform. rewrite HS. cbn [rbind]. values. reflexivity. Qed.
Lemma p_primdecom w args v i o file : command args "primdecom" v -> input_choice v i -> output_choice v o -> split_choice v ->
  exists c, legal_config c /\ c_indep c = on v "independence" /\ c_simp c = on v "simplify" /\
    frobby w args file = primdecom_action (slice_opts w v i o c) (w_rands w) file.
Proof. intros C I O S. slices C w file i o p R HS. unfold primdecom_perform. rewrite HS. reflexivity. Qed.
Lemma p_alexdual w args v i o file : command args "alexdual" v -> input_choice v i -> output_choice v o -> split_choice v ->
  exists c, legal_config c /\ c_indep c = on v "independence" /\ c_simp c = on v "simplify" /\
    frobby w args file = alexdual_action (slice_opts w v i o c) (w_rand w) file.
Proof. intros C I O S. slices C w file i o p R HS. unfold alexdual_perform. rewrite HS. reflexivity. Qed.
Lemma p_assoprimes w args v i o file : command args "assoprimes" v -> input_choice v i -> output_choice v o -> split_choice v ->
  exists c, legal_config c /\ c_indep c = on v "independence" /\ c_simp c = on v "simplify" /\
    frobby w args file = assoprimes_action (slice_opts w v i o c) (w_rand w) file.
Proof. intros C I O S. slices C w file i o p R HS. unfold assoprimes_perform. rewrite HS. reflexivity. Qed.
Lemma p_maxstandard w args v i o file : command args "maxstandard" v -> input_choice v i -> output_choice v o -> split_choice v ->
  exists c, legal_config c /\ c_indep c = on v "independence" /\ c_simp c = on v "simplify" /\
    frobby w args file = maxstandard_action (slice_opts w v i o c) (on v "increment") (w_rand w) file.
Proof. intros C I O S. slices C w file i o p R HS. unfold maxstandard_perform. rewrite HS. cbn [rbind]. values. reflexivity. Qed.
Lemma p_dimension w args v i file : command args "dimension" v -> input_choice v i ->
  frobby w args file = dimension_action (DO (w_max w) (if on v "useSlice" then None else i) (on v "codim") (on v "squareFreeAndMinimal") (on v "useSlice")) (w_rand w) file.
Proof.
  intros C I. the_action C w file p R. unfold dimension_perform. values. rewrite (input_choice_ok v i I). cbn [rbind]. destruct (on v "useSlice"); reflexivity.
Qed.
Lemma p_dimension_slice w args v file : command args "dimension" v -> on v "useSlice" = true ->
  frobby w args file = dimension_action (DO (w_max w) None (on v "codim") (on v "squareFreeAndMinimal") true) (w_rand w) file.
Proof. intros C S. the_action C w file p R. unfold dimension_perform. values. rewrite S. reflexivity. Qed.
Lemma p_optimize w args v i o file : command args "optimize" v -> input_choice v i -> output_choice v o -> (exists x, abbreviates split_names (word v "split") x) ->
  exists q, legal_oparams q /\ op_simp q = on v "simplify" /\ op_elim q = on v "boundSimplify" /\ op_bsimp q = true /\
    frobby w args file = optimize_print (OO (w_max w) i o (on v "canon") (on v "minimal") q (on v "displayValue")
      (mkOo (amount v "displayLevel") (on v "maxStandard") (on v "chopFirstAndSubtract") (on v "minValue"))) (w_rand w) file.
Proof.
  intros C I O [x A]. the_action C w file p R. unfold optimize_perform. values. rewrite (input_choice_ok v i I), (output_choice_ok v o O).
  pose proof (slice_oparams_spec (on v "simplify") (on v "boundSimplify") true (word v "split")) as S.
  destruct (slice_oparams _ _ _ _) as [q| | | | |]; try destruct S; [|exfalso; eapply S; eauto].
  exists q. destruct H3 as (S2 & S3 & S4 & _). auto.
Qed.
Lemma p_hilbert w args v i o file : command args "hilbert" v -> input_choice v i -> output_choice v o ->
  frobby w args file = hilbert_action (hilbert_opts w v i o) (w_machine w) file.
Proof. intros C I O. the_action C w file p R. unfold hilbert_perform. values. rewrite (input_choice_ok v i I), (output_choice_ok v o O). reflexivity. Qed.
Lemma p_euler w args v i file : command args "euler" v -> input_choice v i ->
  frobby w args file = euler_print (EO (w_max w) i (word v "pivot") (word v "stdPivot") (word v "genPivot") (word v "autotranspose")
    (on v "uniqueDiv") (on v "manyDiv") (on v "impliedDiv") (on v "swap01") (w_word w) (w_rands w) (w_tries w)) (m_fuel (w_machine w)) file.
Proof. intros C I. the_action C w file p R. unfold euler_perform. values. rewrite (input_choice_ok v i I). reflexivity. Qed.
Lemma p_analyze w args v i o file : command args "analyze" v -> input_choice v i -> output_choice v o ->
  frobby w args file = analyze_action (AO (w_max w) i o (amount v "summaryLevel") (on v "lcm") (on v "varCount") (on v "genCount") (on v "maxExp") (on v "minimal")) file.
Proof. intros C I O. the_action C w file p R. unfold analyze_perform. values. rewrite (input_choice_ok v i I), (output_choice_ok v o O). reflexivity. Qed.
Lemma p_intersection w args v i o file : command args "intersection" v -> input_choice v i -> output_choice v o ->
  frobby w args file = intersection_action (w_max w) (input_format i file) (output_format i o file) (on v "canon") file.
Proof. intros C I O. the_action C w file p R. unfold intersection_perform, both_formats. values. rewrite (input_choice_ok v i I), (output_choice_ok v o O). reflexivity. Qed.
Lemma p_transform w args v i o file : command args "transform" v -> input_choice v i -> output_choice v o ->
  frobby w args file = transform_action (w_max w) (input_format i file) (output_format i o file)
    {| M_Transform.o_canon := on v "canon"; o_sort := on v "sort"; o_unique := on v "unique"; o_minimize := on v "minimize"; o_deform := on v "deform";
       o_radical := on v "radical"; o_product := on v "product"; o_addPurePowers := on v "addPurePowers"; o_trimVariables := on v "trimVariables";
       o_transpose := on v "transpose"; o_swap01 := on v "swap01"; o_projectVar := amount v "projectVar" |} file.
Proof. intros C I O. the_action C w file p R. unfold transform_perform, both_formats. values. rewrite (input_choice_ok v i I), (output_choice_ok v o O). reflexivity. Qed.
Lemma p_ptransform w args v i o file : command args "ptransform" v -> input_choice v i -> output_choice v o ->
  frobby w args file = ptransform (w_max w) (on v "canon") (on v "sort") i o file.
Proof. intros C I O. the_action C w file p R. unfold ptransform_perform. values. rewrite (input_choice_ok v i I), (output_choice_ok v o O). reflexivity. Qed.
Lemma p_frobdyn w args v file : command args "frobdyn" v -> frobby w args file = frobdyn (m_fuel (w_machine w)) (w_max_int w) file.
Proof. intros C. the_action C w file p R. reflexivity. Qed.
