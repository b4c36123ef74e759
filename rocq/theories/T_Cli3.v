(** Properties C87 to C90: the action that computes Hilbert-Poincare series, from the text of the input to the text of the output, and the
    names of the strategies. *)
From Coq Require Import String Ascii.
From Coq Require Import List Arith Bool ZArith Lia Sorted Permutation.
Import ListNotations.
From Verif Require Import M_Term M_Ideal M_Slice M_Msm M_Names M_IO Spec_IO M_Hilbert M_Opt M_Poly M_IOPoly M_Bigatti M_Orderer M_Cli M_Cli2 M_Cli3 Spec_Names Spec_Slice Spec_Run Spec_Opt Spec_Poly Spec_IOPoly Spec_Bigatti Spec_Scarf Spec_Hilbert.
From Verif Require Import P_Cli12 P_Cli13.
From Verif Require Import Spec Spec_Api Spec_Cli Spec_Cli3.
Local Open Scope list_scope.
Local Notation length := List.length.
Local Notation descending := Spec_Hilbert.descending.
Local Notation "$ s" := (list_ascii_of_string s%string) (at level 0, s at level 0, only parsing).

(** ** C87: what is printed is the numerator of the Hilbert-Poincare series of the ideal in the input, whatever the algorithm, the strategies,
    the orders and the random choices.  What is missing: the weak deformation is only covered under the condition of C68, and the multigraded
    numerator in the CoCoA 4 format only if it can be read back, see C72. *)
Theorem C87_multigraded_partial : forall o e file names gens, hilbert_choice o -> rearranging e -> polynomial_format (ho_output o file) ->
  hilbert_input o file names gens -> deformable o names gens -> ho_univariate o = false ->
  exists names' gens' steps, output_ring (ho_canon o) names gens names' gens' /\ forall fuel, steps <= fuel -> exists p out,
    hilbert_action o (with_steps e fuel) file = Ok out /\
    normal_poly (length names') p /\ multigraded_numerator (length names') gens' p /\ (ho_canon o = true -> descending_terms p) /\
    (cocoa_readable (ho_output o file) p -> shows_polynomial (ho_max o) (ho_output o file) names' (received p) out).
Proof. exact p_hilbert_multi. Qed.
Print Assumptions C87_multigraded_partial.
Theorem C87_univariate_partial : forall o e file names gens, hilbert_choice o -> rearranging e -> polynomial_format (ho_output o file) ->
  hilbert_input o file names gens -> deformable o names gens -> ho_univariate o = true ->
  exists steps, forall fuel, steps <= fuel -> exists q out,
    hilbert_action o (with_steps e fuel) file = Ok out /\
    normal_poly 1 (uni_poly q) /\ univariate_numerator (length names) gens q /\ (ho_canon o = true -> descending q) /\
    shows_polynomial (ho_max o) (ho_output o file) [$"t"] (received (uni_poly q)) out.
Proof. exact p_hilbert_uni. Qed.
Print Assumptions C87_univariate_partial.

(** ** C88: with the option -canon the text that is printed depends only on the ideal, on the output format and on which of the two series
    is asked for: not on the algorithm, the strategies, the random choices, the input format, the generators or the order of the variables. *)
Theorem C88_canonical_text_partial : forall o1 o2 e1 e2 file1 file2 names1 names2 gens1 gens2,
  hilbert_choice o1 -> hilbert_choice o2 -> rearranging e1 -> rearranging e2 ->
  hilbert_input o1 file1 names1 gens1 -> hilbert_input o2 file2 names2 gens2 -> deformable o1 names1 gens1 -> deformable o2 names2 gens2 ->
  same_input names1 gens1 names2 gens2 -> polynomial_format (ho_output o1 file1) -> ho_output o2 file2 = ho_output o1 file1 ->
  ho_univariate o2 = ho_univariate o1 -> ho_canon o1 = true -> ho_canon o2 = true ->
  exists steps out, forall fuel1 fuel2, steps <= fuel1 -> steps <= fuel2 ->
    hilbert_action o1 (with_steps e1 fuel1) file1 = Ok out /\ hilbert_action o2 (with_steps e2 fuel2) file2 = Ok out.
Proof. exact p_hilbert_same. Qed.
Print Assumptions C88_canonical_text_partial.

(** ** C89: options that name no algorithm or no strategy are reported, whatever the input, and so is an output format without polynomials;
    with good options every text is either computed on or reported as when it is read. *)
Theorem C89_refused : forall o e file, ~ hilbert_choice o -> ~ degree_abbreviated o -> hilbert_action o e file = OtherError.
Proof. exact p_hilbert_refused. Qed.
Print Assumptions C89_refused.
Theorem C89_format : forall o e file, hilbert_choice o -> ~ polynomial_format (ho_output o file) -> hilbert_action o e file = OtherError.
Proof. exact p_hilbert_format. Qed.
Print Assumptions C89_format.
Theorem C89_outcome : forall o e file, hilbert_choice o -> rearranging e -> polynomial_format (ho_output o file) -> ho_minimal o = false ->
  (ho_algorithm o = $"deform" -> ho_strong o = true) ->
  exists steps, forall fuel, steps <= fuel ->
    same_outcome (read_ideal (ho_max o) (ho_input o file) file) (hilbert_action o (with_steps e fuel) file).
Proof. exact p_hilbert_outcome. Qed.
Print Assumptions C89_outcome.

(** ** C90: a strategy is chosen by its name or by a prefix of no other name; then it can be used with every input, and else the name is
    reported.  Without a grading the names degree and frob are refused. *)
Theorem C90_split_names : forall allowLabel indep simp p, match slice_config allowLabel indep simp p with
  | Ok c => exists x, abbreviates split_names p x /\ ~ In p degree_names /\ (In x label_names -> allowLabel = true) /\ c_indep c = indep /\ c_simp c = simp /\
      if in_dec str_dec x degree_names then c_split c = PivotSplit degree_pivot else legal_config c /\ (~ In x label_names -> legal_hilbert_config c)
  | OtherError => (forall x, ~ abbreviates split_names p x) \/ (allowLabel = false /\ exists x, abbreviates split_names p x /\ In x label_names) \/ In p degree_names
  | _ => False
  end.
Proof. exact slice_config_spec. Qed.
Print Assumptions C90_split_names.
Theorem C90_graded_split_names : forall simp elim bsimp p, match slice_oparams simp elim bsimp p with
  | Ok q => legal_oparams q /\ op_simp q = simp /\ op_elim q = elim /\ op_bsimp q = bsimp /\ exists x, abbreviates split_names p x
  | OtherError => forall x, ~ abbreviates split_names p x
  | _ => False
  end.
Proof. exact slice_oparams_spec. Qed.
Print Assumptions C90_graded_split_names.
Theorem C90_pivot_names : forall p widen, match createPivot p widen with
  | Ok pv => (exists x, abbreviates pivot_names p x) /\ forall n, progressing_pivot n pv
  | OtherError => forall x, ~ abbreviates pivot_names p x
  | _ => False
  end.
Proof. exact createPivot_spec. Qed.
Print Assumptions C90_pivot_names.
Theorem C90_order_names : forall name, match createOrder name with Ok _ => is_order name | OtherError => ~ is_order name | _ => False end.
Proof. exact createOrder_spec. Qed.
Print Assumptions C90_order_names.

(** ** Examples *)
Definition ex_machine : machine := Machine (fun k => k) (fun _ l => rev l) (fun _ l => rev l) (fun _ l => rev l) (fun _ l => l) 1000.
Definition ex_opts (canon uni : bool) (algorithm split : str) : hilbert_options :=
  HO 1000 None None canon false uni algorithm split false true true false $"tdeg_revlex" $"rand" true.
Definition ex_file : text := $"R = QQ[b, a];" ++ nl :: $"I = monomialIdeal(" ++ nl :: $" b^2*a," ++ nl :: $" a^3" ++ nl :: $");" ++ [nl].
Example ex_input : forall canon uni algorithm split, hilbert_input (ex_opts canon uni algorithm split) ex_file [$"b"; $"a"] [[2; 1]; [0; 3]].
Proof. intros. split; [vm_compute; reflexivity|discriminate]. Qed.
Example ex_choices : forall canon uni, hilbert_choice (ex_opts canon uni $"bigatti" $"med") /\ hilbert_choice (ex_opts canon uni $"slice" $"med") /\
  hilbert_choice (ex_opts canon uni $"deform" $"") /\ rearranging ex_machine.
Proof.
  intros canon uni. split; [|split; [|split]].
  - left. split; [reflexivity|]. exists $"median". split; [left; reflexivity|]. right. split; [exists $"ian"; reflexivity|].
    intros y Hy [w Hw]. cbn in Hy. repeat destruct Hy as [Hy|Hy]; try contradiction; subst y; try reflexivity; discriminate Hw.
  - right. left. split; [reflexivity|]. exists $"median". split; [|split; intros Hy; cbn in Hy; repeat destruct Hy as [Hy|Hy]; try contradiction; discriminate Hy].
    split; [cbn; auto 9|]. right. split; [exists $"ian"; reflexivity|].
    intros y Hy [w Hw]. cbn in Hy. repeat destruct Hy as [Hy|Hy]; try contradiction; subst y; try reflexivity; discriminate Hw.
  - right. right. split; [reflexivity|]. split.
    + generalize (createOrder_spec $"tdeg_revlex"). cbn [ho_enum ex_opts]. destruct (createOrder $"tdeg_revlex") eqn:E; intros H; try exact H; vm_compute in E; discriminate E.
    + generalize (createOrder_spec $"rand"). cbn [ho_deform ex_opts]. destruct (createOrder $"rand") eqn:E; intros H; try exact H; vm_compute in E; discriminate E.
  - repeat split; intros k l; cbn; try (symmetry; apply Permutation_rev); reflexivity.
Qed.
Example C87_ex :
  let out := $"R = QQ[a, b];" ++ nl :: $"p =" ++ nl :: $" a^3*b^2 +" ++ nl :: $" -a^3 +" ++ nl :: $" -a*b^2 +" ++ nl :: $" 1;" ++ [nl] in
  let out1 := $"R = QQ[t];" ++ nl :: $"p =" ++ nl :: $" t^5 +" ++ nl :: $" -2*t^3 +" ++ nl :: $" 1;" ++ [nl] in
  hilbert_action (ex_opts true false $"bigatti" $"med") ex_machine ex_file = Ok out /\
  hilbert_action (ex_opts true false $"slice" $"med") ex_machine ex_file = Ok out /\
  hilbert_action (ex_opts true false $"deform" $"") ex_machine ex_file = Ok out /\
  hilbert_action (ex_opts true true $"bigatti" $"med") ex_machine ex_file = Ok out1 /\
  hilbert_action (ex_opts true true $"slice" $"med") ex_machine ex_file = Ok out1 /\
  hilbert_action (ex_opts true true $"deform" $"") ex_machine ex_file = Ok out1.
Proof. vm_compute. repeat split. Qed.
Definition ex_file2 : text := $"vars a, b; [a^3*b, a*b^2, a^3];".
Example C88_ex : let o1 := ex_opts true false $"bigatti" $"med" in
  let o2 := HO 1000 None (Some M2) true false false $"deform" $"" false true true false $"tdeg_revlex" $"rand" true in
  hilbert_input o1 ex_file [$"b"; $"a"] [[2; 1]; [0; 3]] /\ hilbert_input o2 ex_file2 [$"a"; $"b"] [[3; 1]; [1; 2]; [3; 0]] /\
  same_input [$"b"; $"a"] [[2; 1]; [0; 3]] [$"a"; $"b"] [[3; 1]; [1; 2]; [3; 0]] /\
  deformable o1 [$"b"; $"a"] [[2; 1]; [0; 3]] /\ deformable o2 [$"a"; $"b"] [[3; 1]; [1; 2]; [3; 0]] /\
  polynomial_format (ho_output o1 ex_file) /\ ho_output o2 ex_file2 = ho_output o1 ex_file /\
  hilbert_action o2 ex_machine ex_file2 = hilbert_action o1 ex_machine ex_file.
Proof.
  intros o1 o2. split; [apply ex_input|]. split; [split; [vm_compute; reflexivity|discriminate]|]. split; [|repeat split; try discriminate; vm_compute; auto 9].
  split; [apply perm_swap|]. intros m m' L [L' H]. destruct m as [|a [|b [|c m]]]; try discriminate L. destruct m' as [|a' [|b' [|c' m']]]; try discriminate L'.
  pose proof (H $"a") as HY. pose proof (H $"b") as HZ. vm_compute in HY, HZ. subst a' b'. split.
  - intros [g [G D]]. destruct G as [<-|[<-|[]]]; inversion D as [|? ? ? ? D1 D2]; inversion D2; subst; [exists [1; 2]|exists [3; 0]]; (split; [cbn; tauto|repeat constructor; auto; lia]).
  - intros [g [G D]]. destruct G as [<-|[<-|[<-|[]]]]; inversion D as [|? ? ? ? D1 D2]; inversion D2; subst; [exists [0; 3]|exists [2; 1]|exists [0; 3]]; (split; [cbn; tauto|repeat constructor; auto; lia]).
Qed.
Example C89_ex : ~ hilbert_choice (ex_opts true false $"slice" $"m") /\ ~ degree_abbreviated (ex_opts true false $"slice" $"m") /\
  hilbert_action (ex_opts true false $"slice" $"m") ex_machine ex_file = OtherError /\
  hilbert_action (ex_opts true false $"slice" $"maxl") ex_machine ex_file = OtherError /\
  hilbert_action (ex_opts true false $"slice" $"degree") ex_machine ex_file = OtherError /\
  hilbert_action (ex_opts true false $"bigatt" $"median") ex_machine ex_file = OtherError.
Proof.
  assert (forall x, ~ abbreviates split_names $"m" x) as A.
  { intros x [H1 [H2|[H2 H3]]].
    - subst x. cbn in H1. repeat destruct H1 as [H1|H1]; try contradiction; discriminate H1.
    - assert ($"median" = x) as E1 by (apply H3; [cbn; auto 9|exists $"edian"; reflexivity]).
      assert ($"minimum" = x) as E2 by (apply H3; [cbn; auto 9|exists $"inimum"; reflexivity]). subst x. discriminate E2. }
  split; [|split; [|vm_compute; auto]].
  - intros [[H _]|[[_ [x [H _]]]|[H _]]]; [discriminate H|exact (A x H)|discriminate H].
  - intros [_ [x [H _]]]. exact (A x H).
Qed.
Example C90_ex : createOrder $"revx" = OtherError /\ createOrder $"" = OtherError /\ createPivot $"typ" true = OtherError /\ slice_config false true true $"" = OtherError /\
  (exists c, slice_config true true true $"maxl" = Ok c) /\ (exists q, slice_oparams true true true $"frob" = Ok q).
Proof. repeat split; try (vm_compute; reflexivity); eexists; vm_compute; reflexivity. Qed.

(** F26: an abbreviation of a name that needs a grading is accepted without one, and then the computation fails with an internal error. *)
Theorem C90_degree_abbreviation_refuted : exists o e file names gens, rearranging e /\ hilbert_input o file names gens /\ degree_abbreviated o /\
  forall fuel, 5 <= fuel -> hilbert_action o (with_steps e fuel) file = Undefined.
Proof.
  exists (ex_opts true true $"slice" $"deg"), ex_machine, ex_file, [$"b"; $"a"], [[2; 1]; [0; 3]].
  split; [apply (ex_choices true true)|]. split; [apply ex_input|]. split.
  - split; [reflexivity|]. exists $"degree". split; [|split; [left; reflexivity|discriminate]].
    split; [cbn; auto 20|]. right. split; [exists $"ree"; reflexivity|].
    intros y Hy [w Hw]. cbn in Hy. repeat destruct Hy as [Hy|Hy]; try contradiction; subst y; try reflexivity; discriminate Hw.
  - intros fuel H. do 5 (destruct fuel as [|fuel]; [exfalso; lia|]). vm_compute. reflexivity.
Qed.
Print Assumptions C90_degree_abbreviation_refuted.
