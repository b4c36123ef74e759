(** Properties C17, C18, C20 and C21 (remaining functions), C26 (degree strategy), C46, C48, C49: optimization. *)
From Coq Require Import List Arith ZArith Lia Permutation.
Import ListNotations.
From Verif Require Import Spec Spec_Slice Spec_Run Spec_Api Spec_Hilbert Spec_Dim M_Term M_Ideal M_Slice M_Msm M_Api M_Hilbert M_Dim M_Opt Spec_Opt P_Opt7 P_Opt8 P_Opt9 P_Indep2 T_Slice T_Api T_Hilbert.

(** ** C17: for every legal strategy, every use of bounds and every value of rand() *)
Theorem C17_standard_program : forall p rnd n I l, legal_oparams p -> in_ring n I -> length l = n ->
  ((exists m, optimal (max_standard n I) l m /\ api_solveStandard p rnd n I l = Some (true, block n [m])) \/
   ((forall m, ~ max_standard n I m) /\ api_solveStandard p rnd n I l = Some (false, block n []))).
Proof. exact p_solveStandard. Qed.
Print Assumptions C17_standard_program.

Lemma default_oparams_legal : legal_oparams default_oparams.
Proof. exact (proj1 (proj2 C26_strategies_legal)). Qed.

Definition opt3 : list mono := [[4;0;0];[0;4;0];[0;0;4];[2;1;0];[0;2;1];[1;0;2];[1;1;1]].
Example C17_nonvacuous : legal_oparams default_oparams /\ legal_oparams (mkOp false DegreeSplit true false) /\ in_ring 3 opt3 /\
  api_solveStandard default_oparams no_random 3 opt3 [1;1;1]%Z = Some (true, block 3 [[1;3;0]]) /\
  api_solveStandard default_oparams no_random 3 opt3 [1;-2;5]%Z = Some (true, block 3 [[0;1;3]]) /\
  api_solveStandard (mkOp false DegreeSplit true false) no_random 3 opt3 [1;-2;5]%Z = Some (true, block 3 [[0;1;3]]) /\
  api_solveStandard default_oparams no_random 3 [[2;0;0];[0;1;1]] [1;1;1]%Z = Some (false, block 3 []) /\
  api_solveStandard default_oparams no_random 0 [] [] = Some (true, block 0 [[]]).
Proof.
  split; [exact default_oparams_legal|]. split; [exact Logic.I|]. split; [repeat constructor|]. repeat split; vm_compute; reflexivity.
Qed.

(** ** C18: the documentation says that nothing is written when there is no solution; the code writes the
    delimiters of an empty list. *)
Theorem C18_refuted : exists n I l evs, in_ring n I /\ length l = n /\ (forall m, ~ max_standard n I m) /\
  api_solveStandard default_oparams no_random n I l = Some (false, evs) /\ evs <> [].
Proof.
  exists 2, [[2;0]], [1;1]%Z, [IdealBegin 2; IdealEnd]. split; [repeat constructor|]. split; [reflexivity|].
  assert (E : api_solveStandard default_oparams no_random 2 [[2;0]] [1;1]%Z = Some (false, [IdealBegin 2; IdealEnd])) by (vm_compute; reflexivity).
  split; [|split; [exact E|discriminate]].
  destruct (C17_standard_program default_oparams no_random 2 [[2;0]] [1;1]%Z default_oparams_legal) as [[m [_ F]]|[H _]]; auto; [repeat constructor|].
  rewrite E in F. discriminate.
Qed.
Print Assumptions C18_refuted.

(** What holds: false is returned, and no monomial is written. *)
Theorem C18_infeasible_partial : forall p rnd n I l, legal_oparams p -> in_ring n I -> length l = n ->
  (forall m, ~ max_standard n I m) -> api_solveStandard p rnd n I l = Some (false, [IdealBegin n; IdealEnd]).
Proof.
  exact (fun p rnd n I l Hp Hr Hl H => match p_solveStandard p rnd n I l Hp Hr Hl with
    | or_introl (ex_intro _ m (conj Ho _)) => False_ind _ (H m (proj1 Ho)) | or_intror (conj _ E) => E end).
Qed.
Print Assumptions C18_infeasible_partial.

(** ** C26: the degree strategy, for the tables of both programs and every vector of weights *)
Theorem C26_degree_strategy : forall n I l (dec : bool) simp rnd k s0 s, length l = n ->
  let tr := if dec then tr_decrement (tr_initialize n I) else tr_initialize n I in
  s_n s0 = n -> valid_slice s0 -> within_ids (getMaxId tr) s0 -> msm_baseCase s0 simp = (s, NotBase) ->
  exists s' p k', graded_degree_pivot (gr_make l tr) rnd k s = Some (s', p, k') /\ same_up_to_order s s' /\ legal_pivot s p.
Proof. exact p_degree_rule. Qed.
Print Assumptions C26_degree_strategy.

(** The hypotheses hold of the slice that a run starts with. *)
Theorem C26_degree_initial : forall n I (dec : bool), in_ring n I ->
  let tr := if dec then tr_decrement (tr_initialize n I) else tr_initialize n I in
  let s0 := msm_initial n (co_ideal (setIdeal false n I)) in
  s_n s0 = n /\ valid_slice s0 /\ within_ids (getMaxId tr) s0.
Proof. exact p_initial_within. Qed.
Print Assumptions C26_degree_initial.

Example C26_degree_nonvacuous :
  let tr := tr_decrement (tr_initialize 3 opt3) in
  exists s, msm_baseCase (msm_initial 3 (co_ideal (setIdeal false 3 opt3))) true = (s, NotBase) /\
  exists s' k', graded_degree_pivot (gr_make [1;-2;5]%Z tr) no_random 0 s = Some (s', [0;0;1], k').
Proof. eexists. split; [vm_compute; reflexivity|]. eexists. eexists. vm_compute. reflexivity. Qed.

(** ** C46 *)
Theorem C46_dimension_by_optimization : forall p rnd n I, legal_oparams p -> (n <> 1 \/ op_simp p = true) -> in_ring n I ->
  sf_computeDimension p rnd (setIdeal false n I) false = api_dimension n I /\
  sf_computeDimension p rnd (setIdeal false n I) true = api_codimension n I.
Proof. exact p_sf_dimension. Qed.
Print Assumptions C46_dimension_by_optimization.

(** With one variable the agreement needs simplification to be on, as it is in the program. *)
Theorem C46_condition_needed : exists p I, legal_oparams p /\ in_ring 1 I /\
  sf_computeDimension p no_random (setIdeal false 1 I) false <> api_dimension 1 I.
Proof.
  exists (mkOp false DegreeSplit true true), []. split; [exact Logic.I|]. split; [constructor|]. vm_compute. discriminate.
Qed.
Print Assumptions C46_condition_needed.

Example C46_nonvacuous :
  sf_computeDimension default_oparams no_random (setIdeal false 4 [[2;1;0;0];[0;3;1;0];[0;0;1;1]]) false = Some 2%Z /\
  sf_computeDimension default_oparams no_random (setIdeal false 4 [[2;1;0;0];[0;3;1;0];[0;0;1;1]]) true = Some 2%Z /\
  sf_computeDimension default_oparams no_random (setIdeal false 3 [[0;0;0]]) false = Some (-1)%Z /\
  sf_computeDimension default_oparams no_random (setIdeal false 3 []) false = Some 3%Z.
Proof. vm_compute. auto. Qed.

(** ** C48: the programs with all solutions requested *)
Theorem C48_standard_program : forall p rnd n I l all, legal_oparams p -> in_ring n I -> length l = n ->
  exists L v, solveStandardProgram p rnd (setIdeal false n I) l all = Some (block n L, v) /\
    optimum_reported (max_standard n I) l L v /\ (all = false -> length L <= 1) /\
    (all = true -> v <> Some 0%Z -> forall m, optimal (max_standard n I) l m -> In m L).
Proof. exact p_standard_program. Qed.
Print Assumptions C48_standard_program.

Theorem C48_decomposition_program : forall p rnd n I l all, legal_oparams p -> in_ring n I -> length l = n ->
  exists L v, solveIrreducibleDecompositionProgram p rnd (setIdeal false n I) l all = Some (block n L, v) /\
    optimum_reported (irreducible_component n I) l L v /\ (all = false -> length L <= 1) /\
    (all = true -> v <> Some 0%Z -> forall m, optimal (irreducible_component n I) l m -> In m L).
Proof. exact p_decomposition_program. Qed.
Print Assumptions C48_decomposition_program.

(** Irreducible components do not depend on the decomposition they are taken from. *)
Theorem C48_components_unique : forall n I D D', irreducible_decomposition n I D -> irreducible_decomposition n I D' ->
  forall c, In c D -> In c D'.
Proof. exact decomposition_unique. Qed.
Print Assumptions C48_components_unique.

(** If the optimal value is 0, optimal solutions can be missing. *)
Theorem C48_all_solutions_refuted : exists n I l L m, in_ring n I /\ length l = n /\
  solveStandardProgram default_oparams no_random (setIdeal false n I) l true = Some (block n L, Some 0%Z) /\
  optimal (max_standard n I) l m /\ ~ In m L.
Proof.
  exists 3, [[2;0;0];[1;1;0];[0;2;0];[0;0;2]], [1;1;-1]%Z, [[0;1;1]], [1;0;1]. split; [repeat constructor|]. split; [reflexivity|].
  assert (E : solveStandardProgram default_oparams no_random (setIdeal false 3 [[2;0;0];[1;1;0];[0;2;0];[0;0;2]]) [1;1;-1]%Z true = Some (block 3 [[0;1;1]], Some 0%Z))
    by (vm_compute; reflexivity).
  split; [exact E|]. split; [|intros [X|[]]; discriminate].
  destruct (C48_standard_program default_oparams no_random 3 [[2;0;0];[1;1;0];[0;2;0];[0;0;2]] [1;1;-1]%Z true default_oparams_legal) as [L [v [F [R _]]]]; auto; [repeat constructor|].
  rewrite E in F. assert (Ev : v = Some 0%Z) by congruence. subst v. assert (EL : block 3 L = block 3 [[0;1;1]]) by congruence.
  destruct L as [|a L]; [discriminate|]. destruct R as [_ [_ R]]. destruct (R a (or_introl eq_refl)) as [[_ Ho] Hv]. split.
  - assert (Hd : forall g : mono, in_ideal [[2;0;0];[1;1;0];[0;2;0];[0;0;2]] g <-> exists h, In h [[2;0;0];[1;1;0];[0;2;0];[0;0;2]] /\ divs h g) by (intros; reflexivity).
    split; [reflexivity|]. split.
    + intros [g [Hg Hdv]]. unfold divs in Hdv. simpl in Hg.
      destruct Hg as [<-|[<-|[<-|[<-|[]]]]]; repeat match goal with H : Forall2 le (_ :: _) _ |- _ => inversion H; subst; clear H end; lia.
    + intros i Hi. destruct i as [|[|[|i]]]; [| | |lia]; [exists [2;0;0]|exists [1;1;0]|exists [0;0;2]]; (split; [simpl; tauto|repeat constructor]).
  - intros m' Hm'. specialize (Ho m' Hm'). rewrite Hv in Ho. exact Ho.
Qed.
Print Assumptions C48_all_solutions_refuted.

Example C48_nonvacuous :
  solveStandardProgram default_oparams no_random (setIdeal false 3 [[2;0;0];[1;1;0];[0;2;0];[0;0;2]]) [1;1;1]%Z true = Some (block 3 [[0;1;1];[1;0;1]], Some 2%Z) /\
  solveIrreducibleDecompositionProgram default_oparams no_random (setIdeal false 2 [[3;0];[1;1];[0;3]]) [1;1]%Z true = Some (block 2 [[1;3];[3;1]], Some 4%Z) /\
  solveIrreducibleDecompositionProgram default_oparams no_random (setIdeal false 2 [[0;0];[1;1]]) [1;1]%Z true = Some (block 2 [], None).
Proof. vm_compute. auto. Qed.

(** ** C49: the optimize action (without removal of a variable, and with it) *)
Theorem C49_optimize_partial : forall p rnd n I v level std (min : bool), legal_oparams p -> in_ring n I -> length v = n ->
  exists L x, optimize_action (mkOo level std false min) p rnd n I v = Some (if level =? 0 then [] else block n L, x) /\
    (level <= 1 -> length L <= 1) /\
    match x with
    | None => L = [] /\ forall m, ~ program_set std n I m
    | Some y => L <> [] /\ NoDup L /\ (forall m, In m L -> program_optimal min (program_set std n I) v m /\ inner_product v m = y) /\
        (2 <= level -> y <> 0%Z -> forall m, program_optimal min (program_set std n I) v m -> In m L)
    end.
Proof. exact p_optimize_core. Qed.
Print Assumptions C49_optimize_partial.

Theorem C49_chop_first : forall p rnd n I w v level std (min : bool) out x,
  optimize_action (mkOo level std false min) p rnd n (drop_first I) v = Some (out, x) ->
  optimize_action (mkOo level std true min) p rnd (S n) I (w :: v) = Some (out, match x with None => None | Some y => Some (y - w)%Z end).
Proof. exact p_optimize_chop. Qed.
Print Assumptions C49_chop_first.

Example C49_nonvacuous : legal_oparams (mkOp true DegreeSplit true true) /\
  optimize_action (mkOo 2 false false true) (mkOp true DegreeSplit true true) no_random 2 [[3;0];[1;1]] [1;1]%Z = Some (block 2 [[1;0]], Some 1%Z) /\
  optimize_action (mkOo 0 false false false) (mkOp true DegreeSplit true true) no_random 2 [[3;0];[1;1]] [1;1]%Z = Some ([], Some 4%Z) /\
  optimize_action (mkOo 2 false true false) (mkOp true DegreeSplit true true) no_random 3 [[1;3;0];[2;1;1];[0;0;3]] [7;1;1]%Z =
    Some (block 2 [[1;3];[3;1]], Some (-3)%Z).
Proof. split; [exact Logic.I|]. vm_compute. auto. Qed.

(** ** C20 and C21 for the functions not covered in T_Api.v *)
Theorem C20_polynomial_protocol : forall c p rnd n I l, legal_hilbert_config c -> legal_oparams p -> in_ring n I -> length l = n ->
  (exists evs, api_multigradedHilbertPoincareSeries c rnd n I = Some evs /\ poly_protocol n false evs) /\
  (exists evs, api_univariateHilbertPoincareSeries c rnd n I = Some evs /\ poly_protocol 1 false evs) /\
  (exists ok evs, api_solveStandard p rnd n I l = Some (ok, evs) /\ protocol n false evs).
Proof. exact p_protocol2. Qed.
Print Assumptions C20_polynomial_protocol.

Theorem C21_series_dimension_optimum : forall c p rnd c' p' rnd' n I I' l, legal_hilbert_config c -> legal_hilbert_config c' ->
  legal_oparams p -> legal_oparams p' -> in_ring n I -> in_ring n I' -> same_ideal n I I' -> length l = n ->
  (exists q q', api_multigradedHilbertPoincareSeries c rnd n I = Some (poly_block n q) /\
     api_multigradedHilbertPoincareSeries c' rnd' n I' = Some (poly_block n q') /\ Permutation q q') /\
  (exists evs, api_univariateHilbertPoincareSeries c rnd n I = Some evs /\ api_univariateHilbertPoincareSeries c' rnd' n I' = Some evs) /\
  (exists d, api_dimension n I = Some d /\ api_dimension n I' = Some d) /\
  (exists d, api_codimension n I = Some d /\ api_codimension n I' = Some d) /\
  ((exists m m', api_solveStandard p rnd n I l = Some (true, block n [m]) /\ api_solveStandard p' rnd' n I' l = Some (true, block n [m']) /\
      inner_product l m = inner_product l m') \/
   (api_solveStandard p rnd n I l = Some (false, block n []) /\ api_solveStandard p' rnd' n I' l = Some (false, block n []))).
Proof. exact p_independent2. Qed.
Print Assumptions C21_series_dimension_optimum.

Example C20_C21_nonvacuous : legal_hilbert_config default_config /\ legal_oparams default_oparams /\ same_ideal 2 [[2;0];[1;1];[5;3]] [[1;1];[1;1];[2;0]] /\ ~ poly_protocol 1 false [PConsume 1 [0%Z]] /\ api_univariateHilbertPoincareSeries default_config no_random 2 [[2;0];[1;1];[5;3]] = api_univariateHilbertPoincareSeries default_config no_random 2 [[1;1];[1;1];[2;0]].
Proof.
  split; [exact hilbert_default_is_legal|]. split; [exact default_oparams_legal|]. split; [exact C21_nonvacuous|]. split; [simpl; intuition discriminate|].
  vm_compute. reflexivity.
Qed.
