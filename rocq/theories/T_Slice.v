(** Properties C05, C06, C25, C26, C27, C28, C29: the slice algorithm. *)
From Coq Require Import List Arith ZArith Permutation Sorted.
Import ListNotations.
From Verif Require Import Spec Spec_Slice Spec_Run M_Term M_Ideal M_Slice M_Partition M_Msm M_Tasks P_Valid P_Tasks T_Ideal.

Definition no_random : nat -> nat := fun k => 7 * k + 3.
Definition ideal1 : list mono := [[0;0;3];[0;2;1];[0;3;0];[1;0;2];[1;1;1];[2;1;0];[3;0;0]].
Lemma ideal1_ok : in_ring 3 ideal1 /\ lists_minimal_generators 3 ideal1 ideal1.
Proof.
  assert (H : in_ring 3 ideal1) by (repeat constructor). split; [exact H|].
  pose proof (proj1 (proj2 (C22_minimize_exact 3 _ H))) as H1.
  replace ideal1 with (simpleMinimize 3 ideal1) at 2 by (vm_compute; reflexivity). exact H1.
Qed.

(** ** C25: the operations on slices neither lose, add nor duplicate content. *)
Theorem C25_initial : forall n I, in_ring n I -> lists_minimal_generators n I I ->
  valid_slice (msm_initial n I) /\ s_n (msm_initial n I) = n /\
  forall d, slice_content (msm_initial n I) d <-> exists m, max_standard n I m /\ d = map S m.
Proof. exact v_initial. Qed.
Print Assumptions C25_initial.

Theorem C25_inner : forall s p s' ch, valid_slice s -> length p = s_n s -> msm_innerSlice s p = (s', ch) ->
  valid_slice s' /\ s_n s' = s_n s /\
  forall d, slice_content s' d <-> slice_content s d /\ divs (mono_mul (s_q s) p) d.
Proof. exact v_inner. Qed.
Print Assumptions C25_inner.

Theorem C25_outer : forall s p, valid_slice s -> length p = s_n s -> (exists i, 0 < nth i p 0) ->
  valid_slice (msm_outerSlice s p) /\ s_n (msm_outerSlice s p) = s_n s /\
  forall d, slice_content (msm_outerSlice s p) d <-> slice_content s d /\ ~ divs (mono_mul (s_q s) p) d.
Proof. exact v_outer. Qed.
Print Assumptions C25_outer.

Theorem C25_normalize : forall s s' ch, in_ring (s_n s) (s_I s) -> lists_minimal_generators (s_n s) (s_I s) (s_I s) ->
  length (s_q s) = s_n s -> in_ring (s_n s) (s_S s) ->
  sl_normalize s = (s', ch) ->
  s_n s' = s_n s /\ s_S s' = s_S s /\ s_q s' = s_q s /\ incl (s_I s') (s_I s) /\
  (forall x g, In x (s_S s') -> In g (s_I s') -> ~ strictly_divides x g) /\
  forall d, slice_content s' d <-> slice_content s d.
Proof. exact v_normalize. Qed.
Print Assumptions C25_normalize.

Theorem C25_removeDoubleLcm : forall s s' ch, valid_slice s -> msm_removeDoubleLcm s = (s', ch) -> keeps_content s s'.
Proof. exact v_double. Qed.
Print Assumptions C25_removeDoubleLcm.

(** adjustMultiply, applyLowerBound, pruneSubtract and simplify (all of them terminate). *)
Theorem C25_simplify : forall s, valid_slice s ->
  (exists s' ch, msm_adjustMultiply s = Some (s', ch) /\ keeps_content s s') /\
  (exists s' ch, msm_applyLowerBound s = Some (s', ch) /\ keeps_content s s') /\
  ((s_n s = 0 -> s_S s = []) -> forall s' ch, sl_pruneSubtract s = (s', ch) -> keeps_content s s') /\
  ((s_n s = 0 -> s_S s = []) -> exists s' ch, msm_simplify s = Some (s', ch) /\ keeps_content s s').
Proof. exact v_simplify. Qed.
Print Assumptions C25_simplify.

(** A base case emits exactly the content, each element once; undefined behaviour is not reached. *)
Theorem C25_base_case : forall simp s s' r, valid_slice s -> ready simp s -> msm_baseCase s simp = (s', r) ->
  match r with
  | Base out => lists_content s out
  | BaseUB => False
  | NotBase => keeps_content s s'
  end.
Proof. exact v_base. Qed.
Print Assumptions C25_base_case.

Example C25_nonvacuous :
  valid_slice (msm_initial 3 ideal1) /\ s_n (msm_initial 3 ideal1) = 3 /\
  length (s_I (msm_initial 3 ideal1)) = 7 /\ (exists i, 0 < nth i [1;0;0] 0) /\
  s_I (fst (msm_innerSlice (msm_initial 3 ideal1) [1;0;0])) <> [] /\
  s_I (msm_outerSlice (msm_initial 3 ideal1) [1;0;0]) <> [].
Proof.
  split; [exact (proj1 (C25_initial 3 ideal1 (proj1 ideal1_ok) (proj2 ideal1_ok)))|].
  split; [reflexivity|]. split; [vm_compute; reflexivity|]. split; [exists 0; vm_compute; auto|].
  split; vm_compute; discriminate.
Qed.

(** ** C26: the built-in strategies are legal, whatever the values of rand(). *)
Theorem C26_strategies_legal :
  legal_pivot_rule minimum_pivot /\ legal_pivot_rule median_pivot /\ legal_pivot_rule maximum_pivot /\
  legal_pivot_rule mingen_pivot /\ legal_pivot_rule gcd_pivot /\ legal_pivot_rule indep_pivot /\
  legal_label_rule maxlabel_var /\ legal_label_rule varlabel_var /\ legal_label_rule minlabel_var.
Proof. exact builtin_rules. Qed.
Print Assumptions C26_strategies_legal.

Example C26_nonvacuous :
  exists s, msm_baseCase (msm_initial 3 ideal1) false = (s, NotBase) /\
  (exists s' k', median_pivot no_random 0 s = Some (s', [0;2;0], k')) /\
  (exists s' k', gcd_pivot no_random 0 s = Some (s', [0;1;0], k')).
Proof.
  eexists. split; [vm_compute; reflexivity|]. split; eexists; eexists; vm_compute; reflexivity.
Qed.

(** ** C05: with any legal strategy the algorithm terminates (the explicit bound on the depth is not reached),
    and reaches neither undefined behaviour nor an internal error. *)
Theorem C05_slice_algorithm_terminates : forall c rnd n I, legal_config c ->
  in_ring n I -> lists_minimal_generators n I I -> uncompressed_ok c n I ->
  exists out, msm_run c rnd n I = Some out /\ NoDup out /\
    forall d, In d out <-> exists m, max_standard n I m /\ d = map S m.
Proof. exact v_run. Qed.
Print Assumptions C05_slice_algorithm_terminates.

(** ** C06: two runs with any options, strategies and random numbers produce the same terms. *)
Theorem C06_strategy_independent : forall c rnd c' rnd' n I, legal_config c -> legal_config c' ->
  in_ring n I -> lists_minimal_generators n I I -> uncompressed_ok c n I -> uncompressed_ok c' n I ->
  exists out out', msm_run c rnd n I = Some out /\ msm_run c' rnd' n I = Some out' /\ Permutation out out'.
Proof. exact v_same. Qed.
Print Assumptions C06_strategy_independent.

Example C06_nonvacuous :
  legal_config (mkConfig true true (PivotSplit gcd_pivot)) /\ legal_config (mkConfig false false (LabelSplit minlabel_var)) /\
  uncompressed_ok (mkConfig true true (PivotSplit gcd_pivot)) 3 ideal1 /\
  msm_run (mkConfig true true (PivotSplit gcd_pivot)) no_random 3 ideal1 =
    Some [[3;1;2];[1;2;3];[2;3;1]] /\
  msm_run (mkConfig false false (LabelSplit minlabel_var)) no_random 3 ideal1 =
    Some [[3;1;2];[2;3;1];[1;2;3]].
Proof.
  destruct builtin_rules as [_ [_ [_ [_ [H1 [_ [_ [_ H2]]]]]]]].
  split; [exact H1|]. split; [exact H2|]. split; [left; discriminate|]. split; vm_compute; reflexivity.
Qed.

(** The side condition on ideals in one variable cannot be dropped: on <x^2> (which Frobby never
    passes uncompressed) the run without simplification gives x instead of x^2. *)
Example C06_univariate_condition_needed :
  in_ring 1 [[2]] /\ msm_run (mkConfig true true (PivotSplit median_pivot)) no_random 1 [[2]] = Some [[2]] /\
  msm_run (mkConfig true false (PivotSplit median_pivot)) no_random 1 [[2]] = Some [[1]].
Proof. split; [repeat constructor|]. split; vm_compute; reflexivity. Qed.

(** ** C27: independence splits. *)
Theorem C27_independence_product : forall simp s0 s, valid_slice s0 -> msm_baseCase s0 simp = (s, NotBase) ->
  exists r, indep_analyze s = Some r /\
  forall big rest, r = Some (big, rest) ->
    Permutation (big ++ rest) (seq 0 (s_n s)) /\ 2 <= length big /\ 2 <= length rest /\
    valid_slice (sl_setToProjOf s big) /\ valid_slice (sl_setToProjOf s rest) /\
    (forall d, length d = s_n s ->
       (slice_content s d <->
        slice_content (sl_setToProjOf s big) (map (fun v => nth v d 0) big) /\
        slice_content (sl_setToProjOf s rest) (map (fun v => nth v d 0) rest))) /\
    (forall xs ys, lists_content (sl_setToProjOf s big) xs -> lists_content (sl_setToProjOf s rest) ys ->
       lists_content s (combine_left (s_n s) big rest (t_identity (s_n s)) xs ys) /\
       length (combine_left (s_n s) big rest (t_identity (s_n s)) xs ys) = length xs * length ys).
Proof. exact v_indep. Qed.
Print Assumptions C27_independence_product.

Definition ideal2 : list mono :=
  [[0;0;0;0;2];[0;0;0;2;0];[0;0;1;0;1];[0;0;2;0;0];[0;1;0;1;0];[0;3;0;0;0];[1;0;0;0;1];[1;0;1;0;0];[2;0;0;0;0]].
Lemma ideal2_ok : in_ring 5 ideal2 /\ lists_minimal_generators 5 ideal2 ideal2.
Proof.
  assert (H : in_ring 5 ideal2) by (repeat constructor). split; [exact H|].
  pose proof (proj1 (proj2 (C22_minimize_exact 5 _ H))) as H1.
  replace ideal2 with (simpleMinimize 5 ideal2) at 2 by (vm_compute; reflexivity). exact H1.
Qed.
Example C27_nonvacuous :
  valid_slice (msm_initial 5 ideal2) /\
  exists s, msm_baseCase (msm_initial 5 ideal2) false = (s, NotBase) /\
  indep_analyze s = Some (Some ([0;2;4],[1;3])).
Proof.
  split; [exact (proj1 (C25_initial 5 ideal2 (proj1 ideal2_ok) (proj2 ideal2_ok)))|].
  eexists. split; vm_compute; reflexivity.
Qed.

(** ** C28: union-find and projections. *)
Theorem C28_partition_components : forall n ops, Forall (op_in n) ops ->
  exists p, run_ops (p_reset n) ops = Some p /\
  (forall x y, x < n -> y < n -> exists p1 p2 rx ry,
     p_getRoot p x = Some (p1, rx) /\ p_getRoot p y = Some (p2, ry) /\ (rx = ry <-> connected ops x y)) /\
  (forall k, k < p_count p -> exists offs rep,
     proj_reset p k = Some offs /\ StronglySorted lt offs /\ rep < n /\
     (forall v, In v offs <-> v < n /\ connected ops rep v) /\
     p_getSetSize p k = Some (Z.of_nat (length (filter (fun i => existsb (Nat.eqb i) offs) (added ops))))) /\
  (forall k, p_count p <= k -> proj_reset p k = None) /\
  (forall v, v < n -> exists k offs, k < p_count p /\ proj_reset p k = Some offs /\ In v offs) /\
  (forall j k offs offs' v, proj_reset p j = Some offs -> proj_reset p k = Some offs' -> In v offs -> In v offs' -> j = k).
Proof. exact v_partition. Qed.
Print Assumptions C28_partition_components.

Theorem C28_projection_inverse : forall n offs m to from, StronglySorted lt offs -> (forall o, In o offs -> o < n) ->
  length m = n -> length to = n -> length from = length offs ->
  proj_project offs (proj_inverse n offs to from) = from /\
  proj_inverse n offs m (proj_project offs m) = m /\
  (forall v, v < n -> ~ In v offs -> nth v (proj_inverse n offs to from) 0 = nth v to 0).
Proof. exact v_projection. Qed.
Print Assumptions C28_projection_inverse.

Example C28_nonvacuous :
  let ops := [Join 0 3; AddToSet 4; Join 4 1; AddToSet 1; GetRoot 3; Join 3 2; Join 2 0] in
  Forall (op_in 6) ops /\
  exists p, run_ops (p_reset 6) ops = Some p /\ p_count p = 3 /\
    proj_reset p 0 = Some [0;2;3] /\ proj_reset p 1 = Some [1;4] /\ proj_reset p 2 = Some [5] /\
    p_getSetSize p 1 = Some 2%Z.
Proof.
  split; [repeat constructor|]. eexists. split; [vm_compute; reflexivity|].
  split; [reflexivity|]. split; [vm_compute; reflexivity|]. split; [vm_compute; reflexivity|]. split; vm_compute; reflexivity.
Qed.

(** ** C29: the task engine. *)

(** Any tasks: whenever the engine stops, the tasks run are exactly those added, each once, last in first out. *)
Theorem C29_engine_runs_each_task_once : forall (T St : Type) (run : T -> St -> option (St * list T)) fuel st ts st' total log,
  run_engine run fuel st ts = Some (st', total, log) ->
  added_ids log = seq 0 total /\ Permutation (ran_ids log) (seq 0 total) /\ lifo log.
Proof. exact engine_once. Qed.
Print Assumptions C29_engine_runs_each_task_once.

(** The slice algorithm run by the engine: it stops; the consumer receives the terms of the recursive evaluation in the
    same order; no split object is used after being deleted and every one is deleted at the end. *)
Theorem C29_machine_refines_recursion : forall c rnd n I, legal_config c ->
  in_ring n I -> lists_minimal_generators n I I -> uncompressed_ok c n I ->
  exists out steps k hp total log,
    msm_run c rnd n I = Some out /\
    (forall fuel, steps <= fuel -> machine_run fuel c rnd n I = Some ((hp, k, out), total, log)) /\
    Forall (fun o => o = None) hp /\
    added_ids log = seq 0 total /\ Permutation (ran_ids log) (seq 0 total) /\ lifo log.
Proof. exact v_machine. Qed.
Print Assumptions C29_machine_refines_recursion.

Example C29_nonvacuous :
  match machine_run 40 (mkConfig true false (PivotSplit minimum_pivot)) no_random 5 ideal2 with
  | Some ((hp, _, out), total, log) =>
      hp = [None] /\ Some out = msm_run (mkConfig true false (PivotSplit minimum_pivot)) no_random 5 ideal2 /\
      total = 10 /\ ran_ids log = [0;3;5;4;2;7;6;9;8;1] /\ length out = 6
  | None => False
  end.
Proof. vm_compute. auto. Qed.
