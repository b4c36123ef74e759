(** C31: the Euler characteristic algorithm. *)
From Coq Require Import List Arith Bool ZArith Lia.
Import ListNotations.
From Verif Require Import M_Euler Spec_Euler Spec_EulerCfg P_Euler9.

(** Five edges that form a circle.  As facets (option swap01) they span a complex with reduced Euler characteristic -1. *)
Definition circle5 : list (list bool) :=
  [[true;true;false;false;false]; [false;true;true;false;false]; [false;false;true;true;false];
   [false;false;false;true;true]; [true;false;false;false;true]].
(** The variables of a ring with n variables *)
Definition variables (n : nat) : list (list bool) := map (fun v => map (Nat.eqb v) (seq 0 n)) (seq 0 n).
(** Settings: simplifications unique, many, pairs; transposing during and before the computation; strategy.  Words have 64
    bits, and rand() gives 0, 1, 2, ... *)
Definition settings (u m p a i : bool) (st : strategy) : econfig := EC 64 u m p a i st (fun t i => t + i) 100.

(** Every answer of the action euler is the reduced Euler characteristic of the complex that it is asked for.  This holds for
    every list of generators, every pivot strategy, every outcome of rand() and all settings, except that the simplification
    "impliedDiv" needs one of the others. *)
Theorem C31_action : forall cf fuel swap01 n gens chi,
  pairs_supported cf -> over n gens ->
  euler_action cf fuel swap01 n gens = EAnswer chi -> is_euler n (action_faces swap01 gens) chi.
Proof. exact p_action. Qed.
Print Assumptions C31_action.

(** There is always an answer: the algorithm ends, and without undefined behaviour. *)
Theorem C31_action_total : forall cf swap01 n gens,
  pairs_supported cf -> settings_end cf (Nat.max n (length gens)) -> over n gens ->
  exists chi k, forall fuel, k <= fuel -> euler_action cf fuel swap01 n gens = EAnswer chi.
Proof. exact p_action_terminates. Qed.
Print Assumptions C31_action_total.

Example C31_action_nonvacuous :
  let cf := settings true true true true true (SComposite [GenRarestVars; GenMaxSupport]) in
  pairs_supported cf /\ settings_end cf (Nat.max 5 (length circle5)) /\ over 5 circle5 /\
  euler_action cf 50 true 5 circle5 = EAnswer (-1).
Proof.
  split; [left; reflexivity|]. split; [split; [reflexivity|discriminate]|]. split; [repeat constructor|reflexivity].
Qed.
(** Also the random choice of a variable ends, when the draws cover the variables. *)
Example C31_random_nonvacuous :
  let cf := settings true true false false true (SHybrid (SStd StdRandom) (SComposite [GenRareVar; GenRandom])) in
  settings_end cf 5 /\ euler_action cf 50 true 5 circle5 = EAnswer (-1).
Proof.
  split; [|reflexivity]. split; [split; [exact I|reflexivity]|]. intros _ t m v V M.
  exists ((v + m * t - t) mod m).
  assert (Z : m <> 0) by lia. pose proof (Nat.mod_upper_bound (v + m * t - t) m Z). split; [cbn; lia|].
  cbn [c_rand settings]. rewrite (Nat.add_mod_idemp_r t) by lia.
  replace (t + (v + m * t - t)) with (v + t * m) by nia. rewrite Nat.mod_add, Nat.mod_small; lia.
Qed.

(** The algorithm itself, on minimal generators: the reduced Euler characteristic of the dual complex. *)
Theorem C31_algorithm : forall cf fuel n gens chi,
  pairs_supported cf -> over n gens -> minimal_gens gens ->
  compute_euler cf fuel n gens = EAnswer chi -> is_euler n (dual_face gens) chi.
Proof. exact p_algorithm. Qed.
Print Assumptions C31_algorithm.

Theorem C31_algorithm_total : forall cf n gens,
  pairs_supported cf -> settings_end cf (Nat.max n (length gens)) -> over n gens -> minimal_gens gens ->
  exists chi k, forall fuel, k <= fuel -> compute_euler cf fuel n gens = EAnswer chi.
Proof. exact p_terminates. Qed.
Print Assumptions C31_algorithm_total.

Example C31_algorithm_nonvacuous :
  let cf := settings true true false true true (SStd StdPopVar) in
  pairs_supported cf /\ settings_end cf (Nat.max 3 (length (variables 3))) /\ over 3 (variables 3) /\
  minimal_gens (variables 3) /\ compute_euler cf 50 3 (variables 3) = EAnswer (-1).
Proof.
  split; [discriminate|]. split; [split; [exact I|discriminate]|]. split; [repeat constructor|]. split; [|reflexivity].
  intros i j Hi Hj D H. cbn in Hi, Hj.
  assert (E : elem (nth i (variables 3) []) i) by (do 3 (destruct i as [|i]; [reflexivity|]); lia).
  apply H in E. do 3 (destruct i as [|i]; [do 3 (destruct j as [|j]; [try discriminate; lia|]); lia|]). lia.
Qed.

(** This number is the alternating sum over the sets of generators whose least common multiple is the product of all
    variables. *)
Theorem C31_subsets : forall n gens chi,
  over n gens -> is_euler n (dual_face gens) chi -> is_alternating_sum n gens chi.
Proof. exact p_alternating_over. Qed.
Print Assumptions C31_subsets.
Example C31_subsets_nonvacuous : over 3 (variables 3) /\ is_euler 3 (dual_face (variables 3)) (-1).
Proof.
  split; [repeat constructor|].
  apply (C31_algorithm (settings true true false true true (SStd StdPopVar)) 50); try apply C31_algorithm_nonvacuous.
Qed.

(** The Euler characteristic is determined by the complex. *)
Theorem C31_unique : forall n face a b, is_euler n face a -> is_euler n face b -> a = b.
Proof. exact is_euler_unique. Qed.
Print Assumptions C31_unique.

(** With the simplification impliedDiv alone the answer is wrong: for <x,y,z> it is 2 instead of -1. *)
Theorem C31_pairs_refuted :
  exists cf fuel n gens chi, ~ pairs_supported cf /\ settings_end cf (Nat.max n (length gens)) /\ over n gens /\
    minimal_gens gens /\ compute_euler cf fuel n gens = EAnswer chi /\ ~ is_euler n (dual_face gens) chi.
Proof.
  exists (settings false false true false false (SStd StdPopVar)), 50, 3, (variables 3), 2%Z.
  pose proof C31_algorithm_nonvacuous as [_ [_ [O [M _]]]]. pose proof C31_subsets_nonvacuous as [_ E].
  split; [intros H; destruct (H eq_refl); discriminate|]. split; [split; [exact I|discriminate]|].
  split; [exact O|]. split; [exact M|]. split; [reflexivity|].
  intros H. pose proof (C31_unique _ _ _ _ H E). discriminate.
Qed.
Print Assumptions C31_pairs_refuted.

(** Without the simplification uniqueDiv the strategies popgcd and widen_popvar run forever on <x,y,z,w>: one of the two states
    after the split has the same generators as before. *)
Definition cycling : estate :=
  ES 4 [[false;true;false;false]; [false;false;true;false]; [false;false;false;true]; [true;false;false;false]]
     [false;false;false;false] 1.
Lemma cycling_loop st : st = SStd StdPopGcd \/ st = SWiden StdPopVar ->
  forall fuel t acc rest, euler_loop (settings false true false true true st) fuel t (cycling :: rest) acc = EMore.
Proof.
  intros H fuel. induction fuel as [|k IH]; intros t acc rest; [reflexivity|].
  cbn [euler_loop].
  assert (E : exists this, process_state (settings false true false true true st) (c_rand (settings false true false true true st) t) acc cycling
              = PSplit acc this cycling) by (destruct H; subst; eexists; vm_compute; reflexivity).
  destruct E as [this ->]. apply IH.
Qed.
Theorem C31_popgcd_refuted : forall st, st = SStd StdPopGcd \/ st = SWiden StdPopVar ->
  let cf := settings false true false true true st in
  pairs_supported cf /\ over 4 (variables 4) /\ forall fuel, compute_euler cf fuel 4 (variables 4) = EMore.
Proof.
  intros st H cf. split; [discriminate|]. split; [repeat constructor|]. intros fuel.
  assert (E : compute_euler cf fuel 4 (variables 4) = euler_loop cf fuel 0 [ES 4 (variables 4) (e_one 4) 1] 0)
    by (destruct H; subst; reflexivity).
  rewrite E. destruct fuel as [|k]; [reflexivity|]. cbn [euler_loop].
  assert (F : exists this, process_state cf (c_rand cf 0) 0 (ES 4 (variables 4) (e_one 4) 1) = PSplit 0 this cycling)
    by (destruct H; subst; eexists; vm_compute; reflexivity).
  destruct F as [this ->]. apply cycling_loop; auto.
Qed.
Print Assumptions C31_popgcd_refuted.

(** A list of filters may drop all candidates; then the filter random computes a remainder modulo zero.  The strategy
    minsupp_popvar_random does this on an ideal with six generators, under the default settings. *)
Theorem C31_composite_refuted :
  let cf := settings true true false true true (SComposite [GenMinSupport; GenPopVar; GenRandom]) in
  exists n gens, pairs_supported cf /\ over n gens /\ forall fuel, 0 < fuel -> compute_euler cf fuel n gens = EUndef.
Proof.
  exists 7, [[true;true;true;false;false;false;false]; [true;true;false;true;false;false;false];
             [true;false;true;true;false;false;false]; [false;false;false;false;true;true;false];
             [false;false;false;false;true;false;true]; [false;false;false;false;false;true;true]].
  split; [discriminate|]. split; [repeat constructor|]. intros [|k] H; [lia|]. vm_compute. reflexivity.
Qed.
Print Assumptions C31_composite_refuted.
