(** Properties C22 (minimization) and C23 (colon). *)
From Coq Require Import List Arith.
Import ListNotations.
From Verif Require Import Spec M_Term M_Ideal P_Bridge.

(** C22: minimization lists exactly the minimal generators, each once, of the same ideal;
    the same holds for each of the three code paths taken on its own. *)
Theorem C22_minimize_exact : forall n I, in_ring n I ->
  (lists_minimal_generators n I (i_minimize n I) /\ same_ideal n I (i_minimize n I)) /\
  lists_minimal_generators n I (simpleMinimize n I) /\
  (n = 2 -> lists_minimal_generators n I (twoVarMinimize I)) /\
  (forall fuel, length I < fuel ->
     exists t, makeTree fuel n I = Some t /\ lists_minimal_generators n I (tree_collect n t)).
Proof. exact minimize_all_paths. Qed.
Print Assumptions C22_minimize_exact.

Example C22_nonvacuous :
  in_ring 3 [[2;1;0];[1;1;0];[0;3;1];[1;1;0];[0;3;2]] /\
  i_minimize 3 [[2;1;0];[1;1;0];[0;3;1];[1;1;0];[0;3;2]] = [[0;3;1];[1;1;0]].
Proof. split; [repeat constructor|vm_compute; reflexivity]. Qed.

(** C23: colon by a monomial. *)
Theorem C23_colon_exact : forall n I p, in_ring n I -> lists_minimal_generators n I I -> length p = n ->
  let (J, changed) := i_colonReminimize n I p in
  (NoDup J /\ forall k, In k J <-> minimal_in n (fun m => in_ideal I (mono_mul m p)) k) /\
  (changed = true <-> exists g i, In g I /\ i < n /\ 0 < nth i g 0 <= nth i p 0) /\
  (changed = false -> length J = length I).
Proof. exact colon_exact. Qed.
Print Assumptions C23_colon_exact.

(** C23, the overload for a power of one variable. *)
Theorem C23_colonVar_exact : forall n I var e, in_ring n I -> lists_minimal_generators n I I -> var < n ->
  let p := repeat 0 var ++ e :: repeat 0 (n - S var) in
  let (J, changed) := i_colonReminimizeVar n I var e in
  (NoDup J /\ forall k, In k J <-> minimal_in n (fun m => in_ideal I (mono_mul m p)) k) /\
  (changed = true <-> exists g, In g I /\ 0 < nth var g 0 <= e) /\
  (changed = false -> length J = length I).
Proof. exact colonVar_exact. Qed.
Print Assumptions C23_colonVar_exact.

Example C23_nonvacuous :
  let I := [[0;3;1];[1;1;0];[4;0;0]] in
  in_ring 3 I /\ lists_minimal_generators 3 I I /\ length [1;1;0] = 3 /\
  i_colonReminimize 3 I [1;1;0] = ([[0;0;0]], true) /\
  i_colonReminimize 3 I [0;2;0] = ([[0;1;1];[1;0;0]], true) /\
  i_colonReminimizeVar 3 I 0 2 = ([[2;0;0];[0;1;0]], true).
Proof.
  assert (H : in_ring 3 [[0;3;1];[1;1;0];[4;0;0]]) by (repeat constructor).
  cbv zeta. split; [exact H|]. split; [exact (proj1 (proj1 (C22_minimize_exact 3 _ H)))|].
  split; [reflexivity|]. split; [vm_compute; reflexivity|]. split; vm_compute; reflexivity.
Qed.
