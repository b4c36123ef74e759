(** Specification of runs: legal strategies, histories of a partition, logs of the task engine. *)
From Coq Require Import List Arith Bool ZArith Permutation Relations.
Import ListNotations.
From Verif Require Import Spec Spec_Slice M_Slice M_Partition M_Msm M_Tasks.

(** [s'] is again a valid slice with the same content. *)
Definition keeps_content (s s' : slice) : Prop :=
  valid_slice s' /\ s_n s' = s_n s /\ forall d, slice_content s' d <-> slice_content s d.

(** A slice as it is when baseCase is called: either simplified (if the option is on) or not; in one
    variable an unsimplified slice has exponent at most 1 (see DESIGN.md, finding F2). *)
Definition ready (simplified : bool) (s : slice) : Prop :=
  (s_n s = 0 -> s_S s = []) /\
  (simplified = true -> exists s0 ch, valid_slice s0 /\ msm_simplify s0 = Some (s, ch)) /\
  (simplified = false -> s_n s = 1 -> forall g, In g (s_I s) -> nth 0 g 0 <= 1).

(** A strategy that returns a legal pivot on every slice that is not a base case. *)
Definition legal_pivot_rule (f : pivot_rule) : Prop :=
  forall simp rnd k s0 s, valid_slice s0 -> msm_baseCase s0 simp = (s, NotBase) ->
  exists s' p k', f rnd k s = Some (s', p, k') /\ same_up_to_order s s' /\ legal_pivot s p.
Definition legal_label_rule (f : label_rule) : Prop :=
  forall simp s0 s, valid_slice s0 -> msm_baseCase s0 simp = (s, NotBase) -> exponent_one_everywhere s ->
  exists v, f s = Some v /\ v < s_n s /\ ~ in_ideal (s_I s) (times_var (repeat 0 (s_n s)) v).

Definition is_label (c : config) : bool := match c_split c with LabelSplit _ => true | PivotSplit _ => false end.

Definition legal_config (c : config) : Prop :=
  match c_split c with PivotSplit f => legal_pivot_rule f | LabelSplit f => legal_label_rule f end.

(** Frobby only runs the algorithm on compressed exponents, so an ideal in one variable is <1>, <x> or 0.
    The condition is needed only if neither simplification nor a label split is used. *)
Definition uncompressed_ok (c : config) (n : nat) (I : list mono) : Prop :=
  n <> 1 \/ c_simp c = true \/ is_label c = true \/ forall g, In g I -> nth 0 g 0 <= 1.

(** Histories of a partition. *)
Inductive part_op := Join (i j : nat) | AddToSet (i : nat) | GetRoot (i : nat).
Definition op_in (n : nat) (o : part_op) : Prop :=
  match o with Join i j => i < n /\ j < n | AddToSet i => i < n | GetRoot i => i < n end.
Fixpoint run_ops (p : partition) (ops : list part_op) : option partition :=
  match ops with
  | [] => Some p
  | Join i j :: ops' => match p_join p i j with Some (p', _) => run_ops p' ops' | None => None end
  | AddToSet i :: ops' => match p_addToSet p i with Some p' => run_ops p' ops' | None => None end
  | GetRoot i :: ops' => match p_getRoot p i with Some (p', _) => run_ops p' ops' | None => None end
  end.
Definition joined (ops : list part_op) (x y : nat) : Prop := In (Join x y) ops.
Definition connected (ops : list part_op) : nat -> nat -> Prop := clos_refl_sym_trans nat (joined ops).

Definition added (ops : list part_op) : list nat :=
  flat_map (fun o => match o with AddToSet i => [i] | _ => [] end) ops.

(** Logs of the task engine: the tasks added and run, in order, and: a task that is run had been added, was
    not run before, and is the youngest of the tasks waiting. *)
Definition added_ids (log : list event) : list nat :=
  flat_map (fun e => match e with Added i => [i] | Ran _ => [] end) log.
Definition ran_ids (log : list event) : list nat :=
  flat_map (fun e => match e with Ran i => [i] | Added _ => [] end) log.

Definition lifo (log : list event) : Prop :=
  forall l i l', log = l ++ Ran i :: l' ->
    In (Added i) l /\ ~ In (Ran i) l /\
    forall j, In (Added j) l -> ~ In (Ran j) l -> j <= i.

