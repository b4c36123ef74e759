(** Theorems about variable names (C40), name tables (C41) and the sorting of variables (C50). *)
From Coq Require Import String Ascii.
From Coq Require Import List Arith Bool ZArith Sorted Permutation.
Import ListNotations.
From Verif Require Import Spec_Names M_Term M_Api M_Names P_Names P_Names2.
Local Notation "$ s" := (list_ascii_of_string s%string) (at level 0, s at level 0, only parsing).

(** C40: whatever is done to the object, it shows the list of names one expects: names are found at their index and indices under
    their name, nothing else is contained, no name is there twice; and addVar tells whether the name was new. *)
Theorem C40_history : forall invalid ops l outs, 0 < invalid -> names_run invalid [] ops = Some (l, outs) ->
  exists v, vn_run invalid vn_empty ops = Some (v, outs) /\ shows invalid v l /\ NoDup l.
Proof. exact p_history. Qed.
Print Assumptions C40_history.
Definition ex_ops : list vn_op :=
  [VAdd $"x"; VAdd $"y"; VAdd $"zz"; VAdd $"y"; VSwap 0 2; VCopy; VProject 1; VAdd $"y"; VSwap 1 1].
Example C40_ex : names_run 100 [] ex_ops = Some ([$"zz"; $"x"; $"y"], [true; true; true; false; true]).
Proof. vm_compute. reflexivity. Qed.
Example C40_ex_clear : names_run 100 [] (ex_ops ++ [VClear; VAdd $"x"]) = Some ([$"x"], [true; true; true; false; true; true]).
Proof. vm_compute. reflexivity. Qed.
Example C40_ex_bad : names_run 100 [] [VAdd $"x"; VSwap 0 1] = None /\ names_run 2 [] [VAdd $"x"; VAdd $"y"] = None.
Proof. split; reflexivity. Qed.

(** C40: two objects are equal exactly if they have the same names in the same order, and the order is lexicographic. *)
Theorem C40_compare : forall invalid v l w m, 0 < invalid -> reached invalid v l -> reached invalid w m ->
  (exists b, vn_eq v w = Some b /\ (b = true <-> l = m)) /\
  (exists b, vn_less v w = Some b /\ (b = true <-> lexico str_lt l m)).
Proof. exact p_compare. Qed.
Print Assumptions C40_compare.
Example C40_ex_reached : exists v, reached 100 v [$"zz"; $"x"; $"y"].
Proof. eexists. exists ex_ops. eexists. split; vm_compute; reflexivity. Qed.
Example C40_ex_less : lexico str_lt [$"a"; $"x1"] [$"a"; $"x10"; $"b"] /\ ~ lexico str_lt [$"a"; $"x2"] [$"a"; $"x10"; $"b"].
Proof.
  split.
  - apply lexico_tail. apply lexico_head. cbn. do 2 apply lexico_tail. apply lexico_prefix.
  - intros H. apply less_names_iff in H. vm_compute in H. discriminate.
Qed.

(** C40: the text of the object has its names in order. *)
Theorem C40_toString : forall invalid v l, 0 < invalid -> reached invalid v l -> vn_toString v = Some (with_commas l).
Proof. exact p_toString. Qed.
Print Assumptions C40_toString.
Example C40_ex_toString : with_commas [$"zz"; $"x"; $"y"] = $"zz, x, y".
Proof. reflexivity. Qed.

(** C40: the default names are x1, x2, ..., all different, and they are recognized. *)
Theorem C40_default : forall invalid n, n < invalid ->
  exists v, vn_default invalid n = Some v /\ shows invalid v (default_names n) /\ NoDup (default_names n).
Proof. exact p_default. Qed.
Print Assumptions C40_default.
Theorem C40_namesAreDefault : forall invalid v l, 0 < invalid -> reached invalid v l ->
  exists b, vn_namesAreDefault invalid v = Some b /\ (b = true <-> l = default_names (length l)).
Proof. exact p_namesAreDefault. Qed.
Print Assumptions C40_namesAreDefault.
Example C40_ex_default : default_names 11 =
  [$"x1"; $"x2"; $"x3"; $"x4"; $"x5"; $"x6"; $"x7"; $"x8"; $"x9"; $"x10"; $"x11"].
Proof. reflexivity. Qed.

(** C50: a big ideal whose variables are sorted has the same names, now ascending, and each term keeps the exponent of each
    variable. *)
Theorem C50_big : forall invalid v l J, 0 < invalid -> reached invalid v l -> Forall (fun t => length t = length l) J ->
  exists v' l' J', big_sortVariables invalid v J = Some (v', J') /\ shows invalid v' l' /\ ascending l' /\ Permutation l' l /\
    Forall2 (same_term 0%Z l l') J J'.
Proof. exact p_big. Qed.
Print Assumptions C50_big.
(** C50: the result does not depend on the order the variables came in. *)
Theorem C50_canonical : forall invalid v1 l1 J1 v2 l2 J2, 0 < invalid -> reached invalid v1 l1 -> reached invalid v2 l2 -> Permutation l1 l2 ->
  Forall (fun t => length t = length l1) J1 -> Forall2 (same_term 0%Z l1 l2) J1 J2 ->
  exists w1 w2 l J, big_sortVariables invalid v1 J1 = Some (w1, J) /\ big_sortVariables invalid v2 J2 = Some (w2, J) /\
    shows invalid w1 l /\ shows invalid w2 l.
Proof. exact p_canonical. Qed.
Print Assumptions C50_canonical.
(** C50: sorting the variables of the small ideal and of its translator keeps the translation of each variable and the exponents;
    the loop over the cycles of the permutation ends. *)
Theorem C50_translator : forall invalid tr v l J, 0 < invalid -> reached invalid v l -> length tr = length l ->
  Forall (fun t : list nat => length t = length l) J ->
  exists tr' v' l' J', sort_variables tr v J = Some (tr', v', J') /\ shows invalid v' l' /\ ascending l' /\ Permutation l' l /\
    same_term [] l l' tr tr' /\ Forall2 (same_term 0 l l') J J'.
Proof. exact p_translator. Qed.
Print Assumptions C50_translator.
Definition ex_v : varNames := match vn_run 100 vn_empty [VAdd $"c"; VAdd $"a"; VAdd $"d"; VAdd $"b"] with Some (v, _) => v | None => vn_empty end.
Example C50_ex_reached : reached 100 ex_v [$"c"; $"a"; $"d"; $"b"].
Proof. exists [VAdd $"c"; VAdd $"a"; VAdd $"d"; VAdd $"b"]. eexists. split; vm_compute; reflexivity. Qed.
Example C50_ex : option_map (fun r => (vn_names (fst r), snd r)) (big_sortVariables 100 ex_v [[3; 1; 4; 2]; [0; 5; 0; 7]]%Z) =
  Some ([$"a"; $"b"; $"c"; $"d"], [[1; 2; 3; 4]; [5; 7; 0; 0]]%Z).
Proof. vm_compute. reflexivity. Qed.
Example C50_ex_translator : option_map (fun r => (fst (fst r), vn_names (snd (fst r)), snd r)) (sort_variables [[0; 3]; [0; 1]; [0; 4]; [0; 2]]%Z ex_v [[3; 1; 4; 2]; [0; 5; 0; 7]]) =
  Some ([[0; 1]; [0; 2]; [0; 3]; [0; 4]]%Z, [$"a"; $"b"; $"c"; $"d"], [[1; 2; 3; 4]; [5; 7; 0; 0]]).
Proof. vm_compute. reflexivity. Qed.

(** C41: a name that is an exact match is chosen even if it is a prefix of others; else the only name with that prefix; if there
    is none or more than one the lookup says so, and an ambiguous lookup lists all the names in order. *)
Theorem C41_lookup : forall (P : Type) (f : list (str * P)) p, NoDup (map fst f) ->
  match getUniqueNameWithPrefix f p with
  | Found s => In s (map fst f) /\ prefix_of p s /\ (s = p \/ (~ In p (map fst f) /\ forall t, In t (map fst f) -> prefix_of p t -> t = s))
  | Unknown => forall t, In t (map fst f) -> ~ prefix_of p t
  | Ambiguous names => ~ In p (map fst f) /\ (forall t, In t names <-> In t (map fst f) /\ prefix_of p t) /\ ascending names /\
      exists s t, In s names /\ In t names /\ s <> t
  end.
Proof. exact @p_lookup. Qed.
Print Assumptions C41_lookup.
(** C41: what is made by a prefix is the entry of the name that was found, and never null. *)
Theorem C41_createWithPrefix : forall (P : Type) (f : list (str * P)) p, NoDup (map fst f) ->
  match createWithPrefix f p with
  | inl r => exists s x, r = Some x /\ In (s, x) f /\ getUniqueNameWithPrefix f p = Found s
  | inr e => e = getUniqueNameWithPrefix f p /\ forall s, e <> Found s
  end.
Proof. exact @p_create. Qed.
Print Assumptions C41_createWithPrefix.
Theorem C41_create : forall (P : Type) (f : list (str * P)) s,
  match create f s with inl x => In (s, x) f | inr _ => ~ In s (map fst f) end.
Proof. exact @p_create_name. Qed.
Print Assumptions C41_create.
Definition ex_factory : list (str * nat) := [($"minimum", 1); ($"maxlabel", 2); ($"minlabel", 3); ($"min", 4); ($"rarest", 5)].
Example C41_ex : getUniqueNameWithPrefix ex_factory $"min" = Found $"min" /\ getUniqueNameWithPrefix ex_factory $"minl" = Found $"minlabel" /\
  getUniqueNameWithPrefix ex_factory $"m" = Ambiguous [$"maxlabel"; $"min"; $"minimum"; $"minlabel"] /\
  getUniqueNameWithPrefix ex_factory $"x" = Unknown /\ createWithPrefix ex_factory $"r" = inl (Some 5).
Proof. vm_compute. auto. Qed.
Example C41_ex_nodup : NoDup (map fst ex_factory).
Proof. cbn. repeat constructor; cbn; intuition discriminate. Qed.
