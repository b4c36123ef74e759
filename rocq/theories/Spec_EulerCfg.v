(** Settings of the Euler characteristic computation under which it is shown to be correct and to end. *)
From Coq Require Import List Arith Bool.
Import ListNotations.
From Verif Require Import M_Euler.

(** The simplification "pairs" (option impliedDiv) is only used together with another one. *)
Definition pairs_supported (cf : econfig) : Prop := c_pairs cf = true -> c_unique cf = true \/ c_many cf = true.

(** In a list of filters a random choice is only made when a candidate is sure to be left.  [all]: no candidate was dropped
    so far, [some]: a candidate is sure to be left.  The three filters that ask for a given variable may drop all
    candidates, unless they see all generators. *)
Fixpoint never_empty (all some : bool) (fs : list genStrat) : bool :=
  match fs with
  | [] => true
  | (GenPopVar | GenRareMax | GenRareVar) :: fs' => never_empty false all fs'
  | (GenRarestVars | GenMaxSupport | GenMinSupport) :: fs' => never_empty false some fs'
  | GenAny :: fs' => never_empty false true fs'
  | GenRandom :: fs' => some && never_empty false true fs'
  end.
(** The pivots that are not variables or generators (popgcd and the widened ones) need the simplification "unique". *)
Fixpoint strategy_ends (unique : bool) (st : strategy) : Prop :=
  match st with
  | SStd StdPopGcd | SWiden _ => unique = true
  | SStd _ | SGen _ => True
  | SComposite fs => never_empty true true fs = true
  | SHybrid a b => strategy_ends unique a /\ strategy_ends unique b
  end.
Fixpoint draws_variables (st : strategy) : bool :=
  match st with
  | SStd StdRandom | SWiden StdRandom => true
  | SStd _ | SWiden _ | SGen _ | SComposite _ => false
  | SHybrid a b => draws_variables a || draws_variables b
  end.
(** Among the first draws in each call every remainder turns up, for moduli up to N. *)
Definition draws_cover (cf : econfig) (N : nat) : Prop :=
  forall t m v, v < m -> m <= N -> exists i, i < c_tries cf /\ c_rand cf t i mod m = v.
Definition settings_end (cf : econfig) (N : nat) : Prop :=
  strategy_ends (c_unique cf) (c_strategy cf) /\ (draws_variables (c_strategy cf) = true -> draws_cover cf N).
