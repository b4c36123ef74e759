(** Model of the TermTranslator for several ideals, of intersect.cpp and of IntersectFacade.cpp. *)
From Coq Require Import List Arith Bool ZArith Ascii.
Import ListNotations.
From Verif Require Import M_Term M_Ideal M_Api M_Names.

(** A BigIdeal (BigIdeal.h:60-75) with its names.  A VarNames object is the list of names that it shows (C40). *)
Definition nideal : Type := list str * big_ideal.
(** VarNames::getIndex *)
Fixpoint name_index (s : str) (names : list str) : option nat :=
  match names with
  | [] => None
  | t :: names' => if str_dec s t then Some 0 else option_map S (name_index s names')
  end.
Definition str_eqb (a b : str) : bool := if str_dec a b then true else false.
Definition names_eqb (a b : list str) : bool := if list_eq_dec str_dec a b then true else false.
(** TermTranslator.cpp:170-178 the names of all ideals.  An ideal whose names are those of the one before, [prev], is skipped. *)
Fixpoint gather (prev : option (list str)) (ideals : list nideal) : list str :=
  match ideals with
  | [] => []
  | (names, _) :: ideals' =>
      (if match prev with Some p => names_eqb names p | None => false end then [] else names) ++ gather (Some names) ideals'
  end.
(** TermTranslator.cpp:179-187: they are sorted and repetitions are removed *)
Definition union_names (ideals : list nideal) : list str := std_unique str_eqb (std_sort str_less (gather None ideals)).
(** TermTranslator.cpp:90-141 extractExponents: the exponents of the variable named [s] in all ideals that have it *)
Definition exponents_of (s : str) (J : nideal) : list nat :=
  match name_index s (fst J) with None => [] | Some v => map (fun g => nth v g 0) (snd J) end.
Definition extractExponents_all (ideals : list nideal) (s : str) : list Z :=
  let refs := 0 :: collect [0] (concat (map (exponents_of s) ideals)) in
  map Z.of_nat (std_unique Nat.eqb (std_sort Nat.ltb refs)) ++ [0%Z].
(** TermTranslator.cpp:193-196 in initialize *)
Definition tr_initialize_all (names : list str) (ideals : list nideal) : translator := map (extractExponents_all ideals) names.
(** TermTranslator.cpp:203-218 in shrinkBigIdeal: where the variables go.  [None]: a name is missing. *)
Definition new_vars (names : list str) (J : nideal) : option (list nat) :=
  if names_eqb (fst J) names then Some (seq 0 (length (fst J))) else mapO (fun s => name_index s names) (fst J).
(** TermTranslator.cpp:221-229 one generator; [var] counts its exponents.  [t] is the Term that is used for all generators. *)
Fixpoint shrink_term (n : nat) (tr : translator) (newVars : list nat) (var : nat) (g : list nat) (t : term) : term :=
  match newVars with
  | [] => t
  | v :: newVars' => shrink_term n tr newVars' (S var) g (t_set n t v (shrinkExponent tr v (nth var g 0)))
  end.
Fixpoint shrink_terms (n : nat) (tr : translator) (newVars : list nat) (I : big_ideal) (t : term) : ideal :=
  match I with
  | [] => []
  | g :: I' => let t := shrink_term n tr newVars 0 g t in t :: shrink_terms n tr newVars I' t
  end.
(** TermTranslator.cpp:199-230 shrinkBigIdeal *)
Definition shrink_named (names : list str) (tr : translator) (J : nideal) : option ideal :=
  bind (new_vars names J) (fun newVars => Some (shrink_terms (length names) tr newVars (snd J) (t_identity (length names)))).

(** intersect.cpp:23-36 *)
Definition intersect (n : nat) (a b : ideal) : ideal :=
  i_minimize n (concat (map (fun g => map (fun h => t_lcm n g h) b) a)).
(** BigIdeal.cpp:71-81 insert(ideal, translator).  [None]: a read outside the table. *)
Fixpoint insert_translated (n : nat) (tr : translator) (I : ideal) : option big_ideal :=
  match I with
  | [] => Some []
  | g :: I' => bind (translate n tr g) (fun t => bind (insert_translated n tr I') (fun r => Some (map Z.to_nat t :: r)))
  end.
(** IntersectFacade.cpp:32-69 intersect *)
Definition intersect_ideals (ideals : list nideal) (emptyNames : list str) : option nideal :=
  match ideals with
  | [] => Some (emptyNames, [repeat 0 (length emptyNames)])
  | _ =>
      let names := union_names ideals in
      let n := length names in
      let tr := tr_initialize_all names ideals in
      bind (mapO (shrink_named names tr) ideals) (fun ideals2 =>
      let intersection := fold_left (fun a b => intersect n a (i_minimize n b)) ideals2 [t_identity n] in
      bind (insert_translated n tr intersection) (fun r => Some (names, r)))
  end.
