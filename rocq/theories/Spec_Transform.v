(** What the transformations of ideals should do. *)
From Coq Require Import List Arith Ascii Permutation.
Import ListNotations.
From Verif Require Import Spec M_Names Spec_Names M_Transform.
(** The k'th power of a monomial *)
Definition mono_power (k : nat) (m : mono) : mono := map (fun e => k * e) m.
(** The exponent of x_v in the product of the generators *)
Definition exponent_in_product (v : nat) (I : list mono) : nat := list_sum (map (fun g => nth v g 0) I).
(** The largest exponent of x_v in the generators; 0 if there are none *)
Definition largest_exponent (v : nat) (I : list mono) : nat := list_max (map (fun g => nth v g 0) I).
(** x_v^e *)
Definition pure_power (n v e : nat) : mono := map (fun w => if w =? v then e else 0) (seq 0 n).
(** The ideal contains a power of x_v. *)
Definition has_pure_power (n v : nat) (I : list mono) : Prop := exists e, in_ideal I (pure_power n v e).
(** m with the exponent e put in at place v *)
Definition put_at (v e : nat) (m : mono) : mono := firstn v m ++ e :: skipn v m.

(** The same ideal up to the order of its variables and generators.  Repeated generators count. *)
Definition same_but_order (J K : list str * list mono) : Prop :=
  Permutation (fst J) (fst K) /\ exists L, Permutation L (snd K) /\ Forall2 (same_term 0 (fst J) (fst K)) (snd J) L.
(** The same ideals up to their order and the order of their variables and generators *)
Definition same_list_but_order (Js Ks : list (list str * list mono)) : Prop :=
  exists L, Permutation L Ks /\ Forall2 same_but_order Js L.
(** The same up to order where repeated generators do not count *)
Definition same_set_but_order (J K : list str * list mono) : Prop :=
  Permutation (fst J) (fst K) /\ exists L, (forall g, In g L <-> In g (snd K)) /\ Forall2 (same_term 0 (fst J) (fst K)) (snd J) L.
Definition same_sets_but_order (Js Ks : list (list str * list mono)) : Prop :=
  exists L, Permutation L Ks /\ Forall2 same_set_but_order Js L.
(** The variable named [s] divides a generator of one of the ideals, all over the names [names]. *)
Definition divides_some (names : list str) (Js : list (list str * list mono)) (s : str) : bool :=
  existsb (fun J => existsb (fun g => negb (exponent_of 0 names g s =? 0)) (snd J)) Js.

(** ** Options *)
Definition no_options : transform_options := Build_transform_options false false false false false false false false false false false 0.
Definition only_order (canon sort unique : bool) := Build_transform_options canon sort unique false false false false false false false false 0.
Definition only_minimize (b : bool) := Build_transform_options false false false b false false false false false false false 0.
Definition only_deform (b : bool) := Build_transform_options false false false false b false false false false false false 0.
Definition only_radical (b : bool) := Build_transform_options false false false false false b false false false false false 0.
Definition only_product (b : bool) := Build_transform_options false false false false false false b false false false false 0.
Definition only_addPurePowers (b : bool) := Build_transform_options false false false false false false false b false false false 0.
Definition only_trimVariables (b : bool) := Build_transform_options false false false false false false false false b false false 0.
Definition only_transpose (b : bool) := Build_transform_options false false false false false false false false false b false 0.
Definition only_swap01 (b : bool) := Build_transform_options false false false false false false false false false false b 0.
Definition only_projectVar (k : nat) := Build_transform_options false false false false false false false false false false false k.
(** The options one at a time, in the order in which they are applied *)
Definition one_by_one (o : transform_options) : list transform_options :=
  [only_transpose (o_transpose o); only_projectVar (o_projectVar o); only_product (o_product o); only_radical (o_radical o);
   only_swap01 (o_swap01 o); only_minimize (o_minimize o); only_deform (o_deform o); only_trimVariables (o_trimVariables o);
   only_addPurePowers (o_addPurePowers o); only_order (o_canon o) (o_sort o) (o_unique o)].
Fixpoint in_turn (os : list transform_options) (names : list str) (Js : list (list str * list mono)) : tres (list str * list (list str * list mono)) :=
  match os with
  | [] => TOk (names, Js)
  | o :: os' => match transform o names Js with TOk (names', Js') => in_turn os' names' Js' | TErr => TErr | TUndef => TUndef end
  end.
(** Larger exponents first, from the first variable on *)
Fixpoint lex_greater (a b : mono) : Prop :=
  match a, b with x :: a', y :: b' => y < x \/ x = y /\ lex_greater a' b' | _, _ => False end.
