(** Model of the transformations of ideals in BigIdeal.cpp and IdealFacade.cpp, of TransformAction.cpp and IntersectionAction.cpp.
    Exponents are natural numbers: the readers give no others.  A VarNames object is the list of names that it shows (C40). *)
From Coq Require Import List Arith Bool ZArith Ascii.
Import ListNotations.
From Verif Require Import M_Term M_Ideal M_Api M_Names M_Intersect.

(** The result, the error "Taking products of ideals in rings with different variable lists", or undefined behaviour *)
Inductive tres (A : Type) : Type := TOk (a : A) | TErr | TUndef.
Arguments TOk {A} a. Arguments TErr {A}. Arguments TUndef {A}.
Definition tbind {A B} (r : tres A) (f : A -> tres B) : tres B := match r with TOk a => f a | TErr => TErr | TUndef => TUndef end.
Definition of_option {A} (o : option A) : tres A := match o with Some a => TOk a | None => TUndef end.
Fixpoint mapT {A B} (f : A -> tres B) (l : list A) : tres (list B) :=
  match l with [] => TOk [] | x :: l' => tbind (f x) (fun y => tbind (mapT f l') (fun r => TOk (y :: r))) end.

(** ** BigIdeal *)
(** BigIdeal.cpp:143-152 getLcm *)
Definition bi_lcm (n : nat) (I : big_ideal) : list nat :=
  fold_left (fun lcm g => tabulate n (fun v => if nth v lcm 0 <? nth v g 0 then nth v g 0 else nth v lcm 0)) I (tabulate n (fun _ => 0)).
(** BigIdeal.cpp:207-216 contains *)
Definition bi_contains (n : nat) (I : big_ideal) (t : list nat) : bool :=
  existsb (fun g => forallb (fun v => negb (nth v t 0 <? nth v g 0)) (seq 0 n)) I.
(** BigIdeal.cpp:196-205 containsIdentity *)
Definition bi_containsIdentity (n : nat) (I : big_ideal) : bool :=
  existsb (fun g => forallb (fun v => nth v g 0 =? 0) (seq 0 n)) I.
(** BigIdeal.cpp:257-262 deform; [gen] is the index of the first generator, [count] the number of generators *)
Fixpoint bi_deform_from (n count gen : nat) (I : big_ideal) : big_ideal :=
  match I with
  | [] => []
  | g :: I' => tabulate n (fun v => if 0 <? nth v g 0 then nth v g 0 * count + gen else nth v g 0) :: bi_deform_from n count (S gen) I'
  end.
Definition bi_deform (n : nat) (I : big_ideal) : big_ideal := bi_deform_from n (length I) 0 I.
(** BigIdeal.cpp:264-271 takeRadical *)
Definition bi_takeRadical (n : nat) (I : big_ideal) : big_ideal :=
  map (fun g => tabulate n (fun v => if 1 <? nth v g 0 then 1 else nth v g 0)) I.
(** BigIdeal.cpp:33-45 OffsetTermCompare *)
Fixpoint term_greater (a b : list nat) : bool :=
  match a, b with
  | x :: a', y :: b' => if y <? x then true else if x <? y then false else term_greater a' b'
  | _, _ => false
  end.
(** BigIdeal.cpp:280-296 sortGenerators: the indices are sorted, then the generators are taken in that order *)
Definition bi_sortGenerators (I : big_ideal) : big_ideal :=
  let sortedOffsets := std_sort (fun aa bb => term_greater (nth aa I []) (nth bb I [])) (seq 0 (length I)) in
  map (fun o => nth o I []) sortedOffsets.
(** BigIdeal.cpp:273-278 sortGeneratorsUnique *)
Definition term_eqb (a b : list nat) : bool := if list_eq_dec Nat.eq_dec a b then true else false.
Definition bi_sortGeneratorsUnique (I : big_ideal) : big_ideal := std_unique term_eqb (bi_sortGenerators I).
(** BigIdeal.cpp:298-303 sortVariables with VarSorter.cpp:40-61.  [None]: an index is out of range. *)
Fixpoint permute_terms (perm : list nat) (old : list nat) (I : big_ideal) : option big_ideal :=
  match I with
  | [] => Some []
  | t :: I' => bind (permute_big perm old t) (fun r => bind (permute_terms perm (snd r) I') (fun I'' => Some (fst r :: I'')))
  end.
Definition ordered (names : list str) : list str := map (fun p => nth p names []) (sorter names).
Definition bi_sortVariables (J : nideal) : option nideal :=
  bind (permute_terms (sorter (fst J)) (map (fun _ => 0) (fst J)) (snd J)) (fun I => Some (ordered (fst J), I)).
(** vector::erase(begin() + var).  [None]: undefined. *)
Definition erase_at {A} (var : nat) (t : list A) : option (list A) :=
  if var <? length t then Some (firstn var t ++ skipn (S var) t) else None.
(** VarNames.cpp:161-169 projectVar (C40) *)
Definition project_names (var : nat) (names : list str) : list str := firstn var names ++ skipn (S var) names.
(** BigIdeal.cpp:158-164 projectVar *)
Definition bi_projectVar (var : nat) (J : nideal) : option nideal :=
  bind (mapO (erase_at var) (snd J)) (fun I => Some (project_names var (fst J), I)).
(** BigIdeal.cpp:172-189 in operator<: generator by generator, exponent by exponent *)
Fixpoint term_order (a b : list nat) : comparison :=
  match a, b with
  | x :: a', y :: b' => if y <? x then Lt else if x <? y then Gt else term_order a' b'
  | _, _ => Eq
  end.
Fixpoint terms_less (I J : big_ideal) : bool :=
  match I, J with
  | [], _ => false
  | _ :: _, [] => true
  | a :: I', b :: J' => match term_order a b with Lt => true | Gt => false | Eq => terms_less I' J' end
  end.
(** BigIdeal.cpp:166-190 operator<, TransformAction.cpp:227-229 compareIdeals *)
Definition ideal_less (I J : nideal) : bool :=
  if vn_less_names (fst I) (fst J) then true else if vn_less_names (fst J) (fst I) then false else terms_less (snd I) (snd J).

(** ** IdealFacade *)
(** IdealFacade.cpp:37-49 deform, with BigIdeal.cpp:60-69 insert: the exponents become those of the translator's ideal *)
Definition if_deform (J : nideal) : nideal :=
  let n := length (fst J) in
  let D := bi_deform n (snd J) in
  (fst J, shrinkBigIdeal n (tr_initialize n D) D).
(** IdealFacade.cpp:51-63 takeRadical *)
Definition if_takeRadical (J : nideal) : option nideal :=
  let n := length (fst J) in
  let R := bi_takeRadical n (snd J) in
  let tr := tr_initialize n R in
  bind (insert_translated n tr (shrinkBigIdeal n tr R)) (fun I => Some (fst J, I)).
(** IdealFacade.cpp:65-81 swap01 *)
Definition if_swap01 (J : nideal) : nideal :=
  (fst J, map (fun g => tabulate (length (fst J)) (fun v => if nth v g 0 =? 1 then 0 else if nth v g 0 =? 0 then 1 else nth v g 0)) (snd J)).
(** IdealFacade.cpp:120-154 takeProducts; [fst J] are the names of the ideal that the products go to *)
Fixpoint if_takeProducts (ideals : list nideal) (J : nideal) : tres nideal :=
  match ideals with
  | [] => TOk J
  | K :: ideals' =>
      if names_eqb (fst J) (fst K) then
        let p := fold_left (fun p g => tabulate (length (fst J)) (fun v => nth v p 0 + nth v g 0)) (snd K) (tabulate (length (fst J)) (fun _ => 0)) in
        if_takeProducts ideals' (fst J, snd J ++ [p])
      else TErr
  end.
(** IdealFacade.cpp:156-169 sortAllAndMinimize *)
Definition if_minimize (J : nideal) : option nideal :=
  let n := length (fst J) in
  let tr := tr_initialize n (snd J) in
  bind (insert_translated n tr (i_sortReverseLex n (i_minimize n (shrinkBigIdeal n tr (snd J))))) (fun I => Some (fst J, I)).
(** IdealFacade.cpp:186-193 in trimVariables: the marks for one generator, then for all.  [None]: a mark outside of the vector. *)
Definition mark (used : list bool) (g : list nat) : option (list bool) :=
  if forallb (fun v => (nth v g 0 =? 0) || (v <? length used)) (seq 0 (length g))
  then Some (map (fun v => nth v used false || negb (nth v g 0 =? 0)) (seq 0 (length used))) else None.
Fixpoint mark_all (used : list bool) (gens : list (list nat)) : option (list bool) :=
  match gens with [] => Some used | g :: gens' => bind (mark used g) (fun u => mark_all u gens') end.
(** IdealFacade.cpp:195-204: from the last variable to the first *)
Fixpoint trim_from (used : list bool) (var : nat) (names : list str) (ideals : list nideal) : option (list str * list nideal) :=
  match var with
  | O => Some (names, ideals)
  | S v =>
      if nth v used false then trim_from used v names ideals
      else bind (mapO (bi_projectVar v) ideals) (fun ideals' => trim_from used v (project_names v names) ideals')
  end.
(** IdealFacade.cpp:181-207 trimVariables *)
Definition if_trimVariables (names : list str) (ideals : list nideal) : option (list str * list nideal) :=
  bind (mark_all (repeat false (length names)) (concat (map snd ideals))) (fun used => trim_from used (length names) names ideals).
(** IdealFacade.cpp:209-227 addPurePowers; the loop from [var], k more *)
Fixpoint pure_from (n : nat) (lcm : list nat) (var k : nat) (I : big_ideal) : big_ideal :=
  match k with
  | O => I
  | S k' =>
      let purePower := tabulate n (fun v => if v =? var then nth v lcm 0 + 1 else 0) in
      pure_from n lcm (S var) k' (if bi_contains n I purePower then I else I ++ [purePower])
  end.
Definition if_addPurePowers (J : nideal) : nideal :=
  let n := length (fst J) in (fst J, pure_from n (bi_lcm n (snd J)) 0 n (snd J)).

(** ** TransformAction *)
(** VarNames.cpp:28-34: x1, x2, ... *)
Definition numbered (n : nat) : list str := map (fun i => "x"%char :: nat_str (i + 1)) (seq 0 n).
(** TransformAction.cpp:144-152 *)
Definition ta_transpose (J : nideal) : nideal :=
  (numbered (length (snd J)), map (fun var => map (fun g => nth var g 0) (snd J)) (seq 0 (length (fst J)))).
Record transform_options := {
  o_canon : bool; o_sort : bool; o_unique : bool; o_minimize : bool; o_deform : bool; o_radical : bool; o_product : bool;
  o_addPurePowers : bool; o_trimVariables : bool; o_transpose : bool; o_swap01 : bool; o_projectVar : nat }.
(** TransformAction.cpp:178-192 *)
Definition ta_first (o : transform_options) (J : nideal) : tres nideal :=
  tbind (if o_radical o then of_option (if_takeRadical J) else TOk J) (fun J =>
  let J := if o_swap01 o then if_swap01 J else J in
  tbind (if o_minimize o then of_option (if_minimize J) else TOk J) (fun J =>
  TOk (if o_deform o then if_deform J else J))).
(** TransformAction.cpp:197-210 *)
Definition ta_second (o : transform_options) (J : nideal) : tres nideal :=
  let J := if o_addPurePowers o then if_addPurePowers J else J in
  tbind (if o_canon o then of_option (bi_sortVariables J) else TOk J) (fun J =>
  TOk (if o_unique o then (fst J, bi_sortGeneratorsUnique (snd J))
       else if o_sort o || o_canon o then (fst J, bi_sortGenerators (snd J)) else J)).
(** TransformAction.cpp:125-221 perform, after reading and before writing *)
Definition transform (o : transform_options) (names : list str) (ideals : list nideal) : tres (list str * list nideal) :=
  let '(names, ideals) :=
    if o_transpose o then let ideals := map ta_transpose ideals in (last (map fst ideals) [], ideals) else (names, ideals) in
  tbind (if (0 <? o_projectVar o) && (o_projectVar o <=? length names)
         then tbind (of_option (mapO (bi_projectVar (o_projectVar o - 1)) ideals)) (fun ideals =>
              TOk (project_names (o_projectVar o - 1) names, ideals))
         else TOk (names, ideals)) (fun '(names, ideals) =>
  tbind (if o_product o then tbind (if_takeProducts ideals (names, [])) (fun J => TOk [J]) else TOk ideals) (fun ideals =>
  tbind (mapT (ta_first o) ideals) (fun ideals =>
  tbind (if o_trimVariables o then of_option (if_trimVariables names ideals) else TOk (names, ideals)) (fun '(names, ideals) =>
  tbind (mapT (ta_second o) ideals) (fun ideals =>
  TOk (if o_canon o then (ordered names, std_sort ideal_less ideals) else (names, ideals))))))).

(** ** IntersectionAction *)
(** IntersectionAction.cpp:53-78 perform, after reading and before writing.  [None]: undefined. *)
Definition intersection (canon : bool) (names : list str) (ideals : list nideal) : option nideal :=
  bind (intersect_ideals ideals names) (fun J =>
  if canon then bind (bi_sortVariables J) (fun J => Some (fst J, bi_sortGenerators (snd J))) else Some J).
