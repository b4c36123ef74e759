(** Model of Minimizer.cpp and Ideal.cpp: lists of generators.
    A C++ [vector<Exponent*>] is a list of terms.  The in-place partitioning by
    pointer swaps is modelled by order-preserving partition; the order of the
    entries of an ideal is not observable through the library (the API says
    "in some arbitrary order"). *)
From Coq Require Import List Arith Bool Lia.
Import ListNotations.
From Verif Require Import M_Term.

Definition ideal := list term.

(** Ideal.cpp:57-63 contains *)
Definition i_contains (n : nat) (I : ideal) (t : term) : bool :=
  existsb (fun g => t_dominates n t g) I.

(** Ideal.cpp:65-71 containsIdentity *)
Definition i_containsIdentity (n : nat) (I : ideal) : bool :=
  existsb (t_isIdentity n) I.

(** Ideal.cpp:73-79 strictlyContains *)
Definition i_strictlyContains (n : nat) (I : ideal) (t : term) : bool :=
  existsb (fun g => t_strictlyDivides n g t) I.

(** Ideal.cpp:48-55 isIncomparable *)
Definition i_isIncomparable (n : nat) (I : ideal) (t : term) : bool :=
  negb (existsb (fun g => t_dominates n t g || t_divides n t g) I).

(** Ideal.cpp:90-96 isIrreducible *)
Definition i_isIrreducible (n : nat) (I : ideal) : bool :=
  forallb (fun g => t_sizeOfSupport n g =? 1) I.

(** Ideal.cpp:98-104 isSquareFree *)
Definition i_isSquareFree (n : nat) (I : ideal) : bool :=
  forallb (t_isSquareFree n) I.

(** Ideal.cpp:157-162 getLcm *)
Definition i_lcm (n : nat) (I : ideal) : term :=
  fold_left (fun l g => t_lcm n l g) I (t_identity n).

(** Ideal.cpp:164-175 getGcd *)
Definition i_gcd (n : nat) (I : ideal) : term :=
  match I with
  | [] => t_identity n
  | g :: I' => fold_left (fun l h => t_gcd n l h) I' g
  end.

(** Ideal.cpp:584-594 removeMultiples(term) *)
Definition i_removeMultiples (n : nat) (I : ideal) (t : term) : ideal :=
  filter (fun g => negb (t_divides n t g)) I.

(** Ideal.cpp:596-606 removeMultiples(var, e) *)
Definition i_removeMultiplesVar (I : ideal) (var e : nat) : ideal :=
  filter (fun g => g @ var <? e) I.

(** Ideal.cpp:622-632 removeStrictMultiples *)
Definition i_removeStrictMultiples (n : nat) (I : ideal) (t : term) : ideal :=
  filter (fun g => negb (t_strictlyDivides n t g)) I.

(** Ideal.cpp:608-613 insertNonMultiples *)
Definition i_insertNonMultiples (n : nat) (J : ideal) (t : term) (I : ideal) : ideal :=
  J ++ filter (fun g => negb (t_divides n t g)) I.

(** Ideal.cpp:455-464 insert *)
Definition i_insert (I : ideal) (t : term) : ideal := I ++ [t].

(** Ideal.cpp:484-492 insertReminimize *)
Definition i_insertReminimize (n : nat) (I : ideal) (t : term) : ideal :=
  if i_contains n I t then I else i_insert (i_removeMultiples n I t) t.

(** Ideal.cpp:494-499 insertReminimize(var, e); note there is no check for containment. *)
Definition i_insertReminimizeVar (n : nat) (I : ideal) (var e : nat) : ideal :=
  i_insert (i_removeMultiplesVar I var e) (t_set n (t_identity n) var e).

(** Ideal.h:320-329 removeIf: the remaining generators, and whether any was removed. *)
Definition i_removeIf (pred : term -> bool) (I : ideal) : ideal * bool :=
  (filter (fun g => negb (pred g)) I, existsb pred I).

(** Ideal.cpp:525-529 product *)
Definition i_product (n : nat) (I : ideal) (by_ : term) : ideal :=
  map (fun g => t_product n g by_) I.

(** Ideal.cpp:531-535 colon *)
Definition i_colon (n : nat) (I : ideal) (by_ : term) : ideal :=
  map (fun g => t_colon n g by_) I.

(** Ideal.cpp:660-666 takeRadicalNoMinimize *)
Definition i_takeRadicalNoMinimize (n : nat) (I : ideal) : ideal :=
  map (fun g => tabulate n (fun v => if 1 <? g @ v then 1 else g @ v)) I.

(** Ideal.cpp:652-658 mapExponentsToZeroNoMinimize *)
Definition i_mapExponentsToZeroNoMinimize (n : nat) (I : ideal) (z : term) : ideal :=
  map (fun g => tabulate n (fun v => if g @ v =? z @ v then 0 else g @ v)) I.

(** Ideal.cpp:634-639 removeDuplicates *)
Definition i_removeDuplicates (n : nat) (I : ideal) : ideal :=
  std_unique (t_equals n) (std_sort (t_lexLess n) I).

(** Ideal.cpp:510-512 sortReverseLex *)
Definition i_sortReverseLex (n : nat) (I : ideal) : ideal :=
  std_sort (t_revLexLess n) I.

(** Ideal.cpp:518-523 singleDegreeSort *)
Definition i_singleDegreeSort (I : ideal) (var : nat) : ideal :=
  std_sort (t_singleDegreeLess var) I.

(** ** Minimizer.cpp *)

(** Minimizer.cpp:38-54, the scan of simpleMinimize: [kept] is the array
    segment [begin,newEnd). *)
Fixpoint min_scan (n : nat) (kept todo : ideal) : ideal :=
  match todo with
  | [] => kept
  | d :: todo' =>
      if existsb (fun g => t_divides n g d) kept
      then min_scan n kept todo'
      else min_scan n (kept ++ [d]) todo'
  end.

(** Minimizer.cpp:32-56 simpleMinimize *)
Definition simpleMinimize (n : nat) (I : ideal) : ideal :=
  match std_sort (t_lexLess n) I with
  | [] => []
  | g :: rest => min_scan n [g] rest
  end.

(** Minimizer.cpp:58-76 twoVarMinimize; [last] is *last. *)
Fixpoint twoVar_scan (last : term) (todo : ideal) : ideal :=
  match todo with
  | [] => [last]
  | d :: todo' =>
      if d @ 1 <? last @ 1 then last :: twoVar_scan d todo' else twoVar_scan last todo'
  end.
Definition twoVarMinimize (I : ideal) : ideal :=
  match std_sort (t_lexLess 2) I with
  | [] => []
  | g :: rest => twoVar_scan g rest
  end.

(** Minimizer.cpp:78-237 class TreeNode: a leaf holds minimized terms, an
    inner node splits at exponent [pivot] of variable [var]. *)
Inductive mtree :=
| MLeaf (terms : ideal)
| MNode (var pivot : nat) (lessOrEqual greater : mtree).

(** Minimizer.cpp:107-149: choose the variable of largest exponent in [lcm]; if no term
    has exponent <= pivot there, zero that entry of [lcm] and try again.  Result:
    variable and pivot.  The fuel is varCount+1: each round zeroes a
    non-zero entry of lcm. *)
Definition max_var (n : nat) (l : term) : nat :=
  fold_left (fun mx v => if l @ mx <? l @ v then v else mx) (seq 0 n) 0.
Fixpoint tree_choose (fuel n : nat) (lcm : term) (I : ideal) : option (nat * nat) :=
  match fuel with
  | 0 => None
  | S fuel' =>
      let maxVar := max_var n lcm in
      if lcm @ maxVar =? 0 then None
      else
        let pivot := lcm @ maxVar / 4 in
        (* after partitioning, the first term is > pivot iff all terms are *)
        if existsb (fun g => g @ maxVar <=? pivot) I
        then Some (maxVar, pivot)
        else tree_choose fuel' n (t_set n lcm maxVar 0) I
  end.

(** Minimizer.cpp:97-154 makeTree, on the range of terms [I].  The partition
    loop (122-138) is modelled by filtering.  The fuel is the number of terms;
    both parts are non-empty and hence smaller. *)
Fixpoint makeTree (fuel n : nat) (I : ideal) : option mtree :=
  match fuel with
  | 0 => None
  | S fuel' =>
      if 20 <? length I then
        match tree_choose (S n) n (i_lcm n I) I with
        | Some (var, pivot) =>
            match makeTree fuel' n (filter (fun g => g @ var <=? pivot) I),
                  makeTree fuel' n (filter (fun g => pivot <? g @ var) I) with
            | Some l, Some g => Some (MNode var pivot l g)
            | _, _ => None
            end
        | None => Some (MLeaf (simpleMinimize n I))
        end
      else Some (MLeaf (simpleMinimize n I))
  end.

(** Minimizer.cpp:156-175 isRedundant *)
Fixpoint tree_isRedundant (n : nat) (t : mtree) (m : term) : bool :=
  match t with
  | MLeaf terms => existsb (fun g => t_dominates n m g) terms
  | MNode var pivot l g =>
      ((pivot <? m @ var) && tree_isRedundant n g m) || tree_isRedundant n l m
  end.

(** Minimizer.cpp:177-198 collect *)
Fixpoint tree_collect (n : nat) (t : mtree) : ideal :=
  match t with
  | MLeaf terms => terms
  | MNode var pivot l g =>
      filter (fun m => negb (tree_isRedundant n l m)) (tree_collect n g)
      ++ tree_collect n l
  end.

(** Minimizer.cpp:239-254 minimize *)
Definition minimizer_minimize (n : nat) (I : ideal) : ideal :=
  if n =? 2 then twoVarMinimize I
  else if (length I <? 1000) || (n =? 0) then simpleMinimize n I
  else match makeTree (S (length I)) n I with
       | Some t => tree_collect n t
       | None => [] (* excluded: makeTree_total *)
       end.

(** Ideal.cpp:501-508 minimize *)
Definition i_minimize (n : nat) (I : ideal) : ideal :=
  match I with
  | [] => []
  | _ => minimizer_minimize n I
  end.

(** Minimizer.cpp:269-278: for term [g], after the inner loop,
    "strictDivision": every variable of [colon] has colon[var] < g[var]. *)
Definition colon_strict (n : nat) (colon g : term) : bool :=
  forallb (fun v => negb ((g @ v <=? colon @ v) && (0 <? colon @ v))) (seq 0 n).
(** Minimizer.cpp:269-278, flag "block": no exponent of g was killed. *)
Definition colon_block (n : nat) (colon g : term) : bool :=
  forallb (fun v => negb ((g @ v <=? colon @ v) && (0 <? g @ v))) (seq 0 n).

(** Minimizer.cpp:344-409 colonReminimize(var, exponent).
    [strict] / [zero] / [mid] are the three parts of the array. *)
Fixpoint colon_scan (n var : nat) (prev cur : ideal) (block : nat) (todo : ideal) : ideal :=
  match todo with
  | [] => prev ++ cur
  | t :: todo' =>
      (* 385-388: moving on to the next block *)
      let '(prev1, cur1, block1) :=
        if t @ var =? block then (prev, cur, block)
        else (prev ++ cur, [], t @ var) in
      let t0 := t_set n t var 0 in
      if existsb (fun d => t_divides n d t0) prev1
      then colon_scan n var prev1 cur1 block1 todo'
      else colon_scan n var prev1 (cur1 ++ [t0]) block1 todo'
  end.
Definition minimizer_colonVar (n : nat) (I : ideal) (var e : nat) : ideal * bool :=
  let strict := map (fun g => t_set n g var (g @ var - e))
                    (filter (fun g => e <? g @ var) I) in
  let zero := filter (fun g => negb (e <? g @ var) && (g @ var =? 0)) I in
  let mid := filter (fun g => negb (e <? g @ var) && negb (g @ var =? 0)) I in
  match mid with
  | [] => (strict ++ zero, false)
  | _ =>
      let sorted := std_sort (t_revSingleDegreeLess var) mid in
      match sorted with
      | [] => (strict ++ zero, false) (* impossible: sorting keeps the length *)
      | h :: _ => (strict ++ colon_scan n var [] [] (h @ var) (sorted ++ zero), true)
      end
  end.

(** Minimizer.cpp:256-305 colonReminimize(term).  dominatesAny is
    evaluated in the code on [begin,blockBegin), which holds the minimized
    terms, leftovers of minimize (multiples of minimized terms) and block terms
    kept so far; leftovers are left out of the model since they change no answer. *)
Fixpoint colon_blocks (n : nat) (mins kept todo : ideal) : ideal :=
  match todo with
  | [] => kept
  | t :: todo' =>
      if existsb (fun g => t_dominates n t g) (mins ++ kept)
      then colon_blocks n mins kept todo'
      else colon_blocks n mins (kept ++ [t]) todo'
  end.
Definition minimizer_colonTerm (n : nat) (I : ideal) (p : term) : ideal * bool :=
  if t_sizeOfSupport n p =? 1
  then let var := t_firstNonZero n p in minimizer_colonVar n I var (p @ var)
  else
    let strict := map (fun g => t_colon n g p) (filter (colon_strict n p) I) in
    let rest := filter (fun g => negb (colon_strict n p g)) I in
    let block := map (fun g => t_colon n g p) (filter (colon_block n p) rest) in
    let other := map (fun g => t_colon n g p)
                     (filter (fun g => negb (colon_block n p g)) rest) in
    match other with
    | [] => (strict ++ block, false)
    | _ =>
        let mins := minimizer_minimize n other in
        (strict ++ mins ++ colon_blocks n mins [] block, true)
    end.

(** Ideal.cpp:550-561 colonReminimize *)
Definition i_colonReminimize (n : nat) (I : ideal) (p : term) : ideal * bool :=
  minimizer_colonTerm n I p.

(** Ideal.cpp:563-574 colonReminimize(var, e) *)
Definition i_colonReminimizeVar (n : nat) (I : ideal) (var e : nat) : ideal * bool :=
  minimizer_colonVar n I var e.

(** Minimizer.cpp:307-326 isMinimallyGenerated, the quadratic path (309-316):
    no entry divides an entry at another position.  The tree path
    (318-325) compares sizes. *)
Fixpoint pairs_free (n : nat) (before todo : ideal) : bool :=
  match todo with
  | [] => true
  | g :: todo' =>
      forallb (fun h => negb (t_divides n g h)) (before ++ todo') &&
      pairs_free n (before ++ [g]) todo'
  end.
Definition minimizer_isMinimallyGenerated (n : nat) (I : ideal) : bool :=
  if (length I <? 1000) || (n =? 0) then pairs_free n [] I
  else match makeTree (S (length I)) n I with
       | Some t => length I =? length (tree_collect n t)
       | None => false
       end.
