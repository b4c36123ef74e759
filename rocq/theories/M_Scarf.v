(** Model of IdealTree.cpp, Deformer.cpp and ScarfHilbertAlgorithm.cpp: Hilbert-Poincare series by deformation to a generic
    ideal and enumeration of the faces of its Scarf complex. *)
From Coq Require Import List Arith Bool ZArith.
Import ListNotations.
From Verif Require Import M_Term M_Ideal M_Slice M_Msm M_Api M_Hilbert M_Poly.

(** ** IdealTree.cpp *)

(** IdealTree.cpp:41-60 Node.  A leaf holds its range [_begin, _end); an inner node has the two nodes _lessOrEqual and
    _greater, whose ranges make up its own. *)
Inductive itree := ILeaf (l : list term) | INode (l g : itree).
Fixpoint tree_range (t : itree) : list term :=
  match t with ILeaf l => l | INode a b => tree_range a ++ tree_range b end.

(** IdealTree.cpp:75-77: the variable with the largest difference of exponents, the first one of those *)
Definition tree_maxVar (n : nat) (lcm gcd : term) : nat :=
  fold_left (fun mv v => if lcm @ mv - gcd @ mv <? lcm @ v - gcd @ v then v else mv) (seq 1 (n - 1)) 0.

(** IdealTree.cpp:96-98 while ((left)[_var] <= _pivot && left != right) ++left; the steps left are [right - left] *)
Fixpoint scan_right (a : list term) (var pivot left : nat) (k : nat) : nat :=
  match k with
  | O => left
  | S k' => if (nth left a []) @ var <=? pivot then scan_right a var pivot (S left) k' else left
  end.
(** IdealTree.cpp:100-102 while ((right)[_var] > _pivot && left != right) --right *)
Fixpoint scan_left (a : list term) (var pivot right : nat) (k : nat) : nat :=
  match k with
  | O => right
  | S k' => if pivot <? (nth right a []) @ var then scan_left a var pivot (right - 1) k' else right
  end.
Fixpoint list_put {A} (l : list A) (i : nat) (x : A) : list A :=
  match l, i with
  | [], _ => []
  | _ :: l', O => x :: l'
  | y :: l', S i' => y :: list_put l' i' x
  end.
Definition list_swap (a : list term) (i j : nat) : list term := list_put (list_put a i (nth j a [])) j (nth i a []).
(** IdealTree.cpp:95-108 the loop while (left != right).  [None]: the fuel was not enough. *)
Fixpoint tree_partition (fuel : nat) (a : list term) (var pivot left right : nat) : option (list term * nat) :=
  if left =? right then Some (a, right)
  else match fuel with
       | O => None
       | S fuel' =>
           let left' := scan_right a var pivot left (right - left) in
           let right' := scan_left a var pivot right (right - left') in
           tree_partition fuel' (list_swap a left' right') var pivot left' right'
       end.
(** IdealTree.cpp:115-120: middle goes down from [m] while the entry is greater than _pivot, and then up by one.
    [None]: it leaves the range. *)
Fixpoint tree_middle (a : list term) (var pivot m : nat) : option nat :=
  if pivot <? (nth m a []) @ var then match m with O => None | S m' => tree_middle a var pivot m' end else Some (S m).

(** IdealTree.cpp:62-132 makeTree on the range [l]; [leaf] is MaxLeafSize.  The constructor of a node calls makeTree, and
    lines 128-129 call it again on both children; a call replaces the children.  [None]: a read outside of the range, or
    recursion beyond [fuel] levels. *)
Fixpoint makeTree (fuel : nat) (leaf n : nat) (l : list term) : option itree :=
  if length l <=? leaf then Some (ILeaf l)
  else match fuel, l with
       | S fuel', first :: _ =>
           let lcm := fold_left (t_lcm n) l (t_identity n) in
           let gcd := fold_left (t_gcd n) l first in
           let var := tree_maxVar n lcm gcd in
           if lcm @ var =? 0 then Some (ILeaf l)
           else
             let pivot := (lcm @ var + gcd @ var) / 2 in
             bind (tree_partition (length l) l var pivot 0 (length l - 1)) (fun r =>
             let (a, right) := r in
             bind (tree_middle a var pivot right) (fun middle =>
             bind (makeTree fuel' leaf n (firstn middle a)) (fun t1 =>
             bind (makeTree fuel' leaf n (skipn middle a)) (fun t2 =>
             bind (makeTree fuel' leaf n (tree_range t1)) (fun t1' =>
             bind (makeTree fuel' leaf n (tree_range t2)) (fun t2' => Some (INode t1' t2')))))))
       | _, _ => None
       end.
(** IdealTree.cpp:28-36, 134-146 strictlyContains *)
Fixpoint tree_strictlyContains (n : nat) (t : itree) (m : term) : bool :=
  match t with
  | ILeaf l => existsb (fun g => t_strictlyDivides n g m) l
  | INode a b => tree_strictlyContains n a m || tree_strictlyContains n b m
  end.
(** IdealTree.cpp:26 MaxLeafSize, 148-154 the constructor, and 161-164 *)
Definition maxLeafSize : nat := 60.
Definition idealTree (fuel n : nat) (I : ideal) : option itree := makeTree fuel maxLeafSize n I.

(** ** Deformer.cpp *)

(** ideal[i][var] = e *)
Definition d_set (n : nat) (I : ideal) (i var e : nat) : ideal := list_put I i (t_set n (nth i I []) var e).
(** Deformer.cpp:36-44 the map exps: its keys in ascending order, and the generators (their positions) of one key *)
Definition d_keys (I : ideal) (var : nat) : list nat :=
  std_unique Nat.eqb (std_sort Nat.ltb (filter (fun e => 0 <? e) (map (fun g => g @ var) I))).
Definition d_block (I : ideal) (var e : nat) : list nat :=
  filter (fun i => (nth i I []) @ var =? e) (seq 0 (length I)).
(** Deformer.cpp:53-57: strong deformation of one block *)
Fixpoint d_strong (n var : nat) (block : list nat) (I : ideal) (tab : list nat) : ideal * list nat :=
  match block with
  | [] => (I, tab)
  | i :: block' => d_strong n var block' (d_set n I i var (length tab)) (tab ++ [(nth i I []) @ var])
  end.
(** Deformer.cpp:62-79: weak deformation of one block; [shared] is sharedDeformedExponent *)
Fixpoint d_weak (n var shared : nat) (block : list nat) (I : ideal) (tab : list nat) : ideal * list nat :=
  match block with
  | [] => (I, tab)
  | i :: block' =>
      if forallb (fun j => i_strictlyContains n I (t_lcm n (nth i I []) (nth j I []))) block' then
        d_weak n var shared block' (d_set n I i var shared) tab
      else d_weak n var shared block' (d_set n I i var (length tab)) (tab ++ [(nth i I []) @ var])
  end.
(** Deformer.cpp:48-81: one block of the map that was built from the ideal [I0] *)
Definition d_one (n : nat) (strong : bool) (var : nat) (I0 : ideal) (st : ideal * list nat) (e : nat) : ideal * list nat :=
  let (I, tab) := st in
  let block := d_block I0 var e in
  if strong then d_strong n var block I tab
  else d_weak n var (length tab) block I (tab ++ [(nth (hd 0 block) I []) @ var]).
(** Deformer.cpp:30-82 deform *)
Definition deform (n : nat) (strong : bool) (var : nat) (I : ideal) : ideal * list nat :=
  fold_left (d_one n strong var I) (d_keys I var) (I, [0]).
(** Deformer.cpp:92-93 the loop over the variables *)
Fixpoint deform_vars (n : nat) (strong : bool) (vars : list nat) (I : ideal) : ideal * list (list nat) :=
  match vars with
  | [] => (I, [])
  | v :: vs => let (I', tab) := deform n strong v I in let (D, tabs) := deform_vars n strong vs I' in (D, tab :: tabs)
  end.
(** Deformer.cpp:85-97 the constructor: the new ideal and _undeform.  [order] is the orderer. *)
Definition deformer (n : nat) (strong : bool) (order : ideal -> ideal) (I : ideal) : ideal * list (list nat) :=
  deform_vars n strong (seq 0 n) (order I).
(** Deformer.cpp:99-106 undeform; [None]: a read outside of a table *)
Fixpoint undeform_from (tabs : list (list nat)) (t : term) (var k : nat) : option term :=
  match k with
  | O => Some []
  | S k' =>
      match nth_error (nth var tabs []) (t @ var), undeform_from tabs t (S var) k' with
      | Some e, Some r => Some (e :: r)
      | _, _ => None
      end
  end.
Definition undeform (n : nat) (tabs : list (list nat)) (t : term) : option term := undeform_from tabs t 0 n.

(** ** ScarfHilbertAlgorithm.cpp *)

(** ScarfHilbertAlgorithm.h, struct State: plus, term, face and pos; [ss_rest] are the generators from pos on. *)
Record sstate := mkSS { ss_plus : bool; ss_term : term; ss_face : list term; ss_rest : list term }.

(** ScarfHilbertAlgorithm.cpp:174-236 doEnumerationStep: the state is changed in place; [Some s] is the next state, [None]
    means that a base case was reached. *)
Fixpoint enumerationStep (n : nat) (tree : itree) (plus : bool) (t : term) (face rest : list term)
  : sstate * option sstate :=
  if length face =? n then (mkSS plus t face rest, None)
  else match rest with
       | [] => (mkSS plus t face rest, None)
       | g :: rest' =>
           let t' := t_lcm n t g in
           if existsb (fun f => t_strictlyDivides n f t') face then enumerationStep n tree plus t face rest'
           else if tree_strictlyContains n tree t' then enumerationStep n tree plus t face rest'
           else (mkSS plus t face rest', Some (mkSS (negb plus) t' (face ++ [g]) rest'))
       end.
(** ScarfHilbertAlgorithm.cpp:254-273 the loop of enumerateScarfComplex.  The head of [stack] is the entry with index
    activeStateCount - 1 of the array _states, of size [size].  The result are the terms passed to the consumer (238-252
    doEnumerationBaseCase), in order.  [None]: an index outside of _states, or not enough fuel. *)
Fixpoint enumeration (fuel n size : nat) (tree : itree) (stack : list sstate) (out : list (bool * term))
  : option (list (bool * term)) :=
  match stack with
  | [] => Some out
  | s :: stack' =>
      match fuel with
      | O => None
      | S fuel' =>
          if length stack <? size then
            match enumerationStep n tree (ss_plus s) (ss_term s) (ss_face s) (ss_rest s) with
            | (s', Some next) => enumeration fuel' n size tree (next :: s' :: stack') out
            | (s', None) => enumeration fuel' n size tree stack' (out ++ [(ss_plus s', ss_term s')])
            end
          else None
      end
  end.
(** ScarfHilbertAlgorithm.cpp:141-172 initializeEnumeration and 254-273 enumerateScarfComplex *)
Definition scarfComplex (fuel n : nat) (I : ideal) : option (list (bool * term)) :=
  bind (idealTree fuel n I) (fun tree =>
  if i_containsIdentity n I then Some []
  else enumeration fuel n (length I + 2) tree [mkSS true (t_identity n) [] I] []).

Fixpoint undeform_all (n : nat) (tabs : list (list nat)) (l : list (bool * term)) : option (list (bool * term)) :=
  match l with
  | [] => Some []
  | (plus, t) :: l' =>
      match undeform n tabs t, undeform_all n tabs l' with
      | Some u, Some r => Some ((plus, u) :: r)
      | _, _ => None
      end
  end.
(** ScarfHilbertAlgorithm.cpp:112-131 runGeneric, up to the end of the enumeration: the terms added to _poly (lines 56-59,
    69-70), with their signs *)
Definition scarf_terms (fuel n : nat) (strong : bool) (deformationOrder enumerationOrder : ideal -> ideal) (I : ideal)
  : option (list (bool * term)) :=
  let (D, tabs) := deformer n strong deformationOrder I in
  bind (scarfComplex fuel n (enumerationOrder D)) (fun faces => undeform_all n tabs faces).

(** ScarfHilbertAlgorithm.cpp:61-68: the total degree of a term after translation; [None]: a read outside of a table *)
Definition tr_degree (n : nat) (tr : translator) (t : term) : option Z := bind (translate n tr t) (fun v => Some (total_degree v)).
Definition sign (plus : bool) : Z := if plus then 1%Z else (-1)%Z.
Fixpoint degrees_all (n : nat) (tr : translator) (l : list (bool * term)) : option (list (bool * Z)) :=
  match l with
  | [] => Some []
  | (plus, t) :: l' =>
      match tr_degree n tr t, degrees_all n tr l' with
      | Some d, Some r => Some ((plus, d) :: r)
      | _, _ => None
      end
  end.

(** ScarfFacade.cpp:44-72 and ScarfHilbertAlgorithm.cpp:56-79.  What the consumer receives: pairs of a coefficient and an
    exponent vector (of length 1 for the univariate series).  [co] is the state of CommonParamsHelper after the input was
    read, [arr] rearranges the hash map as in M_Poly. *)
Definition scarf_multigraded (fuel : nat) (strong : bool) (deformationOrder enumerationOrder : ideal -> ideal)
  (arr : nat -> list (term * Z) -> list (term * Z)) (canonical : bool) (co : common) : option (list (Z * list Z)) :=
  bind (scarf_terms fuel (co_n co) strong deformationOrder enumerationOrder (co_ideal co)) (fun ts =>
  translate_coefs (co_n co) (co_tr co)
    (hash_polynomial (co_n co) arr (map (fun x => OpAdd (sign (fst x)) (snd x)) ts) canonical)).
Definition scarf_univariate (fuel : nat) (strong : bool) (deformationOrder enumerationOrder : ideal -> ideal)
  (arr : nat -> list (Z * Z) -> list (Z * Z)) (canonical : bool) (co : common) : option (list (Z * list Z)) :=
  bind (scarf_terms fuel (co_n co) strong deformationOrder enumerationOrder (co_ideal co)) (fun ts =>
  bind (degrees_all (co_n co) (co_tr co) ts) (fun ds =>
  Some (map (fun x => (fst x, [snd x]))
    (uni_hash_polynomial arr (map (fun x => OpAdd (sign (fst x)) (snd x)) ds) canonical)))).
