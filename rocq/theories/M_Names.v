(** Model of VarNames.cpp, VarSorter.cpp, NameFactory.h and of the sorting of variables in CommonParamsHelper.cpp. *)
From Coq Require Import List Arith Bool ZArith Ascii DecimalNat.
Import ListNotations.
From Verif Require Import M_Term M_Ideal M_Slice M_Msm M_Api.

(** ** Strings *)
(** std::string; a character is a byte *)
Notation str := (list ascii).
Definition str_dec : forall a b : str, {a = b} + {a <> b} := list_eq_dec ascii_dec.
(** std::string operator<: lexicographic, with unsigned bytes *)
Fixpoint str_less (a b : str) : bool :=
  match a, b with
  | _, [] => false
  | [], _ :: _ => true
  | x :: a', y :: b' =>
      if nat_of_ascii x <? nat_of_ascii y then true else if nat_of_ascii y <? nat_of_ascii x then false else str_less a' b'
  end.
(** The digits of a number as the library writes it with operator<< or mpz_out_str *)
Fixpoint digits (u : Decimal.uint) : str :=
  match u with
  | Decimal.Nil => []
  | Decimal.D0 u => "0" :: digits u | Decimal.D1 u => "1" :: digits u | Decimal.D2 u => "2" :: digits u
  | Decimal.D3 u => "3" :: digits u | Decimal.D4 u => "4" :: digits u | Decimal.D5 u => "5" :: digits u
  | Decimal.D6 u => "6" :: digits u | Decimal.D7 u => "7" :: digits u | Decimal.D8 u => "8" :: digits u
  | Decimal.D9 u => "9" :: digits u
  end%char.
Definition nat_str (n : nat) : str := digits (Nat.to_uint n).

(** ** VarNames *)
(** VarNames.h:107-108: _nameToIndex, an unordered_map whose order does not matter, and _indexToName.  The pointer to a key of
    the map is modelled as that key; it is dangling if the key is not in the map. *)
Record varNames := VN { vn_map : list (str * nat); vn_names : list str }.
Definition vn_empty : varNames := VN [] [].
Fixpoint map_find (k : str) (m : list (str * nat)) : option nat :=
  match m with
  | [] => None
  | (k', i) :: m' => if str_dec k' k then Some i else map_find k m'
  end.
(** operator[] as the target of an assignment *)
Fixpoint map_set (k : str) (i : nat) (m : list (str * nat)) : list (str * nat) :=
  match m with
  | [] => [(k, i)]
  | (k', j) :: m' => if str_dec k' k then (k', i) :: m' else (k', j) :: map_set k i m'
  end.
(** VarNames.h:113-115 getVarCount *)
Definition vn_count (v : varNames) : nat := length (vn_names v).
(** VarNames.cpp:100-104 getName.  [None]: index out of range or dangling pointer. *)
Definition vn_getName (v : varNames) (i : nat) : option str :=
  match nth_error (vn_names v) i with
  | None => None
  | Some s => match map_find s (vn_map v) with None => None | Some _ => Some s end
  end.

Section VarNames.
  (** VarNames.h:100 invalidIndex, the largest size_t *)
  Context (invalidIndex : nat).
  (** VarNames.cpp:44-66 addVar.  [None]: "Too many variable names".  Running out of memory is not modelled. *)
  Definition vn_addVar (name : str) (v : varNames) : option (varNames * bool) :=
    match map_find name (vn_map v) with
    | Some _ => Some (v, false)
    | None =>
        let v' := VN ((name, length (vn_names v)) :: vn_map v) (vn_names v ++ [name]) in
        if vn_count v' =? invalidIndex then None else Some (v', true)
    end.
  (** VarNames.cpp:83-89 getIndex *)
  Definition vn_getIndex (v : varNames) (name : str) : nat :=
    match map_find name (vn_map v) with None => invalidIndex | Some i => i end.
  (** VarNames.cpp:91-93 contains *)
  Definition vn_contains (v : varNames) (name : str) : bool := negb (vn_getIndex v name =? invalidIndex).
  (** VarNames.cpp:115-126 operator= (for another object) and the constructor 36-38; the loop from [var], k more *)
  Fixpoint vn_copy_from (v : varNames) (var k : nat) (w : varNames) : option varNames :=
    match k with
    | O => Some w
    | S k' => bind (vn_getName v var) (fun s => bind (vn_addVar s w) (fun r => vn_copy_from v (S var) k' (fst r)))
    end.
  Definition vn_copy (v : varNames) : option varNames := vn_copy_from v 0 (vn_count v) vn_empty.
  (** VarNames.cpp:28-34 the constructor with default names *)
  Fixpoint vn_default_from (i k : nat) (w : varNames) : option varNames :=
    match k with
    | O => Some w
    | S k' => bind (vn_addVar ("x"%char :: nat_str (i + 1)) w) (fun r => vn_default_from (S i) k' (fst r))
    end.
  Definition vn_default (n : nat) : option varNames := vn_default_from 0 n vn_empty.
  (** VarNames.cpp:128-137 operator== *)
  Fixpoint vn_eq_from (v w : varNames) (var k : nat) : option bool :=
    match k with
    | O => Some true
    | S k' => bind (vn_getName v var) (fun a => bind (vn_getName w var) (fun b =>
                if str_dec a b then vn_eq_from v w (S var) k' else Some false))
    end.
  Definition vn_eq (v w : varNames) : option bool :=
    if vn_count v =? vn_count w then vn_eq_from v w 0 (vn_count v) else Some false.
  (** VarNames.cpp:95-98 namesAreDefault *)
  Definition vn_namesAreDefault (v : varNames) : option bool := bind (vn_default (vn_count v)) (fun w => vn_eq v w).
  (** VarNames.cpp:75-81 operator<, 195-197 compareNames; with lexicographical_compare *)
  Fixpoint vn_less_names (a b : list str) : bool :=
    match a, b with
    | _, [] => false
    | [], _ :: _ => true
    | x :: a', y :: b' => if str_less x y then true else if str_less y x then false else vn_less_names a' b'
    end.
  Fixpoint vn_deref (v : varNames) (l : list str) : option (list str) :=
    match l with
    | [] => Some []
    | s :: l' => match map_find s (vn_map v) with None => None | Some _ => bind (vn_deref v l') (fun r => Some (s :: r)) end
    end.
  Definition vn_less (v w : varNames) : option bool :=
    bind (vn_deref v (vn_names v)) (fun a => bind (vn_deref w (vn_names w)) (fun b => Some (vn_less_names a b))).
  (** VarNames.cpp:143-159 swapVariables.  [None]: an index is out of range, or a dangling pointer. *)
  Definition list_set {A} (l : list A) (i : nat) (x : A) : list A :=
    match skipn i l with [] => l | _ :: r => firstn i l ++ x :: r end.
  Definition vn_swapVariables (a b : nat) (v : varNames) : option varNames :=
    bind (vn_getName v a) (fun sa => bind (vn_getName v b) (fun sb =>
      if a =? b then Some v
      else Some (VN (map_set sa b (map_set sb a (vn_map v))) (list_set (list_set (vn_names v) a sb) b sa)))).
  (** VarNames.cpp:161-169 projectVar *)
  Fixpoint vn_project_from (v : varNames) (index var k : nat) (w : varNames) : option varNames :=
    match k with
    | O => Some w
    | S k' =>
        if var =? index then vn_project_from v index (S var) k' w
        else bind (vn_getName v var) (fun s => bind (vn_addVar s w) (fun r => vn_project_from v index (S var) k' (fst r)))
    end.
  Definition vn_projectVar (index : nat) (v : varNames) : option varNames :=
    bind (vn_project_from v index 0 (vn_count v) vn_empty) vn_copy.
  (** VarNames.cpp:171-178 toString *)
  Fixpoint vn_toString_from (v : varNames) (i k : nat) : option str :=
    match k with
    | O => Some []
    | S k' => bind (vn_getName v i) (fun s => bind (vn_toString_from v (S i) k') (fun r =>
                Some ((if i =? 0 then [] else [","; " "]%char) ++ s ++ r)))
    end.
  Definition vn_toString (v : varNames) : option str := vn_toString_from v 0 (vn_count v).

  (** The operations that change an object *)
  Inductive vn_op := VAdd (name : str) | VSwap (a b : nat) | VProject (index : nat) | VClear | VCopy.
  (** VarNames.cpp:106-109 clear, and the above; with the results of addVar *)
  Definition vn_step (v : varNames) (op : vn_op) : option (varNames * list bool) :=
    match op with
    | VAdd name => bind (vn_addVar name v) (fun r => Some (fst r, [snd r]))
    | VSwap a b => bind (vn_swapVariables a b v) (fun w => Some (w, []))
    | VProject i => bind (vn_projectVar i v) (fun w => Some (w, []))
    | VClear => Some (vn_empty, [])
    | VCopy => bind (vn_copy v) (fun w => Some (w, []))
    end.
  Fixpoint vn_run (v : varNames) (ops : list vn_op) : option (varNames * list bool) :=
    match ops with
    | [] => Some (v, [])
    | op :: ops' => bind (vn_step v op) (fun r => bind (vn_run (fst r) ops') (fun q => Some (fst q, snd r ++ snd q)))
    end.
End VarNames.

(** ** VarSorter *)
(** VarSorter.cpp:40-48 the constructor: _permutation; names are those of the object, in order *)
Definition sorter (names : list str) : list nat :=
  std_sort (fun a b => str_less (nth a names []) (nth b names [])) (seq 0 (length names)).
(** VarSorter.cpp:50-54 getOrderedNames; _names.getName *)
Fixpoint ordered_names (invalidIndex : nat) (v : varNames) (perm : list nat) (w : varNames) : option varNames :=
  match perm with
  | [] => Some w
  | p :: perm' =>
      bind (vn_getName v p) (fun s => bind (vn_addVar invalidIndex s w) (fun r => ordered_names invalidIndex v perm' (fst r)))
  end.
(** VarSorter.cpp:56-61 and 63-67 permute: term[i] and tmp[_permutation[i]] are swapped.  [None]: an index is out of range. *)
Fixpoint permute_loop {A} (perm : list nat) (i : nat) (term tmp : list A) : option (list A * list A) :=
  match perm with
  | [] => Some (term, tmp)
  | p :: perm' =>
      match nth_error term i, nth_error tmp p with
      | Some x, Some y => permute_loop perm' (S i) (list_set term i y) (list_set tmp p x)
      | _, _ => None
      end
  end.
(** VarSorter.cpp:63-67: _tmpTerm is a copy of the term *)
Definition permute_exponents {A} (perm : list nat) (term : list A) : option (list A) :=
  bind (permute_loop perm 0 term term) (fun r => Some (fst r)).
(** VarSorter.cpp:56-61: _bigTmpTerm, here [old], is swapped with the term before the loop *)
Definition permute_big {A} (perm : list nat) (old term : list A) : option (list A * list A) := permute_loop perm 0 old term.

(** VarSorter.cpp:77-89 the inner loop.  [None]: out of range, or out of fuel (excluded by C50). *)
Fixpoint permute_cycle {T} (swap : nat -> nat -> T -> option T) (perm : list nat) (fuel v : nat) (done : list bool) (tr : T) : option (list bool * T) :=
  match fuel with
  | O => None
  | S fuel' =>
      let done' := list_set done v true in
      bind (nth_error perm v) (fun next =>
      bind (nth_error done' next) (fun d =>
        if d then Some (done', tr)
        else bind (swap v next tr) (fun tr' => permute_cycle swap perm fuel' next done' tr')))
  end.
(** VarSorter.cpp:69-92 permute of a translator; the loop from [var], k more *)
Fixpoint permute_cycles {T} (swap : nat -> nat -> T -> option T) (perm : list nat) (var k : nat) (done : list bool) (tr : T) : option T :=
  match k with
  | O => Some tr
  | S k' =>
      bind (nth_error done var) (fun d =>
        if d then permute_cycles swap perm (S var) k' done tr
        else bind (permute_cycle swap perm (length perm) var done tr) (fun r => permute_cycles swap perm (S var) k' (fst r) (snd r)))
  end.
(** TermTranslator.cpp:310-326 swapVariables: the tables and the names.  The tables of strings are not modelled. *)
Definition tr_swapVariables (a b : nat) (tr : translator * varNames) : option (translator * varNames) :=
  if a =? b then Some tr
  else match nth_error (fst tr) a, nth_error (fst tr) b with
       | Some x, Some y => bind (vn_swapVariables a b (snd tr)) (fun names => Some (list_set (list_set (fst tr) a y) b x, names))
       | _, _ => None
       end.
Definition permute_translator (perm : list nat) (tr : translator * varNames) : option (translator * varNames) :=
  permute_cycles tr_swapVariables perm 0 (length perm) (map (fun _ => false) perm) tr.

Fixpoint mapO {A B} (f : A -> option B) (l : list A) : option (list B) :=
  match l with [] => Some [] | x :: l' => bind (f x) (fun y => bind (mapO f l') (fun r => Some (y :: r))) end.
(** CommonParamsHelper.cpp:191-202 in setIdeal: for canonical output the variables are sorted *)
Definition sort_variables (tr : translator) (names : varNames) (I : ideal) : option (translator * varNames * ideal) :=
  bind (vn_deref names (vn_names names)) (fun l =>
    let perm := sorter l in
    bind (permute_translator perm (tr, names)) (fun r =>
    bind (mapO (permute_exponents perm) I) (fun I' => Some (fst r, snd r, I')))).

(** BigIdeal.cpp:298-303 sortVariables, and BigPolynomial.cpp:50-55.  _bigTmpTerm is zero first (VarSorter.cpp:42) and later
    what the previous call of permute has left in it. *)
Fixpoint big_permute_all (perm : list nat) (old : list Z) (I : list (list Z)) : option (list (list Z)) :=
  match I with
  | [] => Some []
  | t :: I' => bind (permute_big perm old t) (fun r => bind (big_permute_all perm (snd r) I') (fun I'' => Some (fst r :: I'')))
  end.
Definition big_sortVariables (invalidIndex : nat) (names : varNames) (I : list (list Z)) : option (varNames * list (list Z)) :=
  bind (vn_deref names (vn_names names)) (fun l =>
    let perm := sorter l in
    bind (ordered_names invalidIndex names perm vn_empty) (fun names' =>
    bind (big_permute_all perm (map (fun _ => 0%Z) l) I) (fun I' => Some (names', I')))).

(** ** NameFactory *)
(** NameFactory.h:61-63: _pairs *)
Section Factory.
  Context {P : Type}.
  Definition factory := list (str * P).
  (** NameFactory.h:97-104 createNoThrow; [None] is the null pointer *)
  Fixpoint createNoThrow (f : factory) (name : str) : option P :=
    match f with
    | [] => None
    | (s, p) :: f' => if str_dec s name then Some p else createNoThrow f' name
    end.
  (** NameFactory.h:106-114 create; [inr] is the exception *)
  Definition create (f : factory) (name : str) : P + unit :=
    match createNoThrow f name with Some p => inl p | None => inr tt end.
  (** string::compare(0, prefix.size(), prefix) == 0 *)
  Definition has_prefix (prefix s : str) : bool := if str_dec (firstn (length prefix) s) prefix then true else false.
  (** NameFactory.h:122-129 getNamesWithPrefix *)
  Definition getNamesWithPrefix (f : factory) (prefix : str) : list str :=
    std_sort str_less (filter (has_prefix prefix) (map fst f)).
  Inductive lookup := Found (name : str) | Unknown | Ambiguous (names : list str).
  (** NameFactory.h:158-186 getUniqueNameWithPrefix *)
  Definition getUniqueNameWithPrefix (f : factory) (prefix : str) : lookup :=
    let names := getNamesWithPrefix f prefix in
    let names := if existsb (fun s => if str_dec s prefix then true else false) names then [prefix] else names in
    match names with
    | [] => Unknown
    | [s] => Found s
    | _ => Ambiguous names
    end.
  (** NameFactory.h:152-156 createWithPrefix; [inr]: an exception *)
  Definition createWithPrefix (f : factory) (prefix : str) : option P + lookup :=
    match getUniqueNameWithPrefix f prefix with
    | Found s => inl (createNoThrow f s)
    | e => inr e
    end.
End Factory.
