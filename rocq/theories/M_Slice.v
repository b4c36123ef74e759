(** Model of Slice.cpp and MsmSlice.cpp. *)
From Coq Require Import List Arith Bool Lia.
Import ListNotations.
From Verif Require Import M_Term M_Ideal.

(** Slice.h:230-280: the data members of a Slice.  The consumer pointer of MsmSlice is
    modelled by the return values (lists of emitted terms). *)
Record slice := mkSlice {
  s_n : nat;          (* _varCount *)
  s_I : ideal;        (* _ideal *)
  s_S : ideal;        (* _subtract *)
  s_q : term;         (* _multiply *)
  s_lcm : term;       (* _lcm, meaningful when _lcmUpdated *)
  s_upd : bool;       (* _lcmUpdated *)
  s_hint : nat        (* _lowerBoundHint *)
}.

(** Slice.cpp:52-66 getLcm: refreshes the cached lcm. *)
Definition sl_touch (s : slice) : slice :=
  if s_upd s then s
  else mkSlice (s_n s) (s_I s) (s_S s) (s_q s) (i_lcm (s_n s) (s_I s)) true (s_hint s).

(** Slice.cpp:99-104 clearIdealAndSubtract *)
Definition sl_clear (s : slice) : slice :=
  mkSlice (s_n s) [] [] (s_q s) (s_lcm s) false 0.

(** Slice.cpp:189-202 normalize: for each subtract generator remove its strict
    multiples from the ideal. *)
Fixpoint norm_loop (n : nat) (S I : ideal) (upd removed : bool) : ideal * bool * bool :=
  match S with
  | [] => (I, upd, removed)
  | s :: S' =>
      let (I', any) := i_removeIf (t_strictlyDivides n s) I in
      if any then norm_loop n S' I' false true else norm_loop n S' I' upd removed
  end.
Definition sl_normalize (s : slice) : slice * bool :=
  let '(I', upd', removed) := norm_loop (s_n s) (s_S s) (s_I s) (s_upd s) false in
  (mkSlice (s_n s) I' (s_S s) (s_q s) (s_lcm s) upd' (s_hint s), removed).

(** Slice.cpp:110-130 Slice::innerSlice *)
Definition sl_innerSlice (s : slice) (p : term) : slice * bool :=
  let n := s_n s in
  let count := length (s_I s) in
  let q' := t_product n (s_q s) p in
  let (I1, idealChanged) := i_colonReminimize n (s_I s) p in
  let (S1, subtractChanged) := i_colonReminimize n (s_S s) p in
  let changed := idealChanged || subtractChanged in
  let s1 := mkSlice n I1 S1 q' (s_lcm s) (s_upd s) (s_hint s) in
  let s2 := if changed
            then let s1' := fst (sl_normalize s1) in
                 mkSlice n (s_I s1') (s_S s1') (s_q s1') (s_lcm s1') (s_upd s1')
                         (t_firstNonZero n p)
            else s1 in
  let s3 := if length (s_I s2) =? count
            then mkSlice n (s_I s2) (s_S s2) (s_q s2) (t_colon n (s_lcm s2) p) (s_upd s2) (s_hint s2)
            else mkSlice n (s_I s2) (s_S s2) (s_q s2) (s_lcm s2) false (s_hint s2) in
  (s3, changed).

(** Slice.cpp:132-144 Slice::outerSlice *)
Definition sl_outerSlice (s : slice) (p : term) : slice :=
  let n := s_n s in
  let I1 := i_removeStrictMultiples n (s_I s) p in
  let upd1 := if length I1 =? length (s_I s) then s_upd s else false in
  let S1 := if 1 <? t_sizeOfSupport n p then i_insertReminimize n (s_S s) p else s_S s in
  mkSlice n I1 S1 (s_q s) (s_lcm s) upd1 (t_firstNonZero n p).

(** Slice.cpp:264-287 pruneSubtract *)
Definition sl_pruneSubtract (s : slice) : slice * bool :=
  match s_S s with
  | [] => (s, false)
  | _ =>
      let s1 := sl_touch s in
      let n := s_n s1 in
      let (S', any) := i_removeIf
        (fun t => negb (t_strictlyDivides n t (s_lcm s1)) || i_contains n (s_I s1) t) (s_S s1) in
      (mkSlice n (s_I s1) S' (s_q s1) (s_lcm s1) (s_upd s1) (s_hint s1), any)
  end.

(** MsmSlice.cpp:165-188 DoubleLcmPredicate: at least two variables where the
    exponent equals that of the lcm (the code stops counting at two). *)
Definition doubleLcm (n : nat) (lcm t : term) : bool :=
  2 <=? length (filter (fun v => t @ v =? lcm @ v) (seq 0 n)).

(** MsmSlice.cpp:191-211 removeDoubleLcm.  Every round that does not end the loop removes a
    generator, so length+1 rounds are enough. *)
Fixpoint rdl_loop (fuel : nat) (s : slice) : slice * bool :=
  match fuel with
  | 0 => (s, false)
  | S fuel' =>
      let s1 := sl_touch s in
      let (I', any) := i_removeIf (doubleLcm (s_n s1) (s_lcm s1)) (s_I s1) in
      if any
      then (fst (rdl_loop fuel'
              (mkSlice (s_n s1) I' (s_S s1) (s_q s1) (s_lcm s1) false (s_hint s1))), true)
      else (s1, false)
  end.
Definition msm_removeDoubleLcm (s : slice) : slice * bool :=
  match s_I s with
  | [] => (s, false)
  | _ => rdl_loop (S (length (s_I s))) s
  end.

(** MsmSlice.cpp:143-153 MsmSlice::innerSlice *)
Definition msm_innerSlice (s : slice) (p : term) : slice * bool :=
  let (s1, changed) := sl_innerSlice s p in
  if s_upd s1 then (s1, changed)
  else let (s2, removed) := msm_removeDoubleLcm s1 in (s2, removed || changed).

(** MsmSlice.cpp:155-163 MsmSlice::outerSlice *)
Definition msm_outerSlice (s : slice) (p : term) : slice :=
  let s1 := sl_outerSlice s p in
  if s_upd s1 then s1 else fst (msm_removeDoubleLcm s1).

(** MsmSlice.cpp:213-242 getLowerBound; [None] is the return value false. *)
Definition lb_candidate (n : nat) (lcm : term) (var : nat) (g : term) : bool :=
  negb (g @ var =? 0) &&
  negb (existsb (fun var2 => (g @ var2 =? lcm @ var2) && negb (var2 =? var)) (seq 0 n)).
Definition lb_fold (n : nat) (lcm : term) (var : nat) (I : ideal) : term :=
  fold_left (fun b g => if lb_candidate n lcm var g then t_gcd n b g else b) I lcm.
Definition msm_getLowerBound (s : slice) (var : nat) : slice * option term :=
  let s1 := sl_touch s in
  let n := s_n s1 in
  let lcm := s_lcm s1 in
  let bound := lb_fold n lcm var (s_I s1) in
  if (bound @ 0 =? lcm @ 0) && (bound @ 1 =? lcm @ 1) then (s1, None)
  else (s1, Some (t_set n bound var (bound @ var - 1))).

(** Slice.cpp:162-187 adjustMultiply.  [inner] is the virtual method innerSlice.  Result
    [None]: the loop did not end within the fuel. *)
Definition adj_bound (n : nat) (I : ideal) : term :=
  fold_left (fun b g => tabulate n (fun v =>
      if g @ v =? 0 then b @ v
      else if (b @ v =? 0) || (g @ v <? b @ v) then g @ v else b @ v))
    I (t_identity n).
Fixpoint adjustMultiply (fuel : nat) (inner : slice -> term -> slice * bool) (s : slice) (changed : bool)
  : option (slice * bool) :=
  match fuel with
  | 0 => None
  | S fuel' =>
      let bound := t_decrement (s_n s) (adj_bound (s_n s) (s_I s)) in
      if t_isIdentity (s_n s) bound then Some (s, changed)
      else
        let (s1, real) := inner s bound in
        if real then adjustMultiply fuel' inner s1 true else Some (s1, true)
  end.

(** Slice.cpp:289-319 applyLowerBound for MsmSlice.  [None]: out of fuel. *)
Fixpoint lb_loop (fuel : nat) (s : slice) (changed : bool) (steps var : nat) : option (slice * bool) :=
  if steps <? s_n s then
    match fuel with
    | 0 => None
    | S fuel' =>
        match msm_getLowerBound s var with
        | (s1, None) => Some (sl_clear s1, true)
        | (s1, Some bound) =>
            if t_isIdentity (s_n s1) bound
            then lb_loop fuel' s1 changed (S steps) (S var mod s_n s1)
            else
              let (s2, big) := msm_innerSlice s1 bound in
              lb_loop fuel' s2 true (if big then 0 else S steps) (S var mod s_n s2)
        end
    end
  else Some (s, changed).
Definition exp_sum (n : nat) (t : term) : nat := list_sum (map (fun v => t @ v) (seq 0 n)).
Definition lb_fuel (s : slice) : nat :=
  S (s_n s) * S (exp_sum (s_n s) (i_lcm (s_n s) (s_I s))).
Definition msm_adjustMultiply (s : slice) : option (slice * bool) :=
  adjustMultiply (S (exp_sum (s_n s) (i_lcm (s_n s) (s_I s)))) msm_innerSlice s false.
Definition msm_applyLowerBound (s : slice) : option (slice * bool) :=
  match s_I s with
  | [] => Some (s, false)
  | _ =>
      if s_n s =? 1 then msm_adjustMultiply s
      else lb_loop (lb_fuel s) s false 0 (s_hint s)
  end.

(** Slice.cpp:204-215 simplify *)
Definition msm_simplify (s : slice) : option (slice * bool) :=
  match msm_applyLowerBound s with
  | None => None
  | Some (s1, lbChange) =>
      let (s2, prChange) := sl_pruneSubtract s1 in Some (s2, lbChange || prChange)
  end.

(** MsmSlice.cpp:244-278 twoVarBaseCase, on the ideal sorted by the exponent of variable 0. *)
Fixpoint twoVar_emit (S : ideal) (q : term) (sorted : ideal) : list term :=
  match sorted with
  | a :: (b :: _) as rest =>
      let l := [b @ 0 - 1; a @ 1 - 1] in
      if i_contains 2 S l then twoVar_emit S q rest
      else [l @ 0 + q @ 0; l @ 1 + q @ 1] :: twoVar_emit S q rest
  | _ => []
  end.
Definition twoVarBaseCase (s : slice) : list term :=
  twoVar_emit (s_S s) (s_q s) (i_singleDegreeSort (s_I s) 0).

(** MsmSlice.cpp:280-313 oneMoreGeneratorBaseCase.  [None]: the search at 288-292 runs
    off the end of the ideal (undefined behaviour in the code). *)
Definition oneMoreGeneratorBaseCase (s : slice) : option (list term) :=
  let n := s_n s in
  match find (fun g => negb (t_sizeOfSupport n g =? 1)) (s_I s) with
  | None => None
  | Some h =>
      let lcm := s_lcm s in
      let msm := tabulate n (fun v => lcm @ v - 1) in
      let mult := tabulate n (fun v => s_q s @ v + msm @ v) in
      Some (flat_map (fun v =>
        if h @ v =? 1 then
          if i_contains n (s_S s) (t_set n msm v 0) then []
          else [t_set n mult v (mult @ v - (lcm @ v - 1))]
        else []) (seq 0 n))
  end.

(** MsmSlice.cpp:316-340 getTheOnlyTwoNonMax *)
Definition isNonMax (n : nat) (lcm g : term) : bool :=
  forallb (fun v => negb (g @ v =? lcm @ v)) (seq 0 n).
Definition getTheOnlyTwoNonMax (n : nat) (lcm : term) (I : ideal) : option (term * term) :=
  match filter (isNonMax n lcm) I with
  | [a; b] => Some (a, b)
  | _ => None
  end.

(** MsmSlice.cpp:374-386: the variables (flags in tmp) for which a label was found:
    the first variable with maximal exponent of each generator dividing far enough. *)
Definition firstMaxVar (n : nat) (lcm g : term) : nat :=
  find_from (fun v => g @ v =? lcm @ v) 0 n.
Definition twoNonMax_flags (n : nat) (lcm : term) (I : ideal) (a b : term) (var1 var2 : nat) : term :=
  fold_left (fun tmp g =>
      if (a @ var1 <=? g @ var1) || (b @ var2 <=? g @ var2) then tmp
      else let v := firstMaxVar n lcm g in
           if v <? n then t_set n tmp v 1 else tmp)
    I (t_set n (t_set n (t_identity n) var1 1) var2 1).

(** MsmSlice.cpp:342-420 twoNonMaxBaseCase; [None] is the return value false. *)
Definition twoNonMaxBaseCase (s : slice) : option (list term) :=
  let n := s_n s in
  let lcm := s_lcm s in
  match getTheOnlyTwoNonMax n lcm (s_I s) with
  | None => None
  | Some (a, b) =>
      let msm := tabulate n (fun v => lcm @ v - 1) in
      let part1 :=
        flat_map (fun var1 =>
          if (a @ var1 =? 0) || (a @ var1 <=? b @ var1) then []
          else flat_map (fun var2 =>
            if (var1 =? var2) || (b @ var2 =? 0) || (b @ var2 <=? a @ var2) then []
            else if t_sizeOfSupport n (twoNonMax_flags n lcm (s_I s) a b var1 var2) <? n then []
            else
              let m := t_set n (t_set n msm var1 (a @ var1 - 1)) var2 (b @ var2 - 1) in
              if i_contains n (s_S s) m then [] else [t_product n m (s_q s)])
            (seq 0 n)) (seq 0 n) in
      let part2 :=
        flat_map (fun var =>
          let e := if a @ var <? b @ var then a @ var else b @ var in
          if e =? 0 then []
          else
            let m := t_set n msm var (e - 1) in
            if i_contains n (s_S s) m then [] else [t_product n m (s_q s)])
          (seq 0 n) in
      Some (part1 ++ part2)
  end.

(** Outcome of baseCase: not a base case / a base case with the emitted terms / a run into
    undefined behaviour. *)
Inductive base_result :=
| NotBase
| Base (out : list term)
| BaseUB.

(** MsmSlice.cpp:40-112 baseCase *)
Definition msm_baseCase (s : slice) (simplified : bool) : slice * base_result :=
  let n := s_n s in
  if length (s_I s) <? n then (s, Base [])
  else
    let s := sl_touch s in
    if t_sizeOfSupport n (s_lcm s) <? n then (s, Base [])
    else if n =? 0 then
      (s, Base (match s_I s with [] => [s_q s] | _ => [] end))
    else if n =? 1 then (s, Base [s_q s])
    else if negb simplified then
      if t_isSquareFree n (s_lcm s) then (s, Base [s_q s])
      else if length (s_I s) =? n then
        match s_S s with
        | [] => (s, Base [t_product n (s_q s) (t_decrement n (s_lcm s))])
        | _ =>
            let (s1, _) := msm_innerSlice s (t_decrement n (s_lcm s)) in
            if length (s_I s1) <? n then (s1, Base []) else (s1, Base [s_q s1])
        end
      else (s, NotBase)
    else if n =? 2 then (s, Base (twoVarBaseCase s))
    else if n <? length (s_I s) then
      if length (s_I s) =? n + 1 then
        (s, match oneMoreGeneratorBaseCase s with Some out => Base out | None => BaseUB end)
      else
        (s, match twoNonMaxBaseCase s with Some out => Base out | None => NotBase end)
    else (s, Base [s_q s]).
