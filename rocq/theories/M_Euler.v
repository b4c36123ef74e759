(** The Euler characteristic algorithm: PivotEulerAlg.cpp, EulerState.cpp, PivotStrategy.cpp, the parts of
    RawSquareFreeIdeal.cpp they use, and EulerAction.cpp.  A square free term is modelled as the list of its exponents,
    one [bool] per variable; that the packed words of the program behave like this is property C32.  Memory is not
    modelled: the arena, the capacities of the ideals and the temporary terms.  [None] and [EUndef] stand for undefined
    behaviour of the program. *)
From Coq Require Import List Arith Bool ZArith.
Import ListNotations.
From Verif Require Import M_SqFree.

Notation eterm := (list bool).

(** ** Terms: RawSquareFreeTerm.cpp, see M_SqFree.v for the word level *)
Fixpoint e_zip (f : bool -> bool -> bool) (a b : eterm) : eterm :=
  match a, b with x :: a', y :: b' => f x y :: e_zip f a' b' | _, _ => [] end.
(* RawSquareFreeTerm.h 151-155 getExponent *)
Definition e_get (t : eterm) (v : nat) : bool := nth v t false.
(* RawSquareFreeTerm.h 170-176 setExponent *)
Fixpoint e_set (t : eterm) (v : nat) (b : bool) : eterm :=
  match t, v with
  | [], _ => []
  | _ :: t', O => b :: t'
  | x :: t', S v' => x :: e_set t' v' b
  end.
(* RawSquareFreeTerm.cpp 251-298 lcm, gcd, 176-184 colon; RawSquareFreeTerm.h 144-149 divides, 195-200
   isRelativelyPrime, 183-193 hasFullSupport; RawSquareFreeTerm.cpp 71-89 getSizeOfSupport, 115-125 setToIdentity,
   311-318 invert *)
Definition e_lcm : eterm -> eterm -> eterm := e_zip orb.
Definition e_gcd : eterm -> eterm -> eterm := e_zip andb.
Definition e_colon : eterm -> eterm -> eterm := e_zip (fun x y => x && negb y).
Definition e_divides (a b : eterm) : bool := forallb (fun x => x) (e_zip (fun x y => negb x || y) a b).
Definition e_prime (a b : eterm) : bool := forallb (fun x => x) (e_zip (fun x y => negb (x && y)) a b).
Definition e_full (t : eterm) : bool := forallb (fun x => x) t.
Definition e_size (t : eterm) : nat := length (filter (fun x => x) t).
Definition e_one (n : nat) : eterm := repeat false n.
Definition e_all (n : nat) : eterm := repeat true n.
Definition e_invert (t : eterm) : eterm := map negb t.

(** ** Ideals: RawSquareFreeIdeal.cpp *)

(** The elements before the last one that satisfies pred, that one, and those after it *)
Fixpoint split_last (pred : eterm -> bool) (l : list eterm) : option (list eterm * eterm * list eterm) :=
  match l with
  | [] => None
  | x :: r => match split_last pred r with
              | Some (a, y, b) => Some (x :: a, y, b)
              | None => if pred x then Some ([], x, r) else None
              end
  end.
(* RawSquareFreeIdeal.cpp 32-63 RsfPartition: begin moves up over elements that satisfy pred, end moves down over
   elements that do not, then these two are swapped.  [k] is end - begin. *)
Fixpoint rsf_partition (pred : eterm -> bool) (k : nat) (l : list eterm) : list eterm * list eterm :=
  match k, l with
  | S k', x :: r =>
      if pred x then let (a, b) := rsf_partition pred k' r in (x :: a, b)
      else match split_last pred r with
           | None => ([], l)
           | Some (m, y, e) => let (a, b) := rsf_partition pred k' m in (y :: a, b ++ x :: e)
           end
  | _, _ => ([], l)
  end.

(** The last element takes the place of a removed first one. *)
Definition move_last (l : list eterm) : list eterm :=
  match l with [] => [] | x :: _ => last l x :: removelast l end.

(* RawSquareFreeIdeal.cpp 65-83 minimize: an element that is divisible by another one is overwritten with the last
   element.  [k] is end - it, [done] are the elements before it. *)
Fixpoint rsf_minimize (k : nat) (done rest : list eterm) : list eterm :=
  match k, rest with
  | S k', x :: r =>
      if existsb (fun d => e_divides d x) (done ++ r) then rsf_minimize k' done (move_last r)
      else rsf_minimize k' (done ++ [x]) r
  | _, _ => done
  end.
(* RawSquareFreeIdeal.cpp 242-247 *)
Definition e_minimize (gens : list eterm) : list eterm := rsf_minimize (length gens) [] gens.

(* RawSquareFreeIdeal.cpp 665-712 colonReminimize(const Word* ) *)
Definition e_colonReminimize (by_ : eterm) (gens : list eterm) : list eterm :=
  let (front, back) := rsf_partition (fun g => negb (e_prime by_ g)) (length gens) gens in
  match front with
  | [] => back
  | _ => let m := e_minimize (map (fun g => e_colon g by_) front) in
         m ++ filter (fun x => negb (existsb (fun d => e_divides d x) m)) back
  end.

(* RawSquareFreeIdeal.cpp 745-759: elements of the second range that are divisible by an element of the first range
   are overwritten with the last one. [k] is stop - it. *)
Fixpoint reminimize_back (front : list eterm) (k : nat) (done rest : list eterm) : list eterm :=
  match k, rest with
  | S k', x :: r =>
      if existsb (fun d => e_divides d x) front then reminimize_back front k' done (move_last r)
      else reminimize_back front k' (done ++ [x]) r
  | _, _ => done
  end.
(* RawSquareFreeIdeal.cpp 714-763 colonReminimize(size_t) *)
Definition e_colonReminimizeVar (var : nat) (gens : list eterm) : list eterm :=
  let (front, back) := rsf_partition (fun g => e_get g var) (length gens) gens in
  match front with
  | [] => back
  | _ => let front' := map (fun g => e_set g var false) front in
         match back with
         | [] => front'
         | _ => front' ++ reminimize_back front' (length back) [] back
         end
  end.

(* RawSquareFreeIdeal.cpp 257-262 colon(size_t) *)
Definition e_colonVar (var : nat) (gens : list eterm) : list eterm := map (fun g => e_set g var false) gens.

(* RawSquareFreeIdeal.cpp 393-402 getMultiple, 404-413 getNonMultiple: index of the first generator that var divides (does not divide) *)
Fixpoint e_getMultiple (var : nat) (gens : list eterm) : nat :=
  match gens with [] => 0 | g :: r => if e_get g var then 0 else S (e_getMultiple var r) end.
Fixpoint e_getNonMultiple (var : nat) (gens : list eterm) : nat :=
  match gens with [] => 0 | g :: r => if e_get g var then S (e_getNonMultiple var r) else 0 end.

(* RawSquareFreeIdeal.cpp 415-453: getMaxSupportGen and getMinSupportGen; the first index with a maximal (minimal) key *)
Fixpoint first_best (better : nat -> nat -> bool) (keys : list nat) (i best besti : nat) : nat :=
  match keys with
  | [] => besti
  | k :: r => if better k best then first_best better r (S i) k i else first_best better r (S i) best besti
  end.
Definition e_best (better : nat -> nat -> bool) (keys : list nat) : nat :=
  match keys with [] => 0 | k :: r => first_best better r 1 k 0 end.
Definition e_getMaxSupportGen (gens : list eterm) : nat := e_best (fun a b => b <? a) (map e_size gens).
Definition e_getMinSupportGen (gens : list eterm) : nat := e_best (fun a b => a <? b) (map e_size gens).

(* RawSquareFreeIdeal.cpp 304-315 getLcmOfNonMultiples *)
Definition e_getLcmOfNonMultiples (n var : nat) (gens : list eterm) : eterm :=
  fold_left (fun a g => if e_get g var then a else e_lcm a g) gens (e_one n).
(* RawSquareFreeIdeal.cpp 467-478 getGcdOfMultiples(Word*, const Word* ) *)
Definition e_getGcdOfMultiples (n : nat) (div : eterm) (gens : list eterm) : eterm :=
  fold_left (fun a g => if e_divides div g then e_gcd a g else a) gens (e_all n).

(* RawSquareFreeIdeal.cpp 480-488 removeGenerator: the last generator takes the place of the removed one *)
Definition e_removeGenerator (gens : list eterm) (i : nat) : option (list eterm) :=
  match skipn i gens with [] => None | _ :: r => Some (firstn i gens ++ move_last r) end.

(* RawSquareFreeIdeal.cpp 366-391 getVarDividesCounts; the counting in blocks of 15 words is modelled in M_SqFree.v *)
Definition e_counts (n : nat) (gens : list eterm) : list nat :=
  map (fun v => length (filter (fun g => e_get g v) gens)) (seq 0 n).

(* RawSquareFreeIdeal.cpp 545-577 hasFullSupport(ignore) *)
Definition e_hasFullSupport (gens : list eterm) (ignore : eterm) : bool := e_full (fold_left e_lcm gens ignore).

(** The exponents of the variables that are not in the support of [remove] *)
Fixpoint e_keep (remove t : eterm) : eterm :=
  match remove, t with r :: remove', x :: t' => if r then e_keep remove' t' else x :: e_keep remove' t' | _, _ => [] end.
(* RawSquareFreeIdeal.cpp 264-302 compact, on one generator; C32_ideal relates the two when a variable is kept *)
Definition e_compact (remove : eterm) (gens : list eterm) : list eterm := map (e_keep remove) gens.

(* RawSquareFreeIdeal.cpp 140-166 setToTransposeOf, 168-177 transpose *)
Definition e_transpose (erase : eterm) (gens : list eterm) : list eterm :=
  map (fun v => map (fun g => e_get g v) gens) (filter (fun v => negb (e_get erase v)) (seq 0 (length erase))).

(** ** States: EulerState.cpp *)
(* EulerState.h 76-80; _alloc is not modelled, _parent is the next element of the stack in [euler_loop] *)
Record estate := ES { es_n : nat; es_gens : list eterm; es_elim : eterm; es_sign : Z }.

(* EulerState.cpp 240-246 *)
Definition es_nonElim (s : estate) : nat := es_n s - e_size (es_elim s).

(* EulerState.cpp 118-127 toColonSubState(const Word* ); returns if the number of generators changed *)
Definition toColonTerm (s : estate) (p : eterm) : bool * estate :=
  let g := e_colonReminimize p (es_gens s) in
  (negb (length (es_gens s) =? length g), ES (es_n s) g (e_lcm (es_elim s) p) (es_sign s)).
(* EulerState.cpp 129-138 toColonSubState(size_t) *)
Definition toColonVar (s : estate) (v : nat) : option (bool * estate) :=
  if v <? es_n s then
    let g := e_colonReminimizeVar v (es_gens s) in
    Some (negb (length (es_gens s) =? length g), ES (es_n s) g (e_set (es_elim s) v true) (es_sign s))
  else None.
(* EulerState.cpp 140-147 toColonSubStateNoReminimizeNecessary(size_t) *)
Definition toColonVarNoRe (s : estate) (v : nat) : option estate :=
  if v <? es_n s then Some (ES (es_n s) (e_colonVar v (es_gens s)) (e_set (es_elim s) v true) (es_sign s)) else None.

(* EulerState.cpp 158-172 makeSumSubState(size_t) *)
Definition makeSumVar (s : estate) (v : nat) : estate :=
  ES (es_n s) (filter (fun g => negb (e_get g v)) (es_gens s)) (e_set (es_elim s) v true) (- es_sign s)%Z.
(* EulerState.cpp 174-188 makeSumSubState(Word* ) *)
Definition makeSumTerm (s : estate) (p : eterm) : estate :=
  ES (es_n s) (filter (fun g => negb (e_divides p g)) (es_gens s) ++ [p]) (es_elim s) (es_sign s).

(* EulerState.cpp 190-194 transpose.  Without generators the eliminated variables would not be reset, see C32: [None]. *)
Definition es_transpose (s : estate) : option estate :=
  match es_gens s with
  | [] => None
  | _ => Some (ES (length (es_gens s)) (e_minimize (e_transpose (es_elim s) (es_gens s)))
                  (e_one (length (es_gens s))) (es_sign s))
  end.

(* EulerState.cpp 196-204 compactEliminatedVariablesIfProfitable; w is the number of bits of a word.  [None]: all
   variables would be removed, then neither compact nor setToIdentity reset the words, see C32. *)
Definition es_compact (w : nat) (s : estate) : option estate :=
  if getWordCount w (es_nonElim s) <? getWordCount w (es_n s) then
    if es_nonElim s =? 0 then None
    else Some (ES (es_nonElim s) (e_compact (es_elim s) (es_gens s)) (e_one (es_nonElim s)) (es_sign s))
  else Some s.

(** A pivot: a variable, a term or the index of a generator *)
Inductive pivot := PVar (v : nat) | PTerm (p : eterm) | PGen (i : nat).
(* EulerState.cpp 81-86, 88-93 inPlaceStdSplit, 95-116 inPlaceGenSplit: the state itself and the new state after the split *)
Definition es_split (s : estate) (p : pivot) : option (estate * estate) :=
  match p with
  | PVar v => match toColonVar s v with Some (_, s') => Some (s', makeSumVar s v) | None => None end
  | PTerm t => Some (snd (toColonTerm s t), makeSumTerm s t)
  | PGen i =>
      match nth_error (es_gens s) i, e_removeGenerator (es_gens s) i with
      | Some g, Some gens' =>
          let s' := ES (es_n s) gens' (es_elim s) (es_sign s) in
          let sub := snd (toColonTerm s' g) in
          Some (s', ES (es_n sub) (es_gens sub) (es_elim sub) (- es_sign sub)%Z)
      | _, _ => None
      end
  end.

(** ** Base cases and simplifications: PivotEulerAlg.cpp 41-196 *)

(* PivotEulerAlg.cpp 41-63 baseCaseSimple1: [Some] of the new accumulator if it is a base case *)
Definition baseCaseSimple1 (acc : Z) (s : estate) : option Z :=
  if negb (e_hasFullSupport (es_gens s) (es_elim s)) then Some acc
  else match es_gens s with
       | [] => Some (acc + es_sign s)%Z
       | [_] => Some (if e_full (es_elim s) then acc else (acc - es_sign s)%Z)
       | [_; _] => Some (acc + es_sign s)%Z
       | _ => None
       end.

Fixpoint set_nth (l : list nat) (i x : nat) : list nat :=
  match l, i with [], _ => [] | _ :: r, O => x :: r | y :: r, S i' => y :: set_nth r i' x end.

(* PivotEulerAlg.cpp 65-109 optimizeSimpleFromDivCounts, the loop over var; genCount is constant in it.  genCount - 2 is
   unsigned: [None] if it wraps around. *)
Fixpoint optimizeSimple (vars : list nat) (genCount : nat) (acc : Z) (s : estate) (counts : list nat)
  : option (bool * Z * estate * list nat) :=
  if genCount <? 2 then None else
  match vars with
  | [] => Some (false, acc, s, counts)
  | v :: vars' =>
      let c := nth v counts 0 in
      if c <? genCount - 2 then optimizeSimple vars' genCount acc s counts
      else if c =? genCount - 1 then
        match nth_error (es_gens s) (e_getNonMultiple v (es_gens s)) with
        | None => None
        | Some h =>
            let t := e_set (e_lcm h (es_elim s)) v true in
            let acc' := if e_full t then (acc + es_sign s)%Z else acc in
            match toColonVar s v with
            | None => None
            | Some (true, s') => Some (true, acc', s', counts)
            | Some (false, s') => optimizeSimple vars' genCount acc' s' (set_nth counts v 0)
            end
        end
      else if c =? genCount - 2 then
        let t := e_set (e_lcm (e_getLcmOfNonMultiples (es_n s) v (es_gens s)) (es_elim s)) v true in
        let acc' := if e_full t then (acc - es_sign s)%Z else acc in
        match toColonVar s v with
        | None => None
        | Some (true, s') => Some (true, acc', s', counts)
        | Some (false, s') => optimizeSimple vars' genCount acc' s' (set_nth counts v 0)
        end
      else
        match toColonVarNoRe s v with
        | None => None
        | Some s' => optimizeSimple vars' genCount acc s' (set_nth counts v 0)
        end
  end.

(* PivotEulerAlg.cpp 140-176 optimizeOneDivCounts: the two loops as one; tmp is [None] before a generator was removed *)
Fixpoint oneDiv_loop (vars : list nat) (counts : list nat) (gens : list eterm) (sign : Z) (tmp : option eterm)
  : option (list eterm * Z * option eterm) :=
  match vars with
  | [] => Some (gens, sign, tmp)
  | v :: vars' =>
      if negb (nth v counts 0 =? 1) || match tmp with None => false | Some t => e_get t v end
      then oneDiv_loop vars' counts gens sign tmp
      else
        let i := e_getMultiple v gens in
        match nth_error gens i, e_removeGenerator gens i with
        | Some g, Some gens' =>
            oneDiv_loop vars' counts gens' (- sign)%Z (Some match tmp with None => g | Some t => e_lcm t g end)
        | _, _ => None
        end
  end.
Fixpoint zeroAt (t : eterm) (counts : list nat) : list nat :=
  match t, counts with b :: t', c :: r => (if b then 0 else c) :: zeroAt t' r | _, _ => counts end.
Definition optimizeOneDivCounts (s : estate) (counts : list nat) : option (bool * estate * list nat) :=
  match oneDiv_loop (seq 0 (es_n s)) counts (es_gens s) (es_sign s) None with
  | None => None
  | Some (_, _, None) => Some (false, s, counts)
  | Some (gens, sign, Some tmp) =>
      let (changed, s') := toColonTerm (ES (es_n s) gens (es_elim s) sign) tmp in
      if changed || (length (es_gens s') <=? 2) then Some (true, s', counts)
      else Some (false, s', zeroAt tmp counts)
  end.

(* PivotEulerAlg.cpp 178-196 optimizeVarPairs *)
Fixpoint optimizeVarPairs (vars : list nat) (s : estate) (counts : list nat) : option (bool * estate * list nat) :=
  match vars with
  | [] => Some (false, s, counts)
  | v :: vars' =>
      if e_get (es_elim s) v then optimizeVarPairs vars' s counts
      else
        let t := e_set (e_lcm (e_getLcmOfNonMultiples (es_n s) v (es_gens s)) (es_elim s)) v true in
        if e_full t then optimizeVarPairs vars' s counts
        else match toColonVar s v with
             | None => None
             | Some (true, s') => Some (true, s', counts)
             | Some (false, s') => optimizeVarPairs vars' s' (set_nth counts v 0)
             end
  end.

(* PivotEulerAlg.cpp 129-138 baseCasePreconditionSimplified; 111-127 baseCaseSimple2 is never called *)
Definition baseCasePreconditionSimplified (acc : Z) (s : estate) : option Z :=
  if length (es_gens s) =? 3 then Some (acc + (es_sign s + es_sign s))%Z else None.

(** ** Pivots: PivotStrategy.cpp *)
(* The classes StdStrategy, GenStrategy, StdWiden, GenComposite and HybridPivotStrategy; DebugStrategy and
   StatisticsStrategy only print and are not modelled. *)
Inductive stdStrat := StdPopVar | StdRareVar | StdPopGcd | StdRandom | StdAny.
Inductive genStrat := GenPopVar | GenRareMax | GenRareVar | GenRarestVars | GenMaxSupport | GenMinSupport | GenAny | GenRandom.
Inductive strategy :=
  | SStd (s : stdStrat) | SWiden (s : stdStrat) | SGen (g : genStrat) | SComposite (l : list genStrat)
  | SHybrid (std gen : strategy).

(* PivotStrategy.cpp 32-34 getPopVar: std::max_element returns the first maximum *)
Definition getPopVar (counts : list nat) : nat := e_best (fun a b => b <? a) counts.
(* PivotStrategy.cpp 36-50 getRareVar; [None]: all counts are zero, reads past the end *)
Fixpoint rare_loop (counts : list nat) (i best besti : nat) : nat :=
  match counts with
  | [] => besti
  | c :: r => if (0 <? c) && (c <? best) then rare_loop r (S i) c i else rare_loop r (S i) best besti
  end.
Fixpoint getRareVar_from (counts : list nat) (i : nat) : option nat :=
  match counts with
  | [] => None
  | 0 :: r => getRareVar_from r (S i)
  | c :: r => Some (rare_loop r (S i) c i)
  end.
Definition getRareVar (counts : list nat) : option nat := getRareVar_from counts 0.

(** The term of one variable (PivotStrategy.cpp 115-117 and others) *)
Definition e_var (n v : nat) : eterm := e_set (e_one n) v true.

(* PivotStrategy.cpp 222-228 getRandomNotEliminatedVar: draws until a variable that is not eliminated comes up.
   [rnd] are the values of rand() in this call of doPivot, [tries] bounds the number of draws that are looked at. *)
Fixpoint randomVar (rnd : nat -> nat) (n : nat) (elim : eterm) (tries i : nat) : option nat :=
  match tries with
  | O => None
  | S k => let v := rnd i mod n in if e_get elim v then randomVar rnd n elim k (S i) else Some v
  end.
(* PivotStrategy.cpp 256-262 getAnyNotEliminatedVar *)
Fixpoint anyVar (elim : eterm) (i : nat) : option nat :=
  match elim with [] => None | b :: r => if b then anyVar r (S i) else Some i end.

(* PivotStrategy.cpp 170-183 the loop of StdPopGcd::getPivot: the gcd of the first up to three multiples of popVar *)
Fixpoint popGcd_loop (popVar : nat) (gens : list eterm) (seen : nat) (pivot : eterm) : eterm :=
  match gens with
  | [] => pivot
  | g :: r =>
      if e_get g popVar then
        let pivot' := if seen =? 0 then g else e_gcd pivot g in
        if S seen =? 3 then pivot' else popGcd_loop popVar r (S seen) pivot'
      else popGcd_loop popVar r seen pivot
  end.

(* The pivot of a standard strategy: a variable, or a term for StdPopGcd: the doPivot and getPivot functions
   of PivotStrategy.cpp 105-263 *)
Definition std_var (rnd : nat -> nat) (tries : nat) (st : stdStrat) (s : estate) (counts : list nat) : option nat :=
  match st with
  | StdPopVar | StdPopGcd => Some (getPopVar counts)
  | StdRareVar => getRareVar counts
  | StdRandom => randomVar rnd (es_n s) (es_elim s) tries 0
  | StdAny => anyVar (es_elim s) 0
  end.
(* PivotStrategy.cpp 112-118, 136-142, 159-186, 204-211, 238-245 getPivot of the five classes *)
Definition std_pivot (rnd : nat -> nat) (tries : nat) (st : stdStrat) (s : estate) (counts : list nat) : option eterm :=
  match std_var rnd tries st s counts with
  | None => None
  | Some v =>
      match st with
      | StdPopGcd => Some (if nth v counts 0 =? 1 then e_var (es_n s) v
                           else popGcd_loop v (es_gens s) 0 (e_one (es_n s)))
      | _ => Some (e_var (es_n s) v)
      end
  end.

(** The loop of the filters (PivotStrategy.cpp 329-336, 377-392, 418-425, 534-553, 635-648, 669-682): elements with a worse key are skipped, a better key discards those kept so far, and each kept
    element is swapped to the end of the kept range. *)
Fixpoint filter_loop (key : eterm -> option nat) (better : nat -> nat -> bool) (l : list eterm) (best : nat)
  (kept skipped : list eterm) : list eterm * list eterm :=
  match l with
  | [] => (kept, skipped)
  | x :: r =>
      match key x with
      | None => filter_loop key better r best kept (skipped ++ [x])
      | Some k =>
          if better best k then filter_loop key better r best kept (skipped ++ [x])
          else
            let '(best', kept', skipped') := if better k best then (k, [], kept ++ skipped) else (best, kept, skipped) in
            match skipped' with
            | [] => filter_loop key better r best' (kept' ++ [x]) []
            | y :: ss => filter_loop key better r best' (kept' ++ [x]) (ss ++ [y])
            end
      end
  end.
Definition greater (a b : nat) : bool := b <? a.
Definition less (a b : nat) : bool := a <? b.

(** The term of the variables whose count is c *)
Definition mask_of (counts : list nat) (c : nat) : eterm := map (fun x => x =? c) counts.

(* PivotStrategy.cpp 521-558 the private filter of GenRarestVars for one count *)
Definition rarest_filter (counts : list nat) (c : nat) (l : list eterm) : list eterm * list eterm :=
  let term := mask_of counts c in
  let (kept, skipped) := filter_loop (fun g => if e_prime term g then None else Some (e_size (e_gcd term g)))
                                     greater l 0 [] [] in
  match kept with [] => (skipped, []) | _ => (kept, skipped) end.
(* PivotStrategy.cpp 499-505: the minimal count above last; None stands for numeric_limits<size_t>::max() *)
Definition next_count (counts : list nat) (last : nat) : option nat :=
  fold_left (fun m c => if last <? c then match m with None => Some c | Some x => if c <? x then Some c else m end else m)
            counts None.
(* PivotStrategy.cpp 494-510 GenRarestVars::filter.  Each count is looked at once, so the number of variables bounds
   the number of rounds. *)
Fixpoint rarest_loop (rounds : nat) (counts : list nat) (last : nat) (l rest : list eterm) : list eterm * list eterm :=
  match rounds with
  | O => (l, rest)
  | S k =>
      if length l <=? 1 then (l, rest)
      else match next_count counts last with
           | None => (l, rest)
           | Some c => let (kept, skipped) := rarest_filter counts c l in rarest_loop k counts c kept (skipped ++ rest)
           end
  end.

(* The filter functions: the candidates that are left, in front of the other elements of the range.  For GenAny (700-704)
   and GenRandom (722-729) one candidate is left, even if there was none: it is taken from [after], the generators behind
   the range.  [None]: rand() % 0, or a read past the end in getRareVar. *)
Definition gen_filter (rnd : nat) (counts : list nat) (g : genStrat) (l after : list eterm)
  : option (list eterm * list eterm) :=
  match g with
  | GenPopVar => (* 319-337 *)
      let term := mask_of counts (nth (getPopVar counts) counts 0) in
      Some (filter_loop (fun x => if e_prime term x then None else Some 0) greater l 0 [] [])
  | GenRareMax => (* 372-393 *)
      match getRareVar counts with
      | None => None
      | Some v => Some (filter_loop (fun x => if e_get x v then Some (e_size x) else None) greater l 0 [] [])
      end
  | GenRareVar => (* 413-426 *)
      match getRareVar counts with
      | None => None
      | Some v => Some (filter_loop (fun x => if e_get x v then Some 0 else None) greater l 0 [] [])
      end
  | GenRarestVars => Some (rarest_loop (S (length counts)) counts 0 l [])
  | GenMaxSupport => Some (filter_loop (fun x => Some (e_size x)) greater l 0 [] []) (* 632-649 *)
  | GenMinSupport => Some (filter_loop (fun x => Some (e_size x)) less l (length counts) [] []) (* 666-683 *)
  | GenAny => match l ++ after with [] => None | x :: r => Some ([x], r) end
  | GenRandom =>
      match length l with
      | O => None
      | k => let c := rnd mod k in
             match skipn c l, l with
             | y :: r, x :: _ => if c =? 0 then Some ([x], skipn 1 l)
                                 else Some ([y], skipn 1 (firstn c l) ++ x :: r)
             | _, _ => None
             end
      end
  end.
(* GenAny and GenRandom take over the generators behind the range as well *)
Definition filter_step (rnd : nat) (counts : list nat) (g : genStrat) (l after : list eterm)
  : option (list eterm * list eterm) :=
  match gen_filter rnd counts g l after with
  | None => None
  | Some (kept, skipped) =>
      match g with
      | GenAny => Some (kept, skipped)
      | _ => Some (kept, skipped ++ after)
      end
  end.
(* PivotStrategy.cpp 450-461 the loop of GenComposite::doPivot *)
Fixpoint composite_loop (rnd : nat -> nat) (i : nat) (counts : list nat) (fs : list genStrat) (l after : list eterm)
  : option (list eterm * list eterm) :=
  match fs with
  | [] => Some (l, after)
  | f :: fs' => match filter_step (rnd i) counts f l after with
                | None => None
                | Some (l', after') => composite_loop rnd (S i) counts fs' l' after'
                end
  end.

(* PivotStrategy.cpp 350-370 GenRareMax::doPivot: index of the first multiple of rareVar with the largest support *)
Fixpoint rareMax_loop (v : nat) (gens : list eterm) (i bestSupport : nat) (best : option nat) : option nat :=
  match gens with
  | [] => best
  | g :: r => if e_get g v && (bestSupport <? e_size g) then rareMax_loop v r (S i) (e_size g) (Some i)
              else rareMax_loop v r (S i) bestSupport best
  end.

(** A pivot together with the generators in the order in which the strategy leaves them *)
Definition gen_pivot (rnd : nat -> nat) (g : genStrat) (s : estate) (counts : list nat) : option (list eterm * pivot) :=
  let gens := es_gens s in
  match g with
  | GenPopVar => Some (gens, PGen (e_getMultiple (getPopVar counts) gens)) (* PivotStrategy.cpp 312-317 *)
  | GenRareMax => match getRareVar counts with
                  | None => None
                  | Some v => match rareMax_loop v gens 0 0 None with None => None | Some i => Some (gens, PGen i) end
                  end
  | GenRareVar => (* 406-411 *)
      match getRareVar counts with None => None | Some v => Some (gens, PGen (e_getMultiple v gens)) end
  | GenRarestVars => (* 487-492 *)
      let (a, b) := rarest_loop (S (length counts)) counts 0 gens [] in Some (a ++ b, PGen 0)
  | GenMaxSupport => Some (gens, PGen (e_getMaxSupportGen gens)) (* 628-630 *)
  | GenMinSupport => Some (gens, PGen (e_getMinSupportGen gens)) (* 662-664 *)
  | GenAny => Some (gens, PGen 0) (* 696-698 *)
  | GenRandom => match length gens with O => None | k => Some (gens, PGen (rnd 0 mod k)) end (* 717-720 *)
  end.

(* The doPivot functions, up to the split: PivotStrategy.cpp 107-110, 131-134, 155-157, 199-202, 233-236 StdStrategy, 272-278
   StdWiden, 746-752 HybridPivotStrategy *)
Fixpoint do_pivot (rnd : nat -> nat) (tries : nat) (st : strategy) (s : estate) (counts : list nat)
  : option (list eterm * pivot) :=
  match st with
  | SStd StdPopGcd => match std_pivot rnd tries StdPopGcd s counts with
                      | None => None | Some t => Some (es_gens s, PTerm t) end
  | SStd std => match std_var rnd tries std s counts with None => None | Some v => Some (es_gens s, PVar v) end
  | SWiden std => match std_pivot rnd tries std s counts with
                  | None => None
                  | Some t => Some (es_gens s, PTerm (e_getGcdOfMultiples (es_n s) t (es_gens s)))
                  end
  | SGen g => gen_pivot rnd g s counts
  | SComposite fs => match composite_loop rnd 0 counts fs (es_gens s) [] with
                     | None => None
                     | Some (a, b) => Some (a ++ b, PGen 0)
                     end
  | SHybrid std gen => if es_nonElim s <? length (es_gens s) then do_pivot rnd tries std s counts
                       else do_pivot rnd tries gen s counts
  end.

(* PivotStrategy.cpp 100-102, 289-291, 305-307, 476-478, 767-769 shouldTranspose *)
Definition shouldTranspose (st : strategy) (s : estate) : bool :=
  match st with
  | SStd _ | SWiden _ => length (es_gens s) <? es_n s
  | SGen _ | SComposite _ => es_n s <? length (es_gens s)
  | SHybrid _ _ => false
  end.

(** ** The algorithm: PivotEulerAlg.cpp *)
(** Number of bits of a word; the settings of PivotEulerAlg; the values of rand(): in call number i, draw number j, and how
    many draws StdRandom is given *)
Record econfig := EC { c_word : nat; c_unique : bool; c_many : bool; c_pairs : bool; c_auto : bool; c_initial : bool;
                       c_strategy : strategy; c_rand : nat -> nat -> nat; c_tries : nat }.

Inductive simplified := SBase (acc : Z) | SPivot (acc : Z) (s : estate) (counts : list nat) | SUndef | SMore.
(* PivotEulerAlg.cpp 203-227 the loop of processState; each round that continues makes the state smaller, so with the
   number of rounds in [process_state] it never gives [SMore] *)
Fixpoint simplify (cf : econfig) (rounds : nat) (acc : Z) (s : estate) : simplified :=
  match rounds with
  | O => SMore
  | S k =>
      match baseCaseSimple1 acc s with
      | Some acc' => SBase acc'
      | None =>
          let counts := e_counts (es_n s) (es_gens s) in
          match (if c_unique cf then optimizeOneDivCounts s counts else Some (false, s, counts)) with
          | None => SUndef
          | Some (true, s, _) => simplify cf k acc s
          | Some (false, s, counts) =>
              match (if c_many cf then optimizeSimple (seq 0 (es_n s)) (length (es_gens s)) acc s counts
                     else Some (false, acc, s, counts)) with
              | None => SUndef
              | Some (true, acc, s, _) => simplify cf k acc s
              | Some (false, acc, s, counts) =>
                  match (if c_pairs cf then optimizeVarPairs (seq 0 (es_n s)) s counts else Some (false, s, counts)) with
                  | None => SUndef
                  | Some (true, s, _) => simplify cf k acc s
                  | Some (false, s, counts) =>
                      match (if c_pairs cf then baseCasePreconditionSimplified acc s else None) with
                      | Some acc' => SBase acc'
                      | None =>
                          if c_auto cf && shouldTranspose (c_strategy cf) s then
                            match es_transpose s with None => SUndef | Some s' => simplify cf k acc s' end
                          else SPivot acc s counts
                      end
                  end
              end
          end
      end
  end.

Definition es_weight (s : estate) : nat :=
  es_nonElim s + length (es_gens s) + list_sum (map e_size (es_gens s)).

Inductive processed := PDone (acc : Z) | PSplit (acc : Z) (this sub : estate) | PUndef | PMore.
(* PivotEulerAlg.cpp 199-237 processState *)
Definition process_state (cf : econfig) (rnd : nat -> nat) (acc : Z) (s0 : estate) : processed :=
  match es_compact (c_word cf) s0 with
  | None => PUndef
  | Some s =>
      match simplify cf (S (S (es_weight s) * S (es_n s + length (es_gens s)))) acc s with
      | SUndef => PUndef
      | SMore => PMore
      | SBase acc' => PDone acc'
      | SPivot acc' s' counts =>
          match do_pivot rnd (c_tries cf) (c_strategy cf) s' counts with
          | None => PUndef
          | Some (gens, p) =>
              match es_split (ES (es_n s') gens (es_elim s') (es_sign s')) p with
              | None => PUndef
              | Some (this, sub) => PSplit acc' this sub
              end
          end
      end
  end.

Inductive eresult := EAnswer (z : Z) | EUndef | EMore.
(* PivotEulerAlg.cpp 301-308 the loop of computeEuler.  The stack is the chain of parents; t numbers the calls. *)
Fixpoint euler_loop (cf : econfig) (fuel t : nat) (stack : list estate) (acc : Z) : eresult :=
  match stack with
  | [] => EAnswer acc
  | s :: rest =>
      match fuel with
      | O => EMore
      | S k =>
          match process_state cf (c_rand cf t) acc s with
          | PUndef => EUndef
          | PMore => EMore
          | PDone acc' => euler_loop cf k (S t) rest acc'
          | PSplit acc' this sub => euler_loop cf k (S t) (sub :: this :: rest) acc'
          end
      end
  end.

(* PivotEulerAlg.cpp 274-295 computeEulerCharacteristic(const RawSquareFreeIdeal&), 297-300 computeEuler, 311-316
   autoTranspose *)
Definition compute_euler (cf : econfig) (fuel n : nat) (gens : list eterm) : eresult :=
  match gens with
  | [] => EAnswer 0
  | _ =>
      if n =? 0 then EAnswer (-1)
      else
        let s := ES n gens (e_one n) 1 in
        match (if c_initial cf && shouldTranspose (c_strategy cf) s then es_transpose s else Some s) with
        | None => EUndef
        | Some s' => euler_loop cf fuel 0 [s'] 0
        end
  end.

(* EulerAction.cpp 178-241 perform, from the ideal that was read to the number that is printed *)
Definition euler_action (cf : econfig) (fuel : nat) (swap01 : bool) (n : nat) (gens : list eterm) : eresult :=
  compute_euler cf fuel n (e_minimize (if swap01 then map e_invert gens else gens)).
