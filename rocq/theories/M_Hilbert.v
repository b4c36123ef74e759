(** Model of HilbertBasecase.cpp, HilbertSlice.cpp, HilbertStrategy.cpp, HilbertIndependenceConsumer.cpp and of
    the API functions that compute Hilbert-Poincare series. *)
From Coq Require Import List Arith Bool ZArith Lia.
Import ListNotations.
From Verif Require Import M_Term M_Ideal M_Slice M_Partition M_Msm M_Api.

(** ** HilbertBasecase.cpp *)

(** Ideal.cpp:668-674 getMultiple; [None] is end(). *)
Definition i_getMultiple (I : ideal) (var : nat) : option term := find (fun g => 0 <? g @ var) I.
(** Ideal.cpp:668-674 followed by 576-581 remove: the generator found is taken out of the list (the code moves
    the last generator to its place). *)
Fixpoint i_removeMultiple (I : ideal) (var : nat) : ideal :=
  match I with
  | [] => []
  | g :: I' => if 0 <? g @ var then I' else g :: i_removeMultiple I' var
  end.

(** HilbertBasecase.cpp:194-221 canSimplify *)
Definition canSimplify (n : nat) (var : nat) (I : ideal) (counts : term) : bool :=
  negb (counts @ var =? 0) &&
  existsb (fun other => negb ((other =? var) || (counts @ other =? 0)) &&
                        negb (existsb (fun g => (g @ var =? 0) && (0 <? g @ other)) I)) (seq 0 n).

(** HilbertBasecase.cpp:244-251: colon by each variable in [vars]; [None] when a call returns false. *)
Fixpoint colon_all (n : nat) (I : ideal) (vars : list nat) : option ideal :=
  match vars with
  | [] => Some I
  | v :: vars' =>
      let (J, changed) := i_colonReminimizeVar n I v 1 in
      if changed then colon_all n J vars' else None
  end.

(** HilbertBasecase.cpp:223-274 eliminate1Counts: the new ideal, the return value, and whether negate is
    flipped.  The first loop always returns when it finds a variable with count 1, so [adj] is 0 in the
    second loop. *)
Definition eliminate1Counts (n : nat) (I : ideal) (counts : term) : option (ideal * nat * bool) :=
  let var := find_from (fun v => counts @ v =? 1) 0 n in
  if var <? n then
    match i_getMultiple I var with
    | None => None (* the code would dereference end() *)
    | Some g =>
        let adj := length (filter (fun other => 0 <? g @ other) (seq 0 n)) in
        let counts' := tabulate n (fun other =>
          if 0 <? g @ other then (if counts @ other =? 1 then 0 else counts @ other) else 0) in
        match colon_all n I (filter (fun other => 0 <? counts' @ other) (seq 0 n)) with
        | None => Some ([], 1, false)
        | Some J =>
            match i_getMultiple J var with
            | None => Some ([], 1, false)
            | Some _ => Some (i_removeMultiple J var, adj, true)
            end
        end
    end
  else
    let var := find_from (fun v => canSimplify n v I counts) 0 n in
    if var <? n then
      let (J, changed) := i_colonReminimizeVar n I var 1 in
      Some (if changed then J else [], 1, false)
    else Some (I, 0, false).

Definition signed (negate : bool) (k : Z) : Z := if negate then (- k)%Z else k.

(** HilbertBasecase.cpp:42-130 stepComputation and 131-187 computeCoefficient: what an entry (ideal,
    extraSupport, negate) adds to _sum.  The entries kept in _todo are evaluated recursively; the order in
    which they are taken changes nothing since each only adds to _sum.  [None]: out of fuel. *)
Fixpoint hb_entry (fuel : nat) (n : nat) (I : ideal) (extra : nat) (negate : bool) : option Z :=
  match fuel with
  | 0 => None
  | S fuel' =>
      let counts := i_supportCounts n I in
      if negb (t_sizeOfSupport n counts + extra =? n) then Some 0%Z
      else if t_isSquareFree n counts then
        Some (signed (if length I mod 2 =? 1 then negb negate else negate) 1)
      else if length I =? 2 then Some (signed negate 1)
      else
        match eliminate1Counts n I counts with
        | None => None
        | Some (J, ridden, flip) =>
            let negate' := if flip then negb negate else negate in
            if negb (ridden =? 0) then hb_entry fuel' n J (extra + ridden) negate'
            else if length J =? 3 then Some (signed negate' 2)
            else if (length J =? 4) && (counts @ (t_firstMax n counts) =? 2) && (t_sizeOfSupport n counts =? 4)
            then Some (signed (negb negate') 1)
            else
              let var := t_firstMax n counts in
              match hb_entry fuel' n (filter (fun g => g @ var <? 1) J) (extra + 1) (negb negate'),
                    hb_entry fuel' n (fst (i_colonReminimizeVar n J var 1)) (extra + 1) negate' with
              | Some a, Some b => Some (a + b)%Z
              | _, _ => None
              end
        end
  end.

(** HilbertBasecase.cpp:131-192 computeCoefficient, getLastCoefficient *)
Definition hb_coefficient (n : nat) (I : ideal) : option Z := hb_entry (S n) n I 0 false.

(** ** HilbertSlice.cpp *)

(** HilbertSlice.cpp:95-119 getLowerBound; [None] is the return value false. *)
Definition hil_getLowerBound (s : slice) (var : nat) : option term :=
  match filter (fun g => negb (g @ var =? 0)) (s_I s) with
  | [] => None
  | g :: rest => Some (t_decrement (s_n s) (fold_left (fun b h => t_gcd (s_n s) b h) rest g))
  end.

(** Slice.cpp:289-319 applyLowerBound for HilbertSlice, which does not override innerSlice.  [None]: out of
    fuel. *)
Fixpoint hil_lb_loop (fuel : nat) (s : slice) (changed : bool) (steps var : nat) : option (slice * bool) :=
  if steps <? s_n s then
    match fuel with
    | 0 => None
    | S fuel' =>
        match hil_getLowerBound s var with
        | None => Some (sl_clear s, true)
        | Some bound =>
            if t_isIdentity (s_n s) bound
            then hil_lb_loop fuel' s changed (S steps) (S var mod s_n s)
            else
              let (s2, big) := sl_innerSlice s bound in
              hil_lb_loop fuel' s2 true (if big then 0 else S steps) (S var mod s_n s2)
        end
    end
  else Some (s, changed).
Definition hil_adjustMultiply (s : slice) : option (slice * bool) :=
  adjustMultiply (S (exp_sum (s_n s) (i_lcm (s_n s) (s_I s)))) sl_innerSlice s false.
Definition hil_applyLowerBound (s : slice) : option (slice * bool) :=
  match s_I s with
  | [] => Some (s, false)
  | _ =>
      if s_n s =? 1 then hil_adjustMultiply s
      else hil_lb_loop (lb_fuel s) s false 0 (s_hint s)
  end.

(** Slice.cpp:204-215 simplify *)
Definition hil_simplify (s : slice) : option (slice * bool) :=
  match hil_applyLowerBound s with
  | None => None
  | Some (s1, lbChange) =>
      let (s2, prChange) := sl_pruneSubtract s1 in Some (s2, lbChange || prChange)
  end.

(** Coefficients with the terms they belong to: the calls of CoefTermConsumer::consume. *)
Definition cterm := (Z * term)%type.

(** HilbertSlice.cpp:37-65 baseCase: the slice with its lcm, and the emitted terms if it is a base case. *)
Inductive hil_result :=
| HNotBase
| HBase (out : list cterm)
| HUB.
Definition hil_baseCase (s : slice) : slice * hil_result :=
  let s := sl_touch s in
  let n := s_n s in
  if t_sizeOfSupport n (s_lcm s) <? n then (s, HBase [])
  else if negb (t_isSquareFree n (s_lcm s)) then (s, HNotBase)
  else if n =? 0 then (s, HBase [])
  else
    (s, match hb_coefficient n (s_I s) with
        | None => HUB
        | Some coef => HBase (if (coef =? 0)%Z then [] else [(coef, s_q s)])
        end).

(** ** HilbertStrategy.cpp, HilbertIndependenceConsumer.cpp *)

(** SliceStrategyCommon.cpp:55-63 simplify *)
Definition hil_st_simplify (c : config) (s : slice) : option slice :=
  if c_simp c then
    match hil_simplify s with Some (s', _) => Some s' | None => None end
  else
    match c_split c with
    | LabelSplit _ => match hil_adjustMultiply s with Some (s', _) => Some s' | None => None end
    | PivotSplit _ => Some s
    end.

(** HilbertIndependenceConsumer.cpp:116-136 consumeLeft: [tmp] is the persistent _tmpTerm. *)
Fixpoint hil_combine_right (n : nat) (rest : list nat) (coef : Z) (tmp : term) (ys : list cterm)
  : list cterm * term :=
  match ys with
  | [] => ([], tmp)
  | (d, y) :: ys' =>
      let tmp1 := proj_inverse n rest tmp y in
      let (out, tmp2) := hil_combine_right n rest coef tmp1 ys' in (((coef * d)%Z, tmp1) :: out, tmp2)
  end.
Fixpoint hil_combine_left (n : nat) (big rest : list nat) (tmp : term) (xs ys : list cterm) : list cterm :=
  match xs with
  | [] => []
  | (c, x) :: xs' =>
      let tmp1 := proj_inverse n big tmp x in
      let (out, tmp2) := hil_combine_right n rest c tmp1 ys in
      out ++ hil_combine_left n big rest tmp2 xs' ys
  end.

(** HilbertStrategy.cpp:66-84 processSlice with the tasks it creates evaluated recursively, in the order in
    which the task stack runs them.  The code asserts that the split is a pivot split: with a label split
    the result is [None].  [None] also stands for out of fuel. *)
Fixpoint hil_process (fuel : nat) (c : config) (rnd : nat -> nat) (k : nat) (s : slice)
  : option (list cterm * nat) :=
  match fuel with
  | 0 => None
  | S fuel' =>
      match hil_baseCase s with
      | (_, HBase out) => Some (out, k)
      | (_, HUB) => None
      | (s1, HNotBase) =>
          match (if c_indep c then indep_analyze s1 else Some None) with
          | None => None
          | Some (Some (big, rest)) =>
              (* HilbertStrategy.cpp:119-145 independenceSplit *)
              match hil_process fuel' c rnd k (sl_setToProjOf s1 rest) with
              | None => None
              | Some (ys, k1) =>
                  match hil_process fuel' c rnd k1 (sl_setToProjOf s1 big) with
                  | None => None
                  | Some (xs, k2) =>
                      Some (hil_combine_left (s_n s1) big rest (t_identity (s_n s1)) xs ys, k2)
                  end
              end
          | Some None =>
              match c_split c with
              | LabelSplit f => None
              | PivotSplit f =>
                  (* SliceStrategyCommon.cpp:77-111 pivotSplit *)
                  match f rnd k s1 with
                  | None => None
                  | Some (s2, p, k0) =>
                      match hil_st_simplify c (fst (sl_innerSlice s2 p)) with
                      | None => None
                      | Some inner =>
                          match hil_st_simplify c (sl_outerSlice s2 p) with
                          | None => None
                          | Some outer =>
                              let '(first, second) :=
                                if length (s_I inner) <? length (s_I outer)
                                then (inner, outer) else (outer, inner) in
                              match hil_process fuel' c rnd k0 first with
                              | None => None
                              | Some (out1, k1) =>
                                  match hil_process fuel' c rnd k1 second with
                                  | None => None
                                  | Some (out2, k2) => Some (out1 ++ out2, k2)
                                  end
                              end
                          end
                      end
                  end
              end
          end
      end
  end.

(** HilbertStrategy.cpp:37-64 run: the calls of consume. *)
Definition hil_run (c : config) (rnd : nat -> nat) (n : nat) (I : ideal) : option (list cterm) :=
  let hasOne := i_contains n I (t_identity n) in
  let sliceIdeal := if hasOne then [] else
                      match I with [] => [] | _ => i_product n I (tabulate n (fun _ => 1)) end in
  let start := if hasOne then [] else [(1%Z, t_identity n)] in
  match hil_st_simplify c (mkSlice n sliceIdeal [] (t_identity n) (t_identity n) false 0) with
  | None => None
  | Some s =>
      match hil_process (run_fuel n sliceIdeal) c rnd 0 s with
      | None => None
      | Some (out, _) => Some (start ++ out)
      end
  end.

(** ** Polynomial output *)

(** What a Frobby::PolynomialConsumer is told (frobby.h:64-93). *)
Inductive pev := PolynomialBegin (varCount : nat) | PConsume (coef : Z) (v : list Z) | PolynomialEnd.

(** TranslatingCoefTermConsumer.cpp with ExternalPolynomialConsumerWrapper (frobby.cpp:110-159) *)
Fixpoint translate_coefs (n : nat) (tr : translator) (ts : list cterm) : option (list (Z * list Z)) :=
  match ts with
  | [] => Some []
  | (c, t) :: ts' =>
      match translate n tr t, translate_coefs n tr ts' with
      | Some v, Some r => Some ((c, v) :: r)
      | _, _ => None
      end
  end.
Definition emit_poly (n : nat) (L : list (Z * list Z)) : list pev :=
  PolynomialBegin n :: map (fun x => PConsume (fst x) (snd x)) L ++ [PolynomialEnd].

(** UniHashPolynomial.cpp:40-47 add(mpz_class, mpz_class).  The hash map is a list of pairs (exponent,
    coefficient) with distinct exponents. *)
Fixpoint uni_add (coef e : Z) (p : list (Z * Z)) : list (Z * Z) :=
  match p with
  | [] => [(e, coef)]
  | (e', c') :: p' =>
      if (e' =? e)%Z then (if (c' + coef =? 0)%Z then p' else (e', (c' + coef)%Z) :: p')
      else (e', c') :: uni_add coef e p'
  end.
Definition uni_addNonZero (coef e : Z) (p : list (Z * Z)) : list (Z * Z) :=
  if (coef =? 0)%Z then p else uni_add coef e p.

(** UniHashPolynomial.cpp:60-106 feedTo with inCanonicalOrder: sorted by descending exponent. *)
Definition uni_feed (p : list (Z * Z)) : list (Z * list Z) :=
  map (fun x => (snd x, [fst x])) (std_sort (fun a b => (fst b <? fst a)%Z) p).

(** TotalDegreeCoefTermConsumer.cpp:46-59 consume, for each term in turn *)
Fixpoint total_degree (vs : list Z) : Z := match vs with [] => 0%Z | v :: vs' => (v + total_degree vs')%Z end.
Definition uni_collect (L : list (Z * list Z)) : list (Z * Z) :=
  fold_left (fun p x => uni_addNonZero (fst x) (total_degree (snd x)) p) L [].

(** frobby.cpp:303-313 with SliceFacade.cpp:78-91 *)
Definition api_multigradedHilbertPoincareSeries (c : config) (rnd : nat -> nat) (n : nat) (I : big_ideal)
  : option (list pev) :=
  let co := setIdeal false n I in
  bind (hil_run c rnd (co_n co) (co_ideal co)) (fun out =>
  bind (translate_coefs (co_n co) (co_tr co) out) (fun L => Some (emit_poly n L))).

(** frobby.cpp:315-324 with SliceFacade.cpp:93-107 *)
Definition api_univariateHilbertPoincareSeries (c : config) (rnd : nat -> nat) (n : nat) (I : big_ideal)
  : option (list pev) :=
  let co := setIdeal false n I in
  bind (hil_run c rnd (co_n co) (co_ideal co)) (fun out =>
  bind (translate_coefs (co_n co) (co_tr co) out) (fun L => Some (emit_poly 1 (uni_feed (uni_collect L))))).
