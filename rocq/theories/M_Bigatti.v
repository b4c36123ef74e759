(** Model of BigattiHilbertAlgorithm.cpp, BigattiState.cpp, BigattiBaseCase.cpp, BigattiPivotStrategy.cpp and of the parts of
    Ideal.cpp used by them only: Hilbert-Poincare series by pivots. *)
From Coq Require Import List Arith Bool ZArith.
Import ListNotations.
From Verif Require Import M_Term M_Ideal M_Slice M_Msm M_Api M_Hilbert M_Poly M_Tasks M_Scarf.

(** ** Ideal.cpp *)

(** Ideal.cpp:121-140 isWeaklyGeneric *)
Fixpoint pairs_generic (n : nat) (all l : ideal) : bool :=
  match l with
  | [] => true
  | a :: l' =>
      forallb (fun b => negb (t_sharesNonZero n a b) || i_strictlyContains n all (t_lcm n a b)) l' && pairs_generic n all l'
  end.
Definition i_isWeaklyGeneric (n : nat) (I : ideal) : bool := pairs_generic n I I.
(** Ideal.cpp:106-119 isStronglyGeneric: no two neighbours after sorting have the same positive exponent *)
Fixpoint no_repeat (var last : nat) (l : ideal) : bool :=
  match l with
  | [] => true
  | g :: l' => negb (negb (last =? 0) && (last =? g @ var)) && no_repeat var (g @ var) l'
  end.
Fixpoint strong_from (I : ideal) (vars : list nat) : bool :=
  match vars with
  | [] => true
  | v :: vs => let J := i_singleDegreeSort I v in no_repeat v 0 J && strong_from J vs
  end.
Definition i_isStronglyGeneric (n : nat) (I : ideal) : bool := strong_from I (seq 0 n).
(** Ideal.cpp:142-155 disjointSupport *)
Fixpoint one_positive (var : nat) (seen : bool) (I : ideal) : bool :=
  match I with
  | [] => true
  | g :: I' => if 0 <? g @ var then negb seen && one_positive var true I' else one_positive var seen I'
  end.
Definition i_disjointSupport (n : nat) (I : ideal) : bool := forallb (fun v => one_positive v false I) (seq 0 n).
(** Ideal.cpp:177-195 getGcdAtExponent, 197-215 getGcdOfMultiplesOf: the gcd of those generators that satisfy [f] *)
Definition gcd_of (n : nat) (l : ideal) : term :=
  match l with [] => t_identity n | g :: l' => fold_left (t_gcd n) l' g end.
Definition i_gcdAtExponent (n : nat) (I : ideal) (var e : nat) : term := gcd_of n (filter (fun g => g @ var =? e) I).
Definition i_gcdOfMultiplesOf (n : nat) (I : ideal) (d : term) : term := gcd_of n (filter (fun g => t_divides n d g) I).

(** Ideal.cpp:236-272 getTypicalExponent.  [best] is (maxCount, typicalVar, typicalExponent); the ideal stays sorted. *)
Definition vexp := (nat * nat * nat)%type.
Fixpoint typical_loop (var last count : nat) (best : vexp) (l : ideal) : vexp :=
  match l with
  | [] => best
  | g :: l' =>
      let e := g @ var in
      if e =? 0 then typical_loop var last count best l'
      else
        let count' := if last =? e then S count else 1 in
        typical_loop var e count' (if fst (fst best) <? count' then (count', var, e) else best) l'
  end.
Fixpoint typical_vars (vars : list nat) (I : ideal) (best : vexp) : ideal * vexp :=
  match vars with
  | [] => (I, best)
  | v :: vs => let J := i_singleDegreeSort I v in typical_vars vs J (typical_loop v 0 0 best J)
  end.
Definition i_getTypicalExponent (n : nat) (I : ideal) : ideal * vexp := typical_vars (seq 0 n) I (0, 0, 0).

(** A block: the longest prefix with exponent [e], and the rest.  Ideal.cpp:289-293, 347-351, 401-405 *)
Fixpoint take_block (var e : nat) (l : ideal) : ideal * ideal :=
  match l with
  | [] => ([], [])
  | g :: l' => if g @ var =? e then let (b, r) := take_block var e l' in (g :: b, r) else ([], l)
  end.
(** The pairs in a block whose lcm is not strictly contained: their number, Ideal.cpp:307-317 *)
Fixpoint ng_count (n : nat) (I block : ideal) : nat :=
  match block with
  | [] => 0
  | a :: block' => length (filter (fun b => negb (i_strictlyContains n I (t_lcm n a b))) block') + ng_count n I block'
  end.
(** Is there one, Ideal.cpp:364-380, 412-424 *)
Fixpoint ng_exists (n : nat) (I block : ideal) : bool :=
  match block with
  | [] => false
  | a :: block' => existsb (fun b => negb (i_strictlyContains n I (t_lcm n a b))) block' || ng_exists n I block'
  end.
(** The loops over the blocks of one variable.  The number of blocks is at most the length of the list; running out of
    fuel leaves the result as it is.
    Ideal.cpp:284-328 in getMostNonGenericExponent, 342-382 in getTypicalNonGenericExponent, 396-426 in
    getNonGenericExponent (which returns at once: [best] is final when its count is positive). *)
Inductive ngkind := MostNG | TypicalNG | SomeNG.
Definition ng_block (k : ngkind) (n : nat) (I : ideal) (var e : nat) (block : ideal) (best : vexp) : vexp :=
  let maxCount := fst (fst best) in
  let span := length block in
  match k with
  | MostNG =>
      if (e =? 0) || ((span * (span + 1)) / 2 <=? maxCount) then best
      else let c := ng_count n I block in if maxCount <? c then (c, var, e) else best
  | TypicalNG =>
      if (e =? 0) || (span <=? maxCount) then best
      else if ng_exists n I block then (span, var, e) else best
  | SomeNG =>
      if (e =? 0) || (0 <? maxCount) then best
      else if ng_exists n I block then (1, var, e) else best
  end.
Fixpoint ng_loop (fuel : nat) (k : ngkind) (n : nat) (I : ideal) (var : nat) (l : ideal) (best : vexp) : vexp :=
  match fuel, l with
  | S fuel', g :: _ =>
      let e := g @ var in
      let (block, rest) := take_block var e l in
      ng_loop fuel' k n I var rest (ng_block k n I var e block best)
  | _, _ => best
  end.
(** Ideal.cpp:274-332, 334-386, 388-428.  SomeNG returns from the middle of the loop over the variables, before the ideal
    is sorted again. *)
Fixpoint ng_vars (k : ngkind) (n : nat) (vars : list nat) (I : ideal) (best : vexp) : ideal * vexp :=
  match vars with
  | [] => (I, best)
  | v :: vs =>
      let J := i_singleDegreeSort I v in
      let best' := ng_loop (length J) k n J v J best in
      match k with
      | SomeNG => if 0 <? fst (fst best') then (J, best') else ng_vars k n vs J best'
      | _ => ng_vars k n vs J best'
      end
  end.
Definition i_getNonGeneric (k : ngkind) (n : nat) (I : ideal) : ideal * vexp := ng_vars k n (seq 0 n) I (0, 0, 0).

(** ** BigattiState.cpp *)

(** BigattiState.h: _ideal and _multiply *)
Record bstate := mkBS { bs_I : ideal; bs_q : term }.
(** BigattiState.cpp:54-69 getMedianPositiveExponentOf: the ideal is sorted; [None]: the loop runs past the end. *)
Definition bs_median (I : ideal) (var : nat) : option (ideal * nat) :=
  let J := i_singleDegreeSort I var in
  match skip_zero var J with
  | [] => None
  | l => Some (J, (nth ((length l - 1) / 2) l []) @ var)
  end.
(** BigattiState.cpp:79-83 colonStep, 85-88 addStep *)
Definition bs_colon (n : nat) (s : bstate) (p : term) : bstate :=
  mkBS (fst (i_colonReminimize n (bs_I s) p)) (t_product n (bs_q s) p).
Definition bs_add (n : nat) (s : bstate) (p : term) : bstate := mkBS (i_insertReminimize n (bs_I s) p) (bs_q s).

(** ** BigattiPivotStrategy.cpp *)

(** getPivot: the pivot and the ideal, whose generators may be in another order afterwards; [None] is undefined behaviour *)
Definition bpivot := nat -> ideal -> option (ideal * term).

(** BigattiPivotStrategy.cpp:34-57 MedianPivot *)
Definition pv_median : bpivot := fun n I =>
  let var := t_firstMax n (i_supportCounts n I) in
  bind (bs_median I var) (fun r => Some (fst r, t_set n (t_identity n) var (snd r))).

(** BigattiPivotStrategy.cpp:77-93: the power var^exp considered *)
Inductive consider := CTypical | CNonGeneric (k : ngkind).
Definition pv_consider (c : consider) (n : nat) (I : ideal) : ideal * nat * nat :=
  match c with
  | CTypical =>
      let '(J, (count, var, e)) := i_getTypicalExponent n I in (J, var, if count <=? 1 then 0 else e)
  | CNonGeneric k => let '(J, (_, var, e)) := i_getNonGeneric k n I in (J, var, e)
  end.
(** BigattiPivotStrategy.cpp:95-102 selectPurePower, 104-112 selectGcd, 114-170 selectTight *)
Inductive select := SPure | SGcd | STight.
(** 121-129: skip to the start of the block; [None]: past the end *)
Fixpoint to_block (var e : nat) (l : ideal) : option ideal :=
  match l with
  | [] => None
  | g :: l' => if g @ var =? e then Some l else to_block var e l'
  end.
(** 144-164 for one element of the block: the first later one with which the lcm is not strictly contained *)
Definition tight_partner (n : nat) (I : ideal) (a : term) (later : ideal) : option term :=
  find (fun b => negb (i_strictlyContains n I (t_lcm n a b))) later.
Fixpoint tight_loop (n : nat) (I : ideal) (block : ideal) (pivot : option term) : option term :=
  match block with
  | [] => pivot
  | a :: block' =>
      tight_loop n I block'
        (match tight_partner n I a block' with
         | None => pivot
         | Some b => Some (match pivot with
                           | None => t_gcd n a b
                           | Some p => t_gcd n (t_gcd n p a) b
                           end)
         end)
  end.
Definition pv_tight (n : nat) (I : ideal) (var e : nat) : option (ideal * term) :=
  let J := i_singleDegreeSort I var in
  bind (to_block var e J) (fun l =>
  let block := fst (take_block var e l) in
  Some (J, match tight_loop n J block None with Some p => p | None => t_set n (t_identity n) var e end)).
(** 63-68 getPivot, with driveMe of the twelve strategies, lines 194-383: considerX then selectY *)
Definition pv_generic (c : consider) (s : select) : bpivot := fun n I =>
  let '(J, var, e) := pv_consider c n I in
  if e =? 0 then pv_median n J
  else match s with
       | SPure => Some (J, t_set n (t_identity n) var e)
       | SGcd => Some (J, i_gcdAtExponent n J var e)
       | STight => pv_tight n J var e
       end.
(** 388-410 WidenPivot *)
Definition pv_widen (f : bpivot) : bpivot := fun n I =>
  bind (f n I) (fun r => Some (fst r, i_gcdOfMultiplesOf n (fst r) (snd r))).
(** The strategies that can be chosen: 34-383 and 438-450 createStrategy *)
Inductive bstrategy := Median | Generic (c : consider) (s : select).
Definition strategy (b : bstrategy) (widen : bool) : bpivot :=
  let f := match b with Median => pv_median | Generic c s => pv_generic c s end in
  if widen then pv_widen f else f.

(** ** BigattiBaseCase.cpp *)

(** What is added to the output polynomial.  BOut: output(plus, term), BigattiBaseCase.cpp:86-105; for the univariate series
    it is translated then, see [uni_op].  BUni: line 236, _outputUnivariate.add(coef, degree). *)
Inductive bout := BOut (plus : bool) (t : term) | BUni (coef : Z) (degree : Z).

(** BigattiBaseCase.cpp:139-166 simpleBaseCase *)
Definition simpleBaseCase (n : nat) (s : bstate) : option (list bout) :=
  let q := bs_q s in
  match bs_I s with
  | [] => Some [BOut true q]
  | [a] => Some [BOut true q; BOut false (t_product n q a)]
  | [a; b] => Some [BOut true q; BOut false (t_product n q a); BOut false (t_product n q b);
                    BOut true (t_product n (t_lcm n a b) q)]
  | _ => None
  end.

(** BigattiBaseCase.cpp:200-222: multiplication of poly by 1 - t^degree.  The entries are ints: [None] if a value outside of
    the range of a 32 bit int would be stored. *)
Definition int_ok (z : Z) : bool := ((-2147483648 <=? z) && (z <=? 2147483647))%Z.
Definition poly_shift (p : list Z) (d : nat) : option (list Z) :=
  let r := map (fun e => (nth e p 0 - (if (e <? d)%nat then 0 else nth (e - d)%nat p 0))%Z) (seq 0 (length p + d)) in
  if forallb int_ok r then Some r else None.
Fixpoint poly_product (p : list Z) (ds : list nat) : option (list Z) :=
  match ds with
  | [] => Some p
  | d :: ds' => bind (poly_shift p d) (fun p' => poly_product p' ds')
  end.
(** 208-212, the degree of a generator: the difference of the translations of multiply * gen and multiply; [None]: a read
    outside of a table, or a value that is not a non-negative int *)
Definition gen_degree (n : nat) (tr : translator) (q g : term) : option nat :=
  bind (tr_degree n tr (t_product n q g)) (fun a => bind (tr_degree n tr q) (fun b =>
  let d := (a - b)%Z in if (0 <=? d)%Z && int_ok d then Some (Z.to_nat d) else None)).
Fixpoint gen_degrees (n : nat) (tr : translator) (q : term) (I : ideal) : option (list nat) :=
  match I with
  | [] => Some []
  | g :: I' => bind (gen_degree n tr q g) (fun d => bind (gen_degrees n tr q I') (fun ds => Some (d :: ds)))
  end.
(** BigattiBaseCase.cpp:168-239 univariateAllFaces: [Some None] is the result false, the outer [None] is undefined
    behaviour.  The degree of multiply is e + degree in line 236. *)
Definition univariateAllFaces (n : nat) (tr : translator) (s : bstate) : option (option (list bout)) :=
  let I := bs_I s in let q := bs_q s in
  if negb (i_disjointSupport n I) then Some None
  else if 30 <? length I then Some None
  else
    bind (tr_degree n tr (t_product n (i_lcm n I) q)) (fun maxDegree =>
    if (1024 * 1024 <? maxDegree)%Z then Some None
    else if (2 ^ Z.of_nat (length I) <? maxDegree)%Z then Some None
    else
      bind (gen_degrees n tr q I) (fun ds =>
      bind (poly_product [1%Z] ds) (fun p =>
      bind (tr_degree n tr q) (fun d =>
      Some (Some (map (fun e => BUni (nth e p 0%Z) (Z.of_nat e + d)) (seq 0 (length p)))))))).

(** BigattiBaseCase.cpp:241-304 enumerateScarfComplex: the loop.  The head of [stack] is the entry with index current of the
    array _states, of size [size]: plus, term and the generators from pos on.  [None]: an index outside of _states, or not
    enough fuel. *)
Record fstate := mkFS { fs_plus : bool; fs_term : term; fs_rest : list term }.
Fixpoint face_loop (fuel n size : nat) (allFaces : bool) (s : bstate) (stack : list fstate) (out : list bout)
  : option (list bout) :=
  match stack with
  | [] => Some out
  | f :: stack' =>
      match fuel with
      | O => None
      | S fuel' =>
          if length stack <=? size then
            match fs_rest f with
            | [] =>
                face_loop fuel' n size allFaces s stack'
                  (out ++ [BOut (fs_plus f) (t_product n (fs_term f) (bs_q s))])
            | g :: rest =>
                if length stack <? size then
                  let t := t_lcm n (fs_term f) g in
                  let f' := mkFS (fs_plus f) (fs_term f) rest in
                  if allFaces || negb (i_strictlyContains n (bs_I s) t) then
                    face_loop fuel' n size allFaces s (mkFS (negb (fs_plus f)) t rest :: f' :: stack') out
                  else face_loop fuel' n size allFaces s (f' :: stack') out
                else None
            end
          else None
      end
  end.
Definition b_scarf (fuel n : nat) (uni : bool) (tr : translator) (s : bstate) (allFaces : bool) : option (list bout) :=
  let enumerate := face_loop fuel n (length (bs_I s) + 1) allFaces s [mkFS true (t_identity n) (bs_I s)] [] in
  if allFaces && uni then
    match univariateAllFaces n tr s with
    | None => None
    | Some (Some out) => Some out
    | Some None => enumerate
    end
  else enumerate.

(** BigattiBaseCase.cpp:62-78: every generator has a variable in which it alone attains the lcm, and no variable in which two
    do; [seen] are the variables with _maxCount 1 *)
Fixpoint exclusive_max (n : nat) (lcm : term) (seen : list nat) (l : ideal) : bool :=
  match l with
  | [] => true
  | g :: l' =>
      let vs := filter (fun v => (g @ v =? lcm @ v) && (0 <? lcm @ v)) (seq 0 n) in
      negb (length vs =? 0) && forallb (fun v => negb (existsb (Nat.eqb v) seen)) vs && exclusive_max n lcm (vs ++ seen) l'
  end.
(** BigattiBaseCase.cpp:49-84 baseCase: [Some None] is the result false *)
Definition baseCase (fuel n : nat) (uni : bool) (tr : translator) (s : bstate) : option (option (list bout)) :=
  match simpleBaseCase n s with
  | Some out => Some (Some out)
  | None =>
      let I := bs_I s in
      if n <? length I then Some None
      else if t_sizeOfSupport n (i_lcm n I) <? length I then Some None
      else if exclusive_max n (i_lcm n I) [] I then bind (b_scarf fuel n uni tr s true) (fun out => Some (Some out))
      else Some None
  end.
(** BigattiBaseCase.cpp:36-47 genericBaseCase *)
Definition genericBaseCase (fuel n : nat) (uni : bool) (tr : translator) (s : bstate) : option (option (list bout)) :=
  bind (baseCase fuel n uni tr s) (fun r =>
  match r with
  | Some out => Some (Some out)
  | None =>
      if i_isWeaklyGeneric n (bs_I s) then bind (b_scarf fuel n uni tr s false) (fun out => Some (Some out))
      else Some None
  end).

(** ** BigattiHilbertAlgorithm.cpp *)

(** BigattiParams.h: the options *)
Record bparams := mkBP { bp_simplify : bool; bp_generic : bool; bp_uni : bool }.

(** BigattiHilbertAlgorithm.cpp:109-123 simplify *)
Definition b_simplify (n : nat) (s : bstate) : bstate * list bout :=
  let gcd := i_gcd n (bs_I s) in
  if t_isIdentity n gcd then (s, [])
  else let s' := bs_colon n s gcd in (s', [BOut true (bs_q s); BOut false (bs_q s')]).

(** BigattiHilbertAlgorithm.cpp:75-107 processState: a task.  The state of the world is the output so far. *)
Definition b_process (fuel n : nat) (prm : bparams) (pv : bpivot) (tr : translator) (s : bstate) (out : list bout)
  : option (list bout * list bstate) :=
  let (s1, o1) := if bp_simplify prm then b_simplify n s else (s, []) in
  bind ((if bp_generic prm then genericBaseCase else baseCase) fuel n (bp_uni prm) tr s1) (fun r =>
  match r with
  | Some o2 => Some (out ++ o1 ++ o2, [])
  | None =>
      bind (pv n (bs_I s1)) (fun x =>
      let s2 := mkBS (fst x) (bs_q s1) in
      Some (out ++ o1, [bs_colon n s2 (snd x); bs_add n s2 (snd x)]))
  end).
(** BigattiHilbertAlgorithm.cpp:25-48 the constructor and 54-73 run *)
Definition b_run (fuel n : nat) (prm : bparams) (pv : bpivot) (tr : translator) (I : ideal) : option (list bout) :=
  bind (run_engine (b_process fuel n prm pv tr) fuel [] [mkBS I (t_identity n)]) (fun r => Some (fst (fst r))).

(** BigattiBaseCase.cpp:95-105 output: what is added to _outputMultivariate or _outputUnivariate *)
Fixpoint multi_ops (out : list bout) : option (list (accum_op term)) :=
  match out with
  | [] => Some []
  | BOut plus t :: out' => bind (multi_ops out') (fun r => Some (OpSigned plus t :: r))
  | BUni _ _ :: _ => None
  end.
Fixpoint uni_ops (n : nat) (tr : translator) (out : list bout) : option (list (accum_op Z)) :=
  match out with
  | [] => Some []
  | BOut plus t :: out' => bind (tr_degree n tr t) (fun d => bind (uni_ops n tr out') (fun r => Some (OpSigned plus d :: r)))
  | BUni c d :: out' => bind (uni_ops n tr out') (fun r => Some (OpAdd c d :: r))
  end.

(** BigattiFacade.cpp:38-68 with BigattiBaseCase.cpp:107-114 feedOutputTo.  [co] is the state of CommonParamsHelper after
    the input was read.  The result is what the consumer receives. *)
Definition bigatti_multigraded (fuel : nat) (simplify generic : bool) (pv : bpivot)
  (arr : nat -> list (term * Z) -> list (term * Z)) (canonical : bool) (co : common) : option (list (Z * list Z)) :=
  bind (b_run fuel (co_n co) (mkBP simplify generic false) pv (co_tr co) (co_ideal co)) (fun out =>
  bind (multi_ops out) (fun ops =>
  translate_coefs (co_n co) (co_tr co) (hash_polynomial (co_n co) arr ops canonical))).
Definition bigatti_univariate (fuel : nat) (simplify generic : bool) (pv : bpivot)
  (arr : nat -> list (Z * Z) -> list (Z * Z)) (canonical : bool) (co : common) : option (list (Z * list Z)) :=
  bind (b_run fuel (co_n co) (mkBP simplify generic true) pv (co_tr co) (co_ideal co)) (fun out =>
  bind (uni_ops (co_n co) (co_tr co) out) (fun ops =>
  Some (map (fun x => (fst x, [snd x])) (uni_hash_polynomial arr ops canonical)))).
