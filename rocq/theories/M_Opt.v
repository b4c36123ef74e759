(** Model of TermGrader.cpp, OptimizeStrategy.cpp, DegreeSplit of SplitStrategy.cpp, and the optimization
    programs of SliceFacade.cpp and frobby.cpp. *)
From Coq Require Import List Arith Bool ZArith Lia.
Import ListNotations.
From Verif Require Import M_Term M_Ideal M_Slice M_Partition M_Msm M_Api.

(** A loop over a list of which each round may fail. *)
Fixpoint mapM {A B} (f : A -> option B) (l : list A) : option (list B) :=
  match l with
  | [] => Some []
  | a :: l' => bind (f a) (fun b => bind (mapM f l') (fun r => Some (b :: r)))
  end.
Fixpoint foldM {A B} (f : B -> A -> option B) (l : list A) (b : B) : option B :=
  match l with
  | [] => Some b
  | a :: l' => bind (f b a) (foldM f l')
  end.

(** ** TermGrader.cpp *)

(** TermGrader.h: _grades and _signs *)
Record grader := mkGrader { g_grades : list (list Z); g_signs : list Z }.

(** TermGrader.cpp:24-45, the constructor.  resize(maxId + 1) and the loop over all exponents give one
    entry per entry of the translator's table. *)
Definition gr_make (varDegrees : list Z) (tr : translator) : grader :=
  mkGrader (map (fun v => map (Z.mul (nth v varDegrees 0%Z)) (nth v tr [])) (seq 0 (length varDegrees)))
           (map Z.sgn varDegrees).

(** TermGrader.cpp:255-260 getGrade; [None]: read outside of the table. *)
Definition getGrade (g : grader) (var e : nat) : option Z := nth_error (nth var (g_grades g) []) e.
(** 262-265 getMaxExponent *)
Definition getMaxExponent (g : grader) (var : nat) : nat := length (nth var (g_grades g) []) - 1.
(** 267-269 getVarCount *)
Definition gr_n (g : grader) : nat := length (g_grades g).
(** 283-286 getGradeSign *)
Definition getGradeSign (g : grader) (var : nat) : Z := nth var (g_signs g) 0%Z.

(** 53-58 getDegree *)
Definition getDegree (g : grader) (t : term) : option Z :=
  foldM (fun d v => bind (getGrade g v (t @ v)) (fun x => Some (d + x)%Z)) (seq 0 (gr_n g)) 0%Z.

(** 69-121 getUpperBound: the exponent chosen for one variable, and the sum. *)
Definition optimalExponent (g : grader) (v div dom : nat) : nat :=
  if div =? dom then div
  else if (0 <? getGradeSign g v)%Z then (if dom =? getMaxExponent g v then dom - 1 else dom)
  else (if dom =? getMaxExponent g v then dom else div).
Definition getUpperBound (g : grader) (divisor dominator : term) : option Z :=
  foldM (fun b v =>
      if (getGradeSign g v =? 0)%Z then Some b
      else bind (getGrade g v (optimalExponent g v (divisor @ v) (dominator @ v))) (fun x => Some (b + x)%Z))
    (seq 0 (gr_n g)) 0%Z.

(** 131-157 getMinIndexLessThan: the first exponent in [from..to] whose grade is at most [maxDegree].
    [None]: read outside of the table. *)
Fixpoint scan (g : grader) (var : nat) (maxDegree : Z) (es : list nat) : option (option nat) :=
  match es with
  | [] => Some None
  | e :: es' => bind (getGrade g var e) (fun x => if (x <=? maxDegree)%Z then Some (Some e) else scan g var maxDegree es')
  end.
Definition getMinIndexLessThan (g : grader) (var from to : nat) (maxDegree : Z) : option (option nat) :=
  scan g var maxDegree (seq from (S to - from)).
(** 159-185 getMaxIndexLessThan: the last one. *)
Definition getMaxIndexLessThan (g : grader) (var from to : nat) (maxDegree : Z) : option (option nat) :=
  scan g var maxDegree (rev (seq from (S to - from))).

(** ** SplitStrategy.cpp:390-451 DegreeSplit with a grader: the best variable so far and its difference. *)
Definition degree_step (g : grader) (s : slice) (best : nat * Z) (v : nat) : option (nat * Z) :=
  let lcm := s_lcm s in
  if lcm @ v <=? 1 then Some best
  else
    let base := s_q s @ v in
    let mid0 := base + lcm @ v / 2 in
    let mid := if (mid0 =? getMaxExponent g v) && (base <? mid0) then mid0 - 1 else mid0 in
    bind (getGrade g v mid) (fun a => bind (getGrade g v base) (fun b =>
      let d0 := (a - b)%Z in
      let d := if (getGradeSign g v <? 0)%Z then (- d0)%Z else d0 in
      Some (if (snd best <? d)%Z then (v, d) else best))).
Definition graded_degree_pivot (g : grader) : pivot_rule := fun rnd k s =>
  let n := s_n s in
  bind (foldM (degree_step g s) (seq 0 n) (0, (-1)%Z)) (fun best =>
    let v := fst best in
    Some (s, t_set n (t_identity n) v (s_lcm s @ v / 2), k)).

(** ** OptimizeStrategy.cpp *)

(** OptimizeStrategy.h: BoundSetting *)
Inductive bound_setting := DoNotUseBound | UseBoundToEliminate | UseBoundToEliminateAndSimplify.

(** _maxSolutions, _maxValue, _maxValueToBeat; the two numbers are 0 at first (mpz_class). *)
Record ostate := mkOst { o_sols : list term; o_value : Z; o_beat : Z }.
Definition ost_init : ostate := mkOst [] 0%Z 0%Z.

(** The parameters of an OptimizeStrategy. *)
Record oconfig := mkOc { oc_c : config; oc_g : grader; oc_all : bool; oc_bound : bound_setting }.

(** 57-71 consume *)
Definition o_consume (oc : oconfig) (st : ostate) (t : term) : option ostate :=
  bind (getDegree (oc_g oc) t) (fun degree =>
    if (match o_sols st with [] => true | _ => false end) || (o_beat st <? degree)%Z then
      if oc_all oc && (degree =? o_value st)%Z then Some (mkOst (o_sols st ++ [t]) (o_value st) (o_beat st))
      else Some (mkOst [t] degree (degree - (if oc_all oc then 1 else 0))%Z)
    else Some st).

(** SliceStrategyCommon.cpp:55-63 simplify, with its return value *)
Definition st_simplifyB (c : config) (s : slice) : option (slice * bool) :=
  if c_simp c then msm_simplify s
  else match c_split c with LabelSplit _ => msm_adjustMultiply s | PivotSplit _ => Some (s, false) end.

(** 365-385 getDominator: the slice (its lcm is now up to date, or it was cleared) and the dominator unless
    the return value is false. *)
Definition o_getDominator (s : slice) : slice * option term :=
  let s1 := sl_touch s in
  if existsb (fun v => s_lcm s1 @ v =? 0) (seq 0 (s_n s1)) then (sl_clear s1, None)
  else (s1, Some (tabulate (s_n s1) (fun v => s_q s1 @ v + s_lcm s1 @ v - 1))).

(** 169-214 changedInWayRelevantToBound *)
Fixpoint o_relevant (g : grader) (oldDiv oldDom newDiv newDom : term) (vars : list nat) : bool :=
  match vars with
  | [] => false
  | v :: vars' =>
      let next := o_relevant g oldDiv oldDom newDiv newDom vars' in
      if (oldDiv @ v =? newDiv @ v) && (oldDom @ v =? newDom @ v) then next
      else if (getGradeSign g v <? 0)%Z then
        if oldDiv @ v <? newDiv @ v then true
        else if oldDom @ v =? getMaxExponent g v then true else next
      else if (0 <? getGradeSign g v)%Z then
        if newDom @ v <? oldDom @ v then newDom @ v <? getMaxExponent g v - 1
        else if (newDiv @ v =? newDom @ v) && (newDom @ v =? getMaxExponent g v) then true else next
      else next
  end.

(** 234-292 getInnerSimplify: what the loop does for one variable; [Some None]: nothing found, the entry of
    the pivot is 0. *)
Definition o_innerAt (g : grader) (beat ub : Z) (v div dom : nat) : option (option nat) :=
  if div =? dom then Some None
  else if (0 <? getGradeSign g v)%Z then
    let b := if dom =? getMaxExponent g v then dom - 1 else dom in
    if div =? b then Some None
    else bind (getGrade g v b) (fun gb =>
         bind (getMaxIndexLessThan g v div (b - 1) (beat - ub + gb)%Z) (fun r =>
           match r with Some t => Some (Some (t - div + 1)) | None => Some None end))
  else if (getGradeSign g v <? 0)%Z then
    if dom =? getMaxExponent g v then
      bind (getGrade g v dom) (fun gd => bind (getGrade g v div) (fun gv =>
        if (ub - gd + gv <=? beat)%Z then Some (Some (dom - div)) else Some None))
    else Some None
  else Some None.
Definition o_getInner (g : grader) (beat ub : Z) (div dom : term) : option (option term) :=
  bind (mapM (fun v => o_innerAt g beat ub v (div @ v) (dom @ v)) (seq 0 (gr_n g))) (fun r =>
    if existsb (fun x => match x with Some _ => true | None => false end) r
    then Some (Some (map (fun x => match x with Some e => e | None => 0 end) r))
    else Some None).

(** 294-341 getOuterSimplify: the first variable with a pivot, and its exponent. *)
Definition o_outerAt (g : grader) (beat ub : Z) (v div dom : nat) : option (option nat) :=
  if div =? dom then Some None
  else if (getGradeSign g v <? 0)%Z then
    if dom =? getMaxExponent g v then Some None
    else bind (getGrade g v div) (fun gv =>
         bind (getMinIndexLessThan g v (div + 1) dom (beat - ub + gv)%Z) (fun r =>
           match r with Some t => Some (Some (t - div)) | None => Some None end))
  else if (0 <? getGradeSign g v)%Z then
    if dom =? getMaxExponent g v then
      bind (getGrade g v (dom - 1)) (fun g1 => bind (getGrade g v dom) (fun g2 =>
        if (ub - g1 + g2 <=? beat)%Z then Some (Some (dom - div)) else Some None))
    else Some None
  else Some None.
Fixpoint o_getOuter (g : grader) (beat ub : Z) (div dom : term) (vars : list nat) : option (option (nat * nat)) :=
  match vars with
  | [] => Some None
  | v :: vars' =>
      bind (o_outerAt g beat ub v (div @ v) (dom @ v)) (fun r =>
        match r with
        | Some e => Some (Some (v, e))
        | None => o_getOuter g beat ub div dom vars'
        end)
  end.

(** 216-232 boundSimplify; [Some None] is the return value false. *)
Definition o_boundSimplify (g : grader) (beat ub : Z) (s : slice) (dom : term) : option (option slice) :=
  bind (o_getInner g beat ub (s_q s) dom) (fun r =>
    match r with
    | Some p => Some (Some (fst (msm_innerSlice s p)))
    | None =>
        bind (o_getOuter g beat ub (s_q s) dom (seq 0 (gr_n g))) (fun r =>
          match r with
          | Some (v, e) => Some (Some (msm_outerSlice s (t_set (s_n s) (t_identity (s_n s)) v e)))
          | None => Some None
          end)
    end).

(** 97-166, the loop of simplify.  [dom] is the dominator; with UseBoundToEliminate it is not recomputed
    after the slice was simplified.  [None]: out of fuel or undefined behaviour. *)
Fixpoint o_loop (fuel : nat) (oc : oconfig) (beat : Z) (first : bool) (s : slice) (dom : term) : option slice :=
  match fuel with
  | 0 => None
  | S fuel' =>
      bind (getUpperBound (oc_g oc) (s_q s) dom) (fun ub =>
      if (ub <=? beat)%Z then Some (sl_clear s)
      else
        match oc_bound oc with
        | UseBoundToEliminateAndSimplify =>
            let oldDiv := s_q s in
            (* the usual simplification, from the current slice and dominator *)
            let usual (s1 : slice) :=
              bind (st_simplifyB (oc_c oc) s1) (fun r =>
                let (s2, changed) := r in
                if changed then
                  match o_getDominator s2 with
                  | (s3, None) => Some s3
                  | (s3, Some dom3) =>
                      if o_relevant (oc_g oc) oldDiv dom (s_q s3) dom3 (seq 0 (gr_n (oc_g oc)))
                      then o_loop fuel' oc beat false s3 dom3 else Some s3
                  end
                else Some s2) in
            bind (o_boundSimplify (oc_g oc) beat ub s dom) (fun r =>
              match r with
              | None => usual s
              | Some s1 =>
                  match o_getDominator s1 with
                  | (s1', None) => Some s1'
                  | (s1', Some dom1) =>
                      if o_relevant (oc_g oc) oldDiv dom (s_q s1') dom1 (seq 0 (gr_n (oc_g oc)))
                      then o_loop fuel' oc beat false s1' dom1 else usual s1'
                  end
              end)
        | _ =>
            (* UseBoundToEliminate *)
            bind (st_simplifyB (oc_c oc) s) (fun r =>
              let (s1, changed) := r in
              if first && changed then o_loop fuel' oc beat false s1 dom else Some s1)
        end)
  end.

(** 81-167 simplify; the return value is not used by the callers. *)
Definition o_simplify (oc : oconfig) (st : ostate) (s : slice) : option slice :=
  match s_I s with
  | [] => Some s
  | _ =>
      match oc_bound oc, o_sols st with
      | DoNotUseBound, _ | _, [] =>
          bind (st_simplifyB (oc_c oc) s) (fun r => Some (fst r))
      | _, _ =>
          match o_getDominator s with
          | (s1, None) => Some s1
          | (s1, Some dom) =>
              o_loop (S (S (exp_sum (s_n s1) (i_lcm (s_n s1) (s_I s1))))) oc (o_beat st) true s1 dom
          end
      end
  end.

(** MsmStrategy.cpp:67-85 processSlice for an OptimizeStrategy, which is its own consumer and never uses
    independence splits (OptimizeStrategy.cpp:39).  The tasks are evaluated recursively in the order in which
    the task stack runs them; both slices of a split are simplified before either of them is processed. *)
Fixpoint o_process (fuel : nat) (oc : oconfig) (rnd : nat -> nat) (k : nat) (st : ostate) (s : slice)
  : option (ostate * nat) :=
  match fuel with
  | 0 => None
  | S fuel' =>
      match msm_baseCase s (c_simp (oc_c oc)) with
      | (_, Base out) => bind (foldM (o_consume oc) out st) (fun st' => Some (st', k))
      | (_, BaseUB) => None
      | (s1, NotBase) =>
          match c_split (oc_c oc) with
          | LabelSplit f =>
              (* MsmStrategy.cpp:97-169 labelSplit *)
              bind (f s1) (fun var =>
                let (hasLabel, rest) := labelSlices s1 var in
                match hasLabel with
                | None => bind (o_simplify oc st rest) (fun r => o_process fuel' oc rnd k st r)
                | Some h =>
                    bind (o_simplify oc st h) (fun h' =>
                    bind (o_simplify oc st rest) (fun r =>
                    bind (o_process fuel' oc rnd k st r) (fun x =>
                    o_process fuel' oc rnd (snd x) (fst x) h')))
                end)
          | PivotSplit f =>
              (* SliceStrategyCommon.cpp:77-111 pivotSplit *)
              bind (f rnd k s1) (fun x =>
                let '(s2, p, k0) := x in
                bind (o_simplify oc st (fst (msm_innerSlice s2 p))) (fun inner =>
                bind (o_simplify oc st (msm_outerSlice s2 p)) (fun outer =>
                  let '(first, second) :=
                    if length (s_I inner) <? length (s_I outer) then (inner, outer) else (outer, inner) in
                  bind (o_process fuel' oc rnd k0 st first) (fun x =>
                  o_process fuel' oc rnd (snd x) (fst x) second))))
          end
      end
  end.

(** MsmStrategy.cpp:44-65 run: the final state of the strategy. *)
Definition o_run (oc : oconfig) (rnd : nat -> nat) (n : nat) (I : ideal) : option ostate :=
  bind (o_simplify oc ost_init (msm_initial n I)) (fun s =>
  bind (o_process (run_fuel n I) oc rnd 0 ost_init s) (fun x => Some (fst x))).

(** ** SliceFacade.cpp *)

(** The split strategy of the parameters: DegreeSplit gets the grader. *)
Inductive osplit := FixedSplit (sp : split) | DegreeSplit.
Record oparams := mkOp { op_simp : bool; op_split : osplit; op_elim : bool; op_bsimp : bool }.

(** SliceFacade.cpp:375-413, the settings made by solveProgram *)
Definition op_bound (p : oparams) : bound_setting :=
  if op_bsimp p then UseBoundToEliminateAndSimplify
  else if op_elim p then UseBoundToEliminate else DoNotUseBound.
Definition op_config (p : oparams) (g : grader) (all : bool) : oconfig :=
  mkOc (mkConfig false (op_simp p)
          (match op_split p with FixedSplit sp => sp | DegreeSplit => PivotSplit (graded_degree_pivot g) end))
       g all (op_bound p).

(** SliceFacade.cpp:375-427 solveProgram: what the consumer is told, and the optimal value unless the return
    value is false. *)
Definition solveProgram (p : oparams) (rnd : nat -> nat) (co : common) (grading : list Z) (all : bool)
  : option (list iev * option Z) :=
  let oc := op_config p (gr_make grading (co_tr co)) all in
  bind (o_run oc rnd (co_n co) (co_ideal co)) (fun st =>
  bind (emit (co_n co) (co_tr co) (o_sols st)) (fun evs =>
    Some (evs, match o_sols st with [] => None | _ => Some (o_value st) end))).

(** SliceFacade.cpp:336-349 solveIrreducibleDecompositionProgram *)
Definition solveIrreducibleDecompositionProgram (p : oparams) (rnd : nat -> nat) (co : common) (grading : list Z)
  (all : bool) : option (list iev * option Z) :=
  let I := if i_containsIdentity (co_n co) (co_ideal co) then co_ideal co
           else addPurePowersAtInfinity (co_n co) (co_tr co) (co_ideal co) in
  solveProgram p rnd (mkCommon (co_n co) I (co_tr co)) grading all.

(** SliceFacade.cpp:351-360 solveStandardProgram *)
Definition solveStandardProgram (p : oparams) (rnd : nat -> nat) (co : common) (grading : list Z) (all : bool)
  : option (list iev * option Z) :=
  solveProgram p rnd (mkCommon (co_n co) (co_ideal co) (tr_decrement (co_tr co))) grading all.

(** SliceParams.cpp:24-30 and CommonParams.cpp:24-30 *)
Definition default_oparams : oparams := mkOp true (FixedSplit (PivotSplit median_pivot)) true true.

(** frobby.cpp:424-443 solveStandardMonomialProgram.  The parameters are those of [default_oparams]. *)
Definition api_solveStandard (p : oparams) (rnd : nat -> nat) (n : nat) (I : big_ideal) (l : list Z)
  : option (bool * list iev) :=
  bind (solveStandardProgram p rnd (setIdeal false n I) l false) (fun r =>
    Some (match snd r with Some _ => true | None => false end, fst r)).

(** SliceFacade.cpp:433-453 takeRadical *)
Definition sf_takeRadical (co : common) : common :=
  let n := co_n co in
  let I := co_ideal co in
  let I' := if t_isSquareFree n (i_lcm n I) then I
            else i_minimize n (map (fun g => tabulate n (fun v => if 1 <? g @ v then 1 else g @ v))
                                   (setInfinityPowersToZero n (co_tr co) I)) in
  mkCommon n I' (tr_zeroOne n).

(** SliceFacade.cpp:114-148 computeDimension *)
Definition sf_computeDimension (p : oparams) (rnd : nat -> nat) (co : common) (codim : bool) : option Z :=
  let n := Z.of_nat (co_n co) in
  if i_containsIdentity (co_n co) (co_ideal co) then Some (if codim then (n + 1)%Z else (-1)%Z)
  else
    bind (solveIrreducibleDecompositionProgram p rnd (sf_takeRadical co) (repeat (-1)%Z (co_n co)) false) (fun r =>
      match snd r with
      | Some v => Some (if codim then (- v)%Z else (n + v)%Z)
      | None => Some (if codim then 0%Z else n)
      end).

(** OptimizeAction.cpp:77-97: the options displayLevel, maxStandard, chopFirstAndSubtract and minValue *)
Record optimize_options := mkOo { oo_level : nat; oo_maxStandard : bool; oo_chop : bool; oo_min : bool }.

(** OptimizeAction.cpp:106-178 perform, after reading the input: [v] is the vector read (or all ones).  The result
    is what the ideal writer is told and the value printed ([None]: "no solution.").  BigIdeal.cpp:233-250
    eraseVar(0) drops the first exponent of every generator. *)
Definition optimize_action (o : optimize_options) (p : oparams) (rnd : nat -> nat) (n : nat) (I : big_ideal) (v : list Z)
  : option (list iev * option Z) :=
  let chop := oo_chop o && negb (length v =? 0) in
  let subtract := if chop then nth 0 v 0%Z else 0%Z in
  let v1 := if chop then skipn 1 v else v in
  let I1 := if chop then map (skipn 1) I else I in
  let n1 := if chop then n - 1 else n in
  let v2 := if oo_min o then map Z.opp v1 else v1 in
  let all := 2 <=? oo_level o in
  bind (if oo_maxStandard o then solveStandardProgram p rnd (setIdeal false n1 I1) v2 all
        else solveIrreducibleDecompositionProgram p rnd (setIdeal false n1 I1) v2 all) (fun r =>
    Some (if 0 <? oo_level o then fst r else [],
          match snd r with
          | None => None
          | Some x => Some ((if oo_min o then - x else x) - subtract)%Z
          end)).
