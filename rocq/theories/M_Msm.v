(** Model of SplitStrategy.cpp, SliceStrategyCommon.cpp, MsmStrategy.cpp. *)
From Coq Require Import List Arith Bool Lia.
Import ListNotations.
From Verif Require Import M_Term M_Ideal M_Slice M_Partition.

(** ** Slice.cpp:217-250 setToProjOf (with 92-97 resetAndSetVarCount) *)
Definition proj_keep (n : nat) (offsets : list nat) (g : term) : bool :=
  let v := t_firstNonZero n g in (v =? n) || proj_has offsets v.
Definition sl_setToProjOf (s : slice) (offsets : list nat) : slice :=
  let n := s_n s in
  mkSlice (length offsets)
    (map (proj_project offsets) (filter (proj_keep n offsets) (s_I s)))
    (map (proj_project offsets) (filter (proj_keep n offsets) (s_S s)))
    (proj_project offsets (s_q s))
    (proj_project offsets (s_lcm s))
    (s_upd s) 0.

(** ** SplitStrategy.cpp.
    The stream of values of rand() is a parameter [rnd]; [k] counts the calls made so far. *)

(** Ideal.cpp:227-234 getSupportCounts *)
Definition i_supportCounts (n : nat) (I : ideal) : term :=
  tabulate n (fun v => length (filter (fun g => 0 <? g @ v) I)).

(** SplitStrategy.cpp:77-100 getBestVar; the slice has an up to date lcm. *)
Definition getBestVar (s : slice) : nat :=
  let n := s_n s in
  let co := tabulate n (fun v => if s_lcm s @ v <=? 1 then 0 else (i_supportCounts n (s_I s)) @ v) in
  let maxCount := co @ (t_firstMax n co) in
  let co' := tabulate n (fun v => if co @ v <? maxCount then 0 else co @ v) in
  t_middleNonZero n co'.

(** SplitStrategy.cpp:62-71 getMedianPositiveExponentOf; [None]: the loop runs past the end. *)
Fixpoint skip_zero (var : nat) (I : ideal) : ideal :=
  match I with
  | [] => []
  | g :: I' => if g @ var =? 0 then skip_zero var I' else I
  end.
Definition medianExponent (sorted : ideal) (var : nat) : option nat :=
  match skip_zero var sorted with
  | [] => None
  | l => match nth_error l (length l / 2) with
         | Some g => Some (g @ var)
         | None => None
         end
  end.

Definition pivot_rule := (nat -> nat) -> nat -> slice -> option (slice * term * nat).

(** 204-221 MinimumSplit *)
Definition minimum_pivot : pivot_rule := fun rnd k s =>
  Some (s, t_set (s_n s) (t_identity (s_n s)) (getBestVar s) 1, k).

(** 223-243 MedianSplit; sorts the ideal of the slice. *)
Definition median_pivot : pivot_rule := fun rnd k s =>
  let n := s_n s in
  let var := getBestVar s in
  let I' := i_singleDegreeSort (s_I s) var in
  let s' := mkSlice n I' (s_S s) (s_q s) (s_lcm s) (s_upd s) (s_hint s) in
  match medianExponent I' var with
  | None => None
  | Some e =>
      let e' := if e =? s_lcm s @ var then e - 1 else e in
      Some (s', t_set n (t_identity n) var e', k)
  end.

(** 245-262 MaximumSplit *)
Definition maximum_pivot : pivot_rule := fun rnd k s =>
  let var := getBestVar s in
  Some (s, t_set (s_n s) (t_identity (s_n s)) var (s_lcm s @ var - 1), k).

(** 264-314 IndependencePivotSplit.  [first] is never set to false in the code, so each of the ten
    attempts only draws two random numbers and overwrites the pivot, which MedianSplit then resets. *)
Definition indep_pivot : pivot_rule := fun rnd k s =>
  if s_n s =? 1 then median_pivot rnd k s else median_pivot rnd (k + 20) s.

(** 316-359 GcdSplit.  [None]: rand() % 0. *)
Definition gcd_select (L : ideal) (rnd : nat -> nat) (k : nat) : option term :=
  match L with
  | [] => None
  | _ => nth_error L (rnd k mod length L)
  end.
Definition gcd_pivot : pivot_rule := fun rnd k s =>
  let n := s_n s in
  let var := getBestVar s in
  let L := filter (fun g => 2 <=? g @ var) (s_I s) in
  match gcd_select L rnd k, gcd_select L rnd (k + 1), gcd_select L rnd (k + 2) with
  | Some a, Some b, Some c => Some (s, t_decrement n (t_gcd n (t_gcd n a b) c), k + 3)
  | _, _, _ => None
  end.

(** 361-396 MinGenSplit *)
Definition mingen_pivot : pivot_rule := fun rnd k s =>
  let n := s_n s in
  match gcd_select (filter (fun g => negb (t_isSquareFree n g)) (s_I s)) rnd k with
  | Some a => Some (s, t_decrement n a, k + 1)
  | None => None
  end.

(** 398-411 DegreeSplit (and its alias "frob", 462-480) without a grader: internal error. *)
Definition degree_pivot : pivot_rule := fun rnd k s => None.

(** 109-127 setOneCounts *)
Definition i_oneCounts (n : nat) (I : ideal) : term :=
  tabulate n (fun v =>
    length (filter (fun g => negb (t_sizeOfSupport n g =? 1) && (g @ v =? 1)) I)).

Definition label_rule := slice -> option nat.

(** 134-149 MaxLabelSplit *)
Definition maxlabel_var : label_rule := fun s => Some (t_firstMax (s_n s) (i_supportCounts (s_n s) (s_I s))).

(** 151-170 VarLabelSplit; [None]: the loop runs past the last variable. *)
Definition varlabel_var : label_rule := fun s =>
  let n := s_n s in
  let v := find_from (fun v => 0 <? (i_oneCounts n (s_I s)) @ v) 0 n in
  if v <? n then Some v else None.

(** 172-202 MinLabelSplit *)
Definition minlabel_var : label_rule := fun s =>
  let n := s_n s in
  let counts := i_supportCounts n (s_I s) in
  let one := i_oneCounts n (s_I s) in
  let mostGeneric := fold_left (fun mg v =>
      if (mg =? 0) || ((one @ v <? mg) && (0 <? one @ v)) then one @ v else mg) (seq 1 (n - 1)) 0 in
  let counts' := tabulate n (fun v => if one @ v =? mostGeneric then counts @ v else 0) in
  Some (t_firstMax n counts').

Inductive split := PivotSplit (f : pivot_rule) | LabelSplit (f : label_rule).

(** SliceStrategyCommon.h: _useIndependence, _useSimplification, _split *)
Record config := mkConfig { c_indep : bool; c_simp : bool; c_split : split }.

(** SliceStrategyCommon.cpp:55-63 simplify *)
Definition st_simplify (c : config) (s : slice) : option slice :=
  if c_simp c then
    match msm_simplify s with Some (s', _) => Some s' | None => None end
  else
    match c_split c with
    | LabelSplit _ => match msm_adjustMultiply s with Some (s', _) => Some s' | None => None end
    | PivotSplit _ => Some s
    end.

(** MsmStrategy.cpp:122-146: the possible labels, in the order of the generators. *)
Definition couldBeLabel (s : slice) (var : nat) (g : term) : bool :=
  let n := s_n s in
  let term := t_set n g var (g @ var - 1) in
  (g @ var =? 1) && negb (i_contains n (s_S s) term) &&
  negb (existsb (fun v => term @ v =? s_lcm s @ v) (seq 0 n)).

(** MsmStrategy.cpp:103-175 labelSplit: (hasLabelSlice, slice), before they are simplified. *)
Definition labelSlices (s : slice) (var : nat) : option slice * slice :=
  let n := s_n s in
  let xvar := t_set n (t_identity n) var 1 in
  match filter (couldBeLabel s var) (s_I s) with
  | [] => (None, fst (msm_innerSlice s xvar))
  | [g] => let term := t_set n g var (g @ var - 1) in
           (Some (fst (msm_innerSlice s term)), fst (msm_innerSlice s xvar))
  | g :: _ => let term := t_set n g var (g @ var - 1) in
           (Some (fst (msm_innerSlice s term)), msm_outerSlice s term)
  end.

(** MsmStrategy.cpp:232-240 consume of MsmIndependenceSplit: [tmp] is the persistent _tmpTerm. *)
Fixpoint combine_right (n : nat) (rest : list nat) (tmp : term) (ys : list term) : list term * term :=
  match ys with
  | [] => ([], tmp)
  | y :: ys' =>
      let tmp1 := proj_inverse n rest tmp y in
      let (out, tmp2) := combine_right n rest tmp1 ys' in (tmp1 :: out, tmp2)
  end.
Fixpoint combine_left (n : nat) (big rest : list nat) (tmp : term) (xs ys : list term) : list term :=
  match xs with
  | [] => []
  | x :: xs' =>
      let tmp1 := proj_inverse n big tmp x in
      let (out, tmp2) := combine_right n rest tmp1 ys in
      out ++ combine_left n big rest tmp2 xs' ys
  end.

(** MsmStrategy.cpp:67-85 processSlice with the tasks it creates evaluated recursively, in the
    order in which the task stack runs them: the last task added is run first.
    [None]: out of fuel, undefined behaviour or an internal error. *)
Fixpoint process (fuel : nat) (c : config) (rnd : nat -> nat) (k : nat) (s : slice)
  : option (list term * nat) :=
  match fuel with
  | 0 => None
  | S fuel' =>
      match msm_baseCase s (c_simp c) with
      | (_, Base out) => Some (out, k)
      | (_, BaseUB) => None
      | (s1, NotBase) =>
          match (if c_indep c then indep_analyze s1 else Some None) with
          | None => None
          | Some (Some (big, rest)) =>
              (* MsmStrategy.cpp:258-283 independenceSplit *)
              match process fuel' c rnd k (sl_setToProjOf s1 rest) with
              | None => None
              | Some (ys, k1) =>
                  match process fuel' c rnd k1 (sl_setToProjOf s1 big) with
                  | None => None
                  | Some (xs, k2) =>
                      Some (combine_left (s_n s1) big rest (t_identity (s_n s1)) xs ys, k2)
                  end
              end
          | Some None =>
              match c_split c with
              | LabelSplit f =>
                  match f s1 with
                  | None => None
                  | Some var =>
                      let (hasLabel, rest) := labelSlices s1 var in
                      match st_simplify c rest with
                      | None => None
                      | Some r =>
                          match hasLabel with
                          | None => process fuel' c rnd k r
                          | Some h =>
                              match st_simplify c h with
                              | None => None
                              | Some h' =>
                                  match process fuel' c rnd k r with
                                  | None => None
                                  | Some (out1, k1) =>
                                      match process fuel' c rnd k1 h' with
                                      | None => None
                                      | Some (out2, k2) => Some (out1 ++ out2, k2)
                                      end
                                  end
                              end
                          end
                      end
                  end
              | PivotSplit f =>
                  (* SliceStrategyCommon.cpp:77-111 pivotSplit *)
                  match f rnd k s1 with
                  | None => None
                  | Some (s2, p, k0) =>
                      match st_simplify c (fst (msm_innerSlice s2 p)) with
                      | None => None
                      | Some inner =>
                          match st_simplify c (msm_outerSlice s2 p) with
                          | None => None
                          | Some outer =>
                              let '(first, second) :=
                                if length (s_I inner) <? length (s_I outer)
                                then (inner, outer) else (outer, inner) in
                              match process fuel' c rnd k0 first with
                              | None => None
                              | Some (out1, k1) =>
                                  match process fuel' c rnd k1 second with
                                  | None => None
                                  | Some (out2, k2) => Some (out1 ++ out2, k2)
                                  end
                              end
                          end
                      end
                  end
              end
          end
      end
  end.

(** MsmStrategy.cpp:44-65 run, with MsmSlice.cpp:28-38 (constructor): the slice that is
    handed to the task engine. *)
Definition msm_initial (n : nat) (I : ideal) : slice :=
  fst (msm_removeDoubleLcm (mkSlice n I [] (repeat 1 n) (t_identity n) false 0)).

Definition term_volume (l : term) : nat := fold_right Nat.mul 1 l.
Definition run_fuel (n : nat) (I : ideal) : nat := S (n + term_volume (i_lcm n I)).

(** MsmStrategy.cpp:44-65 run: the terms consumed between beginConsuming and doneConsuming. *)
Definition msm_run (c : config) (rnd : nat -> nat) (n : nat) (I : ideal) : option (list term) :=
  match st_simplify c (msm_initial n I) with
  | None => None
  | Some s =>
      match process (run_fuel n I) c rnd 0 s with
      | Some (out, _) => Some out
      | None => None
      end
  end.
