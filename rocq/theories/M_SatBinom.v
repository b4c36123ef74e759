(** Model of saturated binomial ideals: SatBinomIdeal.cpp, and reading them, Fourti2IOHandler.cpp, SatBinomRecorder.cpp.  A binomial is the vector
    of its exponents, a list of integers with an entry for each variable. *)
From Coq Require Import String Ascii.
From Coq Require Import List Arith Bool ZArith.
Import ListNotations.
From Verif Require Import M_Names M_IO M_Lattice.
Local Open Scope Z_scope.
Local Notation length := List.length.

(** SatBinomIdeal.h:122-123 _names and _gens *)
Record satBinom := SB { sb_names : list str; sb_gens : list (list Z) }.
Definition entry (v : list Z) (var : nat) : Z := nth var v 0.
(** The tests below are given the number of variables and the generators. *)
Definition sb_vars (J : satBinom) : nat := length (sb_names J).

(** SatBinomIdeal.cpp:337-350 isDominating; the inner loop is left at the first entry that is too large. *)
Definition isDominating (vars : nat) (gens : list (list Z)) (v : list Z) : bool :=
  existsb (fun g => forallb (fun var => negb (entry v var <? entry g var)) (seq 0 vars)) gens.
(** SatBinomIdeal.cpp:175-191 isPointFreeBody *)
Definition isPointFreeBody (vars : nat) (gens : list (list Z)) (a b : list Z) : bool :=
  let rhs := map (fun var =>
    let r := if entry b var <? entry a var then entry a var else entry b var in
    let r := if r <? 0 then 0 else r in
    r - 1) (seq 0 vars) in
  negb (isDominating vars gens rhs).
(** SatBinomIdeal.cpp:193-211 isPointFreeBody *)
Definition isPointFreeBody3 (vars : nat) (gens : list (list Z)) (a b c : list Z) : bool :=
  let rhs := map (fun var =>
    let r := if entry b var <? entry a var then entry a var else entry b var in
    let r := if entry c var <? r then r else entry c var in
    let r := if r <? 0 then 0 else r in
    r - 1) (seq 0 vars) in
  negb (isDominating vars gens rhs).
(** SatBinomIdeal.cpp:213-224 isInterior *)
Definition isInterior (vars : nat) (gens : list (list Z)) (a b : list Z) : bool :=
  if negb (isPointFreeBody vars gens a b) then false
  else forallb (fun var => negb ((entry a var <=? 0) && (entry b var <=? 0))) (seq 1 (length a - 1)).
(** SatBinomIdeal.cpp:289-291, 302-304, 317-319 *)
Definition v_sum (a b : list Z) : list Z := map (fun var => entry a var + entry b var) (seq 0 (length a)).
(** SatBinomIdeal.cpp:280-293 isInteriorEdge *)
Definition isInteriorEdge (vars : nat) (gens : list (list Z)) (from to : nat) : bool :=
  let a := nth from gens [] in
  let b := nth to gens [] in
  if isInterior vars gens a a then false
  else if isInterior vars gens b b then false
  else isInterior vars gens b (v_sum a b).
(** SatBinomIdeal.cpp:295-306 isTerminatingEdge *)
Definition isTerminatingEdge (vars : nat) (gens : list (list Z)) (from to : nat) : bool :=
  if negb (isInteriorEdge vars gens from to) then false
  else let a := nth from gens [] in isPointFreeBody vars gens a (v_sum a (nth to gens [])).
(** SatBinomIdeal.cpp:140-146 hasZeroEntry *)
Definition hasZeroEntry (vars : nat) (gens : list (list Z)) : bool :=
  existsb (fun g => existsb (fun var => entry g var =? 0) (seq 0 vars)) gens.
(** SatBinomIdeal.cpp:148-173 initialIdealIsWeaklyGeneric *)
Definition sharesEntry (vars : nat) (a b : list Z) : bool :=
  existsb (fun var => (entry a var =? entry b var) && (0 <? entry a var)) (seq 0 vars).
Fixpoint wg_loop (vars : nat) (gens l : list (list Z)) : bool :=
  match l with
  | [] => true
  | a :: l' => forallb (fun b => negb (sharesEntry vars a b && isPointFreeBody vars gens a b)) l' && wg_loop vars gens l'
  end.
Definition initialIdealIsWeaklyGeneric (vars : nat) (gens : list (list Z)) : bool := wg_loop vars gens gens.
(** SatBinomIdeal.cpp:327-329 isGeneric *)
Definition isGeneric (vars : nat) (gens : list (list Z)) : bool := negb (hasZeroEntry vars gens) && initialIdealIsWeaklyGeneric vars gens.
(** SatBinomIdeal.cpp:308-325 getDoubleTriangleCount: [count] counts the pairs with [a] and those with the later generators *)
Fixpoint dt_loop (vars : nat) (gens l : list (list Z)) (count : Z) : Z :=
  match l with
  | [] => count
  | a :: l' =>
      dt_loop vars gens l' (fold_left (fun count b =>
        if isPointFreeBody vars gens a (v_sum a b) && isPointFreeBody vars gens b (v_sum a b) then count + 1 else count) l' count)
  end.
Definition getDoubleTriangleCount (vars : nat) (gens : list (list Z)) : Z := dt_loop vars gens gens 0.
(** SatBinomIdeal.cpp:352-358 isGenerator *)
Definition isGenerator (gens : list (list Z)) (v : list Z) : bool := existsb (fun g => if list_eq_dec Z.eq_dec g v then true else false) gens.
(** SatBinomIdeal.cpp:117-127 getInitialIdeal: the exponents of a new term are 0 *)
Definition getInitialIdeal (vars : nat) (gens : list (list Z)) : list (list Z) :=
  map (fun g => map (fun var => if 0 <? entry g var then entry g var else 0) (seq 0 vars)) gens.

(** SatBinomIdeal.cpp:226-244 hasCycle; the entries of [color] are 0, 1 and 2.  [fuel] bounds the depth of the recursion. *)
Definition paint (color : list nat) (gen c : nat) : list nat := firstn gen color ++ c :: skipn (S gen) color.
Fixpoint hasCycle (fuel : nat) (edge : nat -> nat -> bool) (count gen : nat) (color : list nat) : option (bool * list nat) :=
  match fuel with
  | O => None
  | S fuel' =>
      if (nth gen color 0 =? 1)%nat then Some (true, color)
      else if (nth gen color 0 =? 2)%nat then Some (false, color)
      else (fix loop (gs : list nat) (color : list nat) {struct gs} : option (bool * list nat) :=
        match gs with
        | [] => Some (false, paint color gen 2)
        | g :: gs' =>
            if edge gen g then
              match hasCycle fuel' edge count g color with
              | None => None
              | Some (true, color) => Some (true, color)
              | Some (false, color) => loop gs' color
              end
            else loop gs' color
        end) (seq 0 count) (paint color gen 1)
  end.
(** The edges that it follows: SatBinomIdeal.cpp:237-238 *)
Definition followed (vars : nat) (gens : list (list Z)) (from to : nat) : bool :=
  isInteriorEdge vars gens from to && negb (isTerminatingEdge vars gens from to).
(** SatBinomIdeal.cpp:254-257, the loop; [Some true]: a cycle was found *)
Fixpoint cycle_loop (fuel : nat) (edge : nat -> nat -> bool) (count : nat) (gs : list nat) (color : list nat) : option bool :=
  match gs with
  | [] => Some false
  | g :: gs' =>
      match hasCycle fuel edge count g color with
      | None => None
      | Some (true, _) => Some true
      | Some (false, color) => cycle_loop fuel edge count gs' color
      end
  end.
(** SatBinomIdeal.cpp:246-278 validate *)
Definition validate (vars : nat) (gens : list (list Z)) : option bool :=
  if hasZeroEntry vars gens then Some true
  else
    let count := length gens in
    match cycle_loop (S count) (followed vars gens) count (seq 0 count) (repeat 0%nat count) with
    | None => None
    | Some true => Some false
    | Some false =>
        Some (forallb (fun from =>
          let outDegree := length (filter (isInteriorEdge vars gens from) (seq 0 count)) in
          let g := nth from gens [] in
          if isInterior vars gens g g then (outDegree =? 0)%nat else (outDegree =? 1)%nat) (seq 0 count))
    end.

(** SatBinomIdeal.cpp:95-104 removeGeneratorsWithLeadingZero, 106-115 removeGeneratorsWithoutLeadingZero: [zero] is whether those with a leading
    zero are removed.  [None]: a generator has no entries.  Each step decreases the difference of the number of generators and [gen], so that the
    number of generators is enough as [fuel]. *)
Fixpoint remove_loop (fuel : nat) (zero : bool) (gen : nat) (gens : list (list Z)) : option (list (list Z)) :=
  if (length gens <=? gen)%nat then Some gens
  else match fuel with
  | O => None
  | S fuel' =>
      match nth gen gens [] with
      | [] => None
      | x :: _ =>
          if Bool.eqb (x =? 0) zero
          then remove_loop fuel' zero gen (removelast (firstn gen gens ++ last gens [] :: skipn (S gen) gens))
          else remove_loop fuel' zero (S gen) gens
      end
  end.
Definition removeGeneratorsWithLeadingZero (gens : list (list Z)) : option (list (list Z)) := remove_loop (length gens) true 0 gens.
Definition removeGeneratorsWithoutLeadingZero (gens : list (list Z)) : option (list (list Z)) := remove_loop (length gens) false 0 gens.
(** SatBinomIdeal.cpp:360-366 projectVar, for an index in the range *)
Definition sb_projectVar (J : satBinom) (var : nat) : satBinom :=
  let erase {A} (l : list A) := firstn var l ++ skipn (S var) l in
  SB (erase (sb_names J)) (map erase (sb_gens J)).

(** Fourti2IOHandler.cpp:283-292 doReadSatBinomIdeal, 400-425 readSatBinomIdeal, SatBinomConsumer.cpp:30-35 and SatBinomRecorder.cpp:26-38 *)
Definition readSatBinomIdeal (max : Z) (s : text) : res (satBinom * text) :=
  LET (gens, s) := readSizeT max s IN
  LET (vars, s) := readSizeT max s IN
  LET (rows, s) := readRows gens vars s IN
  match peekIdentifier s with
  | (true, s) => LET (names, s) := fourti2_readNames vars [] s IN Ok (SB names rows, s)
  | (false, s) => Ok (SB (defaultNames vars) rows, s)
  end.
