(** Model of TermTranslator.cpp, CommonParamsHelper.cpp, SliceFacade.cpp and frobby.cpp, as far as
    they concern computations by maximal standard monomials. *)
From Coq Require Import List Arith Bool ZArith Lia.
Import ListNotations.
From Verif Require Import M_Term M_Ideal M_Slice M_Msm.

(** A BigIdeal (BigIdeal.h:60-75): the vector _terms; exponents are natural numbers (see DESIGN.md, section 2). *)
Definition big_ideal := list (list nat).

(** What a Frobby::IdealConsumer is told (frobby.h:33-62). *)
Inductive iev := IdealBegin (varCount : nat) | Consume (v : list Z) | IdealEnd.

(** ** TermTranslator.cpp *)

(** TermTranslator.h: _exponents, one table per variable.  Names are left out here: the library API names the
    variables itself and the translator is then built with the same names (sortVars = false). *)
Definition translator := list (list Z).

(** TermTranslator.cpp:107-127: collect the exponents of one variable, small ones only once.
    [seen] holds the indices set in the array of that name. *)
Fixpoint collect (seen : list nat) (es : list nat) : list nat :=
  match es with
  | [] => []
  | e :: es' =>
      if e <=? 900 then
        if existsb (Nat.eqb e) seen then collect seen es' else e :: collect (e :: seen) es'
      else e :: collect seen es'
  end.

(** TermTranslator.cpp:90-141 extractExponents *)
Definition extractExponents (I : big_ideal) (var : nat) : list Z :=
  let refs := 0 :: collect [0] (map (fun g => nth var g 0) I) in
  map Z.of_nat (std_unique Nat.eqb (std_sort Nat.ltb refs)) ++ [0%Z].

(** TermTranslator.cpp:165-197 initialize, for one ideal *)
Definition tr_initialize (n : nat) (I : big_ideal) : translator :=
  map (extractExponents I) (seq 0 n).

(** std::lower_bound on a sorted range: the number of entries before the first one that is not less. *)
Fixpoint lower_bound (l : list Z) (e : Z) : nat :=
  match l with
  | [] => 0
  | x :: l' => if (x <? e)%Z then S (lower_bound l' e) else 0
  end.

(** TermTranslator.cpp:430-441 shrinkExponent *)
Definition shrinkExponent (tr : translator) (var : nat) (e : nat) : nat :=
  lower_bound (removelast (nth var tr [])) (Z.of_nat e).

(** TermTranslator.cpp:199-230 shrinkBigIdeal *)
Definition shrinkBigIdeal (n : nat) (tr : translator) (I : big_ideal) : ideal :=
  map (fun g => tabulate n (fun v => shrinkExponent tr v (nth v g 0))) I.

(** TermTranslator.cpp:425-429 getMaxId *)
Definition getMaxId (tr : translator) (var : nat) : nat := length (nth var tr []) - 1.

(** TermTranslator.cpp:390-397 getExponent; [None] is a read outside the table. *)
Definition getExponent (tr : translator) (var id : nat) : option Z :=
  nth_error (nth var tr []) id.

(** TermTranslator.cpp:232-259 addPurePowersAtInfinity.  The first loop returns at once when it meets the
    generator 1. *)
Definition hasPurePower (n : nat) (I : ideal) (var : nat) : bool :=
  existsb (fun g => negb (1 <? t_sizeOfSupport n g) && (t_firstNonZero n g =? var)) I.
Definition addPurePowersAtInfinity (n : nat) (tr : translator) (I : ideal) : ideal :=
  if hasPurePower n I n then I
  else I ++ map (fun v => t_set n (t_identity n) v (getMaxId tr v))
                (filter (fun v => negb (hasPurePower n I v)) (seq 0 n)).

(** TermTranslator.cpp:264-286 setInfinityPowersToZero; the part after "continue" is dead code. *)
Definition setInfinityPowersToZero (n : nat) (tr : translator) (I : ideal) : ideal :=
  map (fun g => tabulate n (fun v => if g @ v =? getMaxId tr v then 0 else g @ v)) I.

(** TermTranslator.cpp:288-294 dualize *)
Fixpoint dualize_from (tr : translator) (a : list Z) (var : nat) : translator :=
  match tr with
  | [] => []
  | tbl :: tr' =>
      map (fun e => if (e =? 0)%Z then e else (nth var a 0 - e + 1)%Z) tbl :: dualize_from tr' a (S var)
  end.
Definition tr_dualize (tr : translator) (a : list Z) : translator := dualize_from tr a 0.

(** TermTranslator.cpp:296-301 decrement *)
Definition tr_decrement (tr : translator) : translator := map (map (fun e => (e - 1)%Z)) tr.

(** TermTranslator.cpp:481-490 setToZeroOne *)
Definition tr_zeroOne (n : nat) : translator := tr_initialize n [repeat 0 n; repeat 1 n].

(** ** Consumers *)

(** frobby.cpp:50-57 setTerm: translate a term. *)
Fixpoint translate_from (tr : translator) (t : term) (var : nat) (vars : nat) : option (list Z) :=
  match vars with
  | 0 => Some []
  | S k =>
      match getExponent tr var (t @ var), translate_from tr t (S var) k with
      | Some e, Some r => Some (e :: r)
      | _, _ => None
      end
  end.
Definition translate (n : nat) (tr : translator) (t : term) : option (list Z) := translate_from tr t 0 n.
Fixpoint translate_all (n : nat) (tr : translator) (ts : list term) : option (list (list Z)) :=
  match ts with
  | [] => Some []
  | t :: ts' =>
      match translate n tr t, translate_all n tr ts' with
      | Some v, Some r => Some (v :: r)
      | _, _ => None
      end
  end.

(** beginConsuming, consume for each term, doneConsuming, through a TranslatingTermConsumer
    (TranslatingTermConsumer.cpp:46-73) and an ExternalIdealConsumerWrapper (frobby.cpp:69-107). *)
Definition emit (n : nat) (tr : translator) (ts : list term) : option (list iev) :=
  match translate_all n tr ts with
  | Some vs => Some (IdealBegin n :: map Consume vs ++ [IdealEnd])
  | None => None
  end.

(** frobby.cpp:329-373 IrreducibleIdealDecoder: what it passes on, given what it receives; [n] is _varCount. *)
Definition pure_power (n i : nat) (e : Z) : list Z :=
  map (fun j => if j =? i then e else 0%Z) (seq 0 n).
Fixpoint decoder (n : nat) (evs : list iev) : list iev :=
  match evs with
  | [] => []
  | IdealBegin m :: evs' => decoder m evs'
  | IdealEnd :: evs' => decoder n evs'
  | Consume v :: evs' =>
      IdealBegin n ::
      map (fun i => Consume (pure_power n i (nth i v 0%Z)))
          (filter (fun i => negb (nth i v 0 =? 0)%Z) (seq 0 n)) ++
      IdealEnd :: decoder n evs'
  end.

(** ** CommonParamsHelper.cpp and SliceFacade.cpp *)

(** CommonParamsHelper.h:79-81 _ideal and _translator. *)
Record common := mkCommon { co_n : nat; co_ideal : ideal; co_tr : translator }.

(** CommonParamsHelper.cpp:176-203 setIdeal without canonical output; [minimal] is the option
    idealIsMinimal (CommonParams.h). *)
Definition setIdeal (minimal : bool) (n : nat) (I : big_ideal) : common :=
  let tr := tr_initialize n I in
  let J := shrinkBigIdeal n tr I in
  mkCommon n (if minimal then J else i_minimize n J) tr.

(** SliceFacade.cpp:362-373 produceEncodedIrrDecom: the terms given to the consumer. *)
Definition encodedIrrDecom (c : config) (rnd : nat -> nat) (co : common) : option (list term) :=
  msm_run c rnd (co_n co) (addPurePowersAtInfinity (co_n co) (co_tr co) (co_ideal co)).

Definition bind {A B} (o : option A) (f : A -> option B) : option B :=
  match o with Some a => f a | None => None end.

(** SliceFacade.cpp:109-112 computeIrreducibleDecomposition(true) *)
Definition computeIrreducibleDecomposition (c : config) (rnd : nat -> nat) (co : common) : option (list iev) :=
  bind (encodedIrrDecom c rnd co) (emit (co_n co) (co_tr co)).

(** SliceFacade.cpp:229-248 computeMaximalStandardMonomials *)
Definition computeMaximalStandardMonomials (c : config) (rnd : nat -> nat) (co : common) : option (list iev) :=
  bind (msm_run c rnd (co_n co) (co_ideal co)) (emit (co_n co) (tr_decrement (co_tr co))).

(** SliceFacade.cpp:455-466 getLcmOfIdeal *)
Definition getLcmOfIdeal (co : common) : option (list Z) :=
  translate (co_n co) (co_tr co) (i_lcm (co_n co) (co_ideal co)).

(** SliceFacade.cpp:250-284 computeAlexanderDual(point); [Some None] is the exception thrown by
    reportError. *)
Definition computeAlexanderDual (c : config) (rnd : nat -> nat) (co : common) (point : list Z)
  : option (option (list iev)) :=
  bind (getLcmOfIdeal co) (fun lcm =>
    if existsb (fun v => (nth v point 0 <? nth v lcm 0)%Z) (seq 0 (length lcm)) then Some None
    else bind (encodedIrrDecom c rnd co) (fun d =>
           bind (emit (co_n co) (tr_dualize (co_tr co) point) d) (fun evs => Some (Some evs)))).
Definition computeAlexanderDualLcm (c : config) (rnd : nat -> nat) (co : common) : option (option (list iev)) :=
  bind (getLcmOfIdeal co) (computeAlexanderDual c rnd co).

(** SliceFacade.cpp:286-334 computeAssociatedPrimes *)
Definition support_of (n : nat) (tr : translator) (t : term) : option term :=
  bind (translate n tr t) (fun v => Some (map (fun e => if (e =? 0)%Z then 0 else 1) v)).
Fixpoint supports_of (n : nat) (tr : translator) (ts : list term) : option (list term) :=
  match ts with
  | [] => Some []
  | t :: ts' => bind (support_of n tr t) (fun s => bind (supports_of n tr ts') (fun r => Some (s :: r)))
  end.
Definition computeAssociatedPrimes (c : config) (rnd : nat -> nat) (co : common) : option (list iev) :=
  let n := co_n co in
  bind (encodedIrrDecom c rnd co) (fun decom =>
  bind (supports_of n (co_tr co) decom) (fun radical =>
  emit n (tr_zeroOne n) (i_removeDuplicates n radical))).

(** SliceFacade.cpp:185-199: the leading group of vectors with the support of [s], and the others. *)
Fixpoint take_group (n : nat) (s : term) (l : ideal) : ideal * ideal :=
  match l with
  | [] => ([], [])
  | t :: l' =>
      if t_hasSameSupport n s t then let (a, b) := take_group n s l' in (t :: a, b) else ([], l)
  end.
(** SliceFacade.cpp:185-222, the loop; [k] counts the runs of the slice algorithm. *)
Fixpoint primary_loop (fuel : nat) (c : config) (rnd : nat -> nat -> nat) (k n : nat) (tr : translator)
    (lcm : term) (l : ideal) : option (list iev) :=
  match l with
  | [] => Some []
  | t :: l' =>
      match fuel with
      | 0 => None
      | S fuel' =>
          let (group, rest) := take_group n t l' in
          let dual := map (fun g => t_encodedDual n g lcm) (t :: group) in
          bind (msm_run c (rnd k) n (addPurePowersAtInfinity n tr dual)) (fun comp =>
          bind (emit n tr (map (fun g => t_encodedDual n g lcm) (setInfinityPowersToZero n tr comp))) (fun evs =>
          bind (primary_loop fuel' c rnd (S k) n tr lcm rest) (fun evs' => Some (evs ++ evs'))))
      end
  end.
(** SliceFacade.cpp:150-227 computePrimaryDecomposition *)
Definition computePrimaryDecomposition (c : config) (rnd : nat -> nat -> nat) (co : common) : option (list iev) :=
  let n := co_n co in
  bind (encodedIrrDecom c (rnd 0) co) (fun d =>
  let decom := i_sortReverseLex n (setInfinityPowersToZero n (co_tr co) d) in
  primary_loop (length decom) c rnd 1 n (co_tr co) (i_lcm n decom) decom).

(** ** frobby.cpp.  The configuration [c] of the slice algorithm is a parameter; frobby.cpp always uses
    the default of SliceParams.cpp:24-30 and CommonParams.cpp:24-30. *)
Definition default_config : config := mkConfig true true (PivotSplit median_pivot).

(** frobby.cpp:385-398 *)
Definition api_irrDecomMonomials (c : config) (rnd : nat -> nat) (n : nat) (I : big_ideal) : option (bool * list iev) :=
  match I with
  | [] => Some (false, [])
  | _ => bind (computeIrreducibleDecomposition c rnd (setIdeal false n I)) (fun evs => Some (true, evs))
  end.

(** frobby.cpp:375-383 *)
Definition api_irrDecomIdeals (c : config) (rnd : nat -> nat) (n : nat) (I : big_ideal) : option (list iev) :=
  bind (api_irrDecomMonomials c rnd n I) (fun r =>
    let (ok, evs) := r in
    Some (decoder 0 evs ++ if ok then [] else [IdealBegin n; IdealEnd])).

(** frobby.cpp:400-410 *)
Definition api_primaryDecomposition (c : config) (rnd : nat -> nat -> nat) (n : nat) (I : big_ideal) : option (list iev) :=
  computePrimaryDecomposition c rnd (setIdeal false n I).

(** frobby.cpp:412-422 *)
Definition api_maximalStandardMonomials (c : config) (rnd : nat -> nat) (n : nat) (I : big_ideal) : option (list iev) :=
  computeMaximalStandardMonomials c rnd (setIdeal false n I).

(** frobby.cpp:250-281 alexanderDual(ideal, const mpz_t*, consumer); [None] is the null pointer. *)
Definition api_alexanderDual (c : config) (rnd : nat -> nat) (n : nat) (I : big_ideal) (point : option (list Z))
  : option (bool * list iev) :=
  match point with
  | None =>
      (* an exception would leave the function here: modelled as an error *)
      bind (computeAlexanderDualLcm c rnd (setIdeal false n I)) (fun r =>
        match r with Some evs => Some (true, evs) | None => None end)
  | Some a =>
      bind (computeAlexanderDual c rnd (setIdeal false n I) a) (fun r =>
        match r with Some evs => Some (true, evs) | None => Some (false, []) end)
  end.

(** frobby.cpp:283-301 alexanderDual(ideal, ideal, consumer) *)
Definition api_alexanderDualIdeal (c : config) (rnd : nat -> nat) (n : nat) (I : big_ideal) (n' : nat) (R : big_ideal)
  : option (bool * list iev) :=
  match R with
  | [r] =>
      if n' =? n then
        api_alexanderDual c rnd n I (if 0 <? n' then Some (map Z.of_nat r) else None)
      else Some (false, [])
  | _ => Some (false, [])
  end.

(** frobby.cpp:459-469 *)
Definition api_associatedPrimes (c : config) (rnd : nat -> nat) (n : nat) (I : big_ideal) : option (list iev) :=
  bind (computeAssociatedPrimes c rnd (setIdeal false n I)) (fun evs => Some (decoder 0 evs)).

(** ** Entering ideals: frobby.cpp:183-248 *)

(** FrobbyIdealHelper: number of variables, _terms of _ideal, _atVariable.  Exponents are integers here. *)
Record api_ideal := mkApi { ap_n : nat; ap_terms : list (list Z); ap_at : nat }.
Definition ap_new (n : nat) : api_ideal := mkApi n [] n.

Fixpoint list_set {A} (l : list A) (i : nat) (x : A) : list A :=
  match l, i with
  | [], _ => []
  | _ :: l', 0 => x :: l'
  | y :: l', S i' => y :: list_set l' i' x
  end.

(** frobby.cpp:223-236 addExponent, with BigIdeal.cpp:101-107 newLastTerm *)
Definition ap_add (s : api_ideal) (e : Z) : api_ideal :=
  let n := ap_n s in
  let '(terms, at_) := if ap_at s =? n then (ap_terms s ++ [repeat 0%Z n], 0) else (ap_terms s, ap_at s) in
  if (ap_at s =? n) && (n =? 0) then mkApi n terms at_
  else
    let k := length terms - 1 in
    mkApi n (list_set terms k (list_set (nth k terms []) at_ e)) (S at_).

(** frobby.cpp:201-221: objects in memory.  A store of ideals addressed by number; copying and assigning
    copy the contents (the C++ objects own their data). *)
Inductive api_call :=
| NewIdeal (n : nat)                 (* Ideal(n) *)
| CopyIdeal (src : nat)              (* Ideal(const Ideal&) *)
| AssignIdeal (dst src : nat)        (* operator= *)
| AddExponent (id : nat) (e : Z).    (* addExponent *)
Definition store := list api_ideal.
Definition st_get (st : store) (id : nat) : option api_ideal := nth_error st id.
Definition step (st : store) (call : api_call) : option store :=
  match call with
  | NewIdeal n => Some (st ++ [ap_new n])
  | CopyIdeal src => bind (st_get st src) (fun s => Some (st ++ [s]))
  | AssignIdeal dst src => bind (st_get st dst) (fun _ => bind (st_get st src) (fun s => Some (list_set st dst s)))
  | AddExponent id e => bind (st_get st id) (fun s => Some (list_set st id (ap_add s e)))
  end.
Fixpoint steps (st : store) (calls : list api_call) : option store :=
  match calls with
  | [] => Some st
  | c :: calls' => bind (step st c) (fun st' => steps st' calls')
  end.
