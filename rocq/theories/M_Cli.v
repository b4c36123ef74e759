(** Model of the actions that compute decompositions of an ideal, from the text of the input to the text of the output:
    IrreducibleDecomAction.cpp, PrimaryDecomAction.cpp, MaximalStandardAction.cpp, AssociatedPrimesAction.cpp,
    AlexanderDualAction.cpp, CommonParamsHelper.cpp, SliceFacade.cpp and the consumers between the algorithm and the writer. *)
From Coq Require Import String Ascii.
From Coq Require Import List Arith Bool ZArith.
Import ListNotations.
From Verif Require Import M_Term M_Ideal M_Slice M_Msm M_Api M_Names M_IO M_Intersect M_Transform M_Actions.

(** ** Consumers *)
(** What a TermConsumer (TermConsumer.h) is told.  consume of an Ideal is beginConsuming, the terms, doneConsuming
    (TermConsumer.cpp:35-43). *)
Inductive t_event := TRing (names : list str) | TBeginList | TBegin | TTerm (t : term) | TDone | TDoneList.

(** TermTranslator.cpp:451-464 lessThanReverseLex, on the exponents that the two terms stand for: the first difference decides *)
Fixpoint z_before (a b : list Z) : bool :=
  match a, b with
  | x :: a', y :: b' => if (x =? y)%Z then z_before a' b' else (y <? x)%Z
  | _, _ => false
  end.
(** An index outside the table is caught by [translating] below: every term that is compared is passed on as well. *)
Definition tr_less (tr : translator) (a b : term) : bool := z_before (t_value tr a) (t_value tr b).
(** IdealComparator.cpp:32-51 idealLessThanImpl *)
Fixpoint list_less (less : term -> term -> bool) (a b : ideal) : bool :=
  match a with
  | [] => false
  | x :: a' =>
      match b with
      | [] => true
      | y :: b' => if less x y then true else if less y x then false else list_less less a' b'
      end
  end.

(** CanonicalTermConsumer.h: _storingList and _ideals, the last one first *)
Record canonical := CC { cc_storing : bool; cc_ideals : list ideal }.
Definition cc_new : canonical := CC false [].
(** CanonicalTermConsumer.cpp:113-120 canonicalizeIdeal; makeTranslatedIdealConsumer always gives a translator *)
Definition canonicalize (tr : translator) (I : ideal) : ideal := std_sort (tr_less tr) I.
(** CanonicalTermConsumer.cpp:92-111 passLastIdeal *)
Definition pass (tr : translator) (I : ideal) : list t_event := TBegin :: map TTerm (canonicalize tr I) ++ [TDone].
(** CanonicalTermConsumer.cpp:36-90; what is passed on.  [None]: there is no ideal to insert into or to pass on. *)
Definition cc_step (tr : translator) (s : canonical) (e : t_event) : option (canonical * list t_event) :=
  match e with
  | TRing names => Some (s, [TRing names])
  | TBeginList => Some (CC true (cc_ideals s), [])
  | TBegin => Some (CC (cc_storing s) ([] :: cc_ideals s), [])
  | TTerm t => match cc_ideals s with J :: Js => Some (CC (cc_storing s) ((J ++ [t]) :: Js), []) | [] => None end
  | TDone =>
      if cc_storing s then Some (s, [])
      else match cc_ideals s with J :: Js => Some (CC false Js, pass tr J) | [] => None end
  | TDoneList =>
      let Js := std_sort (list_less (tr_less tr)) (map (canonicalize tr) (cc_ideals s)) in
      Some (CC (cc_storing s) [], TBeginList :: concat (map (pass tr) Js) ++ [TDoneList])
  end.
Fixpoint cc_run (tr : translator) (s : canonical) (es : list t_event) : option (list t_event) :=
  match es with
  | [] => Some []
  | e :: es' => bind (cc_step tr s e) (fun r => bind (cc_run tr (fst r) es') (fun out => Some (snd r ++ out)))
  end.

(** TranslatingTermConsumer.cpp:38-71; the translator is looked up by those that receive the term.  [None]: an index is outside its
    table. *)
Definition translating (tr : translator) (e : t_event) : option w_event :=
  match e with
  | TRing names => Some (WRing names)
  | TBeginList => Some WBeginList
  | TBegin => Some WBegin
  | TTerm t => bind (translate (List.length tr) tr t) (fun _ => Some (WTTerm tr t))
  | TDone => Some WDone
  | TDoneList => Some WDoneList
  end.

(** IrreducibleIdealSplitter.cpp:73-89 consume with a translator, 91-106 consume of a vector: the powers of the variables.  [zero] is
    the entry of _tmp and _bigTmp outside the variable. *)
Definition split_at {A} (zero : A) (t : list A) (var : nat) : list A :=
  map (fun j => if j =? var then nth j t zero else zero) (seq 0 (List.length t)).
Definition split_vars (v : list Z) : list nat := filter (fun i => negb (nth i v 0 =? 0)%Z) (seq 0 (List.length v)).
(** IrreducibleIdealSplitter.cpp:36-116; [inList] is _inList *)
Fixpoint splitter_run (inList : bool) (es : list w_event) : list w_event :=
  match es with
  | [] => []
  | WRing names :: es' => WRing names :: splitter_run inList es'
  | WBeginList :: es' => WBeginList :: splitter_run true es'
  | WBegin :: es' => (if inList then [] else [WBeginList]) ++ splitter_run inList es'
  | WTerm t :: es' => WBegin :: map (fun i => WTerm (split_at 0%Z t i)) (split_vars t) ++ WDone :: splitter_run inList es'
  | WTTerm tr t :: es' =>
      WBegin :: map (fun i => WTTerm tr (split_at 0 t i)) (split_vars (t_value tr t)) ++ WDone :: splitter_run inList es'
  | WDone :: es' => (if inList then [] else [WDoneList]) ++ splitter_run inList es'
  | WDoneList :: es' => WDoneList :: splitter_run inList es'
  end.

(** IdealConsolidator.cpp:29-92, in front of the writer of the 4ti2 format (Fourti2IOHandler.cpp:166-170); [names] and [I] are those
    of _ideal, the last term first *)
Fixpoint consolidated (w : writer) (names : list str) (I : list (list Z)) (es : list w_event) : res text :=
  match es with
  | [] => Ok []
  | e :: es' =>
      match e with
      | WRing names => LET (w, a) := iw_step Fourti2 w e IN LET b := consolidated w names [] es' IN Ok (a ++ b)
      | WBeginList | WDoneList => LET (w, a) := iw_step Fourti2 w e IN LET b := consolidated w names I es' IN Ok (a ++ b)
      | WBegin => consolidated w names I es'
      | WTerm t => consolidated w names (t :: I) es'
      | WTTerm tr t => consolidated w names (t_value tr t :: I) es'
      | WDone => LET (w, a) := iw_ideal Fourti2 w names (rev I) IN LET b := consolidated w names [] es' IN Ok (a ++ b)
      end
  end.
(** IOHandlerImpl.cpp:42-44 and Fourti2IOHandler.cpp:166-170 doCreateIdealWriter: the text that is written *)
Definition written (f : format) (es : list w_event) : res text :=
  match f with
  | Fourti2 => consolidated iw_new [] [] es
  | _ => LET (_, out) := iw_run f iw_new es IN Ok out
  end.
(** CommonParamsHelper.cpp:128-147 makeTranslatedIdealConsumer and the writer *)
Definition ideal_output (f : format) (canon split : bool) (tr : translator) (es : list t_event) : res text :=
  match bind (if canon then cc_run tr cc_new es else Some es) (mapO (translating tr)) with
  | None => Undefined
  | Some ws => written f (if split then splitter_run false ws else ws)
  end.

(** ** CommonParamsHelper *)
(** The VarNames object (VarNames.cpp:44-62 addVar) with these names, which are distinct.  The hash map is a list of pairs. *)
Definition vn_of (names : list str) : varNames := VN (combine names (seq 0 (List.length names))) names.
(** CommonParamsHelper.cpp:176-203 setIdeal: the names of the translator, the ideal and the tables of the translator.  [None]: a name
    or an index was out of range. *)
Definition cli_setIdeal (minimal canon : bool) (names : list str) (I : big_ideal) : option (list str * common) :=
  let co := setIdeal minimal (List.length names) I in
  if canon then
    bind (sort_variables (co_tr co) (vn_of names) (co_ideal co)) (fun '(tr, v, J) =>
    bind (vn_deref v (vn_names v)) (fun names' => Some (names', mkCommon (List.length names') J tr)))
  else Some (names, co).

(** ** SliceFacade: what the consumer is told, and the translator at that time *)
Definition told (names : list str) (ts : list term) : list t_event := TRing names :: TBegin :: map TTerm ts ++ [TDone].
(** SliceFacade.cpp:362-373 produceEncodedIrrDecom with MsmStrategy.cpp:44-65 *)
Definition told_irrDecom (c : config) (rnd : nat -> nat) (names : list str) (co : common) : option (translator * list t_event) :=
  bind (encodedIrrDecom c rnd co) (fun d => Some (co_tr co, told names d)).
(** SliceFacade.cpp:229-248 computeMaximalStaircaseMonomials, computeMaximalStandardMonomials *)
Definition told_maxStandard (increment : bool) (c : config) (rnd : nat -> nat) (names : list str) (co : common) : option (translator * list t_event) :=
  bind (msm_run c rnd (co_n co) (co_ideal co)) (fun d => Some (if increment then co_tr co else tr_decrement (co_tr co), told names d)).
(** SliceFacade.cpp:250-284 computeAlexanderDual; [Some None] is the error of a point that is not divisible by the lcm *)
Definition told_dual (c : config) (rnd : nat -> nat) (names : list str) (co : common) (point : list Z) : option (option (translator * list t_event)) :=
  bind (getLcmOfIdeal co) (fun lcm =>
    if existsb (fun v => (nth v point 0 <? nth v lcm 0)%Z) (seq 0 (List.length lcm)) then Some None
    else bind (encodedIrrDecom c rnd co) (fun d => Some (Some (tr_dualize (co_tr co) point, told names d)))).
(** SliceFacade.cpp:286-334 computeAssociatedPrimes *)
Definition told_primes (c : config) (rnd : nat -> nat) (names : list str) (co : common) : option (translator * list t_event) :=
  bind (encodedIrrDecom c rnd co) (fun decom =>
  bind (supports_of (co_n co) (co_tr co) decom) (fun radical =>
  Some (tr_zeroOne (co_n co), told names (i_removeDuplicates (co_n co) radical)))).
(** SliceFacade.cpp:193-223 the loop over the groups of components with the same support; see primary_loop *)
Fixpoint primary_parts (fuel : nat) (c : config) (rnd : nat -> nat -> nat) (k n : nat) (tr : translator) (lcm : term) (l : ideal) : option (list ideal) :=
  match l with
  | [] => Some []
  | t :: l' =>
      match fuel with
      | 0 => None
      | S fuel' =>
          let (group, rest) := take_group n t l' in
          let dual := map (fun g => t_encodedDual n g lcm) (t :: group) in
          bind (msm_run c (rnd k) n (addPurePowersAtInfinity n tr dual)) (fun comp =>
          bind (primary_parts fuel' c rnd (S k) n tr lcm rest) (fun parts =>
          Some (map (fun g => t_encodedDual n g lcm) (setInfinityPowersToZero n tr comp) :: parts)))
      end
  end.
(** SliceFacade.cpp:150-227 computePrimaryDecomposition *)
Definition told_list (names : list str) (Ls : list ideal) : list t_event :=
  TRing names :: TBeginList :: concat (map (fun L => TBegin :: map TTerm L ++ [TDone]) Ls) ++ [TDoneList].
Definition told_primary (c : config) (rnd : nat -> nat -> nat) (names : list str) (co : common) : option (translator * list t_event) :=
  let n := co_n co in
  bind (encodedIrrDecom c (rnd 0) co) (fun d =>
  let decom := i_sortReverseLex n (setInfinityPowersToZero n (co_tr co) d) in
  bind (primary_parts (List.length decom) c rnd 1 n (co_tr co) (i_lcm n decom) decom) (fun parts =>
  Some (co_tr co, told_list names parts))).

(** ** The actions *)
(** The options that they share: CommonParams.h, SliceParams.h, IOParameters.h.  [None] for the input format: it is guessed; [None] for
    the output format: that of the input. *)
Record options := Opts { o_max : Z; o_in : option format; o_out : option format; o_canon : bool; o_minimal : bool; o_config : config }.
(** IOHandler.cpp:149-154 createOHandler, Scanner.cpp:37-38 and IOParameters.cpp:139-150 *)
Definition in_format (o : options) (file : text) : format := match o_in o with Some f => f | None => autoDetect file end.
Definition out_format (o : options) (file : text) : format := match o_out o with Some f => f | None => in_format o file end.
(** The formats that register the output of a list of monomial ideals: Macaulay2IOHandler.cpp:137-142, MonosIOHandler.cpp:71-74,
    Fourti2IOHandler.cpp:153-159, but not CoCoA4IOHandler.cpp:153-157, SingularIOHandler.cpp:109-113, NewMonosIOHandler.cpp:73-75 *)
Definition has_lists (f : format) : bool := match f with M2 | Monos | Fourti2 => true | CoCoA4 | Singular | NewMonos => false end.
(** IOHandler.cpp:98-108 createIdealListWriter in CommonParamsHelper.cpp:67-69, before the input is read *)
Definition list_writer (o : options) (file : text) : res unit := if has_lists (out_format o file) then Ok tt else OtherError.
(** CommonParamsHelper.cpp:54-84 readIdealAndSetOutput, 167-174 readIdeal; all the formats here have ideals *)
Definition cli_read (o : options) (file : text) : res (list str * common) :=
  LET J := read_ideal (o_max o) (in_format o file) file IN
  match cli_setIdeal (o_minimal o) (o_canon o) (fst J) (snd (to_nideal J)) with Some r => Ok r | None => Undefined end.
Definition cli_write (o : options) (file : text) (split : bool) (r : option (translator * list t_event)) : res text :=
  match r with
  | None => Undefined
  | Some (tr, es) => ideal_output (out_format o file) (o_canon o) split tr es
  end.
(** IrreducibleDecomAction.cpp:50-58 perform, SliceFacade.cpp:109-112; with -encode the output is an ideal, otherwise a list *)
Definition irrdecom_action (o : options) (encode : bool) (rnd : nat -> nat) (file : text) : res text :=
  LET _ := (if encode then Ok tt else list_writer o file) IN
  LET (names, co) := cli_read o file IN cli_write o file (negb encode) (told_irrDecom (o_config o) rnd names co).
(** PrimaryDecomAction.cpp:43-48 perform *)
Definition primdecom_action (o : options) (rnd : nat -> nat -> nat) (file : text) : res text :=
  LET _ := list_writer o file IN LET (names, co) := cli_read o file IN cli_write o file false (told_primary (o_config o) rnd names co).
(** MaximalStandardAction.cpp:54-62 perform *)
Definition maxstandard_action (o : options) (increment : bool) (rnd : nat -> nat) (file : text) : res text :=
  LET _ := list_writer o file IN LET (names, co) := cli_read o file IN cli_write o file false (told_maxStandard increment (o_config o) rnd names co).
(** AssociatedPrimesAction.cpp:45-50 perform *)
Definition assoprimes_action (o : options) (rnd : nat -> nat) (file : text) : res text :=
  LET _ := list_writer o file IN LET (names, co) := cli_read o file IN cli_write o file false (told_primes (o_config o) rnd names co).

(** ** AlexanderDualAction *)
(** doReadTerm of each format: Macaulay2IOHandler.cpp:163-167, MonosIOHandler.cpp:91-93, SingularIOHandler.cpp:141-143,
    NewMonosIOHandler.cpp:92-94, CoCoA4IOHandler.cpp:178-180, Fourti2IOHandler.cpp:191-193 and 312-326 *)
Definition fmt_readTerm (max : Z) (f : format) (ic : consumer) (s : text) : res (consumer * text) :=
  match f with
  | M2 => m2_readTerm ic s
  | Monos | NewMonos | Singular => consumeTermProductNotation ic s
  | CoCoA4 => cocoa_readTerm max ic s
  | Fourti2 =>
      LET ic := beginTerm ic IN
      match ic_names ic with
      | [] => LET s := expect_str (lit "_fourtitwo_identity") s IN Ok (ic, s)
      | _ => fourti2_readTerm (List.length (ic_names ic)) 0 ic s
      end
  end.
(** A single term: Macaulay2IOHandler.cpp:157-161, MonosIOHandler.cpp:85-89, NewMonosIOHandler.cpp:86-90, SingularIOHandler.cpp:129-133,
    CoCoA4IOHandler.cpp:172-176, Fourti2IOHandler.cpp:178-189 doWriteTerm *)
Definition fmt_writeTerm (f : format) (names : list str) (t : list Z) : text :=
  match f with
  | CoCoA4 => cocoa_writeTermProduct t
  | Fourti2 => match t with [] => lit "_fourtitwo_identity" | _ => [] end ++ fourti2_writeTerm t
  | _ => writeTermProduct names t
  end.
(** IOHandler.cpp:50-62 readTerm *)
Definition handler_readTerm (max : Z) (f : format) (names : list str) (s : text) : res (list Z * text) :=
  LET ic := consumeRing names ic_new IN
  LET ic := beginIdeal ic IN
  LET (ic, s) := fmt_readTerm max f ic s IN
  LET ic := endIdeal ic IN
  match big_ideals ic with
  | (_, t :: _) :: _ => Ok (t, s)
  | _ => Undefined
  end.
(** IOFacade.cpp:229-253 readAlexanderDualInstance and the expectEOF of AlexanderDualAction.cpp:64 *)
Definition read_dual (max : Z) (f : format) (file : text) : res (list str * list (list Z) * option (list Z)) :=
  LET (ic, s) := handler_readIdeal max f ic_new (" "%char :: file) IN
  match big_ideals ic with
  | J :: _ =>
      LET (point, s) := (match hasMoreInput s with
                         | (true, s) => LET (t, s) := handler_readTerm max f (fst J) s IN Ok (Some t, s)
                         | (false, s) => Ok (None, s)
                         end) IN
      LET _ := expectEOF s IN
      Ok (J, point)
  | [] => Undefined
  end.
(** AlexanderDualAction.cpp:48-74 perform; the point is not given to the VarSorter *)
Definition alexdual_action (o : options) (rnd : nat -> nat) (file : text) : res text :=
  LET (J, point) := read_dual (o_max o) (in_format o file) file IN
  match cli_setIdeal (o_minimal o) (o_canon o) (fst J) (snd (to_nideal J)) with
  | None => Undefined
  | Some (names, co) =>
      match bind (match point with Some a => Some a | None => getLcmOfIdeal co end) (told_dual (o_config o) rnd names co) with
      | None => Undefined
      | Some None => OtherError
      | Some r => cli_write o file false r
      end
  end.
