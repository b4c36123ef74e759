(** Model of the action that computes Hilbert-Poincare series, from the text of the input to the text of the output: HilbertAction.cpp with
    BigattiFacade.cpp, SliceFacade.cpp and ScarfFacade.cpp, and of the names of the strategies for splits (SplitStrategy.cpp,
    SliceParams.cpp, BigattiPivotStrategy.cpp). *)
From Coq Require Import String Ascii.
From Coq Require Import List Arith Bool ZArith.
Import ListNotations.
From Verif Require Import M_Term M_Ideal M_Slice M_Msm M_Api M_Names M_IO M_Opt M_Hilbert M_Poly M_IOPoly M_Bigatti M_Scarf M_Orderer M_ScarfFacade M_Intersect M_Transform M_Actions M_Cli M_Cli2.

(** ** Names of strategies *)
(** SplitStrategy.cpp:478-494 getSplitFactory; the names are those of staticGetName of each class.  DeprecatedFrobeniusSplit is a
    DegreeSplit. *)
Definition splitFactory : list (str * osplit) :=
  [(lit "maxlabel", FixedSplit (LabelSplit maxlabel_var)); (lit "minlabel", FixedSplit (LabelSplit minlabel_var));
   (lit "varlabel", FixedSplit (LabelSplit varlabel_var)); (lit "minimum", FixedSplit (PivotSplit minimum_pivot));
   (lit "median", FixedSplit (PivotSplit median_pivot)); (lit "maximum", FixedSplit (PivotSplit maximum_pivot));
   (lit "mingen", FixedSplit (PivotSplit mingen_pivot)); (lit "indep", FixedSplit (PivotSplit indep_pivot));
   (lit "gcd", FixedSplit (PivotSplit gcd_pivot)); (lit "degree", DegreeSplit); (lit "frob", DegreeSplit)].
(** The outcome of createWithPrefix: the exceptions are shown to the user; [Undefined] is a null pointer *)
Definition created_with_prefix {A} (f : list (str * A)) (prefix : str) : res A :=
  match createWithPrefix f prefix with
  | inl (Some a) => Ok a
  | inl None => Undefined
  | inr _ => OtherError
  end.
(** SplitStrategy.cpp:497-501 createStrategy *)
Definition createSplit (prefix : str) : res osplit := created_with_prefix splitFactory prefix.
(** isLabelSplit *)
Definition is_label_split (s : osplit) : bool := match s with FixedSplit (LabelSplit _) => true | _ => false end.
(** SliceParams.cpp:61-84 validateSplit.  The option is compared as it was given, not the name that it is a prefix of. *)
Definition validateSplit (allowLabel allowDegree : bool) (split : str) : res unit :=
  LET s := createSplit split IN
  if negb allowLabel && is_label_split s then OtherError
  else if negb allowDegree && (if str_dec split (lit "degree") then true else false) then OtherError
  else if negb allowDegree && (if str_dec split (lit "frob") then true else false) then OtherError
  else Ok tt.
(** The strategy that the slice algorithm uses if there is no grading: SplitStrategy.cpp:400-402, where the internal error that is reported
    is [None]. *)
Definition without_grading (s : osplit) : split := match s with FixedSplit sp => sp | DegreeSplit => PivotSplit degree_pivot end.
(** The options -independence, -simplify and -split of the actions that use the slice algorithm without grading: validateSplit and then
    SliceFacade.cpp:53 *)
Definition slice_config (allowLabel indep simp : bool) (split : str) : res config :=
  LET _ := validateSplit allowLabel false split IN
  LET s := createSplit split IN
  Ok (mkConfig indep simp (without_grading s)).
(** The same for the actions with a grading; [elim] and [bsimp] are the settings of the bound. *)
Definition slice_oparams (simp elim bsimp : bool) (split : str) : res oparams :=
  LET _ := validateSplit true true split IN
  LET s := createSplit split IN
  Ok (mkOp simp s elim bsimp).

(** BigattiPivotStrategy.cpp:415-436 makeStrategyFactory *)
Definition pivotFactory : list (str * bstrategy) :=
  [(lit "median", Median);
   (lit "typicalPure", Generic CTypical SPure); (lit "typicalNGPure", Generic (CNonGeneric TypicalNG) SPure);
   (lit "mostNGPure", Generic (CNonGeneric MostNG) SPure); (lit "someNGPure", Generic (CNonGeneric SomeNG) SPure);
   (lit "typicalGcd", Generic CTypical SGcd); (lit "typicalNGGcd", Generic (CNonGeneric TypicalNG) SGcd);
   (lit "mostNGGcd", Generic (CNonGeneric MostNG) SGcd); (lit "someNGGcd", Generic (CNonGeneric SomeNG) SGcd);
   (lit "typicalTight", Generic CTypical STight); (lit "typicalNGTight", Generic (CNonGeneric TypicalNG) STight);
   (lit "mostNGTight", Generic (CNonGeneric MostNG) STight); (lit "someNGTight", Generic (CNonGeneric SomeNG) STight)].
(** BigattiPivotStrategy.cpp:439-449 createStrategy *)
Definition createPivot (prefix : str) (widen : bool) : res bpivot :=
  LET b := created_with_prefix pivotFactory prefix IN Ok (strategy b widen).
(** IdealOrderer.cpp:280-296 createIdealOrderer *)
Definition createOrder (name : str) : res orderer :=
  match createIdealOrderer name with
  | inl (Some o) => Ok o
  | inl None => Undefined
  | inr _ => OtherError
  end.

(** ** HilbertAction *)
(** HilbertAction.cpp:42-61, SliceParameters.cpp, ScarfParams.cpp:43-75 and IOParameters.h: the options; see options in M_Cli *)
Record hilbert_options := HO { ho_max : Z; ho_in : option format; ho_out : option format; ho_canon : bool; ho_minimal : bool;
  ho_univariate : bool; ho_algorithm : str; ho_split : str; ho_indep : bool; ho_simplify : bool; ho_generic : bool; ho_widen : bool;
  ho_enum : str; ho_deform : str; ho_strong : bool }.
(** What the program does not determine: random numbers, the order of the elements of hash tables, what std::shuffle does in the
    two orders of the deformation; and a bound on the number of steps *)
Record machine := Machine { m_rand : nat -> nat; m_arr : nat -> list (term * Z) -> list (term * Z); m_uni : nat -> list (Z * Z) -> list (Z * Z);
  m_shuffleD : nat -> ideal -> ideal; m_shuffleE : nat -> ideal -> ideal; m_fuel : nat }.
Definition ho_input (o : hilbert_options) (file : text) : format := the_format (ho_in o) file.
Definition ho_output (o : hilbert_options) (file : text) : format := match ho_out o with Some f => f | None => ho_input o file end.
(** CommonParamsHelper.cpp:54-95 readIdealAndSetOutput of a polynomial, readIdealAndSetPolyOutput: the writer is created before the input
    is read (IOHandler.cpp:110-117). *)
Definition hilbert_read (o : hilbert_options) (file : text) : res (list str * common) :=
  LET _ := (if has_polynomials (ho_output o file) then Ok tt else OtherError) IN
  LET J := read_ideal (ho_max o) (ho_input o file) file IN
  match cli_setIdeal (ho_minimal o) (ho_canon o) (fst J) (snd (to_nideal J)) with Some r => Ok r | None => Undefined end.
(** The writer is given the terms and the translator: TranslatingCoefTermConsumer.cpp, HashPolynomial.cpp:76-115 feedTo.  [Undefined]: an
    index is outside its table, or the run was not finished. *)
Definition multigraded_output (f : format) (names : list str) (co : common) (r : option (list cterm)) : res text :=
  match bind r (fun ts => bind (translate_coefs (co_n co) (co_tr co) ts) (fun _ => Some ts)) with
  | None => Undefined
  | Some ts => write_poly_stream f names (co_tr co) ts
  end.
(** The writer is given coefficients and exponents: UniHashPolynomial.cpp:64-108 feedTo *)
Definition univariate_output (f : format) (r : option (list (Z * list Z))) : res text :=
  match r with None => Undefined | Some q => write_polynomial f [lit "t"] q end.

(** BigattiHilbertAlgorithm.cpp: the terms that HashPolynomial::feedTo gives to the consumer; see bigatti_multigraded *)
Definition bigatti_terms (fuel : nat) (simplify generic : bool) (pv : bpivot) (arr : nat -> list (term * Z) -> list (term * Z)) (canonical : bool)
  (co : common) : option (list cterm) :=
  bind (b_run fuel (co_n co) (mkBP simplify generic false) pv (co_tr co) (co_ideal co)) (fun out =>
  bind (multi_ops out) (fun ops => Some (hash_polynomial (co_n co) arr ops canonical))).
(** HilbertAction.cpp:66-71 with BigattiFacade.cpp:25-64 *)
Definition hilbert_bigatti (o : hilbert_options) (e : machine) (file : text) : res text :=
  LET pv := createPivot (ho_split o) (ho_widen o) IN
  LET (names, co) := hilbert_read o file IN
  let f := ho_output o file in
  if ho_univariate o then univariate_output f (bigatti_univariate (m_fuel e) (ho_simplify o) (ho_generic o) pv (m_uni e) (ho_canon o) co)
  else multigraded_output f names co (bigatti_terms (m_fuel e) (ho_simplify o) (ho_generic o) pv (m_arr e) (ho_canon o) co).

(** SliceFacade.cpp:78-107 with CommonParamsHelper.cpp:149-162; see api_multigradedHilbertPoincareSeries *)
Definition slice_terms (c : config) (rnd : nat -> nat) (canonical : bool) (co : common) : option (list cterm) :=
  bind (hil_run c rnd (co_n co) (co_ideal co)) (fun out => Some (if canonical then canonical_coefs (co_n co) out else out)).
Definition slice_univariate (c : config) (rnd : nat -> nat) (co : common) : option (list (Z * list Z)) :=
  bind (hil_run c rnd (co_n co) (co_ideal co)) (fun out =>
  bind (translate_coefs (co_n co) (co_tr co) out) (fun L => Some (uni_feed (uni_collect L)))).
(** HilbertAction.cpp:73-79 *)
Definition hilbert_slice_algorithm (o : hilbert_options) (e : machine) (file : text) : res text :=
  LET c := slice_config false (ho_indep o) (ho_simplify o) (ho_split o) IN
  LET (names, co) := hilbert_read o file IN
  let f := ho_output o file in
  if ho_univariate o then univariate_output f (slice_univariate c (m_rand e) co)
  else multigraded_output f names co (slice_terms c (m_rand e) (ho_canon o) co).

(** ScarfHilbertAlgorithm.cpp:112-139 runGeneric: the terms that the consumer gets; see scarf_multigraded *)
Definition scarf_feed (fuel : nat) (strong : bool) (dord eord : ideal -> ideal) (arr : nat -> list (term * Z) -> list (term * Z)) (canonical : bool)
  (co : common) : option (list cterm) :=
  bind (scarf_terms fuel (co_n co) strong dord eord (co_ideal co)) (fun ts =>
  Some (hash_polynomial (co_n co) arr (map (fun x => OpAdd (sign (fst x)) (snd x)) ts) canonical)).
(** HilbertAction.cpp:81-86 with ScarfFacade.cpp:27-74; see scarf_with *)
Definition hilbert_deform (o : hilbert_options) (e : machine) (file : text) : res text :=
  LET eord := createOrder (ho_enum o) IN
  LET dord := createOrder (ho_deform o) IN
  LET (names, co) := hilbert_read o file IN
  let f := ho_output o file in
  let n := co_n co in
  match bind (o_order (m_shuffleD e) n dord (co_ideal co)) (fun _ =>
             o_order (m_shuffleE e) n eord (fst (deformer n (ho_strong o) (M_ScarfFacade.ordered (m_shuffleD e) n dord) (co_ideal co)))) with
  | None => Undefined
  | Some _ =>
      let d := M_ScarfFacade.ordered (m_shuffleD e) n dord in
      let u := M_ScarfFacade.ordered (m_shuffleE e) n eord in
      if ho_univariate o then univariate_output f (scarf_univariate (m_fuel e) (ho_strong o) d u (m_uni e) (ho_canon o) co)
      else multigraded_output f names co (scarf_feed (m_fuel e) (ho_strong o) d u (m_arr e) (ho_canon o) co)
  end.

(** HilbertAction.cpp:64-90 perform *)
Definition hilbert_action (o : hilbert_options) (e : machine) (file : text) : res text :=
  if str_dec (ho_algorithm o) (lit "bigatti") then hilbert_bigatti o e file
  else if str_dec (ho_algorithm o) (lit "slice") then hilbert_slice_algorithm o e file
  else if str_dec (ho_algorithm o) (lit "deform") then hilbert_deform o e file
  else OtherError.
