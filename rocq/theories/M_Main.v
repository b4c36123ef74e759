(** Model of the console program: main.cpp, Action.cpp, CliParams.cpp, Parameter.cpp, BoolParameter.cpp, IntegerParameter.cpp,
    StringParameter.cpp, the parameters of the actions, SliceParameters.cpp, SliceParams.cpp, CommonParams.cpp, ScarfParams.cpp,
    BigattiParams.cpp, IOParameters.cpp and the names of the formats (IOHandler.cpp). *)
From Coq Require Import String Ascii.
From Coq Require Import List Arith Bool ZArith.
Import ListNotations.
From Verif Require Import M_Term M_Ideal M_Slice M_Msm M_Api M_Names M_IO M_Opt M_Euler M_Frob M_IOPoly M_Intersect M_Transform M_Generate M_Actions M_Analyze M_Cli M_Cli2 M_Cli3 M_Lattice.

(** ** Parameters *)
(** BoolParameter.h, IntegerParameter.h, StringParameter.h: _value *)
Inductive value := VBool (b : bool) | VInt (z : Z) | VStr (s : str).
(** CliParams.h:57 _params: the names and the values *)
Definition params := list (str * value).

(** mpz_set_str in base 10 (external): white space is ignored, there may be a sign before the first digit, and there is a digit *)
Fixpoint set_str_digits (z : Z) (s : str) : option Z :=
  match s with
  | [] => Some z
  | c :: s' => if isspace c then set_str_digits z s' else if isdigit c then set_str_digits (10 * z + Z.of_nat (code c - 48))%Z s' else None
  end.
Definition set_str (s : str) : option Z :=
  let unsigned s := match s with c :: _ => if isdigit c then set_str_digits 0%Z s else None | [] => None end in
  match eat s with
  | "-"%char :: s' => option_map Z.opp (unsigned s')
  | s' => unsigned s'
  end.
(** mpz_class::fits_uint_p (external), with 32 bits *)
Definition fits_uint (z : Z) : bool := (0 <=? z)%Z && (z <? 2 ^ 32)%Z.

(** Parameter.cpp:35-41 processArguments, 43-88 checkCorrectParameterCount: the number of arguments, BoolParameter.cpp:41-43,
    IntegerParameter.cpp:40-42, StringParameter.cpp:35-37 doGetArgumentCountRange; and BoolParameter.cpp:45-66, IntegerParameter.cpp:44-66,
    StringParameter.cpp:39-42 doProcessArguments *)
Definition processArguments (old : value) (args : list str) : res value :=
  match old, args with
  | VBool _, [] => Ok (VBool true)
  | VBool _, [arg] => if str_dec arg (lit "off") then Ok (VBool false) else if str_dec arg (lit "on") then Ok (VBool true) else OtherError
  | VInt _, [arg] =>
      match set_str arg with
      | Some z => if fits_uint z then Ok (VInt z) else OtherError
      | None => OtherError
      end
  | VStr _, [arg] => Ok (VStr arg)
  | _, _ => OtherError
  end.
(** CliParams.cpp:74-86 processOption; [Undefined]: the internal error *)
Fixpoint processOption (ps : params) (name : str) (args : list str) : res params :=
  match ps with
  | [] => Undefined
  | (x, v) :: ps' =>
      if str_dec x name then LET v := processArguments v args IN Ok ((x, v) :: ps')
      else LET ps' := processOption ps' name args IN Ok ((x, v) :: ps')
  end.
Definition starts_with_dash (token : str) : bool := match token with "-"%char :: _ => true | _ => false end.
(** CliParams.cpp:62-66 the arguments of an option *)
Fixpoint arguments (tokens : list str) : list str :=
  match tokens with
  | [] => []
  | t :: tokens' => if starts_with_dash t then [] else t :: arguments tokens'
  end.
(** CliParams.cpp:50-72 parseCommandLine with getParamNames, 32-42; [fuel]: the number of tokens *)
Fixpoint parse_tokens (fuel : nat) (ps : params) (tokens : list str) : res params :=
  match tokens, fuel with
  | [], _ => Ok ps
  | _, 0 => OutOfFuel
  | t :: tokens', S fuel' =>
      match t with
      | "-"%char :: prefix =>
          match getUniqueNameWithPrefix (map (fun x => (fst x, tt)) ps) prefix with
          | Found name =>
              let args := arguments tokens' in
              LET ps := processOption ps name args IN parse_tokens fuel' ps (skipn (List.length args) tokens')
          | _ => OtherError
          end
      | _ => OtherError
      end
  end.
Definition parseCommandLine (ps : params) (tokens : list str) : res params := parse_tokens (List.length tokens) ps tokens.

(** CliParams.cpp:116-122 getParam, 124-140 getBool, getString, getInt.  [Undefined]: there is no such parameter, or it has another type. *)
Fixpoint getParam (ps : params) (name : str) : res value :=
  match ps with
  | [] => Undefined
  | (x, v) :: ps' => if str_dec x name then Ok v else getParam ps' name
  end.
Definition getBool (ps : params) (name : string) : res bool := LET v := getParam ps (lit name) IN match v with VBool b => Ok b | _ => Undefined end.
Definition getString (ps : params) (name : string) : res str := LET v := getParam ps (lit name) IN match v with VStr s => Ok s | _ => Undefined end.
Definition getInt (ps : params) (name : string) : res Z := LET v := getParam ps (lit name) IN match v with VInt z => Ok z | _ => Undefined end.

(** ** The parameters of the actions *)
Definition pb (name : string) (b : bool) : str * value := (lit name, VBool b).
Definition pi (name : string) (z : Z) : str * value := (lit name, VInt z).
Definition ps (name s : string) : str * value := (lit name, VStr (lit s)).
(** Action.cpp:46-57: the parameter that all actions have *)
Definition action_params : params := [pb "time" false].
(** IOParameters.cpp:27-90, for an action that has input *)
Definition io_params (has_output : bool) : params := ps "iformat" "autodetect" :: if has_output then [ps "oformat" "input"] else [].
(** SliceParameters.cpp:25-105; [split] is the default, see setSplit *)
Definition slice_params (bound independence bigatti : bool) (split : string) : params :=
  [pb "minimal" false; ps "split" split; pb "stats" false] ++ (if independence then [pb "independence" true] else []) ++
  [pb "simplify" true; pb "debug" false] ++ (if bound then [pb "boundSimplify" true; pb "bound" true] else []) ++ [pb "canon" false] ++
  (if bigatti then [pb "genericBase" true; pb "widenPivot" true] else []).
(** ScarfParams.cpp:25-34, 43-68 addScarfParams *)
Definition scarf_params : params := [pb "deformStrong" false; ps "enum" "revlex"; ps "deformationOrder" "tdeg_lex"].

(** ** Formats *)
(** IOHandler.cpp:127-143 getIOHandlerFactory; the formats null and count are not modelled: [None] *)
Definition formatFactory : list (str * option format) :=
  [(lit "m2", Some M2); (lit "cocoa4", Some CoCoA4); (lit "singular", Some Singular); (lit "monos", Some Monos); (lit "newmonos", Some NewMonos);
   (lit "4ti2", Some Fourti2); (lit "null", None); (lit "count", None)].
(** IOHandler.cpp:145-147 createIOHandler; [Undefined]: not modelled *)
Definition createIOHandler (prefix : str) : res format :=
  LET f := created_with_prefix formatFactory prefix IN match f with Some f => Ok f | None => Undefined end.
(** IOParameters.cpp:127-150, IOHandler.cpp:149-154, 230-236: a format, unless it is the one that stands for another *)
Definition format_or (other : string) (name : str) : res (option format) :=
  if str_dec name (lit other) then Ok None else LET f := createIOHandler name IN Ok (Some f).

(** ** Performing actions *)
(** What the program does not determine: the largest size_t or unsigned long, the largest int, the bits of a word, the random numbers of
    the slice algorithm and of the algorithm for Euler characteristics, and what the algorithms for Hilbert-Poincare series depend on.  The
    machine has a bound on the number of steps. *)
Record world := World { w_max : Z; w_max_int : Z; w_word : nat; w_rand : nat -> nat; w_rands : nat -> nat -> nat; w_tries : nat; w_machine : machine }.
Definition w_fuel (w : world) : nat := m_fuel (w_machine w).

(** SliceParams.cpp:32-59, SliceLikeParams.cpp:34-37, CommonParams.cpp:59-72: the parameters of the actions that use the slice algorithm
    without a grading; validateSplit, and the formats *)
Definition slice_options (w : world) (p : params) : res options :=
  LET minimal := getBool p "minimal" IN
  LET canon := getBool p "canon" IN
  LET iformat := getString p "iformat" IN
  LET oformat := getString p "oformat" IN
  LET simplify := getBool p "simplify" IN
  LET split := getString p "split" IN
  LET independence := getBool p "independence" IN
  LET c := slice_config true independence simplify split IN
  LET i := format_or "autodetect" iformat IN
  LET o := format_or "input" oformat IN
  Ok (Opts (w_max w) i o canon minimal c).
(** IrreducibleDecomAction.cpp:50-58 *)
Definition irrdecom_perform (w : world) (p : params) (file : text) : res text :=
  LET o := slice_options w p IN LET encode := getBool p "encode" IN irrdecom_action o encode (w_rand w) file.
(** PrimaryDecomAction.cpp:43-48 *)
Definition primdecom_perform (w : world) (p : params) (file : text) : res text :=
  LET o := slice_options w p IN primdecom_action o (w_rands w) file.
(** AlexanderDualAction.cpp:48-74 *)
Definition alexdual_perform (w : world) (p : params) (file : text) : res text :=
  LET o := slice_options w p IN alexdual_action o (w_rand w) file.
(** AssociatedPrimesAction.cpp:45-50 *)
Definition assoprimes_perform (w : world) (p : params) (file : text) : res text :=
  LET o := slice_options w p IN assoprimes_action o (w_rand w) file.
(** MaximalStandardAction.cpp:54-62 *)
Definition maxstandard_perform (w : world) (p : params) (file : text) : res text :=
  LET o := slice_options w p IN LET increment := getBool p "increment" IN maxstandard_action o increment (w_rand w) file.
(** DimensionAction.cpp:75-99; with -useSlice the input format is not looked at *)
Definition dimension_perform (w : world) (p : params) (file : text) : res text :=
  LET codim := getBool p "codim" IN
  LET sqf := getBool p "squareFreeAndMinimal" IN
  LET useSlice := getBool p "useSlice" IN
  LET iformat := getString p "iformat" IN
  LET i := (if useSlice then Ok None else format_or "autodetect" iformat) IN
  dimension_action (DO (w_max w) i codim sqf useSlice) (w_rand w) file.
(** OptimizeAction.cpp:106-178.  SliceParams.cpp:55-58: both bound and boundSimplify set useBoundElimination. *)
Definition optimize_perform (w : world) (p : params) (file : text) : res text :=
  LET minimal := getBool p "minimal" IN
  LET canon := getBool p "canon" IN
  LET simplify := getBool p "simplify" IN
  LET split := getString p "split" IN
  LET _ := getBool p "bound" IN
  LET bound := getBool p "boundSimplify" IN
  LET q := slice_oparams simplify bound true split IN
  LET iformat := getString p "iformat" IN
  LET oformat := getString p "oformat" IN
  LET i := format_or "autodetect" iformat IN
  LET o := format_or "input" oformat IN
  LET level := getInt p "displayLevel" IN
  LET display := getBool p "displayValue" IN
  LET maxStandard := getBool p "maxStandard" IN
  LET chop := getBool p "chopFirstAndSubtract" IN
  LET min := getBool p "minValue" IN
  optimize_print (OO (w_max w) i o canon minimal q display (mkOo (Z.to_nat level) maxStandard chop min)) (w_rand w) file.
(** HilbertAction.cpp:64-90 with SliceParams.cpp:32-59, BigattiParams.cpp:39-44, ScarfParams.cpp:70-75 *)
Definition hilbert_perform (w : world) (p : params) (file : text) : res text :=
  LET minimal := getBool p "minimal" IN
  LET canon := getBool p "canon" IN
  LET iformat := getString p "iformat" IN
  LET oformat := getString p "oformat" IN
  LET univariate := getBool p "univariate" IN
  LET algorithm := getString p "algorithm" IN
  LET split := getString p "split" IN
  LET independence := getBool p "independence" IN
  LET simplify := getBool p "simplify" IN
  LET generic := getBool p "genericBase" IN
  LET widen := getBool p "widenPivot" IN
  LET enum := getString p "enum" IN
  LET deform := getString p "deformationOrder" IN
  LET strong := getBool p "deformStrong" IN
  LET i := format_or "autodetect" iformat IN
  LET o := format_or "input" oformat IN
  hilbert_action (HO (w_max w) i o canon minimal univariate algorithm split independence simplify generic widen enum deform strong)
    (w_machine w) file.
(** EulerAction.cpp:178-241 *)
Definition euler_perform (w : world) (p : params) (file : text) : res text :=
  LET pivot := getString p "pivot" IN
  LET std := getString p "stdPivot" IN
  LET gen := getString p "genPivot" IN
  LET transpose := getString p "autotranspose" IN
  LET unique := getBool p "uniqueDiv" IN
  LET many := getBool p "manyDiv" IN
  LET implied := getBool p "impliedDiv" IN
  LET swap := getBool p "swap01" IN
  LET iformat := getString p "iformat" IN
  LET i := format_or "autodetect" iformat IN
  euler_print (EO (w_max w) i pivot std gen transpose unique many implied swap (w_word w) (w_rands w) (w_tries w)) (w_fuel w) file.
(** AnalyzeAction.cpp:143-167 *)
Definition analyze_perform (w : world) (p : params) (file : text) : res text :=
  LET summary := getInt p "summaryLevel" IN
  LET lcm := getBool p "lcm" IN
  LET vars := getBool p "varCount" IN
  LET gens := getBool p "genCount" IN
  LET exp := getBool p "maxExp" IN
  LET minimal := getBool p "minimal" IN
  LET iformat := getString p "iformat" IN
  LET oformat := getString p "oformat" IN
  LET i := format_or "autodetect" iformat IN
  LET o := format_or "input" oformat IN
  analyze_action (AO (w_max w) i o (Z.to_nat summary) lcm vars gens exp minimal) file.
(** The formats of an action with input and output: IOParameters.cpp:139-150, 113-125, 152-184 *)
Definition both_formats (p : params) (file : text) : res (format * format) :=
  LET iformat := getString p "iformat" IN
  LET oformat := getString p "oformat" IN
  LET i := format_or "autodetect" iformat IN
  LET o := format_or "input" oformat IN
  let f := the_format i file in Ok (f, match o with Some g => g | None => f end).
(** IntersectionAction.cpp:53-78 *)
Definition intersection_perform (w : world) (p : params) (file : text) : res text :=
  LET (f, g) := both_formats p file IN
  LET canon := getBool p "canon" IN
  intersection_action (w_max w) f g canon file.
(** TransformAction.cpp:125-221 *)
Definition transform_perform (w : world) (p : params) (file : text) : res text :=
  LET (f, g) := both_formats p file IN
  LET canon := getBool p "canon" IN
  LET sort := getBool p "sort" IN
  LET unique := getBool p "unique" IN
  LET minimize := getBool p "minimize" IN
  LET deform := getBool p "deform" IN
  LET radical := getBool p "radical" IN
  LET product := getBool p "product" IN
  LET pure := getBool p "addPurePowers" IN
  LET trim := getBool p "trimVariables" IN
  LET transpose := getBool p "transpose" IN
  LET swap := getBool p "swap01" IN
  LET project := getInt p "projectVar" IN
  transform_action (w_max w) f g (Build_transform_options canon sort unique minimize deform radical product pure trim transpose swap (Z.to_nat project)) file.
(** PolyTransformAction.cpp:55-74 *)
Definition ptransform_perform (w : world) (p : params) (file : text) : res text :=
  LET iformat := getString p "iformat" IN
  LET oformat := getString p "oformat" IN
  LET i := format_or "autodetect" iformat IN
  LET o := format_or "input" oformat IN
  LET canon := getBool p "canon" IN
  LET sort := getBool p "sort" IN
  ptransform (w_max w) canon sort i o file.
(** DynamicFrobeniusAction.cpp:41-56 *)
Definition frobdyn_perform (w : world) (p : params) (file : text) : res text := frobdyn (w_fuel w) (w_max_int w) file.

(** GenerateIdealAction.cpp:63-96; the options are of the type unsigned int.  IOParameters.cpp:127-131: without an input there is no format
    that stands for another one. *)
Definition genideal_perform (w : world) (p : params) (file : text) : res text :=
  LET oformat := getString p "oformat" IN
  LET f := createIOHandler oformat IN
  LET type := getString p "type" IN
  LET range := getInt p "expRange" IN
  LET vars := getInt p "varCount" IN
  LET gens := getInt p "genCount" IN
  genideal_action (w_fuel w) (w_max w) (w_rand w) f type (Z.to_nat range) (Z.to_nat vars) (Z.to_nat gens).
(** GenerateFrobeniusAction.cpp:51-68 *)
Definition genfrob_perform (w : world) (p : params) (file : text) : res text :=
  LET entryCount := getInt p "entryCount" IN
  LET maxEntryDigits := getInt p "maxEntryDigits" IN
  genfrob_action (w_rand w) (Z.to_nat entryCount) (Z.to_nat maxEntryDigits).

(** FrobeniusAction.cpp:60-103 with SliceParams.cpp:50-59 *)
Definition frobgrob_perform (w : world) (p : params) (file : text) : res text :=
  LET minimal := getBool p "minimal" IN
  LET canon := getBool p "canon" IN
  LET simplify := getBool p "simplify" IN
  LET split := getString p "split" IN
  LET _ := getBool p "bound" IN
  LET bound := getBool p "boundSimplify" IN
  LET vector := getBool p "vector" IN
  LET q := slice_oparams simplify bound true split IN
  frobgrob_print (FG (w_max w) minimal canon q vector) (w_rand w) file.
(** LatticeFormatAction.cpp:61-86 *)
Definition latformat_perform (w : world) (p : params) (file : text) : res text :=
  LET iformat := getString p "iformat" IN
  LET oformat := getString p "oformat" IN
  LET zero := getBool p "zero" IN
  latformat_print (w_max w) iformat oformat zero file.

(** ** Actions *)
(** An action: its parameters and what perform does; Action.cpp:137-151 parseCommandLine adds the parameters of obtainParameters *)
Record action := Act { a_params : params; a_perform : world -> params -> text -> res text }.
(** The actions that are not modelled; [Undefined] stands for whatever they do. *)
Definition not_modelled : action := Act [] (fun _ _ _ => Undefined).
(** IrreducibleDecomAction.cpp:36-48, PrimaryDecomAction.cpp:34-41, AlexanderDualAction.cpp:39-46, AssociatedPrimesAction.cpp:36-43,
    MaximalStandardAction.cpp:34-52, DimensionAction.cpp:45-74, OptimizeAction.cpp:57-104, HilbertAction.cpp:42-61, EulerAction.cpp:55-176,
    TransformAction.cpp:41-123, PolyTransformAction.cpp:35-53, IntersectionAction.cpp:38-51, DynamicFrobeniusAction.cpp:37-39,
    AnalyzeAction.cpp:93-141: constructors and obtainParameters *)
Definition irrdecom_params : params := action_params ++ io_params true ++ [pb "encode" false] ++ slice_params false true false "median".
Definition decomposition_params : params := action_params ++ io_params true ++ slice_params false true false "median".
Definition maxstandard_params : params := action_params ++ io_params true ++ slice_params false true false "median" ++ [pb "increment" false].
Definition dimension_params : params := action_params ++ [pb "codim" false; pb "squareFreeAndMinimal" false; pb "useSlice" false] ++ io_params false.
Definition optimize_params : params :=
  action_params ++ [pi "displayLevel" 0; pb "displayValue" true; pb "maxStandard" false; pb "chopFirstAndSubtract" false; pb "minValue" false] ++
  io_params true ++ slice_params true false false "degree".
Definition hilbert_params : params :=
  action_params ++ io_params true ++ slice_params false true true "median" ++ [pb "univariate" false; ps "algorithm" "bigatti"] ++ scarf_params.
Definition euler_params : params :=
  action_params ++ io_params false ++ [ps "pivot" "gen"; ps "stdPivot" "popvar"; ps "genPivot" "raremax"; ps "autotranspose" "on"; pb "debug" false;
    pb "stats" false; pb "uniqueDiv" true; pb "manyDiv" true; pb "impliedDiv" false; pb "swap01" false].
Definition transform_params : params :=
  action_params ++ io_params true ++ [pb "canon" false; pb "minimize" false; pb "sort" false; pb "unique" false; pb "deform" false; pb "radical" false;
    pb "product" false; pb "addPurePowers" false; pb "trimVariables" false; pb "swap01" false; pi "projectVar" 0; pb "transpose" false].
Definition ptransform_params : params := action_params ++ io_params true ++ [pb "canon" false; pb "sort" false].
Definition intersection_params : params := action_params ++ io_params true ++ [pb "canon" false].
Definition analyze_params : params :=
  action_params ++ [pi "summaryLevel" 1; pb "lcm" false; pb "varCount" false; pb "genCount" false; pb "maxExp" false; pb "minimal" false] ++ io_params true.
(** GenerateIdealAction.cpp:38-61; IOParameters.cpp:62-92: without an input, the output format is m2 unless it is given *)
Definition genideal_params : params := action_params ++ [ps "oformat" "m2"; pi "expRange" 9; pi "varCount" 3; pi "genCount" 5; ps "type" "random"].
(** GenerateFrobeniusAction.cpp:31-49 *)
Definition genfrob_params : params := action_params ++ [pi "entryCount" 4; pi "maxEntryDigits" 2].
(** FrobeniusAction.cpp:45-58 *)
Definition frobgrob_params : params := action_params ++ slice_params true false false "frob" ++ [pb "vector" false].
(** LatticeFormatAction.cpp:36-59 *)
Definition latformat_params : params := action_params ++ [ps "iformat" "4ti2"; ps "oformat" "input"; pb "zero" false].
(** Action.cpp:65-95 getActionFactory *)
Definition actionFactory : list (str * action) :=
  [(lit "hilbert", Act hilbert_params hilbert_perform); (lit "euler", Act euler_params euler_perform);
   (lit "irrdecom", Act irrdecom_params irrdecom_perform); (lit "primdecom", Act decomposition_params primdecom_perform);
   (lit "alexdual", Act decomposition_params alexdual_perform); (lit "assoprimes", Act decomposition_params assoprimes_perform);
   (lit "maxstandard", Act maxstandard_params maxstandard_perform); (lit "dimension", Act dimension_params dimension_perform);
   (lit "optimize", Act optimize_params optimize_perform); (lit "transform", Act transform_params transform_perform);
   (lit "ptransform", Act ptransform_params ptransform_perform); (lit "intersection", Act intersection_params intersection_perform);
   (lit "genideal", Act genideal_params genideal_perform); (lit "frobgrob", Act frobgrob_params frobgrob_perform); (lit "frobdyn", Act action_params frobdyn_perform);
   (lit "genfrob", Act genfrob_params genfrob_perform); (lit "analyze", Act analyze_params analyze_perform); (lit "latformat", Act latformat_params latformat_perform);
   (lit "latanal", not_modelled); (lit "help", not_modelled); (lit "test", not_modelled)].
(** main.cpp:35-50 frobbyMain: [args] are the arguments of the program, without its name, and [file] is what it reads.  The exceptions are
    caught in main.cpp:91-111, and printed.  Only the action help accepts a token that is not an option (Action.cpp:144-148). *)
Definition frobby (w : world) (args : list str) (file : text) : res text :=
  let (prefix, tokens) := match args with [] => (lit "help", []) | a :: tokens => (a, tokens) end in
  LET a := created_with_prefix actionFactory prefix IN
  LET p := parseCommandLine (a_params a) tokens IN
  a_perform a w p file.
