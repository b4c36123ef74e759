(** Model of HelpAction.cpp and of the descriptions that IOParameters.cpp makes: what the action help prints. *)
From Coq Require Import String Ascii.
From Coq Require Import List Arith Bool ZArith.
Import ListNotations.
From Verif Require Import M_Term M_Names M_IO M_Cli3 M_Main M_Display.
Local Open Scope list_scope.

(** ** Types of data *)
(** DataType.cpp:45-71: getTypes in its order, getName *)
Inductive datatype := IdealType | ListType | PolyType | SatBinomType.
Definition getTypes : list datatype := [IdealType; ListType; PolyType; SatBinomType].
Definition type_name (t : datatype) : text :=
  match t with
  | IdealType => lit "a monomial ideal" | ListType => lit "a list of monomial ideals" | PolyType => lit "a polynomial"
  | SatBinomType => lit "a saturated binomial ideal"
  end.
Definition type_eqb (t u : datatype) : bool :=
  match t, u with IdealType, IdealType | ListType, ListType | PolyType, PolyType | SatBinomType, SatBinomType => true | _, _ => false end.
(** What the constructors register: Macaulay2IOHandler.cpp:137-142, CoCoA4IOHandler.cpp:153-157, SingularIOHandler.cpp:109-113,
    MonosIOHandler.cpp:71-74, NewMonosIOHandler.cpp:73-75, Fourti2IOHandler.cpp:153-159, NullIOHandler.cpp:34-40, CountingIOHandler.cpp:103-105.
    The order of the formats is that of the factory, IOHandler.cpp:129-143. *)
Definition ioFactory : list (str * (list datatype * list datatype)) :=
  [(lit "m2", ([IdealType; ListType; PolyType], [IdealType; ListType; PolyType]));
   (lit "cocoa4", ([IdealType; ListType; PolyType], [IdealType; PolyType]));
   (lit "singular", ([IdealType; ListType; PolyType], [IdealType; PolyType]));
   (lit "monos", ([IdealType; ListType], [IdealType; ListType]));
   (lit "newmonos", ([IdealType; ListType], [IdealType]));
   (lit "4ti2", ([IdealType; ListType; PolyType; SatBinomType], [IdealType; ListType; PolyType]));
   (lit "null", ([IdealType; PolyType; ListType], [IdealType; PolyType; ListType]));
   (lit "count", ([], [IdealType; PolyType; ListType]))].
(** IOHandlerImpl.cpp:60-72, IOHandler.cpp:119-125 supportsInput, supportsOutput *)
Definition supportsInput (h : list datatype * list datatype) (t : datatype) : bool := existsb (type_eqb t) (fst h).
Definition supportsOutput (h : list datatype * list datatype) (t : datatype) : bool := existsb (type_eqb t) (snd h).

(** ** What is said about parameters *)
(** BoolParameter.cpp:30-39, IntegerParameter.cpp:30-38, StringParameter.cpp:27-33: doGetArgumentType, doGetValueAsString *)
Definition argument_type (v : value) : text := match v with VBool _ => lit "[BOOL]" | VInt _ => lit "INTEGER" | VStr _ => lit "STRING" end.
Definition value_string (v : value) : text := match v with VBool true => lit "on" | VBool false => lit "off" | VInt z => z_str z | VStr s => s end.
(** The texts that have been written for the actions, their parameters and the formats, and the number of the version.  What they say is not
    modelled. *)
Record descriptions := Desc { d_short : str -> text; d_long : str -> text; d_param : str -> str -> text; d_format : str -> text; d_version : text }.
(** The types of data that the constructors of the actions declare: AlexanderDualAction.cpp:39, AnalyzeAction.cpp:95, AssociatedPrimesAction.cpp:36,
    DimensionAction.cpp:64, EulerAction.cpp:160, GenerateIdealAction.cpp:50, HilbertAction.cpp:42, IntersectionAction.cpp:39,
    IrreducibleDecomAction.cpp:40, LatticeAnalyzeAction.cpp:468, MaximalStandardAction.cpp:34, OptimizeAction.cpp:91, PolyTransformAction.cpp:35,
    PrimaryDecomAction.cpp:34, TransformAction.cpp:38.  [None] is the type of nothing.  The other actions have no IOParameters. *)
Definition declared : list (str * (option datatype * option datatype)) :=
  let ideal := Some IdealType in
  [(lit "alexdual", (ideal, ideal)); (lit "analyze", (ideal, ideal)); (lit "assoprimes", (ideal, ideal)); (lit "dimension", (ideal, None));
   (lit "euler", (ideal, None)); (lit "genideal", (None, ideal)); (lit "hilbert", (ideal, Some PolyType));
   (lit "intersection", (Some ListType, ideal)); (lit "irrdecom", (ideal, ideal)); (lit "latanal", (Some SatBinomType, ideal));
   (lit "maxstandard", (ideal, ideal)); (lit "optimize", (ideal, ideal)); (lit "ptransform", (Some PolyType, Some PolyType));
   (lit "primdecom", (ideal, Some ListType)); (lit "transform", (ideal, ideal))].
(** IOParameters.cpp:42-57, the loop over the formats, for the formats that [supports] holds of *)
Definition formats_with (supports : list datatype * list datatype -> bool) : text :=
  concat (map (fun name => match createNoThrow ioFactory name with Some h => if supports h then " "%char :: name else [] | None => [] end)
    (getNamesWithPrefix ioFactory [])).
Definition quote : ascii := ascii_of_nat 34.
(** IOParameters.cpp:59-73 and 75-90: the descriptions of -iformat and -oformat *)
Definition iformat_text (t : datatype) : text :=
  lit "The format used to read the input. This action supports the formats:" ++ nl :: lit " " ++ formats_with (fun h => supportsInput h t) ++ lit "." ++ nl ::
  lit "The format " ++ quote :: lit "autodetect" ++ quote :: lit " instructs Frobby to guess the format." ++ nl ::
  lit "Type 'frobby help io' for more information on input formats.".
Definition oformat_text (input : option datatype) (t : datatype) : text :=
  lit "The format used to write the output. This action supports the formats:" ++ nl :: lit " " ++ formats_with (fun h => supportsOutput h t) ++ lit "." ++ nl ::
  match input with
  | Some _ => lit "The format " ++ quote :: lit "input" ++ quote :: lit " instructs Frobby to use the input format." ++ [nl]
  | None => []
  end ++ lit "Type 'frobby help io' for more information on output formats.".
(** The description of a parameter of an action *)
Definition param_text (d : descriptions) (action name : str) : text :=
  match createNoThrow declared action with
  | Some (input, output) =>
      match input, output with
      | Some t, _ => if str_dec name (lit "iformat") then iformat_text t
                     else match output with Some u => if str_dec name (lit "oformat") then oformat_text input u else d_param d action name | None => d_param d action name end
      | None, Some u => if str_dec name (lit "oformat") then oformat_text input u else d_param d action name
      | None, None => d_param d action name
      end
  | None => d_param d action name
  end.
(** The parameters that obtainParameters gives: HelpAction.cpp:44-45, TestAction.cpp:33-34, LatticeAnalyzeAction.cpp:471-474, and
    Action.cpp:133-135 with those of the other actions *)
Definition obtainParameters (action : str) (a : M_Main.action) : params :=
  if str_dec action (lit "help") then [] else if str_dec action (lit "test") then []
  else if str_dec action (lit "latanal") then io_params true ++ action_params
  else a_params a.
(** Action.cpp:97-99, FrobeniusAction.cpp:109-111, HelpAction.cpp:199-201, LatticeAnalyzeAction.cpp:476-478, TestAction.cpp:54-56 *)
Definition displayAction (action : str) : bool :=
  negb (existsb (fun x => if str_dec x action then true else false) [lit "frobgrob"; lit "help"; lit "latanal"; lit "test"]).

(** ** The action help *)
(** What is printed on the error stream; [OutOfFuel]: display does not end, which is impossible *)
Definition shown (o : option text) : res text := match o with Some t => Ok t | None => OutOfFuel end.
(** HelpAction.cpp:76-83, the loop over the parameters *)
Fixpoint displayParameters (d : descriptions) (action : str) (l : params) : res text :=
  match l with
  | [] => Ok []
  | (name, v) :: l' =>
      LET t := shown (display (lit "   ") (param_text d action name)) IN
      LET rest := displayParameters d action l' IN
      Ok (nl :: lit " -" ++ name ++ lit " " ++ argument_type v ++ lit "   (default is " ++ value_string v ++ lit ")" ++ nl :: t ++ rest)
  end.
(** HelpAction.cpp:60-85 displayActionHelp; paramCmp, 53-57 *)
Definition displayActionHelp (d : descriptions) (action : str) (a : M_Main.action) : res text :=
  let parameters := std_sort (fun x y : str * value => str_less (fst x) (fst y)) (obtainParameters action a) in
  LET t := shown (display [] (lit "Displaying information on action: " ++ action ++ nl :: nl :: d_long d action ++ [nl])) IN
  match parameters with
  | [] => Ok t
  | _ => LET rest := displayParameters d action parameters IN
         Ok (t ++ nl :: lit "The parameters accepted by " ++ action ++ lit " are as follows." ++ nl :: rest)
  end.
(** HelpAction.cpp:126-143, the loop over the types of data *)
Definition type_line (h : list datatype * list datatype) (t : datatype) : text :=
  if supportsInput h t && supportsOutput h t then lit "  - supports input and output of " ++ type_name t ++ lit "." ++ [nl]
  else if supportsInput h t then lit "  - supports input of " ++ type_name t ++ lit "." ++ [nl]
  else if supportsOutput h t then lit "  - supports output of " ++ type_name t ++ lit "." ++ [nl]
  else [].
(** HelpAction.cpp:114-144, the loop over the formats *)
Fixpoint displayFormats (d : descriptions) (names : list str) : res text :=
  match names with
  | [] => Ok []
  | name :: names' =>
      LET h := created_with_prefix ioFactory name IN
      LET rest := displayFormats d names' IN
      Ok (nl :: lit "* The format " ++ name ++ lit ": " ++ d_format d name ++ nl :: concat (map (type_line h) getTypes) ++ rest)
  end.
(** HelpAction.cpp:88-112 *)
Definition io_intro : text :=
  lit "Displaying information on topic: io" ++ nl :: nl ::
  lit "Frobby understands several file formats. These are not documented, but they are simple enough that seeing an example should be enough to figure them out. Getting an example is as simple as making Frobby produce output in that format. " ++ nl :: nl ::
  lit "It is true of all the formats that white-space is insignificant, but other than that Frobby is quite fuzzy about how the input must look. E.g. a Macaulay 2 file containing a monomial ideal must start with " ++ quote :: lit "R = " ++ quote :: lit ", so writing " ++ quote :: lit "r = " ++ quote :: lit " with a lower-case r is an error. To help with this, Frobby tries to say what is wrong if there is an error." ++ nl :: nl ::
  lit "If no input format is specified, Frobby will guess at the format, and it will guess correctly if there are no errors in the input. If no output format is specified, Frobby will use the same format for output as for input. If you want to force Frobby to use a specific format, use the -iformat and -oformat options. Using these with the transform action allows translation between formats. " ++ nl :: nl ::
  lit "The formats available in Frobby and the types of data they support are as follows. " ++ [nl].
(** HelpAction.cpp:87-145 displayIOHelp *)
Definition displayIOHelp (d : descriptions) : res text :=
  LET t := shown (display [] io_intro) IN
  LET rest := displayFormats d (getNamesWithPrefix ioFactory []) IN
  Ok (t ++ rest).
(** HelpAction.cpp:159-165, 183-191 *)
Definition screen_head (d : descriptions) : text :=
  lit "Frobby version " ++ d_version d ++ lit " Copyright (C) 2007 Bjarke Hammersholt Roune" ++ nl ::
  lit "Frobby performs a number of computations related to monomial ideals." ++ nl ::
  lit "You run it by typing `frobby ACTION', where ACTION is one of the following. " ++ [nl; nl].
Definition screen_foot : text :=
  nl :: lit "Type 'frobby help ACTION' to get more details on a specific action." ++ nl ::
  lit "Note that all input and output is done via the standard streams." ++ nl ::
  lit "Type 'frobby help io' for more information on input and output formats." ++ nl ::
  lit "See www.broune.com for further information and new versions of Frobby." ++ nl :: nl ::
  lit "Frobby is free software and you are welcome to redistribute it under certain conditions. Frobby comes with ABSOLUTELY NO WARRANTY. See the GNU General Public License version 2.0 in the file COPYING for details." ++ [nl].
(** HelpAction.cpp:167-181: the table of the actions *)
Definition screen_columns (d : descriptions) (names : list str) : list column :=
  [Col (lit " ") (concat (map (fun x => x ++ [nl]) names)) [] false;
   Col (lit " - ") (concat (map (fun x => d_short d x ++ [nl]) names)) [] true].
(** HelpAction.cpp:157-192.  Each name is the whole name of an action, so that looking it up again (line 175) gives that action. *)
Definition displayScreen (d : descriptions) : res text :=
  let names := filter displayAction (getNamesWithPrefix actionFactory []) in
  LET table := shown (print_columns [] (screen_columns d names)) IN
  shown (display [] (screen_head d ++ table ++ screen_foot)).
(** HelpAction.cpp:147-193 perform *)
Definition help_perform (d : descriptions) (topic : str) : res text :=
  match topic with
  | [] => displayScreen d
  | _ => if str_dec topic (lit "io") then displayIOHelp d
         else LET x := created_with_prefix (map (fun y => (fst y, y)) actionFactory) topic IN displayActionHelp d (fst x) (snd x)
  end.
(** Action.cpp:137-151 parseCommandLine for help, which has only the parameter of all actions: the first token is the topic unless it starts
    with a minus sign; the character read from an empty token is its end. *)
Definition help_run (d : descriptions) (tokens : list str) : res text :=
  let (topic, tokens) :=
    match tokens with
    | [] => ([], [])
    | t :: tokens' => match t with "-"%char :: _ => ([], tokens) | _ => (t, tokens') end
    end in
  LET _ := parseCommandLine action_params tokens IN
  help_perform d topic.
(** main.cpp:35-50 frobbyMain, if the action is help; [None]: another action *)
Definition frobby_help (d : descriptions) (args : list str) : res (option text) :=
  let (prefix, tokens) := match args with [] => (lit "help", []) | a :: tokens => (a, tokens) end in
  LET x := created_with_prefix (map (fun y => (fst y, fst y)) actionFactory) prefix IN
  if str_dec x (lit "help") then LET t := help_run d tokens IN Ok (Some t) else Ok None.
