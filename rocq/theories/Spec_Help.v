(** What the theorems about the action help say. *)
From Coq Require Import String Ascii.
From Coq Require Import List Arith Bool ZArith.
Import ListNotations.
From Verif Require Import M_Term M_Names M_IO M_Cli M_Cli3 M_Main M_Display M_Help Spec_Names Spec_Cli Spec_Cli3 Spec_IOPoly Spec_Display Spec_Main.
Local Open Scope list_scope.

(** ** Options *)
(** How an option and its default are shown *)
Definition kind_of (v : value) : string := match v with VBool _ => "[BOOL]" | VInt _ => "INTEGER" | VStr _ => "STRING" end.
Definition default_of (v : value) : text := match v with VBool b => lit (if b then "on" else "off") | VInt z => z_str z | VStr s => s end.
Definition option_line (o : str * value) : text := lit " -" ++ fst o ++ lit " " ++ lit (kind_of (snd o)) ++ lit "   (default is " ++ default_of (snd o) ++ lit ")".
(** The options that are shown for an action; those of [options_of] are the ones that it has *)
Definition shown_options : list (str * list (str * value)) :=
  options_of ++ [(lit "latanal", Spec_Main.words [("iformat", "autodetect"); ("oformat", "input")]%string ++ off ["time"]%string); (lit "help", []); (lit "test", [])].
(** The actions that are on the screen, in ascending order *)
Definition screen_actions : list str :=
  map lit ["alexdual"; "analyze"; "assoprimes"; "dimension"; "euler"; "frobdyn"; "genfrob"; "genideal"; "hilbert"; "intersection"; "irrdecom"; "latformat";
           "maxstandard"; "optimize"; "primdecom"; "ptransform"; "transform"]%string.
(** A topic: not an option, and not nothing *)
Definition a_topic (t : str) : Prop := t <> [] /\ ~ is_option t.

(** ** Formats *)
Definition types : list datatype := [IdealType; ListType; PolyType; SatBinomType].
Definition called (t : datatype) : string :=
  match t with IdealType => "a monomial ideal" | ListType => "a list of monomial ideals" | PolyType => "a polynomial" | SatBinomType => "a saturated binomial ideal" end.
(** What each format can be used for: the formats that are modelled, and the other two *)
Definition can_read (x : str) (t : datatype) : Prop :=
  match t with
  | IdealType | ListType => In x (map fst formats) \/ x = lit "null"
  | PolyType => (exists f, In (x, f) formats /\ polynomial_format f) \/ x = lit "null"
  | SatBinomType => x = lit "4ti2"
  end.
Definition can_write (x : str) (t : datatype) : Prop :=
  match t with
  | IdealType => In x format_names
  | ListType => (exists f, In (x, f) formats /\ list_format f) \/ x = lit "null" \/ x = lit "count"
  | PolyType => (exists f, In (x, f) formats /\ polynomial_format f) \/ x = lit "null" \/ x = lit "count"
  | SatBinomType => False
  end.
(** The line about a format and a type of data, if there is one *)
Definition says (x : str) (t : datatype) (lines : list text) : Prop :=
  (can_read x t /\ can_write x t /\ lines = [lit "  - supports input and output of " ++ lit (called t) ++ lit "."]) \/
  (can_read x t /\ ~ can_write x t /\ lines = [lit "  - supports input of " ++ lit (called t) ++ lit "."]) \/
  (~ can_read x t /\ can_write x t /\ lines = [lit "  - supports output of " ++ lit (called t) ++ lit "."]) \/
  (~ can_read x t /\ ~ can_write x t /\ lines = []).
(** What is said about a format *)
Definition about_format (d : descriptions) (x : str) (lines : list text) : Prop :=
  exists l, Forall2 (says x) types l /\ lines = [] :: (lit "* The format " ++ x ++ lit ": " ++ d_format d x) :: concat l.
(** What the actions read and write.  For the output, irrdecom, assoprimes and maxstandard are not here: they need a format for lists of ideals,
    but are declared to write an ideal. *)
Definition reads_type : list (string * datatype) :=
  [("alexdual", IdealType); ("analyze", IdealType); ("assoprimes", IdealType); ("dimension", IdealType); ("euler", IdealType); ("hilbert", IdealType);
   ("irrdecom", IdealType); ("maxstandard", IdealType); ("optimize", IdealType); ("primdecom", IdealType); ("transform", IdealType);
   ("intersection", ListType); ("ptransform", PolyType)]%string.
Definition writes_type : list (string * datatype) :=
  [("alexdual", IdealType); ("analyze", IdealType); ("genideal", IdealType); ("intersection", IdealType); ("optimize", IdealType); ("transform", IdealType);
   ("primdecom", ListType); ("hilbert", PolyType); ("ptransform", PolyType)]%string.
(** The line in the description of -iformat or -oformat that lists formats *)
Definition formats_line (names : list str) : text := lit "    " ++ concat (map (fun x => lit " " ++ x) names) ++ lit ".".
