(** What the command line of the console program means, independently of how it is parsed. *)
From Coq Require Import String Ascii.
From Coq Require Import List Arith Bool ZArith.
Import ListNotations.
From Verif Require Import M_Term M_Names M_IO Spec_IO Spec_Names M_Msm M_Cli Spec_Cli3 M_Cli3 M_Main.
From Verif Require Import Spec Spec_Api.

(** ** The values of options *)
(** A number: white space, perhaps a minus sign, a digit, and then digits and white space; the value is that of the digits in base 10 *)
Definition white_space (c : ascii) : Prop := In (nat_of_ascii c) [9; 10; 11; 12; 13; 32].
Definition digit (c : ascii) (d : Z) : Prop := exists k, k < 10 /\ c = ascii_of_nat (48 + k) /\ d = Z.of_nat k.
Inductive digits : Z -> str -> Z -> Prop :=
  | digits_none z : digits z [] z
  | digits_space z c s z' : white_space c -> digits z s z' -> digits z (c :: s) z'
  | digits_digit z c d s z' : digit c d -> digits (10 * z + d)%Z s z' -> digits z (c :: s) z'.
Definition number (s : str) (z : Z) : Prop :=
  exists space c body z0, Forall white_space space /\ (exists d, digit c d) /\ digits 0%Z (c :: body) z0 /\
    ((s = space ++ c :: body /\ z = z0) \/ (s = space ++ "-"%char :: c :: body /\ z = Z.opp z0)).
(** The arguments of an option that has a value like [v] give it the value [w]. *)
Definition argument (v : value) (args : list str) (w : value) : Prop :=
  match v with
  | VBool _ => (args = [] /\ w = VBool true) \/ (args = [lit "on"] /\ w = VBool true) \/ (args = [lit "off"] /\ w = VBool false)
  | VInt _ => exists s z, args = [s] /\ number s z /\ (0 <= z < 2 ^ 32)%Z /\ w = VInt z
  | VStr _ => exists s, args = [s] /\ w = VStr s
  end.

(** ** Command lines *)
(** [options]: the names of the options that an action has and what their values are if they are not given.  A group of tokens is an option,
    that is a minus sign and a name that may be abbreviated, followed by its arguments, which do not start with a minus sign. *)
Definition is_option (token : str) : Prop := exists p, token = "-"%char :: p.
Definition asks (options : list (str * value)) (group : list str) (setting : str * value) : Prop :=
  exists p args v, group = ("-"%char :: p) :: args /\ abbreviates (map fst options) p (fst setting) /\ In (fst setting, v) options /\
    Forall (fun a => ~ is_option a) args /\ argument v args (snd setting).
(** The tokens are groups, and the group number i gives the setting number i. *)
Definition command_line (options : list (str * value)) (tokens : list str) (settings : list (str * value)) : Prop :=
  exists groups, tokens = concat groups /\ Forall2 (asks options) groups settings.
(** The last setting of an option counts; without one it is the default. *)
Definition value_of (options settings : list (str * value)) (x : str) : option value :=
  match find (fun y => if str_dec (fst y) x then true else false) (rev settings ++ options) with Some (_, v) => Some v | None => None end.

(** ** The actions, their options and the formats *)
Definition action_names : list str :=
  map lit ["hilbert"; "euler"; "irrdecom"; "primdecom"; "alexdual"; "assoprimes"; "maxstandard"; "dimension"; "optimize"; "transform"; "ptransform";
           "intersection"; "genideal"; "frobgrob"; "frobdyn"; "genfrob"; "analyze"; "latformat"; "latanal"; "help"; "test"]%string.
Definition off (names : list string) : list (str * value) := map (fun x => (lit x, VBool false)) names.
Definition isOn (names : list string) : list (str * value) := map (fun x => (lit x, VBool true)) names.
Definition words (l : list (string * string)) : list (str * value) := map (fun x => (lit (fst x), VStr (lit (snd x)))) l.
Definition decomposition_options : list (str * value) :=
  words [("iformat", "autodetect"); ("oformat", "input"); ("split", "median")]%string ++
  off ["time"; "minimal"; "stats"; "debug"; "canon"]%string ++ isOn ["independence"; "simplify"]%string.
Definition options_of : list (str * list (str * value)) :=
  [(lit "hilbert", decomposition_options ++ words [("algorithm", "bigatti"); ("enum", "revlex"); ("deformationOrder", "tdeg_lex")]%string ++
      off ["univariate"; "deformStrong"]%string ++ isOn ["genericBase"; "widenPivot"]%string);
   (lit "euler", words [("iformat", "autodetect"); ("pivot", "gen"); ("stdPivot", "popvar"); ("genPivot", "raremax"); ("autotranspose", "on")]%string ++
      off ["time"; "debug"; "stats"; "impliedDiv"; "swap01"]%string ++ isOn ["uniqueDiv"; "manyDiv"]%string);
   (lit "irrdecom", decomposition_options ++ off ["encode"]%string);
   (lit "primdecom", decomposition_options);
   (lit "alexdual", decomposition_options);
   (lit "assoprimes", decomposition_options);
   (lit "maxstandard", decomposition_options ++ off ["increment"]%string);
   (lit "dimension", words [("iformat", "autodetect")]%string ++ off ["time"; "codim"; "squareFreeAndMinimal"; "useSlice"]%string);
   (lit "optimize", (lit "displayLevel", VInt 0) :: words [("iformat", "autodetect"); ("oformat", "input"); ("split", "degree")]%string ++
      off ["time"; "maxStandard"; "chopFirstAndSubtract"; "minValue"; "minimal"; "stats"; "debug"; "canon"]%string ++
      isOn ["displayValue"; "simplify"; "bound"; "boundSimplify"]%string);
   (lit "transform", (lit "projectVar", VInt 0) :: words [("iformat", "autodetect"); ("oformat", "input")]%string ++
      off ["time"; "canon"; "minimize"; "sort"; "unique"; "deform"; "radical"; "product"; "addPurePowers"; "trimVariables"; "swap01"; "transpose"]%string);
   (lit "ptransform", words [("iformat", "autodetect"); ("oformat", "input")]%string ++ off ["time"; "canon"; "sort"]%string);
   (lit "intersection", words [("iformat", "autodetect"); ("oformat", "input")]%string ++ off ["time"; "canon"]%string);
   (lit "genideal", [(lit "expRange", VInt 9); (lit "varCount", VInt 3); (lit "genCount", VInt 5)] ++ words [("oformat", "m2"); ("type", "random")]%string ++
      off ["time"]%string);
   (lit "frobdyn", off ["time"]%string);
   (lit "genfrob", [(lit "entryCount", VInt 4); (lit "maxEntryDigits", VInt 2)] ++ off ["time"]%string);
   (lit "analyze", (lit "summaryLevel", VInt 1) :: words [("iformat", "autodetect"); ("oformat", "input")]%string ++
      off ["time"; "lcm"; "varCount"; "genCount"; "maxExp"; "minimal"]%string);
   (lit "frobgrob", words [("split", "frob")]%string ++ off ["time"; "minimal"; "stats"; "debug"; "canon"; "vector"]%string ++
      isOn ["simplify"; "bound"; "boundSimplify"]%string);
   (lit "latformat", words [("iformat", "4ti2"); ("oformat", "input")]%string ++ off ["time"; "zero"]%string)].
Definition valuation := str -> option value.
(** The arguments of the program ask for the action and give its options the values [v]. *)
Definition command (args : list str) (action : string) (v : valuation) : Prop :=
  exists a tokens options settings, args = a :: tokens /\ abbreviates action_names a (lit action) /\ In (lit action, options) options_of /\
    command_line options tokens settings /\ forall x, v x = value_of options settings x.
Definition on (v : valuation) (x : string) : bool := match v (lit x) with Some (VBool b) => b | _ => false end.
Definition word (v : valuation) (x : string) : str := match v (lit x) with Some (VStr s) => s | _ => [] end.
Definition amount (v : valuation) (x : string) : nat := match v (lit x) with Some (VInt z) => Z.to_nat z | _ => 0 end.

Definition formats : list (str * format) :=
  [(lit "m2", M2); (lit "cocoa4", CoCoA4); (lit "singular", Singular); (lit "monos", Monos); (lit "newmonos", NewMonos); (lit "4ti2", Fourti2)].
Definition format_names : list str := map fst formats ++ map lit ["null"; "count"]%string.
Definition names_format (name : str) (f : format) : Prop := exists x, abbreviates format_names name x /\ In (x, f) formats.
(** The option names a format, or is the word that stands for the format of another one *)
Definition format_choice (other : string) (name : str) (f : option format) : Prop :=
  match f with None => name = lit other | Some f => names_format name f end.
Definition input_choice (v : valuation) (f : option format) : Prop := format_choice "autodetect" (word v "iformat") f.
Definition output_choice (v : valuation) (f : option format) : Prop := format_choice "input" (word v "oformat") f.
Definition unknown_format (other : string) (name : str) : Prop := name <> lit other /\ forall x, ~ abbreviates format_names name x.
(** The name of a way of splitting slices that does not need a grading *)
Definition split_choice (v : valuation) : Prop := exists x, abbreviates split_names (word v "split") x /\ ~ In x degree_names.
Definition unknown_split (v : valuation) : Prop := In (word v "split") degree_names \/ forall x, ~ abbreviates split_names (word v "split") x.
(** The formats of the input and of the output, once they are chosen *)
Definition input_format (i : option format) (file : text) : format := match i with Some f => f | None => autoDetect file end.
Definition output_format (i o : option format) (file : text) : format := match o with Some f => f | None => input_format i file end.
(** The input is read as an ideal with these variables and generators, and the option -minimal is only given if that is true. *)
Definition reads_as (w : world) (v : valuation) (i : option format) (file : text) (names : list str) (gens : list mono) : Prop :=
  read_ideal (w_max w) (input_format i file) file = Ok (names, map znat gens) /\ (on v "minimal" = true -> lists_minimal_generators (List.length names) gens gens).
(** The actions that use the slice algorithm without a grading, and the other ones that have an output format *)
Definition slice_actions : list string := ["irrdecom"; "primdecom"; "alexdual"; "assoprimes"; "maxstandard"]%string.
Definition format_actions : list string := ["hilbert"; "optimize"; "transform"; "ptransform"; "intersection"; "analyze"]%string.
Definition slice_opts (w : world) (v : valuation) (i o : option format) (c : config) : options := Opts (w_max w) i o (on v "canon") (on v "minimal") c.
Definition hilbert_opts (w : world) (v : valuation) (i o : option format) : hilbert_options :=
  HO (w_max w) i o (on v "canon") (on v "minimal") (on v "univariate") (word v "algorithm") (word v "split") (on v "independence") (on v "simplify")
    (on v "genericBase") (on v "widenPivot") (word v "enum") (word v "deformationOrder") (on v "deformStrong").
(** With another bound on the number of steps *)
Definition with_fuel (w : world) (fuel : nat) : world :=
  World (w_max w) (w_max_int w) (w_word w) (w_rand w) (w_rands w) (w_tries w) (with_steps (w_machine w) fuel).
(** The exceptions of the next definition: the formats null and count, which are not modelled, and abbreviations of the names of splits that
    need a grading (F26) *)
Definition modelled_format (name : str) : Prop := forall x, abbreviates format_names name x -> In x (map fst formats).
Definition plain_split (v : valuation) : Prop := forall x, abbreviates split_names (word v "split") x -> In x degree_names -> word v "split" = x.
(** The program prints something or reports an error. *)
Definition reports {A} (r : res A) : Prop := match r with Ok _ | SyntaxError | OtherError | InvalidArgument => True | OutOfFuel | Undefined => False end.
