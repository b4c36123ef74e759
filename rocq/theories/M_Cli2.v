(** Model of the actions that print a number, from the text of the input to the text of the output: DimensionAction.cpp, EulerAction.cpp
    and OptimizeAction.cpp, with the names of the pivot strategies (PivotStrategy.cpp, NameFactory.h). *)
From Coq Require Import String Ascii.
From Coq Require Import List Arith Bool ZArith.
Import ListNotations.
From Verif Require Import M_Term M_Ideal M_Slice M_Msm M_Api M_Names M_IO M_Intersect M_Transform M_Actions M_Dim M_Opt M_Euler M_Cli.

(** Scanner.cpp:37-38 and IOParameters.cpp:139-150 autoDetectInputFormat *)
Definition the_format (given : option format) (file : text) : format := match given with Some f => f | None => autoDetect file end.
(** gmp_fprintf(stdout, "%Zd\n", z) *)
Definition number_line (z : Z) : text := z_str z ++ [nl].

(** ** DimensionAction *)
(** DimensionAction.cpp:45-63: -codim, -squareFreeAndMinimal, -useSlice; and -iformat *)
Record dimension_options := DO { do_max : Z; do_in : option format; do_codim : bool; do_sqf : bool; do_slice : bool }.
(** DimensionAction.cpp:76-99 perform.  With -useSlice the parameters are those of SliceParams.cpp:24-30 and CommonParams.cpp:24-31: the
    format is guessed, the ideal is not taken to be minimal and the output is not canonical. *)
Definition dimension_action (o : dimension_options) (rnd : nat -> nat) (file : text) : res text :=
  LET d := (if do_slice o then
              LET J := read_ideal (do_max o) (autoDetect file) file IN
              match cli_setIdeal false false (fst J) (snd (to_nideal J)) with
              | None => Undefined
              | Some (_, co) => Ok (sf_computeDimension default_oparams rnd co (do_codim o))
              end
            else
              LET J := read_ideal (do_max o) (the_format (do_in o) file) file IN
              let n := List.length (fst J) in
              Ok ((if do_codim o then computeCodimension else computeDimension) n (snd (to_nideal J)) (do_sqf o))) IN
  match d with Some z => Ok (number_line z) | None => Undefined end.

(** ** EulerAction *)
(** NameFactory.h:98-104 createNoThrow: the first pair with this name *)
Fixpoint created {A} (pairs : list (str * A)) (name : str) : option A :=
  match pairs with
  | [] => None
  | (x, a) :: rest => if str_dec x name then Some a else created rest name
  end.
(** PivotStrategy.cpp:880-888 getStdStratFactory *)
Definition stdFactory : list (str * stdStrat) :=
  [(lit "random", StdRandom); (lit "any", StdAny); (lit "popvar", StdPopVar); (lit "popgcd", StdPopGcd); (lit "rarevar", StdRareVar)].
(** PivotStrategy.cpp:891-902 getGenStratFactory *)
Definition genFactory : list (str * genStrat) :=
  [(lit "raremax", GenRareMax); (lit "rarevar", GenRareVar); (lit "rarest", GenRarestVars); (lit "popvar", GenPopVar);
   (lit "maxsupp", GenMaxSupport); (lit "minsupp", GenMinSupport); (lit "any", GenAny); (lit "random", GenRandom)].
(** PivotStrategy.cpp:905-914 newStdPivotStrategy; the error of an unknown name is NameFactory.h:106-114.  name.compare(0, 6, "widen_")
    is 0 if the first six characters of the name are these. *)
Definition newStdPivotStrategy (name : str) : res strategy :=
  if str_dec (firstn 6 name) (lit "widen_") then
    match created stdFactory (skipn 6 name) with Some s => Ok (SWiden s) | None => OtherError end
  else match created stdFactory name with Some s => Ok (SStd s) | None => OtherError end.
(** PivotStrategy.cpp:925-939 the loop: the parts between underscores; there is always one *)
Fixpoint parts (part : str) (name : str) : list str :=
  match name with
  | [] => [rev part]
  | c :: name' => if ascii_dec c "_" then rev part :: parts [] name' else parts (c :: part) name'
  end.
Fixpoint create_all (ps : list str) : res (list genStrat) :=
  match ps with
  | [] => Ok []
  | p :: ps' =>
      match created genFactory p with
      | None => OtherError
      | Some g => LET gs := create_all ps' IN Ok (g :: gs)
      end
  end.
(** PivotStrategy.cpp:916-941 newGenPivotStrategy *)
Definition newGenPivotStrategy (name : str) : res strategy :=
  if in_dec ascii_dec "_"%char name then LET gs := create_all (parts [] name) IN Ok (SComposite gs)
  else match created genFactory name with Some g => Ok (SGen g) | None => OtherError end.

(** EulerAction.cpp:53-160: -pivot, -stdPivot, -genPivot, -autotranspose, -uniqueDiv, -manyDiv, -impliedDiv, -swap01; -iformat; and the
    width of a word and the values of rand() *)
Record euler_options := EO { eo_max : Z; eo_in : option format; eo_pivot : str; eo_std : str; eo_gen : str; eo_transpose : str;
  eo_unique : bool; eo_many : bool; eo_pairs : bool; eo_swap01 : bool; eo_word : nat; eo_rand : nat -> nat -> nat; eo_tries : nat }.
(** EulerAction.cpp:179-190 *)
Definition euler_strategy (o : euler_options) : res strategy :=
  LET std := newStdPivotStrategy (eo_std o) IN
  LET gen := newGenPivotStrategy (eo_gen o) IN
  if str_dec (eo_pivot o) (lit "std") then Ok std
  else if str_dec (eo_pivot o) (lit "gen") then Ok gen
  else if str_dec (eo_pivot o) (lit "hybrid") then Ok (SHybrid std gen)
  else OtherError.
(** EulerAction.cpp:222-233 setAutoTranspose, setInitialAutoTranspose *)
Definition euler_transpose (o : euler_options) : res (bool * bool) :=
  if str_dec (eo_transpose o) (lit "on") then Ok (true, true)
  else if str_dec (eo_transpose o) (lit "once") then Ok (false, true)
  else if str_dec (eo_transpose o) (lit "off") then Ok (false, false)
  else OtherError.
Definition euler_settings (o : euler_options) (st : strategy) (tr : bool * bool) : econfig :=
  EC (eo_word o) (eo_unique o) (eo_many o) (eo_pairs o) (fst tr) (snd tr) st (eo_rand o) (eo_tries o).
(** EulerAction.cpp:178-241 perform; -debug and -stats only print to stderr and are left out.  [fuel]: see euler_loop. *)
Definition euler_print (o : euler_options) (fuel : nat) (file : text) : res text :=
  LET st := euler_strategy o IN
  LET (names, gens) := read_square_free (eo_max o) (the_format (eo_in o) file) file IN
  LET tr := euler_transpose o IN
  match euler_action (euler_settings o st tr) fuel (eo_swap01 o) (List.length names) gens with
  | EAnswer chi => Ok (number_line chi)
  | EUndef => Undefined
  | EMore => OutOfFuel
  end.

(** ** OptimizeAction *)
(** IOFacade.cpp:255-264 readVector *)
Fixpoint readVector (k : nat) (s : text) : res (list Z * text) :=
  match k with
  | O => Ok ([], s)
  | S k' => LET (z, s) := readInteger s IN LET (v, s) := readVector k' s IN Ok (z :: v, s)
  end.
(** OptimizeAction.cpp:110-124: the ideal and the vector *)
Definition read_optimize (max : Z) (f : format) (file : text) : res (list str * list (list Z) * list Z) :=
  LET (ic, s) := handler_readIdeal max f ic_new (" "%char :: file) IN
  match big_ideals ic with
  | J :: _ =>
      LET (v, s) := (match hasMoreInput s with
                     | (true, s) => readVector (List.length (fst J)) s
                     | (false, s) => Ok (repeat 1%Z (List.length (fst J)), s)
                     end) IN
      LET _ := expectEOF s IN
      Ok (J, v)
  | [] => Undefined
  end.

(** OptimizeAction.cpp:59-97, SliceParameters.cpp and IOParameters.h: the options *)
Record opt_options := OO { oo_max : Z; oo_in : option format; oo_out : option format; oo_canon : bool; oo_minimal : bool; oo_params : oparams;
  oo_display : bool; oo_what : optimize_options }.
Definition oo_format (o : opt_options) (file : text) : format := the_format (oo_in o) file.
Definition oo_output (o : opt_options) (file : text) : format := match oo_out o with Some f => f | None => oo_format o file end.

(** SliceFacade.cpp:375-427 solveProgram: the translator, what the consumer is told, and the optimal value unless the return value is
    false *)
Definition told_program (p : oparams) (rnd : nat -> nat) (names : list str) (co : common) (grading : list Z) (all : bool)
  : option (translator * list t_event * option Z) :=
  bind (o_run (op_config p (gr_make grading (co_tr co)) all) rnd (co_n co) (co_ideal co)) (fun st =>
    Some (co_tr co, told names (o_sols st), match o_sols st with [] => None | _ => Some (o_value st) end)).
(** SliceFacade.cpp:336-360 solveIrreducibleDecompositionProgram, solveStandardProgram *)
Definition told_optimum (std : bool) (p : oparams) (rnd : nat -> nat) (names : list str) (co : common) (grading : list Z) (all : bool)
  : option (translator * list t_event * option Z) :=
  if std then told_program p rnd names (mkCommon (co_n co) (co_ideal co) (tr_decrement (co_tr co))) grading all
  else told_program p rnd names
         (mkCommon (co_n co) (if i_containsIdentity (co_n co) (co_ideal co) then co_ideal co
                              else addPurePowersAtInfinity (co_n co) (co_tr co) (co_ideal co)) (co_tr co)) grading all.
(** OptimizeAction.cpp:163-177: the value *)
Definition value_text (display min : bool) (subtract : Z) (value : option Z) : text :=
  if display then
    match value with
    | None => lit "no solution." ++ [nl]
    | Some x => number_line ((if min then - x else x) - subtract)%Z
    end
  else [].
(** OptimizeAction.cpp:106-178 perform.  The vector is not given to the VarSorter.  Without -displayLevel the solutions go to a
    NullTermConsumer, which ignores them. *)
Definition optimize_print (o : opt_options) (rnd : nat -> nat) (file : text) : res text :=
  LET (J, v) := read_optimize (oo_max o) (oo_format o file) file IN
  let what := oo_what o in
  let chop := oo_chop what && negb (List.length v =? 0) in
  let subtract := if chop then nth 0 v 0%Z else 0%Z in
  let v1 := if chop then skipn 1 v else v in
  let names1 := if chop then skipn 1 (fst J) else fst J in
  let I1 := if chop then map (skipn 1) (snd (to_nideal J)) else snd (to_nideal J) in
  let v2 := if oo_min what then map Z.opp v1 else v1 in
  match bind (cli_setIdeal (oo_minimal o) (oo_canon o) names1 I1) (fun '(names, co) =>
        told_optimum (oo_maxStandard what) (oo_params o) rnd names co v2 (2 <=? oo_level what)) with
  | None => Undefined
  | Some (tr, es, value) =>
      LET out := (if 0 <? oo_level what then ideal_output (oo_output o file) (oo_canon o) false tr es else Ok []) IN
      Ok (out ++ value_text (oo_display o) (oo_min what) subtract value)
  end.
