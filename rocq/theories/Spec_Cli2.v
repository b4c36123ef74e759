(** What the actions that print a number should print. *)
From Coq Require Import String Ascii.
From Coq Require Import List Arith Bool ZArith Permutation.
Import ListNotations.
From Verif Require Import M_Term M_Names M_IO Spec_IO Spec_Names M_Msm M_Api M_Opt M_Cli M_Cli2 Spec_Slice Spec_Run.
From Verif Require Import Spec Spec_Api Spec_Opt Spec_Cli.
Local Notation length := List.length.

(** A line with this number, in decimal *)
Definition line_with (z : Z) : text := z_str z ++ [nl].

(** ** dimension *)
(** The format in which the input is read: with -useSlice it is guessed. *)
Definition dimension_format (o : dimension_options) (file : text) : format := if do_slice o then autoDetect file else the_format (do_in o) file.
Definition square_free (gens : list mono) : Prop := Forall (Forall (fun e => e <= 1)) gens.

(** ** euler *)
(** The names of the strategies, as they are described in the help text *)
Definition std_names : list str := map lit ["popvar"; "rarevar"; "popgcd"; "any"; "random"]%string.
Definition gen_names : list str := map lit ["rarevar"; "popvar"; "maxsupp"; "minsupp"; "any"; "random"; "rarest"; "raremax"]%string.
Definition kinds_of_pivot : list str := map lit ["std"; "gen"; "hybrid"]%string.
Definition transpose_names : list str := map lit ["on"; "once"; "off"]%string.
Definition legal_std (name : str) : Prop := exists x, In x std_names /\ (name = x \/ name = lit "widen_" ++ x).
(** One or more names with underscores between them *)
Inductive legal_gen : str -> Prop :=
  | LG1 x : In x gen_names -> legal_gen x
  | LG2 x y : In x gen_names -> legal_gen y -> legal_gen (x ++ lit "_" ++ y).
Definition legal_euler (o : euler_options) : Prop :=
  In (eo_pivot o) kinds_of_pivot /\ legal_std (eo_std o) /\ legal_gen (eo_gen o).

(** The name contains the word *)
Definition mentions (word name : str) : Prop := exists a b, name = a ++ word ++ b.

(** ** optimize *)
(** The input: the options are legal, and the text is that of an ideal with these variables and generators and the vector [v]. *)
Definition optimize_input_is (o : opt_options) (file : text) (names : list str) (gens : list mono) (v : list Z) : Prop :=
  legal_oparams (oo_params o) /\ read_optimize (oo_max o) (oo_format o file) file = Ok (names, map znat gens, v).
(** What is asked for: variables, generators, vector and what is subtracted from the value.  The option -chopFirstAndSubtract removes
    the first variable. *)
Definition asked_for (o : opt_options) (names : list str) (gens : list mono) (v : list Z) : list str * list mono * list Z * Z :=
  match names, v with
  | _ :: names', w :: v' => if oo_chop (oo_what o) then (names', drop_first gens, v', w) else (names, gens, v, 0%Z)
  | _, _ => (names, gens, v, 0%Z)
  end.
(** What the action has to report: no solution, or the optimal value and optimal solutions, the more the higher the level *)
Definition solution (level : nat) (min std : bool) (n : nat) (gens : list mono) (v : list Z) (L : list mono) (value : option Z) : Prop :=
  (level <= 1 -> length L <= 1) /\
  match value with
  | None => L = [] /\ forall m, ~ program_set std n gens m
  | Some y => L <> [] /\ NoDup L /\ (forall m, In m L -> program_optimal min (program_set std n gens) v m /\ inner_product v m = y) /\
      (2 <= level -> y <> 0%Z -> forall m, program_optimal min (program_set std n gens) v m -> In m L)
  end.
Definition value_line (w : Z) (value : option Z) : text :=
  match value with None => lit "no solution." ++ [nl] | Some y => line_with (y - w) end.
(** A vector as text: the numbers, each on a line of its own *)
Definition vector_text (v : list Z) : text := concat (map line_with v).
(** The same options with other parameters of the algorithm *)
Definition with_params (o : opt_options) (p : oparams) : opt_options := OO (oo_max o) (oo_in o) (oo_out o) (oo_canon o) (oo_minimal o) p (oo_display o) (oo_what o).
