(** What the actions should print. *)
From Coq Require Import String Ascii.
From Coq Require Import List Arith Bool ZArith Sorted Permutation.
Import ListNotations.
From Verif Require Import M_Term M_Names M_IO Spec_IO Spec_Names M_Msm M_Cli Spec_Slice Spec_Run.
From Verif Require Import Spec Spec_Api.

(** The input of an action: the options are legal, the text is that of an ideal with these variables and generators, and the option
    -minimal is only given if that is true. *)
Definition input_is (o : options) (file : text) (names : list str) (gens : list mono) : Prop :=
  legal_config (o_config o) /\ read_ideal (o_max o) (in_format o file) file = Ok (names, map znat gens) /\
  (o_minimal o = true -> lists_minimal_generators (length names) gens gens).

(** The same for the input of the action that computes Alexander duals: an ideal, maybe followed by a point, that is, a monomial *)
Definition dual_input_is (o : options) (file : text) (names : list str) (gens : list mono) (point : option mono) : Prop :=
  legal_config (o_config o) /\ read_dual (o_max o) (in_format o file) file = Ok (names, map znat gens, option_map znat point) /\
  (o_minimal o = true -> lists_minimal_generators (length names) gens gens).

(** The ring and the generators that the output of an action is about, when the input has the variables [names] and the generators
    [I]: the same, or with the option -canon the variables in ascending order and the same monomials. *)
Definition output_ring (canon : bool) (names : list str) (gens : list mono) (names' : list str) (gens' : list mono) : Prop :=
  if canon then Permutation names names' /\ ascending names' /\ Forall2 (same_term 0 names names') gens gens'
  else names' = names /\ gens' = gens.
(** Lexicographically descending, nothing twice *)
Definition descending (L : list mono) : Prop := StronglySorted (fun a b => lex_lt b a) L.
(** The text is an ideal with the generators [L], in this order, over these variables: reading it back gives that, if the numbers in the
    file are small enough for a size_t. *)
Definition shows_ideal (max : Z) (f : format) (names : list str) (L : list mono) (out : text) : Prop :=
  format_fits max f names (map znat L) -> read_ideal max f out = Ok (names, map znat L).
(** The text is a list of ideals; 42 is a number in the text for an empty list in the 4ti2 format. *)
Definition shows_ideals (max : Z) (f : format) (names : list str) (Ls : list (list mono)) (out : text) : Prop :=
  (42 <= max)%Z -> format_fits max f names [] -> Forall (fun L => format_fits max f names (map znat L)) Ls ->
  read_ideals max f out = Ok (names, map (fun L => (names, map znat L)) Ls).
(** Two inputs with the same variables, in any order, and the same ideal *)
Definition same_input (names : list str) (gens : list mono) (names' : list str) (gens' : list mono) : Prop :=
  Permutation names names' /\ forall m m', length m = length names -> same_term 0 names names' m m' -> (in_ideal gens m <-> in_ideal gens' m').
(** The same lists up to the order of the lists and of the members of each *)
Definition same_lists (Ls Ks : list (list mono)) : Prop := exists Ms, Permutation Ls Ms /\ Forall2 (@Permutation mono) Ms Ks.
(** Lexicographic order of lists of monomials; a longer list comes first *)
Fixpoint list_before (L K : list mono) : Prop :=
  match L, K with
  | x :: L', y :: K' => lex_lt y x \/ (x = y /\ list_before L' K')
  | _ :: _, [] => True
  | [], _ => False
  end.
(** The second succeeds if the first does, and else reports the same error. *)
Definition same_outcome {A B} (r : res A) (s : res B) : Prop :=
  match r, s with
  | Ok _, Ok _ | SyntaxError, SyntaxError | OtherError, OtherError | InvalidArgument, InvalidArgument => True
  | _, _ => False
  end.
(** The formats in which lists of ideals can be written *)
Definition list_format (f : format) : Prop := f = M2 \/ f = Monos \/ f = Fourti2.
(** As before if the output format has lists, and else an error whatever is read *)
Definition list_outcome {A B} (f : format) (r : res A) (s : res B) : Prop := (list_format f -> same_outcome r s) /\ (~ list_format f -> s = OtherError).
