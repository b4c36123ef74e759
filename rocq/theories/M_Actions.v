(** Model of whole actions: from the text of the input to the text of the output. *)
From Coq Require Import List Arith Bool ZArith.
Import ListNotations.
From Verif Require Import M_Term M_Ideal M_Api M_Names M_Intersect M_Transform M_IO.
(** A BigIdeal has mpz_class exponents.  The models of the algorithms have natural numbers: the readers give no negative ones (C53). *)
Definition to_nideal (J : list str * list (list Z)) : nideal := (fst J, map (map Z.to_nat) (snd J)).
Definition of_nideal (J : nideal) : list str * list (list Z) := (fst J, map (map Z.of_nat) (snd J)).
(** IntersectionAction.cpp:53-78 perform; the formats are those that were given or detected. *)
Definition intersection_action (max_ulong : Z) (input output : format) (canon : bool) (file : text) : res text :=
  rbind (read_ideals max_ulong input file) (fun '(names, Js) =>
  match intersection canon names (map to_nideal Js) with
  | None => Undefined
  | Some J => write_ideal output (fst (of_nideal J)) (snd (of_nideal J))
  end).
(** TransformAction.cpp:125-221 perform *)
Definition transform_action (max_ulong : Z) (input output : format) (o : transform_options) (file : text) : res text :=
  rbind (read_ideals max_ulong input file) (fun '(names, Js) =>
  match transform o names (map to_nideal Js) with
  | TOk (names', Rs) => write_ideals output names' (map of_nideal Rs)
  | TErr => OtherError
  | TUndef => Undefined
  end).
