(** What the program should print if the output format is count or null. *)
From Coq Require Import String Ascii.
From Coq Require Import List Arith Bool ZArith.
Import ListNotations.
From Verif Require Import M_Names M_IO Spec_IO Spec_Names M_Main M_Count Spec_Cli3 Spec_Cli2 Spec_Main.

(** The option -oformat names one of the two formats. *)
Definition sink_choice (v : valuation) (s : sink) : Prop :=
  exists x, abbreviates format_names (word v "oformat") x /\ In (x, s) [(lit "count", Counting); (lit "null", Nothing)].
(** One line with each number, or nothing at all *)
Definition counts (s : sink) (ks : list nat) : text :=
  match s with Counting => concat (map (fun k => line_with (Z.of_nat k)) ks) | Nothing => [] end.
(** The same values of all the options but -oformat *)
Definition same_but_format (v v' : valuation) : Prop := forall x, x <> lit "oformat" -> v x = v' x.
