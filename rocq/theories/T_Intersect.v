(** C43: intersecting ideals. *)
From Coq Require Import String Ascii.
From Coq Require Import List Arith Bool Lia ZArith.
Import ListNotations.
From Verif Require Import Spec M_Term M_Ideal M_Api M_Names Spec_Names M_Intersect Spec_Intersect P_Intersect3.
Local Notation "$ s" := (list_ascii_of_string s%string) (at level 0, s at level 0, only parsing).

(** For all lists of ideals, each in its own ring: the intersection is computed, no table is read outside its bounds; the ring of the
    result has the names of all ideals, ascending; a monomial in all these variables is in the result iff it is in every one of the
    ideals; and the generators are minimal, each once.  Without ideals the result is the whole of the given ring. *)
Theorem C43_intersect : forall ideals emptyNames, Forall good_named ideals -> NoDup emptyNames ->
  exists names B, intersect_ideals ideals emptyNames = Some (names, B) /\ good_named (names, B) /\
    (ideals = [] -> names = emptyNames) /\
    (ideals <> [] -> ascending names /\ forall s, In s names <-> exists J, In J ideals /\ In s (fst J)) /\
    (forall m, in_named (names, B) m <-> Forall (fun J => in_named J m) ideals) /\
    lists_minimal_generators (List.length names) B B.
Proof. exact p_intersect. Qed.
Print Assumptions C43_intersect.
(** Three ideals in three rings: <x^2, x*y> over (y, x), <z, y^3> over (z, y) and the zero ideal's complement <1> over (w). *)
Example C43_ex :
  Forall good_named [([$"y"; $"x"], [[0; 2]; [1; 1]]); ([$"z"; $"y"], [[1; 0]; [0; 3]]); ([$"w"], [[0]])] /\
  intersect_ideals [([$"y"; $"x"], [[0; 2]; [1; 1]]); ([$"z"; $"y"], [[1; 0]; [0; 3]]); ([$"w"], [[0]])] [] =
    Some ([$"w"; $"x"; $"y"; $"z"], [[0; 1; 1; 1]; [0; 1; 3; 0]; [0; 2; 0; 1]]).
Proof.
  split; [|vm_compute; reflexivity].
  repeat constructor; cbn [fst snd In map List.length]; try (intros H; repeat destruct H as [H|H]; try discriminate H; exact H); try reflexivity.
Qed.
