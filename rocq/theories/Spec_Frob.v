(** What the theorems about Frobenius numbers say. *)
From Coq Require Import List ZArith Ascii.
Import ListNotations.
From Verif Require Import M_IO.
(** n is a combination of the numbers with coefficients that are not negative *)
Fixpoint inner (cs xs : list Z) : Z := match cs, xs with c :: cs', x :: xs' => (c * x + inner cs' xs')%Z | _, _ => 0%Z end.
Definition representable (numbers : list Z) (n : Z) : Prop :=
  exists cs, length cs = length numbers /\ Forall (fun c => 0 <= c)%Z cs /\ n = inner cs numbers.
(** The largest number that is not *)
Definition frobenius_number (numbers : list Z) (g : Z) : Prop := ~ representable numbers g /\ forall n, (g < n)%Z -> representable numbers n.
(** No number but 1 and -1 divides all *)
Definition coprime (numbers : list Z) : Prop := forall d, (0 <= d)%Z -> Forall (fun a => (d | a)%Z) numbers -> d = 1%Z.
(** White space *)
Definition blank (w : list ascii) : Prop := w <> [] /\ Forall (fun c => nat_of_ascii c = 32 \/ 9 <= nat_of_ascii c <= 13) w.
