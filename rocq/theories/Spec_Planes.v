(** What is asked about the planes of double triangles. *)
From Coq Require Import List Arith Bool ZArith QArith Qcanon.
Import ListNotations.
From Verif Require Import M_Matrix Spec_Matrix Spec_SatBinom Spec_Mlfb.
Local Open Scope Z_scope.

(** The point is in the smallest body of the form x <= c that contains the origin and the [points], on its boundary or in its interior. *)
Definition in_body (n : nat) (points : list (list Z)) (g : list Z) : Prop :=
  forall i, (i < n)%nat -> coordinate g i <= 0 \/ exists p, In p points /\ coordinate g i <= coordinate p i.
(** The neighbors at two positions, their sum, which is at the position [s], and the origin are the corners of two triangles, one on each side
    of the diagonal from the origin to the sum.  No neighbor is in the interior of the body of a triangle, but one is in that of both. *)
Definition double_triangle (n : nat) (gens : list (list Z)) (a b s : nat) : Prop :=
  (a < b < length gens)%nat /\ (s < length gens)%nat /\
  let A := nth a gens [] in let B := nth b gens [] in let T := nth s gens [] in
  is_sum n A B T /\ point_free n gens [A; T] /\ point_free n gens [B; T] /\ exists g, In g gens /\ in_interior n [A; B; T] g.
(** Two vectors, and the plane through the origin and the points [a] and [b] *)
Definition two (u w : vector) : nat -> vector := fun i => if (i =? 0)%nat then u else w.
Definition on_plane (n : nat) (a b g : list Z) : Prop := in_span 2 (two (rational a) (rational b)) n (rational g).
Definition not_on_a_line (n : nat) (a b : list Z) : Prop := independent 2 (two (rational a) (rational b)) n.
(** The points [g] and [k] are on the same side of the plane: one of them is a positive multiple of the other but for a vector in the plane. *)
Definition same_side (n : nat) (a b g k : list Z) : Prop :=
  exists x : Qc, (0 < x)%Qc /\ in_span 2 (two (rational a) (rational b)) n (fun c => (rational k c - x * rational g c)%Qc).
