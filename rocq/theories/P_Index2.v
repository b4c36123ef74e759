(** The index of a body: what the theorems say. *)
From Coq Require Import List Arith Bool ZArith QArith Qcanon Lia.
Import ListNotations.
From Verif Require Import M_Api M_IO M_Matrix M_SatBinom M_Mlfb M_Index Spec_Matrix Spec_SatBinom Spec_Mlfb P_Mlfb3 P_Index.
Local Open Scope nat_scope.
Local Notation length := List.length.

Theorem body_index_right mat n gens lat points : vectors n gens -> NoDup gens -> colCount mat = n -> independent (rowCount mat) (fun r c => get mat r c) n ->
  (forall g, In g gens -> in_row_space mat (rational g)) -> newGrobLat mat n gens = Ok lat ->
  points <> [] -> (forall k, In (Some k) points -> k < length gens) ->
  (length points = S (rowCount mat) ->
    (forall A : nat -> vector, (forall r c, r < rowCount mat -> c < n ->
        rational (point_of n gens (nth (S r) points None)) c = sum (rowCount mat) (fun i => (A r i * get mat i c)%Qc)) ->
      body_index (gl_h lat) points = det (rowCount mat) A) /\
    (body_index (gl_h lat) points <> 0%Qc <-> independent (rowCount mat) (fun r => rational (point_of n gens (nth (S r) points None))) n)) /\
  (length points <> S (rowCount mat) -> body_index (gl_h lat) points = 0%Qc).
Proof.
  intros V N C Ind Span E Ne Val. destruct (sums_right mat n gens V N C Ind Span) as (lat' & E' & (H1 & H2 & H3) & _). assert (lat' = lat) by congruence. subst lat'. split.
  - exact (index_right mat n gens (gl_h lat) Ind H2 H3 points Val).
  - intros L. unfold body_index. assert (X : (length points - 1 =? colCount (gl_h lat)) = false).
    { apply Nat.eqb_neq. destruct points; [congruence|]. cbn [length] in *. lia. }
    unfold neighbor in *. rewrite X. reflexivity.
Qed.
Theorem body_parallelogram_right mat n gens lat points : vectors n gens -> NoDup gens -> colCount mat = n -> independent (rowCount mat) (fun r c => get mat r c) n ->
  (forall g, In g gens -> in_row_space mat (rational g)) -> newGrobLat mat n gens = Ok lat -> (forall k, In (Some k) points -> k < length gens) ->
  body_isParallelogram (gl_h lat) points = true <-> length points = 4 /\ exists a o b, (forall i, In i [a; o; b] <-> In i [1; 2; 3]) /\
    forall c, c < n -> (coordinate (point_of n gens (nth 0 points None)) c + coordinate (point_of n gens (nth o points None)) c =
                        coordinate (point_of n gens (nth a points None)) c + coordinate (point_of n gens (nth b points None)) c)%Z.
Proof.
  intros V N C Ind Span E Val. destruct (sums_right mat n gens V N C Ind Span) as (lat' & E' & (H1 & H2 & H3) & _). assert (lat' = lat) by congruence. subst lat'.
  exact (parallelogram_right mat n gens (gl_h lat) Ind H2 H3 points Val).
Qed.
