(** Theorems about the index and the degree of maximal lattice free bodies, and about the numbers of bodies of each type. *)
From Coq Require Import List Arith Bool ZArith QArith Qcanon Lia.
Import ListNotations.
From Verif Require Import M_Api M_IO M_Matrix M_SatBinom M_Mlfb M_Planes M_Index Spec_Matrix Spec_SatBinom Spec_Mlfb Spec_Planes P_Index P_Index2 T_Api T_Slice T_Mlfb T_Planes.
Local Notation length := List.length.
Local Open Scope Z_scope.

(** C138: the index of a body with one point more than the lattice has dimensions is the determinant of its points but the first, given in the
    basis [mat] of the lattice.  It is not 0 exactly if these points are independent.  A body with another number of points has the index 0. *)
Theorem C138_index : forall mat n gens lat points, vectors n gens -> NoDup gens -> colCount mat = n -> independent (rowCount mat) (fun r c => get mat r c) n ->
  (forall g, In g gens -> in_row_space mat (rational g)) -> newGrobLat mat n gens = Ok lat ->
  points <> [] -> (forall k, In (Some k) points -> (k < length gens)%nat) ->
  (length points = S (rowCount mat) ->
    (forall A : nat -> vector, (forall r c, (r < rowCount mat)%nat -> (c < n)%nat ->
        rational (point_of n gens (nth (S r) points None)) c = sum (rowCount mat) (fun i => (A r i * get mat i c)%Qc)) ->
      body_index (gl_h lat) points = det (rowCount mat) A) /\
    (body_index (gl_h lat) points <> 0%Qc <-> independent (rowCount mat) (fun r => rational (point_of n gens (nth (S r) points None))) n)) /\
  (length points <> S (rowCount mat) -> body_index (gl_h lat) points = 0%Qc).
Proof. exact body_index_right. Qed.
Print Assumptions C138_index.
Example C138_case : match newGrobLat zero_sums 4 six with
  | Ok lat => body_index (gl_h lat) [None; Some 0; Some 3; Some 4]%nat = Q2Qc 2 /\ body_index (gl_h lat) [None; Some 0; Some 1; Some 2]%nat = 0%Qc /\ body_index (gl_h lat) [None; Some 0]%nat = 0%Qc
  | _ => False end.
Proof. vm_compute. repeat split; f_equal; apply Eqdep_dec.UIP_dec; decide equality; try apply Z.eq_dec; apply Pos.eq_dec. Qed.

(** C139: a body is told to be a parallelogram exactly if it has four points, and the first one and one of the others have the same sum as the
    other two *)
Theorem C139_parallelogram : forall mat n gens lat points, vectors n gens -> NoDup gens -> colCount mat = n -> independent (rowCount mat) (fun r c => get mat r c) n ->
  (forall g, In g gens -> in_row_space mat (rational g)) -> newGrobLat mat n gens = Ok lat -> (forall k, In (Some k) points -> (k < length gens)%nat) ->
  body_isParallelogram (gl_h lat) points = true <-> length points = 4%nat /\ exists a o b, (forall i, In i [a; o; b] <-> In i [1; 2; 3]%nat) /\
    forall c, (c < n)%nat -> coordinate (point_of n gens (nth 0 points None)) c + coordinate (point_of n gens (nth o points None)) c =
                             coordinate (point_of n gens (nth a points None)) c + coordinate (point_of n gens (nth b points None)) c.
Proof. exact body_parallelogram_right. Qed.
Print Assumptions C139_parallelogram.
Example C139_case : match newGrobLat zero_sums 4 six with
  | Ok lat => body_isParallelogram (gl_h lat) [None; Some 0; Some 2; Some 1]%nat = true /\ body_isParallelogram (gl_h lat) [None; Some 0; Some 2; Some 3]%nat = false
  | _ => False end.
Proof. vm_compute. repeat split; reflexivity. Qed.

(** C140: if the lattice has one dimension less than the space then the degree of a body is the product of its right hand side with a vector of
    integers without a common divisor that is orthogonal to the lattice.  The vector is the same one for all bodies, and each vector that is
    orthogonal to the lattice is a multiple of it. *)
Theorem C140_degree : forall mat n, colCount mat = n -> independent (rowCount mat) (fun r c => get mat r c) n -> n = S (rowCount mat) ->
  exists w : vector, primitive n w /\ in_kernel mat w /\ (forall v, in_kernel mat v -> exists q, forall c, (c < n)%nat -> v c = (q * w c)%Qc) /\
    forall rhs, exists d, dotDegree mat n rhs = Ok d /\ Q2Qc (inject_Z d) = sum n (fun c => (w c * rational rhs c)%Qc).
Proof. exact degree_right. Qed.
Print Assumptions C140_degree.
Example C140_case : dotDegree basis 3 [0; 2; 2] = Ok 4 /\ dotDegree zero_sums 4 [0; 1; 2; 2] = Ok 5 /\ dotDegree (zmat 3 [[1; 2; -2]; [0; 3; -1]]) 3 [5; 1; 2] = Ok 27.
Proof. vm_compute. repeat split; reflexivity. Qed.

(** C141: the number of bodies with each number of points in a plane, and the greatest number of points of a body in the plane *)
Theorem C141_types : forall places bodies, let counts := typeCounts places bodies in
  (forall t, getTypeCount counts t = length (filter (fun b => (getType places b =? t)%nat) bodies)) /\
  (bodies = [] -> getMaxType counts = 0%nat) /\
  (bodies <> [] -> (exists b, In b bodies /\ getType places b = getMaxType counts) /\ forall b, In b bodies -> (getType places b <= getMaxType counts)%nat) /\
  (hasFlat counts = true <-> exists b, In b bodies /\ isFlat places b = true).
Proof. exact types_right. Qed.
Print Assumptions C141_types.
Example C141_case : let counts := typeCounts [InPlane; UnderPlane; InPlane] [MLFB [] [None; Some 0; Some 2]%nat; MLFB [] [None; Some 1]%nat; MLFB [] [Some 1; Some 2]%nat] in
  counts = [(1, 2); (3, 1)]%nat /\ getMaxType counts = 3%nat /\ getTypeCount counts 1 = 2%nat /\ getTypeCount counts 2 = 0%nat /\ hasFlat counts = false.
Proof. vm_compute. repeat split; reflexivity. Qed.
