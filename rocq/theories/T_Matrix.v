(** C105 to C112: linear algebra on matrices of rational numbers. *)
From Coq Require Import List Arith Bool ZArith QArith Qcanon Lia.
Import ListNotations.
From Verif Require Import M_IO M_Matrix Spec_Matrix P_Matrix P_Matrix2 P_Matrix3 P_Matrix4 P_Matrix5 P_Matrix6 P_Matrix7 P_Matrix8 P_Matrix9.
Local Open Scope nat_scope.

(** For the examples: a matrix of integers, and the entries of a matrix as fractions *)
Definition whole (cols : nat) (rows : list (list Z)) : matrix := Matrix (length rows) cols (map (map (fun z => Q2Qc (inject_Z z))) rows).
Definition shown (r : res matrix) : option (nat * nat * list (list Q)) :=
  match r with Ok m => Some (rowCount m, colCount m, map (map (fun q : Qc => this q)) (entries m)) | _ => None end.
Definition answer (r : res (option matrix)) : res matrix := LET o := r IN match o with Some m => Ok m | None => OtherError end.
Definition ok (m : matrix) : bool := (length (entries m) =? rowCount m) && forallb (fun row => length row =? colCount m) (entries m).
Lemma ok_well : forall m, ok m = true -> well_formed m.
Proof.
  intros m H. apply andb_prop in H. destruct H as (A & B). apply Nat.eqb_eq in A. rewrite forallb_forall in B. split; [auto|].
  intros row Hr. apply Nat.eqb_eq. auto.
Qed.
Definition three : matrix := whole 3 [[0; 2; 4]; [1; 1; 1]; [1; 3; 5]]%Z.
Example three_well : well_formed three.
Proof. apply ok_well. reflexivity. Qed.

(** *** C105: row reduction *)
Theorem C105_echelon : forall m, well_formed m -> let m' := fst (rowReduce m) in
  well_formed m' /\ rowCount m' = rowCount m /\ colCount m' = colCount m /\ (forall w, in_row_space m' w <-> in_row_space m w) /\ exists k p, echelon m' k p.
Proof. exact p_rowReduce. Qed.
Print Assumptions C105_echelon.
Example C105_echelon_ex : shown (Ok (fst (rowReduce three))) = Some (3, 3, [[1; 1; 1]; [0; 2; 4]; [0; 0; 0]]%Q).
Proof. vm_compute. reflexivity. Qed.
Theorem C105_reduced : forall m, well_formed m -> exists m', rowReduceFully m = Ok m' /\
  well_formed m' /\ rowCount m' = rowCount m /\ colCount m' = colCount m /\ (forall w, in_row_space m' w <-> in_row_space m w) /\ exists k p, reduced m' k p.
Proof. exact p_rowReduceFully. Qed.
Print Assumptions C105_reduced.
Example C105_reduced_ex : shown (rowReduceFully three) = Some (3, 3, [[1; 0; - (1)]; [0; 1; 2]; [0; 0; 0]]%Q).
Proof. vm_compute. reflexivity. Qed.
(** The result depends on the row space only *)
Theorem C105_unique : forall a b, well_formed a -> well_formed b -> rowCount a = rowCount b -> colCount a = colCount b ->
  (forall w, in_row_space a w <-> in_row_space b w) ->
  exists a' b', rowReduceFully a = Ok a' /\ rowReduceFully b = Ok b' /\ same a' b'.
Proof. exact p_unique. Qed.
Print Assumptions C105_unique.
Example C105_unique_ex : shown (rowReduceFully (whole 3 [[1; 3; 5]; [2; 2; 2]; [3; 5; 7]]%Z)) = shown (rowReduceFully three).
Proof. vm_compute. reflexivity. Qed.
(** The documentation says that all entries are zero or one afterwards, and that no column has two entries that are not zero *)
Theorem C105_zero_one_refuted : exists m m' r c, well_formed m /\ rowReduceFully m = Ok m' /\ r < rowCount m' /\ c < colCount m' /\
  get m' r c <> 0%Qc /\ get m' r c <> 1%Qc.
Proof. exact p_zero_one. Qed.
Print Assumptions C105_zero_one_refuted.
Theorem C105_two_entries_refuted : exists m m' r s c, well_formed m /\ rowReduceFully m = Ok m' /\ r < s /\ s < rowCount m' /\ c < colCount m' /\
  get m' r c <> 0%Qc /\ get m' s c <> 0%Qc.
Proof. exact p_two_entries. Qed.
Print Assumptions C105_two_entries_refuted.

(** *** C106: systems of linear equations *)
Theorem C106_solve : forall a b, rowCount a = rowCount b ->
  (exists s, solve a b = Ok (Some s) /\ well_formed s /\ is_product b a s) \/ (solve a b = Ok None /\ forall s, ~ is_product b a s).
Proof. exact p_solve. Qed.
Print Assumptions C106_solve.
Example C106_solve_ex : shown (answer (solve three (whole 1 [[6]; [3]; [9]]%Z))) = Some (3, 1, [[0]; [3]; [0]]%Q).
Proof. vm_compute. reflexivity. Qed.
Example C106_none_ex : solve three (whole 1 [[6]; [3]; [8]]%Z) = Ok None.
Proof. vm_compute. reflexivity. Qed.

(** *** C107: inverses *)
Theorem C107_inverse_partial : forall a n, rowCount a = n -> colCount a = n -> 0 < n ->
  (exists b, inverse a = Ok (Some b) /\ well_formed b /\ inverses n a b) \/ (inverse a = Ok None /\ forall b, ~ inverses n a b).
Proof. exact p_inverse. Qed.
Print Assumptions C107_inverse_partial.
Example C107_inverse_ex : shown (answer (inverse (whole 2 [[0; 2]; [1; 3]]%Z))) = Some (2, 2, [[- 3 # 2; 1]; [1 # 2; 0]]%Q).
Proof. vm_compute. reflexivity. Qed.
Example C107_none_ex : inverse three = Ok None.
Proof. vm_compute. reflexivity. Qed.
(** The matrix without rows is its own inverse, but the function reads an entry that does not exist *)
Theorem C107_empty_refuted : exists a, rowCount a = 0 /\ colCount a = 0 /\ well_formed a /\ inverses 0 a a /\ inverse a = Undefined.
Proof. exact p_empty_inverse. Qed.
Print Assumptions C107_empty_refuted.

(** *** C108: the rank and the null space *)
Theorem C108_rank : forall m, exists k, matrixRank m = Ok k /\ forall l, dimension (colCount m) (in_row_space m) l <-> l = k.
Proof. exact p_rank. Qed.
Print Assumptions C108_rank.
Example C108_rank_ex : matrixRank three = Ok 2.
Proof. vm_compute. reflexivity. Qed.
Theorem C108_null_space : forall m, exists b k, nullSpace m = Ok b /\ matrixRank m = Ok k /\ well_formed b /\
  rowCount b = colCount m /\ colCount b = colCount m - k /\
  (forall j, j < colCount b -> primitive (colCount m) (fun c => get b c j)) /\
  independent (colCount b) (fun j c => get b c j) (colCount m) /\
  (forall w, in_kernel m w <-> in_col_space b w).
Proof. exact p_nullSpace. Qed.
Print Assumptions C108_null_space.
Example C108_null_space_ex : shown (nullSpace (whole 4 [[2; 3; 0; 1]; [0; 0; 4; 6]]%Z)) = Some (4, 2, [[- 3; - 1]; [2; 0]; [0; - 3]; [0; 2]]%Q).
Proof. vm_compute. reflexivity. Qed.

(** *** C109: row and column spaces *)
Theorem C109_rows : forall a b, exists r, hasSameRowSpace a b = Ok r /\
  (r = true <-> colCount a = colCount b /\ forall w, in_row_space a w <-> in_row_space b w).
Proof. exact p_sameRow. Qed.
Print Assumptions C109_rows.
Example C109_rows_ex : hasSameRowSpace three (whole 3 [[1; 3; 5]; [2; 2; 2]]%Z) = Ok true /\ hasSameRowSpace three (whole 3 [[1; 3; 5]; [2; 6; 10]]%Z) = Ok false.
Proof. vm_compute. auto. Qed.
Theorem C109_columns : forall a b, exists r, hasSameColSpace a b = Ok r /\
  (r = true <-> rowCount a = rowCount b /\ forall w, in_col_space a w <-> in_col_space b w).
Proof. exact p_sameCol. Qed.
Print Assumptions C109_columns.
Example C109_columns_ex : hasSameColSpace three (whole 2 [[2; 2]; [1; 0]; [3; 2]]%Z) = Ok true /\ hasSameColSpace three (whole 1 [[2]; [1]; [3]]%Z) = Ok false.
Proof. vm_compute. auto. Qed.

(** *** C110: determinants *)
Theorem C110_determinant : forall m n, rowCount m = n -> colCount m = n -> determinant m = det n (get m).
Proof. exact determinant_ok. Qed.
Print Assumptions C110_determinant.
Example C110_determinant_ex : this (determinant (whole 3 [[0; 2; 4]; [1; 1; 1]; [1; 3; 6]]%Z)) = (- (2))%Q.
Proof. vm_compute. reflexivity. Qed.
(** A matrix has an inverse exactly if its determinant is not zero *)
Theorem C110_invertible : forall m n, rowCount m = n -> colCount m = n -> 0 < n -> (exists b, inverse m = Ok (Some b)) <-> determinant m <> 0%Qc.
Proof. exact p_det_inverse. Qed.
Print Assumptions C110_invertible.

(** *** C111: parallelograms *)
Theorem C111_parallelogram : forall m, isParallelogram m = true <-> exists a o b, corners m a o b.
Proof. exact isParallelogram_ok. Qed.
Print Assumptions C111_parallelogram.
Example C111_parallelogram_ex : isParallelogram (whole 2 [[0; 0]; [3; 1]; [4; 3]; [1; 2]]%Z) = true /\ isParallelogram (whole 2 [[0; 0]; [3; 1]; [4; 4]; [1; 2]]%Z) = false.
Proof. vm_compute. auto. Qed.
Theorem C111_area : forall m a o b, corners m a o b ->
  getParallelogramAreaSq m = Ok (area_sq (colCount m) (fun c => get m a c - get m 0 c)%Qc (fun c => get m b c - get m 0 c)%Qc).
Proof. exact getParallelogramAreaSq_ok. Qed.
Print Assumptions C111_area.
Example C111_area_ex : corners (whole 2 [[0; 0]; [3; 1]; [4; 3]; [1; 2]]%Z) 1 2 3 /\
  (LET q := getParallelogramAreaSq (whole 2 [[0; 0]; [3; 1]; [4; 3]; [1; 2]]%Z) IN Ok (this q)) = Ok 25%Q.
Proof.
  split; [|vm_compute; reflexivity]. split; [reflexivity|]. split; [intros i; cbn; lia|]. intros c Hc. cbn in Hc.
  destruct c as [|[|c]]; [| |lia]; apply Qc_is_canon; reflexivity.
Qed.

(** *** C112: products, transposes, parts *)
Theorem C112_product : forall a b, colCount a = rowCount b -> well_formed (product a b) /\ is_product (product a b) a b.
Proof. exact p_product. Qed.
Print Assumptions C112_product.
Theorem C112_transpose : forall m, well_formed (transpose m) /\ rowCount (transpose m) = colCount m /\ colCount (transpose m) = rowCount m /\
  forall r c, r < rowCount m -> c < colCount m -> get (transpose m) c r = get m r c.
Proof. exact p_transpose. Qed.
Print Assumptions C112_transpose.
Theorem C112_part : forall m rb re cb ce, rb <= re -> re <= rowCount m -> cb <= ce -> ce <= colCount m ->
  let s := subMatrix m rb re cb ce in well_formed s /\ rowCount s = re - rb /\ colCount s = ce - cb /\
  forall r c, rb <= r -> r < re -> cb <= c -> c < ce -> get s (r - rb) (c - cb) = get m r c.
Proof. exact p_sub. Qed.
Print Assumptions C112_part.
Theorem C112_resize : forall m R C, well_formed m -> let s := resize m R C in well_formed s /\ rowCount s = R /\ colCount s = C /\
  forall r c, r < R -> c < C -> get s r c = if (r <? rowCount m) && (c <? colCount m) then get m r c else 0%Qc.
Proof. exact p_resize. Qed.
Print Assumptions C112_resize.
Theorem C112_copy_row : forall t i s j, colCount t = colCount s -> i < rowCount t -> j < rowCount s ->
  let t' := copyRow t i s j in well_formed t' /\ rowCount t' = rowCount t /\ colCount t' = colCount t /\
  forall r c, r < rowCount t -> c < colCount t -> get t' r c = if r =? i then get s j c else get t r c.
Proof. exact p_copyRow. Qed.
Print Assumptions C112_copy_row.
Theorem C112_equal : forall a b, equal a b = true <-> same a b.
Proof. exact p_equal. Qed.
Print Assumptions C112_equal.
Example C112_ex : shown (Ok (product three (transpose (subMatrix three 1 3 0 3)))) = Some (3, 2, [[6; 26]; [3; 9]; [9; 35]]%Q) /\
  shown (Ok (copyRow (resize three 2 3) 0 three 2)) = Some (2, 3, [[1; 3; 5]; [1; 1; 1]]%Q) /\ equal three three = true /\ equal three (transpose three) = false.
Proof. vm_compute. auto. Qed.
