(** Model of Matrix.cpp: linear algebra on matrices of exact rational numbers. *)
From Coq Require Import List Arith Bool ZArith QArith Qcanon.
Import ListNotations.
From Verif Require Import M_IO.
Local Open Scope nat_scope.

(** Matrix.h:27-66, class Matrix. An mpq_class is a canonical fraction: Qc. Simplification: the vector _entries, which holds the rows one after
    the other, is a list of rows. *)
Record matrix := Matrix { rowCount : nat; colCount : nat; entries : list (list Qc) }.

(** Matrix.h:42-43, the read access operator(). Both indices are below the counts (toIndex, Matrix.h:50-57); callers that can violate this say so. *)
Definition get (mat : matrix) (row col : nat) : Qc := nth col (nth row (entries mat) []) 0%Qc.

(** A matrix of a given size whose entries are assigned one by one by two nested loops. Simplification: loops in which no iteration reads what
    another one writes are modelled by this. *)
Definition build (rows cols : nat) (f : nat -> nat -> Qc) : matrix :=
  Matrix rows cols (map (fun row => map (f row) (seq 0 cols)) (seq 0 rows)).

(** Comparison of an mpq_class with 0 *)
Definition is_zero (q : Qc) : bool := Qc_eq_bool q 0%Qc.

(** Matrix.cpp:57-59, the constructor *)
Definition zero_matrix (rows cols : nat) : matrix := build rows cols (fun _ _ => 0%Qc).

(** Matrix.cpp:61-72, Matrix::resize *)
Definition resize (mat : matrix) (rows cols : nat) : matrix :=
  if (rows =? rowCount mat) && (cols =? colCount mat) then mat
  else build rows cols (fun row col => if (row <? Nat.min rows (rowCount mat)) && (col <? Nat.min cols (colCount mat)) then get mat row col else 0%Qc).

(** Matrix.cpp:82-92, operator== *)
Definition equal (a b : matrix) : bool :=
  if negb (rowCount a =? rowCount b) || negb (colCount a =? colCount b) then false
  else forallb (fun row => forallb (fun col => Qc_eq_bool (get a row col) (get b row col)) (seq 0 (colCount a))) (seq 0 (rowCount a)).

(** Matrix.cpp:116-127, product, for a matrix prod that is neither a nor b *)
Definition product (a b : matrix) : matrix :=
  build (rowCount a) (colCount b)
    (fun r c => fold_left (fun sum i => (sum + get a r i * get b i c)%Qc) (seq 0 (colCount a)) 0%Qc).

(** Matrix.cpp:129-144, transpose *)
Definition transpose (mat : matrix) : matrix := build (colCount mat) (rowCount mat) (fun col row => get mat row col).

(** Matrix.cpp:147-154, addMultiplyRow *)
Definition addMultiplyRow (mat : matrix) (resultRow sourceRow : nat) (mult : Qc) : matrix :=
  build (rowCount mat) (colCount mat)
    (fun row col => if row =? resultRow then (get mat resultRow col + get mat sourceRow col * mult)%Qc else get mat row col).

(** Matrix.cpp:156-159, multiplyRow *)
Definition multiplyRow (mat : matrix) (row : nat) (mult : Qc) : matrix :=
  build (rowCount mat) (colCount mat) (fun r col => if r =? row then (get mat row col * mult)%Qc else get mat r col).

(** Matrix.cpp:161-167, swapRows *)
Definition swapRows (mat : matrix) (row1 row2 : nat) : matrix :=
  build (rowCount mat) (colCount mat)
    (fun row col => if row =? row1 then get mat row2 col else if row =? row2 then get mat row1 col else get mat row col).

(** Matrix.cpp:187-194, the loop over the rows below the pivot in rowReduce *)
Definition clear_below (mat : matrix) (pivotRow pivotCol : nat) : matrix :=
  fold_left
    (fun mat row =>
       if negb (row =? pivotRow) && negb (is_zero (get mat row pivotCol))
       then addMultiplyRow mat row pivotRow (- get mat row pivotCol / get mat pivotRow pivotCol)%Qc else mat)
    (seq (S pivotRow) (rowCount mat - S pivotRow)) mat.

(** Matrix.cpp:173-194, the loop over the columns in rowReduce; the state is the matrix, rowsDone and permutationOdd *)
Definition reduce_col (state : matrix * nat * bool) (pivotCol : nat) : matrix * nat * bool :=
  let '(mat, rowsDone, permutationOdd) := state in
  match find (fun row => negb (is_zero (get mat row pivotCol))) (seq rowsDone (rowCount mat - rowsDone)) with
  | None => state
  | Some pivotRow =>
      let '(mat, permutationOdd) :=
        if negb (rowsDone =? pivotRow) then (swapRows mat rowsDone pivotRow, negb permutationOdd) else (mat, permutationOdd) in
      (clear_below mat rowsDone pivotCol, S rowsDone, permutationOdd)
  end.

(** Matrix.cpp:169-198, rowReduce: the new matrix and what is returned *)
Definition rowReduce (mat : matrix) : matrix * bool :=
  let '(mat, _, permutationOdd) := fold_left reduce_col (seq 0 (colCount mat)) (mat, 0, false) in (mat, permutationOdd).

(** Matrix.cpp:213-218, the loop over the rows above the pivot in rowReduceFully *)
Definition clear_above (mat : matrix) (pivotRow pivotCol : nat) : matrix :=
  fold_left
    (fun mat row =>
       if negb (row =? pivotRow) && negb (is_zero (get mat row pivotCol))
       then addMultiplyRow mat row pivotRow (- get mat row pivotCol)%Qc else mat)
    (seq 0 pivotRow) mat.

(** Matrix.cpp:206-222, the loop of rowReduceFully *)
Fixpoint fully_loop (fuel : nat) (mat : matrix) (pivotRow pivotCol : nat) : res matrix :=
  if (pivotRow <? rowCount mat) && (pivotCol <? colCount mat) then
    match fuel with
    | 0 => OutOfFuel
    | S fuel' =>
        if is_zero (get mat pivotRow pivotCol) then fully_loop fuel' mat pivotRow (S pivotCol)
        else fully_loop fuel' (clear_above (multiplyRow mat pivotRow (1 / get mat pivotRow pivotCol)%Qc) pivotRow pivotCol) (S pivotRow) pivotCol
    end
  else Ok mat.

(** Matrix.cpp:200-223, rowReduceFully. The fuel always suffices: rowReduceFully_ok. *)
Definition rowReduceFully (mat : matrix) : res matrix :=
  let '(mat, _) := rowReduce mat in fully_loop (rowCount mat + colCount mat) mat 0 0.

(** Matrix.cpp:225-244, subMatrix *)
Definition subMatrix (mat : matrix) (rowBegin rowEnd colBegin colEnd : nat) : matrix :=
  build (rowEnd - rowBegin) (colEnd - colBegin) (fun row col => get mat (rowBegin + row) (colBegin + col)).

(** Matrix.cpp:246-255, copyRow *)
Definition copyRow (target : matrix) (targetRow : nat) (source : matrix) (sourceRow : nat) : matrix :=
  build (rowCount target) (colCount target) (fun row col => if row =? targetRow then get source sourceRow col else get target row col).

(** Matrix.cpp:264-266, the loop that appends an identity matrix *)
Definition put_identity (mat : matrix) (size : nat) : matrix :=
  build (rowCount mat) (colCount mat) (fun row col => if col =? size + row then 1%Qc else get mat row col).

(** Matrix.cpp:257-274, inverse. None is the answer false. With no rows the entry (size - 1, size - 1) does not exist. *)
Definition inverse (mat : matrix) : res (option matrix) :=
  let size := rowCount mat in
  let inv := put_identity (resize mat size (size + size)) size in
  LET inv := rowReduceFully inv IN
  match size with
  | 0 => Undefined
  | S last => if is_zero (get inv last last) then Ok None else Ok (Some (subMatrix inv 0 size size (2 * size)))
  end.

(** Matrix.cpp:281-291 and 304-314, the loops that find the pivots. matrixRank has no vector colHasPivot. Simplification: that vector is a
    function from columns to bool. *)
Fixpoint find_pivots (fuel : nat) (mat : matrix) (row col rank : nat) (colHasPivot : nat -> bool) : res (nat * (nat -> bool)) :=
  if (row <? rowCount mat) && (col <? colCount mat) then
    match fuel with
    | 0 => OutOfFuel
    | S fuel' =>
        if is_zero (get mat row col) then find_pivots fuel' mat row (S col) rank colHasPivot
        else find_pivots fuel' mat (S row) col (S rank) (fun c => if c =? col then true else colHasPivot c)
    end
  else Ok (rank, colHasPivot).

(** Matrix.cpp:276-294, matrixRank *)
Definition matrixRank (mat : matrix) : res nat :=
  LET mat := rowReduceFully mat IN
  LET (rank, _) := find_pivots (rowCount mat + colCount mat) mat 0 0 0 (fun _ => false) IN Ok rank.

(** Matrix.cpp:327-337, the loop over nullRow in nullSpace: the column of the basis for the column col of mat *)
Fixpoint null_column (mat : matrix) (colHasPivot : nat -> bool) (col : nat) (nullRows : list nat) (row : nat) : list Qc :=
  match nullRows with
  | [] => []
  | nullRow :: nullRows' =>
      if colHasPivot nullRow then (- get mat row col)%Qc :: null_column mat colHasPivot col nullRows' (S row)
      else (if nullRow =? col then 1%Qc else 0%Qc) :: null_column mat colHasPivot col nullRows' row
  end.

(** mpz_lcm *)
Definition lcm_with (l : Z) (q : Qc) : Z := Z.lcm l (Zpos (Qden q)).
Definition gcd_with (g : Z) (q : Qc) : Z := Z.gcd g (Qnum q).

(** Matrix.cpp:31-54, makeColumnIntegralPrimitive, on the entries of the column. Dividing by 0 ends the program. *)
Definition makeColumnIntegralPrimitive (column : list Qc) : res (list Qc) :=
  match column with
  | [] => Ok column
  | first :: others =>
      let numGcd := fold_left gcd_with others (Qnum first) in
      let denLcm := fold_left lcm_with others (Zpos (Qden first)) in
      if (numGcd =? 0)%Z then Undefined
      else Ok (map (fun q => (q / Q2Qc (inject_Z numGcd) * Q2Qc (inject_Z denLcm))%Qc) column)
  end.

(** Matrix.cpp:343-345, the loop that makes the basis integer, on the list of its columns *)
Fixpoint make_integral (columns : list (list Qc)) : res (list (list Qc)) :=
  match columns with
  | [] => Ok []
  | column :: columns' => LET column := makeColumnIntegralPrimitive column IN LET columns' := make_integral columns' IN Ok (column :: columns')
  end.

(** Matrix.cpp:296-346, nullSpace. Simplification: the columns of the basis are collected in a list, which becomes the matrix at the end. *)
Definition nullSpace (mat : matrix) : res matrix :=
  LET mat := rowReduceFully mat IN
  LET (rank, colHasPivot) := find_pivots (rowCount mat + colCount mat) mat 0 0 0 (fun _ => false) IN
  let cols := seq 0 (colCount mat) in
  let columns := map (fun col => null_column mat colHasPivot col cols 0) (filter (fun col => negb (colHasPivot col)) cols) in
  LET columns := make_integral columns IN
  Ok (build (colCount mat) (colCount mat - rank) (fun row col => nth row (nth col columns []) 0%Qc)).

(** Matrix.cpp:351-357, lhs and rhs beside each other *)
Definition append_cols (lhs rhs : matrix) : matrix :=
  let system := resize lhs (rowCount lhs) (colCount lhs + colCount rhs) in
  build (rowCount system) (colCount system)
    (fun row col => if colCount lhs <=? col then get rhs row (col - colCount lhs) else get system row col).

(** Matrix.cpp:375-386, the loop that extracts the solution: the rows of sol *)
Fixpoint extract (system : matrix) (midCol solCols : nat) (cols : list nat) (row : nat) : list (list Qc) :=
  match cols with
  | [] => []
  | col :: cols' =>
      if (row =? rowCount system) || is_zero (get system row col)
      then map (fun _ => 0%Qc) (seq 0 solCols) :: extract system midCol solCols cols' row
      else map (fun r => get system row (midCol + r)) (seq 0 solCols) :: extract system midCol solCols cols' (S row)
  end.

(** Matrix.cpp:348-388, solve. None is the answer false, with sol unchanged. *)
Definition solve (lhs rhs : matrix) : res (option matrix) :=
  let midCol := colCount lhs in
  LET system := rowReduceFully (append_cols lhs rhs) IN
  if existsb
       (fun row =>
          forallb (fun col => is_zero (get system row col)) (seq 0 midCol) &&
          existsb (fun col => negb (is_zero (get system row col))) (seq midCol (colCount system - midCol)))
       (seq 0 (rowCount system))
  then Ok None
  else Ok (Some (Matrix (colCount lhs) (colCount rhs) (extract system midCol (colCount rhs) (seq 0 midCol) 0))).

(** Matrix.cpp:400-408, hasSameColSpace *)
Definition hasSameColSpace (a b : matrix) : res bool :=
  if negb (rowCount a =? rowCount b) then Ok false
  else
    LET first := solve a b IN
    match first with
    | None => Ok false
    | Some _ => LET second := solve b a IN Ok match second with None => false | Some _ => true end
    end.

(** Matrix.cpp:390-398, hasSameRowSpace *)
Definition hasSameRowSpace (a b : matrix) : res bool := hasSameColSpace (transpose a) (transpose b).

(** Matrix.cpp:410-420, determinant *)
Definition determinant (mat : matrix) : Qc :=
  let '(reduced, permutationOdd) := rowReduce mat in
  fold_left (fun det i => (det * get reduced i i)%Qc) (seq 0 (rowCount reduced)) (if permutationOdd then (- (1))%Qc else 1%Qc).

(** Matrix.cpp:434-446, the body of the loop over opposite in getOppositeZeroRow: isPara *)
Definition is_para (mat : matrix) (opposite : nat) : bool :=
  forallb
    (fun col =>
       is_zero (fold_left (fun tmp row => if negb (row =? opposite) then (tmp - get mat row col)%Qc else tmp) (seq 1 3)
                  (get mat 0 col + get mat opposite col)%Qc))
    (seq 0 (colCount mat)).

(** Matrix.cpp:423-449, getOppositeZeroRow *)
Definition getOppositeZeroRow (mat : matrix) : nat :=
  if negb (rowCount mat =? 4) then rowCount mat
  else match find (is_para mat) (seq 1 3) with Some opposite => opposite | None => rowCount mat end.

(** Matrix.cpp:452-454, isParallelogram *)
Definition isParallelogram (mat : matrix) : bool := negb (getOppositeZeroRow mat =? rowCount mat).

(** Matrix.cpp:456-486, getParallelogramAreaSq. The first and the second row from 1 to 3 that is not the opposite of row 0. *)
Definition getParallelogramAreaSq (mat : matrix) : res Qc :=
  let opposite := getOppositeZeroRow mat in
  match filter (fun row => negb (row =? opposite)) (seq 1 3) with
  | a :: b :: _ =>
      let tmp := build 2 (colCount mat) (fun row col => (get mat (if row =? 0 then a else b) col - get mat 0 col)%Qc) in
      Ok (determinant (product tmp (transpose tmp)))
  | _ => Undefined
  end.
