(** Linear algebra over the rational numbers: what the results of the functions on matrices are compared with. A vector is a function from
    indices to numbers of which only the indices below its length matter. *)
From Coq Require Import List Arith Bool ZArith QArith Qcanon Znumtheory.
Import ListNotations.
From Verif Require Import M_Matrix.
Local Open Scope nat_scope.

Notation vector := (nat -> Qc).

(** f 0 + ... + f (n - 1) *)
Fixpoint sum (n : nat) (f : nat -> Qc) : Qc := match n with 0 => 0%Qc | S n' => (sum n' f + f n')%Qc end.

(** f 0 * ... * f (n - 1) *)
Fixpoint prod (n : nat) (f : nat -> Qc) : Qc := match n with 0 => 1%Qc | S n' => (prod n' f * f n')%Qc end.

(** A matrix has as many rows and columns as it says *)
Definition well_formed (m : matrix) : Prop :=
  length (entries m) = rowCount m /\ forall row, In row (entries m) -> length row = colCount m.

(** Two matrices are the same *)
Definition same (a b : matrix) : Prop :=
  rowCount a = rowCount b /\ colCount a = colCount b /\ forall r c, r < rowCount a -> c < colCount a -> get a r c = get b r c.

(** The vector w of length n is a combination of the k vectors v *)
Definition in_span (k : nat) (v : nat -> vector) (n : nat) (w : vector) : Prop :=
  exists x : vector, forall c, c < n -> w c = sum k (fun i => (x i * v i c)%Qc).
Definition in_row_space (m : matrix) (w : vector) : Prop := in_span (rowCount m) (fun r c => get m r c) (colCount m) w.
Definition in_col_space (m : matrix) (w : vector) : Prop := in_span (colCount m) (fun c r => get m r c) (rowCount m) w.

(** No combination of the k vectors v of length n is 0, but for the trivial one *)
Definition independent (k : nat) (v : nat -> vector) (n : nat) : Prop :=
  forall x : vector, (forall c, c < n -> sum k (fun i => (x i * v i c)%Qc) = 0%Qc) -> forall i, i < k -> x i = 0%Qc.

(** The vectors of length n for which V holds are a space of dimension k *)
Definition dimension (n : nat) (V : vector -> Prop) (k : nat) : Prop :=
  exists v, independent k v n /\ forall w, V w <-> in_span k v n w.

(** m w = 0 *)
Definition in_kernel (m : matrix) (w : vector) : Prop :=
  forall r, r < rowCount m -> sum (colCount m) (fun c => (get m r c * w c)%Qc) = 0%Qc.

(** p = a b *)
Definition is_product (p a b : matrix) : Prop :=
  colCount a = rowCount b /\ rowCount p = rowCount a /\ colCount p = colCount b /\
  forall r c, r < rowCount a -> c < colCount b -> get p r c = sum (colCount a) (fun i => (get a r i * get b i c)%Qc).

Definition is_identity (m : matrix) (n : nat) : Prop :=
  rowCount m = n /\ colCount m = n /\ forall r c, r < n -> c < n -> get m r c = if r =? c then 1%Qc else 0%Qc.

(** a b = 1 = b a, for matrices with n rows and n columns *)
Definition inverses (n : nat) (a b : matrix) : Prop :=
  (exists p, is_product p a b /\ is_identity p n) /\ (exists p, is_product p b a /\ is_identity p n).

(** Row echelon form: the first k rows are not 0, row i has its first entry in column p i, each row has it to the right of the one above, and all
    other rows are 0 *)
Definition echelon (m : matrix) (k : nat) (p : nat -> nat) : Prop :=
  k <= rowCount m /\
  (forall i, i < k -> p i < colCount m /\ get m i (p i) <> 0%Qc /\ forall c, c < p i -> get m i c = 0%Qc) /\
  (forall i j, i < j -> j < k -> p i < p j) /\
  (forall i c, k <= i -> i < rowCount m -> c < colCount m -> get m i c = 0%Qc).

(** Reduced row echelon form: also each first entry is 1 and the only one in its column *)
Definition reduced (m : matrix) (k : nat) (p : nat -> nat) : Prop :=
  echelon m k p /\ forall i j, i < k -> j < k -> get m j (p i) = if j =? i then 1%Qc else 0%Qc.

(** The determinant of the n by n matrix f, by expansion along the first column *)
Definition skip (i r : nat) : nat := if r <? i then r else S r.
Fixpoint det (n : nat) (f : nat -> nat -> Qc) : Qc :=
  match n with
  | 0 => 1%Qc
  | S n' => sum n (fun i => ((if Nat.even i then 1 else - (1)) * f i 0%nat * det n' (fun r c => f (skip i r) (S c)))%Qc)
  end.

(** A vector of integers with no common divisor but 1 and -1 *)
Definition integral (q : Qc) : Prop := Qden q = 1%positive.
Definition primitive (n : nat) (v : vector) : Prop :=
  (forall r, r < n -> integral (v r)) /\ forall d : Z, (forall r, r < n -> (d | Qnum (v r))%Z) -> (d | 1)%Z.

(** The rows 0, a, o and b of m go around a parallelogram: the row o is opposite to the row 0 *)
Definition corners (m : matrix) (a o b : nat) : Prop :=
  rowCount m = 4 /\ (forall i, In i [a; o; b] <-> In i [1; 2; 3]) /\
  forall c, c < colCount m -> (get m 0 c + get m o c)%Qc = (get m a c + get m b c)%Qc.

(** The square of the area between the vectors u and v of length n: |u|^2 |v|^2 - (u v)^2 *)
Definition dot (n : nat) (u v : vector) : Qc := sum n (fun i => (u i * v i)%Qc).
Definition area_sq (n : nat) (u v : vector) : Qc := (dot n u u * dot n v v - dot n u v * dot n u v)%Qc.
