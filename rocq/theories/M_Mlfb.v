(** Model of the lattices with neighbors and of their maximal lattice free bodies, which the analysis of lattices is about: LatticeAlgs.h,
    LatticeAlgs.cpp.  The edges between bodies are in M_Mlfb2, planes in M_Planes, indices
    and degrees in M_Index.  Not modelled: sequences and the checks of them. *)
From Coq Require Import List Arith Bool ZArith QArith Qcanon.
Import ListNotations.
From Verif Require Import M_Term M_Slice M_Msm M_Api M_Names M_IO M_Matrix M_Lattice M_SatBinom.
Local Open Scope Z_scope.
Local Notation length := List.length.

(** ** GrobLat *)
(** SatBinomIdeal.cpp:368-373 getMatrix *)
Definition y_matrix (vars : nat) (gens : list (list Z)) : matrix :=
  build (length gens) vars (fun gen var => Q2Qc (inject_Z (entry (nth gen gens []) var))).
(** LatticeAlgs.h:144-157 and 159-172 getSum; [None] is the neighbor that is not valid *)
Definition getSum (h : matrix) (a b : nat) : option nat :=
  find (fun row => forallb (fun col => Qc_eq_bool (get h a col + get h b col)%Qc (get h row col)) (seq 0 (colCount h))) (seq 0 (rowCount h)).
(** An assignment to an element of a vector of truth values *)
Definition mark (rows : list bool) (row : nat) : list bool := firstn row rows ++ true :: skipn (S row) rows.
(** LatticeAlgs.cpp:1550-1554, the inner loop *)
Definition mark_sums (h : matrix) (rows : list bool) (i : nat) : list bool :=
  fold_left (fun rows j => match getSum h i j with Some row => mark rows row | None => rows end) (seq 0 i) rows.
(** LatticeAlgs.h:225-232: _y is not stored here *)
Record grobLat := GL { gl_h : matrix; gl_isSumRow : list bool; gl_nonSums : list nat }.
(** LatticeAlgs.cpp:1533-1561: the result of solve is not looked at, and _h is empty if there is no solution. *)
Definition newGrobLat (mat : matrix) (vars : nat) (gens : list (list Z)) : res grobLat :=
  LET sol := solve (transpose mat) (transpose (y_matrix vars gens)) IN
  let h := match sol with Some s => transpose s | None => Matrix 0 0 [] end in
  let count := length gens in
  let rows := fold_left (mark_sums h) (seq 0 count) (repeat false count) in
  Ok (GL h rows (filter (fun i => negb (nth i rows false)) (seq 0 count))).

(** ** Pushing out a facet *)
(** LatticeAlgs.cpp:151-166 and 174-186: the loops over the neighbors.  [test]: the inner loop is not left; [value n] is the entry that is
    compared, and leastEntry that of onFacet, which is [None] at first *)
Definition push_out (test : nat -> bool) (value : nat -> Z) (count : nat) : option nat :=
  fold_left (fun onFacet n =>
    if test n then match onFacet with None => Some n | Some m => if value m >? value n then Some n else onFacet end else onFacet) (seq 0 count) None.
(** LatticeAlgs.cpp:145-168 pushOutFacetPositive *)
Definition pushOutFacetPositive (vars : nat) (gens : list (list Z)) (facet : nat) (rhs : list Z) : option nat :=
  push_out (fun n => forallb (fun i => (i =? facet)%nat || negb (entry (nth n gens []) i >=? entry rhs i)) (seq 0 vars))
    (fun n => entry (nth n gens []) facet) (length gens).
(** LatticeAlgs.cpp:170-188 pushOutFacetZero *)
Definition pushOutFacetZero (vars : nat) (gens : list (list Z)) (rhs : list Z) : option nat :=
  push_out (fun n => forallb (fun i => negb (- entry (nth n gens []) i >=? entry rhs i)) (seq 1 (vars - 1)))
    (fun n => - entry (nth n gens []) 0) (length gens).

(** ** Bodies *)
(** LatticeAlgs.cpp:1402-1408: a neighbor that is valid is zero, [None], or a row *)
Definition neighbor := option nat.
(** LatticeAlgs.cpp:1424-1431 getY *)
Definition getY (gens : list (list Z)) (p : neighbor) (i : nat) : Z := match p with None => 0 | Some row => entry (nth row gens []) i end.
(** LatticeAlgs.cpp:190-200 computeRhs *)
Definition computeRhs (vars : nat) (gens : list (list Z)) (points : list neighbor) : list Z :=
  map (fun var => fold_left (fun r p => if r <? getY gens p var then getY gens p var else r) (tl points) (getY gens (hd None points) var)) (seq 0 vars).
(** std::swap of two elements *)
Definition swap_at {A} (d : A) (l : list A) (i j : nat) : list A :=
  map (fun k => nth (if (k =? i)%nat then j else if (k =? j)%nat then i else k) l d) (seq 0 (length l)).
(** LatticeAlgs.cpp:213-216, the inner loop; [test p i]: the point is on the facet *)
Definition order_row (test : neighbor -> nat -> bool) (points : list neighbor) (i : nat) : list neighbor :=
  fold_left (fun points p => if test (nth p points None) i then swap_at None points i p else points) (seq 0 (length points)) points.
(** LatticeAlgs.cpp:202-217 reset: the points in a new order.  The rest of reset is left out. *)
Definition resetPoints (vars : nat) (gens : list (list Z)) (points : list neighbor) : list neighbor :=
  let rhs := computeRhs vars gens points in
  if (length points =? vars)%nat then fold_left (order_row (fun p i => getY gens p i =? entry rhs i)) (seq 0 vars) points else points.
Record mlfb := MLFB { ml_rhs : list Z; ml_points : list neighbor }.
(** BigTermRecorder.cpp: the terms that are consumed *)
Definition recorded (es : list iev) : list (list Z) := flat_map (fun e => match e with Consume v => [v] | _ => [] end) es.
(** LatticeAlgs.cpp:259-266: the points of a body *)
Definition body_points (vars : nat) (initial : list (list Z)) (rhs : list Z) : list neighbor :=
  None :: map Some (filter (fun gen => forallb (fun var => negb (entry (nth gen initial []) var >? entry rhs var)) (seq 0 vars)) (seq 0 (length initial))).
(** LatticeAlgs.cpp:255-270, the loop.  [OtherError]: the CHECK fails and the program ends. *)
Fixpoint make_bodies (vars : nat) (gens initial rhses : list (list Z)) : res (list mlfb) :=
  match rhses with
  | [] => Ok []
  | rhs :: rhses' =>
      let points := body_points vars initial rhs in
      let computed := computeRhs vars gens points in
      if list_eq_dec Z.eq_dec rhs computed then
        LET bodies := make_bodies vars gens initial rhses' IN Ok (MLFB computed (resetPoints vars gens points) :: bodies)
      else OtherError
  end.
(** LatticeAlgs.cpp:239-270, the first part of computeMlfbs.  The parameters of the slice algorithm are the defaults; [rnd] is rand().
    [Undefined]: the run is not finished. *)
Definition computeMlfbs (rnd : nat -> nat) (vars : nat) (gens : list (list Z)) : res (list mlfb) :=
  let initial := getInitialIdeal vars gens in
  match computeIrreducibleDecomposition default_config rnd (setIdeal false vars (map (map Z.to_nat) initial)) with
  | None => Undefined
  | Some es => make_bodies vars gens initial (recorded es)
  end.
