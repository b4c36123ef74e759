(** Model of the planes through the origin that are given by non-flat double triangles: LatticeAlgs.h, LatticeAlgs.cpp. *)
From Coq Require Import List Arith Bool ZArith QArith Qcanon.
Import ListNotations.
From Verif Require Import M_IO M_Matrix M_SatBinom M_Mlfb.
Local Open Scope nat_scope.
Local Notation length := List.length.

(** LatticeAlgs.h:58-63 NeighborPlace, without NoPlace *)
Inductive place := InPlane | UnderPlane | OverPlane.
(** LatticeAlgs.cpp:530-532 *)
Definition rowAB (h : matrix) (a b : nat) : matrix := copyRow (copyRow (zero_matrix 2 (colCount h)) 0 h a) 1 h b.
(** LatticeAlgs.cpp:543-548 *)
Definition place_of (value : Qc) : place := match (value ?= 0)%Qc with Lt => UnderPlane | Gt => OverPlane | Eq => InPlane end.
(** LatticeAlgs.cpp:530-550.  [Undefined]: the null space is zero, and an entry is read that does not exist *)
Definition plane_places (h : matrix) (count a b : nat) : res (list place) :=
  LET basis := nullSpace (rowAB h a b) IN
  let prod := product h basis in
  if colCount prod =? 0 then Undefined else Ok (map (fun gen => place_of (get prod gen 0)) (seq 0 count)).
(** LatticeAlgs.cpp:519-528: the pairs that give a plane, with their sum *)
Definition plane_pair (vars : nat) (gens : list (list Z)) (h : matrix) (gen1 gen2 : nat) : list (nat * nat * nat) :=
  match getSum h gen1 gen2 with
  | None => []
  | Some sum =>
      if negb (isPointFreeBody vars gens (nth gen1 gens []) (nth sum gens [])) then []
      else if negb (isPointFreeBody vars gens (nth gen2 gens []) (nth sum gens [])) then []
      else if isPointFreeBody3 vars gens (nth gen1 gens []) (nth gen2 gens []) (nth sum gens []) then []
      else [(gen1, gen2, sum)]
  end.
(** LatticeAlgs.cpp:511-554, the two loops of computePlanes.  What is stored with a plane is given by the other functions here and in
    M_Index. *)
Definition computePlanes (vars : nat) (gens : list (list Z)) (h : matrix) : list (nat * nat * nat) :=
  let count := length gens in
  flat_map (fun gen1 => flat_map (plane_pair vars gens h gen1) (seq (gen1 + 1) (count - (gen1 + 1)))) (seq 0 count).
(** LatticeAlgs.cpp:1462-1467 getPlace; [places] is neighborPlace *)
Definition getPlace (places : list place) (p : neighbor) : place := match p with None => InPlane | Some row => nth row places UnderPlane end.
(** LatticeAlgs.cpp:1469-1471 inPlane *)
Definition inPlane (places : list place) (p : neighbor) : bool := match getPlace places p with InPlane => true | _ => false end.
(** LatticeAlgs.cpp:1511-1517 getType *)
Definition getType (places : list place) (b : mlfb) : nat := fold_left (fun type p => if inPlane places p then S type else type) (ml_points b) 0.
(** LatticeAlgs.cpp:1473-1476 isPivot, 1487-1490 is22, 1492-1494 isFlat *)
Definition isPivot (places : list place) (b : mlfb) : bool := (getType places b =? 1) || (getType places b =? 3).
Definition is22 (places : list place) (b : mlfb) : bool := getType places b =? 2.
Definition isFlat (places : list place) (b : mlfb) : bool := getType places b =? 4.

(** ** Tri *)
(** LatticeAlgs.h:295-300 hasPoint *)
Definition neighbor_eqb (p q : neighbor) : bool := match p, q with None, None => true | Some a, Some b => a =? b | _, _ => false end.
Definition hasPoint (b : mlfb) (p : neighbor) : bool := existsb (fun q => neighbor_eqb q p) (ml_points b).
(** LatticeAlgs.cpp:571-579: the bodies on the side of [a]; those on the side of b are found in the same way *)
Definition sideMlfbs (bodies : list mlfb) (a sum : nat) : list mlfb := filter (fun b => hasPoint b (Some a) && hasPoint b (Some sum)) bodies.
(** LatticeAlgs.cpp:592-602: the loop over the coordinates; the result is (interior, boundary) *)
Fixpoint classify (g rhs : list Z) (is : list nat) (interior boundary : bool) : bool * bool :=
  match is with
  | [] => (interior, boundary)
  | i :: is' =>
      if (entry g i =? entry rhs i)%Z then classify g rhs is' false boundary
      else if (entry g i >? entry rhs i)%Z then (false, false)
      else classify g rhs is' interior boundary
  end.
(** LatticeAlgs.cpp:581-607: (_interior, _boundary) *)
Definition tri_neighbors (vars : nat) (gens : list (list Z)) (a b sum : nat) : list neighbor * list neighbor :=
  let rhs := computeRhs vars gens [None; Some a; Some b; Some sum] in
  fold_left (fun (s : list neighbor * list neighbor) n => let (ins, bnd) := s in
    let (i, d) := classify (nth n gens []) rhs (seq 0 (length rhs)) true true in
    if i then (ins ++ [Some n], bnd) else if d then (ins, bnd ++ [Some n]) else s) (seq 0 (length gens)) ([], [None]).
