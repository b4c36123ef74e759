(** Model of the index and the degree of a maximal lattice free body, and of the numbers of bodies of each type: LatticeAlgs.h, LatticeAlgs.cpp. *)
From Coq Require Import List Arith Bool ZArith QArith Qcanon.
Import ListNotations.
From Verif Require Import M_IO M_Matrix M_SatBinom M_Mlfb M_Planes.
Local Open Scope nat_scope.
Local Notation length := List.length.

(** LatticeAlgs.cpp:1410-1417 getH *)
Definition getH (h : matrix) (p : neighbor) (i : nat) : Qc := match p with None => 0%Qc | Some row => get h row i end.
(** LatticeAlgs.cpp:219-227: the index; it is 0 if it is not set, as that is the value of a new mpq_class *)
Definition body_index (h : matrix) (points : list neighbor) : Qc :=
  if length points - 1 =? colCount h then determinant (build (length points - 1) (colCount h) (fun row var => getH h (nth (row + 1) points None) var)) else 0%Qc.
(** LatticeAlgs.cpp:229-236 *)
Definition body_isParallelogram (h : matrix) (points : list neighbor) : bool :=
  if length points =? 4 then isParallelogram (build 4 (colCount h) (fun point var => getH h (nth point points None) var)) else false.
(** The assignment of an mpq_class to an mpz_class rounds towards 0. *)
Definition truncated (q : Qc) : Z := Z.quot (Qnum q) (Zpos (Qden q)).
(** LatticeAlgs.cpp:272-274 and 294-301: the degree; it is 0 if it is not set, as that is the value of a new mpz_class.  That the null space is
    computed only once for all bodies is left out. *)
Definition dotDegree (mat : matrix) (vars : nat) (rhs : list Z) : res Z :=
  LET basis := nullSpace mat IN
  let basis := transpose basis in
  if (rowCount basis =? 1) && (vars =? colCount basis) then
    Ok (fold_left (fun d r => fold_left (fun d c => truncated (Q2Qc (inject_Z d) + get basis r c * Q2Qc (inject_Z (entry rhs c)))%Qc) (seq 0 (colCount basis)) d)
          (seq 0 (rowCount basis)) 0%Z)
  else Ok 0%Z.

(** std::map<size_t, size_t>: pairs in the order of the keys.  typeCounts[type] += 1, which adds a pair with count 0 first if there is none *)
Fixpoint increment (type : nat) (counts : list (nat * nat)) : list (nat * nat) :=
  match counts with
  | [] => [(type, 1)]
  | (t, c) :: counts' => if type <? t then (type, 1) :: counts else if type =? t then (t, c + 1) :: counts' else (t, c) :: increment type counts'
  end.
(** LatticeAlgs.cpp:558-559 *)
Definition typeCounts (places : list place) (bodies : list mlfb) : list (nat * nat) := fold_left (fun counts b => increment (getType places b) counts) bodies [].
(** LatticeAlgs.cpp:1447-1453 getTypeCount *)
Definition getTypeCount (counts : list (nat * nat)) (type : nat) : nat := match find (fun p => fst p =? type) counts with None => 0 | Some p => snd p end.
(** LatticeAlgs.cpp:1455-1460 getMaxType *)
Definition getMaxType (counts : list (nat * nat)) : nat := match counts with [] => 0 | _ => fst (last counts (0, 0)) end.
(** LatticeAlgs.h:274-276 hasFlat *)
Definition hasFlat (counts : list (nat * nat)) : bool := 0 <? getTypeCount counts 4.
