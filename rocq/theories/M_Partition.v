(** Model of Partition.cpp, Projection.cpp and IndependenceSplitter.cpp. *)
From Coq Require Import List Arith Bool ZArith Lia.
Import ListNotations.
From Verif Require Import M_Term M_Ideal M_Slice.

(** Partition.h: the array _partitions (negative entries are roots), its size, and the
    number of classes. *)
Record partition := mkPart { p_arr : list Z; p_count : nat }.
Definition p_size (p : partition) : nat := length (p_arr p).

Definition arr_get (a : list Z) (i : nat) : Z := nth i a 0%Z.
Fixpoint arr_set (a : list Z) (i : nat) (z : Z) : list Z :=
  match a, i with
  | [], _ => []
  | _ :: a', 0 => z :: a'
  | x :: a', S i' => x :: arr_set a' i' z
  end.

(** Partition.cpp:43-53 reset *)
Definition p_reset (size : nat) : partition := mkPart (repeat (-1)%Z size) size.

(** Partition.cpp:110-117 getRoot with path compression.  The fuel is the size of
    the array; [None] is fuel exhaustion (a cycle in the parent links). *)
Fixpoint getRoot_loop (fuel : nat) (a : list Z) (i : nat) : option (list Z * nat) :=
  match fuel with
  | 0 => None
  | S fuel' =>
      if (0 <=? arr_get a i)%Z then
        match getRoot_loop fuel' a (Z.to_nat (arr_get a i)) with
        | Some (a', r) => Some (arr_set a' i (Z.of_nat r), r)
        | None => None
        end
      else Some (a, i)
  end.
Definition p_getRoot (p : partition) (i : nat) : option (partition * nat) :=
  match getRoot_loop (S (p_size p)) (p_arr p) i with
  | Some (a, r) => Some (mkPart a (p_count p), r)
  | None => None
  end.

(** Partition.cpp:55-73 join *)
Definition p_join (p : partition) (i j : nat) : option (partition * bool) :=
  match p_getRoot p i with
  | None => None
  | Some (p1, rootI) =>
      match p_getRoot p1 j with
      | None => None
      | Some (p2, rootJ) =>
          if rootI =? rootJ then Some (p2, false)
          else
            let a := p_arr p2 in
            let a1 := arr_set a rootI (arr_get a rootI + (arr_get a rootJ + 1))%Z in
            let a2 := arr_set a1 rootJ (Z.of_nat rootI) in
            Some (mkPart a2 (p_count p2 - 1), true)
      end
  end.

(** Partition.cpp:87-89 getSizeOfClassOf *)
Definition p_getSizeOfClassOf (p : partition) (i : nat) : option (partition * Z) :=
  match p_getRoot p i with
  | None => None
  | Some (p1, r) => Some (p1, (- arr_get (p_arr p1) r)%Z)
  end.

(** Partition.cpp:119-123 addToSet *)
Definition p_addToSet (p : partition) (i : nat) : option partition :=
  match p_getRoot p i with
  | None => None
  | Some (p1, r) => Some (mkPart (arr_set (p_arr p1) r (arr_get (p_arr p1) r - 1)%Z) (p_count p1))
  end.

(** Partition.cpp:91-103 getSetSize.  [None] also when there is no such set (the code asserts).
    "i == getRoot(i)" is modelled by "the entry of i is negative", which is what
    getRoot tests first and leaves the array unchanged when true; when false, getRoot(i) != i. *)
Definition p_roots (p : partition) : list nat :=
  filter (fun i => (arr_get (p_arr p) i <? 0)%Z) (seq 0 (p_size p)).
Definition p_getSetSize (p : partition) (set : nat) : option Z :=
  match nth_error (p_roots p) set with
  | Some i => Some (- (arr_get (p_arr p) i + 1))%Z
  | None => None
  end.

(** Projection.cpp:32-55 reset(partition, number): the list of offsets. *)
Fixpoint class_members (p : partition) (root : nat) (is : list nat) : option (list nat) :=
  match is with
  | [] => Some []
  | i :: is' =>
      match p_getRoot p i with
      | None => None
      | Some (_, r) =>
          match class_members p root is' with
          | None => None
          | Some l => Some (if r =? root then i :: l else l)
          end
      end
  end.
Definition proj_reset (p : partition) (number : nat) : option (list nat) :=
  match nth_error (p_roots p) number with
  | Some root => class_members p root (seq 0 (p_size p))
  | None => None
  end.

(** Projection.cpp:75-79 project *)
Definition proj_project (offsets : list nat) (from : term) : term :=
  map (fun o => from @ o) offsets.

(** Projection.cpp:81-85 inverseProject: overwrites the entries of [to] at the offsets. *)
Fixpoint proj_inverse (n : nat) (offsets : list nat) (to from : term) : term :=
  match offsets, from with
  | o :: offsets', e :: from' => proj_inverse n offsets' (t_set n to o e) from'
  | _, _ => to
  end.

(** Projection.cpp:92-106 domainVarHasProjection *)
Definition proj_has (offsets : list nat) (var : nat) : bool :=
  existsb (fun o => o =? var) offsets.

(** ** IndependenceSplitter.cpp *)

(** 40-49: one generator of the ideal; inner loop over the later variables.
    Outcomes: [None] error, [Some None] "return false", [Some (Some p)] go on. *)
Fixpoint an_vars (p : partition) (g : term) (first : nat) (vars : list nat) : option (option partition) :=
  match vars with
  | [] => Some (Some p)
  | v :: vars' =>
      if 0 <? g @ v then
        match p_join p first v with
        | None => None
        | Some (p1, joined) =>
            if joined && (p_count p1 =? 1) then Some None
            else an_vars p1 g first vars'
        end
      else an_vars p g first vars'
  end.
Fixpoint an_ideal (n : nat) (p : partition) (I : ideal) : option (option partition) :=
  match I with
  | [] => Some (Some p)
  | g :: I' =>
      let first := t_firstNonZero n g in
      if first =? n then Some None
      else
        match p_addToSet p first with
        | None => None
        | Some p1 =>
            match an_vars p1 g first (seq (S first) (n - S first)) with
            | Some (Some p2) => an_ideal n p2 I'
            | r => r
            end
        end
  end.

(** 51-59: the generators of the subtract ideal. *)
Fixpoint an_subvars (p : partition) (g : term) (first : nat) (vars : list nat) : option partition :=
  match vars with
  | [] => Some p
  | v :: vars' =>
      if 0 <? g @ v then
        match p_join p first v with
        | None => None
        | Some (p1, _) => an_subvars p1 g first vars'
        end
      else an_subvars p g first vars'
  end.
Fixpoint an_sub (n : nat) (p : partition) (S : ideal) : option partition :=
  match S with
  | [] => Some p
  | g :: S' =>
      let first := t_firstNonZero n g in
      match an_subvars p g first (seq (Datatypes.S first) (n - Datatypes.S first)) with
      | None => None
      | Some p1 => an_sub n p1 S'
      end
  end.

(** 72-77: the variable in the class with most generators. *)
Fixpoint an_maxSet (p : partition) (maxSet : nat) (sets : list nat) : option (partition * nat) :=
  match sets with
  | [] => Some (p, maxSet)
  | set :: sets' =>
      match p_getSizeOfClassOf p set with
      | None => None
      | Some (p1, a) =>
          match p_getSizeOfClassOf p1 maxSet with
          | None => None
          | Some (p2, b) =>
              if (b <? a)%Z then
                match p_getRoot p2 set with
                | None => None
                | Some (p3, r) => an_maxSet p3 r sets'
                end
              else an_maxSet p2 maxSet sets'
          end
      end
  end.

(** 79-82: the last variable not in the class of maxSet. *)
Fixpoint an_nonMax (p : partition) (maxSet nonMax : nat) (sets : list nat) : option (partition * nat) :=
  match sets with
  | [] => Some (p, nonMax)
  | set :: sets' =>
      match p_getRoot p maxSet with
      | None => None
      | Some (p1, a) =>
          match p_getRoot p1 set with
          | None => None
          | Some (p2, b) =>
              an_nonMax p2 maxSet (if a =? b then nonMax else set) sets'
          end
      end
  end.

(** 85-87: join all other classes. *)
Fixpoint an_joinRest (p : partition) (maxSet nonMax : nat) (sets : list nat) : option partition :=
  match sets with
  | [] => Some p
  | set :: sets' =>
      match p_getRoot p set with
      | None => None
      | Some (p1, a) =>
          match p_getRoot p1 maxSet with
          | None => None
          | Some (p2, b) =>
              if a =? b then an_joinRest p2 maxSet nonMax sets'
              else match p_join p2 set nonMax with
                   | None => None
                   | Some (p3, _) => an_joinRest p3 maxSet nonMax sets'
                   end
          end
      end
  end.

(** IndependenceSplitter.cpp:32-96 analyze together with getBigProjection / getRestProjection
    (24-30).  [None] error; [Some None]: not independent; [Some (Some (big, rest))]: the
    offsets of the two projections. *)
Definition an_countBig (p : partition) : nat :=
  length (filter (fun k => match p_getSetSize p k with Some z => (2 <=? z)%Z | None => false end)
                 (seq 0 (p_count p))).
Definition indep_analyze (s : slice) : option (option (list nat * list nat)) :=
  let n := s_n s in
  match an_ideal n (p_reset n) (s_I s) with
  | None => None
  | Some None => Some None
  | Some (Some p) =>
      match an_sub n p (s_S s) with
      | None => None
      | Some p1 =>
          if p_count p1 =? 1 then Some None
          else if an_countBig p1 <? 2 then Some None
          else
            let p2 :=
              if 2 <? p_count p1 then
                match an_maxSet p1 0 (seq 1 (n - 1)) with
                | None => None
                | Some (pa, maxSet) =>
                    match an_nonMax pa maxSet 0 (seq 0 n) with
                    | None => None
                    | Some (pb, nonMax) => an_joinRest pb maxSet nonMax (seq 0 n)
                    end
                end
              else Some p1 in
            match p2 with
            | None => None
            | Some p3 =>
                match p_getSetSize p3 0, p_getSetSize p3 1 with
                | Some a, Some b =>
                    let big := if (b <? a)%Z then 0 else 1 in
                    match proj_reset p3 big, proj_reset p3 (1 - big) with
                    | Some l, Some r => Some (Some (l, r))
                    | _, _ => None
                    end
                | _, _ => None
                end
            end
      end
  end.
