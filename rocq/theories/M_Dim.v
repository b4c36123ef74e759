(** Model of SizeMaxIndepSetAlg.cpp, IdealFacade::computeDimension and Frobby::dimension / codimension. *)
From Coq Require Import List Arith Bool ZArith.
Import ListNotations.
From Verif Require Import M_Term M_Ideal M_Api.

(** SizeMaxIndepSetAlg.h:84-88 VarState *)
Inductive var_state := IsMaybeInSet | IsNotInSet | IsInSet.
Definition st_get (st : list var_state) (v : nat) : var_state := nth v st IsMaybeInSet.
Fixpoint st_set (st : list var_state) (v : nat) (x : var_state) : list var_state :=
  match st, v with
  | [], _ => []
  | _ :: st', 0 => x :: st'
  | y :: st', S v' => y :: st_set st' v' x
  end.

(** SizeMaxIndepSetAlg.cpp:45-54 (part of run): the array _edges; each generator is encoded as the size of
    its support followed by its variables. *)
Definition mi_edges (n : nat) (I : ideal) : list nat :=
  flat_map (fun g => t_sizeOfSupport n g :: filter (fun v => negb (g @ v =? 0)) (seq 0 n)) I.

(** In the functions below a position in _edges is the part of the array from there on; [] is _endPos. *)

(** SizeMaxIndepSetAlg.cpp:78-91 isIndependentIncludingMaybe.  [None]: out of fuel. *)
Fixpoint mi_indepMaybe (fuel : nat) (edges : list nat) (st : list var_state) : option bool :=
  match edges with
  | [] => Some true
  | len :: rest =>
      match fuel with
      | 0 => None
      | S fuel' =>
          if existsb (fun v => match st_get st v with IsNotInSet => true | _ => false end) (firstn len rest)
          then mi_indepMaybe fuel' (skipn len rest) st
          else Some false
      end
  end.

(** SizeMaxIndepSetAlg.cpp:93-104 couldBeDependence: [None] for false, otherwise maybeCount. *)
Fixpoint mi_couldBe (edge : list nat) (st : list var_state) : option nat :=
  match edge with
  | [] => Some 0
  | v :: edge' =>
      match st_get st v with
      | IsNotInSet => None
      | IsMaybeInSet => match mi_couldBe edge' st with Some k => Some (S k) | None => None end
      | IsInSet => mi_couldBe edge' st
      end
  end.

(** SizeMaxIndepSetAlg.cpp:186-189 restoring the state from _undo *)
Definition mi_undo (undo : list nat) (st : list var_state) : list var_state :=
  fold_left (fun s v => st_set s v IsMaybeInSet) undo st.

(** SizeMaxIndepSetAlg.cpp:160-204 the loop over the variables of the edge; [rec] is the recursive call in line
    170, from _state and _minExcluded to their new values.  _undo[excluded], which the code asserts to be
    empty on entry, is the local list [undo]. *)
Fixpoint mi_loop (rec : list var_state -> nat -> option (list var_state * nat))
  (vars : list nat) (st : list var_state) (minEx maybeCount : nat) (undo : list nat) : option (list var_state * nat) :=
  match vars with
  | [] => Some (st, minEx)
  | v :: vars' =>
      match st_get st v with
      | IsMaybeInSet =>
          match rec (st_set st v IsNotInSet) minEx with
          | None => None
          | Some (st2, min2) =>
              if maybeCount =? 1 then Some (mi_undo undo (st_set st2 v IsMaybeInSet), min2)
              else mi_loop rec vars' (st_set st2 v IsInSet) min2 (maybeCount - 1) (v :: undo)
          end
      | _ => mi_loop rec vars' st minEx maybeCount undo
      end
  end.

(** SizeMaxIndepSetAlg.cpp:106-207 recurse.  [entry] tells whether the two tests at the start of the function
    (111-125) are made; with [false] the call stands for a further round of the loop 130-206.  The result is
    _state and _minExcluded afterwards.  [None]: out of fuel. *)
Fixpoint mi_recurse (fuel : nat) (entry : bool) (edges : list nat) (st : list var_state) (excluded minEx : nat)
  : option (list var_state * nat) :=
  match fuel with
  | 0 => None
  | S fuel' =>
      if entry && (minEx <=? excluded) then Some (st, minEx)
      else if entry && (excluded + 1 =? minEx) then
        match mi_indepMaybe fuel edges st with
        | None => None
        | Some b => Some (st, if b then excluded else minEx)
        end
      else
        match edges with
        | [] => Some (st, excluded)
        | len :: rest =>
            let edge := firstn len rest in
            let next := skipn len rest in
            match mi_couldBe edge st with
            | None => mi_recurse fuel' false next st excluded minEx
            | Some maybeCount =>
                if maybeCount =? 0 then Some (st, minEx)
                else
                  mi_loop (fun st m => mi_recurse fuel' true next st (excluded + 1) m) edge st minEx maybeCount []
            end
        end
  end.

(** SizeMaxIndepSetAlg.cpp:23-76 run and getMaxIndepSetSize *)
Definition mi_size (n : nat) (I : ideal) : option Z :=
  if (length I =? 1) && i_containsIdentity n I then Some (-1)%Z
  else
    let edges := mi_edges n (i_sortReverseLex n I) in
    match mi_recurse (S (length edges)) true edges (repeat IsMaybeInSet n) 0 n with
    | None => None
    | Some (_, minEx) => Some (Z.of_nat n - Z.of_nat minEx)%Z
    end.

(** IdealFacade.cpp:82-118 computeDimension with codimension = false and squareFreeAndMinimal = [sqf] *)
Definition computeDimension (n : nat) (I : big_ideal) (sqf : bool) : option Z :=
  let radical := map (fun g => tabulate n (fun v => if g @ v =? 0 then 0 else 1)) I in
  mi_size n (if sqf then radical else i_minimize n radical).
(** the same with codimension = true *)
Definition computeCodimension (n : nat) (I : big_ideal) (sqf : bool) : option Z :=
  match computeDimension n I sqf with Some d => Some (Z.of_nat n - d)%Z | None => None end.

(** frobby.cpp:451-457 dimension *)
Definition api_dimension (n : nat) (I : big_ideal) : option Z := computeDimension n I false.
(** frobby.cpp:445-449 codimension *)
Definition api_codimension (n : nat) (I : big_ideal) : option Z :=
  match api_dimension n I with Some d => Some (Z.of_nat n - d)%Z | None => None end.
