(** Model of the edges between maximal lattice free bodies: LatticeAlgs.cpp. *)
From Coq Require Import List Arith Bool ZArith.
Import ListNotations.
From Verif Require Import M_IO M_SatBinom M_Mlfb.
Local Open Scope Z_scope.
Local Notation length := List.length.

(** LatticeAlgs.cpp:284-292: the facet of the point with the least first entry *)
Definition minInitialFacet (gens : list (list Z)) (b : mlfb) : nat :=
  snd (fold_left (fun (s : Z * nat) i => let (minInitial, facet) := s in
         let initial := getY gens (nth i (ml_points b) None) 0 in
         if minInitial >? initial then (initial, i) else s) (seq 0 (length (ml_points b))) (0, 0%nat)).
(** LatticeAlgs.cpp:310-329, the loop over the points.  [None]: not generic; the state is secondLargest and facetPushOut, and [Some None] if
    facetPushOut is the greatest size_t *)
Definition scan_point (gens : list (list Z)) (b : mlfb) (pushIn : nat) (s : option (option (Z * nat))) (neigh : nat) : option (option (Z * nat)) :=
  match s with
  | None => None
  | Some state =>
      let value := if (neigh =? 0)%nat then 0 else getY gens (nth neigh (ml_points b) None) pushIn in
      if (neigh =? pushIn)%nat then (if negb (value =? entry (ml_rhs b) pushIn) then None else s)
      else
        match state with
        | None => Some (Some (value, neigh))
        | Some (secondLargest, _) => if value =? secondLargest then None else if value >? secondLargest then Some (Some (value, neigh)) else s
        end
  end.
Definition scan_points (vars : nat) (gens : list (list Z)) (b : mlfb) (pushIn : nat) : option (option (Z * nat)) :=
  fold_left (scan_point gens b pushIn) (seq 0 vars) (Some None).
(** An assignment to an entry of a vector *)
Definition assign (v : list Z) (i : nat) (z : Z) : list Z := map (fun k => if (k =? i)%nat then z else entry v k) (seq 0 (length v)).
(** LatticeAlgs.cpp:365-394: the right hand side of the body on the other side; [None]: not generic *)
Definition other_side (vars : nat) (gens : list (list Z)) (b : mlfb) (pushIn : nat) (secondLargest : Z) (pushOut : nat) : option (list Z) :=
  let rhs := assign (ml_rhs b) pushIn secondLargest in
  let rhs := if (pushIn =? 0)%nat then map (fun i => entry rhs i - getY gens (nth pushOut (ml_points b) None) i) (seq 0 vars) else rhs in
  if (pushOut =? 0)%nat then
    match pushOutFacetZero vars gens rhs with
    | None => None
    | Some new => Some (assign (map (fun i => entry rhs i + entry (nth new gens []) i) (seq 0 vars)) 0 0)
    end
  else
    match pushOutFacetPositive vars gens pushOut rhs with
    | None => None
    | Some new => Some (assign rhs pushOut (entry (nth new gens []) pushOut))
    end.
(** LatticeAlgs.cpp:398-404: the first body with this right hand side; it is told by its position *)
Fixpoint find_body (bodies : list mlfb) (rhs : list Z) (mi : nat) : option nat :=
  match bodies with
  | [] => None
  | b :: bodies' => if list_eq_dec Z.eq_dec (ml_rhs b) rhs then Some mi else find_body bodies' rhs (S mi)
  end.
(** LatticeAlgs.cpp:306-407, one facet.  The result is the body in edges and the facet in edgeHitsFacet.  [Undefined]: there is one variable only,
    and a point is read that does not exist *)
Definition scarf_edge (vars : nat) (gens : list (list Z)) (bodies : list mlfb) (b : mlfb) (pushIn : nat) : res (option (nat * nat)) :=
  match scan_points vars gens b pushIn with
  | None => Ok None
  | Some None => Undefined
  | Some (Some (secondLargest, pushOut)) =>
      match other_side vars gens b pushIn secondLargest pushOut with
      | None => Ok None
      | Some rhs => match find_body bodies rhs 0 with None => Ok None | Some mi => Ok (Some (mi, pushOut)) end
      end
  end.
(** LatticeAlgs.cpp:306-411, the loop over the facets.  [None]: not generic, and there are no edges *)
Fixpoint scarf_edges (vars : nat) (gens : list (list Z)) (bodies : list mlfb) (b : mlfb) (facets : list nat) : res (option (list (nat * nat))) :=
  match facets with
  | [] => Ok (Some [])
  | pushIn :: facets' =>
      LET e := scarf_edge vars gens bodies b pushIn IN
      match e with
      | None => Ok None
      | Some e => LET es := scarf_edges vars gens bodies b facets' IN Ok (match es with None => None | Some es => Some (e :: es) end)
      end
  end.
(** LatticeAlgs.cpp:277-412, the loop over the bodies: the edges of a body.  The degree is in M_Index. *)
Definition body_edges (vars : nat) (gens : list (list Z)) (bodies : list mlfb) (b : mlfb) : res (option (list (nat * nat))) :=
  if negb (length (ml_points b) =? vars)%nat then Ok None else scarf_edges vars gens bodies b (seq 0 vars).
