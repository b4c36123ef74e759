(** Model of the sequences of bodies at a plane: LatticeAlgs.h, LatticeAlgs.cpp.  A body is told by its position on the list of bodies in place of
    a pointer, and [edges] has for each body and facet the body and the facet that getEdge and getHitsFacet give (M_Mlfb2). *)
From Coq Require Import List Arith Bool.
Import ListNotations.
From Verif Require Import M_IO.
Local Open Scope nat_scope.
Local Notation length := List.length.

(** LatticeAlgs.h:69-82 SeqPos *)
Record seqPos := SeqPos { sp_mlfb : nat; sp_fix1 : nat; sp_fix2 : nat; sp_from : nat }.
(** getEdge and getHitsFacet *)
Definition edge_of (edges : list (list (nat * nat))) (body facet : nat) : nat * nat := nth facet (nth body edges []) (0, 0).
(** LatticeAlgs.cpp:1329-1343, the constructor.  A facet that is not set is 0; for different facets below 4 each is set. *)
Definition newSeqPos (body nextFacet previousFacet : nat) : seqPos :=
  let fix1 := fold_left (fun r f => if negb (f =? previousFacet) && negb (f =? nextFacet) then f else r) (seq 0 4) 0 in
  let fix2 := fold_left (fun r f => if negb (f =? previousFacet) && negb (f =? nextFacet) && negb (f =? fix1) then f else r) (seq 0 4) 0 in
  SeqPos body fix1 fix2 previousFacet.
(** LatticeAlgs.cpp:1345-1351 getForwardFacet; also the loops at 416-423 and 1358-1362.  [None]: the loop does not end, or the ASSERT fails *)
Definition getForwardFacet (pos : seqPos) : option nat :=
  find (fun i => negb (i =? sp_fix1 pos) && negb (i =? sp_fix2 pos) && negb (i =? sp_from pos)) (seq 0 4).
(** LatticeAlgs.cpp:1357-1367 getReverse *)
Definition getReverse (pos : seqPos) : res seqPos :=
  match getForwardFacet pos with None => Undefined | Some to => Ok (SeqPos (sp_mlfb pos) (sp_fix1 pos) (sp_fix2 pos) to) end.
(** LatticeAlgs.cpp:1369-1372 order *)
Definition order (pos : seqPos) : seqPos :=
  if sp_fix2 pos <? sp_fix1 pos then SeqPos (sp_mlfb pos) (sp_fix2 pos) (sp_fix1 pos) (sp_from pos) else pos.
(** LatticeAlgs.cpp:415-439 nextInSeq *)
Definition nextInSeq (edges : list (list (nat * nat))) (pos : seqPos) : res seqPos :=
  match getForwardFacet pos with
  | None => Undefined
  | Some pushIn =>
      let (body, hits) := edge_of edges (sp_mlfb pos) pushIn in
      Ok (order (if sp_fix1 pos =? hits then SeqPos body pushIn (sp_fix2 pos) hits
                 else if sp_fix2 pos =? hits then SeqPos body (sp_fix1 pos) pushIn hits
                 else SeqPos body (sp_fix1 pos) (sp_fix2 pos) hits))
  end.
(** LatticeAlgs.cpp:441-443 prevInSeq *)
Definition prevInSeq (edges : list (list (nat * nat))) (pos : seqPos) : res seqPos :=
  LET pos := getReverse pos IN LET pos := nextInSeq edges pos IN getReverse pos.
(** LatticeAlgs.cpp:897-900, the loop.  [pivot] is isPivot *)
Fixpoint seq_loop (fuel : nat) (edges : list (list (nat * nat))) (pivot : nat -> bool) (pos : seqPos) : res (list seqPos) :=
  match fuel with
  | 0 => OutOfFuel
  | S fuel => LET next := nextInSeq edges pos IN
      if pivot (sp_mlfb next) then Ok [next] else LET rest := seq_loop fuel edges pivot next IN Ok (next :: rest)
  end.
(** LatticeAlgs.cpp:895-900: one of the sequences of computePivotSeqs *)
Definition pivotSeq (fuel : nat) (edges : list (list (nat * nat))) (pivot : nat -> bool) (body facet flatFacet : nat) : res (list seqPos) :=
  let pos := newSeqPos body facet flatFacet in
  LET rest := seq_loop fuel edges pivot pos IN Ok (pos :: rest).
