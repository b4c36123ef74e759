(** Theorems about sequences of bodies. *)
From Coq Require Import List Arith Bool Lia.
Import ListNotations.
From Verif Require Import M_IO M_Seq Spec_Seq P_Seq.
Local Open Scope nat_scope.
Local Notation length := List.length.

(** C142: if the edges can be gone both ways then each position of a sequence has a next one and a previous one.  The next one is entered through
    the facet that is hit from the facet that is neither kept nor the one of entry.  Going on and going back undo each other. *)
Theorem C142_next_and_previous : forall edges p, both_ways edges -> position edges p ->
  (exists q, nextInSeq edges p = Ok q /\ position edges q /\ sp_fix1 q < sp_fix2 q /\ step_to edges p q) /\
  (sp_fix1 p < sp_fix2 p ->
    (exists q, nextInSeq edges p = Ok q /\ prevInSeq edges q = Ok p) /\ (exists q, prevInSeq edges p = Ok q /\ nextInSeq edges q = Ok p)).
Proof. exact next_and_previous. Qed.
Print Assumptions C142_next_and_previous.
(** Three bodies, with edges that hit facets of other numbers *)
Definition three_bodies : list (list (nat * nat)) :=
  [[(1, 1); (1, 2); (2, 0); (2, 1)]; [(2, 3); (0, 0); (0, 1); (2, 2)]; [(0, 2); (0, 3); (1, 3); (1, 0)]].
Example C142_both_ways : both_ways three_bodies.
Proof.
  intros m f M F. cbn in M. destruct m as [|[|[|m]]]; [| | |lia]; (destruct f as [|[|[|[|f]]]]; [| | | |lia]); cbn; do 2 eexists; (split; [reflexivity|]); cbn; repeat split; lia.
Qed.
Example C142_case : position three_bodies (SeqPos 0 1 3 0) /\ nextInSeq three_bodies (SeqPos 0 1 3 0) = Ok (SeqPos 2 1 3 0) /\
  nextInSeq three_bodies (SeqPos 2 1 3 0) = Ok (SeqPos 1 1 2 3) /\ prevInSeq three_bodies (SeqPos 1 1 2 3) = Ok (SeqPos 2 1 3 0).
Proof. split; [unfold position, kept; cbn; lia|vm_compute; auto]. Qed.

(** C143: the sequence from a pivot through a facet other than its flat one always ends.  It is a walk from the pivot, its last body is the first
    one on the walk that is a pivot again. *)
Theorem C143_pivot_sequence : forall edges pivot body facet flatFacet, both_ways edges -> body < length edges -> facet < 4 -> flatFacet < 4 -> facet <> flatFacet ->
  pivot body = true ->
  exists fuel first middle last, (forall fuel', fuel <= fuel' -> pivotSeq fuel' edges pivot body facet flatFacet = Ok (first :: middle ++ [last])) /\ walk edges (first :: middle ++ [last]) /\
    sp_mlfb first = body /\ sp_from first = flatFacet /\ ~ kept first facet /\ pivot (sp_mlfb last) = true /\ forall q, In q middle -> pivot (sp_mlfb q) = false.
Proof. exact pivot_sequence. Qed.
Print Assumptions C143_pivot_sequence.
Example C143_case : match pivotSeq 20 three_bodies (fun b => b =? 0) 0 2 0 with
  | Ok l => map sp_mlfb l = [0; 2; 1; 2; 0] | _ => False end.
Proof. vm_compute. auto. Qed.
