(** What is asked about sequences of bodies.  Each body has the facets 0 to 3. *)
From Coq Require Import List Arith Bool.
Import ListNotations.
From Verif Require Import M_Seq.
Local Open Scope nat_scope.
Local Notation length := List.length.

(** The edges lead to bodies, from one facet to another one, and each can be gone back. *)
Definition both_ways (edges : list (list (nat * nat))) : Prop :=
  forall body facet, body < length edges -> facet < 4 -> exists body' facet',
    edge_of edges body facet = (body', facet') /\ body' < length edges /\ facet' < 4 /\ facet' <> facet /\ edge_of edges body' facet' = (body, facet).
(** A position in a sequence has a body and three different facets: two that are kept and the one through which the body was entered. *)
Definition kept (p : seqPos) (facet : nat) : Prop := facet = sp_fix1 p \/ facet = sp_fix2 p.
Definition position (edges : list (list (nat * nat))) (p : seqPos) : Prop :=
  sp_mlfb p < length edges /\ sp_fix1 p < 4 /\ sp_fix2 p < 4 /\ sp_from p < 4 /\ sp_fix1 p <> sp_fix2 p /\ ~ kept p (sp_from p).
(** The body is left through the fourth facet.  If the facet that is hit on the other side has the number of one that is kept then that one
    has the number of the facet through which the body is left from now on. *)
Definition step_to (edges : list (list (nat * nat))) (p q : seqPos) : Prop :=
  exists out hit, out < 4 /\ ~ kept p out /\ out <> sp_from p /\ edge_of edges (sp_mlfb p) out = (sp_mlfb q, hit) /\ sp_from q = hit /\
    forall x, kept q x <-> (kept p x /\ x <> hit) \/ (x = out /\ kept p hit).
Inductive walk (edges : list (list (nat * nat))) : list seqPos -> Prop :=
| walk_one p : walk edges [p]
| walk_step p q l : step_to edges p q -> walk edges (q :: l) -> walk edges (p :: q :: l).
