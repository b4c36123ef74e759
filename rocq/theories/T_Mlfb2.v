(** Theorems about the edges between maximal lattice free bodies. *)
From Coq Require Import List Arith Bool ZArith Lia.
Import ListNotations.
From Verif Require Import M_Api M_IO M_Mlfb M_Mlfb2 Spec_SatBinom Spec_Mlfb Spec_Mlfb2 P_Mlfb2 P_Mlfb4 P_Mlfb5 T_Api T_Slice T_Mlfb.
Local Notation length := List.length.
Local Open Scope Z_scope.

(** C132: an edge leads through a facet to the body on its other side.  [Ok None]: the lattice is not generic there, and no edges are told *)
Theorem C132_edges : forall rnd n gens bodies b, vectors n gens -> one_sided n gens -> computeMlfbs rnd n gens = Ok bodies -> In b bodies -> closed n gens ->
  exists r, body_edges n gens bodies b = Ok r /\
  match r with
  | None => True
  | Some es => length es = n /\ forall i, (i < n)%nat -> exists mi hit b', nth_error es i = Some (mi, hit) /\ nth_error bodies mi = Some b' /\
      next_body n gens (map (point_of n gens) (ml_points b)) i hit (ml_rhs b')
  end.
Proof. exact (fun rnd n gens bodies b => edges_right rnd n gens bodies b default_is_legal). Qed.
Print Assumptions C132_edges.
Example C132_closed : closed 3 sided.
Proof.
  intros a b s A B [_ S]. pose proof (S 0%nat ltac:(lia)) as S0. pose proof (S 1%nat ltac:(lia)) as S1. pose proof (S 2%nat ltac:(lia)) as S2.
  destruct A as [<-|[<-|[<-|[]]]], B as [<-|[<-|[<-|[]]]]; cbn [nth] in S0, S1, S2;
    first [exists [-3; 2; 1]; (split; [simpl; auto|]); intros i Hi; destruct i as [|[|[|i]]]; cbn [nth]; lia
          |exists [-1; -1; 2]; (split; [simpl; auto|]); intros i Hi; destruct i as [|[|[|i]]]; cbn [nth]; lia
          |exists [-2; 3; -1]; (split; [simpl; auto|]); intros i Hi; destruct i as [|[|[|i]]]; cbn [nth]; lia].
Qed.
Example C132_case : match computeMlfbs no_random 3 sided with
  | Ok bodies => map (body_edges 3 sided bodies) bodies = [Ok (Some [(1, 2); (1, 0); (1, 1)]); Ok (Some [(0, 1); (0, 2); (0, 0)])]%nat
  | _ => False
  end.
Proof. vm_compute. reflexivity. Qed.

(** C133: if the entries of the points for the facet are all different, and the point that is hit is not the origin, then there is an edge *)
Theorem C133_same_side : forall rnd n gens bodies b i, vectors n gens -> one_sided n gens -> computeMlfbs rnd n gens = Ok bodies -> In b bodies ->
  length (ml_points b) = n -> (1 <= i < n)%nat ->
  (forall j k, (j < n)%nat -> (k < n)%nat -> j <> k ->
     coordinate (nth j (map (point_of n gens) (ml_points b)) []) i <> coordinate (nth k (map (point_of n gens) (ml_points b)) []) i) ->
  (exists j, (j < n)%nat /\ j <> i /\ 0 < coordinate (nth j (map (point_of n gens) (ml_points b)) []) i) ->
  exists e, scarf_edge n gens bodies b i = Ok (Some e).
Proof. exact (fun rnd n gens bodies b i => same_side_right rnd n gens bodies b i default_is_legal). Qed.
Print Assumptions C133_same_side.
Example C133_case : match computeMlfbs no_random 3 sided with
  | Ok ((b :: _) as bodies) => length (ml_points b) = 3%nat /\ map (fun p => coordinate (point_of 3 sided p) 2) (ml_points b) = [0; 1; 2] /\ scarf_edge 3 sided bodies b 2 = Ok (Some (1, 1)%nat)
  | _ => False
  end.
Proof. vm_compute. repeat split; reflexivity. Qed.

(** C134: the facet of the point that is the lowest in the first entry *)
Theorem C134_min_initial : forall rnd n gens bodies b, vectors n gens -> one_sided n gens -> computeMlfbs rnd n gens = Ok bodies -> In b bodies ->
  length (ml_points b) = n ->
  first_least n (fun _ => True) (fun j => coordinate (nth j (map (point_of n gens) (ml_points b)) []) 0) (Some (minInitialFacet gens b)).
Proof. exact (fun rnd n gens bodies b => min_initial_right rnd n gens bodies b default_is_legal). Qed.
Print Assumptions C134_min_initial.
Example C134_case : match computeMlfbs no_random 3 sided with Ok bodies => map (minInitialFacet sided) bodies = [1; 2]%nat | _ => False end.
Proof. vm_compute. reflexivity. Qed.
