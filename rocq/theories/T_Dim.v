(** Properties C15 and C16: dimension and codimension. *)
From Coq Require Import List Arith ZArith Lia.
Import ListNotations.
From Verif Require Import Spec Spec_Run Spec_Api Spec_Dim M_Term M_Ideal M_Slice M_Msm M_Api M_Dim P_Dim P_Dim2 T_Slice T_Api.

(** ** C15 *)
Theorem C15_dimension : forall n I, in_ring n I -> exists d, api_dimension n I = Some d /\ is_dimension n I d.
Proof. exact p_dimension. Qed.
Print Assumptions C15_dimension.

Theorem C15_dimension_unique : forall n I d d', is_dimension n I d -> is_dimension n I d' -> in_ring n I -> d = d'.
Proof. exact dimension_unique. Qed.
Print Assumptions C15_dimension_unique.

Definition graph5 : list mono := [[1;2;0;0;0];[0;1;3;0;0];[0;0;1;1;0];[0;0;0;7;1];[1;0;0;0;1];[1;1;1;0;0]].
Example C15_nonvacuous : in_ring 5 graph5 /\ api_dimension 5 graph5 = Some 2%Z /\ independent_set 5 graph5 [0; 2] /\
  api_dimension 5 [] = Some 5%Z /\ api_dimension 2 [[0;0];[1;3]] = Some (-1)%Z /\ api_dimension 0 [] = Some 0%Z.
Proof.
  split; [repeat constructor|]. split; [vm_compute; reflexivity|]. split; [|vm_compute; auto].
  split; [repeat constructor; simpl; lia|]. split; [simpl; lia|]. intros g Hg. simpl in Hg.
  destruct Hg as [<-|[<-|[<-|[<-|[<-|[<-|[]]]]]]];
    [exists 1|exists 1|exists 3|exists 3|exists 4|exists 1]; simpl; repeat split; lia.
Qed.

(** ** C16 *)
Theorem C16_codimension : forall n I, in_ring n I -> exists d,
  api_dimension n I = Some d /\ is_dimension n I d /\ api_codimension n I = Some (Z.of_nat n - d)%Z.
Proof. exact p_codimension. Qed.
Print Assumptions C16_codimension.

Theorem C16_codimension_one : forall n I, in_ring n I -> in_ideal I (repeat 0 n) -> api_codimension n I = Some (Z.of_nat n + 1)%Z.
Proof. exact p_codimension_one. Qed.
Print Assumptions C16_codimension_one.

Theorem C16_least_component : forall c rnd n I, legal_config c -> in_ring n I -> ~ in_ideal I (repeat 0 n) ->
  exists D k, api_irrDecomIdeals c rnd n I = Some (concat (map (fun d => block n (irreducible_generators n d)) D)) /\
    in_ring n D /\ (forall m, length m = n -> (in_ideal I m <-> forall d, In d D -> in_irreducible d m)) /\
    api_codimension n I = Some (Z.of_nat k) /\ (exists d, In d D /\ support_size d = k) /\ forall d, In d D -> k <= support_size d.
Proof. exact p_codim_components. Qed.
Print Assumptions C16_least_component.

Example C16_nonvacuous : api_codimension 5 graph5 = Some 3%Z /\ api_codimension 2 [[0;0];[1;3]] = Some 3%Z /\
  api_irrDecomIdeals default_config no_random 3 [[2;1;0];[0;0;4]] = Some (concat (map (fun d => block 3 (irreducible_generators 3 d)) [[2;0;4];[0;1;4]])) /\
  api_codimension 3 [[2;1;0];[0;0;4]] = Some 2%Z.
Proof. vm_compute. auto. Qed.
