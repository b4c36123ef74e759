(** Theorems about lattices with neighbors and their maximal lattice free bodies. *)
From Coq Require Import List Arith Bool ZArith QArith Qcanon Lia Sorted.
Import ListNotations.
From Verif Require Import M_Api M_IO M_Matrix M_Mlfb Spec_Matrix Spec_SatBinom Spec_Mlfb P_Mlfb2 P_Mlfb3 T_Api T_Slice.
Local Notation length := List.length.
Local Open Scope Z_scope.

(** The matrix of these integers *)
Definition zmat (cols : nat) (rows : list (list Z)) : matrix := Matrix (length rows) cols (map (map (fun z => Q2Qc (inject_Z z))) rows).

(** C128: which neighbors are sums of two others.  The rows of [mat] are a basis, and [gl_h] are the coordinates of the neighbors in it. *)
Theorem C128_sums : forall mat n gens, vectors n gens -> NoDup gens -> colCount mat = n -> independent (rowCount mat) (fun r c => get mat r c) n ->
  (forall g, In g gens -> in_row_space mat (rational g)) ->
  exists lat, newGrobLat mat n gens = Ok lat /\
    (rowCount (gl_h lat) = length gens /\ colCount (gl_h lat) = rowCount mat /\
     forall k c, (k < length gens)%nat -> (c < n)%nat -> rational (nth k gens []) c = sum (rowCount mat) (fun i => (get (gl_h lat) k i * get mat i c)%Qc)) /\
    (forall a b, (a < length gens)%nat -> (b < length gens)%nat ->
      match getSum (gl_h lat) a b with
      | Some k => (k < length gens)%nat /\ is_sum n (nth a gens []) (nth b gens []) (nth k gens [])
      | None => forall k, (k < length gens)%nat -> ~ is_sum n (nth a gens []) (nth b gens []) (nth k gens [])
      end) /\
    (length (gl_isSumRow lat) = length gens /\ forall k, nth k (gl_isSumRow lat) false = true <-> sum_of_two n gens k) /\
    StronglySorted lt (gl_nonSums lat) /\ forall k, In k (gl_nonSums lat) <-> (k < length gens)%nat /\ ~ sum_of_two n gens k.
Proof. exact sums_right. Qed.
Print Assumptions C128_sums.
Definition basis := zmat 3 [[1; 0; -1]; [0; 1; -1]].
Definition three_neighbors := [[1; 0; -1]; [1; 1; -2]; [0; 1; -1]].
Example C128_case : vectors 3 three_neighbors /\ NoDup three_neighbors /\ colCount basis = 3%nat /\ independent (rowCount basis) (fun r c => get basis r c) 3 /\
  (forall g, In g three_neighbors -> in_row_space basis (rational g)) /\
  match newGrobLat basis 3 three_neighbors with Ok lat => gl_isSumRow lat = [false; true; false] /\ gl_nonSums lat = [0; 2]%nat /\ getSum (gl_h lat) 0 2 = Some 1%nat /\ getSum (gl_h lat) 0 1 = None | _ => False end.
Proof.
  split; [repeat constructor|]. split; [repeat constructor; simpl; intuition discriminate|]. split; [reflexivity|]. split; [|split].
  - intros x H i Hi. cbn in Hi. pose proof (H 0%nat ltac:(lia)) as H0. pose proof (H 1%nat ltac:(lia)) as H1. cbn [basis zmat rowCount length sum get entries nth map] in H0, H1.
    change (Q2Qc (inject_Z 0)) with 0%Qc in *. change (Q2Qc (inject_Z 1)) with 1%Qc in *.
    destruct i as [|[|i]]; [rewrite <- H0; ring|rewrite <- H1; ring|lia].
  - intros g Hg. cbn in Hg. destruct Hg as [<-|[<-|[<-|[]]]]; [exists (fun i => if (i =? 0)%nat then 1%Qc else 0%Qc)|exists (fun _ => 1%Qc)|exists (fun i => if (i =? 0)%nat then 0%Qc else 1%Qc)];
      intros c Hc; destruct c as [|[|[|c]]]; try (cbn in Hc; lia); vm_compute; f_equal; apply Eqdep_dec.UIP_dec; decide equality; try apply Z.eq_dec; apply Pos.eq_dec.
  - vm_compute. repeat split; reflexivity.
Qed.
(** Neighbors that are not in the lattice: it is not seen that there are no coordinates, and that one neighbor is the sum of two others *)
Theorem C128_unchecked_refuted : exists mat n gens lat, vectors n gens /\ NoDup gens /\ colCount mat = n /\ independent (rowCount mat) (fun r c => get mat r c) n /\
  newGrobLat mat n gens = Ok lat /\ sum_of_two n gens 2 /\ nth 2 (gl_isSumRow lat) false = false /\ In 2%nat (gl_nonSums lat).
Proof.
  exists (zmat 2 [[1; 0]]), 2%nat, [[0; 1]; [0; 2]; [0; 3]]. eexists. split; [repeat constructor|]. split; [repeat constructor; simpl; intuition discriminate|]. split; [reflexivity|]. split; [|split; [vm_compute; reflexivity|split; [|split]]].
  - intros x H i Hi. cbn in Hi. pose proof (H 0%nat ltac:(lia)) as H0. cbn [zmat rowCount length sum get entries nth map] in H0.
    change (Q2Qc (inject_Z 1)) with 1%Qc in *. destruct i as [|i]; [rewrite <- H0; ring|lia].
  - exists 0%nat, 1%nat, [0; 1], [0; 2], [0; 3]. split; [lia|]. repeat (split; [reflexivity|]). intros i Hi. destruct i as [|[|i]]; cbn in *; lia.
  - reflexivity.
  - simpl. auto.
Qed.
Print Assumptions C128_unchecked_refuted.

(** C129: pushing out a facet of a body finds the first neighbor that stops it *)
Theorem C129_push_out : forall n gens rhs,
  (forall facet, first_least (length gens) (fun k => forall i, (i < n)%nat -> i <> facet -> coordinate (nth k gens []) i < coordinate rhs i)
    (fun k => coordinate (nth k gens []) facet) (pushOutFacetPositive n gens facet rhs)) /\
  first_least (length gens) (fun k => forall i, (1 <= i < n)%nat -> - coordinate (nth k gens []) i < coordinate rhs i)
    (fun k => - coordinate (nth k gens []) 0) (pushOutFacetZero n gens rhs).
Proof. exact (fun n gens rhs => conj (fun facet => positive_right n gens facet rhs) (zero_right n gens rhs)). Qed.
Print Assumptions C129_push_out.

(** C130, C131: the bodies, and the points of a body.  The origin is the point [None], and [Some k] the neighbor at the position [k]. *)
Theorem C130_bodies : forall rnd n gens, vectors n gens -> one_sided n gens -> exists bodies, computeMlfbs rnd n gens = Ok bodies /\
  NoDup (map ml_rhs bodies) /\ (forall c, In c (map ml_rhs bodies) <-> maximal_free n gens c) /\
  forall b, In b bodies -> NoDup (ml_points b) /\
    forall p, In p (ml_points b) <-> p = None \/ exists k, p = Some k /\ (k < length gens)%nat /\ forall i, (i < n)%nat -> coordinate (nth k gens []) i <= coordinate (ml_rhs b) i.
Proof.
  exact (fun rnd n gens V O => match bodies_right rnd n gens default_is_legal V O with
    ex_intro _ bodies (conj E (conj N (conj M P))) => ex_intro _ bodies (conj E (conj N (conj M (fun b B => conj (proj1 (P b B)) (proj1 (proj2 (P b B))))))) end).
Qed.
Print Assumptions C130_bodies.
Theorem C131_points : forall rnd n gens bodies, vectors n gens -> one_sided n gens -> computeMlfbs rnd n gens = Ok bodies ->
  forall b, In b bodies -> length (ml_points b) = n -> forall i, (i < n)%nat -> on_facet_only n (ml_rhs b) (point_of n gens (nth i (ml_points b) None)) i.
Proof. exact (fun rnd n gens bodies => points_right rnd n gens bodies default_is_legal). Qed.
Print Assumptions C131_points.
(** The third neighbor is the sum of the first two; there are two bodies with three points each *)
Definition sided := [[-1; -1; 2]; [-2; 3; -1]; [-3; 2; 1]].
Example C130_case : vectors 3 sided /\ one_sided 3 sided /\
  computeMlfbs no_random 3 sided = Ok [MLFB [0; 2; 2] [None; Some 2%nat; Some 0%nat]; MLFB [0; 3; 1] [None; Some 1%nat; Some 2%nat]].
Proof.
  split; [repeat constructor|]. split; [|vm_compute; reflexivity]. split; [discriminate|]. split.
  - intros g [<-|[<-|[<-|[]]]]; cbn; (split; [lia|]); [exists 2%nat|exists 1%nat|exists 1%nat]; cbn; lia.
  - intros i Hi. destruct i as [|[|[|i]]]; try lia; [exists [-2; 3; -1]|exists [-1; -1; 2]]; (split; [simpl; auto|]); intros j Hj Nj; destruct j as [|[|[|j]]]; cbn; lia.
Qed.
Example C129_case : pushOutFacetPositive 3 sided 1 [0; 0; 2] = Some 2%nat /\ pushOutFacetPositive 3 sided 1 [0; 0; 1] = Some 1%nat /\
  pushOutFacetPositive 3 sided 2 [0; 2; 0] = Some 0%nat /\ pushOutFacetZero 3 sided [0; 2; 2] = Some 0%nat /\ pushOutFacetZero 3 sided [0; -3; 2] = None.
Proof. vm_compute. repeat split; reflexivity. Qed.
(** No neighbor is positive in the second coordinate only, and the program ends with an error *)
Example C130_not_bounded : computeMlfbs no_random 3 [[-1; 1; 1]; [-1; -1; 2]] = OtherError.
Proof. vm_compute. reflexivity. Qed.
