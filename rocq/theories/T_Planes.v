(** Theorems about the planes of double triangles. *)
From Coq Require Import List Arith Bool ZArith QArith Qcanon Lia Sorted.
Import ListNotations.
From Verif Require Import M_Api M_IO M_Matrix M_SatBinom M_Mlfb M_Planes Spec_Matrix Spec_SatBinom Spec_Mlfb Spec_Planes P_Planes4 T_Api T_Slice T_Mlfb.
Local Notation length := List.length.
Local Open Scope Z_scope.

(** C135: the planes are those of the double triangles with a neighbor in the interior of the body of both triangles, each once.  The rows of
    [mat] are a basis of the lattice. *)
Theorem C135_planes : forall mat n gens lat, vectors n gens -> NoDup gens -> colCount mat = n -> independent (rowCount mat) (fun r c => get mat r c) n ->
  (forall g, In g gens -> in_row_space mat (rational g)) -> newGrobLat mat n gens = Ok lat ->
  NoDup (computePlanes n gens (gl_h lat)) /\ forall a b s, In (a, b, s) (computePlanes n gens (gl_h lat)) <-> double_triangle n gens a b s.
Proof. exact planes_right. Qed.
Print Assumptions C135_planes.
(** The third neighbor is the sum of the first two *)
Definition zero_sums := zmat 4 [[-1; 1; 0; 0]; [-1; 0; 1; 0]; [-1; 0; 0; 1]].
Definition six := [[-1; 1; 2; -2]; [-1; -1; 0; 2]; [-2; 0; 2; 0]; [-1; 0; 0; 1]; [-1; 1; 0; 0]; [-1; 0; 2; -1]].
Example C135_case : vectors 4 six /\ NoDup six /\ colCount zero_sums = 4%nat /\ rowCount zero_sums = 3%nat /\ independent (rowCount zero_sums) (fun r c => get zero_sums r c) 4 /\
  (forall g, In g six -> in_row_space zero_sums (rational g)) /\
  match newGrobLat zero_sums 4 six with Ok lat => computePlanes 4 six (gl_h lat) = [(0, 1, 2)%nat] | _ => False end.
Proof.
  split; [repeat constructor|]. split; [repeat constructor; simpl; intuition discriminate|]. split; [reflexivity|]. split; [reflexivity|]. split; [|split].
  - intros x H i Hi. cbn in Hi. pose proof (H 1%nat ltac:(lia)) as H0. pose proof (H 2%nat ltac:(lia)) as H1. pose proof (H 3%nat ltac:(lia)) as H2. cbn [zero_sums zmat rowCount length sum get entries nth map] in H0, H1, H2.
    change (Q2Qc (inject_Z 0)) with 0%Qc in *. change (Q2Qc (inject_Z 1)) with 1%Qc in *.
    destruct i as [|[|[|i]]]; [rewrite <- H0; ring|rewrite <- H1; ring|rewrite <- H2; ring|lia].
  - intros g Hg. exists (fun i => rational g (S i)). cbn in Hg.
    destruct Hg as [<-|[<-|[<-|[<-|[<-|[<-|[]]]]]]]; intros c Hc; destruct c as [|[|[|[|c]]]]; try (cbn in Hc; lia); apply Qc_is_canon; vm_compute; reflexivity.
  - vm_compute. reflexivity.
Qed.

(** C136: the neighbors in the interior and on the boundary of the body of both triangles, and the bodies at the two sides.  The origin, [None],
    is on the boundary. *)
Theorem C136_triangles : forall n gens a b s,
  (let points := [nth a gens []; nth b gens []; nth s gens []] in
   let (interior, boundary) := tri_neighbors n gens a b s in
   (NoDup interior /\ forall p, In p interior <-> exists k, p = Some k /\ (k < length gens)%nat /\ in_interior n points (nth k gens [])) /\
   (NoDup boundary /\ forall p, In p boundary <-> p = None \/ exists k, p = Some k /\ (k < length gens)%nat /\ in_body n points (nth k gens []) /\ ~ in_interior n points (nth k gens []))) /\
  forall rnd bodies, vectors n gens -> one_sided n gens -> (a < length gens)%nat -> (s < length gens)%nat -> computeMlfbs rnd n gens = Ok bodies ->
    forall c, In c (sideMlfbs bodies a s) <-> In c bodies /\ forall k, In k [a; s] -> forall i, (i < n)%nat -> coordinate (nth k gens []) i <= coordinate (ml_rhs c) i.
Proof. exact (fun n gens a b s => triangles_right n gens a b s default_is_legal). Qed.
Print Assumptions C136_triangles.
Example C136_case : tri_neighbors 4 six 0 1 2 = ([Some 3], [None; Some 0; Some 1; Some 2; Some 4; Some 5])%nat /\
  vectors 3 sided /\ one_sided 3 sided /\ match computeMlfbs no_random 3 sided with Ok bodies => map ml_rhs (sideMlfbs bodies 0 2) = [[0; 2; 2]] /\ map ml_rhs (sideMlfbs bodies 1 2) = [[0; 3; 1]] | _ => False end.
Proof. split; [vm_compute; reflexivity|]. split; [exact (proj1 C130_case)|]. split; [exact (proj1 (proj2 C130_case))|]. vm_compute. split; reflexivity. Qed.

(** C137: in a lattice of dimension 3, which neighbors are in the plane through the origin and two neighbors that are not on a line with it,
    which are on the same side of it, and how many points of a body are in it *)
Theorem C137_places : forall mat n gens lat a b, vectors n gens -> NoDup gens -> colCount mat = n -> independent (rowCount mat) (fun r c => get mat r c) n ->
  (forall g, In g gens -> in_row_space mat (rational g)) -> newGrobLat mat n gens = Ok lat -> rowCount mat = 3%nat ->
  (a < length gens)%nat -> (b < length gens)%nat -> not_on_a_line n (nth a gens []) (nth b gens []) ->
  exists places, plane_places (gl_h lat) (length gens) a b = Ok places /\ length places = length gens /\
    (forall k, (k < length gens)%nat -> (nth k places UnderPlane = InPlane <-> on_plane n (nth a gens []) (nth b gens []) (nth k gens []))) /\
    (forall k l, (k < length gens)%nat -> (l < length gens)%nat -> nth k places UnderPlane <> InPlane -> nth l places UnderPlane <> InPlane ->
      (nth k places UnderPlane = nth l places UnderPlane <-> same_side n (nth a gens []) (nth b gens []) (nth k gens []) (nth l gens []))) /\
    forall c, NoDup (ml_points c) -> (forall k, In (Some k) (ml_points c) -> (k < length gens)%nat) ->
      exists l, NoDup l /\ (forall p, In p l <-> In p (ml_points c) /\ on_plane n (nth a gens []) (nth b gens []) (point_of n gens p)) /\
        getType places c = length l /\ (isPivot places c = true <-> length l = 1%nat \/ length l = 3%nat) /\ (is22 places c = true <-> length l = 2%nat) /\
        (isFlat places c = true <-> length l = 4%nat).
Proof. exact plane_right. Qed.
Print Assumptions C137_places.
Example C137_case : not_on_a_line 4 (nth 0 six []) (nth 1 six []) /\
  match newGrobLat zero_sums 4 six with
  | Ok lat => match plane_places (gl_h lat) 6 0 1 with
      | Ok places => places = [InPlane; InPlane; InPlane; OverPlane; OverPlane; UnderPlane] /\ getType places (MLFB [] [None; Some 0; Some 3; Some 4]%nat) = 2%nat /\ is22 places (MLFB [] [None; Some 0; Some 3; Some 4]%nat) = true
      | _ => False end
  | _ => False end.
Proof.
  split; [|vm_compute; repeat split; reflexivity]. intros x H i Hi. pose proof (H 2%nat ltac:(lia)) as H0. pose proof (H 1%nat ltac:(lia)) as H1. cbn [six nth sum] in H0, H1. unfold two, rational in H0, H1. cbn [Nat.eqb nth] in H0, H1.
  change (Q2Qc (inject_Z 0)) with 0%Qc in *. change (Q2Qc (inject_Z 1)) with 1%Qc in *. change (Q2Qc (inject_Z (-1))) with (- (1))%Qc in *. change (Q2Qc (inject_Z 2)) with (1 + 1)%Qc in *.
  assert (X0 : x 0%nat = 0%Qc). { assert (E : ((1 + 1) * x 0%nat)%Qc = 0%Qc) by (rewrite <- H0; ring). apply Qcmult_integral in E. destruct E as [E|E]; [discriminate|auto]. }
  destruct i as [|[|i]]; [auto| |lia]. transitivity (x 0%nat - (0 + x 0%nat * 1 + x 1%nat * - (1)))%Qc; [ring|]. rewrite H1, X0. ring.
Qed.
(** In a lattice of dimension 2 the function reads an entry that does not exist, though the plane is asked for. *)
Theorem C137_dimension_refuted : exists mat n gens lat a b s, vectors n gens /\ NoDup gens /\ colCount mat = n /\ independent (rowCount mat) (fun r c => get mat r c) n /\
  (forall g, In g gens -> in_row_space mat (rational g)) /\ newGrobLat mat n gens = Ok lat /\ In (a, b, s) (computePlanes n gens (gl_h lat)) /\
  plane_places (gl_h lat) (length gens) a b = Undefined.
Proof.
  exists basis, 3%nat, [[-2; 3; -1]; [-1; -2; 3]; [-3; 1; 2]; [-4; 2; 2]]. eexists. exists 0%nat, 1%nat, 2%nat.
  split; [repeat constructor|]. split; [repeat constructor; simpl; intuition discriminate|]. split; [reflexivity|]. split; [exact (proj1 (proj2 (proj2 (proj2 C128_case))))|]. split; [|split; [vm_compute; reflexivity|split]].
  - intros g Hg. exists (fun i => rational g i). cbn in Hg.
    destruct Hg as [<-|[<-|[<-|[<-|[]]]]]; intros c Hc; destruct c as [|[|[|c]]]; try (cbn in Hc; lia); apply Qc_is_canon; vm_compute; reflexivity.
  - vm_compute. auto.
  - vm_compute. reflexivity.
Qed.
Print Assumptions C137_dimension_refuted.
