(** Theorems about saturated binomial ideals. *)
From Coq Require Import String Ascii.
From Coq Require Import List Arith Bool ZArith Lia Permutation.
Import ListNotations.
From Verif Require Import M_Names M_IO Spec_IO.
From Verif Require Import Spec Spec_Slice Spec_Scarf Spec_Frob Spec_Lattice M_SatBinom Spec_SatBinom Spec_SatBinom2 P_SatBinom P_SatBinom2 P_SatBinom3.
Local Notation length := List.length.
Local Open Scope Z_scope.

(** Two generators in three variables, as of the lattice of vectors with the sum 0 *)
Definition two : list (list Z) := [[2; -1; -1]; [-1; 2; -1]].
Example two_vectors : vectors 3 two.
Proof. repeat constructor. Qed.

(** C123: the tests for bodies without generators in the interior, for edges and for double triangles *)
Theorem C123_point_free : forall n gens a b c,
  (isPointFreeBody n gens a b = true <-> point_free n gens [a; b]) /\ (isPointFreeBody3 n gens a b c = true <-> point_free n gens [a; b; c]).
Proof. exact (fun n gens a b c => conj (point_free_iff n gens a b) (point_free3_iff n gens a b c)). Qed.
Print Assumptions C123_point_free.
Example C123_point_free_case : isPointFreeBody 3 two [2; -1; -1] [-1; 2; -1] = true /\ isPointFreeBody3 3 [[0; 0; -1]] [2; -1; -1] [-1; 2; -1] [0; 0; 0] = false.
Proof. vm_compute. split; reflexivity. Qed.

Theorem C123_edges : forall n gens, vectors n gens ->
  (forall a b, length a = n -> (isInterior n gens a b = true <-> interior n gens a b)) /\
  forall from to, (from < length gens)%nat -> (to < length gens)%nat ->
    (isInteriorEdge n gens from to = true <-> interior_edge n gens from to) /\
    (isTerminatingEdge n gens from to = true <-> terminating_edge n gens from to).
Proof.
  exact (fun n gens V => conj (fun a b La => interior_iff n gens a b La)
    (fun from to Hf Ht => conj (interior_edge_iff n gens from to V Hf Ht) (terminating_edge_iff n gens from to V Hf Ht))).
Qed.
Print Assumptions C123_edges.
(** Generators with edges that are terminating and edges that are not *)
Definition three : list (list Z) := [[-1; 2; -1]; [3; -1; 2]; [-3; 3; 1]].
Example C123_edges_case : vectors 3 three /\
  map (fun from => map (fun to => (isInteriorEdge 3 three from to, isTerminatingEdge 3 three from to)) [0; 1; 2]%nat) [0; 1; 2]%nat = [[(false, false); (true, true); (false, false)]; [(true, true); (false, false); (false, false)]; [(false, false); (true, false); (false, false)]].
Proof. split; [repeat constructor | vm_compute; reflexivity]. Qed.

Theorem C123_triangles : forall n gens, vectors n gens -> exists k, getDoubleTriangleCount n gens = Z.of_nat k /\ number_of (double_triangle n gens) k.
Proof. exact triangles_right. Qed.
Print Assumptions C123_triangles.
Example C123_triangles_case : vectors 3 two /\ getDoubleTriangleCount 3 two = 1 /\ double_triangle 3 two (0, 1)%nat.
Proof.
  split; [exact two_vectors |]. split; [vm_compute; reflexivity |]. split; [apply Nat.lt_0_1 |].
  exists [2; -1; -1], [-1; 2; -1], [1; 1; -2]. split; [reflexivity |]. split; [reflexivity |]. split.
  - split; [reflexivity |]. intros [| [| [| i]]] Hi; try reflexivity. exfalso. lia.
  - split; intros g [<- | [<- | []]] H.
    + destruct (H 0%nat ltac:(lia)) as [K | (p & [<- | [<- | []]] & K)]; cbn [nth] in K; lia.
    + destruct (H 1%nat ltac:(lia)) as [K | (p & [<- | [<- | []]] & K)]; cbn [nth] in K; lia.
    + destruct (H 0%nat ltac:(lia)) as [K | (p & [<- | [<- | []]] & K)]; cbn [nth] in K; lia.
    + destruct (H 1%nat ltac:(lia)) as [K | (p & [<- | [<- | []]] & K)]; cbn [nth] in K; lia.
Qed.

(** The comment in SatBinomIdeal.h on the test for interior edges: max(0,a,b) is strictly positive in every entry.  Neither implies the other: the
    first entry does not matter, and there may be no generator inside. *)
Theorem C123_comment_refuted :
  (exists n gens a b, vectors n gens /\ In a gens /\ In b gens /\ isInterior n gens a b = true /\ ~ (forall i, (i < n)%nat -> 0 < coordinate a i \/ 0 < coordinate b i)) /\
  (exists n gens a b, vectors n gens /\ In a gens /\ In b gens /\ isInterior n gens a b = false /\ (forall i, (i < n)%nat -> 0 < coordinate a i \/ 0 < coordinate b i)).
Proof.
  split.
  - exists 3%nat, [[-3; 3; -1]; [-1; -1; 2]], [-3; 3; -1], [-1; -1; 2]. split; [repeat constructor |]. split; [left; reflexivity |]. split; [right; left; reflexivity |].
    split; [vm_compute; reflexivity |]. intros H. destruct (H 0%nat ltac:(lia)) as [K | K]; cbn [nth] in K; lia.
  - exists 3%nat, [[3; 3; 3]; [1; 1; 1]], [3; 3; 3], [1; 1; 1]. split; [repeat constructor |]. split; [left; reflexivity |]. split; [right; left; reflexivity |].
    split; [vm_compute; reflexivity |]. intros [| [| [| i]]] Hi; try (left; reflexivity). exfalso. lia.
Qed.
Print Assumptions C123_comment_refuted.

(** C124: the validation tells whether the interior edges that are not terminating have no cycles and each generator has the right number of
    interior edges, and it always ends. *)
Theorem C124_validate : forall n gens, vectors n gens ->
  exists b, validate n gens = Some b /\
    (b = true <->
     zero_entry n gens \/
     (~ cyclic (fun x y => interior_edge n gens x y /\ ~ terminating_edge n gens x y) /\
      forall from g, nth_error gens from = Some g ->
        (interior n gens g g -> number_of (interior_edge n gens from) 0) /\ (~ interior n gens g g -> number_of (interior_edge n gens from) 1))).
Proof. exact validate_right. Qed.
Print Assumptions C124_validate.
Example C124_validate_case : vectors 3 three /\ hasZeroEntry 3 three = false /\ validate 3 three = Some true /\ vectors 3 two /\ validate 3 two = Some false.
Proof. split; [repeat constructor |]. split; [vm_compute; reflexivity |]. split; [vm_compute; reflexivity |]. split; [exact two_vectors | vm_compute; reflexivity]. Qed.
(** The search finds the cycles of every relation. *)
Theorem C124_search : forall edge count, exists b,
  cycle_loop (S count) edge count (seq 0 count) (repeat 0%nat count) = Some b /\
  (b = true <-> cyclic (fun x y => (x < count)%nat /\ (y < count)%nat /\ edge x y = true)).
Proof. exact cycles_found. Qed.
Print Assumptions C124_search.
Example C124_search_case :
  let run edges := cycle_loop 5 (fun x y => existsb (fun e => (fst e =? x)%nat && (snd e =? y)%nat) edges) 4 (seq 0 4) (repeat 0%nat 4) in
  run [(0, 1); (1, 2); (2, 3); (3, 1)]%nat = Some true /\ run [(0, 1); (0, 2); (1, 3); (2, 3)]%nat = Some false.
Proof. vm_compute. split; reflexivity. Qed.

(** C125: weak genericity of the initial ideal *)
Theorem C125_weakly_generic : forall n gens, vectors n gens -> ~ zero_entry n gens -> NoDup (map initial_monomial gens) ->
  (initialIdealIsWeaklyGeneric n gens = true <-> weakly_generic n (map initial_monomial gens)).
Proof. exact weakly_generic_right. Qed.
Print Assumptions C125_weakly_generic.
Example C125_weakly_generic_case : vectors 3 three /\ ~ zero_entry 3 three /\ NoDup (map initial_monomial three) /\ initialIdealIsWeaklyGeneric 3 three = true.
Proof.
  split; [repeat constructor |]. split; [intros H; apply zero_entry_iff in H; vm_compute in H; discriminate |]. split; [| vm_compute; reflexivity].
  vm_compute. repeat (constructor; [cbn [In]; intuition congruence |]). constructor.
Qed.
(** With a zero entry the answer can be wrong. *)
Theorem C125_zero_entry_refuted : exists n gens, vectors n gens /\ NoDup (map initial_monomial gens) /\
  initialIdealIsWeaklyGeneric n gens = false /\ weakly_generic n (map initial_monomial gens).
Proof.
  exists 4%nat, [[2; 0; 3; -5]; [2; 3; 0; -5]; [1; 1; 1; 0]]. split; [repeat constructor |].
  split; [vm_compute; repeat (constructor; [cbn [In]; intuition congruence |]); constructor |]. split; [vm_compute; reflexivity |].
  intros a b v Ha Hb Nab Hv E P. exists [1; 1; 1; 0]%nat. split; [right; right; left; reflexivity |].
  assert (S1 : strictly_divides [1; 1; 1; 0]%nat [2; 3; 3; 0]%nat).
  { split; [| exists 0%nat; cbn; lia]. intros [| [| [| [| i]]]]; cbn; try lia. left. destruct i; reflexivity. }
  vm_compute in Ha, Hb. destruct Ha as [<- | [<- | [<- | []]]], Hb as [<- | [<- | [<- | []]]]; try congruence; try exact S1;
    (destruct v as [| [| [| [| v]]]]; cbn [nth] in E, P; lia).
Qed.
Print Assumptions C125_zero_entry_refuted.
(** The generic ideals have no zero entries, as their comment says, and their initial ideals are weakly generic. *)
Theorem C125_generic : forall n gens, vectors n gens -> NoDup (map initial_monomial gens) ->
  (isGeneric n gens = true <-> ~ zero_entry n gens /\ weakly_generic n (map initial_monomial gens)).
Proof. exact generic_right. Qed.
Print Assumptions C125_generic.
Example C125_generic_case : vectors 3 three /\ NoDup (map initial_monomial three) /\ isGeneric 3 three = true /\ isGeneric 3 [[1; 1; -1]; [1; 2; -1]] = false.
Proof. split; [repeat constructor |]. split; [exact (proj1 (proj2 (proj2 C125_weakly_generic_case))) |]. vm_compute. split; reflexivity. Qed.

(** C126: the initial ideal, the removal of generators by their first entry and the projection *)
Theorem C126_initial : forall n gens, vectors n gens -> getInitialIdeal n gens = map (fun g => map Z.of_nat (initial_monomial g)) gens.
Proof. exact initial_right. Qed.
Print Assumptions C126_initial.
Example C126_initial_case : getInitialIdeal 3 three = [[0; 2; 0]; [3; 0; 2]; [0; 3; 1]].
Proof. vm_compute. reflexivity. Qed.
Theorem C126_removal : forall gens, Forall (fun g => g <> []) gens ->
  exists r s, removeGeneratorsWithLeadingZero gens = Some r /\ Permutation r (filter (fun g => negb (coordinate g 0 =? 0)) gens) /\
    removeGeneratorsWithoutLeadingZero gens = Some s /\ Permutation s (filter (fun g => coordinate g 0 =? 0) gens).
Proof. exact removal_right. Qed.
Print Assumptions C126_removal.
Example C126_removal_case : removeGeneratorsWithLeadingZero [[0; 1]; [2; 3]; [0; 4]; [5; 6]] = Some [[5; 6]; [2; 3]] /\
  removeGeneratorsWithoutLeadingZero [[0; 1]; [2; 3]; [0; 4]; [5; 6]] = Some [[0; 1]; [0; 4]].
Proof. vm_compute. split; reflexivity. Qed.
Theorem C126_projection : forall J var, (var < length (sb_names J))%nat -> vectors (length (sb_names J)) (sb_gens J) ->
  let K := sb_projectVar J var in
  S (length (sb_names K)) = length (sb_names J) /\ length (sb_gens K) = length (sb_gens J) /\
  forall i, let i' := if (i <? var)%nat then i else S i in
    nth_error (sb_names K) i = nth_error (sb_names J) i' /\
    forall k g, nth_error (sb_gens J) k = Some g -> exists h, nth_error (sb_gens K) k = Some h /\ nth_error h i = nth_error g i'.
Proof. exact projection_right. Qed.
Print Assumptions C126_projection.
Example C126_projection_case : sb_projectVar (SB [lit "x"; lit "y"; lit "z"] two) 1 = SB [lit "x"; lit "z"] [[2; -1]; [-1; -1]].
Proof. vm_compute. reflexivity. Qed.
Theorem C126_generator : forall gens v, isGenerator gens v = true <-> In v gens.
Proof. exact generator_right. Qed.
Print Assumptions C126_generator.
Example C126_generator_case : isGenerator three [3; -1; 2] = true /\ isGenerator three [3; -1; 1] = false.
Proof. vm_compute. split; reflexivity. Qed.

(** C127: reading *)
Theorem C127_read : forall max names gens file, legal_names names -> vectors (length names) gens ->
  Z.of_nat (length gens) <= max -> Z.of_nat (length names) <= max -> sat_binom_file names gens file ->
  exists rest, readSatBinomIdeal max file = Ok (SB names gens, rest) /\ expectEOF rest = Ok tt.
Proof. exact ideal_read. Qed.
Print Assumptions C127_read.
Definition two_file : text := lit "2 3 2 -1 -1  -1 2 -1 a b c".
Example C127_read_case : readSatBinomIdeal 100 two_file = Ok (SB [lit "a"; lit "b"; lit "c"] two, []) /\ sat_binom_file [lit "a"; lit "b"; lit "c"] two two_file.
Proof.
  split; [vm_compute; reflexivity |]. exists (lit "2 3 2 -1 -1  -1 2 -1 "). split.
  - exists [lit " "; lit " "; lit " "; lit " "; lit "  "; lit " "; lit " "; lit " "]. split; [reflexivity |]. split; [| vm_compute; reflexivity].
    repeat (apply Forall_cons; [split; [discriminate | repeat (apply Forall_cons; [left; reflexivity |]); apply Forall_nil] |]). apply Forall_nil.
  - right. split; [discriminate |]. exists []. split; [constructor | reflexivity].
Qed.
Theorem C127_any : forall max file,
  match readSatBinomIdeal max file with
  | Ok (J, _) => vectors (length (sb_names J)) (sb_gens J) /\ legal_names (sb_names J)
  | SyntaxError => True
  | _ => False
  end.
Proof. exact ideal_any. Qed.
Print Assumptions C127_any.
Example C127_any_case : readSatBinomIdeal 100 (lit "1 2 3") = SyntaxError /\ readSatBinomIdeal 100 (lit "1 2 3 -4 a a") = SyntaxError /\
  readSatBinomIdeal 100 (lit "1 2 3 -4") = Ok (SB [lit "x1"; lit "x2"] [[3; -4]], []).
Proof. vm_compute. repeat split. Qed.
