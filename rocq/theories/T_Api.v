(** Properties C01-C04, C07-C12, C19-C21 and C24: the API functions computed by maximal standard monomials.
    They hold for every legal configuration; frobby.cpp uses the default one, which is legal. *)
From Coq Require Import List Arith ZArith Lia Permutation Sorted.
Import ListNotations.
From Verif Require Import Spec Spec_Run Spec_Api M_Term M_Ideal M_Slice M_Msm M_Api P_Api P_Api2 P_Api3 P_Api4 P_Api5 T_Slice.

Definition big3 : list mono := [[5;0;0];[2;1;0];[7;0;3];[0;1;9];[2;1;0]].
Definition rnd0 : nat -> nat -> nat := fun _ => no_random.

Theorem default_is_legal : legal_config default_config.
Proof. exact (proj1 (proj2 C26_strategies_legal)). Qed.
Print Assumptions default_is_legal.

(** ** C01, C02 *)
Theorem C01_irreducible_decomposition : forall c rnd n I, legal_config c -> in_ring n I -> I <> [] ->
  exists D, api_irrDecomMonomials c rnd n I = Some (true, block n D) /\ in_ring n D /\
    forall m, length m = n -> (in_ideal I m <-> forall d, In d D -> in_irreducible d m).
Proof. exact q_c01. Qed.
Print Assumptions C01_irreducible_decomposition.

Theorem C02_irredundant : forall c rnd n I, legal_config c -> in_ring n I -> I <> [] ->
  exists D, api_irrDecomMonomials c rnd n I = Some (true, block n D) /\ NoDup D /\
    (forall d, In d D -> exists m, length m = n /\ ~ in_ideal I m /\ forall d', In d' D -> d' <> d -> in_irreducible d' m) /\
    (forall d d', In d D -> In d' D -> (forall m, length m = n -> in_irreducible d m -> in_irreducible d' m) -> d = d').
Proof. exact q_c02. Qed.
Print Assumptions C02_irredundant.

Example C01_nonvacuous : in_ring 3 big3 /\ big3 <> [] /\
  api_irrDecomMonomials default_config no_random 3 big3 = Some (true, block 3 [[2;0;9];[5;1;0]]).
Proof. split; [repeat constructor|]. split; [discriminate|]. vm_compute. reflexivity. Qed.

(** ** C03 *)
Theorem C03_irreducible_ideals : forall c rnd n I, legal_config c -> in_ring n I ->
  (I <> [] -> exists D,
     api_irrDecomIdeals c rnd n I = Some (concat (map (fun d => block n (irreducible_generators n d)) D)) /\
     irreducible_decomposition n I D) /\
  (I = [] -> api_irrDecomIdeals c rnd n I = Some (block n [])) /\
  (In (repeat 0 n) I -> api_irrDecomIdeals c rnd n I = Some []).
Proof. exact q_c03. Qed.
Print Assumptions C03_irreducible_ideals.

Example C03_nonvacuous : api_irrDecomIdeals default_config no_random 3 big3 =
  Some (concat (map (block 3) [[[2;0;0];[0;0;9]];[[5;0;0];[0;1;0]]])) /\
  In (repeat 0 3) [[1;2;3];[0;0;0]].
Proof. split; [vm_compute; reflexivity|]. simpl. auto. Qed.

(** ** C04 *)
Theorem C04_maximal_standard_monomials : forall c rnd n I, legal_config c -> in_ring n I -> exists L,
  api_maximalStandardMonomials c rnd n I = Some (block n L) /\ NoDup L /\ forall m, In m L <-> max_standard n I m.
Proof. exact p_msm. Qed.
Print Assumptions C04_maximal_standard_monomials.

Example C04_nonvacuous : api_maximalStandardMonomials default_config no_random 3 ([0;3;0] :: [0;0;12] :: big3) =
  Some (block 3 [[1;2;8];[4;0;11]]).
Proof. vm_compute. reflexivity. Qed.

(** ** C07 - C10 *)
Theorem C07_alexander_dual : forall c rnd n I a, legal_config c -> in_ring n I -> length a = n ->
  above_minimal_generators n I a ->
  exists L, api_alexanderDual c rnd n I (Some (znat a)) = Some (true, block n L) /\
    lists_minimal n (in_alexander_dual I a) L.
Proof. exact p_api_dual. Qed.
Print Assumptions C07_alexander_dual.

Theorem C08_default_point : forall c rnd n I, legal_config c -> in_ring n I -> exists a L,
  lcm_of_minimal_generators n I a /\ api_alexanderDual c rnd n I None = Some (true, block n L) /\
  api_alexanderDual c rnd n I (Some (znat a)) = Some (true, block n L).
Proof. exact p_api_default. Qed.
Print Assumptions C08_default_point.

Theorem C09_bad_points : forall c rnd n I point, legal_config c -> in_ring n I -> length point = n ->
  ((exists a, point = znat a /\ above_minimal_generators n I a) <-> exists evs, api_alexanderDual c rnd n I (Some point) = Some (true, evs)) /\
  (~ (exists a, point = znat a /\ above_minimal_generators n I a) <-> api_alexanderDual c rnd n I (Some point) = Some (false, [])).
Proof. exact p_api_bad. Qed.
Print Assumptions C09_bad_points.

Theorem C09_reflection_ideal : forall c rnd n I n' R, legal_config c -> in_ring n I -> in_ring n' R ->
  match R with
  | [r] => if Nat.eqb n' n then api_alexanderDualIdeal c rnd n I n' R = api_alexanderDual c rnd n I (Some (znat r))
           else api_alexanderDualIdeal c rnd n I n' R = Some (false, [])
  | _ => api_alexanderDualIdeal c rnd n I n' R = Some (false, [])
  end.
Proof. exact p_api_dualIdeal. Qed.
Print Assumptions C09_reflection_ideal.

Theorem C10_involution : forall c rnd c' rnd' n I a, legal_config c -> legal_config c' -> in_ring n I -> length a = n ->
  above_minimal_generators n I a -> exists L L',
  api_alexanderDual c rnd n I (Some (znat a)) = Some (true, block n L) /\
  api_alexanderDual c' rnd' n L (Some (znat a)) = Some (true, block n L') /\ lists_minimal_generators n I L'.
Proof. exact p_api_involution. Qed.
Print Assumptions C10_involution.

Example C07_nonvacuous : above_minimal_generators 3 big3 [6;2;9] /\
  api_alexanderDual default_config no_random 3 big3 (Some (znat [6;2;9])) = Some (true, block 3 [[5;0;1];[2;2;0]]) /\
  api_alexanderDual default_config no_random 3 big3 None = Some (true, block 3 [[4;0;1];[1;1;0]]) /\
  api_alexanderDual default_config no_random 3 big3 (Some [4;2;9]%Z) = Some (false, []) /\
  api_alexanderDual default_config no_random 3 [[5;0;1];[2;2;0]] (Some (znat [6;2;9])) = Some (true, block 3 [[2;1;0];[0;1;9];[5;0;0]]).
Proof.
  split.
  - assert (H : exists evs, api_alexanderDual default_config no_random 3 big3 (Some (znat [6;2;9])) = Some (true, evs))
      by (eexists; vm_compute; reflexivity).
    apply (proj1 (C09_bad_points default_config no_random 3 big3 (znat [6;2;9]) default_is_legal ltac:(repeat constructor) eq_refl)) in H.
    destruct H as [a [E H]]. apply znat_inj in E. subst a. exact H.
  - split; [vm_compute; reflexivity|]. split; [vm_compute; reflexivity|]. split; vm_compute; reflexivity.
Qed.

(** ** C11 *)
Theorem C11_associated_primes : forall c rnd n I, legal_config c -> in_ring n I -> exists Ss,
  api_associatedPrimes c rnd n I = Some (concat (map (fun s => block n (irreducible_generators n s)) Ss)) /\
  NoDup Ss /\ forall s, In s Ss <-> associated_prime n I s.
Proof. exact p_ass. Qed.
Print Assumptions C11_associated_primes.

Example C11_nonvacuous : api_associatedPrimes default_config no_random 3 big3 =
  Some (concat (map (block 3) [[[1;0;0];[0;0;1]];[[1;0;0];[0;1;0]]])).
Proof. vm_compute. reflexivity. Qed.

(** ** C12.  The full claim is that the ideals written correspond one to one to the associated primes. *)
Theorem C12_refuted : exists n I, in_ring n I /\
  ~ exists Bs, api_primaryDecomposition default_config rnd0 n I = Some (concat (map (block n) Bs)) /\
      one_per_associated_prime n I Bs.
Proof. exact q_c12_refuted. Qed.
Print Assumptions C12_refuted.

(** What does hold: the irreducible components are sorted, cut into runs with equal support, and each run yields
    the minimal generators of its intersection; the ideals written intersect to the input, and every
    associated prime (and nothing else) occurs as the radical of an ideal written. *)
Theorem C12_primary_decomposition_partial : forall c rnd n I, legal_config c -> in_ring n I -> exists D Gs Bs,
  api_primaryDecomposition c rnd n I = Some (concat (map (block n) Bs)) /\
  irreducible_decomposition n I D /\ StronglySorted (fun a b => lex_lt b a) D /\ support_runs n D Gs /\
  Forall2 (same_support_intersection n) Gs Bs /\
  (forall m, length m = n -> (in_ideal I m <-> forall B, In B Bs -> in_ideal B m)) /\
  Forall2 (fun G B => forall x, In x G -> radical_is n B (support_vector n x)) Gs Bs /\
  (forall s, associated_prime n I s <-> exists B, In B Bs /\ length s = n /\ (forall i, nth i s 0 <= 1) /\ radical_is n B s) /\
  ((forall i j G G' x y, nth_error Gs i = Some G -> nth_error Gs j = Some G' -> In x G -> In y G' -> same_support n x y -> i = j) ->
   one_per_associated_prime n I Bs).
Proof. exact q_c12. Qed.
Print Assumptions C12_primary_decomposition_partial.

Example C12_nonvacuous : api_primaryDecomposition default_config rnd0 3 big3 =
  Some (concat (map (block 3) [[[5;0;0];[0;1;0]];[[2;0;0];[0;0;9]]])).
Proof. vm_compute. reflexivity. Qed.

(** ** C19 *)
Theorem C19_entering_ideals : forall calls h, history calls h -> exists st, steps [] calls = Some st /\
  Forall2 (fun s o => ap_n s = fst o /\ ap_terms s = entered (fst o) (snd o)) st h.
Proof. exact p_enter. Qed.
Print Assumptions C19_entering_ideals.

Example C19_nonvacuous :
  let calls := [NewIdeal 2; AddExponent 0 3; AddExponent 0 5; AddExponent 0 7; CopyIdeal 0; AddExponent 1 9;
                NewIdeal 0; AddExponent 2 4; AssignIdeal 0 1; AddExponent 0 1]%Z in
  history calls [(2, [3;5;7;9;1]%Z); (2, [3;5;7;9]%Z); (0, [4]%Z)] /\
  exists st, steps [] calls = Some st /\ map ap_terms st = [[[3;5];[7;9];[1;0]]; [[3;5];[7;9]]; [[]]]%Z.
Proof.
  split; [|eexists; split; vm_compute; reflexivity].
  pose proof h_nil as H0.
  pose proof (h_new _ _ 2 H0) as H1.
  pose proof (h_add _ _ 0 2 _ 3%Z H1 eq_refl) as H2. pose proof (h_add _ _ 0 2 _ 5%Z H2 eq_refl) as H3.
  pose proof (h_add _ _ 0 2 _ 7%Z H3 eq_refl) as H4. pose proof (h_copy _ _ 0 _ H4 eq_refl) as H5.
  pose proof (h_add _ _ 1 2 _ 9%Z H5 eq_refl) as H6. pose proof (h_new _ _ 0 H6) as H7.
  pose proof (h_add _ _ 2 0 _ 4%Z H7 eq_refl) as H8.
  pose proof (h_assign _ _ 0 1 (2, [3;5;7;9]%Z) H8 ltac:(simpl; lia) eq_refl) as H9.
  pose proof (h_add _ _ 0 2 _ 1%Z H9 eq_refl) as H10. exact H10.
Qed.

(** ** C20 *)
Theorem C20_consumer_protocol : forall c rnd rnds n I point n' R, legal_config c -> in_ring n I -> in_ring n' R ->
  match point with Some a => length a = n | None => True end ->
  (exists ok evs, api_irrDecomMonomials c rnd n I = Some (ok, evs) /\ protocol n false evs) /\
  (exists evs, api_irrDecomIdeals c rnd n I = Some evs /\ protocol n false evs) /\
  (exists evs, api_maximalStandardMonomials c rnd n I = Some evs /\ protocol n false evs) /\
  (exists ok evs, api_alexanderDual c rnd n I point = Some (ok, evs) /\ protocol n false evs) /\
  (exists ok evs, api_alexanderDualIdeal c rnd n I n' R = Some (ok, evs) /\ protocol n false evs) /\
  (exists evs, api_associatedPrimes c rnd n I = Some evs /\ protocol n false evs) /\
  (exists evs, api_primaryDecomposition c rnds n I = Some evs /\ protocol n false evs).
Proof. exact p_protocol. Qed.
Print Assumptions C20_consumer_protocol.

Example C20_nonvacuous : protocol 3 false (block 3 [[2;0;9];[5;1;0]] ++ block 3 []) /\ ~ protocol 3 false [Consume [1;2;3]%Z] /\
  ~ protocol 3 false [IdealBegin 3; IdealBegin 3; IdealEnd; IdealEnd].
Proof. simpl. split; [repeat split|]. split; intuition discriminate. Qed.

(** ** C21 *)
Theorem C21_depends_on_ideal_only : forall c rnd rnds c' rnd' rnds' n I I', legal_config c -> legal_config c' ->
  in_ring n I -> in_ring n I' -> same_ideal n I I' ->
  (I <> [] -> I' <> [] -> exists D D', api_irrDecomMonomials c rnd n I = Some (true, block n D) /\ api_irrDecomMonomials c' rnd' n I' = Some (true, block n D') /\ Permutation D D') /\
  (exists D D', api_irrDecomIdeals c rnd n I = Some (concat (map (fun d => block n (irreducible_generators n d)) D)) /\
     api_irrDecomIdeals c' rnd' n I' = Some (concat (map (fun d => block n (irreducible_generators n d)) D')) /\ Permutation D D') /\
  (exists L L', api_maximalStandardMonomials c rnd n I = Some (block n L) /\ api_maximalStandardMonomials c' rnd' n I' = Some (block n L') /\ Permutation L L') /\
  (forall point, length point = n -> (api_alexanderDual c rnd n I (Some point) = Some (false, []) /\ api_alexanderDual c' rnd' n I' (Some point) = Some (false, [])) \/
     exists L L', api_alexanderDual c rnd n I (Some point) = Some (true, block n L) /\ api_alexanderDual c' rnd' n I' (Some point) = Some (true, block n L') /\ Permutation L L') /\
  (exists L L', api_alexanderDual c rnd n I None = Some (true, block n L) /\ api_alexanderDual c' rnd' n I' None = Some (true, block n L') /\ Permutation L L') /\
  (exists Ss Ss', api_associatedPrimes c rnd n I = Some (concat (map (fun s => block n (irreducible_generators n s)) Ss)) /\
     api_associatedPrimes c' rnd' n I' = Some (concat (map (fun s => block n (irreducible_generators n s)) Ss')) /\ Permutation Ss Ss') /\
  (exists Bs Bs', api_primaryDecomposition c rnds n I = Some (concat (map (block n) Bs)) /\
     api_primaryDecomposition c' rnds' n I' = Some (concat (map (block n) Bs')) /\ Forall2 (@Permutation mono) Bs Bs').
Proof. exact p_independent. Qed.
Print Assumptions C21_depends_on_ideal_only.

Example C21_nonvacuous : same_ideal 2 [[2;0];[1;1];[5;3]] [[1;1];[1;1];[2;0]].
Proof.
  intros m Hm. split; intros [g [Hg Hd]]; simpl in Hg; 
  destruct Hg as [<-|[<-|[<-|[]]]]; try (eexists; split; [|exact Hd]; simpl; auto; fail).
  exists [1;1]. split; [simpl; auto|]. inversion Hd as [|? ? ? ? A B]; subst. inversion B as [|? ? ? ? C E]; subst. inversion E; subst.
  repeat constructor; lia.
Qed.

(** ** C24 *)
Theorem C24_compression_faithful : forall n I, in_ring n I ->
  length (shrinkBigIdeal n (tr_initialize n I) I) = length I /\
  in_ring n (shrinkBigIdeal n (tr_initialize n I) I) /\
  translate_all n (tr_initialize n I) (shrinkBigIdeal n (tr_initialize n I) I) = Some (map znat I) /\
  (forall i j v, i < length I -> j < length I -> v < n ->
     (nth v (nth i I []) 0 <= nth v (nth j I []) 0 <->
      nth v (nth i (shrinkBigIdeal n (tr_initialize n I) I) []) 0 <= nth v (nth j (shrinkBigIdeal n (tr_initialize n I) I) []) 0)) /\
  (forall i v, i < length I -> v < n ->
     (nth v (nth i I []) 0 = 0 <-> nth v (nth i (shrinkBigIdeal n (tr_initialize n I) I) []) 0 = 0) /\
     nth v (nth i (shrinkBigIdeal n (tr_initialize n I) I) []) 0 < getMaxId (tr_initialize n I) v) /\
  (forall v, v < n -> getMaxId (tr_initialize n I) v <= length I + 1 /\
     getExponent (tr_initialize n I) v (getMaxId (tr_initialize n I) v) = Some 0%Z).
Proof. exact p_translator. Qed.
Print Assumptions C24_compression_faithful.

Example C24_nonvacuous : in_ring 3 big3 /\
  shrinkBigIdeal 3 (tr_initialize 3 big3) big3 = [[2;0;0];[1;1;0];[3;0;1];[0;1;2];[1;1;0]].
Proof. split; [repeat constructor|]. vm_compute. reflexivity. Qed.
