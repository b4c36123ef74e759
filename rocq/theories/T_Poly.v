(** C37: canonical output.  C38: accumulators.  C39: collecting like terms. *)
From Coq Require Import List Arith Bool ZArith Sorted Permutation.
Import ListNotations.
From Verif Require Import Spec Spec_Api Spec_Poly M_Term M_Ideal M_Api M_Poly P_Poly P_Poly2 P_Poly3.

(** ** C37 *)
(** One ideal.  The terms [ts] are passed to the canonical consumer; what it passes on is a rearrangement of them, and what
    is written for it is in descending lexicographic order. *)
Theorem C37_ideal : forall n otr ts vs, Forall (fun t => length t = n) ts -> written n otr ts = Some vs ->
  exists out ws, canonical_consumer n otr (ideal_calls ts) = Some (ideal_calls out) /\
    Permutation out ts /\ written n otr out = Some ws /\ Permutation ws vs /\ nonincreasing ws.
Proof. exact p_canonical_ideal. Qed.
Print Assumptions C37_ideal.
(** Hence what is written is a function of the multiset of what would be written without canonical output. *)
Theorem C37_unique : forall vs ws, Permutation vs ws -> nonincreasing vs -> nonincreasing ws -> vs = ws.
Proof. exact nonincreasing_unique. Qed.
Print Assumptions C37_unique.
Example C37_ideal_example :
  canonical_consumer 2 (Some [[5;0;7];[3;2;9]]%Z) (ideal_calls [[1;0];[0;1];[0;2];[2;2]]) = Some (ideal_calls [[2;2];[0;2];[0;1];[1;0]]) /\
  written 2 (Some [[5;0;7];[3;2;9]]%Z) [[2;2];[0;2];[0;1];[1;0]] = Some [[7;9];[5;9];[5;2];[0;3]]%Z.
Proof. vm_compute. auto. Qed.

(** One ideal after the other *)
Theorem C37_ideals : forall n otr Is Vs, Forall (Forall (fun t => length t = n)) Is -> all_written n otr Is Vs ->
  exists Os Ws, canonical_consumer n otr (concat (map ideal_calls Is)) = Some (concat (map ideal_calls Os)) /\
    Forall2 (@Permutation mono) Os Is /\ all_written n otr Os Ws /\ Forall nonincreasing Ws.
Proof. exact p_canonical_ideals. Qed.
Print Assumptions C37_ideals.

(** A list of ideals: the same ideals are written, each in order; *)
Theorem C37_list : forall n otr Is Vs, Forall (Forall (fun t => length t = n)) Is -> all_written n otr Is Vs ->
  exists Os Ws, canonical_consumer n otr (list_calls Is) = Some (list_calls Os) /\
    same_collection Is Os /\ all_written n otr Os Ws /\ same_collection Vs Ws /\ Forall nonincreasing Ws.
Proof. exact p_canonical_list. Qed.
Print Assumptions C37_list.
(** and what is written is a function of the collection of ideals. *)
Theorem C37_list_unique : forall n otr Is Js Vs Us,
  Forall (Forall (fun t => length t = n)) Is -> Forall (Forall (fun t => length t = n)) Js ->
  all_written n otr Is Vs -> all_written n otr Js Us -> same_collection Vs Us ->
  exists Os Ps Ws, canonical_consumer n otr (list_calls Is) = Some (list_calls Os) /\
    canonical_consumer n otr (list_calls Js) = Some (list_calls Ps) /\ all_written n otr Os Ws /\ all_written n otr Ps Ws.
Proof. exact p_canonical_function. Qed.
Print Assumptions C37_list_unique.
Example C37_list_example :
  canonical_consumer 2 None (list_calls [[[1;0];[0;1]];[[0;1];[2;0]];[[2;0];[0;1];[1;1]];[];[[2;0]]]) =
    Some (list_calls [[[2;0];[1;1];[0;1]];[[2;0];[0;1]];[[2;0]];[[1;0];[0;1]];[]]) /\
  canonical_consumer 2 None (list_calls [[];[[1;1];[2;0];[0;1]];[[2;0]];[[2;0];[0;1]];[[0;1];[1;0]]]) =
    Some (list_calls [[[2;0];[1;1];[0;1]];[[2;0];[0;1]];[[2;0]];[[1;0];[0;1]];[]]).
Proof. vm_compute. auto. Qed.
(** The consumer is not told that the list is over: an ideal that is passed to it after a list is never passed on. *)
Theorem C37_reuse_refuted : exists Is ts, ts <> [] /\
  canonical_consumer 1 None (list_calls Is ++ ideal_calls ts) = canonical_consumer 1 None (list_calls Is).
Proof. exists [[[1]]], [[2]]. split; [discriminate|reflexivity]. Qed.
Print Assumptions C37_reuse_refuted.

(** Polynomials.  If no monomial occurs twice and no coefficient is zero, as in the series of C13, then the same terms are
    passed on, in descending order.  (For the general case see C39.) *)
Theorem C37_polynomial : forall n p, poly_in_ring n p -> NoDup (map snd p) -> Forall (fun t => fst t <> 0%Z) p ->
  Permutation (canonical_coefs n p) p /\ descending_terms (canonical_coefs n p).
Proof. exact p_canonical_normal. Qed.
Print Assumptions C37_polynomial.
Example C37_polynomial_example :
  canonical_coefs 2 [((1)%Z, [0;0]); ((-1)%Z, [2;1]); ((3)%Z, [0;4]); ((-2)%Z, [2;5])] = [((-2)%Z, [2;5]); ((-1)%Z, [2;1]); ((3)%Z, [0;4]); ((1)%Z, [0;0])].
Proof. reflexivity. Qed.

(** Polynomials that were read: terms with the same monomial stay apart, in the order of their coefficients. *)
Theorem C37_bigPolynomial : forall n p, Forall (fun t => length (snd t) = n) p ->
  Permutation (bigPoly_sort p) p /\
  StronglySorted (fun a b => zlex (snd b) (snd a) \/ (snd a = snd b /\ (fst a <= fst b)%Z)) (bigPoly_sort p).
Proof. exact p_bigPoly_sort. Qed.
Print Assumptions C37_bigPolynomial.
Theorem C37_bigPolynomial_unique : forall n p q, Forall (fun t => length (snd t) = n) p -> Permutation p q ->
  bigPoly_sort p = bigPoly_sort q.
Proof. exact p_bigPoly_function. Qed.
Print Assumptions C37_bigPolynomial_unique.
Example C37_bigPolynomial_example :
  bigPoly_sort [(1, [0;0]); (4, [2;1]); (3, [0;4]); (-2, [2;1])]%Z = [(-2, [2;1]); (4, [2;1]); (3, [0;4]); (1, [0;0])]%Z.
Proof. reflexivity. Qed.

(** ** C38 *)
(** After any calls, each monomial is stored once, with what was added there, exactly if that is not zero; however the hash
    map arranges its entries.  Canonical output is in descending order. *)
Theorem C38_multivariate : forall n arr ops canonical, rearranges arr -> Forall (op_in_ring n) ops ->
  let p := hash_polynomial n arr ops canonical in
  NoDup (map snd p) /\ (forall c m, In (c, m) p <-> c = added (list_eq_dec Nat.eq_dec) ops m /\ c <> 0%Z) /\
  (canonical = true -> descending_terms p).
Proof. exact p_hash. Qed.
Print Assumptions C38_multivariate.
Theorem C38_univariate : forall arr ops canonical, rearranges arr ->
  let p := uni_hash_polynomial arr ops canonical in
  NoDup (map snd p) /\ (forall c e, In (c, e) p <-> c = added Z.eq_dec ops e /\ c <> 0%Z) /\
  (canonical = true -> StronglySorted (fun a b => (snd b < snd a)%Z) p).
Proof. exact p_uni_hash. Qed.
Print Assumptions C38_univariate.
Example C38_example :
  rearranges (fun (i : nat) (l : list (term * Z)) => rev l) /\
  hash_polynomial 2 (fun _ l => rev l) [OpAdd (7)%Z [3;3]; OpClear; OpAdd (2)%Z [0;1]; OpSigned false [1;0]; OpAdd (3)%Z [0;0]; OpAdd ((-2))%Z [0;1]; OpSigned true [0;5]] true
    = [((-1)%Z, [1;0]); ((1)%Z, [0;5]); ((3)%Z, [0;0])].
Proof. split; [intros i l; apply Permutation_sym, Permutation_rev|reflexivity]. Qed.
Example C38_univariate_example :
  uni_hash_polynomial (fun _ l => rev l) [OpAdd 2 5; OpSigned false (-1); OpAdd 3 0; OpAdd (-2) 5; OpSigned true 8]%Z true
    = [(1, 8); (3, 0); (-1, -1)]%Z.
Proof. reflexivity. Qed.

(** ** C39 *)
(** Each monomial is left at most once, in descending order, and the sums of coefficients are unchanged.  Only the last entry
    can have coefficient zero. *)
Theorem C39_partial : forall n p, poly_in_ring n p -> let q := poly_sort n true p in
  descending_terms q /\ poly_in_ring n q /\ (forall m, total q m = total p m) /\ Forall (fun t => fst t <> 0%Z) (removelast q) /\
  (forall m, In (0%Z, m) q <-> In m (map snd p) /\ (forall t, In t p -> ~ lex_lt (snd t) m) /\ total p m = 0%Z).
Proof. exact p_collect. Qed.
Print Assumptions C39_partial.
(** It has exactly if the smallest monomial cancels. *)
Theorem C39_refuted : exists n p, poly_in_ring n p /\ exists m, In (0%Z, m) (poly_sort n true p).
Proof. exists 1, [((2)%Z, [3]); ((1)%Z, [1]); ((-1)%Z, [1])]. split; [repeat constructor|]. exists [1]. vm_compute. auto. Qed.
Print Assumptions C39_refuted.
Example C39_example :
  poly_sort 2 true [((2)%Z, [0;3]); ((1)%Z, [1;1]); ((-1)%Z, [1;1]); ((5)%Z, [0;3]); ((4)%Z, [0;0])] = [((7)%Z, [0;3]); ((4)%Z, [0;0])].
Proof. reflexivity. Qed.
(** Without collecting *)
Theorem C39_sort : forall n p, poly_in_ring n p ->
  Permutation (poly_sort n false p) p /\ StronglySorted (fun a b => ~ lex_lt (snd a) (snd b)) (poly_sort n false p).
Proof. exact p_sort_only. Qed.
Print Assumptions C39_sort.
(** The canonical series consumer: no total changes. *)
Theorem C39_canonical : forall n p, poly_in_ring n p -> let q := canonical_coefs n p in
  descending_terms q /\ poly_in_ring n q /\ (forall m, total q m = total p m) /\ Forall (fun t => fst t <> 0%Z) (removelast q).
Proof. exact p_canonical_coefs. Qed.
Print Assumptions C39_canonical.
