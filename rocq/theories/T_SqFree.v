(** Property C32: packed square free terms behave as sets of variables.  w is the number of bits of a word. *)
From Coq Require Import List Arith Bool NArith ZArith Lia Ascii.
Import ListNotations.
From Verif Require Import M_SqFree Spec_SqFree P_SqFree P_SqFree6 P_SqFree7.

(** Seven variables in words of 4 bits: the sets {0, 2, 5, 6} and {2, 3, 6} *)
Definition t1 : list N := [5; 6]%N.
Definition s1 : vset := fun v => existsb (Nat.eqb v) [0; 2; 5; 6].
Definition t2 : list N := [12; 4]%N.
Definition s2 : vset := fun v => existsb (Nat.eqb v) [2; 3; 6].

Theorem C32_relations : forall w, 0 < w -> forall n a b A B,
  packed w n a A -> packed w n b B ->
  answers (sq_divides a b) (s_subset n A B) /\
  answers (sq_isRelativelyPrimeR a b) (s_disjoint n A B) /\
  answers (sq_isRelativelyPrime w a b n) (s_disjoint n A B) /\
  answers (sq_equals w a b n) (s_eq n A B) /\
  answers (sq_lexLess w a b n) (s_lex n A B) /\
  answers (Some (sq_isIdentityR a)) (s_empty n A) /\
  answers (sq_isIdentity w a n) (s_empty n A) /\
  answers (sq_hasFullSupport w a n) (s_full n A).
Proof. exact q_relations. Qed.
Print Assumptions C32_relations.

Theorem C32_operations : forall w, 0 < w -> forall n a b A B res,
  packed w n a A -> packed w n b B ->
  length res = getWordCount w n -> (n = 0 -> res = [0%N]) ->
  yields w n (sq_lcm w res a b n) (s_union A B) /\ yields w n (sq_lcmInPlace w a b n) (s_union A B) /\
  yields w n (sq_lcmR (getWordCount w n) a b) (s_union A B) /\
  yields w n (sq_gcd w res a b n) (s_inter A B) /\ yields w n (sq_gcdInPlace w a b n) (s_inter A B) /\
  yields w n (sq_gcdR (getWordCount w n) a b) (s_inter A B) /\
  yields w n (sq_colonR (getWordCount w n) a b) (s_minus A B) /\
  yields w n (sq_assign w a b n) B /\ yields w n (sq_assignR a b) B /\
  (exists a' b', sq_swap w a b n = Some (a', b') /\ packed w n a' B /\ packed w n b' A) /\
  yields w n (sq_invert w a n) (s_compl A) /\
  packed w n (sq_setToIdentityR a) (fun _ => false) /\
  yields w n (sq_setToIdentity w res n) (fun _ => false) /\
  yields w n (sq_setToAllVarProd w res n) (fun _ => true).
Proof. exact q_operations. Qed.
Print Assumptions C32_operations.

Theorem C32_single_variable : forall w, 0 < w -> forall n t A v,
  packed w n t A -> v < n ->
  sq_getExponent w t v = Some (A v) /\ (forall b, yields w n (sq_setExponent w t v b) (s_update A v b)) /\
  sq_isValid w t n = Some true.
Proof. exact q_single. Qed.
Print Assumptions C32_single_variable.

Theorem C32_valid : forall w, 0 < w -> forall n t,
  0 < n -> length t = getWordCount w n -> Forall (fun x => x < 2 ^ N.of_nat w)%N t ->
  answers (sq_isValid w t n) (exists A, packed w n t A).
Proof. exact q_valid. Qed.
Print Assumptions C32_valid.

Theorem C32_word_count : forall w, 0 < w -> forall n,
  1 <= getWordCount w n /\ n <= w * getWordCount w n /\ forall k, 1 <= k -> n <= w * k -> getWordCount w n <= k.
Proof. exact q_wordCount. Qed.
Print Assumptions C32_word_count.

Theorem C32_new_terms : forall w, 0 < w -> forall n str,
  packed w n (sq_newTerm w n) (fun _ => false) /\
  yields w (length str) (sq_newTermParse w str) (fun v => nth v str false).
Proof. exact q_new. Qed.
Print Assumptions C32_new_terms.

Theorem C32_support : forall w, 0 < w -> forall n t A inc,
  packed w n t A -> length inc = n ->
  sq_getSizeOfSupport w t n = Some (length (s_list n A)) /\
  (exists r, sq_getVarIfPure w t n = Some r /\ (s_single n A r \/ (r = n /\ forall x, ~ s_single n A x))) /\
  (exists r, sq_decrementAtSupport w t inc n = Some r /\ length r = n /\
     forall v, v < n -> nth v r 0%Z = if A v then (nth v inc 0 - 1)%Z else nth v inc 0%Z) /\
  (exists r, sq_toZeroAtSupport w t inc n = Some r /\ length r = n /\
     forall v, v < n -> nth v r 0%Z = if A v then 0%Z else nth v inc 0%Z).
Proof. exact q_support. Qed.
Print Assumptions C32_support.

Theorem C32_encode : forall w, 0 < w -> forall term encoded,
  term <> [] -> length encoded = getWordCount w (length term) ->
  (sqfree term -> exists t, sq_encodeTerm w encoded term = Some (true, t) /\
     packed w (length term) t (fun v => (nth v term 0 =? 1)%Z)) /\
  (~ sqfree term -> exists t, sq_encodeTerm w encoded term = Some (false, t)).
Proof. exact q_encode. Qed.
Print Assumptions C32_encode.

Theorem C32_encode_strings : forall w, 0 < w -> forall strs encoded,
  strs <> [] -> length encoded = getWordCount w (length strs) ->
  (Forall (fun s => s = [] \/ s = ["0"%char] \/ s = ["1"%char]) strs ->
     exists t, sq_encodeStrings w encoded strs = Some (true, t) /\
       packed w (length strs) t (fun v => if list_eq_dec ascii_dec (nth v strs []) ["1"%char] then true else false)) /\
  (~ Forall (fun s => s = [] \/ s = ["0"%char] \/ s = ["1"%char]) strs ->
     exists t, sq_encodeStrings w encoded strs = Some (false, t)).
Proof. exact q_encodeStrings. Qed.
Print Assumptions C32_encode_strings.

Theorem C32_compact : forall w, 0 < w -> forall n t A r R c,
  packed w n t A -> packed w n r R -> 0 < length (s_kept n R) ->
  length c = getWordCount w (length (s_kept n R)) -> Forall (fun x => x < 2 ^ N.of_nat w)%N c ->
  (exists c', sq_compact w c t r n = Some (c', length (s_kept n R)) /\ packed w (length (s_kept n R)) c' (s_compact n A R)) /\
  (exists t', sqi_compactTerm w t r n = Some (t', length (s_kept n R)) /\ packed w (length (s_kept n R)) t' (s_compact n A R)).
Proof. exact q_compact. Qed.
Print Assumptions C32_compact.

Theorem C32_ideal : forall w, 0 < w -> forall n gens As ignore R,
  Forall2 (packed w n) gens As -> packed w n ignore R ->
  answers (sqi_hasFullSupport w gens ignore n) (forall v, v < n -> R v = true \/ exists A, In A As /\ A v = true) /\
  (exists r, sqi_getExclusiveVarGenerator w gens n = Some r /\
    ((exists v, exclusive n As v r) \/ (r = length gens /\ forall v j, ~ exclusive n As v j))).
Proof. exact q_ideal. Qed.
Print Assumptions C32_ideal.

Theorem C32_divides_counts : forall w, 0 < w -> forall n gens As,
  w mod 4 = 0 -> Forall2 (packed w n) gens As ->
  exists r, sqi_getVarDividesCounts w gens n = Some r /\ length r = n /\
    forall v, v < n -> nth v r 0%N = N.of_nat (scount As v).
Proof. exact q_counts. Qed.
Print Assumptions C32_divides_counts.


(** The number of bytes for an ideal is exact, or 0 if it is too large for size_t, whose largest value is smax. *)
Theorem C32_memory : forall wb bfs smax n g, (0 < wb -> 0 < smax -> bfs <= smax -> n <= smax ->
  let words := if n =? 0 then 1 else (n - 1) / (8 * wb) + 1 in
  let exact := bfs + g * (words * wb) in
  sqi_getBytesOfMemoryFor wb bfs smax n g = if exact <=? smax then exact else 0)%N.
Proof. exact bytes_spec. Qed.
Print Assumptions C32_memory.

(** In a ring without variables, setting a term to the identity does not touch the one word it has. *)
Theorem C32_no_variables_refuted : exists w res, 0 < w /\ length res = getWordCount w 0 /\
  ~ yields w 0 (sq_setToIdentity w res 0) (fun _ => false).
Proof.
  exists 4, [7%N]. split; [lia |]. split; [reflexivity |]. intros (t & E & H). apply packed_0 in H; [| lia].
  vm_compute in E. congruence.
Qed.
Print Assumptions C32_no_variables_refuted.

Lemma packed_t1 : packed 4 7 t1 s1.
Proof.
  destruct (q_encode 4 ltac:(lia) [1; 0; 1; 0; 0; 1; 1]%Z [0; 0]%N) as [H _]; [discriminate | reflexivity |].
  destruct H as (t & E & H); [repeat (constructor; [auto |]); constructor |]. vm_compute in E. injection E as <-. revert H.
  apply (packed_ext 4 ltac:(lia)). intros v Hv. cbn in Hv. do 7 (destruct v as [| v]; [reflexivity |]). lia.
Qed.
Lemma packed_t2 : packed 4 7 t2 s2.
Proof.
  destruct (q_encode 4 ltac:(lia) [0; 0; 1; 1; 0; 0; 1]%Z [0; 0]%N) as [H _]; [discriminate | reflexivity |].
  destruct H as (t & E & H); [repeat (constructor; [auto |]); constructor |]. vm_compute in E. injection E as <-. revert H.
  apply (packed_ext 4 ltac:(lia)). intros v Hv. cbn in Hv. do 7 (destruct v as [| v]; [reflexivity |]). lia.
Qed.
Example C32_nonvacuous :
  packed 4 7 t1 s1 /\ packed 4 7 t2 s2 /\
  sq_divides [4; 4]%N t1 = Some true /\ sq_divides t2 t1 = Some false /\ sq_lexLess 4 t2 t1 7 = Some true /\
  sq_lcm 4 [0; 0]%N t1 t2 7 = Some [13; 6]%N /\ sq_gcd 4 [0; 0]%N t1 t2 7 = Some [4; 4]%N /\
  sq_colonR 2 t1 t2 = Some [1; 2]%N /\ sq_invert 4 t1 7 = Some [10; 1]%N /\
  sq_getSizeOfSupport 4 t1 7 = Some 4 /\ sq_getVarIfPure 4 [0; 2]%N 7 = Some 5 /\ sq_getVarIfPure 4 t1 7 = Some 7 /\
  sq_encodeTerm 4 [9; 9]%N [1; 0; 1; 0; 0; 1; 1]%Z = Some (true, t1) /\
  sq_compact 4 [15]%N t1 t2 7 = Some ([9]%N, 4) /\ sqi_compactTerm 4 t1 t2 7 = Some ([9]%N, 4) /\
  sqi_hasFullSupport 4 [t1; t2] [2; 1]%N 7 = Some true /\ sqi_hasFullSupport 4 [t1; t2] [2; 0]%N 7 = Some false /\
  sqi_getExclusiveVarGenerator 4 [t2; t1; t2] 7 = Some 1 /\
  sqi_getVarDividesCounts 4 (t2 :: repeat t1 20) 7 = Some [20; 0; 21; 1; 0; 20; 21]%N /\
  sqi_getBytesOfMemoryFor 8 32 18446744073709551615 65 10 = 192%N /\
  sqi_getBytesOfMemoryFor 8 32 18446744073709551615 65 1152921504606846975 = 0%N.
Proof. split; [apply packed_t1 |]. split; [apply packed_t2 |]. vm_compute. repeat split. Qed.
