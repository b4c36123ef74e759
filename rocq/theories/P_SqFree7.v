(** Proofs about the model of packed square free terms: the properties as stated in T_SqFree. *)
From Coq Require Import List Arith Bool NArith ZArith Lia Ascii.
Import ListNotations.
From Verif Require Import M_SqFree Spec_SqFree P_SqFree P_SqFree2 P_SqFree3 P_SqFree4 P_SqFree5 P_SqFree6.

Section S.
Variable w : nat.
Hypothesis Hw : 0 < w.

Lemma q_relations n a b A B : packed w n a A -> packed w n b B ->
  answers (sq_divides a b) (s_subset n A B) /\
  answers (sq_isRelativelyPrimeR a b) (s_disjoint n A B) /\
  answers (sq_isRelativelyPrime w a b n) (s_disjoint n A B) /\
  answers (sq_equals w a b n) (s_eq n A B) /\
  answers (sq_lexLess w a b n) (s_lex n A B) /\
  answers (Some (sq_isIdentityR a)) (s_empty n A) /\
  answers (sq_isIdentity w a n) (s_empty n A) /\
  answers (sq_hasFullSupport w a n) (s_full n A).
Proof.
  intros Ha Hb. apply packed_pk in Ha, Hb; auto. unfold answers. repeat apply conj.
  - eapply divides_pk; eauto.
  - eapply primeR_pk; eauto.
  - eapply prime_pk; eauto.
  - eapply equals_pk; eauto.
  - eapply lexLess_pk; eauto.
  - eexists. split; [reflexivity |]. eapply identityR_pk; eauto.
  - eapply identity_pk; eauto.
  - eapply full_pk; eauto.
Qed.
Lemma yields_pk n r A : (exists c, r = Some c /\ pk w n c A) -> yields w n r A.
Proof. intros (c & E & H). exists c. split; auto. apply packed_pk; auto. Qed.

Lemma packed_0 t s : packed w 0 t s <-> t = [0%N].
Proof.
  rewrite packed_pk by auto. split.
  - intros H. apply pk_cases in H; auto. destruct H as [[_ (x & -> & Hx)] | [? _]]; [| lia]. f_equal.
    apply (wd_0 0 x s Hx). lia.
  - intros ->. apply pk_one; auto; [lia |]. apply (wd_ext 0 0%N (fun _ => false)); [lia | apply wd_zero].
Qed.
Lemma wd_compl_w x A : wd w x A -> wd w (N.ldiff (allOnes w) x) (s_compl A).
Proof.
  intros H b. rewrite N.ldiff_spec. unfold allOnes. rewrite (wd_ones w Hw w b), (H b). unfold s_compl.
  destruct (b <? w), (A b); auto.
Qed.
Lemma wd_compl_k k x A : k < w -> wd k x A -> wd k (N.land (N.ldiff (allOnes w) x) (lowOnes k)) (s_compl A).
Proof.
  intros Hk H b. rewrite N.land_spec, N.ldiff_spec. unfold allOnes. rewrite (wd_ones w Hw w b), (wd_low w Hw k b), (H b). unfold s_compl.
  destruct (Nat.ltb_spec b w), (Nat.ltb_spec b k), (A b); auto; lia.
Qed.
Lemma wd_second k x y A B : wd k x A -> wd k y B -> wd k y B.
Proof. auto. Qed.

Lemma map2_yields f F n a b A B res :
  (forall k x y A B, wd k x A -> wd k y B -> wd k (f x y) (F A B)) ->
  (forall A B, (fun v => F A B (w + v)) = F (fun v => A (w + v)) (fun v => B (w + v))) ->
  packed w n a A -> packed w n b B -> length res = getWordCount w n -> (n = 0 -> res = [0%N]) ->
  yields w n (sq_map2 w f res a b n) (F A B).
Proof.
  intros H1 H2 Ha Hb Hl H0. destruct (Nat.eq_dec n 0) as [-> | Hn].
  - rewrite map2_0 by auto. eexists. split; [reflexivity |]. apply packed_0. auto.
  - apply yields_pk. rewrite <- (packed_length w Hw _ _ _ Ha) in Hl. apply packed_pk in Ha, Hb; auto. apply map2_pk with (F := F); auto. lia.
Qed.
Lemma mapR_yields f F n a b A B :
  (forall k x y A B, wd k x A -> wd k y B -> wd k (f x y) (F A B)) ->
  (forall A B, (fun v => F A B (w + v)) = F (fun v => A (w + v)) (fun v => B (w + v))) ->
  packed w n a A -> packed w n b B -> yields w n (sq_mapR f (getWordCount w n) a b) (F A B).
Proof.
  intros H1 H2 Ha Hb. rewrite <- (packed_length w Hw _ _ _ Ha). apply yields_pk. apply packed_pk in Ha, Hb; auto.
  apply mapR_pk with (F := F); auto.
Qed.
Lemma q_operations n a b A B res : packed w n a A -> packed w n b B ->
  length res = getWordCount w n -> (n = 0 -> res = [0%N]) ->
  yields w n (sq_lcm w res a b n) (s_union A B) /\ yields w n (sq_lcmInPlace w a b n) (s_union A B) /\
  yields w n (sq_lcmR (getWordCount w n) a b) (s_union A B) /\
  yields w n (sq_gcd w res a b n) (s_inter A B) /\ yields w n (sq_gcdInPlace w a b n) (s_inter A B) /\
  yields w n (sq_gcdR (getWordCount w n) a b) (s_inter A B) /\
  yields w n (sq_colonR (getWordCount w n) a b) (s_minus A B) /\
  yields w n (sq_assign w a b n) B /\ yields w n (sq_assignR a b) B /\
  (exists a' b', sq_swap w a b n = Some (a', b') /\ packed w n a' B /\ packed w n b' A) /\
  yields w n (sq_invert w a n) (s_compl A) /\
  packed w n (sq_setToIdentityR a) (fun _ => false) /\
  yields w n (sq_setToIdentity w res n) (fun _ => false) /\
  yields w n (sq_setToAllVarProd w res n) (fun _ => true).
Proof.
  intros Ha Hb Hl H0. pose proof (packed_length w Hw _ _ _ Ha) as Hla. pose proof (packed_length w Hw _ _ _ Hb) as Hlb.
  assert (Ha0 : n = 0 -> a = [0%N]) by (intros ->; apply packed_0 in Ha; auto).
  assert (Hb0 : n = 0 -> b = [0%N]) by (intros ->; apply packed_0 in Hb; auto).
  assert (Has : forall x y X Y, packed w n x X -> packed w n y Y -> yields w n (sq_assign w x y n) Y).
  { intros x y X Y Hx Hy. unfold sq_assign.
    apply (map2_yields (fun _ y => y) (fun _ B => B) n x y X Y); auto; [apply (packed_length w Hw _ _ _ Hx) |].
    intros ->. apply packed_0 in Hx. auto. }
  refine (conj _ (conj _ (conj _ (conj _ (conj _ (conj _ (conj _ (conj _ (conj _ (conj _ (conj _ (conj _ (conj _ _))))))))))))).
  - apply map2_yields; auto. apply wd_lor.
  - apply map2_yields; auto. apply wd_lor.
  - apply mapR_yields; auto. apply wd_lor.
  - apply map2_yields; auto. apply wd_land.
  - apply map2_yields; auto. apply wd_land.
  - apply mapR_yields; auto. apply wd_land.
  - apply mapR_yields; auto. apply wd_ldiff.
  - eapply Has; eauto.
  - unfold sq_assignR. rewrite Hla. apply (mapR_yields (fun _ y => y) (fun _ B => B) n a b A B); auto.
  - destruct (Has a b A B Ha Hb) as (a' & E1 & H1). destruct (Has b a B A Hb Ha) as (b' & E2 & H2).
    exists a', b'. unfold sq_swap. rewrite E1, E2. auto.
  - destruct (Nat.eq_dec n 0) as [-> | Hn].
    + unfold sq_invert. rewrite map1_0 by auto. eexists. split; [reflexivity |]. apply packed_0. auto.
    + apply yields_pk. apply packed_pk in Ha; auto.
      apply (map1_pk w Hw _ _ s_compl); auto; [apply wd_compl_w | intros; apply wd_compl_k; auto | lia].
  - apply packed_pk in Ha; auto. apply packed_pk; auto. eapply setToIdentityR_pk; eauto.
  - destruct (Nat.eq_dec n 0) as [-> | Hn].
    + unfold sq_setToIdentity. rewrite map1_0 by auto. eexists. split; [reflexivity |]. apply packed_0. auto.
    + apply yields_pk. apply setToIdentity_pk; auto. lia.
  - destruct (Nat.eq_dec n 0) as [-> | Hn].
    + unfold sq_setToAllVarProd. rewrite map1_0 by auto. eexists. split; [reflexivity |]. apply packed_0. auto.
    + apply yields_pk. apply setToAllVarProd_pk; auto. lia.
Qed.
Lemma q_single n t A v : packed w n t A -> v < n ->
  sq_getExponent w t v = Some (A v) /\ (forall b, yields w n (sq_setExponent w t v b) (s_update A v b)) /\
  sq_isValid w t n = Some true.
Proof.
  intros H Hv. split; [eapply packed_get; eauto |]. split; [intros b; apply packed_set; auto |].
  eapply isValid_packed; eauto.
Qed.
Lemma q_new n str : packed w n (sq_newTerm w n) (fun _ => false) /\
  yields w (length str) (sq_newTermParse w str) (fun v => nth v str false).
Proof. split; [apply newTerm_packed; auto | apply parse_packed; auto]. Qed.
Lemma q_support n t A inc : packed w n t A -> length inc = n ->
  sq_getSizeOfSupport w t n = Some (length (s_list n A)) /\
  (exists r, sq_getVarIfPure w t n = Some r /\ (s_single n A r \/ (r = n /\ forall x, ~ s_single n A x))) /\
  (exists r, sq_decrementAtSupport w t inc n = Some r /\ length r = n /\
     forall v, v < n -> nth v r 0%Z = if A v then (nth v inc 0 - 1)%Z else nth v inc 0%Z) /\
  (exists r, sq_toZeroAtSupport w t inc n = Some r /\ length r = n /\
     forall v, v < n -> nth v r 0%Z = if A v then 0%Z else nth v inc 0%Z).
Proof.
  intros H Hi. apply packed_pk in H; auto. split; [apply support_pk; auto |]. split; [apply pure_pk; auto |].
  split; [apply (atSupport_pk w Hw (fun b x => if b then x - 1 else x)%Z) |
          apply (atSupport_pk w Hw (fun b x => if b then 0 else x)%Z)]; auto.
Qed.
Lemma q_encode term encoded : term <> [] -> length encoded = getWordCount w (length term) ->
  (sqfree term -> exists t, sq_encodeTerm w encoded term = Some (true, t) /\
     packed w (length term) t (fun v => (nth v term 0 =? 1)%Z)) /\
  (~ sqfree term -> exists t, sq_encodeTerm w encoded term = Some (false, t)).
Proof.
  intros H1 H2. destruct (encode_ok w Hw encoded term H1 H2) as [H3 H4]. split; intros H.
  - destruct (H3 H) as (t & E & Hp). exists t. split; auto. apply packed_pk; auto.
  - destruct (H4 H) as (t & E & _). eauto.
Qed.
Lemma exponent_sqfree strs : sqfree (map exponent_of_string strs) <->
  Forall (fun s => s = [] \/ s = ["0"%char] \/ s = ["1"%char]) strs.
Proof.
  unfold sqfree. rewrite Forall_map. split; intros H; eapply Forall_impl; [| exact H | | exact H]; cbn beta.
  - intros s. unfold exponent_of_string. destruct s as [| c [| d s]]; auto.
    + destruct (ascii_dec c "1") as [-> |]; auto. destruct (ascii_dec c "0") as [-> |]; auto. lia.
    + lia.
  - intros s [-> | [-> | ->]]; cbn; auto.
Qed.
Lemma exponent_one s : (exponent_of_string s =? 1)%Z = if list_eq_dec ascii_dec s ["1"%char] then true else false.
Proof.
  unfold exponent_of_string. destruct s as [| c [| d s]].
  - destruct (list_eq_dec ascii_dec [] ["1"%char]); [discriminate | auto].
  - destruct (ascii_dec c "1") as [-> | Hc]; [destruct (list_eq_dec ascii_dec ["1"%char] ["1"%char]); [reflexivity | congruence] |].
    destruct (list_eq_dec ascii_dec [c] ["1"%char]); [congruence |]. destruct (ascii_dec c "0"); auto.
  - destruct (list_eq_dec ascii_dec (c :: d :: s) ["1"%char]); [discriminate | auto].
Qed.
Lemma q_encodeStrings strs encoded : strs <> [] -> length encoded = getWordCount w (length strs) ->
  (Forall (fun s => s = [] \/ s = ["0"%char] \/ s = ["1"%char]) strs ->
     exists t, sq_encodeStrings w encoded strs = Some (true, t) /\
       packed w (length strs) t (fun v => if list_eq_dec ascii_dec (nth v strs []) ["1"%char] then true else false)) /\
  (~ Forall (fun s => s = [] \/ s = ["0"%char] \/ s = ["1"%char]) strs ->
     exists t, sq_encodeStrings w encoded strs = Some (false, t)).
Proof.
  intros H1 H2. rewrite <- exponent_sqfree. unfold sq_encodeStrings.
  destruct (q_encode (map exponent_of_string strs) encoded) as [H3 H4].
  - destruct strs; [congruence | discriminate].
  - rewrite map_length. auto.
  - split; auto. intros H. destruct (H3 H) as (t & E & Hp). exists t. split; auto. rewrite map_length in Hp.
    revert Hp. apply (packed_ext w Hw). intros v Hv. cbv beta. change 0%Z with (exponent_of_string []). rewrite map_nth. apply exponent_one.
Qed.
Lemma q_compact n t A r R c : packed w n t A -> packed w n r R -> 0 < length (s_kept n R) ->
  length c = getWordCount w (length (s_kept n R)) -> Forall (fun x => x < 2 ^ N.of_nat w)%N c ->
  (exists c', sq_compact w c t r n = Some (c', length (s_kept n R)) /\ packed w (length (s_kept n R)) c' (s_compact n A R)) /\
  (exists t', sqi_compactTerm w t r n = Some (t', length (s_kept n R)) /\ packed w (length (s_kept n R)) t' (s_compact n A R)).
Proof. intros H1 H2 H3 H4 H5. split; [apply compact_packed | apply compactTerm_packed]; auto. Qed.
Lemma q_ideal n gens As ignore R : Forall2 (packed w n) gens As -> packed w n ignore R ->
  answers (sqi_hasFullSupport w gens ignore n) (forall v, v < n -> R v = true \/ exists A, In A As /\ A v = true) /\
  (exists r, sqi_getExclusiveVarGenerator w gens n = Some r /\
    ((exists v, exclusive n As v r) \/ (r = length gens /\ forall v j, ~ exclusive n As v j))).
Proof.
  intros Hg Hi. split; [| apply exclusive_packed; auto]. apply packed_pk in Hi; auto.
  assert (Hp : pks w n gens As). { induction Hg; constructor; auto. apply packed_pk; auto. }
  destruct (idealFull_pk w Hw n ignore R Hi gens As Hp) as (r & E & Hr). exists r. split; auto. rewrite Hr.
  unfold s_full. split; intros H v Hv; specialize (H v Hv).
  - apply orb_true_iff in H. destruct H as [H | H]; auto. apply existsb_exists in H. right. destruct H as (A & ? & ?). eauto.
  - apply orb_true_iff. destruct H as [H | (A & H1 & H2)]; auto. right. apply existsb_exists. eauto.
Qed.
Lemma q_counts n gens As : w mod 4 = 0 -> Forall2 (packed w n) gens As ->
  exists r, sqi_getVarDividesCounts w gens n = Some r /\ length r = n /\
    forall v, v < n -> nth v r 0%N = N.of_nat (scount As v).
Proof. intros H4 H. apply counts_packed; auto. Qed.
Lemma q_valid n t : 0 < n -> length t = getWordCount w n -> Forall (fun x => x < 2 ^ N.of_nat w)%N t ->
  answers (sq_isValid w t n) (exists A, packed w n t A).
Proof.
  intros Hn Hl Hr. apply (raw_words w Hw) in Hr. destruct Hr as [S Hr].
  destruct (wordCount_spec w Hw n) as [[? ?] | [H1 H2]]; [lia |]. rewrite <- Hl in H1, H2.
  pose proof (Nat.div_mod n w ltac:(lia)) as Hd. pose proof (Nat.mod_upper_bound n w ltac:(lia)) as Hm.
  unfold answers. destruct (sq_isValid w t n) as [b |] eqn:E.
  - exists b. split; auto. split; [| intros [A HA]; rewrite (isValid_packed w Hw n t A HA) in E; congruence].
    intros ->. exists S. apply packed_raw. split; [right; auto |]. intros i k. rewrite (Hr i k).
    destruct (Nat.ltb_spec k w) as [Hk | Hk]; auto. cbn [andb]. destruct (Nat.ltb_spec (i * w + k) n) as [Hi | Hi]; auto. cbn [andb].
    destruct (Nat.le_gt_cases (length t) i) as [Hti | Hti]; [apply (raw_out w Hw t S); auto; nia |].
    unfold sq_isValid in E. destruct (Nat.eqb_spec (n - w * (n / w)) 0) as [E0 | E0].
    + exfalso. assert (n / w = length t); nia.
    + assert (i = n / w) as -> by nia.
      destruct (nth_error t (n / w)) as [x |] eqn:Ex; [| discriminate]. apply (nth_error_nth _ _ 0%N) in Ex.
      injection E as E. apply N.eqb_eq in E.
      assert (F : N.testbit (N.ldiff x (lowOnes (n - w * (n / w)))) (N.of_nat k) = false) by (rewrite E; apply N.bits_0).
      rewrite N.ldiff_spec, (wd_low w Hw (n - w * (n / w)) k), <- Ex, (Hr (n / w) k) in F.
      destruct (Nat.ltb_spec k w); [| lia]. destruct (Nat.ltb_spec k (n - w * (n / w))); [lia |].
      cbn [andb negb] in F. rewrite andb_true_r in F. auto.
  - exfalso. unfold sq_isValid in E. destruct (Nat.eqb_spec (n - w * (n / w)) 0) as [E0 | E0]; [discriminate |].
    destruct (nth_error t (n / w)) eqn:Ex; [discriminate |]. apply nth_error_None in Ex. nia.
Qed.
Lemma q_wordCount n : 1 <= getWordCount w n /\ n <= w * getWordCount w n /\
  forall k, 1 <= k -> n <= w * k -> getWordCount w n <= k.
Proof.
  destruct (wordCount_spec w Hw n) as [[H1 H2] | [H1 H2]]; [rewrite H2; split; [lia |]; split; [lia | intros; lia] |]. split; [destruct (getWordCount w n); lia |].
  split; auto. intros k Hk Hn. destruct (getWordCount w n); nia.
Qed.
End S.
