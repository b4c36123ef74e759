(** Proofs about the model of packed square free terms: encoding, pure terms, supports, compaction. *)
From Coq Require Import List Arith Bool NArith ZArith Lia Ascii.
Import ListNotations.
From Verif Require Import M_SqFree Spec_SqFree P_SqFree P_SqFree2.

Section S.
Variable w : nat.
Hypothesis Hw : 0 < w.

(** ** encodeTerm *)

Lemma shift_next j : N.shiftl (N.shiftl 1 (N.of_nat j)) 1 = N.shiftl 1 (N.of_nat (S j)).
Proof. rewrite N.shiftl_shiftl. f_equal. lia. Qed.
Lemma encode_word_ok term k word j : sqfree (firstn k term) ->
  exists word', encode_word term k word (N.shiftl 1 (N.of_nat j)) = Some (skipn k term, word') /\
    forall b, N.testbit word' (N.of_nat b) =
      N.testbit word (N.of_nat b) || ((j <=? b) && (b <? j + min k (length term)) && (nth (b - j) term 0 =? 1)%Z).
Proof.
  revert term word j; induction k as [| k IH]; intros term word j H.
  - exists word. split; [destruct term; auto |]. intros b. cbn [min].
    destruct (Nat.leb_spec j b), (Nat.ltb_spec b (j + 0)); cbn; rewrite ?orb_false_r; auto; lia.
  - destruct term as [| e term].
    { exists word. split; auto. intros b. cbn [length min].
      destruct (Nat.leb_spec j b), (Nat.ltb_spec b (j + 0)); cbn; rewrite ?orb_false_r; auto; lia. }
    cbn [firstn] in H. inversion H as [| e' t' He Ht]; subst. cbn [encode_word skipn]. rewrite shift_next.
    destruct (Z.eqb_spec e 1) as [-> | H1].
    + destruct (IH term (N.lor word (N.shiftl 1 (N.of_nat j))) (S j) Ht) as (word' & -> & Hb). exists word'. split; auto.
      intros b. rewrite Hb, N.lor_spec, (testbit_shift1 w Hw). cbn [length]. rewrite <- orb_assoc. f_equal.
      destruct (Nat.eqb_spec b j) as [-> | Hne].
      * rewrite Nat.leb_refl, Nat.sub_diag. cbn [nth orb andb].
        destruct (Nat.ltb_spec j (j + min (S k) (S (length term)))); [| lia]. destruct (Nat.leb_spec (S j) j); auto.
      * cbn [orb]. destruct (Nat.leb_spec (S j) b), (Nat.leb_spec j b); try lia; auto.
        replace (b - j) with (S (b - S j)) by lia. cbn [nth]. f_equal.
        destruct (Nat.ltb_spec b (S j + min k (length term))), (Nat.ltb_spec b (j + min (S k) (S (length term)))); auto; lia.
    + assert (e = 0%Z) as -> by tauto. cbn [Z.eqb negb].
      destruct (IH term word (S j) Ht) as (word' & -> & Hb). exists word'. split; auto.
      intros b. rewrite Hb. cbn [length]. f_equal. destruct (Nat.eqb_spec b j) as [-> | Hne].
      * rewrite Nat.sub_diag. cbn [nth Z.eqb]. rewrite andb_false_r. destruct (Nat.leb_spec (S j) j); [lia | auto].
      * destruct (Nat.leb_spec (S j) b), (Nat.leb_spec j b); try lia; auto.
        replace (b - j) with (S (b - S j)) by lia. cbn [nth]. f_equal.
        destruct (Nat.ltb_spec b (S j + min k (length term))), (Nat.ltb_spec b (j + min (S k) (S (length term)))); auto; lia.
Qed.
Lemma encode_word_bad term k word bit : ~ sqfree (firstn k term) -> encode_word term k word bit = None.
Proof.
  revert term word bit; induction k as [| k IH]; intros term word bit H.
  - elim H. constructor.
  - destruct term as [| e term]; [elim H; constructor |]. cbn [encode_word firstn] in *.
    destruct (Z.eqb_spec e 1) as [-> | H1].
    + apply IH. intros F. apply H. constructor; auto.
    + destruct (Z.eqb_spec e 0) as [-> | H0]; cbn [negb]; auto. apply IH. intros F. apply H. constructor; auto.
Qed.
Lemma sqfree_dec e : {sqfree e} + {~ sqfree e}.
Proof. apply Forall_dec. intros x. destruct (Z.eq_dec x 0), (Z.eq_dec x 1); auto. right. tauto. Qed.
Lemma sqfree_split k e : sqfree e <-> sqfree (firstn k e) /\ sqfree (skipn k e).
Proof.
  unfold sqfree. rewrite <- (firstn_skipn k e) at 1. apply Forall_app.
Qed.
Lemma wordCount_small n : 0 < n -> n <= w -> getWordCount w n = 1.
Proof. intros H H1. destruct (wordCount_spec w Hw n) as [[? ?] | [H2 H3]]; [lia |]. destruct (getWordCount w n) as [| [| k]]; nia. Qed.
Lemma wordCount_more n : w < n -> getWordCount w n = S (getWordCount w (n - w)).
Proof.
  intros H. destruct (wordCount_spec w Hw n) as [[? ?] | [H2 H3]]; [lia |].
  destruct (wordCount_spec w Hw (n - w)) as [[? ?] | [H4 H5]]; [lia |].
  destruct (getWordCount w n) as [| a], (getWordCount w (n - w)) as [| b]; nia.
Qed.
Lemma encode_ok encoded : forall term, term <> [] -> length encoded = getWordCount w (length term) ->
  (sqfree term -> exists t, sq_encodeTerm w encoded term = Some (true, t) /\
     pk w (length term) t (fun v => (nth v term 0 =? 1)%Z)) /\
  (~ sqfree term -> exists t, sq_encodeTerm w encoded term = Some (false, t) /\ length t = length encoded).
Proof.
  induction encoded as [| x encoded IH]; intros term Hne Hl.
  { destruct term as [| e term]; [congruence |]. cbn [length] in Hl.
    destruct (wordCount_spec w Hw (S (length term))) as [[? ?] | [? ?]]; [lia | nia]. }
  assert (Hc : sq_encodeTerm w (x :: encoded) term =
    match encode_word term w 0%N 1%N with
    | None => Some (false, x :: encoded)
    | Some (term', word) => option_map (fun r => (fst r, word :: snd r)) (sq_encodeTerm w encoded term')
    end) by (destruct term; [congruence | reflexivity]).
  rewrite Hc. clear Hc. pose proof (sqfree_split w term) as Hs.
  destruct (sqfree_dec (firstn w term)) as [H1 | H1].
  2: { rewrite encode_word_bad by auto. split; [tauto |]. intros _. eauto. }
  destruct (encode_word_ok term w 0%N 0 H1) as (word & E & Hb). change (N.shiftl 1 (N.of_nat 0)) with 1%N in E.
  rewrite E. assert (Hx : wd (min (length term) w) word (fun v => (nth v term 0 =? 1)%Z)).
  { intros b. rewrite Hb, N.bits_0, orb_false_l. cbn [Nat.leb Nat.add andb]. rewrite Nat.sub_0_r, Nat.min_comm. auto. }
  destruct (Nat.le_gt_cases (length term) w) as [Hle | Hgt].
  - rewrite (skipn_all2 term) by auto. assert (Hsk : sqfree (skipn w term)) by (rewrite skipn_all2 by auto; constructor).
    cbn [length] in Hl. rewrite wordCount_small in Hl; [| destruct term; [congruence | cbn; lia] | auto].
    destruct encoded; [| cbn in Hl; lia]. cbn [sq_encodeTerm option_map fst snd]. split; [| tauto].
    intros _. exists [word]. split; auto. rewrite Nat.min_l in Hx by auto. apply pk_one; auto.
  - assert (Hl' : length (skipn w term) = length term - w) by apply skipn_length.
    cbn [length] in Hl. rewrite wordCount_more in Hl by auto. injection Hl as Hl. rewrite <- Hl' in Hl.
    destruct (IH (skipn w term)) as [IH1 IH2]; auto. { intros F. rewrite F in Hl'. cbn in Hl'. lia. }
    split.
    + intros Ht. destruct IH1 as (t & -> & Hp); [tauto |]. exists (word :: t). cbn. split; auto.
      rewrite Nat.min_r in Hx by lia. apply pk_more; auto. rewrite Hl' in Hp. revert Hp. apply pk_ext; auto. intros v Hv.
      f_equal. rewrite <- (firstn_skipn w term) at 2. rewrite app_nth2; rewrite firstn_length, Nat.min_l by lia; [| lia].
      f_equal. lia.
    + intros Ht. destruct IH2 as (t & -> & Hp); [tauto |]. exists (word :: t). cbn. auto.
Qed.

(** ** getVarIfPure *)
Lemma hit_cons x a n i h : sq_hit w (x :: a) n i h =
  let step x := if negb (x =? 0)%N then match h with Some _ => None | None => Some (Some (i, x)) end else Some h in
  if w <=? n then match step x with None => Some None | Some h' => sq_hit w a (n - w) (S i) h' end
  else if negb (n =? 0) then match step x with None => Some None | Some h' => Some h' end
  else Some h.
Proof. reflexivity. Qed.
Lemma hit_0 a i h : sq_hit w a 0 i h = Some h.
Proof. destruct a; cbn [sq_hit]; destruct (Nat.leb_spec w 0); try lia; auto. Qed.
Lemma wd_dec n x A : wd n x A -> (x = 0%N /\ s_empty n A) \/ (x <> 0%N /\ exists v, v < n /\ A v = true).
Proof.
  intros H. destruct (N.eq_dec x 0) as [E | E].
  - left. split; auto. exact (proj1 (wd_0 n x A H) E).
  - right. split; auto. destruct (lowbit w Hw x E) as (k & _ & H1 & _). rewrite (H k) in H1.
    destruct (Nat.ltb_spec k n); [| discriminate]. exists k. auto.
Qed.
Lemma hit_some n a A : pk w n a A -> forall i p,
  (s_empty n A /\ sq_hit w a n i (Some p) = Some (Some p)) \/
  ((exists v, v < n /\ A v = true) /\ sq_hit w a n i (Some p) = Some None).
Proof.
  revert n a A. apply (pk_ind1 w Hw (fun n a A => forall i p, (s_empty n A /\ sq_hit w a n i (Some p) = Some (Some p)) \/
     ((exists v, v < n /\ A v = true) /\ sq_hit w a n i (Some p) = Some None))).
  - intros n x A Hn Hx i p. rewrite hit_cons. cbv zeta.
    destruct (wd_dec n x A Hx) as [[E Hv] | [E Hv]].
    + left. split; auto. subst x. cbn [N.eqb negb]. destruct (w <=? n) eqn:Ew.
      * apply Nat.leb_le in Ew. replace (n - w) with 0 by lia. apply hit_0.
      * destruct (n =? 0); auto.
    + right. split; auto. apply N.eqb_neq in E. rewrite E. cbn [negb]. destruct Hv as (v & Hv & _).
      destruct (w <=? n); auto. destruct (Nat.eqb_spec n 0); [lia | auto].
  - intros n x a A Hn Hx Ha IH i p. rewrite hit_cons. cbv zeta. destruct (Nat.leb_spec w n); [| lia].
    destruct (wd_dec w x A Hx) as [[E Hv] | [E Hv]].
    + subst x. cbn [N.eqb negb]. destruct (IH (S i) p) as [[H1 H2] | [H1 H2]]; rewrite H2.
      * left. split; auto. exact (proj2 (split_index w Hw (fun v => A v = false) n Hn) (conj Hv H1)).
      * right. split; auto. destruct H1 as (v & Hv' & HA). exists (w + v). split; [lia | auto].
    + right. apply N.eqb_neq in E. rewrite E. cbn [negb]. split; auto. destruct Hv as (v & Hv & HA). exists v.
      split; [lia | auto].
Qed.
Definition hit_ok (n : nat) (A : vset) (i : nat) (r : option (nat * N)) : Prop :=
  match r with
  | Some (j, x) => exists k, j = i + k /\ x <> 0%N /\
      (forall b, N.testbit x (N.of_nat b) = (b <? w) && (k * w + b <? n) && A (k * w + b)) /\
      (forall v, v < n -> A v = true -> v / w = k)
  | None => s_empty n A \/ exists u v, u < n /\ v < n /\ A u = true /\ A v = true /\ u <> v
  end.
Lemma hit_none n a A : pk w n a A -> forall i, exists r, sq_hit w a n i None = Some r /\ hit_ok n A i r.
Proof.
  revert n a A. apply (pk_ind1 w Hw (fun n a A => forall i, exists r, sq_hit w a n i None = Some r /\ hit_ok n A i r)).
  - intros n x A Hn Hx i. rewrite hit_cons. cbv zeta. destruct (wd_dec n x A Hx) as [[E Hv] | [E Hv]].
    + exists None. split; [| left; auto]. subst x. cbn [N.eqb negb]. destruct (w <=? n) eqn:Ew.
      * apply Nat.leb_le in Ew. replace (n - w) with 0 by lia. apply hit_0.
      * destruct (n =? 0); auto.
    + exists (Some (i, x)). split.
      * pose proof E as E'. apply N.eqb_neq in E'. rewrite E'. cbn [negb]. destruct Hv as (v & Hv & _).
        destruct (Nat.leb_spec w n) as [Ew | Ew].
        -- replace (n - w) with 0 by lia. apply hit_0.
        -- destruct (Nat.eqb_spec n 0); [lia | auto].
      * exists 0. split; [lia |]. split; auto. split.
        -- intros b. cbn [Nat.mul Nat.add]. rewrite (Hx b). destruct (Nat.ltb_spec b w), (Nat.ltb_spec b n); auto. lia.
        -- intros v Hv' _. apply Nat.div_small. lia.
  - intros n x a A Hn Hx Ha IH i. rewrite hit_cons. cbv zeta. destruct (Nat.leb_spec w n); [| lia].
    destruct (wd_dec w x A Hx) as [[E Hv] | [E Hv]].
    + subst x. cbn [N.eqb negb]. destruct (IH (S i)) as (r & Er & Hr). exists r. split; auto.
      destruct r as [[j x] |]; cbn [hit_ok] in *.
      * destruct Hr as (k & Hj & Hx0 & Hb & Hu). exists (S k). split; [lia |]. split; auto. split.
        -- intros b. rewrite Hb. replace (S k * w + b) with (w + (k * w + b)) by (cbn; lia).
           destruct (Nat.ltb_spec (k * w + b) (n - w)), (Nat.ltb_spec (w + (k * w + b)) n); auto; lia.
        -- intros v Hvn HA. destruct (Nat.lt_ge_cases v w) as [Hvw | Hvw]; [rewrite (Hv v Hvw) in HA; discriminate |].
           replace v with (1 * w + (v - w)) by lia. rewrite Nat.div_add_l by lia. rewrite (Hu (v - w)); [lia | lia |].
           rewrite <- HA. f_equal. lia.
      * destruct Hr as [H1 | (u & v & H1 & H2 & H3 & H4 & H5)].
        -- left. exact (proj2 (split_index w Hw (fun v => A v = false) n Hn) (conj Hv H1)).
        -- right. exists (w + u), (w + v). repeat split; auto; lia.
    + pose proof E as E'. apply N.eqb_neq in E'. rewrite E'. cbn [negb]. destruct Hv as (v & Hv & HA).
      destruct (hit_some _ _ _ Ha (S i) (i, x)) as [[H1 ->] | [H1 ->]].
      * exists (Some (i, x)). split; auto. exists 0. split; [lia |]. split; auto. split.
        -- intros b. cbn [Nat.mul Nat.add]. rewrite (Hx b). destruct (Nat.ltb_spec b w), (Nat.ltb_spec b n); auto. lia.
        -- intros u Hu HAu. apply Nat.div_small. destruct (Nat.lt_ge_cases u w) as [Huw | Huw]; auto.
           specialize (H1 (u - w) ltac:(lia)). cbv beta in H1. replace (w + (u - w)) with u in H1 by lia. congruence.
      * exists None. split; auto. right. destruct H1 as (u & Hu & HAu). exists v, (w + u). repeat split; auto; lia.
Qed.
Lemma lowest_spec p : forall k, exists j, fst (lowest p k) = k + j /\ N.testbit (Npos p) (N.of_nat j) = true /\
  (forall u, u < j -> N.testbit (Npos p) (N.of_nat u) = false) /\
  (forall b, N.testbit (snd (lowest p k)) (N.of_nat b) = N.testbit (Npos p) (N.of_nat (j + 1 + b))).
Proof.
  induction p as [p IH | p IH |]; intros k.
  - exists 0. cbn [lowest fst snd]. split; [lia |]. split; auto. split; [lia |]. intros b.
    change (0 + 1 + b) with (S b). rewrite Nat2N.inj_succ. change (N.pos p~1) with (2 * N.pos p + 1)%N.
    rewrite N.testbit_odd_succ by lia. auto.
  - destruct (IH (S k)) as (j & H1 & H2 & H3 & H4). exists (S j). cbn [lowest]. split; [lia |].
    change (N.pos p~0) with (2 * N.pos p)%N. split; [| split].
    + rewrite Nat2N.inj_succ, N.testbit_even_succ by lia. auto.
    + intros [| u] Hu; [apply N.testbit_even_0 |]. rewrite Nat2N.inj_succ, N.testbit_even_succ by lia. apply H3. lia.
    + intros b. rewrite H4. replace (S j + 1 + b) with (S (j + 1 + b)) by lia.
      rewrite Nat2N.inj_succ, N.testbit_even_succ by lia. auto.
  - exists 0. cbn [lowest fst snd]. split; [lia |]. split; auto. split; [lia |]. intros b. rewrite N.bits_0.
    change (0 + 1 + b) with (S b). destruct b; auto.
Qed.
Lemma pure_pk n a A : pk w n a A -> exists r, sq_getVarIfPure w a n = Some r /\
  ((s_single n A r) \/ (r = n /\ forall x, ~ s_single n A x)).
Proof.
  intros Ha. unfold sq_getVarIfPure. destruct (hit_none n a A Ha 0) as (r & -> & Hr).
  destruct r as [[i x] |]; cbn [hit_ok] in Hr.
  - destruct Hr as (k & Hi & Hx & Hb & Hu). cbn [Nat.add] in Hi. subst i. destruct x as [| p]; [congruence |].
    destruct (lowest_spec p 0) as (j & H1 & H2 & H3 & H4). destruct (lowest p 0) as [k' rest]. cbn [fst snd Nat.add] in *.
    subst k'. rewrite Hb in H2. apply andb_true_iff in H2. destruct H2 as [H2 HA]. apply andb_true_iff in H2.
    destruct H2 as [Hj Hn]. apply Nat.ltb_lt in Hj, Hn.
    destruct (N.eqb_spec rest 0) as [E | E]; cbn [negb]; eexists; (split; [reflexivity |]).
    + left. split; auto. intros v Hv. split; [| intros ->; auto]. intros HAv.
      pose proof (Hu v Hv HAv) as Hk. pose proof (Nat.div_mod v w ltac:(lia)) as Hd.
      pose proof (Nat.mod_upper_bound v w ltac:(lia)) as Hm. rewrite Hk in Hd.
      assert (Hbit : N.testbit (N.pos p) (N.of_nat (v mod w)) = true).
      { rewrite Hb. apply andb_true_iff. split; [apply andb_true_iff; split; apply Nat.ltb_lt; lia |].
        rewrite <- HAv. f_equal. lia. }
      destruct (lt_eq_lt_dec (v mod w) j) as [[Hl | Hl] | Hl].
      * rewrite (H3 _ Hl) in Hbit. discriminate.
      * lia.
      * specialize (H4 (v mod w - j - 1)). replace (j + 1 + (v mod w - j - 1)) with (v mod w) in H4 by lia.
        rewrite Hbit, E, N.bits_0 in H4. discriminate.
    + right. split; auto. intros y [Hy1 Hy2]. destruct (lowbit w Hw rest E) as (b & _ & Hbb & _). rewrite H4, Hb in Hbb.
      apply andb_true_iff in Hbb. destruct Hbb as [Hbb HA2]. apply andb_true_iff in Hbb. destruct Hbb as [Hb1 Hb2].
      apply Nat.ltb_lt in Hb1, Hb2. apply Hy2 in HA2; auto. apply Hy2 in HA; auto. lia.
  - eexists. split; [reflexivity |]. right. split; auto. intros x [Hx1 Hx2].
    destruct Hr as [H | (u & v & H1 & H2 & H3 & H4 & H5)].
    + specialize (H x Hx1). assert (A x = true) by (apply Hx2; auto). congruence.
    + apply Hx2 in H3; auto. apply Hx2 in H4; auto. congruence.
Qed.

(** ** decrementAtSupport, toZeroAtSupport *)
Lemma at_bits_spec f bits inc : (forall x, f false x = x) -> length bits <= length inc ->
  exists r, at_bits f bits inc = Some r /\ length r = length inc /\
    forall v, nth v r 0%Z = if v <? length inc then f (nth v bits false) (nth v inc 0%Z) else 0%Z.
Proof.
  intros Hf. revert inc; induction bits as [| b bits IH]; intros inc Hl.
  - exists inc. split; auto. split; auto. intros v. destruct (Nat.ltb_spec v (length inc)).
    + replace (nth v [] false) with false by (destruct v; auto). rewrite Hf. auto.
    + apply nth_overflow; auto.
  - destruct inc as [| x inc]; [cbn in Hl; lia |]. cbn [length] in Hl. destruct (IH inc ltac:(lia)) as (r & E & H1 & H2).
    exists (f b x :: r). cbn [at_bits]. rewrite E. split; auto. split; [cbn; auto |].
    intros [| v]; cbn [nth length]; auto. rewrite H2. auto.
Qed.
Lemma nth_firstn {X} (l : list X) d k v : nth v (firstn k l) d = if v <? k then nth v l d else d.
Proof.
  revert k v; induction l as [| x l IH]; intros [| k] [| v]; cbn [firstn nth]; auto.
  all: try (match goal with |- context [if ?b then ?e else ?e] => destruct b; auto end).
  rewrite IH. auto.
Qed.
Lemma nth_skipn {X} (l : list X) d k v : nth v (skipn k l) d = nth (k + v) l d.
Proof.
  revert l; induction k as [| k IH]; intros l; auto. destruct l as [| x l]; [destruct v; auto |]. apply IH.
Qed.
Lemma atSupport_pk f n a A : (forall x, f false x = x) -> pk w n a A -> forall inc, length inc = n ->
  exists r, sq_atSupport w f a inc n = Some r /\ length r = n /\
    forall v, v < n -> nth v r 0%Z = f (A v) (nth v inc 0%Z).
Proof.
  intros Hf Ha inc Hi. unfold sq_atSupport. destruct (Nat.eqb_spec n 0) as [-> | Hn0].
  { exists inc. split; auto. split; auto. lia. }
  revert n a A Ha inc Hi Hn0.
  apply (pk_ind1 w Hw (fun n a A => forall inc, length inc = n -> n <> 0 -> exists r, at_words w f a inc n = Some r /\ length r = n /\
    forall v, v < n -> nth v r 0%Z = f (A v) (nth v inc 0%Z))).
  - intros n x A Hn Hx inc Hi Hn0. cbn [at_words].
    destruct (at_bits_spec f (word_bits x) inc Hf) as (r & -> & H1 & H2). { rewrite Hi. eapply word_bits_length; eauto. }
    destruct (Nat.leb_spec n w); [| lia]. exists r. split; auto. split; [lia |]. intros v Hv. rewrite H2.
    destruct (Nat.ltb_spec v (length inc)); [| lia]. rewrite (word_bits_nth w Hw). rewrite (wd_bit n x A v Hx); auto.
  - intros n x a A Hn Hx Ha IH inc Hi Hn0. cbn [at_words].
    destruct (at_bits_spec f (word_bits x) inc Hf) as (r & -> & H1 & H2).
    { pose proof (word_bits_length w Hw w x A Hx). lia. }
    destruct (Nat.leb_spec n w); [lia |].
    destruct (IH (skipn w r)) as (r' & -> & H3 & H4); [rewrite skipn_length; lia | lia |].
    eexists. split; [reflexivity |]. assert (Hfl : length (firstn w r) = w) by (rewrite firstn_length; lia).
    split; [rewrite app_length; lia |]. intros v Hv. destruct (Nat.lt_ge_cases v w) as [Hvw | Hvw].
    + rewrite app_nth1 by lia. rewrite nth_firstn. apply Nat.ltb_lt in Hvw. rewrite Hvw. apply Nat.ltb_lt in Hvw.
      rewrite H2. destruct (Nat.ltb_spec v (length inc)); [| lia]. rewrite (word_bits_nth w Hw). rewrite (wd_bit w x A v Hx); auto.
    + rewrite app_nth2 by lia. rewrite Hfl, H4 by lia. rewrite nth_skipn. replace (w + (v - w)) with v by lia. rewrite H2.
      destruct (Nat.ltb_spec v (length inc)); [| lia]. rewrite (word_bits_nth w Hw). rewrite (wd_high w x A v Hx) by auto. rewrite Hf. auto.
Qed.
End S.
