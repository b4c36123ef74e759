(** Proofs about the model of packed square free terms: compaction. *)
From Coq Require Import List Arith Bool NArith ZArith Lia.
Import ListNotations.
From Verif Require Import M_SqFree Spec_SqFree P_SqFree P_SqFree2 P_SqFree3.

Section S.
Variable w : nat.
Hypothesis Hw : 0 < w.

Lemma raw_words t : Forall (fun x => x < 2 ^ N.of_nat w)%N t <-> exists S, raw w t S.
Proof.
  split.
  - intros H. exists (fun v => N.testbit (nth (v / w) t 0%N) (N.of_nat (v mod w))). intros i b.
    destruct (Nat.ltb_spec b w) as [Hb | Hb]; cbn [andb].
    + rewrite Nat.div_add_l by lia. rewrite (Nat.div_small b w), Nat.add_0_r by auto.
      rewrite Nat.add_comm, Nat.mod_add by lia. rewrite Nat.mod_small by auto. auto.
    + destruct (Nat.lt_ge_cases i (length t)) as [Hi | Hi].
      * rewrite Forall_forall in H. specialize (H _ (nth_In t 0%N Hi)).
        destruct (nth i t 0%N) as [| p]; [apply N.bits_0 |]. apply N.bits_above_log2.
        apply N.log2_lt_pow2 in H; [lia | lia].
      * rewrite nth_overflow by auto. apply N.bits_0.
  - intros [S H]. apply Forall_forall. intros x Hx. destruct (In_nth t x 0%N Hx) as (i & Hi & <-).
    destruct (N.eq_dec (nth i t 0%N) 0) as [-> | E]; [apply N.neq_0_lt_0; apply N.pow_nonzero; lia |].
    apply N.log2_lt_pow2; [lia |]. specialize (H i (N.to_nat (N.log2 (nth i t 0%N)))). rewrite N2Nat.id in H.
    rewrite N.bit_log2 in H by auto. symmetry in H. apply andb_true_iff in H. destruct H as [H _].
    apply Nat.ltb_lt in H. lia.
Qed.

Lemma compact_loop_spec t T r R m : forall v c C k, raw w t T -> raw w r R -> raw w c C ->
  v + m <= w * length t -> v + m <= w * length r ->
  k + length (filter (s_compl R) (seq v m)) <= w * length c ->
  exists c', sq_compact_loop w c t r (seq v m) k = Some (c', k + length (filter (s_compl R) (seq v m))) /\
    length c' = length c /\
    raw w c' (fun u => if (k <=? u) && (u <? k + length (filter (s_compl R) (seq v m)))
                       then T (nth (u - k) (filter (s_compl R) (seq v m)) 0) else C u).
Proof.
  induction m as [| m IH]; intros v c C k Ht Hr Hc Hvt Hvr Hk.
  - cbn [seq filter length sq_compact_loop] in *. exists c. rewrite Nat.add_0_r. split; auto. split; auto.
    intros i b. rewrite (Hc i b). destruct (b <? w); auto. cbn [andb].
    destruct (Nat.leb_spec k (i * w + b)), (Nat.ltb_spec (i * w + b) k); auto. lia.
  - cbn [seq sq_compact_loop]. rewrite (getExponent_raw w Hw r R v Hr) by lia.
    cbn [seq filter] in *. assert (Es : s_compl R v = negb (R v)) by reflexivity. rewrite Es in *. clear Es.
    destruct (R v) eqn:ER; cbn [negb] in *.
    + apply IH; auto; lia.
    + rewrite (getExponent_raw w Hw t T v Ht) by lia. cbn [length] in *.
      destruct (setExponent_raw w Hw c C k (T v) Hc ltac:(lia)) as (c1 & -> & Hl1 & Hc1).
      destruct (IH (S v) c1 _ (S k) Ht Hr Hc1 ltac:(lia) ltac:(lia) ltac:(lia)) as (c' & E & Hl' & Hc').
      exists c'. rewrite E. split; [f_equal; f_equal; lia |]. split; [lia |]. intros i b. rewrite (Hc' i b).
      destruct (b <? w); auto. cbn [andb]. generalize (i * w + b). intros u. unfold s_update.
      destruct (Nat.eqb_spec u k) as [-> | Hne].
      * rewrite Nat.leb_refl, Nat.sub_diag. cbn [nth].
        destruct (Nat.leb_spec (S k) k); [lia |]. cbn [andb].
        destruct (Nat.ltb_spec k (k + S (length (filter (s_compl R) (seq (S v) m))))); [auto | lia].
      * destruct (Nat.leb_spec (S k) u), (Nat.leb_spec k u); try lia; auto. cbn [andb].
        replace (u - k) with (S (u - S k)) by lia. cbn [nth].
        destruct (Nat.ltb_spec u (S k + length (filter (s_compl R) (seq (S v) m)))),
          (Nat.ltb_spec u (k + S (length (filter (s_compl R) (seq (S v) m))))); auto; lia.
Qed.
Lemma compact_pad_spec fuel : forall c C k, raw w c C -> k <= w * length c -> (k mod w = 0 \/ w - k mod w <= fuel) ->
  exists c' m, sq_compact_pad w fuel c k = Some c' /\ length c' = length c /\ k <= m /\ m < k + w /\ m mod w = 0 /\
    raw w c' (fun u => if (k <=? u) && (u <? m) then false else C u).
Proof.
  induction fuel as [| fuel IH]; intros c C k Hc Hk Hf.
  - assert (Hm : k mod w = 0). { destruct Hf as [H | H]; auto. pose proof (Nat.mod_upper_bound k w ltac:(lia)). lia. }
    exists c, k. split; [reflexivity |]. split; [auto |]. split; [lia |]. split; [lia |]. split; [auto |]. intros i b. rewrite (Hc i b). destruct (b <? w); auto. cbn [andb].
    destruct (Nat.leb_spec k (i * w + b)), (Nat.ltb_spec (i * w + b) k); auto. lia.
  - cbn [sq_compact_pad]. destruct (Nat.eqb_spec (k mod w) 0) as [E | E].
    + exists c, k. split; [reflexivity |]. split; [auto |]. split; [lia |]. split; [lia |]. split; [auto |]. intros i b. rewrite (Hc i b). destruct (b <? w); auto. cbn [andb].
      destruct (Nat.leb_spec k (i * w + b)), (Nat.ltb_spec (i * w + b) k); auto. lia.
    + assert (Hlt : k < w * length c).
      { destruct (Nat.eq_dec k (w * length c)) as [-> | ]; [| lia]. elim E. rewrite Nat.mul_comm. apply Nat.mod_mul. lia. }
      destruct (setExponent_raw w Hw c C k false Hc Hlt) as (c1 & -> & Hl1 & Hc1).
      pose proof (Nat.mod_upper_bound k w ltac:(lia)) as Hub. pose proof (Nat.div_mod k w ltac:(lia)) as Hd.
      assert (Hmod : (S k) mod w = 0 \/ (S k) mod w = S (k mod w)).
      { destruct (Nat.eq_dec (S (k mod w)) w) as [Ew | Ew].
        - left. replace (S k) with ((1 + k / w) * w) by nia. apply Nat.mod_mul. lia.
        - right. symmetry. apply (Nat.mod_unique _ _ (k / w)); lia. }
      destruct (IH c1 _ (S k) Hc1 ltac:(lia)) as (c' & m & E' & Hl' & H1 & H2 & H3 & H4).
      { destruct Hmod as [-> | ->]; [auto | right]. lia. }
      exists c', m. split; auto. split; [lia |]. split; [lia |].
      assert (Hmk : m < k + w).
      { destruct (Nat.lt_ge_cases m (k + w)); auto. replace m with (k + 1 * w) in H3 by lia.
        rewrite Nat.mod_add in H3 by lia. lia. }
      split; auto. split; auto. intros i b. rewrite (H4 i b). destruct (b <? w); auto. cbn [andb]. unfold s_update.
      destruct (Nat.eqb_spec (i * w + b) k) as [-> | Hne].
      * rewrite Nat.leb_refl. destruct (Nat.leb_spec (S k) k); [lia |]. cbn [andb].
        destruct (Nat.ltb_spec k m); [auto | lia].
      * destruct (Nat.leb_spec (S k) (i * w + b)), (Nat.leb_spec k (i * w + b)); auto; lia.
Qed.

Lemma s_list_ext n A B : s_eq n A B -> s_list n A = s_list n B.
Proof. intros H. apply filter_ext_in. intros v Hv. apply in_seq in Hv. apply H. lia. Qed.
Lemma s_kept_ext n A B : s_eq n A B -> s_kept n A = s_kept n B.
Proof. intros H. apply s_list_ext. intros v Hv. unfold s_compl. rewrite H; auto. Qed.
Lemma raw_cut n R : s_eq n (fun v => (v <? n) && R v) R.
Proof. intros v Hv. apply Nat.ltb_lt in Hv. rewrite Hv. auto. Qed.
Lemma kept_nth n R i : i < length (s_kept n R) -> nth i (s_kept n R) 0 < n.
Proof. intros H. pose proof (nth_In _ 0 H) as Hi. apply filter_In in Hi. destruct Hi as [Hi _]. apply in_seq in Hi. lia. Qed.
Lemma kept_le n R : length (s_kept n R) <= n.
Proof.
  unfold s_kept, s_list. rewrite <- (seq_length n 0) at 2. generalize (seq 0 n). intros l.
  induction l as [| v l IH]; cbn; auto. destruct (s_compl R v); cbn; lia.
Qed.

Lemma compact_packed n t A r R c : packed w n t A -> packed w n r R -> 0 < length (s_kept n R) ->
  length c = getWordCount w (length (s_kept n R)) -> Forall (fun x => x < 2 ^ N.of_nat w)%N c ->
  exists c', sq_compact w c t r n = Some (c', length (s_kept n R)) /\ packed w (length (s_kept n R)) c' (s_compact n A R).
Proof.
  intros Ht Hr Hk Hl Hc. apply raw_words in Hc. destruct Hc as [C Hc].
  apply packed_raw in Ht, Hr. destruct Ht as [Hlt Ht], Hr as [Hlr Hr]. unfold sq_compact.
  destruct (wordCount_spec w Hw (length (s_kept n R))) as [[? ?] | [Hw1 Hw2]]; [lia |]. rewrite <- Hl in Hw1, Hw2.
  assert (EK : filter (s_compl (fun v => (v <? n) && R v)) (seq 0 n) = s_kept n R).
  { apply s_kept_ext. apply raw_cut. }
  destruct (compact_loop_spec t _ r _ n 0 c C 0 Ht Hr Hc ltac:(lia) ltac:(lia)) as (c1 & E1 & Hl1 & Hc1).
  { rewrite EK. auto. }
  rewrite EK in E1, Hc1. cbn [Nat.add] in *. rewrite E1.
  set (k := length (s_kept n R)) in *.
  destruct (compact_pad_spec w c1 _ k Hc1 ltac:(lia) ltac:(pose proof (Nat.mod_upper_bound k w ltac:(lia)); lia))
    as (c2 & m & E2 & Hl2 & Hm1 & Hm2 & Hm3 & Hc2).
  rewrite E2. cbn [option_map]. exists c2. split; auto. apply packed_raw. rewrite Hl2, Hl1. split; [right; auto |].
  assert (Em : m = w * length c).
  { pose proof (Nat.div_mod m w ltac:(lia)) as Hd. rewrite Hm3, Nat.add_0_r in Hd.
    assert (m / w = length c); [| lia]. destruct (length c); nia. }
  intros i b. rewrite (Hc2 i b). destruct (b <? w); auto. cbn [andb]. generalize (i * w + b). intros u.
  rewrite Nat.sub_0_r. cbn [Nat.leb andb]. unfold s_compact.
  destruct (Nat.leb_spec k u) as [Hu | Hu].
  - cbn [andb]. destruct (Nat.ltb_spec u m) as [Hum | Hum]; destruct (Nat.ltb_spec u k); auto; try lia.
    cbn [andb]. apply (raw_out w Hw c C); auto. lia.
  - cbn [andb]. destruct (Nat.ltb_spec u k); [| lia]. cbn [andb].
    pose proof (kept_nth n R u ltac:(fold k; lia)) as Hn. apply Nat.ltb_lt in Hn. rewrite Hn. auto.
Qed.

(** ** Compaction in place *)
Lemma compactTerm_loop r R n m : forall v t T k, raw w r R -> n <= w * length r -> v + m = n -> n <= w * length t ->
  raw w t T -> k <= v -> 
  exists t' T', (forall F : sqterm -> nat -> option (sqterm * nat),
    (fix loop (term : sqterm) (vars : list nat) (varCompact : nat) : option (sqterm * nat) :=
     match vars with
     | [] => F term varCompact
     | var :: vars' =>
         match sq_getExponent w r var with
         | None => None
         | Some true => loop term vars' varCompact
         | Some false =>
             match sq_getExponent w term var with
             | None => None
             | Some b =>
                 match sq_setExponent w term varCompact b with
                 | None => None
                 | Some t => loop t vars' (S varCompact)
                 end
             end
         end
     end) t (seq v m) k = F t' (k + length (filter (s_compl R) (seq v m)))) /\
    length t' = length t /\ raw w t' T' /\
    (forall u, u < k -> T' u = T u) /\
    (forall u, u < length (filter (s_compl R) (seq v m)) -> T' (k + u) = T (nth u (filter (s_compl R) (seq v m)) 0)).
Proof.
  induction m as [| m IH]; intros v t T k Hr Hnr Hvm Hnt Ht Hkv.
  - exists t, T. split; [intros F; cbn; rewrite Nat.add_0_r; auto |]. split; auto. split; auto. split; auto.
    cbn. lia.
  - cbn [seq filter]. rewrite (getExponent_raw w Hw r R v Hr) by lia. assert (Es : s_compl R v = negb (R v)) by reflexivity. rewrite Es in *. clear Es.
    destruct (R v) eqn:ER; cbn [negb].
    + apply IH; auto; lia.
    + rewrite (getExponent_raw w Hw t T v Ht) by lia.
      destruct (setExponent_raw w Hw t T k (T v) Ht ltac:(lia)) as (t1 & -> & Hl1 & Ht1).
      destruct (IH (S v) t1 _ (S k) Hr Hnr ltac:(lia) ltac:(lia) Ht1 ltac:(lia)) as (t' & T' & E & Hl' & Hr' & H1 & H2).
      exists t', T'. split; [intros F; rewrite E; cbn [length]; f_equal; lia |]. split; [lia |]. split; auto. split.
      * intros u Hu. rewrite H1 by lia. unfold s_update. destruct (Nat.eqb_spec u k); [lia | auto].
      * cbn [length]. intros [| u] Hu; cbn [nth].
        -- rewrite Nat.add_0_r. rewrite H1 by lia. unfold s_update. rewrite Nat.eqb_refl. auto.
        -- rewrite Nat.add_succ_r. rewrite <- Nat.add_succ_l. rewrite H2 by lia. unfold s_update.
           assert (Hin : In (nth u (filter (s_compl R) (seq (S v) m)) 0) (seq (S v) m)).
           { apply (proj1 (filter_In (s_compl R) _ _)). apply nth_In. lia. }
           apply in_seq in Hin. destruct (Nat.eqb_spec (nth u (filter (s_compl R) (seq (S v) m)) 0) k); [lia | auto].
Qed.
Lemma wordCount_mono a b : a <= b -> getWordCount w a <= getWordCount w b.
Proof.
  intros H. destruct (wordCount_spec w Hw a) as [[? ?] | [H1 H2]], (wordCount_spec w Hw b) as [[? ?] | [H3 H4]]; try lia.
  destruct (getWordCount w a), (getWordCount w b); nia.
Qed.
Lemma compactTerm_packed n t A r R : packed w n t A -> packed w n r R -> 0 < length (s_kept n R) ->
  exists t', sqi_compactTerm w t r n = Some (t', length (s_kept n R)) /\ packed w (length (s_kept n R)) t' (s_compact n A R).
Proof.
  intros Ht Hr Hk. pose proof (packed_length w Hw n t A Ht) as HlT. apply packed_raw in Ht, Hr.
  destruct Ht as [Hlt Ht], Hr as [Hlr Hr].
  assert (EK : filter (s_compl (fun v => (v <? n) && R v)) (seq 0 n) = s_kept n R).
  { apply s_kept_ext. apply raw_cut. }
  destruct (compactTerm_loop r _ n n 0 t _ 0 Hr ltac:(lia) ltac:(lia) ltac:(lia) Ht ltac:(lia))
    as (t' & T' & E & Hl & HT & _ & H2).
  unfold sqi_compactTerm.
  match goal with |- context [(fix loop (term : sqterm) (vars : list nat) (varCompact : nat) {struct vars} : option (sqterm * nat) :=
    match vars with [] => @?F term varCompact | _ :: _ => _ end) t (seq 0 n) 0] => specialize (E F) end.
  cbv beta in E. unfold sqterm in *. rewrite E. clear E. rewrite EK in *. cbn [Nat.add] in *.
  set (k := length (s_kept n R)) in *.
  assert (Hkn : k <= n) by apply kept_le.
  destruct (wordCount_spec w Hw k) as [[? ?] | [Hw1 Hw2]]; [lia |].
  pose proof (wordCount_mono k n Hkn) as Hmono. rewrite <- HlT, <- Hl in Hmono.
  assert (HT2 : forall u, u < k -> T' u = s_compact n A R u).
  { intros u Hu. rewrite H2 by auto. unfold s_compact. pose proof (kept_nth n R u ltac:(fold k; lia)) as Hn.
    apply Nat.ltb_lt in Hn. rewrite Hn. auto. }
  assert (Hfin : forall t2, length t2 = length t' -> raw w (firstn (getWordCount w k) t2) (fun v => (v <? k) && s_compact n A R v) ->
     (if getWordCount w k <=? length t2 then Some (firstn (getWordCount w k) t2, k) else None) =
       Some (firstn (getWordCount w k) t2, k) /\
     packed w k (firstn (getWordCount w k) t2) (s_compact n A R)).
  { intros t2 Hl2 Hr2. rewrite Hl2. destruct (Nat.leb_spec (getWordCount w k) (length t')); [| lia]. split; auto.
    apply packed_raw. rewrite firstn_length, Hl2, Nat.min_l by auto. split; auto. }
  pose proof (Nat.div_mod k w ltac:(lia)) as Hd. pose proof (Nat.mod_upper_bound k w ltac:(lia)) as Hub.
  destruct (Nat.eqb_spec (getBitOffset w k) 0) as [Hb | Hb]; cbn [negb]; unfold getBitOffset in Hb.
  - eexists. apply Hfin; auto.
    intros i b. rewrite nth_firstn by auto. destruct (Nat.ltb_spec i (getWordCount w k)) as [Hi | Hi].
    + rewrite (HT i b). destruct (Nat.ltb_spec b w) as [Hbw | Hbw]; auto. cbn [andb].
      assert (Hiu : i * w + b < k).
      { rewrite Hb in Hd. assert (getWordCount w k = k / w); [| nia]. destruct (getWordCount w k); nia. }
      pose proof Hiu as Hiu'. apply Nat.ltb_lt in Hiu'. rewrite Hiu'. cbn [andb]. auto.
    + rewrite N.bits_0. destruct (Nat.ltb_spec (i * w + b) k); [nia |]. rewrite andb_false_r. auto.
  - unfold getBitOffset, getWordOffset.
    assert (Hwk : getWordCount w k = S (k / w)). { destruct (getWordCount w k); nia. }
    destruct (nth_error t' (k / w)) as [x |] eqn:Ex; [| apply nth_error_None in Ex; lia].
    eexists. apply Hfin; [apply update_length |].
    apply (nth_error_nth _ _ 0%N) in Ex.
    intros i b. rewrite nth_firstn by auto. destruct (Nat.ltb_spec i (getWordCount w k)) as [Hi | Hi].
    + rewrite (update_nth w Hw) by lia. destruct (Nat.eqb_spec i (k / w)) as [-> | Hne].
      * rewrite N.land_spec, <- Ex, (HT (k / w) b), (wd_low w Hw (k mod w) b).
        destruct (Nat.ltb_spec b w) as [Hbw | Hbw]; auto. cbn [andb].
        destruct (Nat.ltb_spec b (k mod w)), (Nat.ltb_spec (k / w * w + b) k);
          try (exfalso; lia); cbn [andb]; rewrite ?andb_true_r, ?andb_false_r; auto.
      * rewrite (HT i b). destruct (Nat.ltb_spec b w) as [Hbw | Hbw]; auto. cbn [andb].
        assert (Hiu : i * w + b < k) by nia. pose proof Hiu as Hiu'. apply Nat.ltb_lt in Hiu'. rewrite Hiu'. cbn [andb]. auto.
    + rewrite N.bits_0. destruct (Nat.ltb_spec (i * w + b) k); [nia |]. rewrite andb_false_r. auto.
Qed.
End S.
