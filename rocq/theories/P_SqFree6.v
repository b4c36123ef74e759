(** Proofs about the model of packed square free terms: the counting of divisors and the size of an ideal. *)
From Coq Require Import List Arith Bool NArith ZArith Lia.
Import ListNotations.
From Verif Require Import M_SqFree Spec_SqFree P_SqFree P_SqFree2 P_SqFree3 P_SqFree5.

Section S.
Variable w : nat.
Hypothesis Hw : 0 < w.
Hypothesis Hw4 : w mod 4 = 0.

(** ** Numbers in base 16 *)
Fixpoint val16 (c : nat -> N) (m : nat) : N :=
  match m with 0 => 0%N | S m' => (c 0%nat + 16 * val16 (fun i => c (S i)) m')%N end.
Lemma val16_ext m : forall c c', (forall i, i < m -> c i = c' i) -> val16 c m = val16 c' m.
Proof.
  induction m as [| m IH]; intros c c' H; cbn [val16]; auto. rewrite (H 0) by lia.
  rewrite (IH (fun i => c (S i)) (fun i => c' (S i))); auto. intros i Hi. apply H. lia.
Qed.
Lemma val16_add m : forall c c', (val16 c m + val16 c' m)%N = val16 (fun i => c i + c' i)%N m.
Proof. induction m as [| m IH]; intros c c'; cbn [val16]; [lia |]. rewrite <- IH. lia. Qed.
Lemma val16_bound m : forall c, (forall i, i < m -> (c i <= 15)%N) -> (val16 c m < 16 ^ N.of_nat m)%N.
Proof.
  induction m as [| m IH]; intros c H; cbn [val16]; [cbn; lia |]. rewrite Nat2N.inj_succ, N.pow_succ_r'.
  pose proof (IH (fun i => c (S i)) ltac:(intros i Hi; apply H; lia)). specialize (H 0 ltac:(lia)). lia.
Qed.
Lemma val16_ones m : (15 * val16 (fun _ => 1) m = 16 ^ N.of_nat m - 1)%N.
Proof.
  induction m as [| m IH]; cbn [val16]; [cbn; lia |]. rewrite Nat2N.inj_succ, N.pow_succ_r'.
  assert (16 ^ N.of_nat m <> 0)%N by (apply N.pow_nonzero; lia). lia.
Qed.
Lemma pow16 : (16 ^ N.of_nat (w / 4) = 2 ^ N.of_nat w)%N.
Proof.
  change 16%N with (2 ^ 4)%N. rewrite <- N.pow_mul_r. f_equal. pose proof (Nat.div_mod w 4 ltac:(lia)). lia.
Qed.
Lemma mask15_val : mask15 w = val16 (fun _ => 1%N) (w / 4).
Proof.
  unfold mask15, allOnes. rewrite N.ones_equiv, N.pred_sub, <- pow16, <- val16_ones.
  rewrite N.mul_comm. apply N.div_mul. lia.
Qed.
Lemma testbit_digit r z b : (r < 16)%N ->
  N.testbit (r + 16 * z) (N.of_nat b) = if b <? 4 then N.testbit r (N.of_nat b) else N.testbit z (N.of_nat (b - 4)).
Proof.
  intros Hr. assert (H1 : ((r + 16 * z) mod 2 ^ 4 = r)%N).
  { change (2 ^ 4)%N with 16%N. rewrite N.mul_comm, N.mod_add by lia. apply N.mod_small. auto. }
  assert (H2 : ((r + 16 * z) / 2 ^ 4 = z)%N).
  { change (2 ^ 4)%N with 16%N. rewrite N.mul_comm, N.div_add by lia. rewrite N.div_small by auto. lia. }
  destruct (Nat.ltb_spec b 4) as [Hb | Hb].
  - rewrite <- H1 at 2. rewrite N.mod_pow2_bits_low by lia. auto.
  - rewrite <- H2 at 2. rewrite N.div_pow2_bits. f_equal. lia.
Qed.
Lemma land_digit y M : N.land y (1 + 16 * M) = (N.b2n (N.testbit y 0) + 16 * N.land (N.shiftr y 4) M)%N.
Proof.
  apply (bits_ext). intros b. rewrite N.land_spec, (testbit_digit 1 M b) by lia.
  rewrite testbit_digit by (destruct (N.testbit y 0); cbn; lia).
  destruct (Nat.ltb_spec b 4) as [Hb | Hb].
  - destruct b as [| b].
    + change (N.of_nat 0) with 0%N. destruct (N.testbit y 0); auto.
    + assert (Hz : forall c : bool, N.testbit (N.b2n c) (N.of_nat (S b)) = false).
      { intros [|]; cbn [N.b2n]; [| apply N.bits_0]. change 1%N with (2 * 0 + 1)%N.
        rewrite Nat2N.inj_succ, N.testbit_odd_succ by lia. apply N.bits_0. }
      rewrite Hz. change 1%N with (N.b2n true). rewrite Hz, andb_false_r. auto.
  - rewrite N.land_spec, N.shiftr_spec'. f_equal. f_equal. lia.
Qed.
Lemma land_val m : forall y, N.land y (val16 (fun _ => 1%N) m) = val16 (fun i => N.b2n (N.testbit y (N.of_nat (4 * i)))) m.
Proof.
  induction m as [| m IH]; intros y; cbn [val16]; [apply N.land_0_r |]. rewrite land_digit, IH. f_equal. f_equal.
  apply val16_ext. intros i _. rewrite N.shiftr_spec'. f_equal. f_equal. lia.
Qed.

(** ** The counters *)
Lemma nibbles_gen (k : nat) col : forall acc c, acc = val16 c (w / 4) ->
  (forall i, i < w / 4 -> (c i + N.of_nat (bcount col (4 * i + k)) <= 15)%N) ->
  fold_left (fun acc x => (acc + N.land (N.shiftr x (N.of_nat k)) (mask15 w)) mod 2 ^ N.of_nat w)%N col acc =
  val16 (fun i => (c i + N.of_nat (bcount col (4 * i + k)))%N) (w / 4).
Proof.
  induction col as [| x col IH]; intros acc c Ha Hc; cbn [fold_left].
  - rewrite Ha. apply val16_ext. intros i _. unfold bcount. cbn. lia.
  - assert (Hb : forall i, bcount (x :: col) (4 * i + k) =
      (if N.testbit x (N.of_nat (4 * i + k)) then 1 else 0) + bcount col (4 * i + k)).
    { intros i. unfold bcount. cbn [filter]. destruct (N.testbit x (N.of_nat (4 * i + k))); auto. }
    rewrite (IH _ (fun i => (c i + N.b2n (N.testbit x (N.of_nat (4 * i + k)))))%N).
    + apply val16_ext. intros i _. rewrite Hb. destruct (N.testbit x (N.of_nat (4 * i + k))); cbn [N.b2n]; lia.
    + rewrite mask15_val, land_val, Ha, val16_add.
      rewrite N.mod_small.
      * apply val16_ext. intros i _. rewrite N.shiftr_spec'. f_equal. f_equal. f_equal. lia.
      * rewrite <- pow16. apply val16_bound. intros i Hi. specialize (Hc i Hi). rewrite Hb in Hc.
        rewrite N.shiftr_spec'. replace (N.of_nat (4 * i) + N.of_nat k)%N with (N.of_nat (4 * i + k)) by lia.
        destruct (N.testbit x (N.of_nat (4 * i + k))); cbn [N.b2n]; lia.
    + intros i Hi. specialize (Hc i Hi). rewrite Hb in Hc. destruct (N.testbit x (N.of_nat (4 * i + k))); cbn [N.b2n]; lia.
Qed.
Lemma bcount_le col b : bcount col b <= length col.
Proof. unfold bcount. induction col as [| x col IH]; cbn [filter length]; auto. destruct (N.testbit x _); cbn [length]; lia. Qed.
Lemma nibbles_val k col : length col <= 15 ->
  nibbles w (N.of_nat k) col = val16 (fun i => N.of_nat (bcount col (4 * i + k))) (w / 4).
Proof.
  intros H. unfold nibbles. rewrite (nibbles_gen k col 0%N (fun _ => 0%N)).
  - apply val16_ext. intros; lia.
  - clear. induction (w / 4) as [| m IH]; cbn [val16]; auto. rewrite <- IH. auto.
  - intros i _. pose proof (bcount_le col (4 * i + k)). lia.
Qed.
Lemma digit_low r z : (r <= 15)%N -> N.land (r + 16 * z) 15 = r.
Proof.
  intros H. change 15%N with (N.ones 4). rewrite N.land_ones. change (2 ^ 4)%N with 16%N.
  rewrite N.mul_comm, N.mod_add by lia. apply N.mod_small. lia.
Qed.
Lemma digit_high r z : (r <= 15)%N -> N.shiftr (r + 16 * z) 4 = z.
Proof.
  intros H. rewrite N.shiftr_div_pow2. change (2 ^ 4)%N with 16%N. rewrite N.mul_comm, N.div_add by lia.
  rewrite N.div_small by lia. lia.
Qed.
Lemma add_counts_spec m : forall g counts, (forall v, (g v <= 15)%N) -> 4 * m <= length counts ->
  exists r, add_counts m (val16 (fun i => g (4 * i)) m) (val16 (fun i => g (4 * i + 1)) m)
      (val16 (fun i => g (4 * i + 2)) m) (val16 (fun i => g (4 * i + 3)) m) counts = Some r /\
    length r = length counts /\
    forall v, nth v r 0%N = (nth v counts 0 + if (v <? 4 * m)%nat then g v else 0)%N.
Proof.
  induction m as [| m IH]; intros g counts Hg Hl.
  - exists counts. cbn. split; auto. split; auto. intros v. destruct (v <? 0) eqn:E; [| lia]. apply Nat.ltb_lt in E. lia.
  - do 4 (destruct counts as [| ? counts]; [cbn in Hl; lia |]). cbn [length] in Hl.
    destruct (IH (fun v => g (4 + v)) counts ltac:(intros; apply Hg) ltac:(lia)) as (r & E & H1 & H2).
    cbn [add_counts val16]. rewrite !digit_low, !digit_high by apply Hg.
    assert (Es : forall j, val16 (fun i => g (4 * S i + j)) m = val16 (fun i => g (4 + (4 * i + j))) m).
    { intros j. apply val16_ext. intros i _. f_equal. lia. }
    assert (E0 : val16 (fun i => g (4 * S i)) m = val16 (fun i => g (4 + (4 * i))) m).
    { apply val16_ext. intros i _. f_equal. lia. }
    rewrite !Es, E0, E. eexists. split; [reflexivity |]. split; [cbn; lia |].
    intros [| [| [| [| v]]]]; try (cbn [nth]; match goal with |- context [?a <? ?b] => destruct (Nat.ltb_spec a b); [| lia] end; f_equal; f_equal; lia).
    cbn [nth]. rewrite H2. f_equal. destruct (Nat.ltb_spec v (4 * m)), (Nat.ltb_spec (S (S (S (S v)))) (4 * S m)); auto; lia.
Qed.
Lemma countBlock_spec col counts : length col <= 15 -> w <= length counts ->
  exists r, countBlock w col counts = Some r /\ length r = length counts /\
    forall v, nth v r 0%N = (nth v counts 0 + if (v <? w)%nat then N.of_nat (bcount col v) else 0)%N.
Proof.
  intros Hc Hl. unfold countBlock. change 0%N with (N.of_nat 0) at 1. change 1%N with (N.of_nat 1). change 2%N with (N.of_nat 2).
  change 3%N with (N.of_nat 3). rewrite !nibbles_val by auto. pose proof (Nat.div_mod w 4 ltac:(lia)) as Hd. rewrite Hw4, Nat.add_0_r in Hd.
  destruct (add_counts_spec (w / 4) (fun v => N.of_nat (bcount col v)) counts) as (r & E & H1 & H2).
  - intros v. pose proof (bcount_le col v). lia.
  - lia.
  - exists r. rewrite <- Hd in H2. split; [| auto]. rewrite <- E. f_equal. apply val16_ext. intros i _. do 2 f_equal. lia.
Qed.
Lemma bcount_wd k col As b : Forall2 (wd k) col As -> b < k -> bcount col b = scount As b.
Proof.
  intros H Hb. unfold bcount, scount. induction H as [| x A col As H1 H2 IH]; auto. cbn [filter].
  rewrite (wd_bit k x A b H1 Hb). destruct (A b); cbn [length]; auto.
Qed.
Lemma bcount_high k col As b : Forall2 (wd k) col As -> k <= b -> bcount col b = 0.
Proof.
  intros H Hb. unfold bcount. induction H as [| x A col As H1 H2 IH]; auto. cbn [filter].
  rewrite (wd_high k x A b H1 Hb). auto.
Qed.
Lemma scount_map u As v : scount (map (fun (A : vset) v => A (u + v)) As) v = scount As (u + v).
Proof. unfold scount. induction As as [| A As IH]; auto. cbn [map filter]. destruct (A (u + v)); cbn [length]; auto. Qed.
Lemma count_words_spec words : forall n block As counts, words = getWordCount w n -> pks w n block As -> length block <= 15 ->
  length counts = w * words ->
  exists r, count_words w block counts words = Some r /\ length r = length counts /\
    forall v, v < n -> nth v r 0%N = (nth v counts 0 + N.of_nat (scount As v))%N.
Proof.
  induction words as [| words IH]; intros n block As counts Hn Hb Hl Hc.
  { destruct (wordCount_spec w Hw n) as [[? ?] | [? ?]]; [lia |]. nia. }
  cbn [count_words]. destruct (pks_heads w n block As Hb) as [-> Hh].
  destruct (countBlock_spec (map (hd 0%N) block) counts) as (c & -> & H1 & H2); [rewrite map_length; auto | nia |].
  destruct (Nat.le_gt_cases n w) as [Hle | Hgt].
  - assert (words = 0) as ->.
    { destruct n as [| n]; [cbn in Hn; lia |]. rewrite (wordCount_small w Hw) in Hn by lia. lia. }
    cbn [count_words option_map]. eexists. split; [reflexivity |]. rewrite firstn_skipn. split; auto.
    intros v Hv. rewrite H2. destruct (Nat.ltb_spec v w); [| lia]. rewrite Nat.min_l in Hh by auto.
    rewrite (bcount_wd n _ As v Hh) by auto. auto.
  - rewrite (wordCount_more w Hw) in Hn by auto. injection Hn as Hn.
    destruct (IH (n - w) (map (@tl N) block) _ (skipn w c) Hn (pks_tails w Hw n block As Hgt Hb)) as (r & -> & H3 & H4).
    + rewrite map_length. auto.
    + rewrite skipn_length. nia.
    + cbn [option_map]. eexists. split; [reflexivity |].
      assert (Hfl : length (firstn w c) = w) by (rewrite firstn_length; nia).
      split; [rewrite app_length, H3, Hfl, skipn_length; nia |].
      intros v Hv. rewrite Nat.min_r in Hh by lia. destruct (Nat.lt_ge_cases v w) as [Hvw | Hvw].
      * rewrite app_nth1 by lia. rewrite nth_firstn by auto. apply Nat.ltb_lt in Hvw. rewrite Hvw. rewrite H2, Hvw.
        apply Nat.ltb_lt in Hvw. rewrite (bcount_wd w _ As v Hh) by auto. auto.
      * rewrite app_nth2 by lia. rewrite Hfl, H4 by lia. rewrite nth_skipn by auto. rewrite scount_map.
        replace (w + (v - w)) with v by lia. rewrite H2. destruct (Nat.ltb_spec v w); [lia |]. lia.
Qed.
Lemma scount_app As Bs v : scount (As ++ Bs) v = scount As v + scount Bs v.
Proof. unfold scount. rewrite filter_app, app_length. auto. Qed.
Lemma Forall2_firstn {X Y} (P : X -> Y -> Prop) k l l' : Forall2 P l l' -> Forall2 P (firstn k l) (firstn k l').
Proof. intros H. revert k. induction H; intros [| k]; cbn; constructor; auto. Qed.
Lemma Forall2_skipn {X Y} (P : X -> Y -> Prop) k l l' : Forall2 P l l' -> Forall2 P (skipn k l) (skipn k l').
Proof. intros H. revert k. induction H; intros [| k]; cbn; try constructor; auto. Qed.
Lemma count_blocks_spec n fuel : forall gens As counts, length gens <= fuel -> pks w n gens As ->
  length counts = w * getWordCount w n ->
  exists r, count_blocks w fuel gens counts (getWordCount w n) = Some r /\ length r = length counts /\
    forall v, v < n -> nth v r 0%N = (nth v counts 0 + N.of_nat (scount As v))%N.
Proof.
  induction fuel as [| fuel IH]; intros gens As counts Hf Hg Hl.
  - destruct gens; [| cbn in Hf; lia]. inversion Hg; subst. exists counts. cbn. split; auto. split; auto.
    intros v _. unfold scount. cbn. lia.
  - destruct gens as [| g gens].
    { inversion Hg; subst. exists counts. cbn. split; auto. split; auto. intros v _. unfold scount. cbn. lia. }
    assert (Hc : count_blocks w (S fuel) (g :: gens) counts (getWordCount w n) =
      match count_words w (firstn 15 (g :: gens)) counts (getWordCount w n) with
      | None => None
      | Some c => count_blocks w fuel (skipn 15 (g :: gens)) c (getWordCount w n)
      end) by reflexivity.
    rewrite Hc. clear Hc.
    destruct (count_words_spec _ n (firstn 15 (g :: gens)) (firstn 15 As) counts eq_refl) as (c & -> & H1 & H2); auto.
    + apply Forall2_firstn. auto.
    + rewrite firstn_length. lia.
    + destruct (IH (skipn 15 (g :: gens)) (skipn 15 As) c) as (r & E & H3 & H4).
      * rewrite skipn_length. cbn [length] in *. lia.
      * apply Forall2_skipn. auto.
      * lia.
      * exists r. split; auto. split; [lia |]. intros v Hv. rewrite H4, H2 by auto.
        rewrite <- (firstn_skipn 15 As) at 3. rewrite scount_app. lia.
Qed.
Lemma counts_packed n gens As : Forall2 (packed w n) gens As ->
  exists r, sqi_getVarDividesCounts w gens n = Some r /\ length r = n /\
    forall v, v < n -> nth v r 0%N = N.of_nat (scount As v).
Proof.
  intros H. unfold sqi_getVarDividesCounts, sqterm in *.
  assert (Hp : pks w n gens As). { induction H; constructor; auto. apply packed_pk; auto. }
  destruct (count_blocks_spec n (length gens) gens As (repeat 0%N (w * getWordCount w n)) (le_n _) Hp) as (r & -> & H1 & H2).
  { apply repeat_length. }
  cbn [option_map]. eexists. split; [reflexivity |]. rewrite repeat_length in H1.
  pose proof (wordCount_spec w Hw n) as Hwc. split.
  - rewrite firstn_length. lia.
  - intros v Hv. rewrite nth_firstn by auto. pose proof Hv as Hv'. apply Nat.ltb_lt in Hv'. rewrite Hv', H2 by auto.
    replace (nth v (repeat 0%N (w * getWordCount w n)) 0%N) with 0%N; auto. clear.
    revert v. induction (w * getWordCount w n) as [| m IH]; intros [| v]; cbn; auto.
Qed.
End S.

(** ** getBytesOfMemoryFor *)
Lemma bytes_spec wb bfs smax n g : (0 < wb -> 0 < smax -> bfs <= smax -> n <= smax ->
  let words := if n =? 0 then 1 else (n - 1) / (8 * wb) + 1 in
  let exact := bfs + g * (words * wb) in
  sqi_getBytesOfMemoryFor wb bfs smax n g = if exact <=? smax then exact else 0)%N.
Proof.
  intros Hwb Hs Hb Hn. cbv zeta. unfold sqi_getBytesOfMemoryFor. destruct (N.eqb_spec g 0) as [-> | Hg].
  { rewrite N.mul_0_l, N.add_0_r. destruct (N.leb_spec bfs smax); [auto | lia]. }
  assert (Hunal : ((if n =? 0 then 1 else ((n - 1) / 8 + 1) mod (smax + 1)) = if n =? 0 then 1 else (n - 1) / 8 + 1)%N).
  { destruct (N.eqb_spec n 0) as [-> | Hn0]; auto. apply N.mod_small.
    assert ((n - 1) / 8 <= n - 1)%N by (apply N.div_le_upper_bound; lia). lia. }
  rewrite Hunal. clear Hunal.
  set (words := (if n =? 0 then 1 else (n - 1) / (8 * wb) + 1)%N).
  assert (Hword : (((if n =? 0 then 1 else (n - 1) / 8 + 1) - 1) / wb + 1 = words)%N).
  { unfold words. destruct (N.eqb_spec n 0) as [-> | Hn0]; [rewrite N.div_0_l by lia; auto |].
    rewrite N.add_sub. rewrite N.div_div by lia. auto. }
  rewrite Hword. clear Hword.
  assert (Hwle : (words <= smax)%N).
  { unfold words. destruct (N.eqb_spec n 0) as [-> | Hn0]; [lia |].
    assert ((n - 1) / (8 * wb) <= n - 1)%N by (apply N.div_le_upper_bound; nia). lia. }
  rewrite (N.mod_small words) by lia.
  assert (Hw1 : (1 <= words)%N).
  { unfold words. generalize ((n - 1) / (8 * wb))%N. intros q. destruct (n =? 0)%N; lia. }
  clearbody words.
  assert (Hg1 : (words * wb <= g * (words * wb))%N).
  { rewrite <- (N.mul_1_l (words * wb)) at 1. apply N.mul_le_mono_r. lia. }
  destruct (N.ltb_spec (smax / wb) words) as [H1 | H1].
  { destruct (N.leb_spec (bfs + g * (words * wb)) smax) as [H2 | H2]; auto. exfalso.
    assert (words <= smax / wb)%N by (apply N.div_le_lower_bound; lia). lia. }
  assert (H1' : (words * wb <= smax)%N). { pose proof (N.mul_div_le smax wb ltac:(lia)) as Hm.
    apply (N.mul_le_mono_l _ _ wb) in H1. lia. }
  rewrite (N.mod_small (words * wb)) by lia.
  destruct (N.ltb_spec (smax / g) (words * wb)) as [H2 | H2].
  { destruct (N.leb_spec (bfs + g * (words * wb)) smax) as [H3 | H3]; auto. exfalso.
    assert (words * wb <= smax / g)%N by (apply N.div_le_lower_bound; lia). lia. }
  assert (H2' : (words * wb * g <= smax)%N). { pose proof (N.mul_div_le smax g ltac:(lia)) as Hm.
    apply (N.mul_le_mono_l _ _ g) in H2. lia. }
  rewrite (N.mod_small (words * wb * g)) by lia.
  replace (g * (words * wb))%N with (words * wb * g)%N by lia.
  destruct (N.ltb_spec (smax - bfs) (words * wb * g)) as [H3 | H3];
    destruct (N.leb_spec (bfs + words * wb * g) smax) as [H4 | H4]; auto; try lia.
  apply N.mod_small. lia.
Qed.
