(** Proofs about the model of packed square free terms: functions on several terms. *)
From Coq Require Import List Arith Bool NArith ZArith Lia.
Import ListNotations.
From Verif Require Import M_SqFree Spec_SqFree P_SqFree P_SqFree2 P_SqFree3.

Section S.
Variable w : nat.
Hypothesis Hw : 0 < w.

Lemma all_some_map {X Y} (f : X -> option Y) (g : X -> Y) l : (forall x, In x l -> f x = Some (g x)) ->
  all_some (map f l) = Some (map g l).
Proof.
  induction l as [| x l IH]; intros H; cbn; auto. rewrite (H x) by (left; auto). rewrite IH; auto.
  intros y Hy. apply H. right. auto.
Qed.
(** a column of words *)
Definition pks (n : nat) := Forall2 (pk w n).
Lemma pks_heads n gens As : pks n gens As -> all_some (map (@hd_error N) gens) = Some (map (hd 0%N) gens) /\
  Forall2 (wd (min n w)) (map (hd 0%N) gens) As.
Proof.
  intros H. split.
  - apply all_some_map. intros g Hg. induction H as [| g' A gens As H1 H2 IH]; [destruct Hg |].
    destruct Hg as [-> | Hg]; auto. destruct g; [destruct H1 | auto].
  - induction H as [| g A gens As H1 H2 IH]; cbn; constructor; auto. destruct g; [destruct H1 | apply H1].
Qed.
Lemma pks_tails n gens As : w < n -> pks n gens As -> pks (n - w) (map (@tl N) gens) (map (fun (A : vset) v => A (w + v)) As).
Proof.
  intros Hn H. induction H as [| g A gens As H1 H2 IH]; cbn; constructor; auto.
  destruct (pk_cases w Hw _ _ _ H1) as [[? ?] | [_ (x & t & -> & _ & Ht)]]; [lia | auto].
Qed.
Lemma fold_lor_wd k col As : Forall2 (wd k) col As -> forall x R, wd k x R ->
  wd k (fold_left N.lor col x) (fun v => R v || existsb (fun A : vset => A v) As).
Proof.
  induction 1 as [| y A col As H1 H2 IH]; intros x R Hx; cbn [fold_left existsb].
  - revert Hx. apply wd_ext. intros b _. rewrite orb_false_r. auto.
  - specialize (IH _ _ (wd_lor k _ _ _ _ Hx H1)). revert IH. apply wd_ext. intros b _. unfold s_union.
    rewrite orb_assoc. auto.
Qed.
Lemma existsb_map {X Y} (f : X -> Y) g l : existsb g (map f l) = existsb (fun x => g (f x)) l.
Proof. induction l as [| x l IH]; cbn; auto. rewrite IH. auto. Qed.
Lemma full_ones k x s : wd k x s -> ((x =? lowOnes k)%N = true <-> s_full k s).
Proof.
  intros H. rewrite N.eqb_eq. exact (wd_eq k x (lowOnes k) s (fun _ => true) H (wd_low w Hw k)).
Qed.
Lemma idealFull_pk n ig R : pk w n ig R -> forall gens As, pks n gens As ->
  exists r, sqi_hasFullSupport w gens ig n = Some r /\
    (r = true <-> s_full n (fun v => R v || existsb (fun A : vset => A v) As)).
Proof.
  revert n ig R. apply (pk_ind1 w Hw (fun n ig R => forall gens As, pks n gens As ->
    exists r, sqi_hasFullSupport w gens ig n = Some r /\
      (r = true <-> s_full n (fun v => R v || existsb (fun A : vset => A v) As)))).
  - intros n x R Hn Hx gens As Hg. cbn [sqi_hasFullSupport]. destruct (pks_heads n gens As Hg) as [-> Hh].
    rewrite Nat.min_l in Hh by auto. pose proof (fold_lor_wd n _ _ Hh x R Hx) as Hf.
    destruct (Nat.ltb_spec w n); [lia |]. destruct (Nat.eqb_spec n w) as [E | E]; eexists; (split; [reflexivity |]).
    + unfold allOnes. rewrite <- E, <- (lowOnes_ones). apply full_ones. auto.
    + apply full_ones. auto.
  - intros n x ig R Hn Hx Hig IH gens As Hg. cbn [sqi_hasFullSupport]. destruct (pks_heads n gens As Hg) as [-> Hh].
    rewrite Nat.min_r in Hh by lia. pose proof (fold_lor_wd w _ _ Hh x R Hx) as Hf.
    destruct (Nat.ltb_spec w n); [| lia]. pose proof (full_ones w _ _ Hf) as Ho.
    rewrite (lowOnes_ones) in Ho. fold (allOnes w) in Ho.
    destruct (fold_left N.lor (map (hd 0%N) gens) x =? allOnes w)%N eqn:E; cbn [negb].
    + destruct (IH _ _ (pks_tails n gens As Hn Hg)) as (r & -> & Hr). exists r. split; auto. rewrite Hr.
      unfold s_full. rewrite (split_index w Hw (fun v => R v || existsb (fun A : vset => A v) As = true) n Hn).
      split.
      * intros H1. split; [apply Ho; auto |]. intros v Hv. specialize (H1 v Hv). rewrite existsb_map in H1. auto.
      * intros [_ H1] v Hv. rewrite existsb_map. apply H1; auto.
    + exists false. split; auto. split; [discriminate |]. intros H1. apply Ho. intros v Hv. apply H1. lia.
Qed.

(** ** getExclusiveVarGenerator *)
Definition bcount (col : list N) (b : nat) : nat := length (filter (fun x => N.testbit x (N.of_nat b)) col).
Lemma once_twice_gen col : forall o t k b, N.testbit o (N.of_nat b) = (1 <=? k) -> N.testbit t (N.of_nat b) = (2 <=? k) ->
  let r := fold_left (fun ot x => (N.lor (fst ot) x, N.lor (snd ot) (N.land (fst ot) x))) col (o, t) in
  N.testbit (fst r) (N.of_nat b) = (1 <=? k + bcount col b) /\ N.testbit (snd r) (N.of_nat b) = (2 <=? k + bcount col b).
Proof.
  unfold bcount. induction col as [| x col IH]; intros o t k b Ho Ht; cbn [fold_left filter length].
  - rewrite Nat.add_0_r. auto.
  - cbn [fst snd]. destruct (N.testbit x (N.of_nat b)) eqn:E; cbn [length].
    + rewrite Nat.add_succ_r, <- Nat.add_succ_l. apply IH.
      * rewrite N.lor_spec, E, orb_true_r. auto.
      * rewrite N.lor_spec, N.land_spec, E, andb_true_r, Ho, Ht.
        destruct (Nat.leb_spec 2 k), (Nat.leb_spec 1 k), (Nat.leb_spec 2 (S k)); auto; lia.
    + apply IH.
      * rewrite N.lor_spec, E, orb_false_r. auto.
      * rewrite N.lor_spec, N.land_spec, E, andb_false_r, orb_false_r. auto.
Qed.
Lemma once_twice_spec col b : let (o, t) := once_twice col in
  N.testbit (N.ldiff o t) (N.of_nat b) = (bcount col b =? 1).
Proof.
  pose proof (once_twice_gen col 0%N 0%N 0 b (N.bits_0 _) (N.bits_0 _)) as H. cbv zeta in H. unfold once_twice.
  destruct (fold_left _ col (0%N, 0%N)) as [o t]. cbn [fst snd Nat.add] in H. destruct H as [H1 H2].
  rewrite N.ldiff_spec, H1, H2.
  destruct (Nat.leb_spec 1 (bcount col b)), (Nat.leb_spec 2 (bcount col b)), (Nat.eqb_spec (bcount col b) 1); auto; lia.
Qed.
Lemma land_bit x y : N.land x y <> 0%N <-> exists b, N.testbit x (N.of_nat b) = true /\ N.testbit y (N.of_nat b) = true.
Proof.
  split.
  - intros H. destruct (lowbit w Hw _ H) as (k & _ & Hk & _). rewrite N.land_spec in Hk. apply andb_true_iff in Hk. eauto.
  - intros (b & H1 & H2) E. assert (F : N.testbit (N.land x y) (N.of_nat b) = false) by (rewrite E; apply N.bits_0).
    rewrite N.land_spec, H1, H2 in F. discriminate.
Qed.
Lemma first_hit_spec mask col : forall i, (exists x, In x col /\ N.land x mask <> 0%N) ->
  exists j, first_hit mask col i = Some (i + j) /\ j < length col /\ N.land (nth j col 0%N) mask <> 0%N.
Proof.
  induction col as [| y col IH]; intros i (x & Hx & Hl); [destruct Hx |]. cbn [first_hit].
  destruct (N.eqb_spec (N.land y mask) 0) as [E | E]; cbn [negb].
  - destruct (IH (S i)) as (j & -> & H1 & H2). { destruct Hx as [-> | Hx]; [congruence | eauto]. }
    exists (S j). cbn [length nth]. split; [f_equal; lia |]. split; [lia | auto].
  - exists 0. cbn [length nth]. rewrite Nat.add_0_r. split; auto. split; [lia | auto].
Qed.
Lemma count_one {X} (p : X -> bool) d (l : list X) : length (filter p l) = 1 <->
  exists j, j < length l /\ p (nth j l d) = true /\ forall i, i < length l -> i <> j -> p (nth i l d) = false.
Proof.
  induction l as [| x l IH]; cbn [filter length].
  - split; [discriminate |]. intros (j & Hj & _). lia.
  - destruct (p x) eqn:E; cbn [length].
    + split.
      * intros H. injection H as H. exists 0. cbn [nth]. split; [lia |]. split; auto. intros [| i] Hi Hne; [lia |].
        destruct (p (nth (S i) (x :: l) d)) eqn:Ep; auto. cbn [nth] in Ep.
        assert (Hin : In (nth i l d) (filter p l)) by (apply filter_In; split; auto; apply nth_In; lia).
        destruct (filter p l); [destruct Hin | discriminate].
      * intros (j & Hj & Hp & Hu). assert (j = 0) as ->.
        { destruct j; auto. specialize (Hu 0 ltac:(lia) ltac:(lia)). cbn [nth] in Hu. congruence. }
        f_equal. destruct (filter p l) as [| y l'] eqn:Ef; auto. assert (Hin : In y (filter p l)) by (rewrite Ef; left; auto).
        apply filter_In in Hin. destruct Hin as [Hin Hy]. destruct (In_nth l y d Hin) as (i & Hi & Ei).
        specialize (Hu (S i) ltac:(lia) ltac:(lia)). cbn [nth] in Hu. congruence.
    + rewrite IH. split.
      * intros (j & Hj & Hp & Hu). exists (S j). cbn [nth]. split; [lia |]. split; auto.
        intros [| i] Hi Hne; auto. apply Hu; lia.
      * intros (j & Hj & Hp & Hu). destruct j as [| j]; [cbn [nth] in Hp; congruence |]. exists j.
        split; [lia |]. split; auto. intros i Hi Hne. apply (Hu (S i)); lia.
Qed.


Lemma Forall2_nth2 {X Y} (P : X -> Y -> Prop) dx dy l l' : Forall2 P l l' -> forall i, i < length l -> P (nth i l dx) (nth i l' dy).
Proof. induction 1; intros [| i] Hi; cbn in *; try lia; auto. apply IHForall2. lia. Qed.

Lemma Forall2_len {X Y} (P : X -> Y -> Prop) l l' : Forall2 P l l' -> length l = length l'.
Proof. induction 1; cbn; auto. Qed.
Lemma exclusive_words n gens As : Forall2 (packed w n) gens As -> forall words offset,
  offset + words = getWordCount w n ->
  exists r, sqi_exclusive gens words offset = Some r /\
    ((exists v, exclusive n As v r) \/
     (r = length gens /\ forall v j, offset * w <= v -> ~ exclusive n As v j)).
Proof.
  intros Hg. pose proof (Forall2_len _ _ _ Hg) as HlA.
  induction words as [| words IH]; intros offset Ho; cbn [sqi_exclusive].
  - exists (length gens). split; auto. right. split; auto. intros v j Hv (H1 & _).
    destruct (wordCount_spec w Hw n) as [[? ?] | [? ?]]; nia.
  - assert (Hcol : all_some (map (fun g => nth_error g offset) gens) = Some (map (fun g => nth offset g 0%N) gens)).
    { apply all_some_map. intros g Hin. destruct (In_nth gens g [] Hin) as (i & Hi & <-).
      pose proof (Forall2_nth2 _ [] (fun _ => false) _ _ Hg i Hi) as Hp. pose proof (packed_length w Hw _ _ _ Hp) as Hl.
      apply nth_error_nth'. lia. }
    rewrite Hcol. clear Hcol. set (col := map (fun g => nth offset g 0%N) gens).
    assert (Hlc : length col = length gens) by (unfold col; apply map_length).
    assert (Hbit : forall i b, i < length gens -> N.testbit (nth i col 0%N) (N.of_nat b) =
       (b <? w) && (offset * w + b <? n) && nth i As (fun _ => false) (offset * w + b)).
    { intros i b Hi. unfold col. rewrite (nth_indep _ 0%N (nth offset [] 0%N)) by (rewrite map_length; auto).
      rewrite (map_nth (fun g => nth offset g 0%N)). destruct (Forall2_nth2 _ [] (fun _ => false) _ _ Hg i Hi) as [_ Hp].
      apply Hp. }
    pose proof (once_twice_spec col) as Hot. destruct (once_twice col) as [o t].
    destruct (N.eqb_spec (N.ldiff o t) 0) as [E | E]; cbn [negb].
    + destruct (IH (S offset) ltac:(lia)) as (r & -> & Hr). exists r. split; auto. destruct Hr as [Hr | [Hr1 Hr2]]; auto.
      right. split; auto. intros v j Hv Hex. destruct (Nat.lt_ge_cases v (S offset * w)) as [Hlt | Hge]; [| eapply Hr2; eauto].
      destruct Hex as (Hvn & Hj & HA & Hu). set (b := v - offset * w).
      assert (Ev : v = offset * w + b) by (unfold b; lia). assert (Hb : b < w) by (unfold b; cbn in Hlt; lia).
      assert (F : N.testbit (N.ldiff o t) (N.of_nat b) = false) by (rewrite E; apply N.bits_0).
      rewrite Hot in F. apply Nat.eqb_neq in F. apply F. unfold bcount. apply (count_one _ 0%N). exists j.
      rewrite Hlc. split; [lia |]. apply Nat.ltb_lt in Hb. apply Nat.ltb_lt in Hvn. split.
      * rewrite Hbit by lia. rewrite <- Ev, Hb, Hvn, HA. auto.
      * intros i Hi Hne. rewrite Hbit by lia. rewrite <- Ev, (Hu i) by lia. apply andb_false_r.
    + destruct (lowbit w Hw _ E) as (b & _ & Hb & _). pose proof Hb as Hb'. rewrite Hot in Hb. apply Nat.eqb_eq in Hb. unfold bcount in Hb.
      apply (count_one _ 0%N) in Hb. destruct Hb as (j0 & Hj0 & Hp0 & Hu0).
      destruct (first_hit_spec (N.ldiff o t) col 0) as (j & -> & Hj & Hl).
      { exists (nth j0 col 0%N). split; [apply nth_In; auto |]. apply land_bit. exists b. split; auto. }
      exists j. split; auto. left. apply land_bit in Hl. destruct Hl as (b' & H1 & H2). rewrite Hot in H2.
      apply Nat.eqb_eq in H2. unfold bcount in H2. apply (count_one _ 0%N) in H2. destruct H2 as (j1 & Hj1 & Hp1 & Hu1).
      assert (j1 = j) as ->. { destruct (Nat.eq_dec j j1); auto. rewrite (Hu1 j) in H1 by auto. discriminate. }
      rewrite Hlc in *. rewrite Hbit in H1 by auto. apply andb_true_iff in H1. destruct H1 as [H1 HA].
      apply andb_true_iff in H1. destruct H1 as [Hb1 Hb2]. exists (offset * w + b'). split; [apply Nat.ltb_lt; auto |].
      split; [lia |]. split; auto. intros i Hi Hne. specialize (Hu1 i ltac:(lia) Hne). rewrite Hbit in Hu1 by lia.
      rewrite Hb1, Hb2 in Hu1. auto.
Qed.
Lemma exclusive_packed n gens As : Forall2 (packed w n) gens As ->
  exists r, sqi_getExclusiveVarGenerator w gens n = Some r /\
    ((exists v, exclusive n As v r) \/ (r = length gens /\ forall v j, ~ exclusive n As v j)).
Proof.
  intros H. unfold sqi_getExclusiveVarGenerator.
  destruct (exclusive_words n gens As H (getWordCount w n) 0 ltac:(lia)) as (r & E & Hr). exists r. split; auto.
  destruct Hr as [Hr | [Hr1 Hr2]]; auto. right. split; auto. intros v j. apply Hr2. cbn. lia.
Qed.
End S.
