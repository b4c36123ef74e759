(** The operations of the arena keep its invariant. *)
From Coq Require Import List Arith Bool ZArith Lia.
Import ListNotations.
From Verif Require Import M_Arena Spec_Arena P_Arena.
Local Open Scope Z_scope.

Lemma writeWord_other m p v q : q < p \/ p + 8 <= q -> writeWord m p v q = m q.
Proof.
  intros H. unfold writeWord. destruct (q =? p) eqn:E; [lia|]. destruct (p <? q) eqn:E1; cbn; auto. destruct (q <? p + 8) eqn:E2; auto. lia.
Qed.
Lemma writeWord_same m p v : writeWord m p v p = v.
Proof. unfold writeWord. now rewrite Z.eqb_refl. Qed.
Lemma writeBlock_other m p b q : q < p \/ p + 32 <= q -> writeBlock m p b q = m q.
Proof. intros H. unfold writeBlock. now rewrite !writeWord_other by lia. Qed.
Lemma chain_frame m m' p bs : chain m p bs -> (forall b q, In b bs -> bend b <= q < bend b + 32 -> m' q = m q) -> chain m' p bs.
Proof.
  induction 1 as [|b l A B C D E IH]; intros H; [constructor|]. constructor; try (rewrite (H b) by (cbn; auto; lia); assumption). apply IH. intros b' q I. apply H. cbn. auto.
Qed.
Lemma heap_cases h1 h2 : forall hs, ForallOrdPairs separate hs -> In h1 hs -> In h2 hs -> h1 = h2 \/ separate h1 h2.
Proof.
  induction 1 as [|h hs F G IH]; intros A B; [inversion A|]. rewrite Forall_forall in F. destruct A as [->|A], B as [->|B]; auto. right. destruct (F _ A); unfold separate; tauto.
Qed.
(** Headers are not in allocations *)
Lemma header_apart a live lc old b x q : inv a live lc old -> In (buffer b) (heap a) -> In x live -> fst x <= q < fst x + snd x -> ~ (bend b <= q < bend b + 32).
Proof.
  intros I B X Q K. destruct (live_block _ _ _ _ x I X) as [b' [l [O [W [XL H]]]]]. pose proof (within_in _ _ _ W XL) as R. destruct (width_facts (snd x) ltac:(lia)) as [E _].
  destruct (heap_cases (buffer b) (buffer b') (heap a)) as [Y|Y]; auto; [apply I| |].
  - unfold buffer, sizeofBlock in Y. injection Y as Y1 Y2. lia.
  - unfold separate, buffer, sizeofBlock in Y. cbn [fst snd] in Y. assert (bbegin b <= bend b); [|lia].
    pose proof (i_heap _ _ _ _ I) as HP. rewrite HP in B. apply in_app_iff in B as [B|B].
    + destruct (isNull (cur a)) eqn:N; [inversion B|]. destruct B as [B|[]]. pose proof (i_cur _ _ _ _ I N) as [_ [U _]]. unfold buffer in B. injection B as B1 B2. lia.
    + apply in_map_iff in B as [c [B1 B2]]. apply in_map_iff in B2 as [[c' l'] [B3 B4]]. cbn in B3. subst c'. pose proof (i_old _ _ _ _ I) as F. rewrite Forall_forall in F. specialize (F _ B4). destruct F as [[_ [U _]] _]. cbn [fst] in U.
      unfold buffer in B1. injection B1 as B1 B5. lia.
Qed.
Lemma old_buffer a live lc old b : inv a live lc old -> In b (map fst old) -> In (buffer b) (heap a).
Proof. intros I B. rewrite (i_heap _ _ _ _ I). apply in_app_iff. right. now apply in_map. Qed.

Lemma write_inv a live lc old p size q v : inv a live lc old -> In (p, size) live -> p <= q < p + size -> inv (write a q v) live lc old.
Proof.
  intros I L Q. constructor; cbn [write cur heap mem]; try apply I. eapply chain_frame; [apply I|]. intros b r B R. destruct (r =? q) eqn:E; auto. exfalso.
  assert (r = q) by lia. subst. eapply (header_apart a live lc old b (p, size) q); eauto. eapply old_buffer; eauto.
Qed.

(** ** Allocation *)
Lemma capacity_ok a live lc old : inv a live lc old -> getFreeCapacity (cur a) = bend (cur a) - bfree (cur a) /\ (8 | bend (cur a) - bfree (cur a)) /\ 0 <= bfree (cur a) <= bend (cur a) /\ bend (cur a) + 32 < 2 ^ 64 /\ 0 <= bbegin (cur a) <= bfree (cur a).
Proof.
  intros I. destruct (isNull (cur a)) eqn:N.
  - destruct (i_null _ _ _ _ I N) as [-> _]. cbn. split; auto. split; [exists 0; lia | lia].
  - destruct (i_cur _ _ _ _ I N) as [O1 [O2 [O3 [O4 O5]]]]. pose proof (i_stack _ _ _ _ I) as S. pose proof (stacked_le _ _ _ S). pose proof (i_free _ _ _ _ I). destruct (stacked_aligned _ _ _ O4 S) as [FA _]. unfold sizeofBlock in O3.
    unfold getFreeCapacity. rewrite Z.mod_small by (unfold word; lia). split; auto. split; [now apply Z.divide_sub_r|]. lia.
Qed.
Lemma width_cap n c : 0 <= n -> (8 | c) -> Z.max 1 n <= c -> width n <= c.
Proof.
  intros N [k ->] H. destruct (width_facts n N) as [_ [_ [W [j E]]]]. lia.
Qed.
Lemma takeTop_inv a live lc old size n : inv a live lc old -> isNull (cur a) = false -> size = Z.max 1 n -> 0 <= n -> size <= bend (cur a) - bfree (cur a) ->
  exists a', takeTop a size = Done (bfree (cur a), a') /\ inv a' ((bfree (cur a), n) :: live) ((bfree (cur a), n) :: lc) old /\ mem a' = mem a.
Proof.
  intros I N -> K C. destruct (capacity_ok _ _ _ _ I) as [C1 [C2 [C3 C4]]]. eexists. split; [reflexivity|]. split; [|reflexivity].
  assert (alignNoOverflow (Z.max 1 n) = width n) as A. { rewrite align_width by (unfold word; lia). unfold width. now rewrite Z.max_r by lia. }
  rewrite A. constructor; cbn [cur heap mem bbegin bfree bend bprev isNull]; try apply I.
  - cbn. now rewrite (i_live _ _ _ _ I).
  - intros X. unfold isNull in *. cbn [bbegin] in X. congruence.
  - constructor; auto. apply I.
  - pose proof (width_cap n (bend (cur a) - bfree (cur a)) K C2 C). lia.
Qed.

Section New.
Variable new : nat -> list (Z * Z) -> Z -> option Z.
Hypothesis GN : good_new new.

Lemma grow_inv a live lc old needed : inv a live lc old -> 1 <= needed < 2 ^ 64 ->
  match growCapacity new a needed with
  | Done a' => exists old', inv a' live [] old' /\ isNull (cur a') = false /\ needed <= bend (cur a') - bfree (cur a') /\ keeps live a a'
  | Throws a' => heap a' = heap a /\ keeps live a a' /\ (isNull (cur a) = true -> mem a' = mem a /\ cur a' = cur a)
  | Undef => False
  end.
Proof.
  intros I NE. destruct (capacity_ok _ _ _ _ I) as [_ [_ [C3 [C4 C5]]]]. assert (GS : getSize (cur a) = bend (cur a) - bbegin (cur a)) by (unfold getSize; apply Z.mod_small; unfold word; lia).
  unfold growCapacity. rewrite GS. set (s0 := Z.max needed (bend (cur a) - bbegin (cur a))). destruct (s0 >? (word - 1) / 2) eqn:B1; [split; auto; split; [red; auto | auto]|].
  assert (S0 : s0 <= (word - 1) / 2) by (rewrite Z.gtb_ltb in B1; lia). assert (HALF : (word - 1) / 2 = 2 ^ 63 - 1) by reflexivity. rewrite HALF in S0.
  set (s1 := Z.max (s0 * 2) (16 * 1024 - sizeofBlock - 16)). assert (S1 : s1 = Z.max (s0 * 2) 16336) by reflexivity. rewrite land_mask by lia.
  pose proof (Z.div_mod s1 8 ltac:(lia)) as DM. pose proof (Z.mod_pos_bound s1 8 ltac:(lia)) as MB. set (size := 8 * (s1 / 8)) in *.
  assert (needed <= size) by lia.
  destruct (size >? word - 1 - sizeofBlock) eqn:B2; [split; auto; split; [red; auto | auto]|].
  assert (SZ : size <= 2 ^ 64 - 1 - 32) by (rewrite Z.gtb_ltb in B2; unfold word, sizeofBlock in B2; lia). cbv zeta.
  destruct (isNull (cur a)) eqn:N.
  - destruct (i_null _ _ _ _ I N) as [CU [-> ->]]. assert (HP : heap a = []) by (rewrite (i_heap _ _ _ _ I), N; reflexivity). rewrite CU in *. clear CU. destruct (new (ticks a) (heap a) (size + sizeofBlock)) as [p|] eqn:NW.
    + apply GN in NW as [P1 [P2 [P3 P4]]]. unfold sizeofBlock in *. exists []. cbn [cur bbegin bfree bend bprev isNull heap mem]. split; [|split; [unfold isNull; cbn; lia | split; [lia | red; auto]]].
      pose proof (i_live _ _ _ _ I) as IL. assert (NN : (p =? 0) = false) by lia.
      constructor; cbn [cur bbegin bfree bend bprev heap mem map fst]; auto; unfold isNull; cbn [bbegin]; rewrite ?NN; try discriminate; try lia.
      * constructor.
      * rewrite HP. unfold buffer, sizeofBlock. cbn [app map bbegin bend]. do 2 f_equal. lia.
      * intros _. unfold block_ok, sizeofBlock. cbn [bbegin bend]. split; [lia|]. split; [lia|]. split; [lia|]. split; auto. apply Z.divide_add_r; auto. exists (s1 / 8). unfold size. lia.
      * constructor.
      * rewrite HP. repeat constructor.
    + cbn. split; auto. split; [red; auto | auto].
  - destruct (i_cur _ _ _ _ I N) as [O1 [O2 [O3 [O4 O5]]]]. cbn [heap mem cur ticks bprev]. pose proof (i_heap _ _ _ _ I) as HP. rewrite N in HP.
    assert (KP : keeps live a (mkArena (cur a) (heap a) (writeBlock (mem a) (bend (cur a)) (cur a)) (ticks a))).
    { intros p sz q L Q. cbn [mem]. apply writeBlock_other. pose proof (header_apart a live lc old (cur a) (p, sz) q I) as HA. cbn [fst snd] in HA. rewrite HP in HA. specialize (HA ltac:(cbn; auto) L Q). lia. }
    destruct (new (ticks a) (heap a) (size + sizeofBlock)) as [p|] eqn:NW; cbn [heap mem cur ticks].
    + apply GN in NW as [P1 [P2 [P3 P4]]]. unfold sizeofBlock in *. exists ((cur a, lc) :: old). cbn [cur bbegin bfree bend bprev isNull heap mem].
      assert (NN : (p =? 0) = false) by lia. split; [|split; [unfold isNull; cbn; lia | split; [lia | exact KP]]].
      constructor; cbn [cur bbegin bfree bend bprev heap mem map fst snd concat]; auto; unfold isNull; cbn [bbegin]; rewrite ?NN; try discriminate; try lia.
      * apply I.
      * pose proof (i_sep _ _ _ _ I) as SP. rewrite HP in SP. cbn [app] in SP.
        constructor; unfold writeBlock.
        -- now rewrite !writeWord_other, writeWord_same by lia.
        -- now rewrite !(writeWord_other _ (bend (cur a) + 24)), !(writeWord_other _ (bend (cur a) + 16)), writeWord_same by lia.
        -- now rewrite !(writeWord_other _ (bend (cur a) + 24)), writeWord_same by lia.
        -- now rewrite writeWord_same.
        -- fold (writeBlock (mem a) (bend (cur a)) (cur a)). eapply chain_frame; [apply I|]. intros b q B Q. apply writeBlock_other.
           inversion SP as [|? ? S1' S2']; subst. rewrite Forall_forall in S1'. specialize (S1' (buffer b) ltac:(now apply in_map)). unfold separate, buffer, sizeofBlock in S1'. cbn [fst snd] in S1'.
           pose proof (i_old _ _ _ _ I) as F. rewrite Forall_forall in F. apply in_map_iff in B as [[b' l'] [E B]]. cbn in E. subst b'. specialize (F _ B). destruct F as [[_ [U _]] _]. cbn [fst] in U. lia.
      * unfold buffer at 1. cbn [app bbegin bend]. rewrite HP. cbn [app]. f_equal. f_equal. unfold sizeofBlock. lia.
      * intros _. unfold block_ok, sizeofBlock. cbn [bbegin bend]. split; [lia|]. split; [lia|]. split; [lia|]. split; auto. apply Z.divide_add_r; auto. exists (s1 / 8). unfold size. lia.
      * constructor.
      * constructor; [|apply I]. cbn [fst snd]. split; [unfold block_ok, sizeofBlock; auto | eapply cur_within; eauto].
      * constructor; [|apply I]. eapply Forall_impl; [|exact P4]. intros h. unfold separate. cbn. auto.
    + split; auto. split; [exact KP | discriminate].
Qed.

Lemma alloc_inv a live lc old size : inv a live lc old -> 0 <= size < 2 ^ 64 ->
  match alloc new a size with
  | Done (p, a') => (exists lc' old', inv a' ((p, size) :: live) lc' old') /\ keeps live a a'
  | Throws a' => heap a' = heap a /\ keeps live a a' /\ (isNull (cur a) = true -> mem a' = mem a /\ cur a' = cur a)
  | Undef => False
  end.
Proof.
  intros I Z. destruct (capacity_ok _ _ _ _ I) as [C1 [C2 [C3 [C4 C5]]]]. unfold alloc. rewrite C1. set (c := bend (cur a) - bfree (cur a)) in *.
  assert (NZ : 0 < c -> isNull (cur a) = false). { intros P. destruct (isNull (cur a)) eqn:N; auto. destruct (i_null _ _ _ _ I N) as [E _]. unfold c in P. rewrite E in P. cbn in P. lia. }
  assert (G : forall s, s = Z.max 1 size -> match obind (growCapacity new a s) (fun a => takeTop a s) with
    | Done (p, a') => (exists lc' old', inv a' ((p, size) :: live) lc' old') /\ keeps live a a'
    | Throws a' => heap a' = heap a /\ keeps live a a' /\ (isNull (cur a) = true -> mem a' = mem a /\ cur a' = cur a)
    | Undef => False end).
  { intros s ->. pose proof (grow_inv a live lc old (Z.max 1 size) I ltac:(lia)) as H. destruct (growCapacity new a (Z.max 1 size)) as [a'|a'|]; cbn [obind]; auto.
    destruct H as [old' [I' [N' [K KP]]]]. destruct (takeTop_inv a' live [] old' _ size I' N' eq_refl ltac:(lia) K) as [a2 [T [I2 M]]]. rewrite T. split; [eauto|]. intros p sz q L Q. rewrite M. eapply KP; eauto. }
  destruct (Z.eq_dec size 0) as [->|S0].
  - change ((0 - 1) mod word) with (word - 1). assert (word - 1 >=? c = true) as -> by (unfold word; lia). cbn [Z.eqb].
    destruct (c >? 0) eqn:CP; [|now apply G]. rewrite Z.gtb_ltb in CP.
    destruct (takeTop_inv a live lc old 1 0 I (NZ ltac:(lia)) eq_refl ltac:(lia) ltac:(fold c; lia)) as [a2 [T [I2 M]]]. rewrite T. split; [eauto|]. intros p sz q L Q. now rewrite M.
  - rewrite Z.mod_small by (unfold word; lia). assert (size =? 0 = false) as -> by lia. destruct (size - 1 >=? c) eqn:E; [apply G; lia|]. rewrite Z.geb_leb in E.
    destruct (takeTop_inv a live lc old size size I (NZ ltac:(lia)) ltac:(lia) ltac:(lia) ltac:(fold c; lia)) as [a2 [T [I2 M]]]. rewrite T. split; [eauto|]. intros p sz q L Q. now rewrite M.
Qed.
End New.
