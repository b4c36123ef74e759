(** Proofs about the arena allocator. *)
From Coq Require Import List Arith Bool ZArith Lia.
Import ListNotations.
From Verif Require Import M_Arena Spec_Arena.
Local Open Scope Z_scope.

Lemma land_mask x : 0 <= x < 2 ^ 64 -> Z.land x (word - 1 - (alignment - 1)) = 8 * (x / 8).
Proof.
  intros H. change (word - 1 - (alignment - 1)) with (Z.shiftl (Z.ones 61) 3). change (8 * (x / 8)) with (2 ^ 3 * (x / 2 ^ 3)).
  rewrite <- Z.shiftr_div_pow2 by lia. rewrite Z.mul_comm, <- Z.shiftl_mul_pow2 by lia. apply Z.bits_inj'. intros n N. rewrite Z.land_spec.
  rewrite !Z.shiftl_spec by lia. destruct (Z.lt_ge_cases n 3).
  - rewrite (Z.testbit_neg_r _ (n - 3)), (Z.testbit_neg_r _ (n - 3)) by lia. now rewrite andb_false_r.
  - rewrite Z.shiftr_spec by lia. replace (n - 3 + 3) with n by lia. rewrite Z.testbit_ones_nonneg by lia.
    destruct (n - 3 <? 61) eqn:E; [now rewrite andb_true_r|]. rewrite andb_false_r. symmetry. apply Z.ltb_ge in E.
    rewrite Z.testbit_odd. rewrite Z.shiftr_div_pow2 by lia. rewrite Z.div_small; [reflexivity|]. split; [lia|].
    eapply Z.lt_le_trans; [apply H|]. apply Z.pow_le_mono_r; lia.
Qed.
Definition width (n : Z) : Z := 8 * ((Z.max 1 n + 7) / 8).
Lemma width_facts n : 0 <= n -> n <= width n /\ 8 <= width n /\ width n <= Z.max 1 n + 7 /\ (8 | width n).
Proof.
  intros H. unfold width. pose proof (Z.div_mod (Z.max 1 n + 7) 8 ltac:(lia)). pose proof (Z.mod_pos_bound (Z.max 1 n + 7) 8 ltac:(lia)).
  split; [lia|]. split; [lia|]. split; [lia|]. exists ((Z.max 1 n + 7) / 8). lia.
Qed.
Lemma align_width n : 0 < n <= word - 8 -> alignNoOverflow n = width n.
Proof.
  intros H. unfold word in H. unfold alignNoOverflow. change (alignment - 1) with 7 at 1. rewrite Z.mod_small by (unfold word; lia). rewrite land_mask by lia. unfold width. now rewrite Z.max_r by lia.
Qed.
Lemma align_one : alignNoOverflow 1 = width 0.
Proof. reflexivity. Qed.

(** ** Allocations that follow each other *)
Inductive stacked (b : Z) : Z -> list (Z * Z) -> Prop :=
| st_nil : stacked b b []
| st_cons : forall p n l, 0 <= n -> stacked b p l -> stacked b (p + width n) ((p, n) :: l).
Lemma stacked_le b t l : stacked b t l -> b <= t.
Proof. induction 1 as [|p n l N S IH]; [lia|]. destruct (width_facts n N) as [_ [? _]]. lia. Qed.
Lemma stacked_in b t l : stacked b t l -> Forall (fun x => b <= fst x /\ 0 <= snd x /\ fst x + width (snd x) <= t) l.
Proof.
  induction 1 as [|p n l N S IH]; constructor; cbn [fst snd].
  - apply stacked_le in S. lia.
  - eapply Forall_impl; [|exact IH]. cbv beta. intros x H. destruct (width_facts n N) as [_ [? _]]. lia.
Qed.
Lemma stacked_apart b t l : stacked b t l -> ForallOrdPairs apart l.
Proof.
  induction 1 as [|p n l N S IH]; constructor; auto. apply stacked_in in S. eapply Forall_impl; [|exact S]. intros [q m] [A [B C]]. cbn [fst snd] in *.
  right. cbn [fst snd]. destruct (width_facts m B) as [W1 [W2 _]]. lia.
Qed.
Lemma stacked_aligned b t l : (8 | b) -> stacked b t l -> (8 | t) /\ Forall (fun x => (8 | fst x)) l.
Proof.
  intros D. induction 1 as [|p n l N S IH]; auto. destruct IH as [I1 I2]. destruct (width_facts n N) as [_ [_ [_ W]]]. split; [now apply Z.divide_add_r|]. constructor; auto.
Qed.
Lemma stacked_drop b : forall l1 t p n l2, stacked b t (l1 ++ (p, n) :: l2) -> stacked b p l2 /\ p < t.
Proof.
  induction l1 as [|[q m] l1 IH]; intros t p n l2 S.
  - inversion S as [|? ? ? N S2]; subst. split; auto. destruct (width_facts n N) as [_ [? _]]. lia.
  - cbn [app] in S. inversion S as [|? ? ? N S2]; subst. apply IH in S2 as [A B]. split; auto. destruct (width_facts m N) as [_ [? _]]. lia.
Qed.
Lemma stacked_nil b l : stacked b b l -> l = [].
Proof.
  intros S. destruct l as [|[p n] l]; auto. exfalso. inversion S as [|? ? ? N S2]; subst. apply stacked_le in S2. destruct (width_facts n N) as [_ [? _]]. lia.
Qed.

(** ** Blocks *)
Definition buffer (b : block) : Z * Z := (bbegin b, bend b + sizeofBlock - bbegin b).
Definition block_ok (b : block) : Prop := 0 < bbegin b /\ bbegin b <= bend b /\ bend b + sizeofBlock < 2 ^ 64 /\ (8 | bbegin b) /\ (8 | bend b).
Definition separate (x y : Z * Z) : Prop := fst x + snd x <= fst y \/ fst y + snd y <= fst x.
(** the blocks that [p] leads to *)
Inductive chain (m : Z -> Z) : Z -> list block -> Prop :=
| ch_nil : chain m 0 []
| ch_cons : forall b l, m (bend b) = bbegin b -> m (bend b + 8) = bfree b -> m (bend b + 16) = bend b -> m (bend b + 24) = bprev b ->
    chain m (bprev b) l -> chain m (bend b) (b :: l).
Definition within (b : block) (l : list (Z * Z)) : Prop := exists t, t <= bend b /\ stacked (bbegin b) t l.

Record inv (a : arena) (live : list (Z * Z)) (lc : list (Z * Z)) (old : list (block * list (Z * Z))) : Prop := mkInv {
  i_live : live = lc ++ concat (map snd old);
  i_chain : chain (mem a) (bprev (cur a)) (map fst old);
  i_heap : heap a = (if isNull (cur a) then [] else [buffer (cur a)]) ++ map buffer (map fst old);
  i_null : isNull (cur a) = true -> cur a = mkBlock 0 0 0 0 /\ old = [] /\ lc = [];
  i_cur : isNull (cur a) = false -> block_ok (cur a);
  i_stack : stacked (bbegin (cur a)) (bfree (cur a)) lc;
  i_free : bfree (cur a) <= bend (cur a);
  i_old : Forall (fun o => block_ok (fst o) /\ within (fst o) (snd o)) old;
  i_sep : ForallOrdPairs separate (heap a) }.

Lemma within_in b l x : within b l -> In x l -> bbegin b <= fst x /\ 0 <= snd x /\ fst x + width (snd x) <= bend b.
Proof. intros [t [T S]] I. pose proof (proj1 (Forall_forall _ _) (stacked_in _ _ _ S) x I) as H. cbv beta in H. lia. Qed.

Lemma FOP_app {A} (R : A -> A -> Prop) l1 l2 : ForallOrdPairs R l1 -> ForallOrdPairs R l2 -> (forall x y, In x l1 -> In y l2 -> R x y) -> ForallOrdPairs R (l1 ++ l2).
Proof.
  induction 1 as [|x l1 F1 F2 IH]; intros G H; cbn; auto. constructor.
  - apply Forall_app. split; auto. apply Forall_forall. intros y Y. apply H; cbn; auto.
  - apply IH; auto. intros y z Y Z. apply H; cbn; auto.
Qed.
Lemma FOP_skip {A} (R : A -> A -> Prop) l1 l2 l3 : ForallOrdPairs R (l1 ++ l2 ++ l3) -> ForallOrdPairs R (l1 ++ l3).
Proof.
  induction l1 as [|x l1 IH]; cbn; intros H.
  - induction l2 as [|y l2 IH2]; auto. inversion H; subst. auto.
  - inversion H as [|? ? F G]; subst. constructor; auto. rewrite !Forall_app in *. tauto.
Qed.
Lemma FOP_pair {A} (R : A -> A -> Prop) l1 x l2 y : ForallOrdPairs R (l1 ++ x :: l2) -> In y l2 -> R x y.
Proof.
  induction l1 as [|z l1 IH]; cbn; intros H I.
  - inversion H as [|? ? F G]; subst. rewrite Forall_forall in F. auto.
  - inversion H; subst. auto.
Qed.

(** Live allocations of different blocks are apart *)
Lemma apart_blocks b1 l1 b2 l2 x y : within b1 l1 -> within b2 l2 -> separate (buffer b1) (buffer b2) -> In x l1 -> In y l2 -> apart x y.
Proof.
  intros W1 W2 S X Y. pose proof (within_in _ _ _ W1 X) as A. pose proof (within_in _ _ _ W2 Y) as B. destruct x as [p n], y as [q m]. cbn [fst snd] in *.
  destruct (width_facts n ltac:(lia)) as [E1 [E2 _]]. destruct (width_facts m ltac:(lia)) as [E3 [E4 _]]. unfold separate, buffer, sizeofBlock in S. cbn [fst snd] in S. unfold apart. cbn [fst snd]. lia.
Qed.
Lemma old_apart : forall old, Forall (fun o => block_ok (fst o) /\ within (fst o) (snd o)) old -> ForallOrdPairs separate (map buffer (map fst old)) ->
  ForallOrdPairs apart (concat (map snd old)).
Proof.
  induction old as [|[b l] old IH]; intros F S; cbn [map concat snd]; [constructor|]. inversion F as [|? ? F1 F2]; subst. cbn [fst snd map] in *. inversion S as [|? ? S1 S2]; subst.
  destruct F1 as [O [t [T K]]]. apply FOP_app; auto; [eapply stacked_apart; eauto|]. intros x y X Y. apply in_concat in Y as [l2 [L2 Y]]. apply in_map_iff in L2 as [[b2 l2'] [E L2]]. cbn in E. subst l2'.
  rewrite Forall_forall in F2, S1. specialize (F2 _ L2). cbn in F2. eapply (apart_blocks b l b2 l2); eauto; [exists t; auto | apply F2|]. apply S1. apply in_map. apply in_map_iff. exists (b2, l2). auto.
Qed.
(** the current block's allocations are within it *)
Lemma cur_within a live lc old : inv a live lc old -> within (cur a) lc.
Proof. intros I. exists (bfree (cur a)). split; apply I. Qed.
Lemma inv_apart a live lc old : inv a live lc old -> ForallOrdPairs apart live.
Proof.
  intros I. rewrite (i_live _ _ _ _ I). pose proof (i_sep _ _ _ _ I) as S. rewrite (i_heap _ _ _ _ I) in S. apply FOP_app.
  - eapply stacked_apart, I.
  - apply old_apart; [apply I|]. destruct (isNull (cur a)); auto. inversion S; subst. auto.
  - intros x y X Y. destruct (isNull (cur a)) eqn:N; [destruct (i_null _ _ _ _ I N) as [_ [_ ->]]; inversion X|]. cbn [app] in S. inversion S as [|? ? S1 S2]; subst.
    apply in_concat in Y as [l2 [L2 Y]]. apply in_map_iff in L2 as [[b2 l2'] [E L2]]. cbn in E. subst l2'. pose proof (i_old _ _ _ _ I) as F. rewrite Forall_forall in F, S1. specialize (F _ L2). cbn in F.
    eapply (apart_blocks (cur a) lc b2 l2); eauto; [eapply cur_within; eauto | apply F|]. apply S1. apply in_map. apply in_map_iff. exists (b2, l2). auto.
Qed.
(** a live allocation is in a block *)
Lemma live_block a live lc old x : inv a live lc old -> In x live -> exists b l, block_ok b /\ within b l /\ In x l /\ In (buffer b) (heap a).
Proof.
  intros I X. rewrite (i_live _ _ _ _ I) in X. rewrite (i_heap _ _ _ _ I). apply in_app_iff in X as [X|X].
  - destruct (isNull (cur a)) eqn:N; [destruct (i_null _ _ _ _ I N) as [_ [_ ->]]; inversion X|]. exists (cur a), lc. split; [now apply I|]. split; [eapply cur_within; eauto|]. split; auto. cbn. auto.
  - apply in_concat in X as [l [L X]]. apply in_map_iff in L as [[b l'] [E L]]. cbn in E. subst l'. pose proof (i_old _ _ _ _ I) as F. rewrite Forall_forall in F. specialize (F _ L). cbn in F.
    exists b, l. split; [apply F|]. split; [apply F|]. split; auto. apply in_app_iff. right. apply in_map. apply in_map_iff. exists (b, l). auto.
Qed.
Lemma inv_live a live lc old : inv a live lc old ->
  Forall (fun x => 0 < fst x /\ (8 | fst x) /\ exists h, In h (heap a) /\ fst h <= fst x /\ fst x + snd x <= fst h + snd h) live.
Proof.
  intros I. apply Forall_forall. intros x X. destruct (live_block _ _ _ _ x I X) as [b [l [O [W [XL H]]]]]. pose proof (within_in _ _ _ W XL) as B.
  destruct W as [t [T K]]. destruct O as [O1 [O2 [O3 [O4 O5]]]]. destruct (stacked_aligned _ _ _ O4 K) as [_ AL]. rewrite Forall_forall in AL. split; [lia|]. split; [auto|].
  exists (buffer b). split; auto. destruct (width_facts (snd x) ltac:(lia)) as [E _]. unfold buffer, sizeofBlock. cbn [fst snd]. lia.
Qed.
