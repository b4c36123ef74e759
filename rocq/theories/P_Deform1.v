(** Deforming the exponents of one variable. *)
From Coq Require Import List Arith Bool ZArith Lia Permutation Sorted.
Import ListNotations.
From Verif Require Import M_Term M_Ideal M_Api M_Scarf P_Term P_Ideal P_Translator P_Tree.
Local Open Scope nat_scope.

Section Pass.
Variables (n : nat) (strong : bool) (v : nat) (I : ideal).
Hypothesis Hv : v < n.
Hypothesis Hw : wf n I.
Notation N := (length I).
Notation ge l i := (nth i l (@nil nat)).

(** all smaller positive exponents occur, too *)
Definition gapfree : Prop := forall i e, i < N -> 0 < e < (ge I i) @ v -> exists j, j < N /\ (ge I j) @ v = e.
Definition good_pass : Prop := strong = true \/ gapfree.
Definition separated (i j : nat) : Prop := strong = false /\ exists k, k < N /\ sdiv_n n (ge I k) (t_lcm n (ge I i) (ge I j)).
Lemma separated_sym : forall i j, separated i j -> separated j i.
Proof.
  intros i j [S [k [Hk H]]]. split; auto. exists k. split; auto.
  replace (t_lcm n (ge I j) (ge I i)) with (t_lcm n (ge I i) (ge I j)); auto. apply term_ext with n; auto using t_lcm_length. intros w Hw'. rewrite !t_lcm_nth by auto. lia.
Qed.

Record pinv (dn : list nat) (m : nat) (cur : ideal) (tab : list nat) : Prop := mk_pinv {
  p_len : length cur = N;
  p_wf : forall i, i < N -> length (ge cur i) = n;
  p_other : forall i w, i < N -> w < n -> w <> v -> (ge cur i) @ w = (ge I i) @ w;
  p_undone : forall i, i < N -> ~ In i dn -> (ge cur i) @ v = (ge I i) @ v;
  p_done : forall i, i < N -> In i dn -> 0 < (ge cur i) @ v < length tab /\ nth ((ge cur i) @ v) tab 0 = (ge I i) @ v;
  p_tab0 : nth 0 tab 0 = 0 /\ 0 < length tab;
  p_asc : forall a b, a <= b < length tab -> nth a tab 0 <= nth b tab 0;
  p_max : forall a, a < length tab -> nth a tab 0 <= m;
  p_bound : gapfree -> forall i, i < N -> In i dn -> (ge I i) @ v <= (ge cur i) @ v;
  p_eq : good_pass -> forall i j, i < N -> j < N -> i <> j -> In i dn -> In j dn -> (ge cur i) @ v = (ge cur j) @ v -> separated i j }.

Lemma push_inv : forall dn m cur tab e, pinv dn m cur tab -> m <= e -> pinv dn e cur (tab ++ [e]).
Proof.
  intros dn m cur tab e H Hm. destruct H as [A1 A2 A3 A4 A5 A6 A7 A8 A9 A10].
  assert (L : length (tab ++ [e]) = S (length tab)) by (rewrite app_length; simpl; lia).
  assert (X : forall a, a < length tab -> nth a (tab ++ [e]) 0 = nth a tab 0) by (intros; apply app_nth1; auto).
  assert (Y : nth (length tab) (tab ++ [e]) 0 = e) by (rewrite app_nth2, Nat.sub_diag; auto).
  assert (Z : forall a, a < S (length tab) -> a < length tab \/ a = length tab) by (intros; lia).
  constructor; auto.
  - intros i Hi Hd. specialize (A5 i Hi Hd). rewrite L, X by lia. lia.
  - rewrite L, X by lia. lia.
  - intros a b H. rewrite L in H. destruct (Z b ltac:(lia)) as [Hb|Hb]; [rewrite !X by lia; apply A7; lia|]. subst b. rewrite Y.
    destruct (Z a ltac:(lia)) as [Ha|Ha]; [rewrite X by auto; specialize (A8 a Ha); lia|subst a; rewrite Y; auto].
  - intros a Ha. rewrite L in Ha. destruct (Z a Ha) as [Ha'|Ha']; [rewrite X by auto; specialize (A8 a Ha'); lia|subst a; rewrite Y; auto].
Qed.
Lemma dset_nth : forall cur i d j, i < length cur -> ge (d_set n cur i v d) j = if i =? j then t_set n (ge cur i) v d else ge cur j.
Proof. intros cur i d j Hi. unfold d_set. rewrite put_nth. rewrite (proj2 (Nat.ltb_lt _ _) Hi), andb_true_r. auto. Qed.
Lemma assign_inv : forall dn e cur tab i d, pinv dn e cur tab -> i < N -> ~ In i dn -> (ge I i) @ v = e -> 0 < d < length tab -> nth d tab 0 = e ->
  (gapfree -> e <= d) -> (good_pass -> forall j, j < N -> In j dn -> (ge cur j) @ v = d -> separated i j) -> pinv (i :: dn) e (d_set n cur i v d) tab.
Proof.
  intros dn e cur tab i d H Hi Hn He Hd Ht Hg Hs. destruct H as [A1 A2 A3 A4 A5 A6 A7 A8 A9 A10].
  assert (G : forall j, j < N -> ge (d_set n cur i v d) j = if i =? j then t_set n (ge cur i) v d else ge cur j) by (intros; apply dset_nth; lia).
  assert (GV : forall j, j < N -> (ge (d_set n cur i v d) j) @ v = if i =? j then d else (ge cur j) @ v).
  { intros j Hj. rewrite G by auto. destruct (Nat.eqb_spec i j); auto. apply t_set_nth_eq; auto. }
  constructor; auto.
  - unfold d_set. rewrite put_length. auto.
  - intros j Hj. rewrite G by auto. destruct (Nat.eqb_spec i j); auto. apply t_set_length.
  - intros j w Hj Hw' Hne. rewrite G by auto. destruct (Nat.eqb_spec i j) as [->|]; auto. rewrite t_set_nth_neq by auto. auto.
  - intros j Hj Hnj. rewrite GV by auto. destruct (Nat.eqb_spec i j) as [->|]; [exfalso; apply Hnj; simpl; auto|]. apply A4; auto. intros X. apply Hnj. simpl; auto.
  - intros j Hj Hdj. rewrite GV by auto. destruct (Nat.eqb_spec i j) as [->|]; [split; auto; congruence|]. destruct Hdj as [|Hdj]; [congruence|]. auto.
  - intros Hgf j Hj Hdj. rewrite GV by auto. destruct (Nat.eqb_spec i j) as [<-|]; [rewrite He; auto|]. destruct Hdj as [|Hdj]; [congruence|]. auto.
  - intros Hgp j k Hj Hk Hjk Dj Dk E. rewrite !GV in E by auto. destruct (Nat.eqb_spec i j) as [<-|N1], (Nat.eqb_spec i k) as [<-|N2].
    + congruence.
    + destruct Dk as [|Dk]; [congruence|]. apply Hs; auto.
    + destruct Dj as [|Dj]; [congruence|]. apply separated_sym. apply Hs; auto.
    + destruct Dj as [|Dj]; [congruence|]. destruct Dk as [|Dk]; [congruence|]. apply A10; auto.
Qed.

Definition block_ok (e : nat) (dn block : list nat) : Prop := NoDup block /\ forall i, In i block -> i < N /\ ~ In i dn /\ (ge I i) @ v = e.
Lemma block_tail : forall e dn i b, block_ok e dn (i :: b) -> block_ok e (i :: dn) b.
Proof.
  intros e dn i b [B1 B2]. inversion B1 as [|? ? X Y]; subst. split; auto. intros j Hj. destruct (B2 j (or_intror Hj)) as (P & Q & R). split; auto. split; auto.
  intros [->|Z]; auto.
Qed.
Lemma strong_inv : strong = true -> forall block dn e cur tab, pinv dn e cur tab -> block_ok e dn block -> 0 < e -> (gapfree -> e <= length tab) ->
  let r := d_strong n v block cur tab in
  pinv (rev block ++ dn) e (fst r) (snd r) /\ length tab + length block <= length (snd r).
Proof.
  intros S block. induction block as [|i block IH]; intros dn e cur tab H B He Hg; cbn [d_strong]; cbv zeta.
  - cbn [rev app fst snd]. split; [auto|simpl; lia].
  - destruct (proj2 B i (or_introl eq_refl)) as (Hi & Hn & Ei).
    rewrite (p_undone _ _ _ _ H i Hi Hn), Ei.
    assert (H' : pinv (i :: dn) e (d_set n cur i v (length tab)) (tab ++ [e])).
    { apply assign_inv; auto.
      - apply (push_inv dn e); auto.
      - rewrite app_length. simpl. pose proof (p_tab0 _ _ _ _ H). lia.
      - rewrite app_nth2, Nat.sub_diag; auto.
      - intros _ j Hj Dj E. pose proof (p_done _ _ _ _ H j Hj Dj). lia. }
    destruct (IH (i :: dn) e (d_set n cur i v (length tab)) (tab ++ [e]) H' (block_tail _ _ _ _ B) He) as [Q1 Q2].
    { intros G. specialize (Hg G). rewrite app_length. lia. }
    cbv zeta in Q1, Q2. rewrite app_length in Q2. cbn [length] in *. split; [|lia].
    cbn [rev]. rewrite <- app_assoc. exact Q1.
Qed.

Lemma forallb_in : forall A (f : A -> bool) l, forallb f l = true -> forall x, In x l -> f x = true.
Proof. intros A f l H. apply forallb_forall. auto. Qed.
Lemma contains_pre : forall dn e cur tab i j, pinv dn e cur tab -> i < N -> j < N -> ~ In i dn -> ~ In j dn -> (ge I i) @ v = e -> (ge I j) @ v = e -> gapfree ->
  i_strictlyContains n cur (t_lcm n (ge cur i) (ge cur j)) = true -> exists k, k < N /\ sdiv_n n (ge I k) (t_lcm n (ge I i) (ge I j)).
Proof.
  intros dn e cur tab i j H Hi Hj Ni Nj Ei Ej G C. unfold i_strictlyContains in C. apply existsb_exists in C. destruct C as [g [Hg C]].
  apply in_nth_iff in Hg. destruct Hg as [k [Hk <-]]. rewrite (p_len _ _ _ _ H) in Hk. exists k. split; auto.
  assert (L : t_lcm n (ge cur i) (ge cur j) = t_lcm n (ge I i) (ge I j)).
  { apply term_ext with n; auto using t_lcm_length. intros w Hw'. rewrite !t_lcm_nth by auto. destruct (Nat.eq_dec w v) as [->|D].
    - rewrite !(p_undone _ _ _ _ H) by auto. auto.
    - rewrite !(p_other _ _ _ _ H) by auto. auto. }
  rewrite L in C. apply t_strictlyDivides_iff in C. destruct C as [C1 C2]. split; auto. intros w Hw'. specialize (C1 w Hw').
  destruct (Nat.eq_dec w v) as [->|D]; [|rewrite (p_other _ _ _ _ H) in C1 by auto; auto].
  destruct (in_dec Nat.eq_dec k dn) as [Dk|Dk]; [|rewrite (p_undone _ _ _ _ H) in C1 by auto; auto].
  pose proof (p_done _ _ _ _ H k Hk Dk). pose proof (p_bound _ _ _ _ H G k Hk Dk). lia.
Qed.
Lemma weak_inv : strong = false -> forall s block dn e cur tab, pinv dn e cur tab -> block_ok e dn block -> 0 < e -> (gapfree -> e <= s) -> 0 < s < length tab ->
  nth s tab 0 = e -> (good_pass -> forall j i, j < N -> In j dn -> (ge cur j) @ v = s -> In i block -> separated i j) ->
  let r := d_weak n v s block cur tab in
  pinv (rev block ++ dn) e (fst r) (snd r) /\ length tab <= length (snd r).
Proof.
  intros S s block. induction block as [|i block IH]; intros dn e cur tab H B He Hg Hs Ht Hp; cbn [d_weak]; cbv zeta.
  - cbn [rev app fst snd]. split; auto.
  - destruct (proj2 B i (or_introl eq_refl)) as (Hi & Hn & Ei). pose proof (block_tail _ _ _ _ B) as B'.
    cbn [rev]. rewrite <- app_assoc. cbn [app].
    assert (GV : forall d j, j < N -> (ge (d_set n cur i v d) j) @ v = if i =? j then d else (ge cur j) @ v).
    { intros d j Hj. rewrite dset_nth by (rewrite (p_len _ _ _ _ H); auto). destruct (Nat.eqb_spec i j); auto. apply t_set_nth_eq; auto. }
    destruct (forallb (fun j => i_strictlyContains n cur (t_lcm n (ge cur i) (ge cur j))) block) eqn:C.
    + apply IH; auto.
      * apply assign_inv; auto. intros Gp j Hj Dj E. apply Hp; auto. simpl; auto.
      * intros Gp j k Hj Dj E Hk. rewrite GV in E by auto. destruct (Nat.eqb_spec i j) as [<-|D].
        -- assert (G : gapfree) by (destruct Gp as [X|X]; [congruence|auto]). destruct (proj2 B k (or_intror Hk)) as (Hk' & Nk & Ek).
           apply separated_sym. split; auto. apply (contains_pre dn e cur tab i k); auto. apply (forallb_in _ _ _ C k Hk).
        -- destruct Dj as [|Dj]; [congruence|]. apply Hp; auto. simpl; auto.
    + rewrite (p_undone _ _ _ _ H i Hi Hn), Ei.
      assert (H' : pinv (i :: dn) e (d_set n cur i v (length tab)) (tab ++ [e])).
      { apply assign_inv; auto.
        - apply (push_inv dn e); auto.
        - rewrite app_length. simpl. lia.
        - rewrite app_nth2, Nat.sub_diag; auto.
        - intros G. specialize (Hg G). lia.
        - intros _ j Hj Dj E. pose proof (p_done _ _ _ _ H j Hj Dj). lia. }
      destruct (IH (i :: dn) e (d_set n cur i v (length tab)) (tab ++ [e]) H' B' He Hg) as [Q1 Q2].
      * rewrite app_length. lia.
      * rewrite app_nth1 by lia. auto.
      * intros Gp j k Hj Dj E Hk. rewrite GV in E by auto. destruct (Nat.eqb_spec i j) as [<-|D]; [lia|]. destruct Dj as [|Dj]; [congruence|]. apply Hp; auto. simpl; auto.
      * cbv zeta in Q1, Q2. split; auto. rewrite app_length in Q2. lia.
Qed.

Lemma keys_spec : StronglySorted lt (d_keys I v) /\ forall e, In e (d_keys I v) <-> 0 < e /\ exists i, i < N /\ (ge I i) @ v = e.
Proof.
  unfold d_keys. destruct (std_unique_spec (filter (fun e => 0 <? e) (map (fun g => g @ v) I))) as (A & B & _). split; auto.
  intros e. rewrite B, filter_In, in_map_iff, Nat.ltb_lt. split.
  - intros [[g [E Hg]] P]. split; auto. apply in_nth_iff in Hg. destruct Hg as [i [Hi <-]]. exists i. auto.
  - intros [P [i [Hi E]]]. split; auto. exists (ge I i). split; auto. apply nth_In; auto.
Qed.
Lemma dblock_in : forall e i, In i (d_block I v e) <-> i < N /\ (ge I i) @ v = e.
Proof. intros e i. unfold d_block. rewrite filter_In, in_seq, Nat.eqb_eq. split; intros [A B]; split; auto; lia. Qed.

Lemma keys_loop : forall ks pre dn m cur tab, d_keys I v = pre ++ ks -> pinv dn m cur tab -> (forall e, In e ks -> m < e) -> length pre < length tab ->
  (forall i, i < N -> (In i dn <-> In ((ge I i) @ v) pre)) ->
  let r := fold_left (d_one n strong v I) ks (cur, tab) in exists dn' m', pinv dn' m' (fst r) (snd r) /\ forall i, i < N -> (In i dn' <-> 0 < (ge I i) @ v).
Proof.
  destruct keys_spec as [KS KI]. induction ks as [|e ks IH]; intros pre dn m cur tab Ek H Hm Hl Hd; cbn [fold_left]; cbv zeta.
  - exists dn, m. cbn [fst snd]. split; auto. intros i Hi. rewrite Hd by auto. rewrite app_nil_r in Ek. rewrite <- Ek, KI. split; [tauto|]. intros P. split; auto. exists i. auto.
  - assert (SK : forall x, In x pre -> x < e).
    { clear -KS Ek. rewrite Ek in KS. clear Ek. induction pre as [|p pre IHp]; intros x Hx; [destruct Hx|]. cbn [app] in KS. inversion KS as [|? ? KS' F]; subst.
      destruct Hx as [<-|Hx]; [|auto]. rewrite Forall_forall in F. apply F. apply in_or_app. simpl; auto. }
    assert (SK2 : forall x, In x ks -> e < x).
    { assert (Q : StronglySorted lt (e :: ks)). { clear -KS Ek. rewrite Ek in KS. clear Ek. induction pre as [|p pre IHp]; auto. cbn [app] in KS. inversion KS; auto. }
      inversion Q as [|? ? _ F]; subst. rewrite Forall_forall in F. auto. }
    assert (Kin : In e (d_keys I v)) by (rewrite Ek; apply in_or_app; simpl; auto). apply KI in Kin. destruct Kin as [He Hex].
    assert (Hgap : gapfree -> e <= length tab).
    { intros G. assert (X : incl (seq 1 (e - 1)) pre).
      { intros x Hx. apply in_seq in Hx. destruct Hex as [i [Hi Ei]]. destruct (G i x Hi ltac:(lia)) as [j [Hj Ej]].
        assert (Y : In x (d_keys I v)) by (apply KI; split; [lia|exists j; auto]). rewrite Ek in Y. apply in_app_or in Y. destruct Y as [Y|[Y|Y]]; [auto|lia|].
        specialize (SK2 x Y). lia. }
      pose proof (NoDup_incl_length (seq_NoDup (e - 1) 1) X) as L. rewrite seq_length in L. lia. }
    assert (B : block_ok e dn (d_block I v e)).
    { split; [apply NoDup_filter, seq_NoDup|]. intros i Hi. apply dblock_in in Hi. destruct Hi as [Hi Ei]. split; auto. split; auto. rewrite Hd by auto. rewrite Ei. intros X. specialize (SK e X). lia. }
    assert (Hd' : forall i, i < N -> (In i (rev (d_block I v e) ++ dn) <-> In ((ge I i) @ v) (pre ++ [e]))).
    { intros i Hi. rewrite !in_app_iff, <- in_rev, dblock_in, Hd by auto. simpl. split; intros X; intuition. }
    assert (He' : m <= e) by (specialize (Hm e (or_introl eq_refl)); lia).
    assert (Ek' : d_keys I v = (pre ++ [e]) ++ ks) by (rewrite <- app_assoc; auto).
    assert (R : exists cur' tab', d_one n strong v I (cur, tab) e = (cur', tab') /\ pinv (rev (d_block I v e) ++ dn) e cur' tab' /\ length tab < length tab').
    { unfold d_one. destruct strong eqn:S.
      - assert (Hc : pinv dn e cur tab).
        { destruct H as [A1 A2 A3 A4 A5 A6 A7 A8 A9 A10]. constructor; auto. intros a Ha. specialize (A8 a Ha). lia. }
        pose proof (strong_inv S (d_block I v e) dn e cur tab Hc B He Hgap) as [Q1 Q2]. destruct (d_strong n v (d_block I v e) cur tab) as [cur' tab']. cbn [fst snd] in *.
        exists cur', tab'. split; auto. split; auto. destruct Hex as [i [Hi Ei]]. assert (X : In i (d_block I v e)) by (apply dblock_in; auto).
        destruct (d_block I v e); [destruct X|simpl in Q2; lia].
      - assert (Eh : (ge cur (hd 0 (d_block I v e))) @ v = e).
        { destruct Hex as [i [Hi Ei]]. assert (X : In i (d_block I v e)) by (apply dblock_in; auto). destruct (d_block I v e) as [|b bl] eqn:EB; [destruct X|]. cbn [hd].
          destruct (proj2 B b (or_introl eq_refl)) as (Hb & Nb & Eb). rewrite (p_undone _ _ _ _ H) by auto. auto. }
        rewrite Eh. pose proof (push_inv dn m cur tab e H He') as H'.
        pose proof (weak_inv S (length tab) (d_block I v e) dn e cur (tab ++ [e]) H' B He Hgap) as Q. destruct Q as [Q1 Q2].
        + rewrite app_length. simpl. lia.
        + rewrite app_nth2, Nat.sub_diag; auto.
        + intros _ j i Hj Dj E. pose proof (p_done _ _ _ _ H j Hj Dj). lia.
        + destruct (d_weak n v (length tab) (d_block I v e) cur (tab ++ [e])) as [cur' tab']. cbn [fst snd] in *. exists cur', tab'. split; auto. split; auto.
          rewrite app_length in Q2. simpl in Q2. lia. }
    destruct R as (cur' & tab' & E1 & E2 & E3). rewrite E1. apply (IH (pre ++ [e]) (rev (d_block I v e) ++ dn) e cur' tab'); auto.
    rewrite app_length. simpl. lia.
Qed.

Record pass_ok (D : ideal) (tab : list nat) : Prop := mk_pass {
  po_len : length D = N;
  po_wf : wf n D;
  po_other : forall i w, i < N -> w < n -> w <> v -> (ge D i) @ w = (ge I i) @ w;
  po_zero : forall i, i < N -> ((ge D i) @ v = 0 <-> (ge I i) @ v = 0);
  po_tab : forall i, i < N -> (ge D i) @ v < length tab /\ nth ((ge D i) @ v) tab 0 = (ge I i) @ v;
  po_tab0 : nth 0 tab 0 = 0 /\ 0 < length tab;
  po_asc : forall a b, a <= b < length tab -> nth a tab 0 <= nth b tab 0;
  po_eq : good_pass -> forall i j, i < N -> j < N -> i <> j -> (ge D i) @ v = (ge D j) @ v -> 0 < (ge D i) @ v -> separated i j }.
Lemma deform_spec : pass_ok (fst (deform n strong v I)) (snd (deform n strong v I)).
Proof.
  destruct keys_spec as [KS KI]. unfold deform. destruct (keys_loop (d_keys I v) [] [] 0 I [0]) as (dn & m & H & Hd); auto.
  - constructor; auto.
    + intros i Hi. apply Hw. apply nth_In; auto.
    + intros i _ [].
    + intros a b Hab. cbn [length] in Hab. assert (a = 0) by lia. assert (b = 0) by lia. subst. auto.
    + intros a Ha. cbn [length] in Ha. assert (a = 0) by lia. subst. auto.
    + intros _ i j _ _ _ [].
  - intros e He. apply KI in He. tauto.
  - intros i Hi. split; intros [].
  - set (r := fold_left (d_one n strong v I) (d_keys I v) (I, [0])) in *. destruct H as [A1 A2 A3 A4 A5 A6 A7 A8 A9 A10].
    assert (Z0 : forall i, i < N -> ~ In i dn -> (ge I i) @ v = 0) by (intros i Hi X; rewrite Hd in X by auto; lia).
    constructor; auto.
    + intros g Hg. apply in_nth_iff in Hg. destruct Hg as [i [Hi <-]]. apply A2. lia.
    + intros i Hi. destruct (in_dec Nat.eq_dec i dn) as [X|X].
      * specialize (A5 i Hi X). apply Hd in X; auto. lia.
      * rewrite A4 by auto. tauto.
    + intros i Hi. destruct (in_dec Nat.eq_dec i dn) as [X|X].
      * specialize (A5 i Hi X). split; tauto.
      * rewrite (A4 i Hi X), (Z0 i Hi X). tauto.
    + intros G i j Hi Hj D E P. destruct (in_dec Nat.eq_dec i dn) as [X|X]; [|rewrite (A4 i Hi X), (Z0 i Hi X) in P; lia].
      destruct (in_dec Nat.eq_dec j dn) as [Y|Y]; [|rewrite E, (A4 j Hj Y), (Z0 j Hj Y) in P; lia]. apply A10; auto.
Qed.
End Pass.
