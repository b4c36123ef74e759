(** IdealTree: the tree has the same generators as the ideal. *)
From Coq Require Import List Arith Bool ZArith Lia Permutation Sorted FinFun.
Import ListNotations.
From Verif Require Import M_Term M_Ideal M_Api M_Scarf P_Term P_Ideal.
Local Open Scope nat_scope.

Lemma put_length : forall A (l : list A) i x, length (list_put l i x) = length l.
Proof. induction l as [|y l IH]; intros [|i] x; simpl; auto. Qed.
Lemma put_nth : forall A (l : list A) i x j d, nth j (list_put l i x) d = if (i =? j) && (i <? length l) then x else nth j l d.
Proof.
  induction l as [|y l IH]; intros i x j d.
  - destruct i; simpl; rewrite andb_false_r; auto.
  - destruct i as [|i], j as [|j]; simpl; auto. rewrite IH. auto.
Qed.
Lemma swap_length : forall a i j, length (list_swap a i j) = length a.
Proof. intros. unfold list_swap. rewrite !put_length. auto. Qed.
Lemma swap_nth : forall a i j k, i < length a -> j < length a ->
  nth k (list_swap a i j) [] = nth (if k =? i then j else if k =? j then i else k) a [].
Proof.
  intros a i j k Hi Hj. unfold list_swap. rewrite put_nth, put_length, put_nth. rewrite (proj2 (Nat.ltb_lt i _) Hi), (proj2 (Nat.ltb_lt j _) Hj), !andb_true_r.
  destruct (Nat.eqb_spec j k), (Nat.eqb_spec i k), (Nat.eqb_spec k i), (Nat.eqb_spec k j); subst; auto; congruence.
Qed.
Lemma swap_perm : forall a i j, i < length a -> j < length a -> Permutation (list_swap a i j) a.
Proof.
  intros a i j Hi Hj. apply Permutation_sym. apply (Permutation_nth a (list_swap a i j) []). split; [apply swap_length|].
  exists (fun k => if k =? i then j else if k =? j then i else k). split; [|split].
  - intros k Hk. destruct (Nat.eqb_spec k i); auto. destruct (Nat.eqb_spec k j); auto.
  - intros x y Hx Hy E. destruct (Nat.eqb_spec x i), (Nat.eqb_spec x j), (Nat.eqb_spec y i), (Nat.eqb_spec y j); lia.
  - intros k Hk. apply swap_nth; auto.
Qed.

Section Part.
Variables (var p : nat).
Notation lo a i := ((nth i a []) @ var <= p).
Notation hi a i := (p < (nth i a []) @ var).

Lemma scan_right_spec : forall (a : list term) k left, let r := scan_right a var p left k in
  left <= r <= left + k /\ (forall i, left <= i < r -> lo a i) /\ (r < left + k -> hi a r).
Proof.
  induction k as [|k IH]; intros left; cbn [scan_right]; cbv zeta.
  - split; [lia|]. split; [intros; lia|lia].
  - destruct (Nat.leb_spec ((nth left a []) @ var) p) as [H|H].
    + destruct (IH (S left)) as (A & B & C). split; [lia|]. split; [|intros; apply C; lia].
      intros i Hi. destruct (Nat.eq_dec i left) as [->|]; auto. apply B. lia.
    + split; [lia|]. split; [intros; lia|auto].
Qed.
Lemma scan_left_spec : forall (a : list term) k right, k <= right -> let r := scan_left a var p right k in
  right - k <= r <= right /\ (forall i, r < i <= right -> hi a i) /\ (right - k < r -> lo a r).
Proof.
  induction k as [|k IH]; intros right Hk; cbn [scan_left]; cbv zeta.
  - split; [lia|]. split; [intros; lia|lia].
  - destruct (Nat.ltb_spec p ((nth right a []) @ var)) as [H|H].
    + destruct (IH (right - 1) ltac:(lia)) as (A & B & C). split; [lia|]. split; [|intros; apply C; lia].
      intros i Hi. destruct (Nat.eq_dec i right) as [->|]; auto. apply B. lia.
    + split; [lia|]. split; [intros; lia|auto].
Qed.
Lemma partition_spec : forall fuel (a : list term) left right, left <= right < length a ->
  left = right \/ right - left < fuel \/ (right - left <= fuel /\ lo a left /\ hi a right) ->
  (forall i, i < left -> lo a i) -> (forall i, right < i < length a -> hi a i) ->
  exists a' r, tree_partition fuel a var p left right = Some (a', r) /\ Permutation a' a /\ r < length a /\
    (forall i, i < r -> lo a' i) /\ (forall i, r < i < length a -> hi a' i).
Proof.
  induction fuel as [|fuel IH]; intros a left right H F L R.
  - assert (left = right) by lia. subst right. exists a, left. cbn [tree_partition]. rewrite Nat.eqb_refl. split; [auto|]. split; [auto|]. split; [lia|]. auto.
  - cbn [tree_partition]. destruct (Nat.eqb_spec left right) as [->|D].
    + exists a, right. split; [auto|]. split; [auto|]. split; [lia|]. auto.
    + cbv zeta. pose proof (scan_right_spec a (right - left) left) as (A1 & A2 & A3). set (l' := scan_right a var p left (right - left)) in *.
      pose proof (scan_left_spec a (right - l') right ltac:(lia)) as (B1 & B2 & B3). set (r' := scan_left a var p right (right - l')) in *.
      assert (Hl : l' < length a) by lia. assert (Hr : r' < length a) by lia.
      destruct (IH (list_swap a l' r') l' r') as (a' & r & E & P & Q1 & Q2 & Q3).
      * rewrite swap_length. lia.
      * destruct (Nat.eq_dec l' r') as [E|E].
        -- left; auto.
        -- assert (X : hi a l') by (apply A3; lia). assert (Y : lo a r') by (apply B3; lia).
           right. right. rewrite !swap_nth by auto. rewrite !Nat.eqb_refl. destruct (Nat.eqb_spec r' l'); [congruence|].
           split; [|split; auto]. destruct F as [F|[F|(F1 & F2 & F3)]]; [lia|lia|].
           assert (l' <> left) by (intros Z; rewrite Z in X; lia). lia.
      * intros i Hi. rewrite swap_nth by auto. destruct (Nat.eqb_spec i l'); [lia|]. destruct (Nat.eqb_spec i r'); [lia|].
        destruct (Nat.lt_ge_cases i left); [apply L; auto|apply A2; lia].
      * intros i Hi. rewrite swap_length in Hi. rewrite swap_nth by auto. destruct (Nat.eqb_spec i l'); [lia|]. destruct (Nat.eqb_spec i r'); [lia|].
        destruct (Nat.le_gt_cases i right); [apply B2; lia|apply R; lia].
      * exists a', r. rewrite swap_length in *. split; auto. split; [|auto]. eapply Permutation_trans; [exact P|]. apply swap_perm; auto.
Qed.
Lemma middle_spec : forall (a : list term) r, (forall i, i < r -> lo a i) -> (exists i, i < r /\ lo a i) \/ lo a r ->
  exists m, tree_middle a var p r = Some m /\ 0 < m /\ (lo a r -> m = S r) /\ (hi a r -> m = r).
Proof.
  intros a r L E. destruct r as [|r]; cbn [tree_middle].
  - destruct E as [[i [Hi _]]|E]; [lia|]. destruct (Nat.ltb_spec p ((nth 0 a []) @ var)); [lia|]. exists 1. repeat split; auto; lia.
  - destruct (Nat.ltb_spec p ((nth (S r) a []) @ var)) as [H|H].
    + exists (S r). split; [|split; [lia|split; auto; lia]]. specialize (L r ltac:(lia)).
      destruct r as [|r]; cbn [tree_middle]; [destruct (Nat.ltb_spec p ((nth 0 a []) @ var)); [lia|auto]|].
      destruct (Nat.ltb_spec p ((nth (S r) a []) @ var)); [lia|auto].
    + exists (S (S r)). repeat split; auto; lia.
Qed.
End Part.

Lemma maxVar_spec : forall n lcm gcd, 0 < n -> tree_maxVar n lcm gcd < n /\
  forall v, v < n -> lcm @ v - gcd @ v <= lcm @ (tree_maxVar n lcm gcd) - gcd @ (tree_maxVar n lcm gcd).
Proof.
  intros n lcm gcd Hn. unfold tree_maxVar.
  assert (G : forall k s mv, mv < s -> s + k = n -> (forall v, v < s -> lcm @ v - gcd @ v <= lcm @ mv - gcd @ mv) ->
    let r := fold_left (fun mv v => if lcm @ mv - gcd @ mv <? lcm @ v - gcd @ v then v else mv) (seq s k) mv in
    r < n /\ forall v, v < n -> lcm @ v - gcd @ v <= lcm @ r - gcd @ r).
  { induction k as [|k IH]; intros s mv Hmv Hs H; cbn [seq fold_left]; cbv zeta.
    - split; [lia|]. intros v Hv. apply H. lia.
    - destruct (Nat.ltb_spec (lcm @ mv - gcd @ mv) (lcm @ s - gcd @ s)) as [X|X]; apply (IH (S s)); try lia; intros v Hv; (destruct (Nat.eq_dec v s) as [->|]; [lia|]); specialize (H v ltac:(lia)); lia. }
  apply G; [lia|lia|]. intros v Hv. replace v with 0 by lia. auto.
Qed.

Lemma fold_lcm_ge : forall n l t v, v < n -> t @ v <= fold_left (t_lcm n) l t @ v /\ (forall g, In g l -> g @ v <= fold_left (t_lcm n) l t @ v) /\
  (fold_left (t_lcm n) l t @ v = t @ v \/ exists g, In g l /\ g @ v = fold_left (t_lcm n) l t @ v).
Proof.
  induction l as [|h l IH]; intros t v Hv; cbn [fold_left].
  - split; [lia|]. split; [intros g []|auto].
  - destruct (IH (t_lcm n t h) v Hv) as (A & B & C). rewrite t_lcm_nth in A, C by auto. split; [lia|]. split.
    + intros g [<-|Hg]; [lia|auto].
    + destruct C as [C|[g [Hg C]]]; [|right; exists g; simpl; auto]. destruct (Nat.max_spec (t @ v) (h @ v)) as [[M1 M2]|[M1 M2]]; rewrite M2 in C; auto.
      right. exists h. simpl; auto.
Qed.
Lemma fold_gcd_le : forall n l t v, v < n -> fold_left (t_gcd n) l t @ v <= t @ v /\ (forall g, In g l -> fold_left (t_gcd n) l t @ v <= g @ v) /\
  (fold_left (t_gcd n) l t @ v = t @ v \/ exists g, In g l /\ g @ v = fold_left (t_gcd n) l t @ v).
Proof.
  induction l as [|h l IH]; intros t v Hv; cbn [fold_left].
  - split; [lia|]. split; [intros g []|auto].
  - destruct (IH (t_gcd n t h) v Hv) as (A & B & C). rewrite t_gcd_nth in A, C by auto. split; [lia|]. split.
    + intros g [<-|Hg]; [lia|auto].
    + destruct C as [C|[g [Hg C]]]; [|right; exists g; simpl; auto]. destruct (Nat.min_spec (t @ v) (h @ v)) as [[M1 M2]|[M1 M2]]; rewrite M2 in C; auto.
      right. exists h. simpl; auto.
Qed.

Lemma in_nth_iff : forall (l : list term) x, In x l <-> exists i, i < length l /\ nth i l [] = x.
Proof. intros l x. split; [apply In_nth|]. intros [i [Hi <-]]. apply nth_In. auto. Qed.

Lemma nodup_parts : forall (a b : list term), NoDup (a ++ b) -> NoDup a /\ NoDup b.
Proof.
  induction a as [|x a IH]; intros b H; [split; [constructor|auto]|]. cbn [app] in H. inversion H as [|? ? H1 H2]; subst. destruct (IH b H2). split; auto.
  constructor; auto. intros Hx. apply H1. apply in_or_app. auto.
Qed.
Lemma makeTree_spec : forall leaf n fuel l, 0 < leaf -> wf n l -> NoDup l -> length l <= fuel ->
  exists t, M_Scarf.makeTree fuel leaf n l = Some t /\ Permutation (tree_range t) l.
Proof.
  intros leaf n fuel. induction fuel as [|fuel IH]; intros l Hleaf Hw HN Hf.
  - assert (l = []) by (destruct l; auto; simpl in Hf; lia). subst l. exists (ILeaf []). auto.
  - cbn [M_Scarf.makeTree]. destruct (Nat.leb_spec (length l) leaf) as [HL|HL]; [exists (ILeaf l); auto|].
    destruct l as [|first l0]; [simpl in HL; lia|]. set (l := first :: l0) in *.
    assert (Dif : exists a b, In a l /\ In b l /\ a <> b).
    { destruct l0 as [|second l1]; [simpl in HL; lia|]. exists first, second. split; [simpl; auto|]. split; [simpl; auto|].
      inversion HN as [|? ? N1 N2]; subst. intros ->. apply N1. simpl; auto. }
    assert (Hn : 0 < n).
    { destruct n; [|lia]. destruct Dif as (a & b & Ha & Hb & D). exfalso. apply D. apply Hw in Ha, Hb. destruct a; [|discriminate]. destruct b; [auto|discriminate]. }
    set (lcm := fold_left (t_lcm n) l (t_identity n)). set (gcd := fold_left (t_gcd n) l first). set (var := tree_maxVar n lcm gcd).
    destruct (maxVar_spec n lcm gcd Hn) as [Hv Hmax]. fold var in Hv, Hmax.
    assert (Gap : gcd @ var < lcm @ var).
    { destruct Dif as (a & b & Ha & Hb & D).
      assert (X : exists v, v < n /\ a @ v <> b @ v).
      { destruct (t_equals n a b) eqn:E.
        - exfalso. apply D. apply term_ext with n; auto. intros v Hv'. unfold t_equals in E. rewrite forallb_forall in E. specialize (E v). apply Nat.eqb_eq. apply E. apply in_seq. lia.
        - unfold t_equals in E. destruct (existsb (fun v => negb (a @ v =? b @ v)) (seq 0 n)) eqn:E2.
          + apply existsb_exists in E2. destruct E2 as [v [Hv' E2]]. apply in_seq in Hv'. apply negb_true_iff, Nat.eqb_neq in E2. exists v. lia.
          + exfalso. assert (Q : forallb (fun v => a @ v =? b @ v) (seq 0 n) = true); [|congruence]. apply forallb_forall. intros v Hv'.
            destruct (a @ v =? b @ v) eqn:E3; auto. assert (existsb (fun v => negb (a @ v =? b @ v)) (seq 0 n) = true); [|congruence]. apply existsb_exists. exists v. rewrite E3. auto. }
      destruct X as (v & Hv' & X). specialize (Hmax v Hv').
      destruct (fold_lcm_ge n l (t_identity n) v Hv') as (_ & B1 & _). fold lcm in B1. destruct (fold_gcd_le n l first v Hv') as (_ & B2 & _). fold gcd in B2.
      pose proof (B1 a Ha). pose proof (B1 b Hb). pose proof (B2 a Ha). pose proof (B2 b Hb). lia. }
    destruct (Nat.eqb_spec (lcm @ var) 0) as [|_]; [lia|]. set (p := (lcm @ var + gcd @ var) / 2).
    assert (Hp : gcd @ var <= p < lcm @ var).
    { unfold p. split; [apply Nat.div_le_lower_bound; lia|apply Nat.div_lt_upper_bound; lia]. }
    assert (Lo : exists g, In g l /\ g @ var <= p).
    { destruct (fold_gcd_le n l first var Hv) as (_ & _ & C). fold gcd in C. destruct C as [C|[g [Hg C]]]; [exists first; split; [simpl; auto|lia]|exists g; split; [auto|lia]]. }
    assert (Hi : exists g, In g l /\ p < g @ var).
    { destruct (fold_lcm_ge n l (t_identity n) var Hv) as (_ & _ & C). fold lcm in C. destruct C as [C|[g [Hg C]]]; [|exists g; split; [auto|lia]].
      rewrite t_identity_nth in C. lia. }
    destruct (partition_spec var p (length l) l 0 (length l - 1)) as (a & r & E & P & R1 & R2 & R3); [simpl; lia|simpl; lia|intros; lia|intros; lia|].
    assert (La : length a = length l) by (apply Permutation_length; auto).
    assert (Lo' : exists i, i < length a /\ (nth i a []) @ var <= p).
    { destruct Lo as [g [Hg X]]. apply (Permutation_in _ (Permutation_sym P)) in Hg. apply in_nth_iff in Hg. destruct Hg as [i [Hi' <-]]. exists i. auto. }
    assert (Hi' : exists i, i < length a /\ p < (nth i a []) @ var).
    { destruct Hi as [g [Hg X]]. apply (Permutation_in _ (Permutation_sym P)) in Hg. apply in_nth_iff in Hg. destruct Hg as [i [Hi' <-]]. exists i. auto. }
    destruct (middle_spec var p a r R2) as (m & M & M0 & M1 & M2).
    { destruct Lo' as [i [Hi1 Hi2]]. destruct (Nat.lt_trichotomy i r) as [X|[->|X]]; [left; exists i; auto|right; auto|]. specialize (R3 i ltac:(lia)). lia. }
    assert (Hm : m < length l).
    { destruct (Nat.le_gt_cases ((nth r a []) @ var) p) as [X|X]; [|rewrite (M2 X); lia]. rewrite (M1 X).
      destruct Hi' as [i [Hi1 Hi2]]. destruct (Nat.lt_trichotomy i r) as [Y|[->|Y]]; [specialize (R2 i Y); lia|lia|lia]. }
    rewrite E. cbn [bind]. rewrite M. cbn [bind].
    assert (Wa : wf n a) by (intros g Hg; apply Hw; apply (Permutation_in _ P); auto).
    assert (Na : NoDup a) by (apply (Permutation_NoDup (Permutation_sym P)); auto).
    assert (SP : firstn m a ++ skipn m a = a) by apply firstn_skipn.
    assert (N1 : NoDup (firstn m a) /\ NoDup (skipn m a)) by (rewrite <- SP in Na; apply nodup_parts; auto).
    assert (W1 : wf n (firstn m a) /\ wf n (skipn m a)) by (split; intros g Hg; apply Wa; rewrite <- SP; apply in_or_app; auto).
    assert (L1 : length (firstn m a) <= fuel) by (rewrite firstn_length; simpl in Hf; unfold l in *; simpl in *; lia).
    assert (L2 : length (skipn m a) <= fuel) by (rewrite skipn_length; simpl in Hf; unfold l in *; simpl in *; lia).
    assert (G : forall k, wf n k -> NoDup k -> length k <= fuel -> exists t t', M_Scarf.makeTree fuel leaf n k = Some t /\ M_Scarf.makeTree fuel leaf n (tree_range t) = Some t' /\ Permutation (tree_range t') k).
    { intros k Wk Nk Lk. destruct (IH k Hleaf Wk Nk Lk) as (t & T1 & T2). destruct (IH (tree_range t) Hleaf) as (t' & T3 & T4).
      - intros g Hg. apply Wk. apply (Permutation_in _ T2); auto.
      - apply (Permutation_NoDup (Permutation_sym T2)); auto.
      - rewrite (Permutation_length T2). auto.
      - exists t, t'. split; auto. split; auto. eapply Permutation_trans; eauto. }
    destruct (G (firstn m a)) as (t1 & t1' & X1 & X2 & X3); try tauto. destruct (G (skipn m a)) as (t2 & t2' & Y1 & Y2 & Y3); try tauto.
    rewrite X1. cbn [bind]. rewrite Y1. cbn [bind]. rewrite X2. cbn [bind]. rewrite Y2. cbn [bind]. exists (INode t1' t2'). split; auto. cbn [tree_range].
    eapply Permutation_trans; [apply Permutation_app; eassumption|]. rewrite SP. auto.
Qed.
Lemma tree_contains_eq : forall n t m, tree_strictlyContains n t m = existsb (fun g => t_strictlyDivides n g m) (tree_range t).
Proof. induction t as [l|a IHa b IHb]; intros m; cbn [tree_strictlyContains tree_range]; auto. rewrite existsb_app, IHa, IHb. auto. Qed.
Lemma tree_contains : forall n t l m, Permutation (tree_range t) l -> tree_strictlyContains n t m = i_strictlyContains n l m.
Proof.
  intros n t l m P. rewrite tree_contains_eq. unfold i_strictlyContains. apply eq_iff_eq_true. rewrite !existsb_exists.
  split; intros [g [Hg H]]; exists g; split; auto; [apply (Permutation_in _ P)|apply (Permutation_in _ (Permutation_sym P))]; auto.
Qed.
