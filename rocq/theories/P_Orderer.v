(** The orderers sort stably by the order that they stand for. *)
From Coq Require Import List Arith Bool ZArith Lia Ascii Sorted Permutation.
Import ListNotations.
From Verif Require Import Spec Spec_Slice Spec_Api Spec_Hilbert Spec_Scarf M_Term M_Ideal M_Msm M_Names Spec_Names M_Orderer Spec_Orderer
  P_Term P_Ideal P_Valid P_Translator P_Poly P_Api3 P_Bigatti3 P_Bigatti5 P_Generic P_Tree P_Names P_Names2.
Local Open Scope nat_scope.

(** ** Lists *)
Lemma sorted_map : forall (A B : Type) (R : A -> A -> Prop) (R' : B -> B -> Prop) (f : A -> B) l, StronglySorted R l ->
  (forall i j, In i l -> In j l -> R i j -> R' (f i) (f j)) -> StronglySorted R' (map f l).
Proof.
  intros A B R R' f l H. induction H as [|x l H IH F]; intros G; cbn [map]; constructor.
  - apply IH. intros i j Hi Hj. apply G; simpl; auto.
  - rewrite Forall_forall in *. intros y Hy. apply in_map_iff in Hy. destruct Hy as [z [<- Hz]]. apply G; simpl; auto.
Qed.
Lemma sorted_at : forall (A : Type) (R : A -> A -> Prop) d l, StronglySorted R l -> forall i j, i < j -> j < length l -> R (nth i l d) (nth j l d).
Proof.
  intros A R d l H. induction H as [|x l H IH F]; intros i j Hij Hj; [simpl in Hj; lia|]. cbn [length] in Hj. destruct j as [|j]; [lia|]. destruct i as [|i]; cbn [nth].
  - rewrite Forall_forall in F. apply F, nth_In. lia.
  - apply IH; lia.
Qed.
Lemma sorted_rev : forall (A : Type) (R : A -> A -> Prop) l, StronglySorted R l -> StronglySorted (fun a b => R b a) (rev l).
Proof.
  intros A R l H. induction H as [|x l H IH F]; cbn [rev]; [constructor|].
  assert (G : forall l1, StronglySorted (fun a b => R b a) l1 -> (forall z, In z l1 -> R x z) -> StronglySorted (fun a b => R b a) (l1 ++ [x])).
  { clear. intros l1 H. induction H as [|y l1 H IH F]; intros G; cbn [app]; [repeat constructor|]. constructor; [apply IH; intros; apply G; simpl; auto|].
    apply Forall_app. split; auto. constructor; auto. apply G. simpl; auto. }
  apply G; auto. intros z Hz. apply in_rev in Hz. rewrite Forall_forall in F. auto.
Qed.
Lemma list_positions : forall (A : Type) (d : A) l, map (fun i => nth i l d) (seq 0 (length l)) = l.
Proof.
  intros A d l. apply nth_ext with d d; [rewrite map_length, seq_length; auto|]. intros i Hi. rewrite map_length, seq_length in Hi.
  rewrite (nth_indep _ d (nth 0 l d)) by (rewrite map_length, seq_length; auto). rewrite (map_nth (fun i => nth i l d) (seq 0 (length l)) 0 i). rewrite seq_nth by auto. auto.
Qed.
Lemma std_sort_map : forall (A B : Type) (f : A -> B) lt l, std_sort lt (map f l) = map f (std_sort (fun a b => lt (f a) (f b)) l).
Proof.
  intros A B f lt l. induction l as [|x l IH]; auto. cbn [map std_sort]. rewrite IH. generalize (std_sort (fun a b => lt (f a) (f b)) l) as s. induction s as [|y s IHs]; auto.
  cbn [map sort_insert]. destruct (lt (f y) (f x)); cbn [map]; auto. rewrite IHs. auto.
Qed.
Lemma stable_positions : forall (lt : nat -> nat -> bool), (forall x y, lt x y = true -> lt y x = false) -> (forall x y z, lt y x = false -> lt z y = false -> lt z x = false) ->
  forall l, StronglySorted Peano.lt l -> StronglySorted (fun i j => lt i j = true \/ (lt j i = false /\ i < j)) (std_sort lt l).
Proof.
  intros lt Asym Tr l H. induction H as [|x l H IH F]; cbn [std_sort]; [constructor|].
  assert (F' : forall y, In y (std_sort lt l) -> x < y) by (intros y Hy; apply std_sort_in in Hy; rewrite Forall_forall in F; auto). clear F H. revert IH F'.
  generalize (std_sort lt l) as s. induction s as [|y s IHs]; intros S F; cbn [sort_insert]; [repeat constructor|]. inversion S as [|? ? S1 S2]; subst. destruct (lt y x) eqn:E.
  - constructor; [apply IHs; auto; intros; apply F; simpl; auto|]. rewrite Forall_forall in *. intros z Hz. apply (Permutation_in _ (sort_insert_perm lt x s)) in Hz. destruct Hz as [<-|Hz]; auto.
  - constructor; auto. constructor; [right; split; auto; apply F; simpl; auto|]. rewrite Forall_forall in *. intros z Hz. right. split; [|apply F; simpl; auto].
    apply (Tr x y z); auto. destruct (S2 z Hz) as [X|[X _]]; auto.
Qed.
Lemma seq_sorted : forall k a, StronglySorted Peano.lt (seq a k).
Proof. induction k as [|k IH]; intros a; cbn [seq]; constructor; auto. apply Forall_forall. intros x Hx. apply in_seq in Hx. lia. Qed.

(** ** Stable sorting *)
Lemma stable_of_positions : forall (lt : nat -> nat -> bool) (B : mono -> mono -> Prop) l, (forall x y, lt x y = true -> lt y x = false) -> (forall x y z, lt y x = false -> lt z y = false -> lt z x = false) ->
  (forall i j, i < length l -> j < length l -> (lt i j = true <-> B (nth i l []) (nth j l []))) ->
  stably_sorted B l (map (fun i => nth i l []) (std_sort lt (seq 0 (length l)))).
Proof.
  intros lt B l A T E. exists (std_sort lt (seq 0 (length l))). split; [apply std_sort_perm|]. split; [reflexivity|].
  pose proof (stable_positions lt A T _ (seq_sorted (length l) 0)) as S. rewrite <- (map_id (std_sort lt (seq 0 (length l)))). apply (sorted_map _ _ _ _ (fun x => x) _ S).
  intros i j Hi Hj. apply std_sort_in, in_seq in Hi. apply std_sort_in, in_seq in Hj. pose proof (E i j ltac:(lia) ltac:(lia)) as E1. pose proof (E j i ltac:(lia) ltac:(lia)) as E2.
  intros [R|[R1 R2]]; [left; apply E1; auto|right; split; auto]. rewrite <- E2. congruence.
Qed.
Lemma stable_of_bool : forall (lt : mono -> mono -> bool) (B : mono -> mono -> Prop) l, (forall x y, lt x y = true -> lt y x = false) -> (forall x y z, lt y x = false -> lt z y = false -> lt z x = false) ->
  (forall a b, In a l -> In b l -> (lt a b = true <-> B a b)) -> stably_sorted B l (std_sort lt l).
Proof.
  intros lt B l A T E. rewrite <- (list_positions _ [] l) at 2. rewrite std_sort_map. apply stable_of_positions; auto.
  - intros x y z. apply T.
  - intros i j Hi Hj. apply E; apply nth_In; auto.
Qed.
Lemma stable_ext : forall (B B' : mono -> mono -> Prop) l r, stably_sorted B l r -> (forall a b, In a l -> In b l -> (B a b <-> B' a b)) -> stably_sorted B' l r.
Proof.
  intros B B' l r (ps & P & E & S) H. exists ps. split; auto. split; auto. rewrite <- (map_id ps). apply (sorted_map _ _ _ _ (fun x => x) _ S).
  intros i j Hi Hj. apply (Permutation_in _ P), in_seq in Hi. apply (Permutation_in _ P), in_seq in Hj.
  pose proof (H (nth i l []) (nth j l []) ltac:(apply nth_In; lia) ltac:(apply nth_In; lia)). pose proof (H (nth j l []) (nth i l []) ltac:(apply nth_In; lia) ltac:(apply nth_In; lia)). tauto.
Qed.
Lemma stable_perm : forall B l r, stably_sorted B l r -> Permutation r l.
Proof. intros B l r (ps & P & -> & _). etransitivity; [apply Permutation_map; exact P|]. rewrite list_positions. auto. Qed.
Lemma stable_rev : forall B l r, stably_sorted B (rev l) r -> stably_sorted (fun a b => B b a) l (rev r).
Proof.
  intros B l r (ps & P & -> & Sp). rewrite rev_length in *. set (f := fun i => length l - S i).
  exists (rev (map f ps)). split; [|split].
  - rewrite <- Permutation_rev. etransitivity; [apply Permutation_map; exact P|].
    apply NoDup_Permutation; [|apply seq_NoDup|].
    + apply NoDup_map_on; [apply seq_NoDup|]. unfold f. intros a b Ha Hb. apply in_seq in Ha, Hb. lia.
    + intros x. rewrite in_map_iff, in_seq. split; [intros [y [<- Hy]]; apply in_seq in Hy; unfold f; lia|]. intros Hx. exists (f x). unfold f. rewrite in_seq. lia.
  - unfold at_positions. rewrite map_rev, map_map. f_equal. apply map_ext_in. intros i Hi. apply (Permutation_in _ P), in_seq in Hi. rewrite rev_nth by lia. reflexivity.
  - apply sorted_rev with (R := fun a b => B (nth a l []) (nth b l []) \/ ~ B (nth b l []) (nth a l []) /\ b < a). apply (sorted_map _ _ _ _ f _ Sp). intros i j Hi Hj.
    apply (Permutation_in _ P), in_seq in Hi. apply (Permutation_in _ P), in_seq in Hj. rewrite !rev_nth by lia. fold (f i) (f j). intros [R|[R1 R2]]; [left; auto|right; split; auto; unfold f; lia].
Qed.
Definition refined (B1 B2 : mono -> mono -> Prop) (a b : mono) : Prop := B1 a b \/ (~ B1 b a /\ B2 a b).
Lemma stable_compose : forall B1 B2 l m r, stably_sorted B2 l m -> stably_sorted B1 m r -> stably_sorted (refined B1 B2) l r.
Proof.
  intros B1 B2 l m r (q & Pq & Em & Sq) (p & Pp & Er & Sp).
  assert (Lq : length q = length l) by (rewrite (Permutation_length Pq), seq_length; auto).
  assert (Lm : length m = length q) by (rewrite Em; unfold at_positions; rewrite map_length; auto).
  assert (Nm : forall i, i < length m -> nth i m [] = nth (nth i q 0) l []).
  { intros i Hi. rewrite Em. unfold at_positions. rewrite (nth_indep _ [] (nth 0 l [])) by (rewrite map_length; lia). apply (map_nth (fun i => nth i l [])). }
  exists (map (fun i => nth i q 0) p). split; [|split].
  - etransitivity; [apply Permutation_map; exact Pp|]. rewrite Lm, list_positions. auto.
  - rewrite Er. unfold at_positions. rewrite map_map. apply map_ext_in. intros i Hi. apply (Permutation_in _ Pp), in_seq in Hi. apply Nm. lia.
  - apply (sorted_map _ _ _ _ (fun i => nth i q 0) _ Sp). intros i j Hi Hj. apply (Permutation_in _ Pp), in_seq in Hi. apply (Permutation_in _ Pp), in_seq in Hj. rewrite !Nm by lia. intros [R|[R1 R2]].
    + left. left. auto.
    + pose proof (sorted_at _ _ 0 q Sq i j R2 ltac:(lia)) as Q. cbv beta in Q. unfold refined. destruct Q as [Q|[Q1 Q2]]; [left; right; auto|]. right. split; auto. tauto.
Qed.

(** ** The keys *)
Lemma exponents_eq : forall n (a : term), length a = n -> exponents n a = a.
Proof. intros n a H. unfold exponents. rewrite <- H. apply (list_positions nat 0 a). Qed.
Lemma many_perm : forall (A : Type) (f : A -> bool) l l', Permutation l l' -> how_many f l = how_many f l'.
Proof. intros A f l l' H. unfold how_many. induction H; cbn [filter]; auto; try (destruct (f x); cbn [length]; auto; lia); try (destruct (f x), (f y); cbn [length]; auto); lia. Qed.
Lemma many_le : forall (A : Type) (f g : A -> bool) l, (forall x, In x l -> f x = true -> g x = true) -> how_many f l <= how_many g l.
Proof.
  intros A f g l. unfold how_many. induction l as [|x l IH]; intros H; cbn [filter]; [lia|]. specialize (IH ltac:(intros; apply H; simpl; auto)). pose proof (H x (or_introl eq_refl)) as Hx.
  destruct (f x), (g x); cbn [length]; try lia; discriminate (Hx eq_refl).
Qed.
Lemma many_0 : forall (A : Type) (f : A -> bool) l, (forall x, In x l -> f x = false) -> how_many f l = 0.
Proof. intros A f l. unfold how_many. induction l as [|x l IH]; intros H; cbn [filter]; auto. rewrite (H x) by (simpl; auto). apply IH. intros; apply H; simpl; auto. Qed.
Lemma sorted_median : forall s k, StronglySorted le s -> k < length s -> how_many (fun e => e <? nth k s 0) s <= k < how_many (fun e => e <=? nth k s 0) s.
Proof.
  intros s k H. revert k. induction H as [|x s H IH F]; intros k Hk; [simpl in Hk; lia|]. rewrite Forall_forall in F. cbn [length] in Hk. destruct k as [|k]; cbn [nth].
  - rewrite many_0. 2: { intros y [<-|Hy]; apply Nat.ltb_ge; auto. } unfold how_many. cbn [filter]. rewrite Nat.leb_refl. cbn [length]. lia.
  - specialize (IH k ltac:(lia)). unfold how_many in *. cbn [filter]. pose proof (F (nth k s 0) ltac:(apply nth_In; lia)) as Q. rewrite (proj2 (Nat.leb_le _ _) Q). cbn [length].
    destruct (x <? nth k s 0); cbn [length]; lia.
Qed.
Lemma middle_is_median : forall l, l <> [] -> is_median l (middle_element l).
Proof.
  intros l H. right. unfold middle_element. pose proof (std_sort_perm Nat.ltb l) as P. pose proof (Permutation_length P) as L.
  assert (Hl : length l / 2 < length (std_sort Nat.ltb l)) by (rewrite L; apply Nat.div_lt; [destruct l; simpl; [congruence|lia]|lia]).
  split; [apply (Permutation_in _ P), nth_In; auto|]. pose proof (sorted_median _ _ (sort_nat l) Hl) as Q. rewrite !(many_perm _ _ _ _ P) in Q. exact Q.
Qed.
Lemma median_unique : forall l m m', is_median l m -> is_median l m' -> m = m'.
Proof.
  intros l m m' [[E1 E2]|[A1 A2]] [[F1 F2]|[B1 B2]]; try congruence; try (subst l; contradiction).
  destruct (Nat.lt_trichotomy m m') as [X|[X|X]]; auto; exfalso.
  - pose proof (many_le _ (fun e => e <=? m) (fun e => e <? m') l) as Q. cbv beta in Q. assert (how_many (fun e => e <=? m) l <= how_many (fun e => e <? m') l) by (apply Q; intros x _ Y; apply Nat.leb_le in Y; apply Nat.ltb_lt; lia). lia.
  - assert (how_many (fun e => e <=? m') l <= how_many (fun e => e <? m) l) by (apply many_le; intros x _ Y; apply Nat.leb_le in Y; apply Nat.ltb_lt; lia). lia.
Qed.
Lemma min_positive_spec : forall l m, 0 < m -> (min_positive m l = m \/ In (min_positive m l) l) /\ 0 < min_positive m l /\ min_positive m l <= m /\ forall e, In e l -> 0 < e -> min_positive m l <= e.
Proof.
  induction l as [|e l IH]; intros m Hm; cbn [min_positive]; [split; auto; split; auto; split; auto; intros e []|].
  destruct (Nat.eqb_spec e 0) as [->|Z]; cbn [negb andb].
  - destruct (IH m Hm) as (A & B & C & D). split; [destruct A; simpl; auto|]. split; auto. split; auto. intros x [<-|Hx] P; [lia|auto].
  - destruct (Nat.ltb_spec e m) as [X|X].
    + destruct (IH e ltac:(lia)) as (A & B & C & D). split; [destruct A as [A|A]; simpl; auto; rewrite A; auto|]. split; auto. split; [lia|]. intros x [<-|Hx] P; [lia|auto].
    + destruct (IH m Hm) as (A & B & C & D). split; [destruct A; simpl; auto|]. split; auto. split; auto. intros x [<-|Hx] P; [lia|auto].
Qed.
Lemma minPos_spec : forall l, is_least_positive l (x_minPos_list l).
Proof.
  induction l as [|e l IH]; [left; auto|]. cbn [x_minPos_list]. destruct (Nat.eqb_spec e 0) as [->|Z]; cbn [negb].
  - destruct IH as [[A B]|(A & B & C)]; [left; auto|]. right. split; [simpl; auto|]. split; auto. intros x [<-|Hx] P; [lia|auto].
  - destruct (min_positive_spec (e :: l) e ltac:(lia)) as (A & B & C & D). right. split; [|split; auto]. destruct A as [A|A]; auto. rewrite A. simpl; auto.
Qed.
Lemma least_unique : forall l m m', is_least_positive l m -> is_least_positive l m' -> m = m'.
Proof.
  intros l m m' [[E1 E2]|(A1 & A2 & A3)] [[F1 F2]|(B1 & B2 & B3)]; try congruence; try (rewrite Forall_forall in *).
  - apply E1 in B1. lia.
  - apply F1 in A1. lia.
  - specialize (A3 _ B1 B2). specialize (B3 _ A1 A2). lia.
Qed.
Lemma maximum_spec : forall l k, let r := fold_left (fun max e => if max <? e then e else max) l k in (r = k \/ In r l) /\ k <= r /\ forall e, In e l -> e <= r.
Proof.
  induction l as [|e l IH]; intros k; cbv zeta; cbn [fold_left]; [split; auto; split; auto; intros e []|].
  destruct (Nat.ltb_spec k e) as [X|X].
  - destruct (IH e) as (A & B & C). split; [destruct A as [A|A]; simpl; auto; rewrite A; auto|]. split; [lia|]. intros x [<-|Hx]; [lia|auto].
  - destruct (IH k) as (A & B & C). split; [destruct A; simpl; auto|]. split; auto. intros x [<-|Hx]; [lia|auto].
Qed.
Lemma greatest_spec : forall l, is_greatest l (fold_left (fun max e => if max <? e then e else max) l 0).
Proof.
  intros l. destruct l as [|e l]; [left; auto|]. right. destruct (maximum_spec (e :: l) 0) as (A & B & C). split; auto. destruct A as [A|A]; auto.
  rewrite A. pose proof (C e (or_introl eq_refl)) as D. rewrite A in D. left. lia.
Qed.
Lemma greatest_unique : forall l m m', is_greatest l m -> is_greatest l m' -> m = m'.
Proof. intros l m m' [[E1 E2]|[A1 A2]] [[F1 F2]|[B1 B2]]; try congruence; try (subst l; contradiction). specialize (A2 _ B1). specialize (B2 _ A1). lia. Qed.
Lemma totalDegree_spec : forall n (a : term), length a = n -> x_totalDegree n a = degree a.
Proof.
  intros n a H. unfold x_totalDegree.
  assert (G : forall l s, fold_left (fun res v => res + a @ v) l s = s + degree (map (fun v => a @ v) l)) by (induction l as [|v l IH]; intros s; cbn [fold_left map degree]; [lia|rewrite IH; lia]).
  rewrite G. destruct n as [|n]; [destruct a; [reflexivity|discriminate]|]. replace (S n - 1) with n by lia.
  change (a @ 0 + degree (map (fun v => a @ v) (seq 1 n))) with (degree (exponents (S n) a)). rewrite exponents_eq by auto. auto.
Qed.
Lemma support_spec : forall n (a : term), length a = n -> t_sizeOfSupport n a = how_many (fun e => negb (e =? 0)) a.
Proof.
  intros n a H. transitivity (how_many (fun e => negb (e =? 0)) (exponents n a)); [|rewrite exponents_eq by auto; auto]. unfold t_sizeOfSupport, how_many, exponents. generalize (seq 0 n) as l.
  induction l as [|v l IH]; cbn [filter map]; auto. destruct (negb (a @ v =? 0)); cbn [length]; auto.
Qed.

Lemma conflict_iff : forall strong n I a b, wf n I -> length a = n -> length b = n -> (conflict strong n I a b = true <-> in_conflict strong I a b).
Proof.
  intros strong n I a b Hw Ha Hb. unfold conflict, in_conflict. rewrite andb_true_iff, orb_true_iff, negb_true_iff, shares_iff.
  assert (S : (exists v, v < n /\ a @ v = b @ v /\ 0 < a @ v) <-> share_exponent a b).
  { split; [intros [v [_ H]]; exists v; auto|]. intros [v [E P]]. exists v. split; auto. destruct (Nat.lt_ge_cases v n) as [|X]; auto. rewrite nth_overflow in P by (unfold mono in *; lia). lia. }
  rewrite S. rewrite (pair_lcm_eq n) by auto.
  assert (Q : i_strictlyContains n I (t_lcm n a b) = false <-> ~ exists g, In g I /\ strictly_divides g (t_lcm n a b)).
  { rewrite <- (strictlyContains_iff n) by (auto using t_lcm_length). destruct (i_strictlyContains n I (t_lcm n a b)); intuition congruence. }
  rewrite Q. tauto.
Qed.
Lemma in_conflict_sym : forall strong n I a b, length a = n -> length b = n -> in_conflict strong I a b -> in_conflict strong I b a.
Proof.
  intros strong n I a b Ha Hb [[v [E P]] H]. split; [exists v; split; lia|]. destruct H as [H|H]; auto. right.
  replace (pair_lcm b a) with (pair_lcm a b); auto. rewrite !(pair_lcm_eq n) by auto. apply term_ext with n; auto using t_lcm_length. intros w Hw. rewrite !t_lcm_nth by auto. lia.
Qed.
Lemma conflicts_unique : forall strong I a k k', conflicts strong I a k -> conflicts strong I a k' -> k = k'.
Proof.
  intros strong I a k k' (L & N & H & ->) (L' & N' & H' & ->). apply Nat.le_antisymm; apply NoDup_incl_length; auto; intros x Hx; [apply H'|apply H]; [apply H in Hx|apply H' in Hx]; auto.
Qed.
Lemma degeneracy_spec : forall strong n I i, wf n I -> NoDup I -> i < length I -> conflicts strong I (nth i I []) (degeneracy strong n I i).
Proof.
  intros strong n I i Hw HN Hi. assert (W : forall j, j < length I -> length (nth j I []) = n) by (intros j Hj; apply Hw, nth_In; auto).
  set (L1 := filter (fun j => conflict strong n I (nth j I []) (nth i I [])) (seq 0 i)). set (L2 := filter (fun j => conflict strong n I (nth i I []) (nth j I [])) (seq (S i) (length I - S i))).
  assert (B : forall j, In j (L1 ++ L2) <-> j < length I /\ j <> i /\ in_conflict strong I (nth i I []) (nth j I [])).
  { intros j. rewrite in_app_iff. unfold L1, L2. rewrite !filter_In, !in_seq. split.
    - intros [[A C]|[A C]].
      + split; [lia|]. split; [lia|]. apply (in_conflict_sym strong n); auto; [apply W; lia|]. apply (conflict_iff strong n); auto. apply W. lia.
      + split; [lia|]. split; [lia|]. apply (conflict_iff strong n); auto. apply W. lia.
    - intros (A & C & D). destruct (Nat.lt_ge_cases j i) as [X|X]; [left|right]; (split; [lia|]); apply (conflict_iff strong n); auto. apply (in_conflict_sym strong n); auto. }
  exists (map (fun j => nth j I []) (L1 ++ L2)). split; [|split].
  - apply NoDup_map_on.
    + unfold L1, L2. assert (N : forall (a b : list nat) f, NoDup (a ++ b) -> NoDup (filter f a ++ b)).
      { clear. intros a b f. induction a as [|x a IH]; cbn [app filter]; auto. intros H. inversion H as [|? ? H1 H2]; subst. destruct (f x); cbn [app]; auto. constructor; auto.
        intros X. apply H1. apply in_app_iff in X. apply in_app_iff. destruct X as [X|X]; auto. apply filter_In in X. tauto. }
      assert (N2 : forall (a b : list nat) f, NoDup (a ++ b) -> NoDup (a ++ filter f b)).
      { clear. intros a b f. induction a as [|x a IH]; cbn [app]; [apply NoDup_filter|]. intros H. inversion H as [|? ? H1 H2]; subst. constructor; auto.
        intros X. apply H1. apply in_app_iff in X. apply in_app_iff. destruct X as [X|X]; auto. apply filter_In in X. tauto. }
      apply N, N2. clear. assert (G : forall k s m, s + k <= m -> NoDup (seq s k ++ seq (S m) (length I - S m))).
      { induction k as [|k IH]; intros s m H; cbn [seq app]; [apply seq_NoDup|]. constructor; [|apply IH; lia]. rewrite in_app_iff, !in_seq. lia. }
      apply G. lia.
    + intros a b Ha Hb E. apply B in Ha, Hb. apply (proj1 (NoDup_nth I []) HN); tauto.
  - intros b. rewrite in_map_iff. split.
    + intros [j [<- Hj]]. apply B in Hj. destruct Hj as (A & C & D). split; [apply nth_In; auto|]. split; auto. intros E. apply C. apply (proj1 (NoDup_nth I []) HN); auto.
    + intros (A & C & D). apply in_nth_iff in A. destruct A as [j [Hj E]]. exists j. split; auto. apply B. split; auto. subst b. split; [congruence|exact D].
  - rewrite map_length, app_length. reflexivity.
Qed.

(** ** The orderers *)
Lemma key_stable : forall k (key : term -> nat) I, (forall a, In a I -> key_of k I a (key a)) -> (forall a x y, key_of k I a x -> key_of k I a y -> x = y) ->
  stably_sorted (fun a b => exists x y, key_of k I a x /\ key_of k I b y /\ x < y) I (o_key key I).
Proof.
  intros k key I H U. apply stable_of_bool.
  - intros x y. rewrite Nat.ltb_lt, Nat.ltb_ge. lia.
  - intros x y z. rewrite !Nat.ltb_ge. lia.
  - intros a b Ha Hb. rewrite Nat.ltb_lt. split; [intros L; exists (key a), (key b); auto|]. intros (x & y & X & Y & L).
    rewrite (U a (key a) x) by auto. rewrite (U b (key b) y) by auto. auto.
Qed.
Lemma key_unique : forall k I a x y, key_of k I a x -> key_of k I a y -> x = y.
Proof. intros [] I a x y; cbn [key_of]; try congruence; eauto using median_unique, least_unique, greatest_unique, conflicts_unique. Qed.
Lemma id_stable : forall I (B : mono -> mono -> Prop), (forall a b, In a I -> In b I -> ~ B a b) -> stably_sorted B I I.
Proof.
  intros I B H. exists (seq 0 (length I)). split; [auto|]. split; [unfold at_positions; rewrite list_positions; auto|].
  pose proof (sorted_map _ _ _ (fun i j => B (nth i I []) (nth j I []) \/ ~ B (nth j I []) (nth i I []) /\ i < j) (fun x => x) _ (seq_sorted (length I) 0)) as Q.
  rewrite map_id in Q. apply Q. intros i j Hi Hj L. apply in_seq in Hi, Hj. right. split; auto. apply H; apply nth_In; lia.
Qed.
Lemma base_stable : forall shuffle n k I r, in_ring n I -> NoDup I -> k <> KRandom -> o_base shuffle n k I = Some r -> stably_sorted (kind_before k I) I r.
Proof.
  intros shuffle n k I r Hr HN Hk E. pose proof (proj1 (in_ring_wf _ _) Hr) as Hw.
  destruct k; cbn [o_base] in E; try (injection E as <-); unfold kind_before; try (apply key_stable; [|apply key_unique]; intros a Ha; pose proof (Hw a Ha) as La; cbn [key_of]).
  - congruence.
  - apply id_stable. intros a b _ _ (x & y & -> & -> & L). lia.
  - apply stable_of_bool.
    + intros x y H. unfold t_lexLess, t_lexCompare in *. rewrite lex_from_antisym. destruct (lex_from x y 0 n); simpl; congruence.
    + intros x y z H1 H2. rewrite t_lexLess_false in *. unfold t_lexCompare in *. eapply lex_from_lt_trans; eauto.
    + intros a b Ha Hb. rewrite <- (lex_from_lt n) by auto. unfold t_lexLess, t_lexCompare. destruct (lex_from a b 0 n); intuition congruence.
  - apply stable_of_bool.
    + intros x y H. unfold t_revLexLess, t_lexCompare in *. rewrite lex_from_antisym. destruct (lex_from x y 0 n); simpl; congruence.
    + assert (F : forall x y, t_revLexLess n x y = t_lexLess n y x) by (intros x y; unfold t_revLexLess, t_lexLess, t_lexCompare; rewrite (lex_from_antisym n y x 0); destruct (lex_from y x 0 n); auto).
      intros x y z H1 H2. rewrite F in *. rewrite t_lexLess_false in *. unfold t_lexCompare in *. eapply lex_from_lt_trans; eauto.
    + intros a b Ha Hb. apply revLexLess_iff; auto.
  - match type of E with (if ?c then _ else _) = _ => destruct c end; [discriminate|]. injection E as <-. apply key_stable; [|apply key_unique]. intros a Ha. cbn [key_of]. apply totalDegree_spec; auto.
  - unfold x_median. rewrite exponents_eq by auto. destruct (Nat.eqb_spec n 0) as [->|Z].
    + destruct a; [left; auto|discriminate].
    + apply middle_is_median. destruct a; [simpl in La; lia|discriminate].
  - unfold x_medianPositive. rewrite exponents_eq by auto. cbv zeta. set (l := filter (fun e => 0 <? e) a). assert (Q : l = [] \/ l <> []) by (destruct l; [left; auto|right; discriminate]).
    destruct Q as [Q|Q]; [rewrite Q; left; auto|]. destruct l as [|e l'] eqn:El; [congruence|]. apply middle_is_median. auto.
  - unfold x_minimumPositive. rewrite exponents_eq by auto. apply minPos_spec.
  - unfold x_maximum. rewrite exponents_eq by auto. apply greatest_spec.
  - apply support_spec; auto.
  - apply stable_of_positions.
    + intros x y. rewrite Nat.ltb_lt, Nat.ltb_ge. lia.
    + intros x y z. rewrite !Nat.ltb_ge. lia.
    + intros i j Hi Hj. rewrite Nat.ltb_lt. pose proof (degeneracy_spec true n I i Hw HN Hi) as Di. pose proof (degeneracy_spec true n I j Hw HN Hj) as Dj. split; [eauto|].
      intros (x & y & X & Y & L). rewrite (conflicts_unique _ _ _ _ _ Di X), (conflicts_unique _ _ _ _ _ Dj Y). auto.
  - apply stable_of_positions.
    + intros x y. rewrite Nat.ltb_lt, Nat.ltb_ge. lia.
    + intros x y z. rewrite !Nat.ltb_ge. lia.
    + intros i j Hi Hj. rewrite Nat.ltb_lt. pose proof (degeneracy_spec false n I i Hw HN Hi) as Di. pose proof (degeneracy_spec false n I j Hw HN Hj) as Dj. split; [eauto|].
      intros (x & y & X & Y & L). rewrite (conflicts_unique _ _ _ _ _ Di X), (conflicts_unique _ _ _ _ _ Dj Y). auto.
Qed.
Lemma in_conflict_perm : forall strong I J a b, Permutation I J -> in_conflict strong I a b -> in_conflict strong J a b.
Proof.
  intros strong I J a b P [S H]. split; auto. destruct H as [H|H]; auto. right. intros [g [Hg G]]. apply H. exists g. split; auto. eapply Permutation_in; [apply Permutation_sym; exact P|auto].
Qed.
Lemma conflicts_perm : forall strong I J a k, Permutation I J -> conflicts strong I a k -> conflicts strong J a k.
Proof.
  intros strong I J a k P (L & N & H & ->). exists L. split; auto. split; auto. intros b. rewrite H. split; intros (A & B & C); split.
  - eapply Permutation_in; eauto.
  - split; auto. eapply in_conflict_perm; eauto.
  - eapply Permutation_in; [apply Permutation_sym; exact P|auto].
  - split; auto. eapply in_conflict_perm; [apply Permutation_sym; exact P|auto].
Qed.
Lemma key_perm : forall k I J a x, Permutation I J -> key_of k I a x -> key_of k J a x.
Proof. intros [] I J a x P; cbn [key_of]; auto; apply conflicts_perm; auto. Qed.
Lemma kind_perm : forall k I J a b, Permutation I J -> (kind_before k I a b <-> kind_before k J a b).
Proof.
  intros k I J a b P. assert (G : forall I J, Permutation I J -> kind_before k I a b -> kind_before k J a b).
  { clear. intros I J P. destruct k; cbn [kind_before]; auto; intros (x & y & X & Y & L); exists x, y; (split; [|split; auto]); eapply key_perm; eauto. }
  split; apply G; auto. apply Permutation_sym; auto.
Qed.
Lemma base_perm : forall shuffle n k I r, (forall l, Permutation (shuffle l) l) -> o_base shuffle n k I = Some r -> Permutation r I.
Proof.
  intros shuffle n k I r Hs E. destruct k; cbn [o_base] in E; try (injection E as <-); auto; try apply std_sort_perm.
  - match type of E with (if ?c then _ else _) = _ => destruct c end; [discriminate|]. injection E as <-. apply std_sort_perm.
  - unfold o_genericity. etransitivity; [apply Permutation_map; apply std_sort_perm|]. rewrite list_positions. auto.
  - unfold o_genericity. etransitivity; [apply Permutation_map; apply std_sort_perm|]. rewrite list_positions. auto.
Qed.
Lemma simple_perm : forall shuffle n s I r, (forall l, Permutation (shuffle l) l) -> o_simple shuffle n s I = Some r -> Permutation r I.
Proof.
  intros shuffle n [k|k] I r Hs E; cbn [o_simple] in E; [eapply base_perm; eauto|]. match type of E with match ?c with _ => _ end = _ => destruct c as [q|] eqn:Q end; [|discriminate]. injection E as <-.
  apply base_perm in Q; auto. rewrite <- Permutation_rev, Q. symmetry. apply Permutation_rev.
Qed.
Lemma composite_perm : forall shuffle n l I r, (forall i l, Permutation (shuffle i l) l) -> o_composite shuffle n l I = Some r -> Permutation r I.
Proof.
  intros shuffle n l. induction l as [|s l IH]; intros I r Hs E; cbn [o_composite] in E; [injection E as <-; auto|]. match type of E with match ?c with _ => _ end = _ => destruct c as [q|] eqn:Q end; [|discriminate].
  apply simple_perm in E; auto. rewrite E. apply IH; auto.
Qed.
Theorem p_order_perm : forall shuffle n o I r, (forall i l, Permutation (shuffle i l) l) -> o_order shuffle n o I = Some r -> Permutation r I.
Proof. intros shuffle n [s|l] I r Hs E; [eapply simple_perm; eauto|eapply composite_perm; eauto]. Qed.

Lemma simple_stable : forall shuffle n s I r, in_ring n I -> NoDup I -> kind_of s <> KRandom -> o_simple shuffle n s I = Some r -> stably_sorted (simple_before I s) I r.
Proof.
  intros shuffle n [k|k] I r Hr HN Hk E; cbn [o_simple kind_of] in *; [eapply base_stable; eauto|]. match type of E with match ?c with _ => _ end = _ => destruct c as [q|] eqn:Q end; [|discriminate]. injection E as <-.
  apply base_stable in Q; auto.
  - apply stable_rev in Q. eapply stable_ext; [exact Q|]. intros a b _ _. cbn [simple_before]. apply kind_perm. symmetry. apply Permutation_rev.
  - unfold in_ring in *. rewrite Forall_forall in *. intros x Hx. apply Hr. apply in_rev. auto.
  - eapply Permutation_NoDup; [apply Permutation_rev|auto].
Qed.
Lemma simple_before_perm : forall s I J a b, Permutation I J -> (simple_before I s a b <-> simple_before J s a b).
Proof. intros [k|k] I J a b P; cbn [simple_before]; apply kind_perm; auto. Qed.
Lemma composite_stable : forall shuffle n l I r, in_ring n I -> NoDup I -> Forall (fun s => kind_of s <> KRandom) l -> o_composite shuffle n l I = Some r -> stably_sorted (composite_before I l) I r.
Proof.
  intros shuffle n l. induction l as [|s l IH]; intros I r Hr HN Hk E; cbn [o_composite] in E.
  - injection E as <-. apply id_stable. auto.
  - inversion Hk as [|? ? Hs Hl]; subst. match type of E with match ?c with _ => _ end = _ => destruct c as [q|] eqn:Q end; [|discriminate]. apply IH in Q; auto. pose proof (stable_perm _ _ _ Q) as P.
    apply simple_stable in E; auto.
    + apply (stable_compose _ _ _ _ _ Q). eapply stable_ext; [exact E|]. intros a b _ _. apply simple_before_perm; auto.
    + unfold in_ring in *. rewrite Forall_forall in *. intros x Hx. apply Hr. eapply Permutation_in; eauto.
    + eapply Permutation_NoDup; [apply Permutation_sym; exact P|auto].
Qed.
Theorem p_order_stable : forall shuffle n o I r, in_ring n I -> NoDup I -> not_random o -> o_order shuffle n o I = Some r -> stably_sorted (orderer_before I o) I r.
Proof.
  intros shuffle n [s|l] I r Hr HN Hk E; [|eapply composite_stable; eauto].
  inversion Hk as [|? ? Hs _]; subst. apply simple_stable in E; auto. eapply stable_ext; [exact E|]. intros a b _ _. cbn. tauto.
Qed.
Lemma base_some : forall shuffle n k I, n <> 0 \/ length I <= 1 -> exists r, o_base shuffle n k I = Some r.
Proof.
  intros shuffle n k I H. destruct k; cbn [o_base]; eauto. destruct (Nat.eqb_spec n 0), (Nat.leb_spec 2 (length I)); cbn [andb]; eauto. lia.
Qed.
Lemma simple_some : forall shuffle n s I, n <> 0 \/ length I <= 1 -> exists r, o_simple shuffle n s I = Some r.
Proof.
  intros shuffle n [k|k] I H; cbn [o_simple]; [apply base_some; auto|]. destruct (base_some shuffle n k (rev I)) as [r E]; [rewrite rev_length; auto|]. rewrite E. eauto.
Qed.
Theorem p_order_some : forall shuffle n o I, (forall i l, Permutation (shuffle i l) l) -> n <> 0 \/ length I <= 1 -> exists r, o_order shuffle n o I = Some r.
Proof.
  intros shuffle n [s|l] I Hs H; cbn [o_order]; [apply simple_some; auto|]. induction l as [|s l IH]; cbn [o_composite]; eauto. destruct IH as [r E]. rewrite E. apply simple_some.
  apply composite_perm in E; auto. rewrite (Permutation_length E). auto.
Qed.
(** the result is determined *)
Lemma stably_sorted_unique : forall (B : mono -> mono -> Prop) l r r', (forall a b, B a b -> ~ B b a) -> stably_sorted B l r -> stably_sorted B l r' -> r = r'.
Proof.
  intros B l r r' As (p & P & -> & Sp) (q & Q & -> & Sq). f_equal.
  assert (PQ : Permutation p q) by (rewrite P, Q; auto). clear P Q. revert q PQ Sq. induction Sp as [|x p Sp IH F]; intros q PQ Sq; [apply Permutation_nil in PQ; auto|].
  destruct Sq as [|y q Sq G]; [apply Permutation_sym, Permutation_nil in PQ; discriminate|]. rewrite Forall_forall in F, G.
  assert (x = y).
  { assert (Hy : In y (x :: p)) by (apply (Permutation_in _ (Permutation_sym PQ)); simpl; auto). assert (Hx : In x (y :: q)) by (apply (Permutation_in _ PQ); simpl; auto).
    destruct Hy as [|Hy]; auto. destruct Hx as [|Hx]; auto. specialize (F y Hy). specialize (G x Hx). cbv beta in F, G.
    destruct F as [F|[F1 F2]], G as [G|[G1 G2]]; try tauto; [exfalso; apply (As _ _ F G)|lia]. }
  subst y. f_equal. apply IH; auto. apply Permutation_cons_inv in PQ. auto.
Qed.

(** ** Names *)
Lemma split_joined : forall s, joined (fst (split_underscore s)) (snd (split_underscore s)) = s /\ Forall (fun p => ~ In "_"%char p) (fst (split_underscore s) :: snd (split_underscore s)).
Proof.
  induction s as [|c s [E F]]; [split; auto; repeat constructor; auto|]. cbn [split_underscore]. destruct (split_underscore s) as [p ps]. cbn [fst snd] in *. destruct (ascii_dec c "_"%char) as [->|N]; cbn [fst snd].
  - split; [cbn [joined app]; rewrite E; auto|]. constructor; auto.
  - inversion F as [|? ? F1 F2]; subst. split; [destruct ps; reflexivity|]. constructor; auto. intros [->|X]; auto.
Qed.
Lemma rev_prefix : forall p, firstn 3 p = n_rev <-> prefix_of n_rev p.
Proof.
  intros p. split; [intros H; exists (skipn 3 p); rewrite <- H; symmetry; apply firstn_skipn|intros [q ->]; reflexivity].
Qed.
Lemma factory_nodup : NoDup (map fst ordererFactory).
Proof.
  assert (E : nodup str_dec (map fst ordererFactory) = map fst ordererFactory) by (vm_compute; reflexivity). rewrite <- E. apply NoDup_nodup.
Qed.
Lemma noncomposite_spec : forall p, match createNonCompositeOrderer p with
  | inl (Some s) => stands_for p s
  | inl None => False
  | inr e => (forall s, ~ stands_for p s) /\ forall name, e <> Found name
  end.
Proof.
  intros p. unfold createNonCompositeOrderer. destruct (str_dec (firstn 3 p) n_rev) as [R|R].
  - pose proof (@p_create okind ordererFactory (skipn 3 p) factory_nodup) as C. assert (Ep : p = n_rev ++ skipn 3 p) by (rewrite <- R; symmetry; apply firstn_skipn).
    destruct (createWithPrefix ordererFactory (skipn 3 p)) as [r|e].
    + destruct C as (name & k & -> & Hin & G). cbn [option_map stands_for]. exists (skipn 3 p), name. auto.
    + destruct C as [-> C]. split; auto. intros [k|k]; cbn [stands_for]; [intros [N _]; apply N, rev_prefix; auto|]. intros (q & name & E & _ & G).
      assert (q = skipn 3 p) by (rewrite Ep in E at 1; apply app_inv_head in E; auto). subst q. apply (C name); auto.
  - pose proof (@p_create okind ordererFactory p factory_nodup) as C. destruct (createWithPrefix ordererFactory p) as [r|e].
    + destruct C as (name & k & -> & Hin & G). cbn [option_map stands_for]. split; [rewrite <- rev_prefix; auto|]. exists name. auto.
    + destruct C as [-> C]. split; auto. intros [k|k]; cbn [stands_for]; [intros [_ (name & _ & G)]; apply (C name); auto|]. intros (q & name & E & _ & G). apply R. rewrite rev_prefix. exists q. auto.
Qed.
Lemma all_spec : forall parts, match createAll parts with
  | inl (Some l) => Forall2 stands_for parts l
  | inl None => False
  | inr e => (exists p, In p parts /\ forall s, ~ stands_for p s) /\ forall name, e <> Found name
  end.
Proof.
  induction parts as [|p parts IH]; cbn [createAll]; [constructor|]. pose proof (noncomposite_spec p) as C. destruct (createNonCompositeOrderer p) as [[s|]|e]; auto.
  - destruct (createAll parts) as [[l|]|e]; auto. destruct IH as [[q [Hq H]] N]. split; auto. exists q. simpl; auto.
  - destruct C as [C N]. split; auto. exists p. simpl; auto.
Qed.
Theorem p_create_orderer : forall name, exists p ps, name = joined p ps /\ Forall (fun q => ~ In "_"%char q) (p :: ps) /\
  match createIdealOrderer name with
  | inl (Some o) => Forall2 stands_for (p :: ps) (simples o)
  | inl None => False
  | inr e => (exists q, In q (p :: ps) /\ forall s, ~ stands_for q s) /\ forall n, e <> Found n
  end.
Proof.
  intros name. destruct (split_joined name) as [E F]. unfold createIdealOrderer. destruct (split_underscore name) as [p ps]. cbn [fst snd] in *. exists p, ps. split; auto. split; auto.
  destruct ps as [|q ps].
  - pose proof (noncomposite_spec p) as C. destruct (createNonCompositeOrderer p) as [[s|]|e]; cbn [option_map]; auto.
    + cbn [simples]. constructor; auto.
    + destruct C as [C N]. split; auto. exists p. simpl; auto.
  - pose proof (all_spec (p :: q :: ps)) as C. destruct (createAll (p :: q :: ps)) as [[l|]|e]; cbn [option_map]; auto.
Qed.
Lemma kind_asym : forall k I a b, kind_before k I a b -> ~ kind_before k I b a.
Proof.
  intros k I a b. destruct k; cbn [kind_before]; try (intros H1 H2; apply (lex_irr a); eapply lex_trans; eauto; fail); try (intros H1 H2; apply (lex_irr b); eapply lex_trans; eauto; fail);
  intros (x & y & X & Y & L) (y' & x' & Y' & X' & L');
  rewrite (key_unique _ _ _ _ _ X X') in L; rewrite (key_unique _ _ _ _ _ Y Y') in L; lia.
Qed.
Lemma before_asym : forall I o a b, orderer_before I o a b -> ~ orderer_before I o b a.
Proof.
  intros I o. unfold orderer_before. induction (simples o) as [|s l IH]; intros a b; cbn [composite_before]; auto.
  assert (A : simple_before I s a b -> ~ simple_before I s b a) by (destruct s; cbn [simple_before]; apply kind_asym). assert (A' : simple_before I s b a -> ~ simple_before I s a b) by (destruct s; cbn [simple_before]; apply kind_asym).
  specialize (IH a b). tauto.
Qed.
Theorem p_order_unique : forall I o r r', stably_sorted (orderer_before I o) I r -> stably_sorted (orderer_before I o) I r' -> r = r'.
Proof. intros I o r r'. apply stably_sorted_unique. apply before_asym. Qed.
