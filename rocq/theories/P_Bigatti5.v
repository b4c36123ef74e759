(** Every pivot strategy makes progress. *)
From Coq Require Import List Arith Bool ZArith Lia Permutation Sorted.
Import ListNotations.
From Verif Require Import Spec Spec_Hilbert M_Term M_Ideal M_Slice M_Msm M_Api M_Hilbert M_Poly M_Tasks M_Scarf M_Bigatti
  P_Term P_Ideal P_Msm2 P_Msm3 P_Split P_Hil1 P_Hil6 P_Scarf1 P_Bigatti1 P_Bigatti2 P_Bigatti3 P_Bigatti4.
Local Open Scope nat_scope.

(** a divisor of two generators *)
Definition common2 (n : nat) (I : ideal) (p : term) : Prop :=
  length p = n /\ (exists v, v < n /\ 0 < p @ v) /\ exists a b, In a I /\ In b I /\ a <> b /\ le_n n p a /\ le_n n p b.
Lemma common2_legal : forall n I p, minl n I -> common2 n I p ->
  length p = n /\ (exists v, v < n /\ 0 < p @ v) /\ ~ inI n I p /\ exists g, In g I /\ le_n n p g.
Proof.
  intros n I p [N M] (A & B & a & b & Ha & Hb & D & La & Lb). split; [auto|]. split; [auto|]. split; [|eauto].
  intros [h [Hh Lh]]. apply D. transitivity h; [symmetry|]; apply M; auto; eapply le_n_trans; eauto.
Qed.
Lemma common2_perm : forall n I J p, Permutation I J -> common2 n I p -> common2 n J p.
Proof.
  intros n I J p P (A & B & a & b & Ha & Hb & C). split; auto. split; auto. exists a, b. split; [apply (Permutation_in _ P Ha)|]. split; [apply (Permutation_in _ P Hb)|auto].
Qed.
Definition good (pv : bpivot) (n : nat) : Prop := forall I, wf n I -> minl n I -> shares n I ->
  exists J p, pv n I = Some (J, p) /\ Permutation I J /\ common2 n I p.
Lemma good_legal : forall pv n, good pv n -> legal n pv.
Proof.
  intros pv n H I Hw Hm Hs. destruct (H I Hw Hm Hs) as (J & p & A & B & C). destruct (common2_legal n I p Hm C) as (D & E & F & G).
  exists J, p. repeat split; auto.
Qed.

Lemma sort_perm : forall I v, Permutation I (i_singleDegreeSort I v).
Proof. intros. apply Permutation_sym, std_sort_perm. Qed.
Lemma minl_perm' : forall n I J, Permutation I J -> minl n I -> minl n J.
Proof.
  intros n I J P [A B]. split; [apply (Permutation_NoDup P); auto|]. pose proof (fun x => Permutation_in x (Permutation_sym P)). intros g h Hg Hh. apply B; auto.
Qed.
Lemma wf_perm' : forall n I J, Permutation I J -> wf n I -> wf n J.
Proof. intros n I J P H g Hg. apply H. apply (Permutation_in _ (Permutation_sym P)); auto. Qed.
Lemma shares_perm : forall n I J, Permutation I J -> shares n I -> shares n J.
Proof. intros n I J P (a & b & v & A & B & C). exists a, b, v. split; [apply (Permutation_in _ P A)|]. split; [apply (Permutation_in _ P B)|auto]. Qed.

Lemma power_le : forall n v e g, v < n -> e <= g @ v -> le_n n (t_set n (t_identity n) v e) g.
Proof. intros n v e g Hv H u Hu. rewrite t_set_nth by auto. destruct (Nat.eqb_spec u v) as [->|]; auto. rewrite t_identity_nth by auto. lia. Qed.
Lemma power_common2 : forall n I v e a b, v < n -> 0 < e -> In a I -> In b I -> a <> b -> e <= a @ v -> e <= b @ v -> common2 n I (t_set n (t_identity n) v e).
Proof.
  intros n I v e a b Hv He Ha Hb D La Lb. split; [apply t_set_length|]. split.
  - exists v. split; auto. rewrite t_set_nth by auto. rewrite Nat.eqb_refl. auto.
  - exists a, b. repeat split; auto using power_le.
Qed.

(** ** MedianPivot *)
Lemma skip_zero_filter : forall var l, StronglySorted (fun a b => a @ var <= b @ var) l -> skip_zero var l = filter (fun g => 0 <? g @ var) l.
Proof.
  intros var l. induction l as [|g l IH]; intros H; auto. apply StronglySorted_inv in H. destruct H as [H F]. cbn [skip_zero filter].
  destruct (Nat.eqb_spec (g @ var) 0) as [E|E].
  - rewrite E. cbn [Nat.ltb Nat.leb]. auto.
  - rewrite (proj2 (Nat.ltb_lt _ _)) by lia. f_equal. rewrite Forall_forall in F. clear - F E. induction l as [|h l IH]; auto. cbn [filter].
    pose proof (F h (or_introl eq_refl)). rewrite (proj2 (Nat.ltb_lt _ _)) by lia. f_equal. apply IH. intros; apply F; simpl; auto.
Qed.
Lemma sorted_nth_le : forall var l i j, StronglySorted (fun a b : term => a @ var <= b @ var) l -> i < j -> j < length l -> (nth i l []) @ var <= (nth j l []) @ var.
Proof.
  intros var l. induction l as [|g l IH]; intros i j H Hi Hj; [cbn in Hj; lia|]. apply StronglySorted_inv in H. destruct H as [H F].
  destruct j as [|j]; [lia|]. cbn [length] in Hj. destruct i as [|i]; cbn [nth].
  - rewrite Forall_forall in F. apply F. apply nth_In. lia.
  - apply IH; auto; lia.
Qed.
Lemma filter_sorted : forall (A : Type) (R : A -> A -> Prop) f l, StronglySorted R l -> StronglySorted R (filter f l).
Proof.
  intros A R f l. induction l as [|a l IH]; intros H; auto. apply StronglySorted_inv in H. destruct H as [H F]. cbn [filter]. destruct (f a); auto.
  constructor; auto. rewrite Forall_forall in *. intros x Hx. apply filter_In in Hx. apply F. tauto.
Qed.
Lemma filter_perm_length : forall (A : Type) (f : A -> bool) l l', Permutation l l' -> length (filter f l) = length (filter f l').
Proof. intros A f l l' P. induction P; cbn [filter]; auto; try congruence. - destruct (f x); cbn [length]; auto. - destruct (f x), (f y); auto. Qed.
Lemma two_filter : forall (A : Type) (f : A -> bool) l a b, NoDup l -> In a l -> In b l -> a <> b -> f a = true -> f b = true -> 2 <= length (filter f l).
Proof.
  intros A f l a b N Ha Hb D Fa Fb. change 2 with (length [a; b]). apply NoDup_incl_length.
  - constructor; [intros [H|[]]; auto|]. constructor; [intros []|constructor].
  - intros x [<-|[<-|[]]]; apply filter_In; auto.
Qed.
Lemma filter_two : forall (A : Type) (f : A -> bool) l, NoDup l -> 2 <= length (filter f l) -> exists a b, In a l /\ In b l /\ a <> b /\ f a = true /\ f b = true.
Proof.
  intros A f l N H. pose proof (NoDup_filter f N) as N2. destruct (filter f l) as [|a [|b r]] eqn:E; cbn in H; try lia.
  assert (Ha : In a (filter f l)) by (rewrite E; simpl; auto). assert (Hb : In b (filter f l)) by (rewrite E; simpl; auto).
  apply filter_In in Ha, Hb. exists a, b. inversion N2 as [|? ? X]; subst. repeat split; try tauto. intros ->. apply X. simpl; auto.
Qed.
Lemma median_good : forall n, good pv_median n.
Proof.
  intros n I Hw Hm Hs. unfold pv_median, bs_median. cbv zeta. set (var := t_firstMax n (i_supportCounts n I)). set (J := i_singleDegreeSort I var).
  destruct Hs as (a & b & v & Ha & Hb & D & Hv & Pa & Pb).
  destruct (firstMax_spec n (i_supportCounts n I) ltac:(lia)) as [A B]. fold var in A, B.
  assert (C : 2 <= length (filter (fun g => 0 <? g @ var) I)).
  { specialize (B v Hv). unfold i_supportCounts in B. rewrite !tabulate_nth in B by auto. etransitivity; [|exact B].
    apply (two_filter _ _ I a b); auto; try apply Hm; apply Nat.ltb_lt; auto. }
  pose proof (sort_perm I var) as P. fold J in P. pose proof (std_sort_deg_sorted var I) as SJ. fold (i_singleDegreeSort I var) in SJ. fold J in SJ.
  rewrite (skip_zero_filter var J SJ). rewrite (filter_perm_length _ _ _ _ P) in C. set (l := filter (fun g => 0 <? g @ var) J) in *.
  assert (Sl : StronglySorted (fun a b => a @ var <= b @ var) l) by (apply filter_sorted; auto).
  assert (Nl : NoDup l) by (apply NoDup_filter; apply (minl_perm' n I J); auto).
  assert (Il : forall i, i < length l -> In (nth i l []) I /\ 0 < nth i l [] @ var).
  { intros i Hi. pose proof (nth_In l [] Hi) as X. unfold l in X at 2. apply filter_In in X. destruct X as [X1 X2]. apply Nat.ltb_lt in X2. split; auto.
    apply (Permutation_in _ (Permutation_sym P)); auto. }
  set (i := (length l - 1) / 2). assert (Hi : S i < length l).
  { unfold i. pose proof (Nat.div_mod_eq (length l - 1) 2). pose proof (Nat.mod_upper_bound (length l - 1) 2 ltac:(lia)). assert (C2 : 2 <= length l) by exact C. lia. }
  assert (M : exists q, bind (match l with [] => None | g :: l' => Some (J, nth ((length (g :: l') - 1) / 2) (g :: l') [] @ var) end)
      (fun r => Some (fst r, t_set n (t_identity n) var (snd r))) = Some (J, q) /\ q = t_set n (t_identity n) var (nth i l [] @ var)).
  { unfold i. clear - Hi. destruct l as [|g l']; [cbn in Hi; lia|]. cbn [bind fst snd]. eauto. }
  destruct M as [q [M Eq]]. exists J, q. split; [exact M|]. split; auto. subst q.
  destruct (Il i ltac:(lia)) as [X1 X2]. destruct (Il (S i) Hi) as [Y1 Y2].
  apply (power_common2 n I var _ (nth i l []) (nth (S i) l [])); auto.
  - intros E. rewrite (NoDup_nth l []) in Nl. specialize (Nl i (S i) ltac:(lia) Hi E). lia.
  - apply sorted_nth_le; auto.
Qed.

(** ** Powers that are considered *)
Definition pairE (n : nat) (I : ideal) (v e : nat) : Prop := v < n /\ 0 < e /\ exists a b, In a I /\ In b I /\ a <> b /\ a @ v = e /\ b @ v = e.
Lemma pairE_perm : forall n I J v e, Permutation I J -> pairE n I v e -> pairE n J v e.
Proof. intros n I J v e P (A & B & a & b & Ha & Hb & C). split; auto. split; auto. exists a, b. split; [apply (Permutation_in _ P Ha)|]. split; [apply (Permutation_in _ P Hb)|auto]. Qed.

Definition cnt_at (I : ideal) (v e : nat) : nat := length (filter (fun g => g @ v =? e) I).
Lemma cnt_app : forall a b v e, cnt_at (a ++ b) v e = cnt_at a v e + cnt_at b v e.
Proof. intros. unfold cnt_at. rewrite filter_app, app_length. auto. Qed.
Definition best_ok (n : nat) (I : ideal) (best : vexp) : Prop :=
  let '(c, v, e) := best in c = 0 \/ (v < n /\ 0 < e /\ c <= cnt_at I v e).
Lemma typical_loop_spec : forall n I var, var < n -> forall l pre last count best, I = pre ++ l -> count <= cnt_at pre var last -> best_ok n I best ->
  best_ok n I (typical_loop var last count best l).
Proof.
  intros n I var Hv l. induction l as [|g l IH]; intros pre last count best E Hc Hb; cbn [typical_loop]; auto. cbv zeta.
  assert (E' : I = (pre ++ [g]) ++ l) by (rewrite <- app_assoc; auto).
  destruct (Nat.eqb_spec (g @ var) 0) as [E0|E0].
  - apply (IH (pre ++ [g])); auto. rewrite cnt_app. lia.
  - set (c' := if last =? g @ var then S count else 1).
    assert (Hc' : c' <= cnt_at (pre ++ [g]) var (g @ var)).
    { unfold c'. rewrite cnt_app. assert (cnt_at [g] var (g @ var) = 1) by (unfold cnt_at; cbn [filter]; rewrite Nat.eqb_refl; auto).
      destruct (Nat.eqb_spec last (g @ var)) as [El|]; [rewrite <- El in *|]; lia. }
    apply (IH (pre ++ [g])); auto. destruct (fst (fst best) <? c'); auto. right. split; auto. split; [lia|].
    etransitivity; [exact Hc'|]. rewrite E', (cnt_app (pre ++ [g])). lia.
Qed.
Lemma best_perm : forall n I J best, Permutation I J -> best_ok n I best -> best_ok n J best.
Proof. intros n I J [[c v] e] P [H|(A & B & C)]; [left|right]; auto. split; auto. split; auto. unfold cnt_at in *. rewrite <- (filter_perm_length _ _ _ _ P). auto. Qed.
Lemma typical_vars_spec : forall n vars I best, (forall v, In v vars -> v < n) -> best_ok n I best ->
  Permutation I (fst (typical_vars vars I best)) /\ best_ok n I (snd (typical_vars vars I best)).
Proof.
  intros n vars. induction vars as [|v vars IH]; intros I best Hv Hb; cbn [typical_vars]; auto. cbv zeta.
  set (J := i_singleDegreeSort I v). assert (P : Permutation I J) by apply sort_perm.
  destruct (IH J (typical_loop v 0 0 best J)) as [A B].
  - intros; apply Hv; simpl; auto.
  - apply (typical_loop_spec n J v (Hv v (or_introl eq_refl)) J []); auto. apply (best_perm n I); auto.
  - split; [etransitivity; eauto|]. apply (best_perm n J); auto. apply Permutation_sym; auto.
Qed.

Definition ng_ok (n : nat) (I : ideal) (best : vexp) : Prop := let '(c, v, e) := best in e = 0 \/ pairE n I v e.
Lemma ng_perm : forall n I J best, Permutation I J -> ng_ok n I best -> ng_ok n J best.
Proof. intros n I J [[c v] e] P [H|H]; [left|right]; auto. apply (pairE_perm n I J); auto. Qed.
Lemma take_block_app : forall var e l, l = fst (take_block var e l) ++ snd (take_block var e l) /\ Forall (fun g => g @ var = e) (fst (take_block var e l)).
Proof.
  intros var e l. induction l as [|g l IH]; cbn [take_block]; [cbn; auto|]. destruct (Nat.eqb_spec (g @ var) e) as [E|E]; cbn [fst snd]; auto.
  destruct (take_block var e l) as [x y]. cbn [fst snd] in *. destruct IH as [A B]. split; [cbn; f_equal; auto|]. constructor; auto.
Qed.
Lemma ng_exists_pair : forall n I block, ng_exists n I block = true -> exists l1 a l2 b l3, block = l1 ++ a :: l2 ++ b :: l3.
Proof.
  intros n I block. induction block as [|a block IH]; [discriminate|]. cbn [ng_exists]. intros H. apply orb_true_iff in H. destruct H as [H|H].
  - apply existsb_exists in H. destruct H as [b [Hb _]]. apply in_split in Hb. destruct Hb as (l2 & l3 & ->). exists [], a, l2, b, l3. auto.
  - destruct (IH H) as (l1 & x & l2 & y & l3 & ->). exists (a :: l1), x, l2, y, l3. auto.
Qed.
Lemma ng_count_pair : forall n I block, 0 < ng_count n I block -> exists l1 a l2 b l3, block = l1 ++ a :: l2 ++ b :: l3.
Proof.
  intros n I block. induction block as [|a block IH]; cbn [ng_count]; [lia|]. intros H.
  destruct block as [|b block]; [cbn in H; lia|]. exists [], a, [], b, block. auto.
Qed.
Lemma block_pair : forall n I v e pre block rest, NoDup I -> v < n -> 0 < e -> I = pre ++ block ++ rest -> Forall (fun g => g @ v = e) block ->
  (exists l1 a l2 b l3, block = l1 ++ a :: l2 ++ b :: l3) -> pairE n I v e.
Proof.
  intros n I v e pre block rest N Hv He E F (l1 & a & l2 & b & l3 & ->). split; auto. split; auto. rewrite Forall_forall in F.
  exists a, b. assert (Ia : In a (l1 ++ a :: l2 ++ b :: l3)) by (apply in_or_app; simpl; auto).
  assert (Ib : In b (l1 ++ a :: l2 ++ b :: l3)) by (apply in_or_app; right; right; apply in_or_app; simpl; auto).
  split; [rewrite E; apply in_or_app; right; apply in_or_app; auto|]. split; [rewrite E; apply in_or_app; right; apply in_or_app; auto|].
  split; [|split; auto]. intros ->. rewrite E in N. rewrite <- app_assoc in N. cbn [app] in N. rewrite app_assoc in N. apply NoDup_remove_2 in N. apply N. apply in_or_app. right. apply in_or_app. left. apply in_or_app. simpl; auto.
Qed.
Lemma ng_block_spec : forall k n I v block best pre rest e, NoDup I -> v < n -> I = pre ++ block ++ rest -> Forall (fun g => g @ v = e) block ->
  ng_ok n I best -> ng_ok n I (ng_block k n I v e block best).
Proof.
  intros k n I v block best pre rest e N Hv E F Hb. unfold ng_block. cbv zeta.
  assert (G : forall c : nat, 0 < e -> (exists l1 a l2 b l3, block = l1 ++ a :: l2 ++ b :: l3) -> ng_ok n I (c, v, e)).
  { intros c He X. right. apply (block_pair n I v e pre block rest); auto. }
  destruct k; destruct (Nat.eqb_spec e 0) as [E0|E0]; cbn [orb]; auto.
  - destruct (_ <=? _); auto. destruct (fst (fst best) <? ng_count n I block) eqn:L; auto. apply Nat.ltb_lt in L. apply G; [lia|]. apply (ng_count_pair n I). lia.
  - destruct (_ <=? _); auto. destruct (ng_exists n I block) eqn:L; auto. apply G; [lia|]. apply (ng_exists_pair n I); auto.
  - destruct (_ <? _); auto. destruct (ng_exists n I block) eqn:L; auto. apply G; [lia|]. apply (ng_exists_pair n I); auto.
Qed.
Lemma ng_loop_spec : forall k n I v, NoDup I -> v < n -> forall fuel l best pre, I = pre ++ l -> ng_ok n I best -> ng_ok n I (ng_loop fuel k n I v l best).
Proof.
  intros k n I v N Hv fuel. induction fuel as [|fuel IH]; intros l best pre E Hb; cbn [ng_loop]; auto. destruct l as [|g l]; auto. cbv zeta.
  pose proof (take_block_app v (g @ v) (g :: l)) as X. destruct (take_block v (g @ v) (g :: l)) as [block rest]. cbn [fst snd] in X. destruct X as [X F].
  apply (IH rest _ (pre ++ block)).
  - rewrite <- app_assoc. rewrite E. f_equal. exact X.
  - apply (ng_block_spec k n I v block best pre rest); auto. rewrite E. f_equal. exact X.
Qed.
Lemma ng_vars_spec : forall k n vars I best, NoDup I -> (forall v, In v vars -> v < n) -> ng_ok n I best ->
  Permutation I (fst (ng_vars k n vars I best)) /\ ng_ok n I (snd (ng_vars k n vars I best)).
Proof.
  intros k n vars. induction vars as [|v vars IH]; intros I best N Hv Hb; cbn [ng_vars]; auto. cbv zeta.
  set (J := i_singleDegreeSort I v). assert (P : Permutation I J) by apply sort_perm.
  assert (NJ : NoDup J) by (apply (Permutation_NoDup P); auto).
  set (best' := ng_loop (length J) k n J v J best).
  assert (B' : ng_ok n J best').
  { apply (ng_loop_spec k n J v NJ (Hv v (or_introl eq_refl)) (length J) J best []); auto. apply (ng_perm n I); auto. }
  assert (R : Permutation I (fst (ng_vars k n vars J best')) /\ ng_ok n I (snd (ng_vars k n vars J best'))).
  { destruct (IH J best' NJ ltac:(intros; apply Hv; simpl; auto) B') as [A B]. split; [etransitivity; eauto|]. apply (ng_perm n J); auto. apply Permutation_sym; auto. }
  destruct k; auto. destruct (_ <? _); auto. cbn [fst snd]. split; auto. apply (ng_perm n J); auto. apply Permutation_sym; auto.
Qed.
Lemma consider_spec : forall c n I, minl n I -> let '(J, v, e) := pv_consider c n I in Permutation I J /\ (e = 0 \/ pairE n I v e).
Proof.
  intros c n I [N M]. assert (Hv : forall v, In v (seq 0 n) -> v < n) by (intros v H; apply in_seq in H; lia). destruct c as [|k]; cbn [pv_consider].
  - unfold i_getTypicalExponent. destruct (typical_vars_spec n (seq 0 n) I (0, 0, 0) Hv ltac:(left; auto)) as [A B].
    destruct (typical_vars (seq 0 n) I (0, 0, 0)) as [J [[c v] e]]. cbn [fst snd] in *. split; auto.
    destruct (Nat.leb_spec c 1) as [L|L]; auto. destruct B as [B|(B1 & B2 & B3)]; [lia|]. right. split; auto. split; auto.
    destruct (filter_two _ (fun g => g @ v =? e) I N) as (a & b & Ha & Hb & D & Ea & Eb).
    + unfold cnt_at in B3. etransitivity; [|exact B3]. lia.
    + apply Nat.eqb_eq in Ea, Eb. exists a, b. auto.
  - unfold i_getNonGeneric. destruct (ng_vars_spec k n (seq 0 n) I (0, 0, 0) N Hv ltac:(left; auto)) as [A B].
    destruct (ng_vars k n (seq 0 n) I (0, 0, 0)) as [J [[c v] e]]. cbn [fst snd] in *. auto.
Qed.

(** ** The pivot *)
Lemma gcdAt_common2 : forall n I v e, wf n I -> pairE n I v e -> common2 n I (i_gcdAtExponent n I v e).
Proof.
  intros n I v e Hw (Hv & He & a & b & Ha & Hb & D & Ea & Eb). unfold i_gcdAtExponent. set (F := filter (fun g => g @ v =? e) I).
  assert (HF : forall g, In g F <-> In g I /\ g @ v = e) by (intros g; unfold F; rewrite filter_In, Nat.eqb_eq; tauto).
  assert (WF : wf n F) by (intros g Hg; apply Hw, HF; auto). destruct (gcd_of_spec n F WF) as (A & B & C).
  assert (NF : F <> []) by (intros E; assert (X : In a F) by (apply HF; auto); rewrite E in X; destruct X).
  split; auto. split.
  - exists v. split; auto. assert (L : le_n n (t_set n (t_identity n) v e) (gcd_of n F)).
    { apply C; auto. intros h Hh. apply HF in Hh. apply power_le; auto. lia. }
    specialize (L v Hv). rewrite t_set_nth, Nat.eqb_refl in L by auto. lia.
  - exists a, b. split; auto. split; auto. split; auto. split; apply B; apply HF; auto.
Qed.
Lemma to_block_spec : forall v e l, (exists g, In g l /\ g @ v = e) -> exists pre g l', to_block v e l = Some (g :: l') /\ g @ v = e /\ l = pre ++ g :: l'.
Proof.
  intros v e l. induction l as [|h l IH]; intros [g [Hg E]]; [destruct Hg|]. cbn [to_block]. destruct (Nat.eqb_spec (h @ v) e) as [Eh|Eh].
  - exists [], h, l. auto.
  - destruct IH as (pre & x & l' & A & B & C); [exists g; destruct Hg as [->|Hg]; [congruence|auto]|]. exists (h :: pre), x, l'. rewrite C at 2. auto.
Qed.
Lemma tight_loop_spec : forall n I J v e, v < n -> 0 < e -> forall block pivot, NoDup block -> (forall g, In g block -> In g I /\ g @ v = e) ->
  match pivot with None => True | Some p => common2 n I p /\ p @ v = e end ->
  match tight_loop n J block pivot with None => True | Some p => common2 n I p /\ p @ v = e end.
Proof.
  intros n I J v e Hv He block. induction block as [|a block IH]; intros pivot N H Hp; cbn [tight_loop]; auto. inversion N as [|? ? Na Nb]; subst.
  apply IH; auto; [intros; apply H; simpl; auto|]. unfold tight_partner. destruct (find (fun b => negb (i_strictlyContains n J (t_lcm n a b))) block) as [b|] eqn:E; auto. apply find_some in E. destruct E as [Hb _].
  destruct (H a (or_introl eq_refl)) as [Ia Ea]. destruct (H b (or_intror Hb)) as [Ib Eb]. destruct pivot as [p|].
  - destruct Hp as [(Lp & _ & x & y & Hx & Hy & D & Lx & Ly) Ep].
    assert (Eg : t_gcd n (t_gcd n p a) b @ v = e) by (rewrite !t_gcd_nth by auto; lia).
    assert (Lg : le_n n (t_gcd n (t_gcd n p a) b) p) by (intros u Hu; rewrite !t_gcd_nth by auto; lia).
    split; auto. split; [apply t_gcd_length|]. split; [exists v; split; auto; lia|]. exists x, y. repeat split; auto; eapply le_n_trans; eauto.
  - assert (Eg : t_gcd n a b @ v = e) by (rewrite !t_gcd_nth by auto; lia).
    split; auto. split; [apply t_gcd_length|]. split; [exists v; split; auto; lia|]. exists a, b. repeat split; auto.
    + intros ->. auto.
    + intros u Hu. rewrite t_gcd_nth by auto. lia.
    + intros u Hu. rewrite t_gcd_nth by auto. lia.
Qed.
Lemma tight_good : forall n I v e, wf n I -> minl n I -> pairE n I v e -> exists J p, pv_tight n I v e = Some (J, p) /\ Permutation I J /\ common2 n I p.
Proof.
  intros n I v e Hw [N M] HP. pose proof HP as (Hv & He & a & b & Ha & Hb & D & Ea & Eb). unfold pv_tight. cbv zeta.
  set (J := i_singleDegreeSort I v). assert (P : Permutation I J) by apply sort_perm.
  destruct (to_block_spec v e J) as (pre & g & l' & E1 & E2 & E3); [exists a; split; auto; apply (Permutation_in _ P); auto|].
  rewrite E1. cbn [bind]. destruct (take_block_app v e (g :: l')) as [T1 T2]. set (block := fst (take_block v e (g :: l'))) in *.
  eexists. eexists. split; [reflexivity|]. split; auto.
  assert (NJ : NoDup J) by (apply (Permutation_NoDup P); auto).
  assert (NB : NoDup block).
  { rewrite E3, T1 in NJ. clear - NJ. induction pre as [|x pre IH]; cbn [app] in NJ; [|inversion NJ; auto].
    induction block as [|x block IH]; [constructor|]. cbn [app] in NJ. inversion NJ; subst. constructor; auto. intros H. apply H1. apply in_or_app; auto. }
  rewrite Forall_forall in T2.
  assert (HB : forall x, In x block -> In x I /\ x @ v = e).
  { intros x Hx. split; auto. apply (Permutation_in _ (Permutation_sym P)). rewrite E3, T1. apply in_or_app. right. apply in_or_app; auto. }
  pose proof (tight_loop_spec n I J v e Hv He block None NB HB Logic.I) as X. destruct (tight_loop n J block None) as [p|].
  - apply X.
  - apply (power_common2 n I v e a b); auto; lia.
Qed.
Lemma generic_good : forall c s n, good (pv_generic c s) n.
Proof.
  intros c s n I Hw Hm Hs. unfold pv_generic. pose proof (consider_spec c n I Hm) as X. destruct (pv_consider c n I) as [[J v] e]. destruct X as [P X].
  pose proof (wf_perm' n I J P Hw) as WJ. pose proof (minl_perm' n I J P Hm) as MJ.
  destruct (Nat.eqb_spec e 0) as [E0|E0].
  - destruct (median_good n J WJ MJ (shares_perm n I J P Hs)) as (J' & p & A & B & C). exists J', p. split; auto. split; [etransitivity; eauto|].
    apply (common2_perm n J); auto. apply Permutation_sym; auto.
  - destruct X as [X|X]; [lia|]. pose proof (pairE_perm n I J v e P X) as XJ. destruct s.
    + eexists. eexists. split; [reflexivity|]. split; auto. destruct X as (Hv & He & a & b & Ha & Hb & D & Ea & Eb). apply (power_common2 n I v e a b); auto; lia.
    + eexists. eexists. split; [reflexivity|]. split; auto. apply (common2_perm n J); [apply Permutation_sym; auto|]. apply gcdAt_common2; auto.
    + destruct (tight_good n J v e WJ MJ XJ) as (J' & p & A & B & C). exists J', p. split; auto. split; [etransitivity; eauto|].
      apply (common2_perm n J); auto. apply Permutation_sym; auto.
Qed.
Lemma widen_good : forall f n, good f n -> good (pv_widen f) n.
Proof.
  intros f n Hf I Hw Hm Hs. destruct (Hf I Hw Hm Hs) as (J & p & A & P & C). unfold pv_widen. rewrite A. cbn [bind fst snd].
  eexists. eexists. split; [reflexivity|]. split; auto. apply (common2_perm n J); [apply Permutation_sym; auto|].
  apply (common2_perm n I J) in C; auto. destruct C as (Lp & (v & Hv & Pv) & a & b & Ha & Hb & D & La & Lb).
  unfold i_gcdOfMultiplesOf. set (F := filter (fun g => t_divides n p g) J).
  assert (HF : forall g, In g F <-> In g J /\ le_n n p g) by (intros g; unfold F; rewrite filter_In, t_divides_iff; tauto).
  assert (WF : wf n F) by (intros g Hg; apply HF in Hg; apply (wf_perm' n I J P Hw); tauto). destruct (gcd_of_spec n F WF) as (G1 & G2 & G3).
  assert (NF : F <> []) by (intros E; assert (X : In a F) by (apply HF; auto); rewrite E in X; destruct X).
  split; auto. split.
  - exists v. split; auto. assert (L : le_n n p (gcd_of n F)) by (apply G3; auto; intros h Hh; apply HF in Hh; tauto). specialize (L v Hv). lia.
  - exists a, b. split; auto. split; auto. split; auto. split; apply G2; apply HF; auto.
Qed.
Lemma strategy_legal : forall b widen n, legal n (strategy b widen).
Proof.
  intros b widen n. apply good_legal. unfold strategy. cbv zeta.
  assert (G : good (match b with Median => pv_median | Generic c s => pv_generic c s end) n) by (destruct b; [apply median_good|apply generic_good]).
  destruct widen; auto. apply widen_good; auto.
Qed.
