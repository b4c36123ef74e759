(** Grades, the upper bound and the simplifications made with it. *)
From Coq Require Import List Arith Bool ZArith Lia.
Import ListNotations.
From Verif Require Import M_Term M_Ideal M_Slice M_Partition M_Msm P_Term P_Ideal M_Api M_Opt.

Local Open Scope Z_scope.
(** grade of one exponent, and the degree of a term as a sum *)
Definition gval (g : grader) (v e : nat) : Z := nth e (nth v (g_grades g) []) 0.
Definition degs (g : grader) (m : term) (l : list nat) : Z := fold_right (fun v a => gval g v (m @ v)%nat + a) 0 l.
Definition deg (g : grader) (m : term) : Z := degs g m (seq 0 (gr_n g)).

(** what the bounds need: the grades are monotone below the largest exponent, and the largest exponent stands
    for a value below (above) all of them. *)
Record gr_ok (n : nat) (g : grader) : Prop := mkGrOk {
  go_n : gr_n g = n;
  go_len : forall v, (v < n)%nat -> length (nth v (g_grades g) []) <> 0%nat;
  go_pos : forall v, (v < n)%nat -> 0 < getGradeSign g v ->
     (forall e e', (1 <= e)%nat -> (e <= e')%nat -> (e' < getMaxExponent g v)%nat -> gval g v e <= gval g v e') /\
     (forall e, (1 <= e)%nat -> (e < getMaxExponent g v)%nat -> gval g v (getMaxExponent g v) <= gval g v e);
  go_neg : forall v, (v < n)%nat -> getGradeSign g v < 0 ->
     (forall e e', (1 <= e)%nat -> (e <= e')%nat -> (e' < getMaxExponent g v)%nat -> gval g v e' <= gval g v e) /\
     (forall e, (1 <= e)%nat -> (e < getMaxExponent g v)%nat -> gval g v e <= gval g v (getMaxExponent g v));
  go_zero : forall v, (v < n)%nat -> getGradeSign g v = 0 -> forall e, gval g v e = 0 }.

Lemma getGrade_some : forall n g v e, gr_ok n g -> (v < n)%nat -> (e <= getMaxExponent g v)%nat ->
  getGrade g v e = Some (gval g v e).
Proof.
  intros n g v e H Hv He. unfold getGrade, gval. apply nth_error_nth'. pose proof (go_len n g H v Hv).
  unfold getMaxExponent in He. lia.
Qed.

Lemma foldM_sum : forall (f : nat -> option Z) (h : nat -> Z) l a, (forall v, In v l -> f v = Some (h v)) ->
  foldM (fun d v => bind (f v) (fun x => Some (d + x))) l a = Some (a + fold_right (fun v b => h v + b) 0 l).
Proof.
  intros f h. induction l as [|v l IH]; intros a H; cbn [foldM fold_right]; [f_equal; lia|].
  rewrite (H v (or_introl eq_refl)). cbn [bind]. rewrite IH by (intros; apply H; right; auto). f_equal. lia.
Qed.

Lemma getDegree_some : forall n g t, gr_ok n g -> (forall v, (v < n)%nat -> (t @ v <= getMaxExponent g v)%nat) ->
  getDegree g t = Some (deg g t).
Proof.
  intros n g t H Ht. unfold getDegree, deg, degs. rewrite (foldM_sum (fun v => getGrade g v (t @ v)%nat) (fun v => gval g v (t @ v)%nat)); [f_equal|].
  intros v Hv. apply in_seq in Hv. rewrite (go_n n g H) in Hv. apply (getGrade_some n); auto; [lia|]. apply Ht. lia.
Qed.

Section Bound.
Variables (n : nat) (g : grader) (q dom : term).
Hypothesis Hg : gr_ok n g.
Hypothesis Hr : forall v, (v < n)%nat ->
  (1 <= q @ v)%nat /\ (q @ v <= S (dom @ v))%nat /\ (dom @ v <= getMaxExponent g v)%nat.

Definition opt (v : nat) : nat := optimalExponent g v (q @ v)%nat (dom @ v)%nat.
Definition ubs (l : list nat) : Z := fold_right (fun v a => (if getGradeSign g v =? 0 then 0 else gval g v (opt v)) + a) 0 l.

Lemma opt_range : forall v, (v < n)%nat -> (opt v <= getMaxExponent g v)%nat.
Proof.
  intros v Hv. destruct (Hr v Hv) as [A [B C]]. unfold opt, optimalExponent.
  destruct (Nat.eqb_spec (q @ v) (dom @ v)); [lia|]. destruct (0 <? getGradeSign g v); destruct (Nat.eqb_spec (dom @ v) (getMaxExponent g v)); lia.
Qed.

Lemma getUpperBound_some : getUpperBound g q dom = Some (ubs (seq 0 n)).
Proof.
  unfold getUpperBound. rewrite (go_n n g Hg).
  assert (H : forall l a, (forall v, In v l -> (v < n)%nat) -> foldM (fun b v => if getGradeSign g v =? 0 then Some b
      else bind (getGrade g v (optimalExponent g v (q @ v)%nat (dom @ v)%nat)) (fun x => Some (b + x))) l a = Some (a + ubs l)).
  { induction l as [|v l IH]; intros a H; cbn [foldM ubs fold_right]; [f_equal; lia|].
    change (fold_right _ 0 l) with (ubs l). destruct (getGradeSign g v =? 0).
    - cbn [bind]. rewrite IH by (intros; apply H; right; auto). f_equal; lia.
    - pose proof (H v (or_introl eq_refl)) as Hv. fold (opt v). rewrite (getGrade_some n g v (opt v) Hg Hv (opt_range v Hv)). cbn [bind].
      rewrite IH by (intros; apply H; right; auto). f_equal; lia. }
  rewrite H; [f_equal|]. intros v Hv. apply in_seq in Hv. lia.
Qed.

(** one variable *)
Lemma opt_ge : forall v e, (v < n)%nat -> (q @ v <= e)%nat -> (e <= dom @ v)%nat ->
  gval g v e <= (if getGradeSign g v =? 0 then 0 else gval g v (opt v)).
Proof.
  intros v e Hv H1 H2. destruct (Hr v Hv) as [A [_ C]]. destruct (Z.eqb_spec (getGradeSign g v) 0) as [E|E].
  { rewrite (go_zero n g Hg v Hv E). lia. }
  unfold opt, optimalExponent. destruct (Nat.eqb_spec (q @ v) (dom @ v)) as [E1|N1].
  { replace e with (q @ v)%nat by lia. lia. }
  destruct (Z.ltb_spec 0 (getGradeSign g v)) as [P|P].
  - destruct (go_pos n g Hg v Hv P) as [P1 P2]. destruct (Nat.eqb_spec (dom @ v) (getMaxExponent g v)) as [E2|N2].
    + destruct (Nat.eq_dec e (dom @ v)) as [->|N3].
      * rewrite E2 at 1. apply P2; lia.
      * apply P1; lia.
    + apply P1; lia.
  - destruct (go_neg n g Hg v Hv ltac:(lia)) as [P1 P2]. destruct (Nat.eqb_spec (dom @ v) (getMaxExponent g v)) as [E2|N2].
    + destruct (Nat.eq_dec e (dom @ v)) as [->|N3]; [lia|]. rewrite E2. apply P2; lia.
    + apply P1; lia.
Qed.

Definition within (m : term) : Prop := forall v, (v < n)%nat -> (q @ v <= m @ v)%nat /\ (m @ v <= dom @ v)%nat.

Lemma degs_le : forall m l, within m -> (forall v, In v l -> (v < n)%nat) -> degs g m l <= ubs l.
Proof.
  intros m l Hm. induction l as [|v l IH]; intros H; cbn [degs ubs fold_right]; [lia|].
  change (fold_right _ 0 l) with (degs g m l) at 1. change (fold_right _ 0 l) with (ubs l).
  specialize (IH ltac:(intros; apply H; right; auto)). pose proof (H v (or_introl eq_refl)) as Hv.
  destruct (Hm v Hv) as [A B]. pose proof (opt_ge v _ Hv A B). lia.
Qed.
Lemma upper_bound : forall m, within m -> deg g m <= ubs (seq 0 n).
Proof.
  intros m Hm. unfold deg. rewrite (go_n n g Hg). apply degs_le; auto. intros v Hv. apply in_seq in Hv. lia.
Qed.

(** the degree with one variable singled out *)
Lemma degs_at : forall m l v, within m -> (forall w, In w l -> (w < n)%nat) -> NoDup l -> In v l -> getGradeSign g v <> 0 ->
  degs g m l <= ubs l - gval g v (opt v) + gval g v (m @ v)%nat.
Proof.
  intros m l v Hm. induction l as [|w l IH]; intros H Hn Hv Hs; [destruct Hv|]. cbn [degs ubs fold_right].
  change (fold_right _ 0 l) with (degs g m l) at 1. change (fold_right _ 0 l) with (ubs l).
  assert (H' : forall w, In w l -> (w < n)%nat) by (intros; apply H; right; auto). inversion Hn; subst.
  destruct Hv as [->|Hv].
  - pose proof (degs_le m l Hm H'). destruct (Z.eqb_spec (getGradeSign g v) 0); lia.
  - specialize (IH H' H3 Hv Hs). pose proof (H w (or_introl eq_refl)) as Hw. destruct (Hm w Hw) as [A B]. pose proof (opt_ge w _ Hw A B). lia.
Qed.
Lemma deg_at : forall m v, within m -> (v < n)%nat -> getGradeSign g v <> 0 ->
  deg g m <= ubs (seq 0 n) - gval g v (opt v) + gval g v (m @ v)%nat.
Proof.
  intros m v Hm Hv Hs. unfold deg. rewrite (go_n n g Hg). apply degs_at; auto.
  - intros w Hw. apply in_seq in Hw. lia.
  - apply seq_NoDup.
  - apply in_seq. lia.
Qed.

(** scans *)
Lemma scan_some : forall v d es, (v < n)%nat -> (forall e, In e es -> (e <= getMaxExponent g v)%nat) ->
  exists r, scan g v d es = Some r /\ match r with Some e => In e es /\ gval g v e <= d | None => True end.
Proof.
  intros v d es Hv. induction es as [|e es IH]; intros H; cbn [scan]; [exists None; auto|].
  rewrite (getGrade_some n g v e Hg Hv (H e (or_introl eq_refl))). cbn [bind].
  destruct (Z.leb_spec (gval g v e) d) as [L|L].
  - exists (Some e). split; auto. split; [left; auto|auto].
  - destruct (IH ltac:(intros; apply H; right; auto)) as [r [E Hres]]. exists r. split; auto. destruct r; auto. destruct Hres. split; auto. right; auto.
Qed.

Variable beat : Z.
Hypothesis Hq : forall v, (v < n)%nat -> (q @ v <= dom @ v)%nat.
Let ub := ubs (seq 0 n).

Lemma innerAt_spec : forall v, (v < n)%nat -> exists r, o_innerAt g beat ub v (q @ v)%nat (dom @ v)%nat = Some r /\
  match r with
  | None => True
  | Some p => (1 <= p)%nat /\ (p + q @ v <= dom @ v)%nat /\
      forall m, within m -> (m @ v < q @ v + p)%nat -> deg g m <= beat
  end.
Proof.
  intros v Hv. destruct (Hr v Hv) as [A [_ C]]. pose proof (Hq v Hv) as B. unfold o_innerAt. destruct (Nat.eqb_spec (q @ v) (dom @ v)) as [E1|N1]; [exists None; auto|].
  destruct (Z.ltb_spec 0 (getGradeSign g v)) as [P|P].
  - set (b := if (dom @ v =? getMaxExponent g v)%nat then (dom @ v - 1)%nat else dom @ v).
    destruct (Nat.eqb_spec (q @ v) b) as [E2|N2]; [exists None; auto|].
    assert (Eo : opt v = b).
    { unfold opt, optimalExponent. destruct (Nat.eqb_spec (q @ v) (dom @ v)); [lia|].
      rewrite (proj2 (Z.ltb_lt _ _) P). unfold b. reflexivity. }
    assert (Hb : (b <= dom @ v)%nat /\ (b < getMaxExponent g v \/ getMaxExponent g v = 0)%nat).
    { unfold b. destruct (Nat.eqb_spec (dom @ v) (getMaxExponent g v)); lia. }
    rewrite (getGrade_some n g v b Hg Hv ltac:(lia)). cbn [bind]. unfold getMaxIndexLessThan.
    destruct (scan_some v (beat - ub + gval g v b) (rev (seq (q @ v) (S (b - 1) - q @ v)))) as [r [E Hres]]; auto.
    { intros e He. apply in_rev in He. apply in_seq in He. lia. }
    rewrite E. cbn [bind]. destruct r as [t|]; [|exists None; auto]. destruct Hres as [Ht Hd]. apply in_rev in Ht. apply in_seq in Ht.
    exists (Some (t - q @ v + 1)%nat). split; auto. split; [lia|]. split; [lia|]. intros m Hm Hlt.
    pose proof (deg_at m v Hm Hv ltac:(lia)) as D. fold ub in D. rewrite Eo in D.
    destruct (Hm v Hv) as [M1 M2]. destruct (go_pos n g Hg v Hv P) as [P1 P2].
    pose proof (P1 (m @ v)%nat t ltac:(lia) ltac:(lia) ltac:(lia)). lia.
  - destruct (Z.ltb_spec (getGradeSign g v) 0) as [P'|P']; [|exists None; auto].
    destruct (Nat.eqb_spec (dom @ v) (getMaxExponent g v)) as [E2|N2]; [|exists None; auto].
    assert (Eo : opt v = dom @ v).
    { unfold opt, optimalExponent. destruct (Nat.eqb_spec (q @ v) (dom @ v)); [lia|].
      rewrite (proj2 (Z.ltb_ge _ _) P), (proj2 (Nat.eqb_eq _ _) E2). reflexivity. }
    rewrite (getGrade_some n g v (dom @ v)%nat Hg Hv C). cbn [bind]. rewrite (getGrade_some n g v (q @ v)%nat Hg Hv ltac:(lia)). cbn [bind].
    destruct (Z.leb_spec (ub - gval g v (dom @ v)%nat + gval g v (q @ v)%nat) beat) as [L|L]; [|exists None; auto].
    exists (Some (dom @ v - q @ v)%nat). split; auto. split; [lia|]. split; [lia|]. intros m Hm Hlt.
    pose proof (deg_at m v Hm Hv ltac:(lia)) as D. fold ub in D. rewrite Eo in D.
    destruct (Hm v Hv) as [M1 M2]. destruct (go_neg n g Hg v Hv P') as [P1 P2].
    pose proof (P1 (q @ v)%nat (m @ v)%nat ltac:(lia) ltac:(lia) ltac:(lia)). lia.
Qed.

Lemma outerAt_spec : forall v, (v < n)%nat -> exists r, o_outerAt g beat ub v (q @ v)%nat (dom @ v)%nat = Some r /\
  match r with
  | None => True
  | Some p => (1 <= p)%nat /\ forall m, within m -> (q @ v + p <= m @ v)%nat -> deg g m <= beat
  end.
Proof.
  intros v Hv. destruct (Hr v Hv) as [A [_ C]]. pose proof (Hq v Hv) as B. unfold o_outerAt. destruct (Nat.eqb_spec (q @ v) (dom @ v)) as [E1|N1]; [exists None; auto|].
  destruct (Z.ltb_spec (getGradeSign g v) 0) as [P|P].
  - destruct (Nat.eqb_spec (dom @ v) (getMaxExponent g v)) as [E2|N2]; [exists None; auto|].
    assert (Eo : opt v = q @ v).
    { unfold opt, optimalExponent. destruct (Nat.eqb_spec (q @ v) (dom @ v)); [lia|].
      rewrite (proj2 (Z.ltb_ge _ _)) by lia. rewrite (proj2 (Nat.eqb_neq _ _) N2). reflexivity. }
    rewrite (getGrade_some n g v (q @ v)%nat Hg Hv ltac:(lia)). cbn [bind]. unfold getMinIndexLessThan.
    destruct (scan_some v (beat - ub + gval g v (q @ v)%nat) (seq (q @ v + 1) (S (dom @ v) - (q @ v + 1)))) as [r [E Hres]]; auto.
    { intros e He. apply in_seq in He. lia. }
    rewrite E. cbn [bind]. destruct r as [t|]; [|exists None; auto]. destruct Hres as [Ht Hd]. apply in_seq in Ht.
    exists (Some (t - q @ v)%nat). split; auto. split; [lia|]. intros m Hm Hle.
    pose proof (deg_at m v Hm Hv ltac:(lia)) as D. fold ub in D. rewrite Eo in D.
    destruct (Hm v Hv) as [M1 M2]. destruct (go_neg n g Hg v Hv P) as [P1 P2].
    pose proof (P1 t (m @ v)%nat ltac:(lia) ltac:(lia) ltac:(lia)). lia.
  - destruct (Z.ltb_spec 0 (getGradeSign g v)) as [P'|P']; [|exists None; auto].
    destruct (Nat.eqb_spec (dom @ v) (getMaxExponent g v)) as [E2|N2]; [|exists None; auto].
    assert (Eo : opt v = (dom @ v - 1)%nat).
    { unfold opt, optimalExponent. destruct (Nat.eqb_spec (q @ v) (dom @ v)); [lia|].
      rewrite (proj2 (Z.ltb_lt _ _) P'), (proj2 (Nat.eqb_eq _ _) E2). reflexivity. }
    rewrite (getGrade_some n g v (dom @ v - 1)%nat Hg Hv ltac:(lia)). cbn [bind]. rewrite (getGrade_some n g v (dom @ v)%nat Hg Hv C). cbn [bind].
    destruct (Z.leb_spec (ub - gval g v (dom @ v - 1)%nat + gval g v (dom @ v)%nat) beat) as [L|L]; [|exists None; auto].
    exists (Some (dom @ v - q @ v)%nat). split; auto. split; [lia|]. intros m Hm Hle.
    pose proof (deg_at m v Hm Hv ltac:(lia)) as D. fold ub in D. rewrite Eo in D.
    destruct (Hm v Hv) as [M1 M2]. replace (m @ v)%nat with (dom @ v)%nat in D by lia. lia.
Qed.

Lemma getInner_spec : exists r, o_getInner g beat ub q dom = Some r /\
  match r with
  | None => True
  | Some p => length p = n /\ (forall v, (v < n)%nat -> (p @ v + q @ v <= dom @ v)%nat) /\
      forall m, within m -> (exists v, (v < n)%nat /\ (m @ v < q @ v + p @ v)%nat) -> deg g m <= beat
  end.
Proof.
  unfold o_getInner. rewrite (go_n n g Hg).
  set (f := fun v => o_innerAt g beat ub v (q @ v)%nat (dom @ v)%nat).
  set (un := fun x : option nat => match x with Some e => e | None => 0%nat end).
  assert (H : forall k a, (a + k <= n)%nat -> exists r, mapM f (seq a k) = Some r /\ length r = k /\
     forall i, (i < k)%nat -> f (a + i)%nat = Some (nth i r None)).
  { induction k as [|k IH]; intros a Ha; cbn [seq mapM].
    - exists []. split; auto. split; auto. intros; lia.
    - destruct (innerAt_spec a ltac:(lia)) as [x [E _]]. fold (f a) in E. rewrite E. cbn [bind].
      destruct (IH (S a) ltac:(lia)) as [r [Er [Lr Hx]]]. rewrite Er. cbn [bind]. exists (x :: r). split; auto. split; [cbn; lia|].
      intros [|i] Hi; [rewrite Nat.add_0_r; auto|]. replace (a + S i)%nat with (S a + i)%nat by lia. apply Hx. lia. }
  destruct (H n 0%nat ltac:(lia)) as [r [Er [Lr Hx]]]. rewrite Er. cbn [bind].
  destruct (existsb _ r); [|exists None; auto].
  exists (Some (map un r)). split; auto. split; [rewrite map_length; auto|].
  assert (Hu : forall v, (v < n)%nat -> ((map un r) @ v)%nat = un (nth v r None)).
  { intros v Hv. rewrite (nth_indep (map un r) 0%nat (un None)) by (rewrite map_length; lia). apply map_nth. }
  split.
  - intros v Hv. rewrite Hu by auto. destruct (innerAt_spec v Hv) as [x [E Hs]]. specialize (Hx v Hv). cbn [Nat.add] in Hx. unfold f in Hx.
    rewrite E in Hx. injection Hx as ->. pose proof (Hq v Hv). destruct (nth v r None) as [p|]; cbn; [destruct Hs as [_ [S2 _]]|]; lia.
  - intros m Hm [v [Hv Hlt]]. rewrite Hu in Hlt by auto. destruct (innerAt_spec v Hv) as [x [E Hs]]. specialize (Hx v Hv). cbn [Nat.add] in Hx. unfold f in Hx.
    rewrite E in Hx. injection Hx as ->. destruct (Hm v Hv). destruct (nth v r None) as [p|]; cbn in Hlt; [|lia].
    apply Hs; auto.
Qed.

Lemma getOuter_spec : exists r, o_getOuter g beat ub q dom (seq 0 n) = Some r /\
  match r with
  | None => True
  | Some (v, e) => (v < n)%nat /\ (1 <= e)%nat /\ forall m, within m -> (q @ v + e <= m @ v)%nat -> deg g m <= beat
  end.
Proof.
  assert (H : forall l, (forall v, In v l -> (v < n)%nat) -> exists r, o_getOuter g beat ub q dom l = Some r /\
    match r with
    | None => True
    | Some (v, e) => (v < n)%nat /\ (1 <= e)%nat /\ forall m, within m -> (q @ v + e <= m @ v)%nat -> deg g m <= beat
    end).
  { induction l as [|v l IH]; intros H; cbn [o_getOuter]; [exists None; auto|].
    pose proof (H v (or_introl eq_refl)) as Hv. destruct (outerAt_spec v Hv) as [r [E Hs]]. rewrite E. cbn [bind].
    destruct r as [e|]; [exists (Some (v, e)); split; auto|]. apply IH. intros; apply H; right; auto. }
  apply H. intros v Hv. apply in_seq in Hv. lia.
Qed.
End Bound.
