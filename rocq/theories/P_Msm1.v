(** Content of slices, and the effect of the elementary slice operations on it. *)
From Coq Require Import List Arith Bool Lia Permutation.
Import ListNotations.
From Verif Require Import M_Term M_Ideal M_Slice P_Term P_Ideal.

Definition up (n : nat) (m : term) (v : nat) : term := t_set n m v (S (m @ v)).
Definition msm (n : nat) (I : ideal) (m : term) : Prop :=
  length m = n /\ ~ inI n I m /\ forall v, v < n -> inI n I (up n m v).
(** content of the slice (I, S, 1) *)
Definition ker (n : nat) (I S : ideal) (m : term) : Prop := msm n I m /\ ~ inI n S m.
Definition lab (n v : nat) (m g : term) : Prop :=
  g @ v = S (m @ v) /\ forall w, w < n -> w <> v -> g @ w <= m @ w.

Lemma up_nth : forall n m v w, w < n -> (up n m v) @ w = if w =? v then S (m @ v) else m @ w.
Proof. intros. unfold up. rewrite t_set_nth by auto. reflexivity. Qed.

Lemma le_up_lab : forall n v m g, v < n -> ~ le_n n g m -> le_n n g (up n m v) -> lab n v m g.
Proof.
  intros n v m g Hv Hn Hu.
  assert (Hw : forall w, w < n -> w <> v -> g @ w <= m @ w).
  { intros w Hw Hne. specialize (Hu w Hw). rewrite up_nth in Hu by auto.
    destruct (Nat.eqb_spec w v); [contradiction|auto]. }
  split; auto. specialize (Hu v Hv) as Hu'. rewrite up_nth, Nat.eqb_refl in Hu' by auto.
  destruct (Nat.eq_dec (g @ v) (S (m @ v))); auto. exfalso. apply Hn. intros w Hw'.
  destruct (Nat.eq_dec w v) as [->|]; [lia|auto].
Qed.

Lemma lab_le_up : forall n v m g, lab n v m g -> le_n n g (up n m v).
Proof.
  intros n v m g [H1 H2] w Hw. rewrite up_nth by auto. destruct (Nat.eqb_spec w v); subst; [lia|auto].
Qed.

Lemma msm_lab : forall n I m v, msm n I m -> v < n -> exists g, In g I /\ lab n v m g.
Proof.
  intros n I m v [Hl [Hn Hu]] Hv. destruct (Hu v Hv) as [g [Hg Hle]]. exists g. split; auto.
  apply le_up_lab; auto. intros H. apply Hn. exists g; auto.
Qed.

Lemma msm_intro : forall n I m, length m = n -> ~ inI n I m ->
  (forall v, v < n -> exists g, In g I /\ lab n v m g) -> msm n I m.
Proof.
  intros n I m Hl Hn H. split; auto. split; auto. intros v Hv. destruct (H v Hv) as [g [Hg Hlab]].
  exists g. split; auto. apply lab_le_up; auto.
Qed.

Lemma msm_lt_lcm : forall n I m v, msm n I m -> v < n -> m @ v < (i_lcm n I) @ v.
Proof.
  intros n I m v Hm Hv. destruct (msm_lab n I m v Hm Hv) as [g [Hg [E _]]].
  pose proof (i_lcm_ge n I g v Hv Hg). lia.
Qed.

Lemma msm_eqI : forall n I J m, eqI n I J -> msm n I m -> msm n J m.
Proof.
  intros n I J m He [Hl [Hn Hu]]. split; auto. split.
  - intros H. apply Hn. apply He; auto.
  - intros v Hv. apply He; auto.
Qed.

Lemma msm_nil : forall n m, 0 < n -> ~ msm n [] m.
Proof. intros n m Hn [_ [_ H]]. destruct (H 0 Hn) as [g [[] _]]. Qed.

Lemma inI_nil : forall n m, ~ inI n [] m.
Proof. intros n m [g [[] _]]. Qed.

(** ** Inner slice *)
Lemma up_product : forall n m p v, v < n -> length m = n ->
  up n (t_product n m p) v = t_product n (up n m v) p.
Proof.
  intros n m p v Hv Hl. apply term_ext with n; auto using t_product_length.
  - unfold up. apply t_set_length.
  - intros w Hw. rewrite t_product_nth, !up_nth by auto.
    destruct (Nat.eqb_spec w v); subst; rewrite ?t_product_nth by auto; lia.
Qed.

Lemma msm_inner : forall n I J p m, length m = n ->
  (forall m, inI n J m <-> inI n I (t_product n m p)) ->
  (msm n J m <-> msm n I (t_product n m p)).
Proof.
  intros n I J p m Hl H. unfold msm. rewrite H. split; intros [_ [A B]]; (split; [auto using t_product_length|]); (split; [auto|]);
  intros v Hv; specialize (B v Hv).
  - rewrite up_product by auto. apply H; auto.
  - apply H. rewrite <- up_product; auto.
Qed.

Lemma ker_inner : forall n I S J T p m, length m = n ->
  is_colon n I p J -> is_colon n S p T ->
  (ker n J T m <-> ker n I S (t_product n m p)).
Proof.
  intros n I S J T p m Hl HI HS. unfold ker.
  rewrite (msm_inner n I J p m Hl (is_colon_inI n I p J HI)).
  rewrite (is_colon_inI n S p T HS m). tauto.
Qed.

(** ** Removing generators that are no labels *)
Lemma msm_remove : forall n I f m,
  (forall g v, In g I -> f g = false -> v < n -> lab n v m g -> False) ->
  (forall g, In g I -> f g = false -> ~ le_n n g m) ->
  (msm n (filter f I) m <-> msm n I m).
Proof.
  intros n I f m H1 H2. split; intros H.
  - destruct H as [Hl [Hn Hu]]. split; auto. split.
    + intros [g [Hg Hle]]. destruct (f g) eqn:E.
      * apply Hn. exists g. split; auto. apply filter_In; auto.
      * apply (H2 g); auto.
    + intros v Hv. apply inI_incl with (filter f I); auto. apply incl_filter.
  - apply msm_intro; [apply H| |].
    + intros [g [Hg Hle]]. apply filter_In in Hg. apply (proj1 (proj2 H)). exists g. tauto.
    + intros v Hv. destruct (msm_lab n I m v H Hv) as [g [Hg Hlab]]. exists g. split; auto.
      apply filter_In. split; auto. destruct (f g) eqn:E; auto. exfalso. eapply H1; eauto.
Qed.

Lemma sdiv_le_m : forall n p g m, sdiv_n n p g -> le_n n g m -> le_n n p m.
Proof. intros n p g m [H _] Hle v Hv. specialize (Hle v Hv). destruct (H v Hv); lia. Qed.

Lemma sdiv_lab : forall n p g m v, v < n -> sdiv_n n p g -> lab n v m g -> le_n n p m.
Proof.
  intros n p g m v Hv [H _] [L1 L2] w Hw. destruct (H w Hw); [lia|].
  destruct (Nat.eq_dec w v) as [->|]; [lia|]. specialize (L2 w Hw n0). lia.
Qed.

Lemma msm_remove_strict : forall n I p m, ~ le_n n p m ->
  (msm n (filter (fun g => negb (t_strictlyDivides n p g)) I) m <-> msm n I m).
Proof.
  intros n I p m Hp. apply msm_remove.
  - intros g v Hg E Hv Hlab. apply negb_false_iff in E. apply t_strictlyDivides_iff in E.
    apply Hp. eapply sdiv_lab; eauto.
  - intros g Hg E Hle. apply negb_false_iff in E. apply t_strictlyDivides_iff in E.
    apply Hp. eapply sdiv_le_m; eauto.
Qed.

Definition normalized (n : nat) (S I : ideal) : Prop :=
  forall s g, In s S -> In g I -> ~ sdiv_n n s g.

Lemma norm_loop_spec : forall n S I upd removed I' upd' removed',
  norm_loop n S I upd removed = (I', upd', removed') ->
  exists f, I' = filter f I /\ normalized n S I' /\
    (forall g, In g I -> f g = false -> exists s, In s S /\ sdiv_n n s g) /\
    (upd' = true -> I' = I /\ upd = true) /\ length I' <= length I.
Proof.
  induction S as [|s S IH]; intros I upd removed I' upd' removed' H; cbn [norm_loop] in H.
  - injection H as <- <- <-. exists (fun _ => true).
    assert (E : filter (fun _ : term => true) I = I).
    { clear. induction I as [|a I IHI]; simpl; congruence. }
    rewrite E. split; [auto|]. split; [intros s g []|]. split; [congruence|]. split; auto.
  - unfold i_removeIf in H.
    set (f1 := fun g => negb (t_strictlyDivides n s g)) in *.
    assert (Hany : existsb (t_strictlyDivides n s) I = false -> filter f1 I = I).
    { intros E. clear -E. induction I as [|a I IHI]; simpl in *; auto.
      apply orb_false_iff in E. destruct E as [E1 E2]. unfold f1 at 1. rewrite E1. simpl. f_equal. auto. }
    assert (Hgen : forall upd1 removed1, norm_loop n S (filter f1 I) upd1 removed1 = (I', upd', removed') ->
      exists f, I' = filter f I /\ normalized n (s :: S) I' /\
        (forall g, In g I -> f g = false -> exists s0, In s0 (s :: S) /\ sdiv_n n s0 g) /\
        (upd' = true -> I' = filter f1 I /\ upd1 = true) /\ length I' <= length (filter f1 I)).
    { intros upd1 removed1 H1. destruct (IH _ _ _ _ _ _ H1) as [f [E [N [R [U L]]]]].
      exists (fun g => f1 g && f g). split; [|split; [|split; [|split]]]; auto.
      - rewrite E. clear. induction I as [|a I IHI]; simpl; auto. destruct (f1 a); simpl; rewrite ?IHI; auto.
      - intros s0 g [<-|Hs] Hg.
        + rewrite E in Hg. apply filter_In in Hg. destruct Hg as [Hg _]. apply filter_In in Hg.
          destruct Hg as [_ Hg]. unfold f1 in Hg. apply negb_true_iff in Hg.
          rewrite <- t_strictlyDivides_iff. congruence.
        + apply N; auto.
      - intros g Hg Hf. destruct (f1 g) eqn:E1; simpl in Hf.
        + destruct (R g) as [s0 [A B]]; auto.
          { apply filter_In; auto. }
          exists s0. split; [right|]; auto.
        + exists s. split; [left; auto|]. apply t_strictlyDivides_iff. unfold f1 in E1. apply negb_false_iff; auto. }
    destruct (existsb (t_strictlyDivides n s) I) eqn:Eany.
    + destruct (Hgen _ _ H) as [f [E [N [R [U L]]]]]. exists f. split; [exact E|].
      split; [exact N|]. split; [exact R|]. split.
      * intros Hu. destruct (U Hu). congruence.
      * etransitivity; [exact L|apply filter_length_le].
    + destruct (Hgen _ _ H) as [f [E [N [R [U L]]]]]. rewrite (Hany eq_refl) in U, L.
      exists f. split; [exact E|]. split; [exact N|]. split; [exact R|]. split; [exact U|exact L].
Qed.

Lemma norm_ker : forall n S I f m,
  (forall g, In g I -> f g = false -> exists s, In s S /\ sdiv_n n s g) ->
  (ker n (filter f I) S m <-> ker n I S m).
Proof.
  intros n S I f m H. unfold ker. split; intros [A B]; split; auto.
  - apply (msm_remove n I f m); auto.
    + intros g v Hg E Hv Hlab. destruct (H g Hg E) as [s [Hs Hd]]. apply B. exists s. split; auto. eapply sdiv_lab; eauto.
    + intros g Hg E Hle. destruct (H g Hg E) as [s [Hs Hd]]. apply B. exists s. split; auto. eapply sdiv_le_m; eauto.
  - apply (msm_remove n I f m); auto.
    + intros g v Hg E Hv Hlab. destruct (H g Hg E) as [s [Hs Hd]]. apply B. exists s. split; auto. eapply sdiv_lab; eauto.
    + intros g Hg E Hle. destruct (H g Hg E) as [s [Hs Hd]]. apply B. exists s. split; auto. eapply sdiv_le_m; eauto.
Qed.

(** ** Double lcm *)
Lemma filter_two : forall (f : nat -> bool) l, NoDup l ->
  (2 <= length (filter f l) <-> exists v w, In v l /\ In w l /\ v <> w /\ f v = true /\ f w = true).
Proof.
  intros f l Hnd. split.
  - intros H. destruct (filter f l) as [|v [|w r]] eqn:E; simpl in H; try lia.
    assert (Hv : In v (filter f l)) by (rewrite E; simpl; auto).
    assert (Hw : In w (filter f l)) by (rewrite E; simpl; auto).
    apply filter_In in Hv, Hw. exists v, w. repeat split; try tauto.
    assert (Hn : NoDup (filter f l)) by (apply NoDup_filter; auto). rewrite E in Hn.
    inversion Hn; subst. intros ->. apply H2. left; auto.
  - intros [v [w [Hv [Hw [Hne [Fv Fw]]]]]].
    assert (Hl : incl [v; w] (filter f l)).
    { intros x [<-|[<-|[]]]; apply filter_In; auto. }
    apply (NoDup_incl_length (l := [v; w])) in Hl; auto.
    constructor; [intros [E|[]]; congruence|]. constructor; [intros []|constructor].
Qed.

Lemma doubleLcm_iff : forall n lcm t, doubleLcm n lcm t = true <->
  exists v w, v < n /\ w < n /\ v <> w /\ t @ v = lcm @ v /\ t @ w = lcm @ w.
Proof.
  intros. unfold doubleLcm. rewrite Nat.leb_le, filter_two by apply seq_NoDup.
  split; intros [v [w [A [B [C [D E]]]]]]; exists v, w; rewrite ?in_seq in *;
  repeat split; try lia; try (apply Nat.eqb_eq; auto); auto.
Qed.

Definition full (n : nat) (l : term) : Prop := forall v, v < n -> 0 < l @ v.

Lemma full_dec : forall n l, full n l \/ exists v, v < n /\ l @ v = 0.
Proof.
  intros n l. destruct (Nat.lt_ge_cases (t_sizeOfSupport n l) n) as [H|H].
  - right. apply t_sizeOfSupport_full. auto.
  - left. intros v Hv. destruct (Nat.eq_dec (l @ v) 0) as [E|]; [|lia]. exfalso.
    assert (t_sizeOfSupport n l < n) by (apply t_sizeOfSupport_full; exists v; auto). lia.
Qed.

Lemma not_full_no_msm : forall n I v m, v < n -> (i_lcm n I) @ v = 0 -> ~ msm n I m.
Proof. intros n I v m Hv E Hm. pose proof (msm_lt_lcm n I m v Hm Hv). lia. Qed.

Lemma i_lcm_incl : forall n I J v, v < n -> incl I J -> (i_lcm n I) @ v <= (i_lcm n J) @ v.
Proof. intros n I J v Hv Hi. apply i_lcm_lub; auto. intros g Hg. apply i_lcm_ge; auto. Qed.

Lemma dl_msm : forall n I m,
  msm n (filter (fun g => negb (doubleLcm n (i_lcm n I) g)) I) m <-> msm n I m.
Proof.
  intros n I m. set (f := fun g => negb (doubleLcm n (i_lcm n I) g)).
  destruct (full_dec n (i_lcm n I)) as [Hf|[v [Hv E]]].
  - assert (Hlt : (forall v, v < n -> m @ v < (i_lcm n I) @ v) -> (msm n (filter f I) m <-> msm n I m)).
    { intros Hlt. apply msm_remove.
      - intros g v Hg E Hv [L1 L2]. unfold f in E. apply negb_false_iff in E. apply doubleLcm_iff in E.
        destruct E as [a [b [Ha [Hb [Hne [Ea Eb]]]]]].
        destruct (Nat.eq_dec a v) as [->|Hav].
        + specialize (L2 b Hb ltac:(auto)). specialize (Hlt b Hb). lia.
        + specialize (L2 a Ha Hav). specialize (Hlt a Ha). lia.
      - intros g Hg E Hle. unfold f in E. apply negb_false_iff in E. apply doubleLcm_iff in E.
        destruct E as [a [b [Ha [Hb [Hne [Ea Eb]]]]]]. specialize (Hle a Ha). specialize (Hlt a Ha). lia. }
    split; intros H.
    + apply Hlt; auto. intros v Hv. pose proof (msm_lt_lcm n _ m v H Hv).
      pose proof (i_lcm_incl n (filter f I) I v Hv (incl_filter _ _)). lia.
    + apply Hlt; auto. intros v Hv. apply msm_lt_lcm; auto.
  - split; intros H; exfalso.
    + apply (not_full_no_msm n (filter f I) v m Hv); auto.
      pose proof (i_lcm_incl n (filter f I) I v Hv (incl_filter _ _)). lia.
    + apply (not_full_no_msm n I v m Hv); auto.
Qed.
