(** The coefficients of the numerator of the Hilbert-Poincare series, and the run of the Hilbert algorithm. *)
From Coq Require Import List Arith Bool ZArith Lia Permutation.
Import ListNotations.
From Verif Require Import Spec Spec_Hilbert M_Term M_Ideal M_Slice M_Partition M_Msm M_Api M_Hilbert P_Term P_Ideal P_Bridge P_Msm1 P_Msm2
  P_Msm3 P_Msm4 P_Msm5 P_Indep P_Proj P_Split P_Process P_Run P_Hil1 P_Hil2 P_Hil3 P_Hil4 P_Hil5.
Local Open Scope Z_scope.

(** backward difference: the coefficient of d in f(x) * (1-x1)...(1-xn) *)
Fixpoint bd (d : term) (f : term -> Z) : Z :=
  match d with
  | [] => f []
  | e :: d' => bd d' (fun x : term => f (e :: x)) - match e with O => 0 | S e' => bd d' (fun x => f (e' :: x)) end
  end.

Lemma bd_ext : forall d f g, (forall x, length x = length d -> f x = g x) -> bd d f = bd d g.
Proof.
  induction d as [|e d IH]; intros f g H; simpl; [apply H; auto|].
  rewrite (IH (fun x : term => f (e :: x)) (fun x : term => g (e :: x))) by (intros; apply H; simpl; auto).
  destruct e; auto. rewrite (IH (fun x : term => f (e :: x)) (fun x : term => g (e :: x))) by (intros; apply H; simpl; auto). auto.
Qed.
Lemma bd_zero : forall d, bd d (fun _ => 0) = 0.
Proof. induction d as [|e d IH]; simpl; auto. rewrite IH. destruct e; auto. Qed.
Lemma bd_add : forall d f g, bd d (fun x => f x + g x) = bd d f + bd d g.
Proof.
  induction d as [|e d IH]; intros f g; simpl; auto.
  rewrite (IH (fun x : term => f (e :: x)) (fun x : term => g (e :: x))). destruct e; [lia|].
  rewrite (IH (fun x : term => f (e :: x)) (fun x : term => g (e :: x))). lia.
Qed.
Lemma bd_one : forall d, bd d (fun _ => 1) = if forallb (fun e => (e =? 0)%nat) d then 1 else 0.
Proof.
  induction d as [|e d IH]; simpl; auto. rewrite IH. destruct e; simpl; [lia|]. destruct (forallb _ d); auto.
Qed.

(** the difference operator on I * x1...xn *)
Definition G (h : term -> Z) (x : term) : Z := if forallb (fun e => (0 <? e)%nat) x then h (map pred x) else 0.
Lemma dif_G : forall d h, dif (seq 0 (length d)) (G h) d = bd d h.
Proof.
  induction d as [|e d IH]; intros h; [reflexivity|]. cbn [length seq]. rewrite <- seq_shift.
  cbn [dif]. change (tv (e :: d) 0) with (S e :: d). rewrite !dif_cons. cbn [bd].
  rewrite (dif_ext _ (fun x : term => G h (S e :: x)) (G (fun y : term => h (e :: y)))) by (intros; reflexivity).
  rewrite IH. f_equal. destruct e.
  - rewrite (dif_ext _ (fun x : term => G h (0%nat :: x)) (fun _ => 0)) by (intros; reflexivity). apply dif_const0.
  - rewrite (dif_ext _ (fun x : term => G h (S e :: x)) (G (fun y : term => h (e :: y)))) by (intros; reflexivity). apply IH.
Qed.

(** ** Summation *)
Fixpoint zsum (l : list Z) : Z := match l with [] => 0 | x :: l' => x + zsum l' end.
Lemma zsum_app : forall a b, zsum (a ++ b) = zsum a + zsum b.
Proof. induction a as [|x a IH]; intros b; simpl; auto. rewrite IH. lia. Qed.
Lemma zsum_perm : forall a b, Permutation a b -> zsum a = zsum b.
Proof. induction 1; simpl; lia. Qed.
Lemma zsum_ext : forall {A} (f g : A -> Z) l, (forall x, In x l -> f x = g x) -> zsum (map f l) = zsum (map g l).
Proof. induction l as [|x l IH]; intros H; simpl; auto. rewrite H, IH; simpl; auto. intros; apply H; simpl; auto. Qed.
Lemma zsum_sub : forall {A} (f g : A -> Z) l, zsum (map (fun x => f x - g x) l) = zsum (map f l) - zsum (map g l).
Proof. induction l as [|x l IH]; simpl; auto. lia. Qed.
Lemma zsum_add : forall {A} (f g : A -> Z) l, zsum (map (fun x => f x + g x) l) = zsum (map f l) + zsum (map g l).
Proof. induction l as [|x l IH]; simpl; auto. lia. Qed.
Lemma zsum_flat : forall {A B} (f : B -> Z) (g : A -> list B) l, zsum (map f (flat_map g l)) = zsum (map (fun x => zsum (map f (g x))) l).
Proof. induction l as [|x l IH]; simpl; auto. rewrite map_app, zsum_app, IH. auto. Qed.
Lemma zsum_filter : forall {A} (f : A -> Z) (p : A -> bool) l, (forall x, p x = false -> f x = 0) -> zsum (map f (filter p l)) = zsum (map f l).
Proof. induction l as [|x l IH]; intros H; simpl; auto. destruct (p x) eqn:E; simpl; rewrite IH; auto. rewrite (H x E). auto. Qed.
Lemma zsum_zero : forall {A} (l : list A), zsum (map (fun _ => 0) l) = 0.
Proof. induction l; simpl; auto. Qed.

Lemma telescope : forall (g : nat -> Z) k, zsum (map (fun x => g x - match x with O => 0 | S y => g y end) (seq 0 (S k))) = g k.
Proof.
  induction k as [|k IH]; [simpl; lia|]. rewrite seq_S, map_app, zsum_app, IH. simpl. lia.
Qed.

Lemma bd_sum : forall m f, zsum (map (fun d => bd d f) (box (map S m))) = f m.
Proof.
  induction m as [|e m IH]; intros f; cbn [map box]; [simpl; lia|]. rewrite zsum_flat.
  rewrite (zsum_ext _ (fun x => f (x :: m) - match x with O => 0 | S y => f (y :: m) end)).
  - apply (telescope (fun x => f (x :: m))).
  - intros x _. rewrite map_map. cbn [bd]. rewrite (zsum_sub (fun d => bd d (fun y : term => f (x :: y)))).
    rewrite IH. destruct x; [rewrite zsum_zero; auto|]. rewrite IH. auto.
Qed.

(** ** From the terms of the numerator to the series *)
Lemma divsb_iff : forall a b, divsb a b = true <-> length a = length b /\ le_n (length a) a b.
Proof.
  induction a as [|x a IH]; intros [|y b]; simpl; split; try discriminate; auto.
  - intros _. split; auto. intros v Hv. lia.
  - intros [H _]. discriminate.
  - intros [H _]. discriminate.
  - intros H. apply andb_true_iff in H. destruct H as [H1 H2]. apply Nat.leb_le in H1. apply IH in H2. destruct H2 as [H2 H3].
    split; [congruence|]. intros [|v] Hv; simpl; auto. apply H3. lia.
  - intros [H1 H2]. apply andb_true_iff. split; [apply Nat.leb_le; apply (H2 0%nat); lia|]. apply IH. split; [lia|].
    intros v Hv. apply (H2 (S v)). lia.
Qed.

Lemma series_filter : forall p m, series_coef p m = zsum (map fst (filter (fun t => divsb (snd t) m) p)).
Proof.
  induction p as [|[c d] p IH]; intros m; simpl; auto. destruct (divsb d m); simpl; rewrite IH; lia.
Qed.

(** the terms are the nonzero coefficients of h *)
Definition terms_of (n : nat) (h : term -> Z) (out : list (Z * term)) : Prop :=
  NoDup (map snd out) /\ forall c d, In (c, d) out <-> length d = n /\ c = h d /\ c <> 0.

Lemma NoDup_map_filter : forall {A B} (f : A -> B) p l, NoDup (map f l) -> NoDup (map f (filter p l)).
Proof.
  induction l as [|x l IH]; simpl; intros H; auto. inversion H; subst. destruct (p x); simpl; auto. constructor; auto.
  intros Hi. apply H2. apply in_map_iff in Hi. destruct Hi as [y [E Hy]]. apply in_map_iff. exists y. split; auto.
  apply filter_In in Hy. tauto.
Qed.

Lemma box_iff : forall l d, In d (box l) <-> length d = length l /\ forall v, (v < length l)%nat -> (d @ v < l @ v)%nat.
Proof.
  induction l as [|e l IH]; intros d; cbn [box].
  - simpl. split.
    + intros [<-|[]]. split; auto. intros; lia.
    + intros [H _]. apply length_zero_iff_nil in H. auto.
  - rewrite in_flat_map. split.
    + intros [x [Hx Hd]]. apply in_map_iff in Hd. destruct Hd as [d' [<- Hd]]. apply IH in Hd. destruct Hd as [A B].
      apply in_seq in Hx. split; [simpl; congruence|]. intros [|v] Hv; simpl; [lia|]. apply B. simpl in Hv. lia.
    + intros [A B]. destruct d as [|x d]; [discriminate|]. exists x. split.
      * apply in_seq. specialize (B 0%nat ltac:(simpl; lia)). simpl in B. lia.
      * apply in_map. apply IH. simpl in A. split; [lia|]. intros v Hv. apply (B (S v)). simpl. lia.
Qed.
Lemma box_nodup : forall l, NoDup (box l).
Proof.
  induction l as [|e l IH]; cbn [box]; [repeat constructor; auto|]. apply NoDup_flat_map.
  - apply seq_NoDup.
  - intros x _. apply NoDup_map_inj; auto. intros a b _ _ H. congruence.
  - intros x y d _ _ Hx Hy. apply in_map_iff in Hx, Hy. destruct Hx as [a [<- _]], Hy as [b [H _]]. congruence.
Qed.

Lemma terms_series : forall n h out m, terms_of n h out -> length m = n ->
  series_coef out m = zsum (map h (box (map S m))).
Proof.
  intros n h out m [Hnd Hin] Hm. rewrite series_filter.
  set (L := filter (fun t => divsb (snd t) m) out).
  assert (E1 : zsum (map fst L) = zsum (map h (map snd L))).
  { rewrite map_map. apply zsum_ext. intros [c d] Hx. apply filter_In in Hx. destruct Hx as [Hx _]. apply Hin in Hx. simpl. tauto. }
  rewrite E1. rewrite <- (zsum_filter h (fun d => negb (h d =? 0)) (box (map S m))).
  - apply zsum_perm. apply Permutation_map. apply NoDup_Permutation.
    + apply NoDup_map_filter; auto.
    + apply NoDup_filter, box_nodup.
    + intros d. rewrite in_map_iff, filter_In, box_iff, map_length. split.
      * intros [[c x] [<- Hx]]. simpl. apply filter_In in Hx. destruct Hx as [Hx Hd]. apply Hin in Hx. destruct Hx as [A [B C]].
        apply divsb_iff in Hd. simpl in Hd. destruct Hd as [D E]. split.
        -- split; auto. intros v Hv. rewrite (nth_indep (map S m) 0%nat 1%nat) by (rewrite map_length; auto).
           rewrite map_nth. specialize (E v ltac:(lia)). apply Nat.lt_succ_r. exact E.
        -- apply negb_true_iff, Z.eqb_neq. congruence.
      * intros [[A B] C]. apply negb_true_iff, Z.eqb_neq in C. exists (h d, d). split; auto. apply filter_In. split.
        -- apply Hin. split; [lia|auto].
        -- simpl. apply divsb_iff. split; auto. intros v Hv. specialize (B v ltac:(lia)).
           rewrite (nth_indep (map S m) 0%nat 1%nat) in B by (rewrite map_length; lia).
           rewrite map_nth in B. apply Nat.lt_succ_r. exact B.
  - intros x Hx. apply negb_false_iff, Z.eqb_eq in Hx. auto.
Qed.

Lemma numerator_series : forall n f out m, terms_of n (fun d => bd d f) out -> length m = n -> series_coef out m = f m.
Proof. intros n f out m H Hm. rewrite (terms_series n _ out m H Hm). apply bd_sum. Qed.

(** conversely the coefficients are determined by the series *)
Lemma bd_single : forall d e (c : Z), bd d (fun m => if divsb e m then c else 0) = if list_eq_dec Nat.eq_dec d e then c else 0.
Proof.
  induction d as [|x d IH]; intros e c; cbn [bd].
  - destruct e; simpl; auto. 
  - destruct e as [|y e].
    + simpl. rewrite bd_zero. destruct x; rewrite ?bd_zero; auto.
    + assert (E : forall z, bd d (fun m => if divsb (y :: e) (z :: m) then c else 0) =
        if (y <=? z)%nat then (if list_eq_dec Nat.eq_dec d e then c else 0) else 0).
      { intros z. simpl. destruct (y <=? z)%nat; simpl; [apply IH|apply bd_zero]. }
      rewrite E. destruct (list_eq_dec Nat.eq_dec (x :: d) (y :: e)) as [Q|Q].
      * injection Q as -> ->. rewrite Nat.leb_refl. destruct (list_eq_dec Nat.eq_dec e e) as [_|N]; [|contradiction].
        destruct y; [lia|]. rewrite E. destruct (Nat.leb_spec (S y) y); lia.
      * destruct (list_eq_dec Nat.eq_dec d e) as [->|N].
        -- assert (x <> y) by congruence. destruct (Nat.leb_spec y x).
           ++ destruct x; [lia|]. rewrite E. destruct (Nat.leb_spec y x); [|lia]. destruct (list_eq_dec Nat.eq_dec e e); [lia|contradiction].
           ++ destruct x; [lia|]. rewrite E. destruct (Nat.leb_spec y x); lia.
        -- destruct (y <=? x)%nat; destruct x; try lia; rewrite E; destruct (list_eq_dec Nat.eq_dec d e); try contradiction;
             destruct (y <=? x)%nat; lia.
Qed.

Fixpoint coef_at (p : poly) (d : mono) : Z :=
  match p with [] => 0 | (c, e) :: p' => (if list_eq_dec Nat.eq_dec d e then c else 0) + coef_at p' d end.
Lemma bd_series : forall p d, bd d (series_coef p) = coef_at p d.
Proof.
  induction p as [|[c e] p IH]; intros d; cbn [coef_at]; [apply bd_zero|].
  rewrite (bd_ext d (series_coef ((c, e) :: p)) (fun m : term => (if divsb e m then c else 0) + series_coef p m)) by auto.
  rewrite (bd_add d (fun m => if divsb e m then c else 0) (series_coef p)), bd_single, IH. auto.
Qed.
Lemma coef_at_in : forall p c d, NoDup (map snd p) -> In (c, d) p -> coef_at p d = c.
Proof.
  assert (Z : forall p d, ~ In d (map snd p) -> coef_at p d = 0).
  { induction p as [|[c e] p IH]; intros d H; simpl in *; auto. rewrite IH by tauto.
    destruct (list_eq_dec Nat.eq_dec d e); [subst; tauto|lia]. }
  induction p as [|[c e] p IH]; intros c' d Hnd Hin; [destruct Hin|]. destruct Hin as [H|H]; simpl in *; inversion Hnd; subst.
  - injection H as -> ->. destruct (list_eq_dec Nat.eq_dec d d); [|contradiction]. rewrite Z; auto. lia.
  - destruct (list_eq_dec Nat.eq_dec d e) as [->|_]; [|rewrite (IH c' d); auto].
    exfalso. apply H2. apply in_map_iff. exists (c', e). auto.
Qed.
Lemma coef_at_nz : forall p d, coef_at p d <> 0 -> In d (map snd p).
Proof.
  induction p as [|[c e] p IH]; intros d H; simpl in *; [lia|]. destruct (list_eq_dec Nat.eq_dec d e); [auto|].
  right. apply IH. lia.
Qed.

Lemma numerator_unique : forall n I p q, normal_poly n p -> normal_poly n q ->
  multigraded_numerator n I p -> multigraded_numerator n I q ->
  (forall m, in_ideal I m \/ ~ in_ideal I m) -> Permutation p q.
Proof.
  intros n I p q [Np Fp] [Nq Fq] Hp Hq Hdec.
  assert (E : forall d, length d = n -> coef_at p d = coef_at q d).
  { intros d Hd. rewrite <- !bd_series. apply bd_ext. intros x Hx. destruct (Hp x ltac:(congruence)), (Hq x ltac:(congruence)).
    destruct (Hdec x); [rewrite H, H1 by auto|rewrite H0, H2 by auto]; auto. }
  rewrite Forall_forall in Fp, Fq.
  assert (S : forall a b : poly, NoDup (map snd a) -> NoDup (map snd b) -> (forall t, In t a -> fst t <> 0 /\ length (snd t) = n) ->
     (forall d, length d = n -> coef_at a d = coef_at b d) -> forall t, In t a -> In t b).
  { intros a b Na Nb Fa Eab [c d] Hin. destruct (Fa _ Hin) as [C L]. simpl in *. pose proof (coef_at_in a c d Na Hin) as Ec.
    assert (Hb : In d (map snd b)) by (apply coef_at_nz; rewrite <- Eab by auto; congruence).
    apply in_map_iff in Hb. destruct Hb as [[c' d'] [Ed Hb]]. simpl in Ed. subst d'.
    pose proof (coef_at_in b c' d Nb Hb) as Ec'. rewrite Eab in Ec by auto. rewrite <- Ec, Ec'. auto. }
  apply NoDup_Permutation; try (eapply NoDup_map_inv; eassumption).
  intros t. split; apply S; auto. intros d Hd. symmetry. auto.
Qed.
