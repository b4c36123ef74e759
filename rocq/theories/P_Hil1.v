(** Alternating sums over the faces of a cube. *)
From Coq Require Import List Arith Bool ZArith Lia Permutation.
Import ListNotations.
From Verif Require Import Spec M_Term M_Ideal P_Term P_Ideal P_Bridge.
Local Open Scope Z_scope.

Notation tv := times_var.

Fixpoint dif (V : list nat) (f : term -> Z) (m : term) : Z :=
  match V with
  | [] => f m
  | v :: V' => dif V' f (tv m v) - dif V' f m
  end.

Lemma tv_comm : forall m v w, tv (tv m v) w = tv (tv m w) v.
Proof.
  induction m as [|e m IH]; intros [|v] [|w]; simpl; auto. f_equal. apply IH.
Qed.

Lemma tv_nth : forall m v w, (tv m v) @ w = if (w =? v)%nat && (v <? length m)%nat then S (m @ w) else m @ w.
Proof.
  intros m v w. destruct (Nat.lt_ge_cases w (length m)) as [H|H].
  - rewrite times_var_nth by auto. destruct (Nat.eqb_spec w v); simpl; auto. subst.
    destruct (Nat.ltb_spec v (length m)); [auto|lia].
  - rewrite !nth_out by (rewrite ?times_var_length; auto).
    destruct (Nat.eqb_spec w v); simpl; auto. subst. destruct (Nat.ltb_spec v (length m)); [lia|auto].
Qed.

Lemma tv_nth_eq : forall m v, (v < length m)%nat -> (tv m v) @ v = S (m @ v).
Proof. intros. rewrite times_var_nth, Nat.eqb_refl; auto. Qed.
Lemma tv_nth_neq : forall m v w, w <> v -> (tv m v) @ w = m @ w.
Proof. intros. rewrite tv_nth. destruct (Nat.eqb_spec w v); [contradiction|auto]. Qed.

(** the points visited *)
Fixpoint reach (V : list nat) (m x : term) : Prop :=
  match V with
  | [] => x = m
  | v :: V' => reach V' (tv m v) x \/ reach V' m x
  end.

Lemma reach_length : forall V m x, reach V m x -> length x = length m.
Proof.
  induction V as [|v V IH]; simpl; intros m x H; [subst; auto|].
  destruct H as [H|H]; apply IH in H; rewrite ?times_var_length in H; auto.
Qed.
Lemma reach_off : forall V m x w, reach V m x -> ~ In w V -> x @ w = m @ w.
Proof.
  induction V as [|v V IH]; simpl; intros m x w H Hw; [subst; auto|].
  destruct H as [H|H]; rewrite (IH _ _ _ H) by tauto; auto. apply tv_nth_neq. intros ->. tauto.
Qed.
Lemma reach_ge : forall V m x w, reach V m x -> (m @ w <= x @ w)%nat.
Proof.
  induction V as [|v V IH]; simpl; intros m x w H; [subst; auto|].
  destruct H as [H|H]; specialize (IH _ _ w H); auto. rewrite tv_nth in IH.
  destruct ((w =? v)%nat && (v <? length m)%nat); lia.
Qed.
Lemma reach_le : forall V m x w, NoDup V -> reach V m x -> (x @ w <= S (m @ w))%nat.
Proof.
  induction V as [|v V IH]; simpl; intros m x w Hnd H; [subst; auto|]. inversion Hnd as [|? ? Hv Hnd']; subst.
  destruct H as [H|H].
  - destruct (Nat.eq_dec w v) as [->|Hne].
    + rewrite (reach_off _ _ _ _ H Hv). rewrite tv_nth. destruct ((v =? v)%nat && _); lia.
    + specialize (IH _ _ w Hnd' H). rewrite tv_nth_neq in IH by auto. auto.
  - apply IH; auto.
Qed.

Lemma dif_ext : forall V f g m, (forall x, reach V m x -> f x = g x) -> dif V f m = dif V g m.
Proof.
  induction V as [|v V IH]; simpl; intros f g m H; [auto|].
  rewrite (IH f g (tv m v)), (IH f g m) by auto. reflexivity.
Qed.

Lemma dif_const0 : forall V m, dif V (fun _ => 0) m = 0.
Proof. induction V as [|v V IH]; simpl; intros m; auto. rewrite !IH. auto. Qed.
Lemma dif_const : forall V c m, V <> [] -> dif V (fun _ => c) m = 0.
Proof.
  assert (H : forall V c m m', dif V (fun _ => c) m = dif V (fun _ => c) m').
  { induction V as [|v V IH]; simpl; intros; auto. rewrite (IH c (tv m v) (tv m' v)), (IH c m m'). auto. }
  intros [|v V] c m Hn; [contradiction|]. simpl. rewrite (H V c (tv m v) m). lia.
Qed.
Lemma dif_sub : forall V f g m, dif V (fun x => f x - g x) m = dif V f m - dif V g m.
Proof. induction V as [|v V IH]; simpl; intros; auto. rewrite !IH. lia. Qed.
Lemma dif_add : forall V f g m, dif V (fun x => f x + g x) m = dif V f m + dif V g m.
Proof. induction V as [|v V IH]; simpl; intros; auto. rewrite !IH. lia. Qed.
Lemma dif_scale : forall V c f m, dif V (fun x => c * f x) m = c * dif V f m.
Proof. induction V as [|v V IH]; simpl; intros; auto. rewrite !IH. lia. Qed.
Lemma dif_opp : forall V f m, dif V (fun x => - f x) m = - dif V f m.
Proof. induction V as [|v V IH]; simpl; intros; auto. rewrite !IH. lia. Qed.

(** moving the base point *)
Lemma dif_move : forall (h : term -> term) V f m, (forall x v, In v V -> h (tv x v) = tv (h x) v) ->
  dif V (fun x => f (h x)) m = dif V f (h m).
Proof.
  induction V as [|v V IH]; simpl; intros f m H; auto.
  rewrite !IH by auto. rewrite H by auto. reflexivity.
Qed.
Lemma dif_tv : forall V f m w, dif V (fun x => f (tv x w)) m = dif V f (tv m w).
Proof. intros. apply (dif_move (fun x => tv x w)). intros; apply tv_comm. Qed.

Lemma dif_front : forall V f m v, dif (v :: V) f m = dif V (fun x => f (tv x v) - f x) m.
Proof. intros. simpl. rewrite dif_sub, dif_tv. reflexivity. Qed.

Lemma dif_app : forall V W f m, dif (V ++ W) f m = dif V (fun x => dif W f x) m.
Proof. induction V as [|v V IH]; simpl; intros; auto. rewrite !IH. auto. Qed.

Lemma dif_perm : forall V W, Permutation V W -> forall f m, dif V f m = dif W f m.
Proof.
  induction 1; simpl; intros; auto.
  - rewrite !IHPermutation. auto.
  - rewrite tv_comm. lia.
  - rewrite IHPermutation1. auto.
Qed.

Lemma split_perm : forall (v : nat) V, In v V -> NoDup V -> exists V', Permutation V (v :: V') /\ NoDup V' /\ ~ In v V'.
Proof.
  intros v V Hv Hnd. apply in_split in Hv. destruct Hv as [l1 [l2 ->]]. exists (l1 ++ l2).
  split; [symmetry; apply Permutation_middle|]. split; [apply NoDup_remove_1 in Hnd; auto|apply NoDup_remove_2 in Hnd; auto].
Qed.

Lemma dif_zero : forall V f m v, NoDup V -> In v V ->
  (forall x, length x = length m -> x @ v = m @ v -> (forall w, ~ In w V -> x @ w = m @ w) ->
     (forall w, (m @ w <= x @ w <= S (m @ w))%nat) -> f (tv x v) = f x) -> dif V f m = 0.
Proof.
  intros V f m v Hnd Hv H. destruct (split_perm v V Hv Hnd) as [V' [HP [Hnd' Hn]]].
  rewrite (dif_perm _ _ HP), dif_front. rewrite (dif_ext _ _ (fun _ => 0)); [apply dif_const0|].
  intros x Hx. rewrite H; [lia| | | |].
  - eapply reach_length; eauto.
  - eapply reach_off; eauto.
  - intros w Hw. apply (reach_off V'); auto. intros Hin. apply Hw. apply (Permutation_in w (Permutation_sym HP)). right; auto.
  - intros w. split; [eapply reach_ge; eauto|eapply reach_le; eauto].
Qed.

(** product of functions of different variables *)
Lemma dif_product : forall V W f g m,
  (forall x v, In v V -> g (tv x v) = g x) -> (forall x w, In w W -> f (tv x w) = f x) ->
  dif (V ++ W) (fun x => f x * g x) m = dif V f m * dif W g m.
Proof.
  intros V W f g m Hg Hf.
  assert (H1 : forall W x, (forall x w, In w W -> f (tv x w) = f x) ->
    dif W (fun x => f x * g x) x = f x * dif W g x).
  { clear. induction W as [|w W IH]; simpl; intros x H; auto. rewrite !IH by auto. rewrite H by auto. lia. }
  assert (H2 : forall W x v, In v V -> dif W g (tv x v) = dif W g x).
  { intros W0 x v Hv. revert x. induction W0 as [|w W0 IH]; simpl; intros x; auto. rewrite tv_comm, !IH. auto. }
  rewrite dif_app. rewrite (dif_ext _ _ (fun x => f x * dif W g x)) by (intros; apply H1; auto).
  clear H1 Hg Hf. revert m H2. induction V as [|v V IH]; simpl; intros m H2; auto.
  rewrite !IH by auto. rewrite (H2 W m v) by auto. lia.
Qed.

(** change of coordinates *)
Lemma dif_transport : forall (R : term -> term -> Prop) (s : nat -> nat) f f' V,
  (forall x x' i, In i V -> R x x' -> R (tv x (s i)) (tv x' i)) -> (forall x x', R x x' -> f x = f' x') ->
  forall m m', R m m' -> dif (map s V) f m = dif V f' m'.
Proof.
  intros R s f f' V H1 H2. induction V as [|v V IH]; simpl; intros m m' H; auto.
  rewrite (IH ltac:(intros; apply H1; simpl; auto) _ _ (H1 _ _ v (or_introl eq_refl) H)).
  rewrite (IH ltac:(intros; apply H1; simpl; auto) _ _ H). reflexivity.
Qed.

Lemma dif_cons : forall V f e m, dif (map S V) f (e :: m) = dif V (fun x => f (e :: x)) m.
Proof.
  intros. apply (dif_transport (fun x x' => x = e :: x') S f (fun x => f (e :: x)) V); auto.
  - intros x x' i _ ->. reflexivity.
  - intros x x' ->. reflexivity.
Qed.

(** ** Indicator functions *)
Definition ind (n : nat) (J : ideal) (m : term) : Z := if i_contains n J m then 1 else 0.

Lemma ind_1 : forall n J m, inI n J m -> ind n J m = 1.
Proof. intros n J m H. unfold ind. rewrite (proj2 (i_contains_iff n J m) H). auto. Qed.
Lemma ind_0 : forall n J m, ~ inI n J m -> ind n J m = 0.
Proof.
  intros n J m H. unfold ind. destruct (i_contains n J m) eqn:E; auto. apply i_contains_iff in E. contradiction.
Qed.
Lemma ind_iff : forall n J J' m m', (inI n J m <-> inI n J' m') -> ind n J m = ind n J' m'.
Proof.
  intros n J J' m m' H. destruct (i_contains_dec n J m) as [A|A].
  - rewrite !ind_1; auto. apply H; auto.
  - rewrite !ind_0; auto. intros B. apply A. apply H. auto.
Qed.
Lemma ind_iff2 : forall n n' J J' m m', (inI n J m <-> inI n' J' m') -> ind n J m = ind n' J' m'.
Proof.
  intros n n' J J' m m' H. destruct (i_contains_dec n J m) as [A|A].
  - rewrite !ind_1; auto. apply H; auto.
  - rewrite !ind_0; auto. intros B. apply A. apply H. auto.
Qed.
