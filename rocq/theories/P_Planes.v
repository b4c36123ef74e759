(** Planes of double triangles. *)
From Coq Require Import List Arith Bool ZArith QArith Qcanon Lia.
Import ListNotations.
From Verif Require Import M_Api M_IO M_Matrix M_SatBinom M_Mlfb M_Planes Spec_Matrix Spec_SatBinom Spec_Mlfb Spec_Planes P_Matrix P_Matrix4 P_Matrix5 P_Matrix8 P_SatBinom P_Mlfb3.
Local Open Scope nat_scope.
Local Notation length := List.length.

(** ** The pairs *)
Lemma nodup_flat_map {A B C} (f : A -> list B) (key : B -> C) (proj : A -> C) l : NoDup (map proj l) -> (forall a, In a l -> NoDup (f a)) ->
  (forall a b, In b (f a) -> key b = proj a) -> NoDup (flat_map f l).
Proof.
  induction l as [|a l IH]; intros N F K; cbn [flat_map]; [constructor|]. cbn [map] in N. inversion N as [|? ? N1 N2]; subst.
  assert (T : NoDup (flat_map f l)) by (apply IH; auto; intros; apply F; simpl; auto).
  assert (D : forall b, In b (f a) -> ~ In b (flat_map f l)).
  { intros b Hb Hb'. apply in_flat_map in Hb'. destruct Hb' as (a' & Ha' & Hb'). apply N1. rewrite <- (K a b Hb), (K a' b Hb'). apply in_map. auto. }
  assert (Fa : NoDup (f a)) by (apply F; simpl; auto). clear - T D Fa. induction (f a) as [|b m IHm]; cbn [app]; auto. inversion Fa; subst. constructor.
  - rewrite in_app_iff. intros [X|X]; auto. apply (D b); simpl; auto.
  - apply IHm; auto. intros b' Hb'. apply D. simpl. auto.
Qed.
Lemma in_interior_dec n points g : in_interior n points g \/ ~ in_interior n points g.
Proof.
  unfold in_interior. induction n as [|n IH]; [left; intros; lia|]. destruct IH as [IH|IH]; [|right; intros H; apply IH; intros; apply H; lia].
  assert (D : (exists p, In p points /\ (coordinate g n < coordinate p n)%Z) \/ ~ exists p, In p points /\ (coordinate g n < coordinate p n)%Z).
  { clear. induction points as [|q ps IH]; [right; intros (p & [] & _)|]. destruct (Z_lt_dec (coordinate g n) (coordinate q n)); [left; exists q; simpl; auto|].
    destruct IH as [(p & P & Q)|IH]; [left; exists p; simpl; auto|]. right. intros (p & [<-|P] & Q); eauto. }
  destruct (Z_lt_dec (coordinate g n) 0); [|destruct D as [D|D]].
  - left. intros i Hi. destruct (Nat.eq_dec i n) as [->|]; auto. apply IH. lia.
  - left. intros i Hi. destruct (Nat.eq_dec i n) as [->|]; auto. apply IH. lia.
  - right. intros H. destruct (H n ltac:(lia)); auto.
Qed.
Lemma not_free n gens points : ~ point_free n gens points <-> exists g, In g gens /\ in_interior n points g.
Proof.
  unfold point_free. split; [|intros (g & G & I) H; exact (H g G I)]. intros H. induction gens as [|g gens IH]; [exfalso; apply H; intros ? []|].
  destruct (in_interior_dec n points g); [exists g; simpl; auto|]. destruct IH as (k & K & I); [|exists k; simpl; auto]. intros F. apply H. intros k [<-|K]; auto.
Qed.
Section Pairs.
Variables (n : nat) (gens : list (list Z)) (h : matrix).
Hypothesis N : NoDup gens.
Hypothesis Sums : forall a b, a < length gens -> b < length gens ->
  match getSum h a b with
  | Some k => k < length gens /\ is_sum n (nth a gens []) (nth b gens []) (nth k gens [])
  | None => forall k, k < length gens -> ~ is_sum n (nth a gens []) (nth b gens []) (nth k gens [])
  end.
Lemma plane_pair_key a b p : In p (plane_pair n gens h a b) -> fst p = (a, b).
Proof.
  unfold plane_pair. destruct (getSum h a b); [|intros []]. destruct (negb _); [intros []|]. destruct (negb _); [intros []|]. destruct (isPointFreeBody3 _ _ _ _ _); [intros []|].
  intros [<-|[]]. reflexivity.
Qed.
Lemma plane_pair_nodup a b : NoDup (plane_pair n gens h a b).
Proof.
  unfold plane_pair. destruct (getSum h a b); [|constructor]. destruct (negb _); [constructor|]. destruct (negb _); [constructor|]. destruct (isPointFreeBody3 _ _ _ _ _); repeat constructor; simpl; auto.
Qed.
Lemma plane_pair_iff a b s : vectors n gens -> a < b < length gens -> In (a, b, s) (plane_pair n gens h a b) <-> double_triangle n gens a b s.
Proof.
  intros V L. pose proof (Sums a b ltac:(lia) ltac:(lia)) as G. unfold plane_pair, double_triangle. cbv zeta. rewrite <- not_free, <- !point_free_iff, <- point_free3_iff.
  destruct (getSum h a b) as [k|].
  - destruct G as [Hk G]. assert (U : forall t, t < length gens -> is_sum n (nth a gens []) (nth b gens []) (nth t gens []) -> t = k).
    { intros t Ht T. apply (proj1 (NoDup_nth gens []) N); auto. eapply is_sum_unique; eauto. }
    destruct (isPointFreeBody n gens (nth a gens []) (nth k gens [])) eqn:E1; cbn [negb].
    2:{ split; [intros []|]. intros (_ & Hs & T & X & _). rewrite (U s Hs T) in X. congruence. }
    destruct (isPointFreeBody n gens (nth b gens []) (nth k gens [])) eqn:E2; cbn [negb].
    2:{ split; [intros []|]. intros (_ & Hs & T & _ & X & _). rewrite (U s Hs T) in X. congruence. }
    destruct (isPointFreeBody3 n gens (nth a gens []) (nth b gens []) (nth k gens [])) eqn:E3.
    + split; [intros []|]. intros (_ & Hs & T & _ & _ & X). rewrite (U s Hs T) in X. congruence.
    + split.
      * intros [E|[]]. injection E as <-. repeat (split; auto). congruence.
      * intros (_ & Hs & T & _). rewrite (U s Hs T). simpl. auto.
  - split; [intros []|]. intros (_ & Hs & T & _). exact (G s Hs T).
Qed.
Theorem planes_found : vectors n gens -> NoDup (computePlanes n gens h) /\ forall a b s, In (a, b, s) (computePlanes n gens h) <-> double_triangle n gens a b s.
Proof.
  intros V. unfold computePlanes. cbv zeta. split.
  - apply (nodup_flat_map _ (fun p => fst (fst p)) (fun a => a)); [rewrite map_id; apply seq_NoDup| |].
    + intros a _. apply (nodup_flat_map _ (fun p => snd (fst p)) (fun b => b)); [rewrite map_id; apply seq_NoDup|intros; apply plane_pair_nodup|].
      intros b p Hp. rewrite (plane_pair_key _ _ _ Hp). reflexivity.
    + intros a p Hp. apply in_flat_map in Hp. destruct Hp as (b & _ & Hp). rewrite (plane_pair_key _ _ _ Hp). reflexivity.
  - intros a b s. rewrite in_flat_map. split.
    + intros (a' & Ha & H). apply in_flat_map in H. destruct H as (b' & Hb & H). pose proof (plane_pair_key _ _ _ H) as E. cbn in E. injection E as <- <-.
      apply in_seq in Ha, Hb. apply plane_pair_iff; auto. lia.
    + intros D. pose proof D as ((L1 & L2) & _). exists a. split; [apply in_seq; lia|]. apply in_flat_map. exists b. split; [apply in_seq; lia|]. apply plane_pair_iff; auto.
Qed.
End Pairs.
