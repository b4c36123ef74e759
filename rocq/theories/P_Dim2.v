(** The codimension and the irreducible components. *)
From Coq Require Import List Arith Bool ZArith Lia Permutation.
Import ListNotations.
From Verif Require Import Spec Spec_Run Spec_Dim Spec_Api M_Term M_Ideal M_Api M_Msm M_Dim P_Term P_Ideal P_Bridge P_Api5 P_Dim.

Lemma support_size_cnt : forall n c, length c = n -> support_size c = cnt n (fun v => 0 <? c @ v).
Proof.
  intros n c <-. unfold support_size, cnt. induction c as [|e c IH]; auto. cbn [length seq filter].
  change ((e :: c) @ 0) with e. rewrite <- seq_shift. assert (S : forall l, length (filter (fun v => 0 <? (e :: c) @ v) (map S l)) = length (filter (fun v => 0 <? c @ v) l)).
  { induction l as [|x l IHl]; auto. cbn [map filter]. change ((e :: c) @ (S x)) with (c @ x). destruct (0 <? c @ x); cbn [length]; rewrite IHl; auto. }
  destruct (0 <? e); cbn [length]; rewrite S, IH; auto.
Qed.

Lemma irr_gens_zero : forall n, irreducible_generators n (repeat 0 n) = [].
Proof.
  intros n. unfold irreducible_generators. assert (E : forall l, filter (fun i => 0 <? nth i (repeat 0 n) 0) l = []).
  { induction l as [|x l IH]; auto. cbn [filter]. rewrite nth_repeat. simpl. auto. }
  rewrite E. reflexivity.
Qed.

Lemma max_entry : forall (D : list mono), exists M, forall d v, In d D -> nth v d 0 <= M.
Proof.
  induction D as [|d D [M IH]].
  - exists 0. intros d v [].
  - exists (list_max d + M). intros d' v [<-|H]; [|specialize (IH d' v H); lia].
    destruct (le_lt_dec (length d) v) as [L|L]; [rewrite nth_overflow by lia; lia|].
    pose proof (proj1 (list_max_le d (list_max d)) ltac:(lia)) as F. rewrite Forall_forall in F. specialize (F _ (nth_In d 0 L)). lia.
Qed.

Lemma not_inb_dec : forall (P : mono -> bool) (D : list mono), (forall d, In d D -> P d = true) \/ exists d, In d D /\ P d = false.
Proof.
  induction D as [|d D [IH|IH]].
  - left. intros d [].
  - destruct (P d) eqn:E; [left; intros d' [<-|H]; auto|right; exists d; split; [left|]; auto].
  - right. destruct IH as [d' [A B]]. exists d'. split; [right|]; auto.
Qed.

(** The least number of variables of a component of any decomposition is the codimension. *)
Lemma codim_of_decomp : forall n I D V, in_ring n I -> in_ring n D ->
  (forall m, length m = n -> (in_ideal I m <-> forall d, In d D -> in_irreducible d m)) ->
  independent_set n I V -> (forall W, independent_set n I W -> length W <= length V) ->
  (exists d, In d D /\ support_size d = n - length V) /\ forall d, In d D -> n - length V <= support_size d.
Proof.
  intros n I D V Hr Hd HI V1 V2.
  assert (HV : cnt n (fun v => negb (inb V v)) + length V = n) by (apply (indep_cover n I V); auto).
  assert (Hlow : forall d, In d D -> n - length V <= support_size d).
  { intros x Hx. assert (Lx : length x = n) by (unfold in_ring in Hd; rewrite Forall_forall in Hd; auto).
    rewrite (support_size_cnt n) by auto.
    assert (CV : cover n I (fun v => 0 <? x @ v)).
    { intros g Hg. assert (Lg : length g = n) by (unfold in_ring in Hr; rewrite Forall_forall in Hr; auto).
      assert (Hig : in_ideal I g). { exists g. split; auto. unfold divs. clear. induction g; constructor; auto. }
      pose proof (proj1 (HI g Lg) Hig) as Hg2. destruct (Hg2 x Hx) as [v [A B]]. exists v.
      assert (v < n). { destruct (le_lt_dec n v); auto. rewrite nth_overflow in A by lia. lia. }
      split; auto. split; [lia|]. apply Nat.ltb_lt. auto. }
    destruct (cover_indep n I _ CV) as [W [W1 W2]]. specialize (V2 W W1). lia. }
  split; [|auto].
  (* a monomial with large powers of the variables of V avoids the ideal *)
  destruct (max_entry D) as [M HM].
  set (m := tabulate n (fun v => if inb V v then S M else 0)).
  assert (Lm : length m = n) by apply tabulate_length.
  assert (Nm : ~ in_ideal I m).
  { intros [g [Hg Hdv]]. destruct V1 as [_ [_ V3]]. destruct (V3 g Hg) as [v [A [B C]]].
    assert (Lg : length g = n) by (unfold in_ring in Hr; rewrite Forall_forall in Hr; auto).
    apply (divs_iff n) in Hdv; auto. specialize (Hdv v A). unfold m in Hdv. rewrite tabulate_nth in Hdv by auto.
    unfold inb in Hdv. destruct (in_dec Nat.eq_dec v V); [contradiction|lia]. }
  destruct (not_inb_dec (fun x => existsb (fun v => (0 <? x @ v) && (x @ v <=? m @ v)) (seq 0 n)) D) as [All|[x [Hx Fx]]].
  - exfalso. apply Nm. apply HI; auto. intros x Hx. specialize (All x Hx). apply existsb_exists in All. destruct All as [v [_ B]].
    apply andb_true_iff in B. destruct B as [B1 B2]. apply Nat.ltb_lt in B1. apply Nat.leb_le in B2. exists v. auto.
  - exists x. split; auto. apply Nat.le_antisymm; [|apply Hlow; auto].
    assert (Lx : length x = n) by (unfold in_ring in Hd; rewrite Forall_forall in Hd; auto).
    rewrite (support_size_cnt n) by auto.
    apply Nat.le_trans with (cnt n (fun v => negb (inb V v))); [|lia]. apply cnt_le. intros v Hv Hp. destruct (inb V v) eqn:Iv; auto. exfalso.
    assert (existsb (fun v => (0 <? x @ v) && (x @ v <=? m @ v)) (seq 0 n) = true); [|congruence].
    apply existsb_exists. exists v. split; [apply in_seq; lia|]. rewrite Hp. simpl. apply Nat.leb_le. unfold m. rewrite tabulate_nth by auto. rewrite Iv.
    specialize (HM x v Hx). lia.
Qed.

Lemma p_codim_components : forall c rnd n I, legal_config c -> in_ring n I -> ~ in_ideal I (repeat 0 n) ->
  exists D k, api_irrDecomIdeals c rnd n I = Some (concat (map (fun d => block n (irreducible_generators n d)) D)) /\
    in_ring n D /\ (forall m, length m = n -> (in_ideal I m <-> forall d, In d D -> in_irreducible d m)) /\
    api_codimension n I = Some (Z.of_nat k) /\ (exists d, In d D /\ support_size d = k) /\ forall d, In d D -> k <= support_size d.
Proof.
  intros c rnd n I Hc Hr H1.
  assert (HD : exists D, api_irrDecomIdeals c rnd n I = Some (concat (map (fun d => block n (irreducible_generators n d)) D)) /\
    in_ring n D /\ (forall m, length m = n -> (in_ideal I m <-> forall d, In d D -> in_irreducible d m))).
  { destruct (q_c03 c rnd n I Hc Hr) as [A [B _]]. destruct I as [|g I].
    - exists [repeat 0 n]. rewrite (B eq_refl). split; [|split].
      + cbn [map concat]. rewrite irr_gens_zero, app_nil_r. auto.
      + constructor; auto. apply repeat_length.
      + intros m Hm. split; [intros [g [[] _]]|]. intros H. destruct (H _ (or_introl eq_refl)) as [i [X _]]. rewrite nth_repeat in X. lia.
    - destruct (A ltac:(discriminate)) as [D [E [F [_ [G _]]]]]. exists D. auto. }
  destruct HD as [D [E [Hd HI]]]. destruct (p_codimension n I Hr) as [d [P1 [P2 P3]]].
  destruct P2 as [_ P2]. destruct (P2 H1) as [[V [V1 ->]] V2].
  assert (HV : cnt n (fun v => negb (inb V v)) + length V = n) by (apply (indep_cover n I V); auto).
  exists D, (n - length V). split; auto. split; auto. split; auto. split; [rewrite P3; f_equal; lia|].
  apply (codim_of_decomp n I); auto. intros W HW. specialize (V2 W HW). lia.
Qed.
