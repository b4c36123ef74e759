(** Termination measure, and correctness of the simplification of slices. *)
From Coq Require Import List Arith Bool Lia Permutation.
Import ListNotations.
From Verif Require Import M_Term M_Ideal M_Slice P_Term P_Ideal P_Msm1 P_Msm2.

(** ** The measure *)
Fixpoint box (l : list nat) : list term :=
  match l with
  | [] => [[]]
  | e :: l' => flat_map (fun x => map (cons x) (box l')) (seq 0 e)
  end.

Lemma box_in : forall l m, In m (box l) <-> length m = length l /\ forall v, v < length l -> m @ v < l @ v.
Proof.
  induction l as [|e l IH]; intros m; simpl.
  - split.
    + intros [<-|[]]. split; auto. intros v Hv. lia.
    + intros [H _]. destruct m; [auto|discriminate].
  - rewrite in_flat_map. split.
    + intros [x [Hx Hm]]. apply in_map_iff in Hm. destruct Hm as [m' [<- Hm']]. apply IH in Hm'.
      destruct Hm' as [H1 H2]. apply in_seq in Hx. simpl. split; [lia|]. intros [|v] Hv; [lia|apply H2; lia].
    + intros [H1 H2]. destruct m as [|x m]; [discriminate|]. exists x. simpl in H1. split.
      * specialize (H2 0 ltac:(lia)). simpl in H2. apply in_seq. lia.
      * apply in_map. apply IH. split; [lia|]. intros v Hv. apply (H2 (S v)). lia.
Qed.

Lemma NoDup_flat_map : forall {A B} (f : A -> list B) l, NoDup l ->
  (forall x, In x l -> NoDup (f x)) ->
  (forall x y b, In x l -> In y l -> In b (f x) -> In b (f y) -> x = y) -> NoDup (flat_map f l).
Proof.
  induction l as [|a l IH]; intros Hnd H1 H2; simpl; [constructor|]. inversion Hnd; subst.
  apply NoDup_app_intro.
  - apply H1; left; auto.
  - apply IH; auto. intros; apply H1; right; auto. intros x y b Hx Hy; apply H2; right; auto.
  - intros b Hb Hb'. apply in_flat_map in Hb'. destruct Hb' as [y [Hy Hb']].
    assert (a = y) by (eapply H2; eauto; simpl; auto). subst. contradiction.
Qed.

Lemma NoDup_map_inj : forall {A B} (f : A -> B) l, NoDup l ->
  (forall x y, In x l -> In y l -> f x = f y -> x = y) -> NoDup (map f l).
Proof.
  induction l as [|a l IH]; intros Hnd H; simpl; [constructor|]. inversion Hnd; subst. constructor.
  - intros Hin. apply in_map_iff in Hin. destruct Hin as [x [E Hx]].
    assert (x = a) by (apply H; simpl; auto). subst. contradiction.
  - apply IH; auto. intros; apply H; simpl; auto.
Qed.

Lemma box_nodup : forall l, NoDup (box l).
Proof.
  induction l as [|e l IH]; simpl. { constructor; [intros []|constructor]. }
  apply NoDup_flat_map.
  - apply seq_NoDup.
  - intros x _. apply NoDup_map_inj; auto. congruence.
  - intros x y b _ _ Hx Hy. apply in_map_iff in Hx, Hy. destruct Hx as [? [<- _]], Hy as [? [E _]]. congruence.
Qed.

Definition blist (n : nat) (I S : ideal) : list term :=
  filter (fun m => negb (i_contains n I m) && negb (i_contains n S m)) (box (i_lcm n I)).
Definition mu (n : nat) (I S : ideal) : nat := length (blist n I S).
Definition smu (s : slice) : nat := mu (s_n s) (s_I s) (s_S s).

Lemma blist_in : forall n I S m, In m (blist n I S) <-> inB n I S m.
Proof.
  intros n I S m. unfold blist, inB. rewrite filter_In, box_in, i_lcm_length, andb_true_iff, !negb_true_iff,
    !not_true_false, !i_contains_iff. tauto.
Qed.
Lemma blist_nodup : forall n I S, NoDup (blist n I S).
Proof. intros. apply NoDup_filter. apply box_nodup. Qed.

Lemma mu_le : forall n I S n' I' S' (f : term -> term),
  (forall m, inB n' I' S' m -> inB n I S (f m)) ->
  (forall a b, inB n' I' S' a -> inB n' I' S' b -> f a = f b -> a = b) ->
  mu n' I' S' <= mu n I S.
Proof.
  intros n I S n' I' S' f H1 H2. unfold mu. rewrite <- (map_length f (blist n' I' S')).
  apply NoDup_incl_length.
  - apply NoDup_map_inj; [apply blist_nodup|]. intros a b Ha Hb. apply H2; apply blist_in; auto.
  - intros x Hx. apply in_map_iff in Hx. destruct Hx as [m [<- Hm]]. apply blist_in. apply H1. apply blist_in; auto.
Qed.

Lemma mu_lt : forall n I S n' I' S' (f : term -> term) x,
  (forall m, inB n' I' S' m -> inB n I S (f m) /\ f m <> x) ->
  (forall a b, inB n' I' S' a -> inB n' I' S' b -> f a = f b -> a = b) ->
  inB n I S x -> mu n' I' S' < mu n I S.
Proof.
  intros n I S n' I' S' f x H1 H2 Hx. unfold mu. rewrite <- (map_length f (blist n' I' S')).
  change (length (x :: map f (blist n' I' S')) <= length (blist n I S)).
  apply NoDup_incl_length.
  - constructor.
    + intros Hin. apply in_map_iff in Hin. destruct Hin as [m [E Hm]]. apply blist_in in Hm. apply (H1 m Hm). auto.
    + apply NoDup_map_inj; [apply blist_nodup|]. intros a b Ha Hb. apply H2; apply blist_in; auto.
  - intros y [<-|Hy]; [apply blist_in; auto|]. apply in_map_iff in Hy. destruct Hy as [m [<- Hm]].
    apply blist_in. apply H1. apply blist_in; auto.
Qed.

Lemma product_inj : forall n p a b, length a = n -> length b = n ->
  t_product n a p = t_product n b p -> a = b.
Proof.
  intros n p a b Ha Hb E. apply term_ext with n; auto. intros v Hv.
  assert (E' : (t_product n a p) @ v = (t_product n b p) @ v) by (rewrite E; auto).
  rewrite !t_product_nth in E' by auto. lia.
Qed.

(** ** Content *)
Definition con (s : slice) (m : term) : Prop :=
  exists m', sker s m' /\ m = t_product (s_n s) m' (s_q s).

Record same_con (s s' : slice) : Prop := mkSame {
  sc_n : s_n s' = s_n s;
  sc_con : forall m, con s' m <-> con s m;
  sc_mu : smu s' <= smu s }.

Lemma same_refl : forall s, same_con s s.
Proof. intros. constructor; auto. tauto. Qed.
Lemma same_trans : forall a b c, same_con a b -> same_con b c -> same_con a c.
Proof.
  intros a b c [A1 A2 A3] [B1 B2 B3]. constructor; try congruence; try lia.
  intros m. rewrite B2. auto.
Qed.

Lemma sub_same : forall s s', sub_rel s s' -> same_con s s'.
Proof.
  intros s s' [A1 A2 A3 A4 A5 A6]. constructor; auto.
  - intros m. unfold con. rewrite A1, A3. split; intros [m' [H1 H2]]; exists m'; split; auto; apply A5; auto.
  - apply (mu_le _ _ _ _ _ _ (fun m => m)); auto.
Qed.

Lemma inner_mu_le : forall s p s', inner_rel s p s' -> smu s' <= smu s.
Proof.
  intros s p s' H. unfold smu. apply (mu_le _ _ _ _ _ _ (fun m => t_product (s_n s) m p)).
  - apply (in_B _ _ _ H).
  - intros a b [Ha _] [Hb _]. rewrite (in_n _ _ _ H) in *. apply product_inj; auto.
Qed.

Lemma inner_mu_lt : forall s p s' x, inner_rel s p s' -> sB s x -> ~ le_n (s_n s) p x -> smu s' < smu s.
Proof.
  intros s p s' x H Hx Hp. unfold smu. apply (mu_lt _ _ _ _ _ _ (fun m => t_product (s_n s) m p) x); auto.
  - intros m Hm. split; [apply (in_B _ _ _ H); auto|]. intros <-. apply Hp. intros v Hv.
    rewrite t_product_nth by auto. lia.
  - intros a b [Ha _] [Hb _]. rewrite (in_n _ _ _ H) in *. apply product_inj; auto.
Qed.

Lemma outer_mu_lt : forall s p s', outer_rel s p s' -> sB s p -> smu s' < smu s.
Proof.
  intros s p s' H Hx. unfold smu. apply (mu_lt _ _ _ _ _ _ (fun m => m) p); auto.
  intros m Hm. split; [apply (out_B _ _ _ H); auto|]. intros ->.
  apply (out_B _ _ _ H) in Hm. apply (proj2 Hm). apply le_n_refl.
Qed.

Lemma inner_con : forall s p s' m, inner_rel s p s' -> length (s_q s) = s_n s -> length p = s_n s ->
  (con s' m <-> exists m', sker s m' /\ le_n (s_n s) p m' /\ m = t_product (s_n s) m' (s_q s)).
Proof.
  intros s p s' m H Hq Hp. unfold con. rewrite (in_n _ _ _ H), (in_q _ _ _ H). set (n := s_n s) in *.
  assert (Hl : forall m', sker s' m' -> length m' = n).
  { intros m' [[Hl _] _]. rewrite (in_n _ _ _ H) in Hl. exact Hl. }
  split.
  - intros [m' [H1 ->]]. pose proof (Hl m' H1). exists (t_product n m' p). split; [|split].
    + apply (in_ker _ _ _ H); auto.
    + intros v Hv. rewrite t_product_nth by auto. lia.
    + apply term_ext with n; auto using t_product_length. intros v Hv. rewrite !t_product_nth by auto. lia.
  - intros [m' [H1 [H2 ->]]]. assert (Hm' : length m' = n) by (apply H1).
    assert (E : t_product n (t_colon n m' p) p = m').
    { apply term_ext with n; auto using t_product_length. intros v Hv.
      rewrite t_product_nth, t_colon_nth by auto. specialize (H2 v Hv). lia. }
    exists (t_colon n m' p). split.
    + apply (in_ker _ _ _ H); [apply t_colon_length|]. fold n. rewrite E. auto.
    + apply term_ext with n; auto using t_product_length. intros v Hv.
      rewrite !t_product_nth, t_colon_nth by auto. specialize (H2 v Hv). lia.
Qed.

Lemma inner_same : forall s p s', inner_rel s p s' -> length (s_q s) = s_n s -> length p = s_n s ->
  (forall m, sker s m -> le_n (s_n s) p m) -> same_con s s'.
Proof.
  intros s p s' H Hq Hp Hall. constructor.
  - apply H.
  - intros m. rewrite (inner_con s p s' m H Hq Hp). unfold con. split.
    + intros [m' [A [B C]]]. eauto.
    + intros [m' [A B]]. exists m'. auto.
  - eapply inner_mu_le; eauto.
Qed.

(** ** exp_sum *)
Lemma list_sum_le : forall (f g : nat -> nat) l, (forall v, In v l -> f v <= g v) ->
  list_sum (map f l) <= list_sum (map g l).
Proof.
  induction l as [|a l IH]; intros H; [simpl; lia|]. cbn [map list_sum fold_right].
  pose proof (H a (or_introl eq_refl)). specialize (IH (fun v Hv => H v (or_intror Hv))).
  unfold list_sum in IH. lia.
Qed.
Lemma list_sum_lt : forall (f g : nat -> nat) l x, (forall v, In v l -> f v <= g v) -> In x l -> f x < g x ->
  list_sum (map f l) < list_sum (map g l).
Proof.
  induction l as [|a l IH]; intros x H Hx Hlt; [destruct Hx|]. cbn [map list_sum fold_right].
  pose proof (H a (or_introl eq_refl)). destruct Hx as [->|Hx].
  - pose proof (list_sum_le f g l (fun v Hv => H v (or_intror Hv))) as P. unfold list_sum in P. lia.
  - specialize (IH x (fun v Hv => H v (or_intror Hv)) Hx Hlt). unfold list_sum in IH. lia.
Qed.
Lemma exp_sum_lt : forall n a b x, le_n n a b -> x < n -> a @ x < b @ x -> exp_sum n a < exp_sum n b.
Proof.
  intros n a b x H Hx Hlt. unfold exp_sum. apply list_sum_lt with x; auto.
  - intros v Hv. apply in_seq in Hv. apply H; lia.
  - apply in_seq; lia.
Qed.
Lemma exp_sum_pos : forall n b x, x < n -> 0 < b @ x -> 0 < exp_sum n b.
Proof.
  intros n b x Hx Hp. pose proof (exp_sum_lt n (t_identity n) b x).
  rewrite t_identity_nth in H. assert (exp_sum n (t_identity n) < exp_sum n b).
  { apply H; auto. intros v Hv. rewrite t_identity_nth. lia. }
  lia.
Qed.

Definition slcm (s : slice) : term := i_lcm (s_n s) (s_I s).

Lemma inner_exp_sum : forall s p s' x, inner_rel s p s' -> x < s_n s -> 0 < p @ x -> p @ x <= (slcm s) @ x ->
  exp_sum (s_n s') (slcm s') < exp_sum (s_n s) (slcm s).
Proof.
  intros s p s' x H Hx Hp Hle. unfold slcm in *. rewrite (in_n _ _ _ H).
  assert (Hv : forall v, v < s_n s -> (i_lcm (s_n s) (s_I s')) @ v <= (i_lcm (s_n s) (s_I s)) @ v - p @ v).
  { intros v Hv. apply i_lcm_colon_le; auto. apply H. }
  apply exp_sum_lt with x; auto.
  - intros v Hv'. specialize (Hv v Hv'). lia.
  - specialize (Hv x Hx). lia.
Qed.

(** ** adjustMultiply *)
Definition adj_step (n : nat) (b g : term) : term := tabulate n (fun v =>
      if g @ v =? 0 then b @ v
      else if (b @ v =? 0) || (g @ v <? b @ v) then g @ v else b @ v).

Lemma adj_fold_spec : forall n I b v, v < n ->
  let r := (fold_left (adj_step n) I b) @ v in
  (r = 0 <-> b @ v = 0 /\ forall g, In g I -> g @ v = 0) /\
  (r = b @ v \/ exists g, In g I /\ g @ v = r) /\
  (0 < b @ v -> r <= b @ v) /\ (forall g, In g I -> 0 < g @ v -> r <= g @ v).
Proof.
  induction I as [|a I IH]; intros b v Hv; cbn [fold_left]; cbv zeta.
  - split; [|split; [|split]]; auto; try lia.
    + split; [intros; split; auto; intros g []|tauto].
    + intros g [].
  - destruct (IH (adj_step n b a) v Hv) as [H1 [H2 [H3 H4]]]. clear IH. cbv zeta in *.
    set (r := (fold_left (adj_step n) I (adj_step n b a)) @ v) in *.
    assert (Hs : (adj_step n b a) @ v = if a @ v =? 0 then b @ v
      else if (b @ v =? 0) || (a @ v <? b @ v) then a @ v else b @ v).
    { unfold adj_step. rewrite tabulate_nth by auto. reflexivity. }
    rewrite Hs in *. clear Hs.
    destruct (Nat.eqb_spec (a @ v) 0) as [E|E].
    + split; [|split; [|split]].
      * rewrite H1. split; intros [A B]; split; auto.
        -- intros g [<-|Hg]; auto.
        -- intros g Hg. apply B. right; auto.
      * destruct H2 as [H2|[g [Hg H2]]]; auto. right. exists g. split; auto. right; auto.
      * auto.
      * intros g [<-|Hg]; [lia|auto].
    + destruct (Nat.eqb_spec (b @ v) 0) as [Eb|Eb]; cbn [orb] in *.
      * split; [|split; [|split]].
        -- rewrite H1. split; intros [A B]; [lia|]. specialize (B a (or_introl eq_refl)). lia.
        -- destruct H2 as [H2|[g [Hg H2]]]; right; [exists a|exists g]; split; simpl; auto.
        -- lia.
        -- intros g [<-|Hg]; [intros; apply H3; lia|auto].
      * destruct (Nat.ltb_spec (a @ v) (b @ v)) as [Hlt|Hlt].
        -- split; [|split; [|split]].
           ++ rewrite H1. split; intros [A B]; lia.
           ++ destruct H2 as [H2|[g [Hg H2]]]; right; [exists a|exists g]; split; simpl; auto.
           ++ intros. specialize (H3 ltac:(lia)). lia.
           ++ intros g [<-|Hg]; [intros; apply H3; lia|auto].
        -- split; [|split; [|split]].
           ++ rewrite H1. split; intros [A B]; lia.
           ++ destruct H2 as [H2|[g [Hg H2]]]; auto. right; exists g; split; simpl; auto.
           ++ auto.
           ++ intros g [<-|Hg]; [intros; specialize (H3 ltac:(lia)); lia|auto].
Qed.

Lemma adj_bound_spec : forall n I v, v < n ->
  let b := (adj_bound n I) @ v in
  (b = 0 <-> forall g, In g I -> g @ v = 0) /\
  (0 < b -> exists g, In g I /\ g @ v = b) /\ (forall g, In g I -> 0 < g @ v -> b <= g @ v).
Proof.
  intros n I v Hv b. destruct (adj_fold_spec n I (t_identity n) v Hv) as [H1 [H2 [_ H4]]].
  change (fold_left (adj_step n) I (t_identity n)) with (adj_bound n I) in *.
  rewrite t_identity_nth in *. fold b in H1, H2, H4. split; [|split]; auto.
  - rewrite H1. tauto.
  - intros Hb. destruct H2 as [H2|H2]; [lia|auto].
Qed.

Definition adjusted (n : nat) (I : ideal) : Prop :=
  forall v h, v < n -> In h I -> 0 < h @ v -> exists g, In g I /\ g @ v = 1.

Lemma adj_divides : forall n I S m, ker n I S m -> le_n n (t_decrement n (adj_bound n I)) m.
Proof.
  intros n I S m [Hm _] v Hv. rewrite t_decrement_nth by auto.
  destruct (msm_lab n I m v Hm Hv) as [g [Hg [E _]]].
  destruct (adj_bound_spec n I v Hv) as [_ [_ H]]. specialize (H g Hg ltac:(lia)). lia.
Qed.

Lemma adjustMultiply_spec : forall fuel s ch, slice_ok s -> sndl s ->
  exp_sum (s_n s) (slcm s) < fuel ->
  exists s' ch', adjustMultiply fuel msm_innerSlice s ch = Some (s', ch') /\
    slice_ok s' /\ sndl s' /\ same_con s s' /\ adjusted (s_n s') (s_I s').
Proof.
  induction fuel as [|fuel IH]; intros s ch Hok Hd Hf; [lia|]. cbn [adjustMultiply]. cbv zeta.
  set (n := s_n s) in *. set (b := t_decrement n (adj_bound n (s_I s))).
  assert (Hlb : length b = s_n s) by apply t_decrement_length.
  destruct (t_isIdentity n b) eqn:Ei.
  - exists s, ch. split; auto. split; auto. split; auto. split; [apply same_refl|].
    fold n. intros v h Hv Hh Hpos. apply t_isIdentity_iff with (v := v) in Ei; auto.
    unfold b in Ei. rewrite t_decrement_nth in Ei by auto.
    destruct (adj_bound_spec n (s_I s) v Hv) as [A [B C]].
    destruct (Nat.eq_dec ((adj_bound n (s_I s)) @ v) 0) as [E0|].
    + pose proof (proj1 A E0 h Hh). lia.
    + destruct (B ltac:(lia)) as [g [Hg Eg]]. exists g. split; auto. lia.
  - apply t_isIdentity_false in Ei. destruct Ei as [x [Hx Hbx]].
    destruct (msm_innerSlice s b) as [s1 real] eqn:Es.
    destruct (msm_innerSlice_spec s b s1 real Hok Hd Hlb Es) as [O1 [D1 [R1 U1]]].
    assert (HS1 : same_con s s1).
    { refine (inner_same s b s1 R1 (ok_q s Hok) Hlb _). intros m Hm. eapply adj_divides; eauto. }
    destruct real.
    + destruct (IH s1 true O1 D1) as [s' [ch' [E [O' [D' [C' A']]]]]].
      * assert (exp_sum (s_n s1) (slcm s1) < exp_sum (s_n s) (slcm s)); [|fold n in H; lia].
        apply inner_exp_sum with b x; auto. unfold b in *. rewrite t_decrement_nth in * by auto.
        destruct (adj_bound_spec n (s_I s) x Hx) as [_ [B _]]. destruct (B ltac:(lia)) as [g [Hg Eg]].
        pose proof (i_lcm_ge n (s_I s) g x Hx Hg). unfold slcm. fold n. lia.
      * exists s', ch'. split; auto. split; auto. split; auto. split; auto. eapply same_trans; eauto.
    + exists s1, true. split; auto. split; auto. split; auto. split; auto.
      destruct (U1 eq_refl) as [V1 V2 V3 V4]. rewrite (in_n _ _ _ R1). fold n in V1, V3 |- *.
      intros v h Hv Hh Hpos. destruct (in_I _ _ _ R1 h Hh) as [h0 [Hh0 ->]]. fold n in Hpos.
      rewrite t_colon_nth in Hpos by auto.
      destruct (adj_bound_spec n (s_I s) v Hv) as [A [B C]].
      destruct (Nat.eq_dec ((adj_bound n (s_I s)) @ v) 0) as [E0|].
      { pose proof (proj1 A E0 h0 Hh0). lia. }
      destruct (B ltac:(lia)) as [g [Hg Eg]]. exists (t_colon n g b). split; [apply V3; auto|].
      rewrite t_colon_nth by auto. unfold b. rewrite t_decrement_nth by auto. lia.
Qed.

(** ** Lower bounds *)
Definition cand (n : nat) (lcm : term) (var : nat) (g : term) : Prop :=
  g @ var <> 0 /\ forall w, w < n -> w <> var -> g @ w <> lcm @ w.

Lemma lb_candidate_iff : forall n lcm var g, lb_candidate n lcm var g = true <-> cand n lcm var g.
Proof.
  intros. unfold lb_candidate, cand. rewrite andb_true_iff, !negb_true_iff, Nat.eqb_neq, not_true_false, existsb_seq.
  split; intros [A B]; split; auto.
  - intros w Hw Hne E. apply B. exists w. split; auto. apply andb_true_iff. split; [apply Nat.eqb_eq; auto|].
    apply negb_true_iff. apply Nat.eqb_neq; auto.
  - intros [w [Hw H]]. apply andb_true_iff in H. destruct H as [H1 H2]. apply Nat.eqb_eq in H1.
    apply negb_true_iff, Nat.eqb_neq in H2. apply (B w); auto.
Qed.

Lemma lb_fold_gen : forall n lcm var I b w, w < n ->
  let r := (fold_left (fun b g => if lb_candidate n lcm var g then t_gcd n b g else b) I b) @ w in
  r <= b @ w /\ (forall g, In g I -> cand n lcm var g -> r <= g @ w) /\
  (r = b @ w \/ exists g, In g I /\ cand n lcm var g /\ r = g @ w).
Proof.
  induction I as [|a I IH]; intros b w Hw; cbn [fold_left]; cbv zeta.
  - split; auto. split; auto. intros g [].
  - destruct (IH (if lb_candidate n lcm var a then t_gcd n b a else b) w Hw) as [H1 [H2 H3]]. clear IH. cbv zeta in *.
    match type of H1 with (?x <= _) => set (r := x) in * end.
    destruct (lb_candidate n lcm var a) eqn:E.
    + apply lb_candidate_iff in E. rewrite t_gcd_nth in * by auto. split; [lia|]. split.
      * intros g [<-|Hg] Hc; [lia|auto].
      * destruct H3 as [H3|[g [Hg [Hc H3]]]].
        -- destruct (Nat.min_spec (b @ w) (a @ w)) as [[_ Em]|[_ Em]]; rewrite Em in H3; auto.
           right. exists a. simpl; auto.
        -- right. exists g. simpl; auto.
    + assert (~ cand n lcm var a) by (rewrite <- lb_candidate_iff; congruence).
      split; auto. split.
      * intros g [<-|Hg] Hc; [contradiction|auto].
      * destruct H3 as [H3|[g [Hg [Hc H3]]]]; auto. right. exists g. simpl; auto.
Qed.

Lemma lb_fold_length : forall n lcm var I, length lcm = n -> length (lb_fold n lcm var I) = n.
Proof.
  intros n lcm var I H. unfold lb_fold. revert H. generalize lcm at 1 3. 
  induction I as [|a I IH]; intros b Hb; simpl; auto. apply IH.
  destruct (lb_candidate n lcm var a); auto. apply t_gcd_length.
Qed.

Lemma lb_fold_spec : forall n lcm var I w, w < n ->
  let r := (lb_fold n lcm var I) @ w in
  r <= lcm @ w /\ (forall g, In g I -> cand n lcm var g -> r <= g @ w) /\
  (r = lcm @ w \/ exists g, In g I /\ cand n lcm var g /\ r = g @ w).
Proof. intros. apply lb_fold_gen; auto. Qed.

(** the bound for [var] is the identity *)
Definition lbid (n : nat) (I : ideal) (var : nat) : Prop :=
  (exists g, In g I /\ cand n (i_lcm n I) var g /\ g @ var = 1) /\
  forall w, w < n -> w <> var -> exists g, In g I /\ cand n (i_lcm n I) var g /\ g @ w = 0.
Definition SI (n : nat) (I : ideal) : Prop := forall var, var < n -> lbid n I var.

Lemma cand_full : forall n I var g, In g I -> cand n (i_lcm n I) var g -> var < n -> full n (i_lcm n I).
Proof.
  intros n I var g Hg [H1 H2] Hvar v Hv. pose proof (i_lcm_ge n I g v Hv Hg).
  destruct (Nat.eq_dec v var) as [->|Hne]; [lia|]. specialize (H2 v Hv Hne). lia.
Qed.

Lemma lab_cand : forall n I m var g, msm n I m -> var < n -> In g I -> lab n var m g ->
  cand n (i_lcm n I) var g.
Proof.
  intros n I m var g Hm Hvar Hg [L1 L2]. split; [lia|]. intros w Hw Hne.
  specialize (L2 w Hw Hne). pose proof (msm_lt_lcm n I m w Hm Hw). lia.
Qed.

Lemma getLowerBound_spec : forall s var s1 r, slice_ok s -> 2 <= s_n s -> var < s_n s ->
  msm_getLowerBound s var = (s1, r) ->
  s1 = sl_touch s /\
  match r with
  | None => forall g, In g (s_I s) -> ~ cand (s_n s) (slcm s) var g
  | Some b => length b = s_n s /\ (exists g, In g (s_I s) /\ cand (s_n s) (slcm s) var g) /\
      b = t_set (s_n s) (lb_fold (s_n s) (slcm s) var (s_I s)) var
            ((lb_fold (s_n s) (slcm s) var (s_I s)) @ var - 1)
  end.
Proof.
  intros s var s1 r Hok Hn Hvar H. unfold msm_getLowerBound in H. cbv zeta in H.
  destruct (touch_facts s) as [A [B [C [D [E F]]]]]. pose proof (touch_lcm s Hok) as L.
  rewrite A, B, L in H. fold (slcm s) in H.
  pose proof (lb_fold_spec (s_n s) (slcm s) var (s_I s)) as LF.
  set (l := lb_fold (s_n s) (slcm s) var (s_I s)) in *.
  destruct ((l @ 0 =? (slcm s) @ 0) && (l @ 1 =? (slcm s) @ 1)) eqn:Ec; injection H as <- <-; split; auto.
  - intros g Hg Hc. apply andb_true_iff in Ec. destruct Ec as [E0 E1]. apply Nat.eqb_eq in E0, E1.
    destruct (Nat.eq_dec var 0) as [->|Hne].
    + destruct (LF 1 ltac:(lia)) as [_ [H2 _]]. specialize (H2 g Hg Hc).
      destruct Hc as [_ Hc]. specialize (Hc 1 ltac:(lia) ltac:(lia)).
      pose proof (i_lcm_ge (s_n s) (s_I s) g 1 ltac:(lia) Hg). unfold slcm in *. lia.
    + destruct (LF 0 ltac:(lia)) as [_ [H2 _]]. specialize (H2 g Hg Hc).
      destruct Hc as [_ Hc]. specialize (Hc 0 ltac:(lia) ltac:(lia)).
      pose proof (i_lcm_ge (s_n s) (s_I s) g 0 ltac:(lia) Hg). unfold slcm in *. lia.
  - split; [apply t_set_length|]. split; auto.
    assert (Hex : exists w, w < s_n s /\ l @ w <> (slcm s) @ w).
    { apply andb_false_iff in Ec. destruct Ec as [Ec|Ec]; apply Nat.eqb_neq in Ec; [exists 0|exists 1]; split; auto; lia. }
    destruct Hex as [w [Hw Hne]]. destruct (LF w Hw) as [_ [_ [H3|[g [Hg [Hc _]]]]]]; [contradiction|]. exists g; auto.
Qed.

Lemma lb_some_divides : forall s var b m, var < s_n s ->
  b = t_set (s_n s) (lb_fold (s_n s) (slcm s) var (s_I s)) var
            ((lb_fold (s_n s) (slcm s) var (s_I s)) @ var - 1) ->
  sker s m -> le_n (s_n s) b m.
Proof.
  intros s var b m Hvar -> [Hm _] w Hw. rewrite t_set_nth by auto.
  destruct (msm_lab _ _ _ var Hm Hvar) as [g [Hg Hlab]].
  pose proof (lab_cand _ _ _ _ _ Hm Hvar Hg Hlab) as Hc. fold (slcm s) in Hc.
  destruct (Nat.eqb_spec w var) as [->|Hne].
  - destruct (lb_fold_spec (s_n s) (slcm s) var (s_I s) var Hvar) as [_ [H2 _]]. specialize (H2 g Hg Hc).
    destruct Hlab as [L1 L2]. lia.
  - destruct (lb_fold_spec (s_n s) (slcm s) var (s_I s) w Hw) as [_ [H2 _]]. specialize (H2 g Hg Hc).
    destruct Hlab as [L1 L2]. specialize (L2 w Hw Hne). lia.
Qed.

Lemma lb_identity_lbid : forall s var b, var < s_n s ->
  (exists g, In g (s_I s) /\ cand (s_n s) (slcm s) var g) ->
  b = t_set (s_n s) (lb_fold (s_n s) (slcm s) var (s_I s)) var
            ((lb_fold (s_n s) (slcm s) var (s_I s)) @ var - 1) ->
  (forall v, v < s_n s -> b @ v = 0) -> lbid (s_n s) (s_I s) var.
Proof.
  intros s var b Hvar [g0 [Hg0 Hc0]] -> Hid. set (n := s_n s) in *.
  pose proof (cand_full n (s_I s) var g0 Hg0 Hc0 Hvar) as Hf. unfold slcm in *. fold n in Hc0, Hid. split.
  - specialize (Hid var Hvar). rewrite t_set_nth_eq in Hid by auto.
    destruct (lb_fold_spec n (i_lcm n (s_I s)) var (s_I s) var Hvar) as [H1 [H2 H3]]. cbv zeta in *.
    set (r := (lb_fold n (i_lcm n (s_I s)) var (s_I s)) @ var) in *.
    assert (Hr : 1 <= r).
    { destruct H3 as [H3|[g [Hg [[Hc _] H3]]]]; [specialize (Hf var Hvar); lia|lia]. }
    assert (Er : r = 1) by lia.
    destruct H3 as [H3|[g [Hg [Hc H3]]]].
    + specialize (H2 g0 Hg0 Hc0). pose proof (i_lcm_ge n (s_I s) g0 var Hvar Hg0).
      exists g0. split; auto. split; auto. lia.
    + exists g. split; auto. split; auto. lia.
  - intros w Hw Hne. specialize (Hid w Hw). rewrite t_set_nth_neq in Hid by auto.
    destruct (lb_fold_spec n (i_lcm n (s_I s)) var (s_I s) w Hw) as [H1 [H2 H3]]. cbv zeta in *.
    rewrite Hid in H3. destruct H3 as [H3|[g [Hg [Hc H3]]]].
    + specialize (Hf w Hw). lia.
    + exists g. auto.
Qed.

(** ** lower bounds persist through innerSlice without change *)
Lemma cand_colon : forall n I J p var g, var < n ->
  (forall k, In k J -> exists g, In g I /\ k = t_colon n g p) ->
  (forall g, In g I -> In (t_colon n g p) J) ->
  (forall g v, In g I -> v < n -> g @ v = 0 \/ p @ v < g @ v) ->
  In g I -> cand n (i_lcm n I) var g -> cand n (i_lcm n J) var (t_colon n g p).
Proof.
  intros n I J p var g Hvar H1 H2 Hk Hg [C1 C2]. rewrite (i_lcm_colon_eq n I p J H1 H2). split.
  - rewrite t_colon_nth by auto. specialize (Hk g var Hg Hvar). lia.
  - intros w Hw Hne. rewrite !t_colon_nth by auto. specialize (C2 w Hw Hne).
    pose proof (i_lcm_ge n I g w Hw Hg). 
    destruct (i_lcm_attained n I w Hw ltac:(lia)) as [h [Hh E]].
    pose proof (Hk g w Hg Hw). pose proof (Hk h w Hh Hw). lia.
Qed.

Lemma lbid_colon : forall n I J p u, u < n ->
  (forall k, In k J -> exists g, In g I /\ k = t_colon n g p) ->
  (forall g, In g I -> In (t_colon n g p) J) ->
  (forall g v, In g I -> v < n -> g @ v = 0 \/ p @ v < g @ v) ->
  lbid n I u -> lbid n J u.
Proof.
  intros n I J p u Hu H1 H2 Hk [[g [Hg [Hc E]]] Hw]. split.
  - exists (t_colon n g p). split; auto. split; [eapply cand_colon; eauto|]. rewrite t_colon_nth by auto.
    pose proof (Hk g u Hg Hu). lia.
  - intros w Hwn Hne. destruct (Hw w Hwn Hne) as [h [Hh [Hch Eh]]]. exists (t_colon n h p). split; auto.
    split; [eapply cand_colon; eauto|]. rewrite t_colon_nth by auto. lia.
Qed.

Lemma lbid_colon_self : forall s var b s', var < s_n s -> 2 <= s_n s ->
  (exists g, In g (s_I s) /\ cand (s_n s) (slcm s) var g) ->
  b = t_set (s_n s) (lb_fold (s_n s) (slcm s) var (s_I s)) var
            ((lb_fold (s_n s) (slcm s) var (s_I s)) @ var - 1) ->
  inner_rel s b s' -> unchanged_rel s b s' -> lbid (s_n s) (s_I s') var.
Proof.
  intros s var b s' Hvar Hn [g0 [Hg0 Hc0]] Hb R U. set (n := s_n s) in *. unfold slcm in *. fold n in Hc0, Hb.
  pose proof (cand_full n (s_I s) var g0 Hg0 Hc0 Hvar) as Hf.
  pose proof (in_I _ _ _ R) as H1. pose proof (un_all _ _ _ U) as H2. pose proof (un_I _ _ _ U) as Hk.
  fold n in H1, H2, Hk.
  assert (Hcc : forall g, In g (s_I s) -> cand n (i_lcm n (s_I s)) var g ->
    cand n (i_lcm n (s_I s')) var (t_colon n g b)) by (intros; eapply cand_colon; eauto).
  split.
  - destruct (lb_fold_spec n (i_lcm n (s_I s)) var (s_I s) var Hvar) as [L1 [L2 L3]]. cbv zeta in *.
    assert (Eb : b @ var = (lb_fold n (i_lcm n (s_I s)) var (s_I s)) @ var - 1).
    { rewrite Hb. apply t_set_nth_eq; auto. }
    set (r := (lb_fold n (i_lcm n (s_I s)) var (s_I s)) @ var) in *.
    destruct L3 as [L3|[g [Hg [Hc L3]]]].
    + exists (t_colon n g0 b). split; auto. split; auto. rewrite t_colon_nth by auto.
      specialize (L2 g0 Hg0 Hc0). pose proof (i_lcm_ge n (s_I s) g0 var Hvar Hg0).
      specialize (Hf var Hvar). lia.
    + exists (t_colon n g b). split; auto. split; auto. rewrite t_colon_nth by auto. destruct Hc as [Hc _]. lia.
  - intros w Hw Hne.
    destruct (lb_fold_spec n (i_lcm n (s_I s)) var (s_I s) w Hw) as [L1 [L2 L3]]. cbv zeta in *.
    assert (Eb : b @ w = (lb_fold n (i_lcm n (s_I s)) var (s_I s)) @ w).
    { rewrite Hb. apply t_set_nth_neq; auto. }
    set (r := (lb_fold n (i_lcm n (s_I s)) var (s_I s)) @ w) in *.
    destruct L3 as [L3|[g [Hg [Hc L3]]]].
    + exfalso. specialize (L2 g0 Hg0 Hc0). pose proof (i_lcm_ge n (s_I s) g0 w Hw Hg0).
      destruct Hc0 as [_ Hc0]. specialize (Hc0 w Hw Hne). lia.
    + exists (t_colon n g b). split; auto. split; auto. rewrite t_colon_nth by auto. lia.
Qed.

(** ** The loop of applyLowerBound *)
Lemma clear_same : forall s, 0 < s_n s -> (forall m, ~ sker s m) -> same_con s (sl_clear s).
Proof.
  intros s Hn Hk. constructor; auto.
  - intros m. unfold con. split; intros [m' [H _]]; exfalso.
    + destruct H as [H _]. simpl in H. eapply msm_nil; eauto.
    + eapply Hk; eauto.
  - unfold smu. apply (mu_le _ _ _ _ _ _ (fun m => m)); auto.
    simpl. intros m [Hl [Hb _]]. specialize (Hb 0 Hn). unfold i_lcm in Hb. simpl in Hb. rewrite t_identity_nth in Hb. lia.
Qed.

Lemma clear_ok : forall s, slice_ok s -> slice_ok (sl_clear s) /\ sndl (sl_clear s).
Proof.
  intros s [A B C D E F G H]. split.
  - assert (M : minl (s_n s) []) by (split; [constructor|]; intros g h Hg; destruct Hg).
    assert (W : wf (s_n s) []) by (intros x Hx; destruct Hx).
    assert (N : normalized (s_n s) [] []) by (intros x y Hx; destruct Hx).
    constructor; simpl; auto; congruence.
  - unfold sndl, ndl. simpl. intros _ g Hg. destruct Hg.
Qed.

Definition simp_ok (n : nat) (I : ideal) : Prop := I = [] \/ SI n I.

Lemma lb_loop_spec : forall fuel s ch steps var, slice_ok s -> sndl s -> 2 <= s_n s -> var < s_n s ->
  exp_sum (s_n s) (slcm s) * S (s_n s) + (s_n s - steps) <= fuel ->
  (forall u, u < s_n s -> lbid (s_n s) (s_I s) u \/ exists k, k < s_n s - steps /\ u = (var + k) mod s_n s) ->
  exists s' ch', lb_loop fuel s ch steps var = Some (s', ch') /\
    slice_ok s' /\ sndl s' /\ same_con s s' /\ simp_ok (s_n s') (s_I s').
Proof.
  induction fuel as [|fuel IH]; intros s ch steps var Hok Hd Hn Hvar Hf Hid; cbn [lb_loop];
  destruct (Nat.ltb_spec steps (s_n s)) as [Hst|Hst].
  - lia.
  - exists s, ch. split; auto. split; auto. split; auto. split; [apply same_refl|]. right.
    intros u Hu. destruct (Hid u Hu) as [H|[k [Hk _]]]; auto. lia.
  - destruct (msm_getLowerBound s var) as [s1 r] eqn:El.
    destruct (getLowerBound_spec s var s1 r Hok Hn Hvar El) as [E1 Hr].
    destruct (touch_facts s) as [A [B [C [D [E F]]]]]. pose proof (touch_ok s Hok) as Hok1.
    pose proof (sub_same _ _ (touch_sub s)) as Hsc1. subst s1. set (s1 := sl_touch s) in *.
    assert (Hd1 : sndl s1) by (unfold sndl; rewrite A, B; exact Hd).
    assert (Hlcm1 : slcm s1 = slcm s) by (unfold slcm; rewrite A, B; auto).
    destruct r as [b|].
    + destruct Hr as [Hlb [Hex Hb]]. rewrite A.
      assert (Hdiv : forall m, sker s m -> le_n (s_n s) b m) by (intros m; exact (lb_some_divides s var b m Hvar Hb)).
      assert (Hvar' : S var mod s_n s < s_n s) by (apply Nat.mod_upper_bound; lia).
      destruct (t_isIdentity (s_n s) b) eqn:Ei.
      * pose proof (proj1 (t_isIdentity_iff _ _) Ei) as Hi.
        destruct (IH s1 ch (S steps) (S var mod s_n s)) as [s' [ch' [H1 [H2 [H3 [H4 H5]]]]]]; auto; rewrite ?A, ?B, ?Hlcm1; auto.
        -- lia.
        -- intros u Hu. destruct (Hid u Hu) as [H|[k [Hk Eu]]]; auto. destruct k as [|k].
           ++ left. rewrite Nat.add_0_r, Nat.mod_small in Eu by auto. subst u. eapply lb_identity_lbid; eauto.
           ++ right. exists k. split; [lia|]. rewrite Nat.add_mod_idemp_l by lia.
              rewrite Eu. f_equal. lia.
        -- exists s', ch'. split; auto. split; auto. split; auto. split; auto. eapply same_trans; eauto.
      * destruct (msm_innerSlice s1 b) as [s2 big] eqn:Es.
        destruct (msm_innerSlice_spec s1 b s2 big Hok1 Hd1 ltac:(rewrite A; auto) Es) as [O2 [D2 [R2 U2]]].
        apply t_isIdentity_false in Ei. destruct Ei as [x [Hx Hbx]].
        assert (HS2 : same_con s1 s2).
        { refine (inner_same s1 b s2 R2 (ok_q s1 Hok1) ltac:(rewrite A; exact Hlb) _).
          intros m Hm. rewrite A. apply Hdiv. unfold sker in *. rewrite A, B, C in Hm. auto. }
        assert (Hsum : exp_sum (s_n s2) (slcm s2) < exp_sum (s_n s) (slcm s)).
        { rewrite <- Hlcm1 at 1. rewrite <- A at 1. replace (s_n s) with (s_n s1) by auto. apply inner_exp_sum with b x; auto. rewrite A; auto.
          rewrite Hlcm1. rewrite Hb. rewrite t_set_nth by auto.
          pose proof (lb_fold_spec (s_n s) (slcm s) var (s_I s)) as LF.
          destruct (Nat.eqb_spec x var) as [->|]; [destruct (LF var Hx)|destruct (LF x Hx)]; lia. }
        assert (En2 : s_n s2 = s_n s) by (rewrite (in_n _ _ _ R2); auto).
        rewrite En2 in *.
        destruct (IH s2 true (if big then 0 else S steps) (S var mod s_n s)) as [s' [ch' [H1 [H2 [H3 [H4 H5]]]]]]; auto; rewrite ?En2; auto.
        -- destruct big; nia.
        -- intros u Hu. destruct big.
           ++ right. destruct (Nat.le_gt_cases (S var mod s_n s) u) as [Hle|Hgt].
              ** exists (u - S var mod s_n s). split; [lia|]. rewrite Nat.mod_small; lia.
              ** exists (u + s_n s - S var mod s_n s). split; [lia|].
                 replace (S var mod s_n s + (u + s_n s - S var mod s_n s)) with (u + 1 * s_n s) by lia.
                 rewrite Nat.mod_add by lia. rewrite Nat.mod_small; auto.
           ++ pose proof (U2 eq_refl) as U. 
              assert (P1 : forall k, In k (s_I s2) -> exists g, In g (s_I s) /\ k = t_colon (s_n s) g b).
              { pose proof (in_I _ _ _ R2) as P. rewrite A, B in P. exact P. }
              assert (P2 : forall g, In g (s_I s) -> In (t_colon (s_n s) g b) (s_I s2)).
              { pose proof (un_all _ _ _ U) as P. rewrite A, B in P. exact P. }
              assert (P3 : forall g v, In g (s_I s) -> v < s_n s -> g @ v = 0 \/ b @ v < g @ v).
              { pose proof (un_I _ _ _ U) as P. rewrite A, B in P. exact P. }
              destruct (Hid u Hu) as [H|[k [Hk Eu]]].
              { left. eapply lbid_colon; eauto. }
              destruct k as [|k].
              ** left. rewrite Nat.add_0_r, Nat.mod_small in Eu by auto. subst u.
                 pose proof (lbid_colon_self s1 var b s2) as P. rewrite A, B, Hlcm1 in P. exact (P Hvar Hn Hex Hb R2 U).
              ** right. exists k. split; [lia|]. rewrite Nat.add_mod_idemp_l by lia.
                 rewrite Eu. f_equal. lia.
        -- exists s', ch'. split; auto. split; auto. split; auto. split; auto.
           eapply same_trans; [exact Hsc1|]. eapply same_trans; eauto.
    + exists (sl_clear s1), true. destruct (clear_ok s1 Hok1) as [P Q]. split; auto. split; auto. split; auto. split.
      * eapply same_trans; [exact Hsc1|]. apply clear_same; [lia|].
        intros m Hm. unfold sker in Hm. rewrite A, B in Hm. destruct Hm as [Hm _].
        destruct (msm_lab _ _ _ var Hm Hvar) as [g [Hg Hlab]].
        apply (Hr g Hg). eapply lab_cand; eauto.
      * left. reflexivity.
  - exists s, ch. split; auto. split; auto. split; auto. split; [apply same_refl|]. right.
    intros u Hu. destruct (Hid u Hu) as [H|[k [Hk _]]]; auto. lia.
Qed.

(** what simplification guarantees about the ideal *)
Definition simplified_ideal (n : nat) (I : ideal) : Prop :=
  (2 <= n -> simp_ok n I) /\ (n = 1 -> forall g, In g I -> g @ 0 <= 1).

Lemma minl_1_single : forall I g h, minl 1 I -> In g I -> In h I -> g = h.
Proof.
  intros I g h [_ H] Hg Hh. destruct (Nat.le_ge_cases (g @ 0) (h @ 0)) as [L|L].
  - apply H; auto. intros v Hv. assert (v = 0) by lia. subst; auto.
  - symmetry. apply H; auto. intros v Hv. assert (v = 0) by lia. subst; auto.
Qed.

Lemma applyLowerBound_spec : forall s, slice_ok s -> sndl s ->
  exists s' ch', msm_applyLowerBound s = Some (s', ch') /\
    slice_ok s' /\ sndl s' /\ same_con s s' /\ simplified_ideal (s_n s') (s_I s') /\
    (s_n s = 0 -> s' = s).
Proof.
  intros s Hok Hd. unfold msm_applyLowerBound. destruct (s_I s) as [|g I] eqn:EI.
  - exists s, false. split; auto. split; auto. split; auto. split; [apply same_refl|]. split; [split|auto].
    + intros _. left; auto.
    + intros _ g Hg. rewrite EI in Hg. destruct Hg.
  - destruct (Nat.eqb_spec (s_n s) 1) as [E1|E1].
    + destruct (adjustMultiply_spec (S (exp_sum (s_n s) (slcm s))) s false Hok Hd ltac:(lia))
        as [s' [ch' [H1 [H2 [H3 [H4 H5]]]]]].
      exists s', ch'. split; [exact H1|]. split; auto. split; auto. split; auto. split; [split|lia].
      * rewrite (sc_n _ _ H4). lia.
      * intros En h Hh. destruct (Nat.eq_dec (h @ 0) 0) as [|Hnz]; [lia|].
        rewrite En in H5. destruct (H5 0 h ltac:(lia) Hh ltac:(lia)) as [k [Hk Ek]].
        assert (h = k). { apply (minl_1_single (s_I s')); auto. rewrite <- En. apply H2. }
        subst. lia.
    + destruct (Nat.lt_ge_cases (s_n s) 2) as [Hlt|Hge].
      * assert (E0 : s_n s = 0) by lia. exists s, false. split.
        { destruct (lb_fuel s) as [|f] eqn:Ef; cbn [lb_loop]; rewrite E0; reflexivity. }
        split; auto. split; auto. split; [apply same_refl|]. split; auto. split; intros; lia.
      * destruct (lb_loop_spec (lb_fuel s) s false 0 (s_hint s)) as [s' [ch' [H1 [H2 [H3 [H4 H5]]]]]]; auto.
        -- apply Hok. lia.
        -- unfold lb_fuel. fold (slcm s). nia.
        -- intros u Hu. right. pose proof (ok_hint s Hok ltac:(lia)) as Hh.
           destruct (Nat.le_gt_cases (s_hint s) u) as [Hle|Hgt].
           ** exists (u - s_hint s). split; [lia|]. rewrite Nat.mod_small; lia.
           ** exists (u + s_n s - s_hint s). split; [lia|].
              replace (s_hint s + (u + s_n s - s_hint s)) with (u + 1 * s_n s) by lia.
              rewrite Nat.mod_add by lia. rewrite Nat.mod_small; auto.
        -- exists s', ch'. split; auto. split; auto. split; auto. split; auto. split; [split|lia].
           ** intros _. auto.
           ** rewrite (sc_n _ _ H4). lia.
Qed.

(** ** pruneSubtract *)
Lemma pruneSubtract_spec : forall s s' ch, slice_ok s -> sndl s -> (0 < s_n s \/ s_S s = []) ->
  sl_pruneSubtract s = (s', ch) ->
  slice_ok s' /\ sndl s' /\ same_con s s' /\ s_I s' = s_I s.
Proof.
  intros s s' ch Hok Hd Hn H. unfold sl_pruneSubtract in H. destruct (s_S s) as [|x S0] eqn:ES.
  - injection H as <- <-. auto using same_refl.
  - rewrite <- ES in *. assert (Hn0 : 0 < s_n s) by (destruct Hn as [Hn|Hn]; [auto|congruence]).
    cbv zeta in H. unfold i_removeIf in H.
    destruct (touch_facts s) as [A [B [C [D [E F]]]]]. pose proof (touch_ok s Hok) as Hok1.
    pose proof (sub_same _ _ (touch_sub s)) as Hsc1. pose proof (touch_lcm s Hok) as L.
    set (s1 := sl_touch s) in *. 
    set (f := fun g => negb (negb (t_strictlyDivides (s_n s1) g (s_lcm s1)) || i_contains (s_n s1) (s_I s1) g)) in *.
    injection H as <- <-.
    set (s2 := mkSlice (s_n s1) (s_I s1) (filter f (s_S s1)) (s_q s1) (s_lcm s1) (s_upd s1) (s_hint s1)).
    assert (Hs2 : s_I s2 = s_I s) by (simpl; auto).
    split; [|split; [|split]]; auto.
    + destruct Hok1 as [O1 O2 O3 O4 O5 O6 O7 O8]. constructor; simpl; auto.
      * intros g Hg. apply O2. apply filter_In in Hg. tauto.
      * apply minl_filter; auto.
      * intros y g Hy Hg. apply O7; auto. apply filter_In in Hy. tauto.
    + unfold sndl. simpl. rewrite A, B. exact Hd.
    + eapply same_trans; [exact Hsc1|].
      assert (Hkill : forall y m, In y (s_S s) -> f y = false -> length m = s_n s ->
        (forall v, v < s_n s -> m @ v < (i_lcm (s_n s) (s_I s)) @ v) -> ~ inI (s_n s) (s_I s) m ->
        ~ le_n (s_n s) y m).
      { intros y m Hy Hf Hl Hb Hm Hle. unfold f in Hf. apply negb_false_iff, orb_true_iff in Hf.
        rewrite A, B, L in Hf. destruct Hf as [Hf|Hf].
        - apply negb_true_iff, not_true_false in Hf. apply Hf. apply t_strictlyDivides_iff. split.
          + intros v Hv. specialize (Hle v Hv). specialize (Hb v Hv). lia.
          + exists 0. split; auto. specialize (Hb 0 Hn0). lia.
        - apply i_contains_iff in Hf. apply Hm. eapply inI_mono; eauto. }
      assert (HS : forall m, length m = s_n s ->
        (forall v, v < s_n s -> m @ v < (i_lcm (s_n s) (s_I s)) @ v) -> ~ inI (s_n s) (s_I s) m ->
        (inI (s_n s) (filter f (s_S s)) m <-> inI (s_n s) (s_S s) m)).
      { intros m Hl Hb Hm. split.
        - apply inI_incl. apply incl_filter.
        - intros [y [Hy Hle]]. destruct (f y) eqn:Ef.
          + exists y. split; auto. apply filter_In; auto.
          + exfalso. eapply Hkill; eauto. }
      assert (HK : forall m, sker s2 m <-> sker s1 m).
      { intros m. unfold sker, s2, ker. simpl. rewrite A, B, C. split; intros [H1 H2]; split; auto.
        - rewrite <- HS; auto; try apply H1. intros v Hv. apply msm_lt_lcm; auto.
        - rewrite HS; auto; try apply H1. intros v Hv. apply msm_lt_lcm; auto. }
      constructor; auto.
      * intros m. unfold con. simpl. split; intros [m' [H1 H2]]; exists m'; split; auto; apply HK; auto.
      * unfold smu. apply (mu_le _ _ _ _ _ _ (fun m => m)); auto. unfold s2; simpl. rewrite A, B, C.
        intros m [Hl [Hb [H1 H2]]]. split; auto. split; auto. split; auto. rewrite <- HS; auto.
Qed.

Lemma simplify_spec : forall s, slice_ok s -> sndl s -> (0 < s_n s \/ s_S s = []) ->
  exists s' ch, msm_simplify s = Some (s', ch) /\
    slice_ok s' /\ sndl s' /\ same_con s s' /\ simplified_ideal (s_n s') (s_I s').
Proof.
  intros s Hok Hd Hn. unfold msm_simplify.
  destruct (applyLowerBound_spec s Hok Hd) as [s1 [c1 [-> [O1 [D1 [C1 [S1 Z1]]]]]]].
  destruct (sl_pruneSubtract s1) as [s2 c2] eqn:Ep.
  assert (Hn1 : 0 < s_n s1 \/ s_S s1 = []).
  { destruct (Nat.eq_dec (s_n s) 0) as [E0|E0].
    - rewrite (Z1 E0). auto.
    - left. rewrite (sc_n _ _ C1). lia. }
  destruct (pruneSubtract_spec s1 s2 c2 O1 D1 Hn1 Ep) as [O2 [D2 [C2 E2]]].
  exists s2, (c1 || c2). split; auto. split; auto. split; auto. split; [eapply same_trans; eauto|].
  rewrite (sc_n _ _ C2), E2. exact S1.
Qed.
