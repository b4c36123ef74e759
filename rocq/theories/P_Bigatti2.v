(** The base cases of the algorithm by Bigatti et al. *)
From Coq Require Import List Arith Bool ZArith Lia Permutation.
Import ListNotations.
From Verif Require Import Spec Spec_Hilbert M_Term M_Ideal M_Slice M_Msm M_Api M_Hilbert M_Poly M_Tasks M_Scarf M_Bigatti
  P_Term P_Ideal P_Msm2 P_Msm3 P_Hil1 P_Hil6 P_Scarf1 P_Bigatti1.
Local Open Scope nat_scope.

(** ** Univariate polynomials as lists of ints *)
Definition pv_sum (p : list Z) (f : nat -> Z) : Z := zsum (map (fun e => (nth e p 0 * f e)%Z) (seq 0 (length p))).
Definition norm (p : list Z) : Z := zsum (map (fun e => Z.abs (nth e p 0%Z)) (seq 0 (length p))).

Lemma sum_pad : forall (f : Z -> nat -> Z) p d, (forall e, f 0%Z e = 0%Z) ->
  zsum (map (fun e => f (nth e p 0%Z) e) (seq 0 (length p + d))) = zsum (map (fun e => f (nth e p 0%Z) e) (seq 0 (length p))).
Proof.
  intros f p d H. rewrite seq_app, map_app, zsum_app. rewrite (zsum_ext _ (fun _ => 0%Z) (seq (0 + length p) d)).
  - rewrite zsum_zero by auto. lia.
  - intros e He. apply in_seq in He. rewrite nth_overflow by lia. auto.
Qed.
Lemma sum_shift : forall (f : Z -> nat -> Z) p d,
  zsum (map (fun e => if e <? d then 0%Z else f (nth (e - d) p 0%Z) e) (seq 0 (length p + d))) =
  zsum (map (fun e => f (nth e p 0%Z) (e + d)) (seq 0 (length p))).
Proof.
  intros f p d. rewrite Nat.add_comm, seq_app, map_app, zsum_app. rewrite (zsum_ext _ (fun _ => 0%Z) (seq 0 d)).
  - rewrite zsum_zero by auto. rewrite Z.add_0_l. cbn [plus].
    assert (E : forall k a, seq (a + d) k = map (fun e => e + d) (seq a k)).
    { induction k as [|k IH]; intros a; cbn [seq map]; auto. f_equal. apply (IH (S a)). }
    rewrite (E (length p) 0 : seq d (length p) = _), map_map. apply zsum_ext. intros e He.
    rewrite (proj2 (Nat.ltb_ge _ _)) by lia. rewrite Nat.add_sub. auto.
  - intros e He. apply in_seq in He. rewrite (proj2 (Nat.ltb_lt _ _)) by lia. auto.
Qed.
Definition shifted_poly (p : list Z) (d : nat) : list Z :=
  map (fun e => (nth e p 0 - (if (e <? d)%nat then 0 else nth (e - d)%nat p 0))%Z) (seq 0 (length p + d)).
Lemma shifted_length : forall p d, length (shifted_poly p d) = length p + d.
Proof. intros. unfold shifted_poly. rewrite map_length, seq_length. auto. Qed.
Lemma shifted_nth : forall p d e, e < length p + d ->
  nth e (shifted_poly p d) 0%Z = (nth e p 0 - (if (e <? d)%nat then 0 else nth (e - d)%nat p 0))%Z.
Proof.
  intros p d e He. unfold shifted_poly.
  rewrite nth_indep with (d' := (fun e => (nth e p 0 - (if (e <? d)%nat then 0 else nth (e - d)%nat p 0))%Z) 0) by (rewrite map_length, seq_length; auto).
  rewrite (map_nth (fun e => (nth e p 0 - (if (e <? d)%nat then 0 else nth (e - d)%nat p 0))%Z)). rewrite seq_nth by auto. auto.
Qed.
Lemma shifted_sum : forall p d f, pv_sum (shifted_poly p d) f = (pv_sum p f - pv_sum p (fun e => f (e + d)%nat))%Z.
Proof.
  intros p d f. unfold pv_sum. rewrite shifted_length.
  rewrite <- (sum_pad (fun z e => (z * f e)%Z) p d) by (intros; lia).
  rewrite <- (sum_shift (fun z e => (z * f e)%Z) p d). rewrite <- zsum_sub. apply zsum_ext. intros e He. apply in_seq in He.
  rewrite shifted_nth by lia. destruct (e <? d); lia.
Qed.
Lemma zsum_le : forall (A : Type) (f g : A -> Z) l, (forall x, In x l -> (f x <= g x)%Z) -> (zsum (map f l) <= zsum (map g l))%Z.
Proof.
  intros A f g l. induction l as [|a l IH]; intros H; [reflexivity|]. cbn [map zsum fold_right].
  change (f a + zsum (map f l) <= g a + zsum (map g l))%Z. pose proof (H a (or_introl eq_refl)). specialize (IH (fun x Hx => H x (or_intror Hx))). lia.
Qed.
Lemma shifted_norm : forall p d, (norm (shifted_poly p d) <= 2 * norm p)%Z.
Proof.
  intros p d. unfold norm. rewrite shifted_length.
  pose proof (sum_pad (fun z _ => Z.abs z) p d ltac:(auto)) as A. pose proof (sum_shift (fun z _ => Z.abs z) p d) as B. cbn beta in A, B.
  assert (C : (zsum (map (fun e => Z.abs (nth e (shifted_poly p d) 0%Z)) (seq 0 (length p + d))) <=
    zsum (map (fun e => Z.abs (nth e p 0%Z) + (if (e <? d)%nat then 0 else Z.abs (nth (e - d) p 0%Z)))%Z (seq 0 (length p + d))))%Z).
  { apply zsum_le. intros e He. apply in_seq in He. rewrite shifted_nth by lia. destruct (e <? d); lia. }
  rewrite zsum_add in C. lia.
Qed.
Lemma norm_entry : forall p z, In z p -> (Z.abs z <= norm p)%Z.
Proof.
  intros p z Hz. apply (In_nth _ _ 0%Z) in Hz. destruct Hz as [i [Hi <-]]. unfold norm.
  assert (G : forall l, In i l -> (Z.abs (nth i p 0) <= zsum (map (fun e => Z.abs (nth e p 0%Z)) l))%Z).
  { induction l as [|a l IH]; [intros []|]; intros [->|H]; cbn [map]; change (zsum (?a :: ?l)) with (a + zsum l)%Z.
    - assert (0 <= zsum (map (fun e => Z.abs (nth e p 0%Z)) l))%Z; [|lia].
      clear. induction l as [|b l IH]; [reflexivity|]. cbn [map]. change (zsum (?a :: ?l)) with (a + zsum l)%Z. lia.
    - specialize (IH H). lia. }
  apply G. apply in_seq. lia.
Qed.
Lemma poly_shift_some : forall p d, (norm p <= 2 ^ 29)%Z -> poly_shift p d = Some (shifted_poly p d).
Proof.
  intros p d H. unfold poly_shift. fold (shifted_poly p d). cbv zeta. rewrite (proj2 (forallb_forall _ _)); auto.
  intros z Hz. apply norm_entry in Hz. pose proof (shifted_norm p d). unfold int_ok. change (2 ^ 29)%Z with 536870912%Z in H.
  apply andb_true_iff. split; apply Z.leb_le; lia.
Qed.
Fixpoint tay (w : nat -> Z) (ds : list nat) (D : nat) : Z :=
  match ds with [] => w D | d :: ds' => (tay w ds' D - tay w ds' (D + d)%nat)%Z end.
Lemma poly_product_spec : forall ds p, (norm p * 2 ^ Z.of_nat (length ds) <= 2 ^ 30)%Z ->
  exists p', poly_product p ds = Some p' /\ forall w, pv_sum p' w = pv_sum p (tay w ds).
Proof.
  induction ds as [|d ds IH]; intros p H; cbn [poly_product tay].
  - exists p. auto.
  - assert (N : (0 <= norm p)%Z).
    { unfold norm. clear. induction (seq 0 (length p)) as [|b l IH]; [reflexivity|]. cbn [map]. change (zsum (?a :: ?l)) with (a + zsum l)%Z. lia. }
    cbn [length] in H. rewrite Nat2Z.inj_succ, Z.pow_succ_r in H by lia.
    assert (P : (1 <= 2 ^ Z.of_nat (length ds))%Z) by (pose proof (Z.pow_pos_nonneg 2 (Z.of_nat (length ds))); lia).
    change (2 ^ 30)%Z with (2 * 2 ^ 29)%Z in H.
    rewrite poly_shift_some by nia. cbn [bind].
    destruct (IH (shifted_poly p d)) as [p' [A B]].
    + change (2 ^ 30)%Z with (2 * 2 ^ 29)%Z. pose proof (shifted_norm p d). nia.
    + exists p'. split; auto. intros w. rewrite B, shifted_sum. unfold pv_sum. rewrite <- zsum_sub. apply zsum_ext. intros e _. lia.
Qed.

(** ** Degrees of terms *)
Section Degree.
Variables (n : nat) (tr : translator) (K : nat -> nat) (phi : nat -> nat -> nat).
Definition okt (t : term) : Prop := length t = n /\ forall v, v < n -> t @ v < K v.
Definition tdeg (t : term) : Z := zsum (map (fun v => Z.of_nat (phi v (t @ v))) (seq 0 n)).
Hypothesis Htr : forall t, okt t -> tr_degree n tr t = Some (tdeg t).
Hypothesis phi_mono : forall v i j, v < n -> i <= j -> j < K v -> phi v i <= phi v j.

Lemma tdeg_le : forall a b, le_n n a b -> okt b -> (tdeg a <= tdeg b)%Z.
Proof. intros a b H [_ Hb]. apply zsum_le. intros v Hv. apply in_seq in Hv. specialize (H v ltac:(lia)). specialize (Hb v ltac:(lia)). pose proof (phi_mono v _ _ ltac:(lia) H Hb). lia. Qed.
Lemma tdeg_pos : forall a, (0 <= tdeg a)%Z.
Proof. intros a. unfold tdeg. induction (seq 0 n) as [|b l IH]; [reflexivity|]. cbn [map]. change (zsum (?a :: ?l)) with (a + zsum l)%Z. lia. Qed.

Record sok (s : bstate) : Prop := mk_sok {
  sok_wf : wf n (bs_I s); sok_minl : minl n (bs_I s); sok_q : length (bs_q s) = n; sok_qK : forall v, v < n -> bs_q s @ v < K v;
  sok_K : forall g v, In g (bs_I s) -> v < n -> g @ v + bs_q s @ v < K v }.

Definition uval (w : Z -> Z) (b : bout) : Z := match b with BOut p t => (sign p * w (tdeg t))%Z | BUni c d => (c * w d)%Z end.
Definition usum (w : Z -> Z) (out : list bout) : Z := zsum (map (uval w) out).
Lemma usum_app : forall w a b, usum w (a ++ b) = (usum w a + usum w b)%Z.
Proof. intros. unfold usum. rewrite map_app, zsum_app. auto. Qed.
Lemma usum_bouts : forall w o, usum w (bouts o) = fsum (fun t => w (tdeg t)) o.
Proof. intros. unfold usum, bouts, fsum. rewrite map_map. auto. Qed.
Definition bok (b : bout) : Prop := match b with BOut _ t => okt t | BUni _ d => (0 <= d)%Z end.
Record rep (uni : bool) (out : list bout) (o : list (bool * term)) : Prop := mk_rep {
  rep_multi : uni = false -> out = bouts o;
  rep_ok : Forall bok out;
  rep_oko : Forall (fun x => okt (snd x)) o;
  rep_sum : forall w, usum w out = fsum (fun t => w (tdeg t)) o }.
Lemma rep_app : forall uni a b o o', rep uni a o -> rep uni b o' -> rep uni (a ++ b) (o ++ o').
Proof.
  intros uni a b o o' [A1 A2 A3 A4] [B1 B2 B3 B4]. constructor.
  - intros H. rewrite A1, B1, bouts_app by auto. auto.
  - apply Forall_app; auto.
  - apply Forall_app; auto.
  - intros w. rewrite usum_app, fsum_app, A4, B4. auto.
Qed.
Lemma rep_bouts : forall uni o, Forall (fun x => okt (snd x)) o -> rep uni (bouts o) o.
Proof.
  intros uni o H. constructor; auto.
  - rewrite Forall_forall in *. intros b Hb. apply in_map_iff in Hb. destruct Hb as [x [<- Hx]]. apply (H x Hx).
  - intros w. apply (usum_bouts w o).
Qed.

(** ** The terms of the faces *)
Lemma faces_terms : forall bad (B : nat -> nat) L plus t, length t = n -> (forall v, v < n -> t @ v <= B v) ->
  (forall g v, In g L -> v < n -> g @ v <= B v) ->
  Forall (fun x => length (snd x) = n /\ forall v, v < n -> snd x @ v <= B v) (faces n bad plus t L).
Proof.
  intros bad B L. induction L as [|g L IH]; intros plus t Ht HB HL; cbn [faces]; [constructor; auto|].
  apply Forall_app. split.
  - destruct (bad (t_lcm n t g)); [constructor|]. apply IH; auto using t_lcm_length.
    + intros v Hv. rewrite t_lcm_nth by auto. specialize (HB v Hv). specialize (HL g v (or_introl eq_refl) Hv). lia.
    + intros; apply HL; simpl; auto.
  - apply IH; auto. intros; apply HL; simpl; auto.
Qed.
Lemma shift_okt : forall s bad, sok s -> Forall (fun x => okt (snd x)) (shift_out n (bs_q s) (faces n bad true (t_identity n) (bs_I s))).
Proof.
  intros s bad [Hw _ Hq HqK HK].
  pose proof (faces_terms bad (fun v => K v - bs_q s @ v - 1) (bs_I s) true (t_identity n) (t_identity_length n)) as H.
  rewrite Forall_forall in *. intros x Hx. apply in_map_iff in Hx. destruct Hx as [[b y] [<- Hy]]. cbn [snd].
  destruct (H ltac:(intros v Hv; rewrite t_identity_nth by auto; apply Nat.le_0_l) ltac:(intros g v Hg Hv; specialize (HK g v Hg Hv); cbn beta; lia) (b, y) Hy) as [A B]. cbn [snd] in *.
  split; auto using t_product_length. intros v Hv. rewrite t_product_nth by auto. specialize (B v Hv). cbn beta in B. specialize (HqK v Hv). lia.
Qed.

(** ** univariateAllFaces *)
Lemma one_positive_true : forall v L, one_positive v true L = true -> one_positive v false L = true.
Proof. intros v L. induction L as [|g L IH]; cbn [one_positive]; auto. destruct (0 <? g @ v); cbn [negb andb]; auto; discriminate. Qed.
Lemma taylor_disjoint : forall (w : Z -> Z) q, length q = n -> forall L t ds, length t = n ->
  (forall v, v < n -> one_positive v (0 <? t @ v) L = true) ->
  Forall2 (fun g d => tdeg (t_product n q g) = (tdeg q + Z.of_nat d)%Z) L ds ->
  forall D, tdeg (t_product n t q) = Z.of_nat D ->
  taylor n (fun x => w (tdeg (t_product n x q))) t L = tay (fun e => w (Z.of_nat e)) ds D.
Proof.
  intros w q Hq L. induction L as [|g L IH]; intros t ds Ht H F D HD; inversion F; subst; cbn [taylor tay].
  - rewrite HD. auto.
  - f_equal.
    + apply IH; auto. intros v Hv. specialize (H v Hv). cbn [one_positive] in H. destruct (0 <? g @ v); auto.
      apply andb_true_iff in H. destruct H as [A B]. apply negb_true_iff in A. rewrite A. apply one_positive_true; auto.
    + apply IH; auto using t_lcm_length.
      * intros v Hv. specialize (H v Hv). cbn [one_positive] in H. rewrite t_lcm_nth by auto. destruct (0 <? g @ v) eqn:G.
        -- apply andb_true_iff in H. destruct H as [A B]. apply Nat.ltb_lt in G. rewrite (proj2 (Nat.ltb_lt _ _)) by lia. auto.
        -- apply Nat.ltb_ge in G. replace (g @ v) with 0 by lia. rewrite Nat.max_0_r. auto.
      * rewrite Nat2Z.inj_add, <- HD.
        assert (E : tdeg (t_product n (t_lcm n t g) q) = (tdeg (t_product n t q) + (tdeg (t_product n q g) - tdeg q))%Z); [|lia].
        unfold tdeg. rewrite <- zsum_sub, <- zsum_add. apply zsum_ext. intros v Hv. apply in_seq in Hv. assert (Hv' : v < n) by lia.
        rewrite !t_product_nth, t_lcm_nth by auto. specialize (H v Hv'). cbn [one_positive] in H.
        destruct (0 <? g @ v) eqn:G.
        -- apply andb_true_iff in H. destruct H as [A _]. apply negb_true_iff, Nat.ltb_ge in A. replace (t @ v) with 0 by lia.
           rewrite Nat.max_0_l, (Nat.add_comm (q @ v)), Nat.add_0_l. lia.
        -- apply Nat.ltb_ge in G. replace (g @ v) with 0 by lia. rewrite Nat.max_0_r, Nat.add_0_r. lia.
Qed.
Lemma gen_degrees_spec : forall q L, okt q -> (forall g, In g L -> okt (t_product n q g) /\ (tdeg (t_product n q g) <= 1048576)%Z) ->
  exists ds, gen_degrees n tr q L = Some ds /\ Forall2 (fun g d => tdeg (t_product n q g) = (tdeg q + Z.of_nat d)%Z) L ds.
Proof.
  intros q L Hq. induction L as [|g L IH]; intros H; cbn [gen_degrees]; [exists []; auto|].
  destruct (H g (or_introl eq_refl)) as [A B]. destruct IH as [ds [C D]]; [intros; apply H; simpl; auto|].
  unfold gen_degree. rewrite (Htr _ A), (Htr _ Hq). cbn [bind]. cbv zeta.
  assert (L0 : (tdeg q <= tdeg (t_product n q g))%Z).
  { apply tdeg_le; auto. intros v Hv. rewrite t_product_nth by auto. lia. }
  pose proof (tdeg_pos q). unfold int_ok.
  rewrite (proj2 (Z.leb_le 0 _)), (proj2 (Z.leb_le (-2147483648) _)), (proj2 (Z.leb_le _ 2147483647)) by lia. cbn [andb bind]. rewrite C. cbn [bind].
  eexists. split; eauto. constructor; auto. rewrite Z2Nat.id by lia. lia.
Qed.
Lemma uni_all_spec : forall s, sok s -> univariateAllFaces n tr s = Some None \/
  exists out, univariateAllFaces n tr s = Some (Some out) /\
    rep true out (shift_out n (bs_q s) (faces n (bad_of n true (bs_I s)) true (t_identity n) (bs_I s))).
Proof.
  intros s Hs. pose proof Hs as [Hw Hm Hq HqK HK]. unfold univariateAllFaces. cbv zeta.
  destruct (i_disjointSupport n (bs_I s)) eqn:E1; cbn [negb]; auto. destruct (30 <? length (bs_I s)) eqn:E2; auto.
  assert (Hokq : okt (bs_q s)) by (split; auto).
  assert (Hl : okt (t_product n (i_lcm n (bs_I s)) (bs_q s))).
  { split; auto using t_product_length. intros v Hv. rewrite t_product_nth by auto.
    destruct (Nat.eq_dec (i_lcm n (bs_I s) @ v) 0) as [->|N]; [cbn; auto|].
    destruct (i_lcm_attained n (bs_I s) v Hv ltac:(lia)) as [g [Hg <-]]. auto. }
  rewrite (Htr _ Hl). cbn [bind].
  destruct (1024 * 1024 <? _)%Z eqn:E3; auto. destruct (2 ^ Z.of_nat _ <? _)%Z eqn:E4; auto. right.
  apply Z.ltb_ge in E3. change (1024 * 1024)%Z with 1048576%Z in E3.
  destruct (gen_degrees_spec (bs_q s) (bs_I s) Hokq) as [ds [A B]].
  { intros g Hg. split.
    - split; auto using t_product_length. intros v Hv. rewrite t_product_nth by auto. specialize (HK g v Hg Hv). lia.
    - etransitivity; [|exact E3]. apply tdeg_le; auto. intros v Hv. rewrite !t_product_nth by auto. pose proof (i_lcm_ge n (bs_I s) g v Hv Hg). lia. }
  rewrite A. cbn [bind]. apply Nat.ltb_ge in E2.
  assert (Ld : length ds = length (bs_I s)) by (clear - B; induction B; cbn; auto).
  destruct (poly_product_spec ds [1%Z]) as [p [C D]].
  { cbn [norm length seq map nth]. unfold norm. cbn [length seq map nth]. change (zsum [Z.abs 1]) with 1%Z. rewrite Z.mul_1_l. apply Z.pow_le_mono_r; lia. }
  rewrite C. cbn [bind]. rewrite (Htr _ Hokq). cbn [bind]. eexists. split; [reflexivity|]. constructor.
  - discriminate.
  - apply Forall_forall. intros b Hb. apply in_map_iff in Hb. destruct Hb as [e [<- He]]. cbn [bok]. pose proof (tdeg_pos (bs_q s)). lia.
  - apply shift_okt; auto.
  - intros w. rewrite (enumerate_sum n true s (fun t => w (tdeg t))). unfold usum. rewrite map_map. cbn [uval].
    set (d := tdeg (bs_q s)).
    transitivity (pv_sum p (fun e => w (Z.of_nat e + d)%Z)); [reflexivity|]. rewrite D. unfold pv_sum. cbn [length seq map nth].
    change (zsum [?x]) with (x + 0)%Z. pose proof (tdeg_pos (bs_q s)) as Pd. fold d in Pd.
    rewrite (taylor_disjoint w (bs_q s) Hq (bs_I s) (t_identity n) ds (t_identity_length n)) with (D := Z.to_nat d); auto.
    + assert (G : forall ds D D' w', (forall e, w' (e + D') = w (Z.of_nat (e + D))) ->
         tay w' ds D' = tay (fun e => w (Z.of_nat e)) ds D).
      { clear. induction ds as [|x ds IH]; intros D D' w' H; cbn [tay]; [apply (H 0)|]. f_equal.
        - apply IH; auto.
        - apply IH. intros e. rewrite (Nat.add_comm D'), (Nat.add_comm D), !Nat.add_assoc. apply H. }
      rewrite (G ds (Z.to_nat d) 0 (fun e => w (Z.of_nat e + d)%Z)); [lia|]. intros e. rewrite Nat.add_0_r, Nat2Z.inj_add, Z2Nat.id by lia. auto.
    + intros v Hv. rewrite t_identity_nth by auto. cbn [Nat.ltb Nat.leb]. unfold i_disjointSupport in E1. rewrite forallb_forall in E1. apply E1. apply in_seq. lia.
    + rewrite Z2Nat.id by lia. unfold d. f_equal. apply term_ext with n; auto using t_product_length. intros v Hv. rewrite t_product_nth, t_identity_nth by auto. lia.
Qed.
End Degree.
