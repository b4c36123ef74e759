(** The univariate Hilbert-Poincare series. *)
From Coq Require Import List Arith Bool ZArith Lia Permutation Sorted.
Import ListNotations.
From Verif Require Import Spec Spec_Slice Spec_Run Spec_Api Spec_Hilbert M_Term M_Ideal M_Slice M_Partition M_Msm M_Api M_Hilbert P_Term P_Ideal P_Bridge P_Msm3
  P_Process P_Corner P_Decomp P_Translator P_Internal P_Api P_Hil1 P_Hil6 P_Hil7.
Local Open Scope nat_scope.

(** ** Collecting by total degree *)
Definition wsum (w : Z -> Z) (p : list (Z * Z)) : Z := zsum (map (fun x => snd x * w (fst x))%Z p).
Definition good_poly (p : list (Z * Z)) : Prop := NoDup (map fst p) /\ Forall (fun x => snd x <> 0%Z) p.

Lemma uni_add_keys : forall c e p x, In x (map fst (uni_add c e p)) -> x = e \/ In x (map fst p).
Proof.
  induction p as [|[e' c'] p IH]; intros x; cbn [uni_add].
  - intros [<-|[]]. auto.
  - destruct (Z.eqb_spec e' e) as [->|N].
    + destruct (_ =? 0)%Z; cbn [map fst In]; intuition.
    + cbn [map fst In]. intros [<-|H]; auto. apply IH in H. intuition.
Qed.
Lemma uni_add_spec : forall c e p, c <> 0%Z -> good_poly p -> good_poly (uni_add c e p) /\
  forall w, wsum w (uni_add c e p) = (c * w e + wsum w p)%Z.
Proof.
  intros c e p Hc. unfold wsum. induction p as [|[e' c'] p IH]; intros [A B]; cbn [uni_add].
  - split; [split|].
    + repeat constructor. auto.
    + constructor; auto.
    + intros w. simpl. lia.
  - cbn [map fst] in A. inversion A as [|? ? A1 A2]; subst. inversion B as [|? ? B1 B2]; subst. cbn [snd] in B1.
    destruct (IH (conj A2 B2)) as [[G1 G2] W].
    destruct (Z.eqb_spec e' e) as [->|N].
    + destruct (Z.eqb_spec (c' + c) 0) as [Q|Q].
      * split; [split; auto|]. intros w. cbn [map zsum fst snd]. assert (c = - c')%Z by lia. subst c. ring.
      * split; [split|].
        -- cbn [map fst]. constructor; auto.
        -- constructor; auto.
        -- intros w. cbn [map zsum fst snd]. ring.
    + split; [split|].
      * cbn [map fst]. constructor; auto. intros Hi. apply uni_add_keys in Hi. intuition.
      * constructor; auto.
      * intros w. cbn [map zsum fst snd]. rewrite W. ring.
Qed.

Lemma uni_collect_gen : forall L p, good_poly p ->
  let r := fold_left (fun p x => uni_addNonZero (fst x) (total_degree (snd x)) p) L p in
  good_poly r /\ (forall x, In x (map fst r) -> In x (map fst p) \/ In x (map (fun x => total_degree (snd x)) L)) /\
  forall w, wsum w r = (zsum (map (fun x => fst x * w (total_degree (snd x))) L) + wsum w p)%Z.
Proof.
  induction L as [|[c v] L IH]; intros p Hp; cbn [fold_left].
  - split; auto.
  - cbn [fst snd]. set (p' := uni_addNonZero c (total_degree v) p).
    assert (H : good_poly p' /\ (forall x, In x (map fst p') -> In x (map fst p) \/ x = total_degree v) /\
       forall w, wsum w p' = (c * w (total_degree v) + wsum w p)%Z).
    { unfold p', uni_addNonZero. destruct (Z.eqb_spec c 0) as [->|N]; [split; auto|].
      destruct (uni_add_spec c (total_degree v) p N Hp) as [A B]. split; auto. split; auto.
      intros x Hx. apply uni_add_keys in Hx. intuition. }
    destruct H as [H1 [H2 H3]]. destruct (IH p' H1) as [A [B C]]. split; auto. split.
    + intros x Hx. cbn [map In fst snd]. apply B in Hx. destruct Hx as [Hx|Hx]; auto. apply H2 in Hx. intuition.
    + intros w. rewrite C, H3. cbn [map zsum fst snd]. lia.
Qed.
Lemma uni_collect_spec : forall L, let r := uni_collect L in
  good_poly r /\ (forall x, In x (map fst r) -> In x (map (fun x => total_degree (snd x)) L)) /\
  forall w, wsum w r = zsum (map (fun x => fst x * w (total_degree (snd x)))%Z L).
Proof.
  intros L. destruct (uni_collect_gen L [] ltac:(split; constructor)) as [A [B C]]. cbv zeta in *. split; [exact A|]. split.
  - intros x Hx. destruct (B x Hx) as [[]|H]; auto.
  - intros w. unfold uni_collect. rewrite C. unfold wsum. simpl. lia.
Qed.

Lemma total_degree_znat : forall m, total_degree (znat m) = Z.of_nat (degree m).
Proof. induction m as [|e m IH]; auto. unfold znat in *. cbn [map total_degree degree]. rewrite IH. lia. Qed.

Lemma wsum_single : forall p e, NoDup (map fst p) -> forall c, In (e, c) p ->
  wsum (fun x => if (x =? e)%Z then 1%Z else 0%Z) p = c.
Proof.
  unfold wsum. induction p as [|[e' c'] p IH]; intros e HN c Hi; [destruct Hi|].
  cbn [map fst] in HN. inversion HN as [|? ? A B]; subst. cbn [map zsum fst snd]. destruct Hi as [Q|Hi].
  - injection Q as -> ->. rewrite Z.eqb_refl.
    rewrite (zsum_ext _ (fun _ => 0%Z)); [rewrite zsum_zero; lia|].
    intros [e2 c2] H2. cbn [fst snd]. destruct (Z.eqb_spec e2 e) as [->|]; [|lia].
    exfalso. apply A. apply in_map_iff. exists (e, c2). auto.
  - rewrite (IH e B c Hi). destruct (Z.eqb_spec e' e) as [->|]; [|lia]. exfalso. apply A. apply in_map_iff. exists (e, c). auto.
Qed.
Lemma wsum_none : forall p e, ~ In e (map fst p) -> wsum (fun x => if (x =? e)%Z then 1%Z else 0%Z) p = 0%Z.
Proof.
  intros p e H. unfold wsum. rewrite (zsum_ext _ (fun _ => 0%Z)); [apply zsum_zero|].
  intros [e2 c2] H2. cbn [fst snd]. destruct (Z.eqb_spec e2 e) as [->|]; [|lia].
  exfalso. apply H. apply in_map_iff. exists (e, c2). auto.
Qed.
Lemma good_in : forall p e c, good_poly p -> In (e, c) p <-> c = wsum (fun x => if (x =? e)%Z then 1%Z else 0%Z) p /\ c <> 0%Z.
Proof.
  intros p e c [A B]. split.
  - intros Hi. rewrite (wsum_single p e A c Hi). split; auto. rewrite Forall_forall in B. apply (B (e, c) Hi).
  - intros [E N]. destruct (in_dec Z.eq_dec e (map fst p)) as [Hi|Hi].
    + apply in_map_iff in Hi. destruct Hi as [[e' c'] [Q Hi]]. cbn [fst] in Q. subst e'.
      rewrite (wsum_single p e A c' Hi) in E. subst. auto.
    + rewrite (wsum_none p e Hi) in E. contradiction.
Qed.

Lemma degree_coef_sum : forall p k, degree_coef p k = zsum (map (fun t => fst t * (if (degree (snd t) =? k)%nat then 1 else 0))%Z p).
Proof.
  induction p as [|[c d] p IH]; intros k; cbn [degree_coef map zsum fst snd]; auto. rewrite IH. destruct (_ =? k); lia.
Qed.

(** ** Monomials of given degree *)
Lemma monos_iff : forall n k m, In m (monos n k) <-> length m = n /\ degree m = k.
Proof.
  induction n as [|n IH]; intros k m; cbn [monos].
  - destruct (Nat.eqb_spec k 0) as [->|N].
    + split.
      * intros [<-|[]]. auto.
      * intros [H _]. apply length_zero_iff_nil in H. left; auto.
    + split; [intros []|]. intros [H E]. apply length_zero_iff_nil in H. subst m. simpl in E. lia.
  - rewrite in_flat_map. split.
    + intros [e [He H]]. apply in_map_iff in H. destruct H as [m' [<- H]]. apply IH in H. apply in_seq in He. simpl. lia.
    + destruct m as [|e m]; cbn [length degree]; intros [H E]; [lia|]. exists e. split; [apply in_seq; lia|]. apply in_map. apply IH. lia.
Qed.
Lemma monos_nodup : forall n k, NoDup (monos n k).
Proof.
  induction n as [|n IH]; intros k; cbn [monos].
  - destruct (k =? 0); repeat constructor; auto.
  - generalize (seq_NoDup (S k) 0). generalize (seq 0 (S k)). intros l. induction l as [|e l IHl]; intros H; simpl; [constructor|].
    inversion H; subst. apply NoDup_app_i; auto.
    + apply NoDup_map_inj; auto. intros x y _ _ Q. congruence.
    + intros x Hx Hy. apply in_map_iff in Hx. destruct Hx as [x' [<- _]]. apply in_flat_map in Hy. destruct Hy as [e' [He' Hy]].
      apply in_map_iff in Hy. destruct Hy as [y' [Q _]]. injection Q as -> _. contradiction.
Qed.

Fixpoint madd (a b : mono) : mono := match a, b with x :: a', y :: b' => x + y :: madd a' b' | _, _ => [] end.
Fixpoint msub (a b : mono) : mono := match a, b with x :: a', y :: b' => x - y :: msub a' b' | _, _ => [] end.
Lemma madd_spec : forall d m, length d = length m -> length (madd d m) = length d /\ degree (madd d m) = degree d + degree m /\ divsb d (madd d m) = true.
Proof.
  induction d as [|x d IH]; intros [|y m] H; simpl in *; try lia; auto.
  destruct (IH m ltac:(lia)) as [A [B C]]. rewrite A, B, C. split; auto. split; [lia|]. rewrite (proj2 (Nat.leb_le _ _)); auto. lia.
Qed.
Lemma madd_inj : forall d a b, length d = length a -> length d = length b -> madd d a = madd d b -> a = b.
Proof.
  induction d as [|x d IH]; intros [|y a] [|z b] H1 H2 E; simpl in *; try lia; auto. injection E as E1 E2. f_equal; [lia|]. apply IH; auto.
Qed.
Lemma msub_spec : forall d m, divsb d m = true -> length (msub m d) = length d /\ degree d + degree (msub m d) = degree m /\ madd d (msub m d) = m.
Proof.
  induction d as [|x d IH]; intros [|y m] H; simpl in *; try discriminate; auto.
  apply andb_true_iff in H. destruct H as [H1 H2]. apply Nat.leb_le in H1. destruct (IH m H2) as [A [B C]]. rewrite A, C. split; auto. split; [lia|].
  f_equal. lia.
Qed.
Lemma divsb_degree : forall d m, divsb d m = true -> degree d <= degree m.
Proof. intros d m H. destruct (msub_spec d m H). lia. Qed.

Lemma count_multiples : forall n k d, length d = n ->
  length (filter (divsb d) (monos n k)) = if degree d <=? k then length (monos n (k - degree d)) else 0.
Proof.
  intros n k d Hd. destruct (Nat.leb_spec (degree d) k) as [L|L].
  - rewrite <- (map_length (madd d) (monos n (k - degree d))). apply Permutation_length. apply NoDup_Permutation.
    + apply NoDup_filter, monos_nodup.
    + apply NoDup_map_inj; [apply monos_nodup|]. intros a b Ha Hb E. apply monos_iff in Ha, Hb. apply (madd_inj d); [lia|lia|auto].
    + intros m. rewrite filter_In, monos_iff, in_map_iff. split.
      * intros [[A B] C]. destruct (msub_spec d m C) as [S1 [S2 S3]]. exists (msub m d). split; auto. apply monos_iff. lia.
      * intros [m' [<- H]]. apply monos_iff in H. destruct (madd_spec d m' ltac:(lia)) as [A [B C]]. split; [lia|auto].
  - assert (E : filter (divsb d) (monos n k) = []); [|rewrite E; auto].
    destruct (filter (divsb d) (monos n k)) as [|m l] eqn:E; auto. exfalso. assert (Hi : In m (filter (divsb d) (monos n k))) by (rewrite E; left; auto).
    apply filter_In in Hi. destruct Hi as [A B]. apply monos_iff in A. apply divsb_degree in B. lia.
Qed.

Lemma zsum_indicator : forall {A} (f : A -> bool) (c : Z) l, zsum (map (fun x => if f x then c else 0%Z) l) = (c * Z.of_nat (length (filter f l)))%Z.
Proof. induction l as [|x l IH]; cbn [map zsum filter]; [simpl; lia|]. rewrite IH. destruct (f x); cbn [length]; lia. Qed.

Definition shifted (n k j : nat) : Z := if j <=? k then Z.of_nat (length (monos n (k - j))) else 0%Z.
Lemma series_sum : forall n k p, Forall (fun t => length (snd t) = n) p ->
  zsum (map (series_coef p) (monos n k)) = zsum (map (fun t => fst t * shifted n k (degree (snd t)))%Z p).
Proof.
  intros n k p H. induction H as [|[c d] p Hd Hp IH]; cbn [map zsum fst snd].
  - rewrite (zsum_ext _ (fun _ => 0%Z)) by reflexivity. apply zsum_zero.
  - rewrite (zsum_ext _ (fun m => (if divsb d m then c else 0) + series_coef p m)%Z) by reflexivity.
    rewrite zsum_add, IH, zsum_indicator. cbn [snd] in Hd. rewrite (count_multiples n k d Hd). unfold shifted. destruct (_ <=? k); lia.
Qed.
Lemma uni_series_sum : forall n q k, uni_series n q k = zsum (map (fun t => fst t * shifted n k (snd t))%Z q).
Proof.
  induction q as [|[c j] q IH]; intros k; cbn [uni_series map zsum fst snd]; auto. rewrite IH. unfold shifted. destruct (_ <=? k); lia.
Qed.

(** ** The API function *)
Definition to_q (r : list (Z * Z)) : list (Z * nat) := map (fun x => (snd x, Z.to_nat (fst x))) r.
Definition sorted_poly (r : list (Z * Z)) := std_sort (fun a b => (fst b <? fst a)%Z) r.

Lemma sorted_desc : forall r, good_poly r -> (forall x, In x (map fst r) -> (0 <= x)%Z) -> descending (to_q (sorted_poly r)).
Proof.
  intros r [A B] HP. set (s := sorted_poly r).
  assert (P : Permutation s r) by apply std_sort_perm.
  assert (S0 : StronglySorted (before (fun a b : Z * Z => (fst b <? fst a)%Z)) s).
  { apply std_sort_sorted; unfold before; intros.
    - apply Z.ltb_lt in H. apply Z.ltb_ge. lia.
    - apply Z.ltb_ge in H, H0. apply Z.ltb_ge. lia. }
  assert (N : NoDup (map fst s)) by (apply (Permutation_NoDup (Permutation_map fst (Permutation_sym P))); auto).
  assert (B' : Forall (fun x => snd x <> 0%Z) s) by (apply (Permutation_Forall (Permutation_sym P)); auto).
  assert (HP' : forall x, In x (map fst s) -> (0 <= x)%Z).
  { intros x Hx. apply HP. apply (Permutation_in x (Permutation_map fst P)). auto. }
  clearbody s. clear -S0 N B' HP'. induction s as [|[e c] s IH]; cbn [to_q map]; [exact Logic.I|].
  inversion S0; subst. cbn [map fst] in N. inversion N; subst. inversion B'; subst. cbn [map fst In] in HP'.
  cbn [descending snd fst]. split; auto. split.
  - apply Forall_forall. intros t Ht. apply in_map_iff in Ht. destruct Ht as [[e' c'] [<- Ht]]. cbn [snd fst].
    rewrite Forall_forall in H2. specialize (H2 _ Ht). unfold before in H2. cbn [fst] in H2. apply Z.ltb_ge in H2.
    assert (In e' (map fst s)) by (apply in_map_iff; exists (e', c'); auto).
    assert (e' <> e) by (intros ->; contradiction). pose proof (HP' e' ltac:(auto)). pose proof (HP' e ltac:(auto)). lia.
  - apply IH; auto.
Qed.

Lemma hil_univariate : forall c rnd n I J, legal_hilbert_config c -> in_ring n I -> internal n I J -> exists out p q,
  hil_run c rnd n J = Some out /\ translate_coefs n (tr_initialize n I) out = Some (map (fun t => (fst t, znat (snd t))) p) /\
  normal_poly n p /\ multigraded_numerator n I p /\
  uni_feed (uni_collect (map (fun t => (fst t, znat (snd t))) p)) = map (fun t => (fst t, znat (snd t))) (uni_poly q) /\
  descending q /\ (forall x k, In (x, k) q <-> x = degree_coef p k /\ x <> 0%Z) /\ univariate_numerator n I q.
Proof.
  intros c rnd n I J Hc Hr HJ. destruct (hil_api c rnd n I J Hc Hr HJ) as [out [A [B [C D]]]].
  set (p := map (fun t => (fst t, image n (P_Translator.phi I) (snd t))) out) in *.
  set (L := map (fun t => (fst t, znat (snd t))) p) in *.
  destruct (uni_collect_spec L) as [G [KE W]]. set (r := uni_collect L) in *.
  assert (HP : forall x, In x (map fst r) -> (0 <= x)%Z).
  { intros x Hx. apply KE in Hx. apply in_map_iff in Hx. destruct Hx as [[c0 v] [<- Hx]]. cbn [snd].
    unfold L in Hx. apply in_map_iff in Hx. destruct Hx as [[c1 d] [Q _]]. injection Q as _ <-. rewrite total_degree_znat. cbn [snd]. lia. }
  assert (WL : forall w, wsum w r = zsum (map (fun t => fst t * w (Z.of_nat (degree (snd t))))%Z p)).
  { intros w. rewrite W. unfold L. rewrite map_map. apply zsum_ext. intros [c0 d] _. cbn [fst snd]. rewrite total_degree_znat. auto. }
  exists out, p, (to_q (sorted_poly r)).
  assert (PS : Permutation (sorted_poly r) r) by apply std_sort_perm.
  split; [exact A|]. split; [exact B|]. split; [exact C|]. split; [exact D|]. fold L. fold r. split; [|split; [|split]].
  - unfold uni_feed. fold (sorted_poly r). unfold uni_poly, to_q. rewrite !map_map. apply map_ext_in. intros [e x] Hi. cbn [fst snd znat map].
    rewrite Z2Nat.id; auto. apply HP. apply in_map_iff. exists (e, x). split; auto. apply (Permutation_in _ PS). auto.
  - apply sorted_desc; auto.
  - intros x k. assert (E : degree_coef p k = wsum (fun e => if (e =? Z.of_nat k)%Z then 1%Z else 0%Z) r).
    { rewrite WL, degree_coef_sum. apply zsum_ext. intros [c0 d] _. cbn [fst snd].
      destruct (Nat.eqb_spec (degree d) k), (Z.eqb_spec (Z.of_nat (degree d)) (Z.of_nat k)); lia. }
    rewrite E. rewrite <- (good_in r (Z.of_nat k) x G). unfold to_q. rewrite in_map_iff. split.
    + intros [[e y] [Q Hi]]. cbn [fst snd] in Q. injection Q as -> Ek. apply (Permutation_in _ PS) in Hi.
      assert (In e (map fst r)) by (apply in_map_iff; exists (e, x); auto). rewrite <- Ek, Z2Nat.id by auto. auto.
    + intros Hi. exists (Z.of_nat k, x). cbn [fst snd]. rewrite Nat2Z.id. split; auto. apply (Permutation_in _ (Permutation_sym PS)). auto.
  - intros k. set (std := fun m => (series_coef p m =? 1)%Z). exists (filter std (monos n k)).
    assert (HS : forall m, length m = n -> (series_coef p m = if std m then 1%Z else 0%Z) /\ (std m = true <-> ~ in_ideal I m)).
    { intros m Hm. destruct (D m Hm) as [D1 D2]. unfold std. destruct (in_ideal_dec I m) as [H|H].
      - rewrite (D1 H). split; auto. cbn. intuition discriminate.
      - rewrite (D2 H). cbn. intuition. }
    split; [apply NoDup_filter, monos_nodup|]. split.
    + intros m. rewrite filter_In, monos_iff. split.
      * intros [[M1 M2] M3]. split; auto. split; auto. apply HS; auto.
      * intros [M1 [M2 M3]]. split; auto. apply HS; auto.
    + rewrite uni_series_sum. unfold to_q. rewrite map_map. cbn [fst snd].
      rewrite (zsum_perm _ (map (fun x => snd x * shifted n k (Z.to_nat (fst x)))%Z r)) by (apply Permutation_map; auto).
      change (zsum (map (fun x : Z * Z => (snd x * shifted n k (Z.to_nat (fst x)))%Z) r)) with (wsum (fun e => shifted n k (Z.to_nat e)) r).
      rewrite WL. rewrite (zsum_ext _ (fun t => fst t * shifted n k (degree (snd t)))%Z) by (intros; rewrite Nat2Z.id; auto).
      rewrite <- series_sum.
      * rewrite (zsum_ext _ (fun m => if std m then 1%Z else 0%Z)).
        -- rewrite zsum_indicator. rewrite Z.mul_1_l. reflexivity.
        -- intros m Hm. apply monos_iff in Hm. apply HS. tauto.
      * destruct C as [_ C]. eapply Forall_impl; [|exact C]. intros t [_ H]; auto.
Qed.

Lemma p_univariate : forall c rnd n I, legal_hilbert_config c -> in_ring n I -> exists p q,
  api_multigradedHilbertPoincareSeries c rnd n I = Some (poly_block n p) /\
  api_univariateHilbertPoincareSeries c rnd n I = Some (poly_block 1 (uni_poly q)) /\
  descending q /\ (forall x k, In (x, k) q <-> x = degree_coef p k /\ x <> 0%Z) /\ univariate_numerator n I q.
Proof.
  intros c rnd n I Hc Hr. destruct (hil_univariate c rnd n I (P_Translator.J1 n I) Hc Hr (J1_internal n I (proj1 (in_ring_wf n I) Hr))) as (out & p & q & A & B & C & D & E & F).
  exists p, q. split; [|split; [|exact F]].
  - unfold api_multigradedHilbertPoincareSeries, setIdeal. cbv zeta. cbn [co_n co_ideal co_tr]. fold (P_Translator.J0 n I). fold (P_Translator.J1 n I).
    rewrite A. cbn [bind]. rewrite B. cbn [bind]. unfold emit_poly, poly_block. rewrite !map_map. reflexivity.
  - unfold api_univariateHilbertPoincareSeries, setIdeal. cbv zeta. cbn [co_n co_ideal co_tr]. fold (P_Translator.J0 n I). fold (P_Translator.J1 n I).
    rewrite A. cbn [bind]. rewrite B. cbn [bind]. rewrite E. unfold emit_poly, poly_block. rewrite !map_map. reflexivity.
Qed.

(** ** The coefficients as alternating sums *)
Lemma divs_divsb : forall a b, divs a b <-> divsb a b = true.
Proof.
  unfold divs. induction a as [|x a IH]; intros [|y b]; simpl; split; try discriminate; auto; try (intros H; inversion H; fail).
  - intros H. inversion H; subst. apply andb_true_iff. split; [apply Nat.leb_le; auto|apply IH; auto].
  - intros H. apply andb_true_iff in H. destruct H as [A B]. constructor; [apply Nat.leb_le; auto|apply IH; auto].
Qed.
Lemma in_idealb_iff : forall I m, in_idealb I m = true <-> in_ideal I m.
Proof.
  intros I m. unfold in_idealb. rewrite existsb_exists. split; intros [g [A B]]; exists g; split; auto; apply divs_divsb; auto.
Qed.
Lemma zsum_map_opp : forall (f : Z * mono -> Z) l, zsum (map (fun x => (- f x)%Z) l) = (- zsum (map f l))%Z.
Proof. induction l as [|x l IH]; cbn [map zsum]; [lia|]. rewrite IH. lia. Qed.
Lemma quotients_bd : forall m (f : mono -> Z), zsum (map (fun t => fst t * f (snd t))%Z (signed_quotients m)) = bd m f.
Proof.
  induction m as [|e m IH]; intros f; cbn [signed_quotients bd]; [cbn [map zsum fst snd]; lia|].
  rewrite map_app, zsum_app. unfold Z.sub. f_equal.
  - transitivity (zsum (map (fun t => fst t * f (e :: snd t))%Z (signed_quotients m))); [|exact (IH (fun x => f (e :: x)))].
    rewrite map_map. apply zsum_ext. intros t _. cbn [fst snd]. auto.
  - destruct e as [|e']; [reflexivity|].
    transitivity (- (zsum (map (fun t => fst t * f (e' :: snd t))%Z (signed_quotients m))))%Z; [|f_equal; exact (IH (fun x => f (e' :: x)))].
    rewrite map_map, <- zsum_map_opp. apply zsum_ext. intros t _. cbn [fst snd]. lia.
Qed.
Lemma alternating_bd : forall I m, alternating_sum I m = bd m (fun x => if in_idealb I x then 0%Z else 1%Z).
Proof.
  intros I m. rewrite <- quotients_bd. unfold alternating_sum. induction (signed_quotients m) as [|[c d] l IH]; auto.
  cbn [filter map zsum fst snd]. destruct (in_idealb I d); cbn [negb sum_signs fst]; rewrite IH; lia.
Qed.
Lemma p_coefficients : forall c rnd n I, legal_hilbert_config c -> in_ring n I -> exists p,
  api_multigradedHilbertPoincareSeries c rnd n I = Some (poly_block n p) /\ normal_poly n p /\ (forall x m, In (x, m) p <-> length m = n /\ x = alternating_sum I m /\ x <> 0%Z) /\ multigraded_numerator n I p.
Proof.
  intros c rnd n I Hc Hr. destruct (p_multigraded c rnd n I Hc Hr) as [p [A [B C]]]. exists p. split; auto. split; auto. split; auto.
  assert (E : forall m, length m = n -> coef_at p m = alternating_sum I m).
  { intros m Hm. rewrite <- bd_series, alternating_bd. apply bd_ext. intros x Hx. destruct (C x ltac:(congruence)) as [C1 C2].
    destruct (in_idealb I x) eqn:Q; [apply C1, in_idealb_iff; auto|]. apply C2. intros H. apply in_idealb_iff in H. congruence. }
  destruct B as [B1 B2]. rewrite Forall_forall in B2. intros x m. split.
  - intros Hi. destruct (B2 _ Hi) as [N L]. cbn [fst snd] in *. split; auto. split; auto. rewrite <- E by auto. symmetry. apply coef_at_in; auto.
  - intros [L [Q N]]. assert (Hm : In m (map snd p)) by (apply coef_at_nz; rewrite E by auto; congruence).
    apply in_map_iff in Hm. destruct Hm as [[y m'] [Qm Hi]]. cbn [snd] in Qm. subst m'.
    pose proof (coef_at_in p y m B1 Hi) as Ey. rewrite E in Ey by auto. replace x with y by congruence. auto.
Qed.
