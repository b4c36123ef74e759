(** Consequences of having an irredundant irreducible decomposition: uniqueness, Alexander duals,
    associated primes. *)
From Coq Require Import List Arith Bool Lia Permutation.
Import ListNotations.
From Verif Require Import Spec M_Term M_Ideal P_Term P_Ideal P_Bridge P_Corner.

Lemma in_irr_dec : forall c m, in_irreducible c m \/ ~ in_irreducible c m.
Proof.
  intros c m. destruct (existsb (fun v => (0 <? c @ v) && (c @ v <=? m @ v)) (seq 0 (length c))) eqn:E.
  - left. apply existsb_seq in E. destruct E as [v [Hv H]]. apply andb_true_iff in H. destruct H as [A B].
    apply Nat.ltb_lt in A. apply Nat.leb_le in B. exists v. auto.
  - right. intros [v [A B]]. rewrite not_true_false in E. apply E. apply existsb_seq. exists v.
    apply Nat.ltb_lt in A as A'. apply Nat.leb_le in B as B'. rewrite A', B'. split; auto.
    destruct (Nat.lt_ge_cases v (length c)); auto. rewrite nth_overflow in A by auto. lia.
Qed.

Lemma not_all_irr : forall D m, ~ (forall c, In c D -> in_irreducible c m) -> exists c, In c D /\ ~ in_irreducible c m.
Proof.
  induction D as [|c D IH]; intros m H; [exfalso; apply H; intros c []|].
  destruct (in_irr_dec c m) as [Hy|Hn]; [|exists c; simpl; auto].
  destruct (IH m) as [c' [A B]]; [|exists c'; simpl; auto].
  intros Hall. apply H. intros c' [->|Hc']; auto.
Qed.

Lemma in_irr_mono : forall n c m m', length c = n -> le_n n m m' -> in_irreducible c m -> in_irreducible c m'.
Proof.
  intros n c m m' Hl Hle [v [A B]]. exists v. split; auto. destruct (Nat.lt_ge_cases v n) as [Hv|Hv].
  - specialize (Hle v Hv). lia.
  - rewrite nth_overflow in A by lia. lia.
Qed.

(** a bound on all entries *)
Definition maxe (D : list mono) : nat := fold_right Nat.max 0 (map (fun c => fold_right Nat.max 0 c) D).
Lemma fold_max_nth : forall c v, c @ v <= fold_right Nat.max 0 c.
Proof. induction c as [|x c IH]; intros [|v]; simpl; try lia. specialize (IH v). lia. Qed.
Lemma maxe_ge : forall D c v, In c D -> c @ v <= maxe D.
Proof.
  unfold maxe. induction D as [|d D IH]; intros c v H; [destruct H|]. simpl. destruct H as [->|H].
  - pose proof (fold_max_nth c v). lia.
  - specialize (IH c v H). lia.
Qed.

Section D.
Variables (n : nat) (I D : list mono).
Hypothesis HD : irreducible_decomposition n I D.

Lemma d_len : forall c, In c D -> length c = n.
Proof. destruct HD as [A _]. apply in_ring_wf in A. exact A. Qed.

Lemma d_out : forall m, length m = n -> (~ in_ideal I m <-> exists c, In c D /\ ~ in_irreducible c m).
Proof.
  intros m Hm. destruct HD as [_ [_ [H _]]]. rewrite (H m Hm). split.
  - apply not_all_irr.
  - intros [c [A B]] Hall. auto.
Qed.

Lemma d_in : forall m, length m = n -> in_ideal I m -> forall c, In c D -> in_irreducible c m.
Proof. intros m Hm. destruct HD as [_ [_ [H _]]]. exact (proj1 (H m Hm)). Qed.

Lemma d_dec : forall m, length m = n -> in_ideal I m \/ ~ in_ideal I m.
Proof.
  intros m Hm. destruct HD as [_ [_ [H _]]]. rewrite (H m Hm).
  assert (G : forall L, (forall c, In c L -> in_irreducible c m) \/ exists c, In c L /\ ~ in_irreducible c m).
  { induction L as [|c L IH]; [left; intros c []|]. destruct (in_irr_dec c m) as [Hy|Hn].
    - destruct IH as [Ha|[c' [A B]]]; [left; intros c' [<-|Hc]; auto|right; exists c'; simpl; auto].
    - right. exists c. simpl. auto. }
  destruct (G D) as [A|[c [A B]]]; auto.
Qed.

(** the sharpest witness for a component *)
Definition witness (N : nat) (c : mono) : mono := tabulate n (fun v => if c @ v =? 0 then N else c @ v - 1).

Lemma witness_len : forall N c, length (witness N c) = n.
Proof. intros. apply tabulate_length. Qed.

Lemma witness_out : forall N c, In c D -> ~ in_irreducible c (witness N c).
Proof.
  intros N c Hc. apply not_in_irr with n; [apply d_len; auto|]. intros v Hv Hp. unfold witness.
  rewrite tabulate_nth by auto. destruct (Nat.eqb_spec (c @ v) 0); lia.
Qed.

Lemma witness_others : forall c, In c D -> exists N0, forall N, N0 <= N -> forall c', In c' D -> c' <> c -> in_irreducible c' (witness N c).
Proof.
  intros c Hc. pose proof HD as [_ [_ [_ Hw]]]. destruct (Hw c Hc) as [m [Hm [Hn Ho]]].
  exists (maxe [m]). intros N HN c' Hc' Hne. apply in_irr_mono with (n := n) (m := m); auto; [apply d_len; auto|].
  intros v Hv. unfold witness. rewrite tabulate_nth by auto.
  pose proof (maxe_ge [m] m v (or_introl eq_refl)).
  destruct (Nat.eqb_spec (c @ v) 0) as [E|E]; [lia|].
  assert (Hni : ~ in_irreducible c m).
  { intros Hi. apply Hn. destruct HD as [_ [_ [H' _]]]. apply H'; auto. intros c0 H0.
    destruct (list_eq_dec Nat.eq_dec c0 c) as [->|]; auto. }
  rewrite (not_in_irr n) in Hni by (apply d_len; auto). specialize (Hni v Hv ltac:(lia)). lia.
Qed.

Lemma witness_times : forall N c v, In c D -> (forall c', In c' D -> c' <> c -> in_irreducible c' (witness N c)) ->
  v < n -> 0 < c @ v -> in_ideal I (times_var (witness N c) v).
Proof.
  intros N c v Hc Ho Hv Hp. destruct HD as [_ [_ [H _]]]. apply H; [rewrite times_var_length; apply witness_len|].
  intros c' Hc'. destruct (list_eq_dec Nat.eq_dec c' c) as [->|Hne].
  - exists v. split; auto. rewrite times_var_nth by (rewrite witness_len; auto). rewrite Nat.eqb_refl.
    unfold witness. rewrite tabulate_nth by auto. destruct (Nat.eqb_spec (c @ v) 0); lia.
  - apply in_irr_mono with (n := n) (m := witness N c); auto; [apply d_len; auto|].
    intros w Hw. rewrite times_var_nth by (rewrite witness_len; auto). destruct (w =? v); lia.
Qed.
End D.

(** ** Uniqueness *)
Lemma decomp_incl : forall n I I' D D', irreducible_decomposition n I D -> irreducible_decomposition n I' D' ->
  same_ideal n I I' -> incl D D'.
Proof.
  intros n I I' D D' HD HD' HS c Hc.
  destruct (witness_others n I D HD c Hc) as [N0 HN0].
  set (N := Nat.max N0 (maxe D')).
  assert (Ho : forall c', In c' D -> c' <> c -> in_irreducible c' (witness n N c)) by (apply HN0; lia).
  assert (Hni : ~ in_ideal I' (witness n N c)).
  { intros Hi. apply HS in Hi; [|apply witness_len].
    apply (witness_out n I D HD N c Hc). apply (d_in n I D HD); auto using witness_len. }
  apply (d_out n I' D' HD') in Hni; [|apply witness_len]. destruct Hni as [c' [Hc' Hn']].
  assert (E : c' = c); [|subst; auto].
  pose proof (d_len n I D HD c Hc) as L. pose proof (d_len n I' D' HD' c' Hc') as L'.
  rewrite (not_in_irr n) in Hn' by auto.
  apply term_ext with n; auto. intros v Hv.
  destruct (Nat.eq_dec (c @ v) 0) as [E0|E0].
  - destruct (Nat.eq_dec (c' @ v) 0) as [|Hp]; [lia|]. specialize (Hn' v Hv ltac:(lia)).
    unfold witness in Hn'. rewrite tabulate_nth in Hn' by auto. rewrite E0 in Hn'. simpl in Hn'.
    pose proof (maxe_ge D' c' v Hc'). lia.
  - assert (Hin : in_ideal I' (times_var (witness n N c) v)).
    { apply HS; [rewrite times_var_length; apply witness_len|]. apply (witness_times n I D HD); auto. lia. }
    apply (d_in n I' D' HD') with (c := c') in Hin; auto; [|rewrite times_var_length; apply witness_len].
    apply (in_irr_iff n) in Hin; auto. destruct Hin as [w [Hw [Hp Hle]]].
    rewrite times_var_nth in Hle by (rewrite witness_len; auto). specialize (Hn' w Hw Hp).
    destruct (Nat.eqb_spec w v) as [->|]; [|lia]. unfold witness in *. rewrite tabulate_nth in * by auto.
    destruct (Nat.eqb_spec (c @ v) 0); lia.
Qed.

Lemma decomp_unique : forall n I I' D D', irreducible_decomposition n I D -> irreducible_decomposition n I' D' ->
  same_ideal n I I' -> Permutation D D'.
Proof.
  intros n I I' D D' HD HD' HS. apply NoDup_Permutation; [apply HD|apply HD'|]. intros c. split.
  - eapply decomp_incl; eauto.
  - eapply decomp_incl; eauto. intros m Hm. symmetry. apply HS; auto.
Qed.

(** ** Alexander dual *)
(** pointwise reflection of a component *)
Definition reflect_pt (n : nat) (a c : mono) : mono := tabulate n (fun v => if c @ v =? 0 then 0 else a @ v + 1 - c @ v).

Lemma sub_len : forall n a m, length (tabulate n (fun v => a @ v - m @ v)) = n.
Proof. intros. apply tabulate_length. Qed.

(** m is in the dual iff a - m (truncated) is outside the ideal *)
Lemma dual_iff : forall n I a m, wf n I -> (in_alexander_dual I a m <-> ~ in_ideal I (tabulate n (fun v => a @ v - m @ v))).
Proof.
  intros n I a m Hw. split.
  - intros H Hi. apply (in_ideal_iff n) in Hi; auto using sub_len. destruct Hi as [g [Hg Hle]].
    destruct (H g Hg) as [v [Hp Hv]]. destruct (Nat.lt_ge_cases v n) as [Hvn|Hvn].
    + specialize (Hle v Hvn). rewrite tabulate_nth in Hle by auto. lia.
    + rewrite nth_overflow in Hp by (rewrite Hw; auto). lia.
  - intros H g Hg. destruct (not_le_n n g (tabulate n (fun v => a @ v - m @ v))) as [v [Hv L]].
    + intros Hle. apply H. apply (in_ideal_iff n); auto using sub_len. exists g. auto.
    + rewrite tabulate_nth in L by auto. exists v. lia.
Qed.

Lemma reflect_minl : forall n I D a, irreducible_decomposition n I D -> (forall c, In c D -> le_n n c a) ->
  minl n (map (reflect_pt n a) D).
Proof.
  intros n I D a HD Hle.
  assert (Hanti : forall c c', In c D -> In c' D -> le_n n (reflect_pt n a c) (reflect_pt n a c') -> c = c').
    { intros c c' Hc Hc' H. destruct (list_eq_dec Nat.eq_dec c c') as [|Hne]; auto. exfalso.
      pose proof (d_len n I D HD c Hc) as L. pose proof (d_len n I D HD c' Hc') as L'.
      destruct (witness_others n I D HD c' Hc') as [N0 HN0]. specialize (HN0 N0 (Nat.le_refl _) c Hc Hne).
      pose proof (witness_out n I D HD N0 c' Hc') as Ho. apply Ho.
      apply (in_irr_iff n) in HN0; auto. destruct HN0 as [v [Hv [Hp Hl]]].
      specialize (H v Hv). unfold reflect_pt in H. rewrite !tabulate_nth in H by auto.
      pose proof (Hle c Hc v Hv). pose proof (Hle c' Hc' v Hv).
      apply (in_irr_iff n); auto. exists v. split; auto.
      destruct (Nat.eqb_spec (c @ v) 0); [lia|]. destruct (Nat.eqb_spec (c' @ v) 0); lia. }
    assert (G : forall l, incl l D -> NoDup l -> NoDup (map (reflect_pt n a) l)).
    { induction l as [|c l IH]; intros Hi Hn; simpl; constructor; inversion Hn; subst.
      - intros Hin. apply in_map_iff in Hin. destruct Hin as [c' [E Hc']].
        assert (c = c'); [|congruence]. apply Hanti; [apply Hi; left; auto|apply Hi; right; auto|]. rewrite E. apply le_n_refl.
      - apply IH; auto. intros x Hx. apply Hi. right. auto. }
    split.
    - apply G; [apply incl_refl|apply HD].
    - intros g h Hg Hh H. apply in_map_iff in Hg. apply in_map_iff in Hh. destruct Hg as [c [<- Hc]]. destruct Hh as [c' [<- Hc']].
      rewrite (Hanti c c'); auto.
Qed.

Lemma dual_gens : forall n I D a, wf n I -> irreducible_decomposition n I D -> length a = n ->
  (forall c, In c D -> le_n n c a) ->
  NoDup (map (reflect_pt n a) D) /\ (forall e, In e (map (reflect_pt n a) D) <-> minimal_in n (in_alexander_dual I a) e) /\
  forall m, length m = n -> (in_ideal (map (reflect_pt n a) D) m <-> in_alexander_dual I a m).
Proof.
  intros n I D a Hw HD Ha Hle.
  pose proof (reflect_minl n I D a HD Hle) as Hmin.
  assert (Hwf : wf n (map (reflect_pt n a) D)).
  { intros e He. apply in_map_iff in He. destruct He as [c [<- _]]. apply tabulate_length. }
  assert (Hmem : forall m, length m = n -> (in_alexander_dual I a m <-> inI n (map (reflect_pt n a) D) m)).
  { intros m Hm. rewrite (dual_iff n) by auto. rewrite (d_out n I D HD) by apply sub_len. split.
    + intros [c [Hc Hn]]. exists (reflect_pt n a c). split; [apply in_map; auto|]. intros v Hv.
      unfold reflect_pt. rewrite tabulate_nth by auto. destruct (Nat.eqb_spec (c @ v) 0); [lia|].
      rewrite (not_in_irr n) in Hn by (apply (d_len n I D HD); auto). specialize (Hn v Hv ltac:(lia)).
      rewrite tabulate_nth in Hn by auto. lia.
    + intros [e [He Hl]]. apply in_map_iff in He. destruct He as [c [<- Hc]]. exists c. split; auto.
      apply (not_in_irr n); [apply (d_len n I D HD); auto|]. intros v Hv Hp. rewrite tabulate_nth by auto.
      specialize (Hl v Hv). unfold reflect_pt in Hl. rewrite tabulate_nth in Hl by auto.
      pose proof (Hle c Hc v Hv). destruct (Nat.eqb_spec (c @ v) 0); lia. }
  destruct (minl_minimal_in n (in_alexander_dual I a) _ Hwf Hmin Hmem) as [G1 G2]. split; auto. split; auto.
  intros m Hm. rewrite (in_ideal_iff n) by auto. symmetry. apply Hmem. auto.
Qed.

(** dual of the dual *)
Lemma dual_dual : forall n I L a m, wf n I -> wf n L -> (forall g, In g I -> le_n n g a) \/ (forall g, minimal_generator n I g -> le_n n g a) ->
  (forall m, length m = n -> in_ideal I m \/ ~ in_ideal I m) ->
  (forall m, length m = n -> (in_ideal L m <-> in_alexander_dual I a m)) -> length m = n ->
  (forall m, length m = n -> in_ideal I m -> exists g, minimal_generator n I g /\ le_n n g m) ->
  (in_alexander_dual L a m <-> in_ideal I m).
Proof.
  intros n I L a m Hw HL Ha Hdec HLd Hm Hmin. rewrite (dual_iff n) by auto. rewrite HLd by apply sub_len.
  rewrite (dual_iff n) by auto.
  set (m' := tabulate n (fun v => a @ v - (tabulate n (fun v0 => a @ v0 - m @ v0)) @ v)).
  assert (Hm' : length m' = n) by apply tabulate_length.
  assert (E : forall v, v < n -> m' @ v = Nat.min (a @ v) (m @ v)).
  { intros v Hv. unfold m'. rewrite !tabulate_nth by auto. lia. }
  assert (G : in_ideal I m' <-> in_ideal I m).
  { split; intros Hi.
    - apply (in_ideal_iff n) in Hi; auto. apply (in_ideal_iff n); auto. apply inI_mono with m'; auto.
      intros v Hv. rewrite E by auto. lia.
    - destruct (Hmin m Hm Hi) as [g [Hg Hle]]. apply (in_ideal_iff n); auto. pose proof Hg as [Hgl [Hgi _]].
      apply (in_ideal_iff n) in Hgi; auto. apply inI_mono with g; auto. intros v Hv. rewrite E by auto.
      assert (g @ v <= a @ v).
      { destruct Ha as [Ha|Ha]; [|apply Ha; auto].
        destruct Hgi as [h [Hh Hhg]]. assert (h = g); [|subst; apply Ha; auto].
        destruct Hg as [_ [_ Hu]]. apply Hu; [|apply (divs_iff n); auto]. apply (in_ideal_iff n); auto. apply inI_self; auto. }
      specialize (Hle v Hv). lia. }
  rewrite <- G. destruct (Hdec m' Hm'); tauto.
Qed.

(** ** Associated primes *)
Definition supp (n : nat) (c : mono) : mono := tabulate n (fun v => if c @ v =? 0 then 0 else 1).

Lemma ass_iff : forall n I D s, irreducible_decomposition n I D ->
  (associated_prime n I s <-> exists c, In c D /\ s = supp n c).
Proof.
  intros n I D s HD. split.
  - intros [Hl [H1 [m [Hm Ht]]]].
    set (N := S (maxe D)).
    set (t := tabulate n (fun v => if s @ v =? 0 then N else 0)).
    assert (Hlt : length t = n) by apply tabulate_length.
    assert (Hnp : ~ in_prime s t).
    { intros [v [A B]]. destruct (Nat.lt_ge_cases v n) as [Hv|Hv].
      - unfold t in B. rewrite tabulate_nth in B by auto. destruct (Nat.eqb_spec (s @ v) 0); lia.
      - rewrite nth_overflow in A by lia. lia. }
    rewrite <- Ht in Hnp by auto.
    assert (Hlmt : length (mono_mul m t) = n) by (rewrite mono_mul_length; lia).
    apply (d_out n I D HD) in Hnp; auto. destruct Hnp as [c [Hc Hn]]. exists c. split; auto.
    pose proof (d_len n I D HD c Hc) as L. rewrite (not_in_irr n) in Hn by auto.
    apply term_ext with n; auto; [apply tabulate_length|]. intros v Hv. unfold supp. rewrite tabulate_nth by auto.
    specialize (H1 v). destruct (Nat.eqb_spec (s @ v) 0) as [E|E].
    + destruct (Nat.eqb_spec (c @ v) 0) as [|Ec]; auto. exfalso. specialize (Hn v Hv ltac:(lia)).
      rewrite mono_mul_nth in Hn by lia. unfold t in Hn. rewrite tabulate_nth in Hn by auto. rewrite E in Hn. simpl in Hn.
      pose proof (maxe_ge D c v Hc). unfold N in Hn. lia.
    + assert (Es : s @ v = 1) by lia. rewrite Es. destruct (Nat.eqb_spec (c @ v) 0) as [Ec|]; auto. exfalso.
      assert (Hin : in_ideal I (mono_mul m (times_var t v))).
      { apply Ht; [rewrite times_var_length; auto|]. exists v. split; [lia|]. rewrite times_var_nth by lia. rewrite Nat.eqb_refl. lia. }
      apply (d_in n I D HD) with (c := c) in Hin; auto; [|rewrite mono_mul_length, times_var_length; lia].
      apply (in_irr_iff n) in Hin; auto. destruct Hin as [w [Hw [Hp Hle]]].
      assert (w <> v) by (intros ->; lia).
      specialize (Hn w Hw Hp). rewrite mono_mul_nth in Hle by (rewrite ?times_var_length; lia).
      rewrite mono_mul_nth in Hn by lia. rewrite times_var_nth in Hle by lia.
      destruct (Nat.eqb_spec w v); lia.
  - intros [c [Hc ->]]. split; [apply tabulate_length|]. split.
    { intros v. destruct (Nat.lt_ge_cases v n) as [Hv|Hv].
      - unfold supp. rewrite tabulate_nth by auto. destruct (c @ v =? 0); lia.
      - rewrite nth_overflow by (unfold supp; rewrite tabulate_length; auto). lia. }
    pose proof (d_len n I D HD c Hc) as L.
    destruct (witness_others n I D HD c Hc) as [N0 HN0]. specialize (HN0 N0 (Nat.le_refl _)).
    exists (witness n N0 c). split; [apply witness_len|]. intros t Hlt.
    assert (Hlm : length (mono_mul (witness n N0 c) t) = n) by (rewrite mono_mul_length, witness_len; lia).
    split.
    + intros Hi. apply (d_in n I D HD) with (c := c) in Hi; auto.
      apply (in_irr_iff n) in Hi; auto. destruct Hi as [v [Hv [Hp Hle]]].
      rewrite mono_mul_nth in Hle by (rewrite ?witness_len; lia).
      exists v. split.
      * unfold supp. rewrite tabulate_nth by auto. destruct (Nat.eqb_spec (c @ v) 0); lia.
      * unfold witness in Hle. rewrite tabulate_nth in Hle by auto. destruct (Nat.eqb_spec (c @ v) 0); lia.
    + intros [v [A B]]. assert (Hv : v < n).
      { destruct (Nat.lt_ge_cases v n); auto. rewrite nth_overflow in B by lia. lia. }
      unfold supp in A. rewrite tabulate_nth in A by auto. destruct (Nat.eqb_spec (c @ v) 0) as [|E]; [lia|].
      pose proof (witness_times n I D HD N0 c v Hc HN0 Hv ltac:(lia)) as Hi.
      destruct HD as [Hr [_ [H _]]]. apply H; auto. intros c' Hc'.
      pose proof (proj1 (H _ ltac:(rewrite times_var_length; apply witness_len)) Hi c' Hc') as Hi'.
      apply (in_irr_mono n c' (times_var (witness n N0 c) v)); auto; [apply in_ring_wf in Hr; auto|].
      intros w Hw. rewrite times_var_nth by (rewrite witness_len; auto). rewrite mono_mul_nth by (rewrite ?witness_len; lia).
      destruct (Nat.eqb_spec w v) as [->|]; lia.
Qed.
