(** The forms of the API theorems used in T_Api.v; primary decomposition and its counterexample. *)
From Coq Require Import List Arith Bool ZArith Lia Permutation Sorted.
Import ListNotations.
From Verif Require Import Spec Spec_Slice Spec_Run Spec_Api M_Term M_Ideal M_Slice M_Msm M_Api P_Term P_Ideal P_Bridge P_Msm1 P_Process P_Run P_Valid P_Corner P_Decomp P_Translator P_Api P_Api2 P_Api3 P_Api4.

Lemma q_c01 : forall c rnd n I, legal_config c -> in_ring n I -> I <> [] ->
  exists D, api_irrDecomMonomials c rnd n I = Some (true, block n D) /\ in_ring n D /\
    forall m, length m = n -> (in_ideal I m <-> forall d, In d D -> in_irreducible d m).
Proof.
  intros c rnd n I Hc Hr Hn. destruct (p_irrMonomials c rnd n I Hc Hr Hn) as [D [E [A [B [C _]]]]]. exists D. auto.
Qed.

Lemma q_c02 : forall c rnd n I, legal_config c -> in_ring n I -> I <> [] ->
  exists D, api_irrDecomMonomials c rnd n I = Some (true, block n D) /\ NoDup D /\
    (forall d, In d D -> exists m, length m = n /\ ~ in_ideal I m /\ forall d', In d' D -> d' <> d -> in_irreducible d' m) /\
    (forall d d', In d D -> In d' D -> (forall m, length m = n -> in_irreducible d m -> in_irreducible d' m) -> d = d').
Proof.
  intros c rnd n I Hc Hr Hn. destruct (p_irrMonomials c rnd n I Hc Hr Hn) as [D [E [A [B [C F]]]]]. exists D. split; auto. split; auto. split; auto.
  intros d d' Hd Hd' H. destruct (list_eq_dec Nat.eq_dec d d') as [|Hne]; auto. exfalso.
  destruct (F d' Hd') as [m [Hm [Hi Ho]]]. apply Hi. apply C; auto. intros x Hx. destruct (list_eq_dec Nat.eq_dec x d') as [->|Hx']; auto.
Qed.

Lemma q_c03 : forall c rnd n I, legal_config c -> in_ring n I ->
  (I <> [] -> exists D,
     api_irrDecomIdeals c rnd n I = Some (concat (map (fun d => block n (irreducible_generators n d)) D)) /\
     irreducible_decomposition n I D) /\
  (I = [] -> api_irrDecomIdeals c rnd n I = Some (block n [])) /\
  (In (repeat 0 n) I -> api_irrDecomIdeals c rnd n I = Some []).
Proof.
  intros c rnd n I Hc Hr. split; [|split].
  - intros Hn. apply p_irrIdeals; auto.
  - intros ->. reflexivity.
  - intros H1. assert (Hn : I <> []) by (intros ->; destruct H1).
    destruct (p_irrIdeals c rnd n I Hc Hr Hn) as [D [E [_ [_ [_ F]]]]]. rewrite E. destruct D as [|d D]; auto. exfalso.
    destruct (F d (or_introl eq_refl)) as [m [Hm [Hi _]]]. apply Hi. exists (repeat 0 n). split; auto.
    apply (divs_iff n); auto; [apply repeat_length|]. intros v Hv. rewrite nth_repeat. lia.
Qed.

(** ** Radicals *)
Lemma mono_pow_length : forall m k, length (mono_pow m k) = length m.
Proof. induction k as [|k IH]; cbn [mono_pow]; [apply repeat_length|]. rewrite mono_mul_length, IH. lia. Qed.
Lemma mono_pow_nth : forall m k v, v < length m -> nth v (mono_pow m k) 0 = k * nth v m 0.
Proof.
  induction k as [|k IH]; intros v Hv; cbn [mono_pow]; [rewrite nth_repeat; auto|].
  rewrite mono_mul_nth by (auto; rewrite mono_pow_length; auto). rewrite IH by auto. simpl. auto.
Qed.
Lemma supp_eq : forall n c, support_vector n c = supp n c.
Proof. reflexivity. Qed.

Lemma radical_group : forall n G B x, good_group n G B -> in_ring n G -> In x G -> radical_is n B (support_vector n x).
Proof.
  intros n G B x [HG [HS [HB [_ [_ HM]]]]] HR Hx m Hm. rewrite supp_eq.
  assert (HR' : forall y, In y G -> length y = n) by (intros y Hy; apply in_ring_wf in HR; apply HR; auto).
  split.
  - intros [k Hk]. assert (Hpl : length (mono_pow m k) = n) by (rewrite mono_pow_length; auto). pose proof (proj1 (HM _ Hpl) Hk) as Hk'. clear Hk. rename Hk' into Hk. specialize (Hk x Hx). destruct Hk as [i [A C]].
    assert (Hi : i < n). { destruct (Nat.lt_ge_cases i n); auto. rewrite nth_overflow in A by (rewrite HR'; auto). lia. }
    exists i. unfold supp. rewrite (tabulate_nth n) by auto. destruct (Nat.eqb_spec (nth i x 0) 0); [lia|]. split; [lia|].
    rewrite mono_pow_nth in C by lia. destruct (nth i m 0); lia.
  - intros [i [A C]]. assert (Hi : i < n). { destruct (Nat.lt_ge_cases i n); auto. rewrite (nth_overflow m) in C by lia. lia. }
    unfold supp in A. rewrite (tabulate_nth n) in A by auto. destruct (Nat.eqb_spec (nth i x 0) 0) as [|Hnz]; [lia|].
    exists (maxe G). apply HM; [rewrite mono_pow_length; auto|]. intros y Hy. exists i.
    assert (Hy0 : nth i y 0 <> 0) by (intros E; apply Hnz; apply (HS x y Hx Hy i Hi); auto).
    split; [lia|]. rewrite mono_pow_nth by lia. pose proof (maxe_ge G y i Hy) as HH.
    apply Nat.le_trans with (maxe G); auto. destruct (nth i m 0); [lia|]. nia.
Qed.

Lemma prime_inj : forall n s s', length s = n -> length s' = n -> (forall i, nth i s 0 <= 1) -> (forall i, nth i s' 0 <= 1) ->
  (forall m, length m = n -> (in_prime s m <-> in_prime s' m)) -> s = s'.
Proof.
  intros n s s' Hs Hs' H1 H1' H. apply term_ext with n; auto. intros v Hv.
  assert (Q : forall a b, (forall i, nth i a 0 <= 1) -> (forall i, nth i b 0 <= 1) -> (forall m, length m = n -> in_prime a m -> in_prime b m) -> nth v a 0 <= nth v b 0).
  { intros a b Ha Hb HP. destruct (Nat.eq_dec (nth v a 0) 0) as [E|E]; [lia|].
    destruct (HP (tabulate n (fun w => if w =? v then 1 else 0))) as [i [A B]].
    - apply tabulate_length.
    - exists v. rewrite (tabulate_nth n) by auto. rewrite Nat.eqb_refl. lia.
    - destruct (Nat.lt_ge_cases i n) as [Hi|Hi]; [|rewrite (tabulate_out n) in B by auto; lia].
      rewrite (tabulate_nth n) in B by auto. destruct (Nat.eqb_spec i v) as [->|]; [|lia]. specialize (Ha v). lia. }
  apply Nat.le_antisymm; apply Q; auto; intros m Hm; apply H; auto.
Qed.

Lemma supp_01 : forall n c i, nth i (supp n c) 0 <= 1.
Proof.
  intros n c i. destruct (Nat.lt_ge_cases i n) as [Hi|Hi]; [|rewrite (nth_out (supp n c)) by (unfold supp; rewrite tabulate_length; auto); lia].
  unfold supp. rewrite (tabulate_nth n) by auto. destruct (nth i c 0 =? 0); lia.
Qed.

Lemma Forall2_in_l : forall {A B} (R : A -> B -> Prop) l l' a, Forall2 R l l' -> In a l -> exists b, In b l' /\ R a b.
Proof. intros A B R l l' a H. induction H as [|x y l l' Hxy H IH]; intros Hi; [destruct Hi|]. destruct Hi as [<-|Hi]; [exists y; simpl; auto|]. destruct (IH Hi) as [b [X Y]]. exists b. simpl. auto. Qed.
Lemma Forall2_in_r : forall {A B} (R : A -> B -> Prop) l l' b, Forall2 R l l' -> In b l' -> exists a, In a l /\ R a b.
Proof. intros A B R l l' b H. induction H as [|x y l l' Hxy H IH]; intros Hi; [destruct Hi|]. destruct Hi as [<-|Hi]; [exists x; simpl; auto|]. destruct (IH Hi) as [a [X Y]]. exists a. simpl. auto. Qed.

Lemma NoDup_map_pos : forall {A B} (f : A -> B) l,
  (forall i j a b, nth_error l i = Some a -> nth_error l j = Some b -> f a = f b -> i = j) -> NoDup (map f l).
Proof.
  intros A B f l. induction l as [|x l IH]; intros H; cbn [map]; constructor.
  - intros Hi. apply in_map_iff in Hi. destruct Hi as [y [E Hy]]. apply In_nth_error in Hy. destruct Hy as [j Hj].
    specialize (H 0 (S j) x y eq_refl Hj (eq_sym E)). discriminate.
  - apply IH. intros i j a b Ha Hb E. specialize (H (S i) (S j) a b Ha Hb E). lia.
Qed.

Lemma c12_extra : forall n I D Gs Bs, irreducible_decomposition n I D -> support_runs n D Gs -> Forall2 (same_support_intersection n) Gs Bs ->
  Forall2 (fun G B => forall x, In x G -> radical_is n B (support_vector n x)) Gs Bs /\
  (forall s, associated_prime n I s <-> exists B, In B Bs /\ length s = n /\ (forall i, nth i s 0 <= 1) /\ radical_is n B s) /\
  ((forall i j G G' x y, nth_error Gs i = Some G -> nth_error Gs j = Some G' -> In x G -> In y G' -> same_support n x y -> i = j) ->
   one_per_associated_prime n I Bs).
Proof.
  intros n I D Gs Bs HD HR HF.
  pose proof (runs_concat n _ _ HR) as HC.
  assert (HG : forall G, In G Gs -> in_ring n G).
  { intros G HGi. apply Forall_forall. intros x Hx. destruct HD as [HD _]. unfold in_ring in HD. rewrite Forall_forall in HD. apply HD. rewrite <- HC. apply in_concat. eauto. }
  assert (HRad : Forall2 (fun G B => forall x, In x G -> radical_is n B (support_vector n x)) Gs Bs).
  { clear -HF HG. induction HF as [|G B Gs Bs H HF IH]; constructor.
    - intros x Hx. eapply radical_group; eauto. apply HG. left. auto.
    - apply IH. intros G' HG'. apply HG. right. auto. }
  assert (HNE : forall G, In G Gs -> exists x, In x G).
  { intros G HGi. destruct (Forall2_in_l _ _ _ _ HF HGi) as [B [_ [HN _]]]. destruct G as [|x G]; [congruence|]. exists x. left. auto. }
  assert (HA : forall s, associated_prime n I s <-> exists B, In B Bs /\ length s = n /\ (forall i, nth i s 0 <= 1) /\ radical_is n B s).
  { intros s. rewrite (ass_iff n I D s HD). split.
    - intros [x [Hx ->]]. rewrite <- HC in Hx. apply in_concat in Hx. destruct Hx as [G [HGi Hx]].
      destruct (Forall2_in_l _ _ _ _ HRad HGi) as [B [HB HX]]. exists B. split; auto. split; [apply tabulate_length|]. split; [apply supp_01|]. apply HX; auto.
    - intros [B [HB [Hl [H1 HX]]]]. destruct (Forall2_in_r _ _ _ _ HRad HB) as [G [HGi HY]]. destruct (HNE G HGi) as [x Hx].
      exists x. split; [rewrite <- HC; apply in_concat; eauto|]. apply prime_inj with n; auto; [apply tabulate_length|apply supp_01|].
      intros m Hm. specialize (HY x Hx m Hm). specialize (HX m Hm). rewrite <- HX. symmetry. rewrite supp_eq in HY. tauto. }
  split; auto. split; auto.
  intros HU. exists (map (fun G => support_vector n (hd [] G)) Gs). split; [|split].
  - assert (HGen : forall i j G G', nth_error Gs i = Some G -> nth_error Gs j = Some G' -> support_vector n (hd [] G) = support_vector n (hd [] G') -> i = j).
    { intros i j G G' E1 E2 ES. pose proof (nth_error_In _ _ E1) as I1. pose proof (nth_error_In _ _ E2) as I2.
      destruct (HNE G I1) as [x Hx]. destruct (HNE G' I2) as [y Hy]. destruct G as [|x0 G]; [destruct Hx|]. destruct G' as [|y0 G']; [destruct Hy|].
      apply (HU i j _ _ x0 y0 E1 E2); try (left; auto; fail). cbn [hd] in ES. intros v Hv.
      assert (EV : nth v (support_vector n x0) 0 = nth v (support_vector n y0) 0) by (rewrite ES; auto).
      rewrite (supp_eq n x0), (supp_eq n y0) in EV. unfold supp in EV. rewrite !(tabulate_nth n) in EV by auto.
      destruct (Nat.eqb_spec (nth v x0 0) 0); destruct (Nat.eqb_spec (nth v y0 0) 0); try discriminate; lia. }
    apply NoDup_map_pos. exact HGen.
  - intros s. rewrite (ass_iff n I D s HD). rewrite in_map_iff. split.
    + intros [G [<- HGi]]. destruct (HNE G HGi) as [x Hx]. destruct G as [|x0 G]; [destruct Hx|]. cbn [hd]. exists x0. split; auto.
      rewrite <- HC. apply in_concat. exists (x0 :: G). split; auto. left. auto.
    + intros [x [Hx ->]]. rewrite <- HC in Hx. apply in_concat in Hx. destruct Hx as [G [HGi Hx]]. exists G. split; auto.
      destruct (Forall2_in_l _ _ _ _ HF HGi) as [B [_ [_ [HSS _]]]]. destruct G as [|x0 G]; [destruct Hx|]. cbn [hd].
      rewrite supp_eq. unfold supp. apply tabulate_ext. intros v Hv. specialize (HSS x0 x (or_introl eq_refl) Hx v Hv).
      destruct (Nat.eqb_spec (nth v x0 0) 0); destruct (Nat.eqb_spec (nth v x 0) 0); auto; lia.
  - clear -HRad HNE. induction HRad as [|G B Gs Bs H _ IH]; cbn [map]; constructor.
    + destruct (HNE G (or_introl eq_refl)) as [x Hx]. destruct G as [|x0 G]; [destruct Hx|]. cbn [hd]. apply H. left. auto.
    + apply IH. intros G' HG'. apply HNE. right. auto.
Qed.
Lemma q_c12 : forall c rnd n I, legal_config c -> in_ring n I -> exists D Gs Bs,
  api_primaryDecomposition c rnd n I = Some (concat (map (block n) Bs)) /\
  irreducible_decomposition n I D /\ StronglySorted (fun a b => lex_lt b a) D /\ support_runs n D Gs /\
  Forall2 (same_support_intersection n) Gs Bs /\
  (forall m, length m = n -> (in_ideal I m <-> forall B, In B Bs -> in_ideal B m)) /\
  Forall2 (fun G B => forall x, In x G -> radical_is n B (support_vector n x)) Gs Bs /\
  (forall s, associated_prime n I s <-> exists B, In B Bs /\ length s = n /\ (forall i, nth i s 0 <= 1) /\ radical_is n B s) /\
  ((forall i j G G' x y, nth_error Gs i = Some G -> nth_error Gs j = Some G' -> In x G -> In y G' -> same_support n x y -> i = j) ->
   one_per_associated_prime n I Bs).
Proof.
  intros c rnd n I Hc Hr. destruct (p_primary c rnd n I Hc Hr) as [D [Gs [Bs [E [HD [HS [HR [HF HI]]]]]]]].
  exists D, Gs, Bs. split; auto. split; auto. split; auto. split; auto. split; [exact HF|]. split; auto. apply (c12_extra n I D Gs Bs); auto.
Qed.

(** ** The counterexample *)
Lemma block_cons_inj : forall n L L' r r', block n L ++ r = block n L' ++ r' -> L = L' /\ r = r'.
Proof.
  intros n L L' r r' E. unfold block in E. cbn [app] in E. injection E as E. revert L' E.
  induction L as [|x L IH]; intros [|y L'] E; cbn [map app] in E; try discriminate.
  - injection E as E. auto.
  - injection E as E0 E. destruct (IH L' E) as [-> ->]. apply znat_inj in E0. subst. auto.
Qed.
Lemma blocks_inj : forall n Bs Bs', concat (map (block n) Bs) = concat (map (block n) Bs') -> Bs = Bs'.
Proof.
  intros n. induction Bs as [|B Bs IH]; intros [|B' Bs'] E; cbn [map concat] in E; try (unfold block in E; discriminate); auto.
  apply block_cons_inj in E. destruct E as [-> E]. f_equal. auto.
Qed.

Definition c12_ideal : list mono := [[3;0;0];[2;0;1];[1;1;1];[0;1;3]].
Lemma q_c12_refuted : exists n I, in_ring n I /\
  ~ exists Bs, api_primaryDecomposition default_config (fun _ k => 7 * k + 3) n I = Some (concat (map (block n) Bs)) /\
      one_per_associated_prime n I Bs.
Proof.
  exists 3, c12_ideal. split; [repeat constructor|]. intros [Bs [E [Ss [HN [HA HF]]]]].
  assert (E0 : api_primaryDecomposition default_config (fun _ k => 7 * k + 3) 3 c12_ideal =
    Some (concat (map (block 3) [[[3;0;0];[0;0;1]];[[2;0;0];[0;1;0]];[[1;0;0];[0;0;3]]]))) by (vm_compute; reflexivity).
  rewrite E0 in E. assert (EB : Bs = [[[3;0;0];[0;0;1]];[[2;0;0];[0;1;0]];[[1;0;0];[0;0;3]]]).
  { symmetry. apply (blocks_inj 3). congruence. }
  clear E0 E. subst Bs. inversion HF as [|? s1 ? ? R1 HF2]; subst. inversion HF2 as [|? s2 ? ? R2 HF3]; subst. inversion HF3 as [|? s3 ? ? R3 HF4]; subst. inversion HF4; subst.
  assert (A1 : associated_prime 3 c12_ideal s1) by (apply HA; simpl; auto). assert (A3 : associated_prime 3 c12_ideal s3) by (apply HA; simpl; auto).
  assert (s1 = s3).
  { destruct A1 as [L1 [B1 _]]. destruct A3 as [L3 [B3 _]]. apply prime_inj with 3; auto. intros m Hm. rewrite <- (R1 m Hm), <- (R3 m Hm).
    destruct m as [|a [|b [|d [|]]]]; try discriminate.
    assert (Q : forall B, (exists k, in_ideal B (mono_pow [a;b;d] k)) <-> exists k g, In g B /\ nth 0 g 0 <= k * a /\ nth 1 g 0 <= k * b /\ nth 2 g 0 <= k * d /\ length g = 3).
    { intros B. assert (Pw : forall k, mono_pow [a;b;d] k = [k * a; k * b; k * d]).
      { intros k. apply term_ext with 3; auto; [apply mono_pow_length|]. intros v Hv. rewrite mono_pow_nth by auto.
        destruct v as [|[|[|v]]]; auto; lia. }
      split.
      - intros [k [g [Hg Hd]]]. exists k, g. split; auto. rewrite Pw in Hd. inversion Hd as [|? ? ? ? X1 Y1]; subst. inversion Y1 as [|? ? ? ? X2 Y2]; subst.
        inversion Y2 as [|? ? ? ? X3 Y3]; subst. inversion Y3; subst. simpl. auto.
      - intros [k [g [Hg [X1 [X2 [X3 Hl]]]]]]. exists k, g. split; auto. rewrite Pw. destruct g as [|x [|y [|z [|]]]]; try discriminate. simpl in *.
        repeat constructor; auto. }
    rewrite !Q. clear. split; intros [k [g [Hg [X1 [X2 [X3 _]]]]]].
    - destruct Hg as [<-|[<-|[]]]; cbn [nth] in *.
      + exists (1 * k), [1;0;0]. simpl. split; auto. repeat split; nia.
      + exists (3 * k), [0;0;3]. simpl. split; auto. repeat split; nia.
    - destruct Hg as [<-|[<-|[]]]; cbn [nth] in *.
      + exists (3 * k), [3;0;0]. simpl. split; auto. repeat split; nia.
      + exists (1 * k), [0;0;1]. simpl. split; auto. repeat split; nia. }
  subst s3. inversion HN as [|? ? HNi _]; subst. apply HNi. simpl. auto.
Qed.
