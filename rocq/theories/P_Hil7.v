(** The run of the Hilbert algorithm and the API functions built on it. *)
From Coq Require Import List Arith Bool ZArith Lia Permutation Sorted.
Import ListNotations.
From Verif Require Import Spec Spec_Slice Spec_Run Spec_Api Spec_Hilbert M_Term M_Ideal M_Slice M_Partition M_Msm M_Api M_Hilbert P_Term P_Ideal P_Bridge P_Msm1 P_Msm2
  P_Msm3 P_Msm4 P_Msm5 P_Indep P_Proj P_Split P_Process P_Run P_Valid P_Corner P_Decomp P_Translator P_Internal P_Api P_Api3 P_Hil1 P_Hil2 P_Hil3 P_Hil4 P_Hil5 P_Hil6.
Local Open Scope nat_scope.

Lemma hs_iff : forall s, hilbert_slice s <-> slice_ok s.
Proof.
  intros s. split.
  - intros [[A1 A2] [B1 B2] C D E F]. pose proof A1 as A1'. pose proof B1 as B1'. apply in_ring_wf in A1', B1'.
    constructor; auto.
    + apply minimal_list_minl; auto.
    + apply minimal_list_minl; auto.
    + intros Hu. apply is_lcm_i; auto.
    + intros x g Hx Hg Hd. apply (E x g Hx Hg). apply sdiv_iff with (s_n s); auto.
  - intros [WI WS MI MS Q LC N HT].
    assert (RI : in_ring (s_n s) (s_I s)) by (apply in_ring_wf; auto).
    assert (RS : in_ring (s_n s) (s_S s)) by (apply in_ring_wf; auto).
    constructor; auto.
    + split; auto. apply minl_lists; auto.
    + split; auto. apply minl_lists; auto.
    + intros Hu. rewrite LC by auto. apply i_lcm_is_lcm; auto.
    + intros x g Hx Hg H. apply (N x g Hx Hg). apply sdiv_iff; auto.
Qed.

Lemma hil_base_touch : forall s0 s r, hil_baseCase s0 = (s, r) -> s = sl_touch s0.
Proof.
  intros s0 s r. unfold hil_baseCase. cbv zeta. destruct (_ <? _); [congruence|]. destruct (negb _); [congruence|].
  destruct (_ =? 0); congruence.
Qed.

Lemma legal_hrule : forall f, legal_hilbert_rule f <-> hrule_ok f.
Proof.
  intros f. split; intros H rnd k s0 s H0 E; assert (Hok : slice_ok s) by
    (rewrite (hil_base_touch _ _ _ E); apply touch_ok; (exact H0 || apply hs_iff; exact H0)).
  - destruct (H rnd k s0 s (proj2 (hs_iff s0) H0) E) as [s' [p [k' [A [B C]]]]]. exists s', p, k'. split; auto.
    split; [apply reord_iff; auto|apply legal_iff; auto].
  - destruct (H rnd k s0 s (proj1 (hs_iff s0) H0) E) as [s' [p [k' [A [B C]]]]]. exists s', p, k'. split; auto.
    split; [apply reord_iff; auto|apply legal_iff; auto].
Qed.
Lemma legal_hconf : forall c, legal_hilbert_config c -> hconf_ok c.
Proof. intros c [f [A B]]. exists f. split; auto. apply legal_hrule; auto. Qed.

Lemma builtin_hrules : legal_hilbert_rule minimum_pivot /\ legal_hilbert_rule maximum_pivot /\ legal_hilbert_rule median_pivot /\
  legal_hilbert_rule indep_pivot /\ legal_hilbert_rule gcd_pivot /\ legal_hilbert_rule mingen_pivot.
Proof.
  repeat split; apply legal_hrule, hrule1; auto using minimum_sound1, maximum_sound1, median_sound1, indep_sound1, gcd_sound1, mingen_sound1.
Qed.

(** ** The run *)
Definition ones (n : nat) : term := tabulate n (fun _ => 1).
Lemma ones_product : forall n g v, v < n -> (t_product n g (ones n)) @ v = S (g @ v).
Proof. intros. rewrite t_product_nth by auto. unfold ones. rewrite tabulate_nth by auto. lia. Qed.

Definition raw (n : nat) (I : ideal) : slice := mkSlice n I [] (t_identity n) (t_identity n) false 0.
Lemma raw_slice_ok : forall n I, wf n I -> minl n I -> slice_ok (raw n I).
Proof.
  intros n I Hw Hm. constructor; cbn; auto.
  - intros g [].
  - split; [constructor|]. intros g h [].
  - apply t_identity_length.
  - discriminate.
  - intros x g [].
Qed.
Lemma product_wf : forall n I, wf n (i_product n I (ones n)).
Proof. intros n I g Hg. apply in_map_iff in Hg. destruct Hg as [h [<- _]]. apply t_product_length. Qed.
Lemma product_minl : forall n I, wf n I -> minl n I -> minl n (i_product n I (ones n)).
Proof.
  intros n I Hw [A B].
  assert (H : forall g h, le_n n (t_product n g (ones n)) (t_product n h (ones n)) -> le_n n g h).
  { intros g h H v Hv. specialize (H v Hv). rewrite !ones_product in H by auto. lia. }
  split.
  - apply NoDup_map_inj; auto. intros g h Hg Hh E. apply B; auto. apply H. rewrite E. apply le_n_refl.
  - intros g h Hg Hh Hle. apply in_map_iff in Hg, Hh. destruct Hg as [x [<- Hx]], Hh as [y [<- Hy]]. f_equal. apply B; auto.
Qed.

Lemma raw_val : forall n I c d, val (raw n I) c d <-> length d = n /\ c = hv n I d /\ c <> 0%Z.
Proof.
  intros n I c d. unfold val, kv, raw. cbn [s_n s_I s_S s_q].
  assert (E : forall m, length m = n -> t_product n m (t_identity n) = m).
  { intros m Hm. apply term_ext with n; auto using t_product_length. intros v Hv. rewrite t_product_nth, t_identity_nth by auto. lia. }
  split.
  - intros [m [[A [_ [B C]]] ->]]. rewrite E by auto. auto.
  - intros [A [B C]]. exists d. split; [|symmetry; auto]. split; auto. split; auto. apply inI_nil.
Qed.

(** the part of the run after the start *)
Definition run_part (c : config) (rnd : nat -> nat) (n : nat) (J : ideal) : option (list cterm * nat) :=
  match hil_st_simplify c (raw n J) with
  | None => None
  | Some s => hil_process (run_fuel n J) c rnd 0 s
  end.
Lemma run_part_spec : forall c rnd n J, hconf_ok c -> 0 < n -> wf n J -> minl n J ->
  exists out k, run_part c rnd n J = Some (out, k) /\ NoDup (map snd out) /\
    forall x d, In (x, d) out <-> length d = n /\ x = hv n J d /\ x <> 0%Z.
Proof.
  intros c rnd n J Hc Hn Hw Hm. unfold run_part.
  destruct (hil_st_simplify_spec c (raw n J) (raw_slice_ok n J Hw Hm) Hn) as [s [Es [Hok Hs]]]. rewrite Es.
  pose proof (sv_n _ _ Hs) as En. cbn [raw s_n] in En.
  destruct (hil_process_spec c rnd Hc (run_fuel n J) s 0 Hok) as [out [k [E [N H]]]].
  - lia.
  - pose proof (sv_mu _ _ Hs). pose proof (smu_volume (raw n J)). unfold slcm in *. cbn [raw s_n s_I] in *. unfold run_fuel. lia.
  - exists out, k. split; auto. split; auto. intros x d. rewrite H, (sv_val _ _ Hs). apply raw_val.
Qed.

Lemma hv_G : forall n I d, 0 < n -> wf n I -> length d = n ->
  hv n (i_product n I (ones n)) d = (bd d (fun x => 1 - ind n I x) - bd d (fun _ => 1))%Z.
Proof.
  intros n I d Hn Hw Hd. unfold hv.
  rewrite (dif_ext _ _ (fun x => 1 - (G (fun _ => 1) x - G (fun x => 1 - ind n I x) x)))%Z.
  - rewrite (dif_sub _ (fun _ => 1%Z)), dif_const by (destruct n; [lia|discriminate]).
    rewrite dif_sub. rewrite <- Hd at 1 2. rewrite !dif_G. lia.
  - intros x Hx. apply reach_length in Hx. unfold G.
    destruct (forallb (fun e => 0 <? e) x) eqn:E.
    + assert (Hx1 : forall v, v < n -> x @ v = S ((map pred x) @ v)).
      { intros v Hv. change 0 with (pred 0) at 2. rewrite map_nth. rewrite forallb_forall in E.
        specialize (E (x @ v) ltac:(apply nth_In; lia)). apply Nat.ltb_lt in E. lia. }
      assert (HI : ind n (i_product n I (ones n)) x = ind n I (map pred x)).
      { apply ind_iff. split.
        - intros [g [Hg Hle]]. apply in_map_iff in Hg. destruct Hg as [h [<- Hh]]. exists h. split; auto.
          intros v Hv. specialize (Hle v Hv). rewrite ones_product, Hx1 in Hle by auto. lia.
        - intros [g [Hg Hle]]. exists (t_product n g (ones n)). split; [apply in_map_iff; exists g; auto|].
          intros v Hv. specialize (Hle v Hv). rewrite ones_product, Hx1 by auto. lia. }
      rewrite HI. lia.
    + rewrite ind_0; [lia|]. intros [g [Hg Hle]]. apply in_map_iff in Hg. destruct Hg as [h [<- Hh]].
      assert (forallb (fun e => 0 <? e) x = true); [|congruence]. apply forallb_forall. intros e He.
      apply In_nth with (d := 0) in He. destruct He as [v [Hv <-]]. specialize (Hle v ltac:(lia)).
      rewrite ones_product in Hle by lia. apply Nat.ltb_lt. lia.
Qed.

Lemma bd_identity : forall n f, bd (t_identity n) f = f (t_identity n).
Proof.
  induction n as [|n IH]; intros f; [reflexivity|].
  assert (E : t_identity (S n) = 0 :: t_identity n).
  { unfold t_identity, tabulate. cbn [seq map]. rewrite <- seq_shift, map_map. reflexivity. }
  rewrite E. cbn [bd]. rewrite IH. lia.
Qed.
Lemma bd_one_id : forall n d, length d = n -> bd d (fun _ => 1%Z) = if list_eq_dec Nat.eq_dec d (t_identity n) then 1%Z else 0%Z.
Proof.
  intros n d Hd. rewrite bd_one. destruct (list_eq_dec Nat.eq_dec d (t_identity n)) as [->|N].
  - rewrite (proj2 (forallb_forall _ _)); auto. intros e He. unfold t_identity, tabulate in He. apply in_map_iff in He. destruct He as [? [<- _]]. auto.
  - destruct (forallb _ d) eqn:E; auto. exfalso. apply N. apply term_ext with n; auto using t_identity_length.
    intros v Hv. rewrite t_identity_nth. rewrite forallb_forall in E. apply Nat.eqb_eq. apply E. apply nth_In. lia.
Qed.

Lemma hil_run_unfold : forall c rnd n I, hil_run c rnd n I =
  let one := i_contains n I (t_identity n) in
  let J := if one then [] else i_product n I (ones n) in
  match run_part c rnd n J with
  | None => None
  | Some (out, _) => Some ((if one then [] else [(1%Z, t_identity n)]) ++ out)
  end.
Proof.
  intros. unfold hil_run, run_part, raw. cbv zeta.
  assert (E : (match I with [] => [] | _ => i_product n I (tabulate n (fun _ => 1)) end) = i_product n I (ones n)).
  { destruct I; reflexivity. }
  rewrite E. destruct (i_contains n I (t_identity n)); destruct (hil_st_simplify _ _); auto.
Qed.

Lemma hil_run_spec : forall c rnd n I, hconf_ok c -> wf n I -> minl n I ->
  exists out, hil_run c rnd n I = Some out /\ terms_of n (fun d => bd d (fun x => (1 - ind n I x)%Z)) out /\
    forall x d v, In (x, d) out -> v < n -> d @ v = 0 \/ exists g, In g I /\ d @ v = g @ v.
Proof.
  intros c rnd n I Hc Hw Hm. rewrite hil_run_unfold. cbv zeta.
  destruct (Nat.eq_dec n 0) as [->|Hn].
  { destruct (minl_0 I Hw Hm) as [->| ->].
    - exists [(1%Z, [])]. split.
      + destruct c as [ci cs cp]. unfold run_part, hil_st_simplify. cbn [c_simp c_split]. destruct cs, cp; vm_compute; reflexivity.
      + split; [|intros; lia]. split; [repeat constructor; auto|]. intros x d. split.
        * intros [E|[]]. injection E as <- <-. split; auto. split; [reflexivity|lia].
        * intros [Hl [-> _]]. apply length_zero_iff_nil in Hl. subst d. left. reflexivity.
    - exists []. split.
      + destruct c as [ci cs cp]. unfold run_part, hil_st_simplify. cbn [c_simp c_split]. destruct cs, cp; vm_compute; reflexivity.
      + split; [|intros; lia]. split; [constructor|]. intros x d. split; [intros []|].
        intros [Hl [Hx Hz]]. apply length_zero_iff_nil in Hl. subst d. simpl in Hx. exfalso. apply Hz. rewrite Hx. reflexivity. }
  assert (H0 : 0 < n) by lia.
  destruct (i_contains n I (t_identity n)) eqn:E1.
  - apply i_contains_iff in E1.
    destruct (run_part_spec c rnd n [] Hc H0) as [out [k [E [N H]]]].
    { intros g []. } { split; [constructor|]. intros g h []. }
    rewrite E. exists out. split; auto.
    assert (Hnone : forall x d, ~ In (x, d) out).
    { intros x d Hi. apply H in Hi. destruct Hi as [_ [Hx Hz]]. rewrite hv_nil in Hx by auto. auto. }
    split; [|intros x d v Hi; exfalso; eapply Hnone; eauto]. split; auto. intros x d. split; [intros Hi; exfalso; eapply Hnone; eauto|].
    intros [Hl [Hx Hz]]. exfalso. apply Hz. rewrite Hx. rewrite (bd_ext _ _ (fun _ => 0%Z)); [apply bd_zero|].
    intros y Hy. rewrite ind_1; [lia|]. destruct E1 as [g [Hg Hle]]. exists g. split; auto. intros v Hv. specialize (Hle v Hv).
    rewrite t_identity_nth in Hle. lia.
  - assert (N1 : ~ inI n I (t_identity n)) by (intros Hc1; apply i_contains_iff in Hc1; congruence).
    destruct (run_part_spec c rnd n (i_product n I (ones n)) Hc H0 (product_wf n I) (product_minl n I Hw Hm)) as [out [k [E [N H]]]].
    rewrite E. exists ((1%Z, t_identity n) :: out). split; auto.
    assert (Bid : bd (t_identity n) (fun x => (1 - ind n I x)%Z) = 1%Z).
    { rewrite bd_identity, ind_0 by auto. reflexivity. }
    assert (H' : forall x d, In (x, d) out <-> length d = n /\ d <> t_identity n /\ x = bd d (fun x => (1 - ind n I x)%Z) /\ x <> 0%Z).
    { intros x d. rewrite H. split.
      - intros [A [B C]]. rewrite hv_G, (bd_one_id n) in B by auto. destruct (list_eq_dec Nat.eq_dec d (t_identity n)) as [->|Ne].
        + rewrite Bid in B. lia.
        + repeat split; auto. lia.
      - intros [A [B [C D]]]. rewrite hv_G, (bd_one_id n) by auto. destruct (list_eq_dec Nat.eq_dec d (t_identity n)); [contradiction|].
        repeat split; auto. lia. }
    split; [split|].
    + simpl. constructor; auto. intros Hi. apply in_map_iff in Hi. destruct Hi as [[x d] [Ed Hi]]. simpl in Ed. subst d.
      apply H' in Hi. tauto.
    + intros x d. cbn [In]. rewrite H'. split.
      * intros [Q|Q]; [|tauto]. injection Q as <- <-. split; [apply t_identity_length|]. rewrite Bid. split; auto. lia.
      * intros [A [B C]]. destruct (list_eq_dec Nat.eq_dec d (t_identity n)) as [->|Ne]; [left; rewrite B, Bid; auto|right; tauto].
    + intros x d v [Q|Q] Hv.
      * injection Q as <- <-. left. apply t_identity_nth.
      * apply H in Q. destruct Q as [A [B C]]. rewrite B in C. destruct (hv_label n _ d v C A Hv) as [g [Hg [Eg _]]].
        apply in_map_iff in Hg. destruct Hg as [h [<- Hh]]. rewrite ones_product in Eg by auto. right. exists h. split; auto. lia.
Qed.

(** ** The API *)
Lemma translate_coefs_spec : forall n tr ts f, (forall t, In t ts -> translate n tr (snd t) = Some (znat (f (snd t)))) ->
  translate_coefs n tr ts = Some (map (fun t => (fst t, znat (f (snd t)))) ts).
Proof.
  induction ts as [|[c t] ts IH]; intros f H; cbn [translate_coefs map]; auto.
  pose proof (H (c, t) ltac:(left; auto)) as Ht. cbn [snd] in Ht. rewrite Ht. rewrite (IH f) by (intros; apply H; right; auto). auto.
Qed.

Lemma hil_api : forall c rnd n I J, legal_hilbert_config c -> in_ring n I -> internal n I J -> exists out : list cterm,
  let p := map (fun t => (fst t, image n (phi I) (snd t))) out in
  hil_run c rnd n J = Some out /\
  translate_coefs n (tr_initialize n I) out = Some (map (fun t => (fst t, znat (snd t))) p) /\
  normal_poly n p /\ multigraded_numerator n I p.
Proof.
  intros c rnd n I J Hc Hr HJ. apply in_ring_wf in Hr. cbv zeta.
  destruct (hil_run_spec c rnd n J (legal_hconf c Hc) (int_wf _ _ _ HJ) (int_minl _ _ _ HJ)) as [out [E [T B]]].
  exists out. split; auto. pose proof (phi_embedding n I) as HE.
  assert (HB : forall x d v, In (x, d) out -> v < n -> d @ v < K I v).
  { intros x d v Hi Hv. destruct (B x d v Hi Hv) as [->|[g [Hg ->]]]; [apply K_bounds|apply (int_below _ _ _ HJ); auto]. }
  split; [|split; [split|]].
  - rewrite (translate_coefs_spec n _ out (image n (phi I))); [rewrite map_map; auto|].
    intros [x d] Hi. cbn [snd]. rewrite (translate_spec n _ _ (fun v => Z.of_nat (phi I v (d @ v)))).
    + unfold znat, image. rewrite of_nat_tabulate. auto.
    + intros v Hv. rewrite getExponent_eq by auto. specialize (HB x d v Hi Hv). rewrite (proj2 (Nat.ltb_lt _ _)); auto.
  - rewrite map_map. cbn [snd]. rewrite <- (map_map snd (image n (phi I))). apply NoDup_map_on; [apply T|].
    intros a b Ha Hb Eab. apply in_map_iff in Ha, Hb. destruct Ha as [[x a'] [<- Ha]], Hb as [[y b'] [<- Hb]]. cbn [snd] in *.
    apply term_ext with n; [apply (proj2 T x a'); auto|apply (proj2 T y b'); auto|]. intros v Hv.
    apply (emb_inj n (K I) (phi I) v); auto; [eapply HB; eauto|eapply HB; eauto|].
    rewrite <- !image_nth with (n := n) by auto. rewrite Eab. auto.
  - apply Forall_forall. intros t Ht. apply in_map_iff in Ht. destruct Ht as [[x d] [<- Hi]]. cbn [fst snd].
    split; [apply (proj2 T x d) in Hi; tauto|apply tabulate_length].
  - intros m Hm. destruct (emb_floor n (K I) (phi I) m HE) as [t [Ht Hf]].
    assert (ES : series_coef (map (fun t => (fst t, image n (phi I) (snd t))) out) m = series_coef out t).
    { assert (HB' : forall x d v, In (x, d) out -> length d = n /\ (v < n -> d @ v < K I v)).
      { intros x d v Hi. split; [apply (proj2 T x d); auto|eauto]. }
      clear -HE Hm Ht Hf HB'. induction out as [|[x d] out IH]; cbn [map series_coef fst snd]; auto. rewrite IH.
      - f_equal. assert (Hd : length d = n) by (apply (HB' x d 0); left; auto).
        assert (Hi : divsb (image n (phi I) d) m = true <-> divsb d t = true).
        { rewrite !divsb_iff. unfold image. rewrite tabulate_length, Hd. fold (image n (phi I) d). split.
          - intros [_ H]. split; [lia|]. intros v Hv. specialize (H v Hv). rewrite image_nth in H by auto. apply Hf; auto.
            apply (HB' x d v); auto. left; auto.
          - intros [_ H]. split; [lia|]. intros v Hv. specialize (H v Hv). rewrite image_nth by auto.
            destruct (Hf v Hv) as [F1 [F2 _]]. apply Nat.le_trans with (phi I v (t @ v)); auto.
            apply (emb_le n (K I)); auto. apply (HB' x d v); auto. left; auto. }
        destruct (divsb (image n (phi I) d) m), (divsb d t); auto; exfalso; intuition discriminate.
      - intros y e v Hye. apply (HB' y e v). right; auto. }
    rewrite ES. rewrite (numerator_series n (fun x => (1 - ind n J x)%Z) out t T Ht).
    assert (EI : in_ideal I m <-> inI n J t).
    { rewrite (int_ideal _ _ _ HJ m Hm). split; intros [g [Hg Hle]]; exists g; split; auto; intros v Hv; specialize (Hle v Hv).
      - apply Hf; auto. apply (int_below _ _ _ HJ); auto.
      - destruct (Hf v Hv) as [F1 [F2 _]]. apply Nat.le_trans with (phi I v (t @ v)); auto.
        apply (emb_le n (K I)); auto. apply (int_below _ _ _ HJ); auto. }
    rewrite EI. split; intros H; [rewrite ind_1 by auto|rewrite ind_0 by auto]; reflexivity.
Qed.

Lemma p_multigraded : forall c rnd n I, legal_hilbert_config c -> in_ring n I -> exists p,
  api_multigradedHilbertPoincareSeries c rnd n I = Some (poly_block n p) /\ normal_poly n p /\ multigraded_numerator n I p.
Proof.
  intros c rnd n I Hc Hr. destruct (hil_api c rnd n I (J1 n I) Hc Hr (J1_internal n I (proj1 (in_ring_wf n I) Hr))) as [out [A [B [C D]]]].
  eexists. split; [|split; [exact C|exact D]].
  unfold api_multigradedHilbertPoincareSeries, setIdeal. cbv zeta. cbn [co_n co_ideal co_tr]. fold (J0 n I). fold (J1 n I).
  rewrite A. cbn [bind]. rewrite B. cbn [bind]. unfold emit_poly, poly_block. rewrite !map_map. reflexivity.
Qed.

Lemma in_ideal_dec : forall I m, in_ideal I m \/ ~ in_ideal I m.
Proof.
  intros I m. assert (D : forall a b, divs a b \/ ~ divs a b).
  { induction a as [|x a IH]; intros [|y b]; unfold divs in *.
    - left. constructor.
    - right. intros H; inversion H.
    - right. intros H; inversion H.
    - destruct (le_lt_dec x y) as [L|L]; [|right; intros H; inversion H; lia].
      destruct (IH b) as [H|H]; [left; constructor; auto|right; intros Q; inversion Q; auto]. }
  induction I as [|g I IH].
  - right. intros [g [[] _]].
  - destruct (D g m); [left; exists g; split; [left|]; auto|]. destruct IH as [[h [A B]]|H1]; [left; exists h; split; [right|]; auto|].
    right. intros [h [[<-|A] B]]; auto. apply H1. exists h. auto.
Qed.
Lemma p_numerator_unique : forall n I p q, normal_poly n p -> normal_poly n q ->
  multigraded_numerator n I p -> multigraded_numerator n I q -> Permutation p q.
Proof. intros. apply (numerator_unique n I); auto. intros m. apply in_ideal_dec. Qed.
