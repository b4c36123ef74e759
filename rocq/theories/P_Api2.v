(** Alexander duals and associated primes through the API. *)
From Coq Require Import List Arith Bool ZArith Lia Permutation Sorted.
Import ListNotations.
From Verif Require Import Spec Spec_Slice Spec_Run Spec_Api M_Term M_Ideal M_Slice M_Msm M_Api P_Term P_Ideal P_Bridge P_Msm1 P_Process P_Run P_Valid P_Corner P_Decomp P_Translator P_Internal P_Api.

(** ** the lcm of the minimal generators *)
Definition lcmI (n : nat) (I : big_ideal) (J : ideal) : mono := image n (phi I) (i_lcm n J).

Lemma lcm_below : forall n I J v, internal n I J -> v < n -> (i_lcm n J) @ v < K I v.
Proof.
  intros n I J v HJ Hv. destruct (Nat.eq_dec ((i_lcm n J) @ v) 0) as [->|Hp]; [apply K_bounds|].
  destruct (i_lcm_attained n J v Hv ltac:(lia)) as [g [Hg <-]]. apply (int_below _ _ _ HJ); auto.
Qed.

Lemma getLcm_spec : forall n I J, internal n I J -> getLcmOfIdeal (co_of n I J) = Some (znat (lcmI n I J)).
Proof.
  intros n I J HJ. unfold getLcmOfIdeal, co_of. cbn [co_n co_ideal co_tr].
  rewrite (translate_spec n _ _ (fun v => Z.of_nat (phi I v ((i_lcm n J) @ v)))).
  - f_equal. unfold lcmI, image, znat. apply of_nat_tabulate.
  - intros v Hv. rewrite getExponent_eq by auto. pose proof (lcm_below n I J v HJ Hv).
    destruct (Nat.ltb_spec ((i_lcm n J) @ v) (K I v)); [auto|lia].
Qed.

(** minimal generators of I are the images of the generators of J1 *)
Lemma image_minl : forall n I J, wf n I -> internal n I J -> minl n (map (image n (phi I)) J).
Proof.
  intros n I J Hw HJ. apply minl_incl_map with (I := J); try apply incl_refl; [apply (int_minl _ _ _ HJ)|apply (int_minl _ _ _ HJ)|].
  intros g h Hg Hh H v Hv. specialize (H v Hv). rewrite !image_nth in H by auto.
  exact (proj1 (emb_le n (K I) (phi I) v _ _ (phi_embedding n I) Hv (int_below _ _ _ HJ g v Hg Hv) (int_below _ _ _ HJ h v Hh Hv)) H).
Qed.
Lemma image_wf : forall n I J, wf n (map (image n (phi I)) J).
Proof. intros n I J g Hg. apply in_map_iff in Hg. destruct Hg as [h [<- _]]. apply tabulate_length. Qed.

Lemma image_minimal : forall n I J, wf n I -> internal n I J -> lists_minimal_generators n I (map (image n (phi I)) J).
Proof. intros n I J Hw HJ. apply minl_lists_minimal; auto using image_wf, image_minl, image_eqI. Qed.

Lemma above_iff : forall n I J a, wf n I -> internal n I J -> length a = n -> (above_minimal_generators n I a <-> le_n n (lcmI n I J) a).
Proof.
  intros n I J a Hw HJ Ha. destruct (image_minimal n I J Hw HJ) as [_ HM]. split.
  - intros H v Hv. unfold lcmI. rewrite image_nth by auto.
    destruct (Nat.eq_dec ((i_lcm n J) @ v) 0) as [->|Hp]; [rewrite phi_0; lia|].
    destruct (i_lcm_attained n J v Hv ltac:(lia)) as [g [Hg <-]].
    assert (Hd : divs (image n (phi I) g) a) by (apply H, HM, in_map; auto).
    apply (divs_iff n) in Hd; auto; [|apply tabulate_length]. specialize (Hd v Hv). rewrite image_nth in Hd; auto.
  - intros H g Hg. apply HM in Hg. apply in_map_iff in Hg. destruct Hg as [h [<- Hh]].
    apply (divs_iff n); auto; [apply tabulate_length|]. intros v Hv. specialize (H v Hv). unfold lcmI in H.
    rewrite image_nth in * by auto. apply Nat.le_trans with (phi I v ((i_lcm n J) @ v)); auto.
    apply (emb_le n (K I) (phi I)); auto using phi_embedding, lcm_below; [apply (int_below _ _ _ HJ); auto|]. apply i_lcm_ge; auto.
Qed.

Lemma lcmI_least : forall n I J, wf n I -> internal n I J -> lcm_of_minimal_generators n I (lcmI n I J).
Proof.
  intros n I J Hw HJ. split; [apply tabulate_length|]. split.
  - apply (above_iff n I J); auto; [apply tabulate_length|apply le_n_refl].
  - intros a' Ha H. apply (divs_iff n); auto; [apply tabulate_length|]. apply (above_iff n I J); auto.
Qed.

(** ** tables after dualize *)
Lemma dualize_nth : forall tr a k v, v < length tr ->
  nth v (dualize_from tr a k) [] = map (fun e => if (e =? 0)%Z then e else (nth (k + v) a 0 - e + 1)%Z) (nth v tr []).
Proof.
  induction tr as [|t tr IH]; intros a k v Hv; [simpl in Hv; lia|]. simpl in Hv. cbn [dualize_from].
  destruct v as [|v]; cbn [nth]; [rewrite Nat.add_0_r; auto|]. rewrite IH by lia. rewrite <- plus_n_Sm. auto.
Qed.

Lemma corner_comp_le : forall n I J d v, internal n I J -> corner n (Jinf n I J) d -> v < n -> (comp n (K I) (phi I) d) @ v <= (lcmI n I J) @ v.
Proof.
  intros n I J d v HJ Hc Hv. rewrite comp_nth by auto. destruct (Nat.eqb_spec (d @ v) (K I v)) as [|Hne]; [lia|].
  assert (HB : forall g w, In g J -> w < n -> g @ w < K I w) by (intros g w; apply (int_below _ _ _ HJ)).
  pose proof (corner_le_K n (K I) J (Jinf n I J) HB (with_inf n I J) d v Hc Hv).
  destruct (corner_label n (K I) J (Jinf n I J) (with_inf n I J) d v Hc Hv ltac:(lia)) as [g [Hg [E _]]].
  unfold lcmI. rewrite image_nth by auto. rewrite <- E.
  apply (emb_le n (K I) (phi I)); auto using phi_embedding, lcm_below. apply i_lcm_ge; auto.
Qed.

Lemma translate_dual : forall n I J a d, internal n I J -> length a = n -> corner n (Jinf n I J) d -> le_n n (lcmI n I J) a ->
  translate n (tr_dualize (tr_initialize n I) (znat a)) d = Some (znat (reflect_pt n a (comp n (K I) (phi I) d))).
Proof.
  intros n I J a d HJ Ha Hc Hle.
  assert (HB : forall g w, In g J -> w < n -> g @ w < K I w) by (intros g w; apply (int_below _ _ _ HJ)).
  rewrite (translate_spec n _ _ (fun v => Z.of_nat (if (comp n (K I) (phi I) d) @ v =? 0 then 0 else a @ v + 1 - (comp n (K I) (phi I) d) @ v))).
  - f_equal. unfold reflect_pt, znat. apply of_nat_tabulate.
  - intros v Hv. unfold getExponent, tr_dualize.
    rewrite dualize_nth by (unfold tr_initialize; rewrite map_length, seq_length; auto). cbn [Nat.add].
    rewrite nth_error_map, tr_nth, table_nth by auto.
    pose proof (corner_le_K n (K I) J (Jinf n I J) HB (with_inf n I J) d v Hc Hv).
    pose proof (corner_comp_le n I J d v HJ Hc Hv) as Hcl. specialize (Hle v Hv).
    rewrite comp_nth in * by auto. destruct (Nat.ltb_spec (d @ v) (K I v)); destruct (Nat.eqb_spec (d @ v) (K I v)); try lia.
    + cbn [option_map]. destruct (Nat.eqb_spec (phi I v (d @ v)) 0) as [E|E].
      * rewrite E. cbn. auto.
      * destruct (Z.eqb_spec (Z.of_nat (phi I v (d @ v))) 0); [lia|]. rewrite znat_nth. f_equal. lia.
    + cbn. auto.
Qed.

Definition dual_result (n : nat) (I : list mono) (a : mono) (L : list mono) : Prop :=
  in_ring n L /\ lists_minimal n (in_alexander_dual I a) L /\ (forall g, In g L -> divs g a).

Lemma g_dual : forall c rnd n I J a, legal_config c -> in_ring n I -> internal n I J -> length a = n -> above_minimal_generators n I a ->
  exists L, computeAlexanderDual c rnd (co_of n I J) (znat a) = Some (Some (block n L)) /\ dual_result n I a L.
Proof.
  intros c rnd n I J a Hc Hr HJ Ha HA. pose proof Hr as Hw. apply in_ring_wf in Hw.
  apply (above_iff n I J a Hw HJ Ha) in HA. destruct (encoded_spec c rnd n I J Hc Hw HJ) as [out [A [B [C [E F]]]]].
  set (D := map (comp n (K I) (phi I)) out) in *. exists (map (reflect_pt n a) D).
  assert (Hle : forall x, In x D -> le_n n x a).
  { intros x Hx v Hv. apply in_map_iff in Hx. destruct Hx as [d [<- Hd]]. apply C in Hd.
    pose proof (corner_comp_le n I J d v HJ Hd Hv). specialize (HA v Hv). lia. }
  split.
  - unfold computeAlexanderDual. rewrite getLcm_spec by auto. cbn [bind].
    assert (X : existsb (fun v => (nth v (znat a) 0 <? nth v (znat (lcmI n I J)) 0)%Z) (seq 0 (length (znat (lcmI n I J)))) = false).
    { apply not_true_false. intros X. apply existsb_exists in X. destruct X as [v [Hv X]]. apply in_seq in Hv.
      unfold znat in Hv. rewrite map_length in Hv. unfold lcmI, image in Hv. rewrite tabulate_length in Hv.
      rewrite !znat_nth in X. specialize (HA v ltac:(lia)). apply Z.ltb_lt in X. lia. }
    rewrite X, A. cbn [bind co_of co_n co_tr].
    rewrite (emit_block n _ out (fun d => reflect_pt n a (comp n (K I) (phi I) d))).
    + unfold D. rewrite map_map. auto.
    + intros d Hd. apply (translate_dual n I J); auto. apply C; auto.
  - split; [|split].
    + apply in_ring_wf. intros g Hg. apply in_map_iff in Hg. destruct Hg as [x [<- _]]. apply tabulate_length.
    + destruct (dual_gens n I D a Hw F Ha Hle) as [G1 [G2 G3]]. split; auto.
    + intros g Hg. apply in_map_iff in Hg. destruct Hg as [x [<- Hx]]. apply (divs_iff n); auto; [apply tabulate_length|].
      intros v Hv. unfold reflect_pt. rewrite tabulate_nth by auto. destruct (Nat.eqb_spec (x @ v) 0); lia.
Qed.

Lemma g_dual_reject : forall c rnd n I J point, in_ring n I -> internal n I J -> length point = n ->
  ~ (exists a, point = znat a /\ above_minimal_generators n I a) ->
  computeAlexanderDual c rnd (co_of n I J) point = Some None.
Proof.
  intros c rnd n I J point Hr HJ Hl Hn. apply in_ring_wf in Hr. unfold computeAlexanderDual. rewrite getLcm_spec by auto. cbn [bind].
  destruct (existsb _ _) eqn:X; auto. exfalso. apply Hn.
  assert (HL : length (lcmI n I J) = n) by apply tabulate_length.
  assert (H : forall v, v < n -> (Z.of_nat ((lcmI n I J) @ v) <= nth v point 0)%Z).
  { intros v Hv. rewrite not_true_false in X. destruct (Z_le_gt_dec (Z.of_nat ((lcmI n I J) @ v)) (nth v point 0%Z)); auto. exfalso. apply X.
    apply existsb_exists. exists v. split; [apply in_seq; unfold znat; rewrite map_length; lia|]. rewrite znat_nth. apply Z.ltb_lt. lia. }
  exists (map Z.to_nat point). assert (El : length (map Z.to_nat point) = n) by (rewrite map_length; auto). split.
  - unfold znat. rewrite map_map. rewrite <- (map_id point) at 1. apply map_ext_in. intros e He.
    apply In_nth with (d := 0%Z) in He. destruct He as [v [Hv <-]]. specialize (H v ltac:(lia)). lia.
  - apply (above_iff n I J); auto. intros v Hv. specialize (H v Hv).
    change ((map Z.to_nat point) @ v) with (nth v (map Z.to_nat point) (Z.to_nat 0)). rewrite map_nth. lia.
Qed.

Lemma p_dual : forall c rnd n I a, legal_config c -> in_ring n I -> length a = n -> above_minimal_generators n I a ->
  exists L, computeAlexanderDual c rnd (setIdeal false n I) (znat a) = Some (Some (block n L)) /\ dual_result n I a L.
Proof. intros. rewrite set_co. apply g_dual; auto. apply J1_internal, in_ring_wf; auto. Qed.
Lemma p_dual_reject : forall c rnd n I point, in_ring n I -> length point = n ->
  ~ (exists a, point = znat a /\ above_minimal_generators n I a) ->
  computeAlexanderDual c rnd (setIdeal false n I) point = Some None.
Proof. intros. rewrite set_co. apply g_dual_reject; auto. apply J1_internal, in_ring_wf; auto. Qed.

(** ** C07-C10 *)
Lemma p_api_dual : forall c rnd n I a, legal_config c -> in_ring n I -> length a = n -> above_minimal_generators n I a ->
  exists L, api_alexanderDual c rnd n I (Some (znat a)) = Some (true, block n L) /\ lists_minimal n (in_alexander_dual I a) L.
Proof.
  intros c rnd n I a Hc Hr Ha HA. destruct (p_dual c rnd n I a Hc Hr Ha HA) as [L [E [_ [F _]]]].
  exists L. split; auto. unfold api_alexanderDual. rewrite E. auto.
Qed.

Lemma p_api_default : forall c rnd n I, legal_config c -> in_ring n I -> exists a L,
  lcm_of_minimal_generators n I a /\ api_alexanderDual c rnd n I None = Some (true, block n L) /\
  api_alexanderDual c rnd n I (Some (znat a)) = Some (true, block n L).
Proof.
  intros c rnd n I Hc Hr. pose proof Hr as Hw. apply in_ring_wf in Hw. pose proof (lcmI_least n I (J1 n I) Hw (J1_internal n I Hw)) as HL.
  destruct HL as [H1 [H2 H3]]. destruct (p_dual c rnd n I (lcmI n I (J1 n I)) Hc Hr H1 H2) as [L [E _]].
  exists (lcmI n I (J1 n I)), L. split; [split; auto|]. unfold api_alexanderDual, computeAlexanderDualLcm. rewrite set_co in *. rewrite getLcm_spec by (apply J1_internal; auto). cbn [bind].
  rewrite E. cbn [bind]. auto.
Qed.

Definition good_point (n : nat) (I : list mono) (point : list Z) : Prop :=
  exists a, point = znat a /\ above_minimal_generators n I a.

Lemma p_api_bad : forall c rnd n I point, legal_config c -> in_ring n I -> length point = n ->
  ((exists a, point = znat a /\ above_minimal_generators n I a) <-> exists evs, api_alexanderDual c rnd n I (Some point) = Some (true, evs)) /\
  (~ (exists a, point = znat a /\ above_minimal_generators n I a) <-> api_alexanderDual c rnd n I (Some point) = Some (false, [])).
Proof.
  intros c rnd n I point Hc Hr Hl.
  assert (Hy : (exists a, point = znat a /\ above_minimal_generators n I a) -> exists evs, api_alexanderDual c rnd n I (Some point) = Some (true, evs)).
  { intros [a [-> HA]]. unfold znat in Hl. rewrite map_length in Hl. destruct (p_api_dual c rnd n I a Hc Hr Hl HA) as [L [E _]]. eauto. }
  assert (Hno : ~ (exists a, point = znat a /\ above_minimal_generators n I a) -> api_alexanderDual c rnd n I (Some point) = Some (false, [])).
  { intros H. unfold api_alexanderDual. rewrite (p_dual_reject c rnd n I point Hr Hl H). auto. }
  assert (Hdec : (exists a, point = znat a /\ above_minimal_generators n I a) \/ ~ (exists a, point = znat a /\ above_minimal_generators n I a)).
  { pose proof Hr as Hw. apply in_ring_wf in Hw.
    destruct (forallb (fun v => (Z.of_nat ((lcmI n I (J1 n I)) @ v) <=? nth v point 0)%Z) (seq 0 n)) eqn:X.
    - left. rewrite forallb_seq in X. exists (map Z.to_nat point). assert (El : length (map Z.to_nat point) = n) by (rewrite map_length; auto). split.
      + unfold znat. rewrite map_map. rewrite <- (map_id point) at 1. apply map_ext_in. intros e He.
        apply In_nth with (d := 0%Z) in He. destruct He as [v [Hv <-]]. specialize (X v ltac:(lia)). apply Z.leb_le in X. lia.
      + apply (above_iff n I (J1 n I)); auto using J1_internal. intros v Hv. specialize (X v Hv). apply Z.leb_le in X.
        change ((map Z.to_nat point) @ v) with (nth v (map Z.to_nat point) (Z.to_nat 0)). rewrite map_nth. lia.
    - right. intros [a [-> HA]]. rewrite not_true_false in X. apply X. apply forallb_seq. intros v Hv.
      unfold znat in Hl. rewrite map_length in Hl. apply (above_iff n I (J1 n I) a Hw (J1_internal n I Hw) Hl) in HA. specialize (HA v Hv). rewrite znat_nth. apply Z.leb_le. lia. }
  split; split; auto.
  - intros [evs E]. destruct Hdec as [|Hn]; auto. rewrite (Hno Hn) in E. discriminate.
  - intros E Hy'. destruct (Hy Hy') as [evs E']. rewrite E in E'. discriminate.
Qed.

Lemma p_api_dualIdeal : forall c rnd n I n' R, legal_config c -> in_ring n I -> in_ring n' R ->
  match R with
  | [r] => if Nat.eqb n' n then api_alexanderDualIdeal c rnd n I n' R = api_alexanderDual c rnd n I (Some (znat r))
           else api_alexanderDualIdeal c rnd n I n' R = Some (false, [])
  | _ => api_alexanderDualIdeal c rnd n I n' R = Some (false, [])
  end.
Proof.
  intros c rnd n I n' R Hc Hr HR. destruct R as [|r [|r2 R]]; auto. unfold api_alexanderDualIdeal.
  destruct (Nat.eqb_spec n' n) as [E|]; auto. destruct (Nat.ltb_spec 0 n') as [L|L]; auto.
  assert (n = 0) by lia. assert (n' = 0) by lia. subst n n'. inversion HR as [|? ? Hr0 _]; subst. destruct r; [|discriminate].
  destruct (p_api_default c rnd 0 I Hc Hr) as [a [L' [H1 [H2 H3]]]]. destruct H1 as [H1 _]. destruct a; [|discriminate].
  rewrite H2, <- H3. auto.
Qed.

Lemma p_api_involution : forall c rnd c' rnd' n I a, legal_config c -> legal_config c' -> in_ring n I -> length a = n ->
  above_minimal_generators n I a -> exists L L',
  api_alexanderDual c rnd n I (Some (znat a)) = Some (true, block n L) /\
  api_alexanderDual c' rnd' n L (Some (znat a)) = Some (true, block n L') /\ lists_minimal_generators n I L'.
Proof.
  intros c rnd c' rnd' n I a Hc Hc' Hr Ha HA. destruct (p_dual c rnd n I a Hc Hr Ha HA) as [L [E [F1 [F2 F3]]]].
  assert (HA' : above_minimal_generators n L a).
  { intros g [Hg [Hi Hu]]. destruct Hi as [h [Hh Hd]]. assert (h = g); [|subst; auto]. apply Hu; auto.
    exists h. split; auto. clear -h. induction h; constructor; auto. }
  destruct (p_dual c' rnd' n L a Hc' F1 Ha HA') as [L' [E' [F1' [F2' F3']]]].
  exists L, L'. unfold api_alexanderDual. rewrite E, E'. split; auto. split; auto.
  pose proof Hr as Hw. apply in_ring_wf in Hw. pose proof F1 as HwL. apply in_ring_wf in HwL. pose proof F1' as HwL'. apply in_ring_wf in HwL'.
  destruct F2 as [G1 [G2 G3]]. destruct F2' as [G1' [G2' G3']].
  assert (Hminex : forall m, length m = n -> in_ideal I m -> exists g, minimal_generator n I g /\ le_n n g m).
  { intros m Hm Hi. apply (in_ideal_iff n) in Hi; auto. apply (image_eqI n I (J1 n I) Hw (J1_internal n I Hw)) in Hi. destruct Hi as [g [Hg Hle]].
    exists g. split; auto. apply (image_minimal n I (J1 n I) Hw (J1_internal n I Hw)). auto. }
  assert (HD : forall m, length m = n -> (in_alexander_dual L a m <-> in_ideal I m)).
  { intros m Hm. apply (dual_dual n); auto.
    - right. intros g Hg. pose proof (HA g Hg) as Hd. destruct Hg as [Hg _]. apply (divs_iff n) in Hd; auto.
    - intros m0 Hm0. rewrite (in_ideal_iff n) by auto. apply i_contains_dec. }
  split; auto. intros g. rewrite G2'. unfold minimal_in, minimal_generator. split; intros [A [B C]]; split; auto.
  - split; [apply HD; auto|]. intros h Hh Hd. assert (length h = n) by (apply divs_length in Hd; congruence). apply C; auto. apply HD; auto.
  - split; [apply HD; auto|]. intros h Hl Hh Hd. apply C; auto. apply HD; auto.
Qed.
