(** The Bigatti algorithm: the theorem about the whole run. *)
From Coq Require Import List Arith Bool ZArith Lia Permutation Sorted.
Import ListNotations.
From Verif Require Import Spec Spec_Api Spec_Hilbert Spec_Poly Spec_Bigatti M_Term M_Ideal M_Slice M_Msm M_Api M_Hilbert M_Poly M_Tasks M_Scarf M_Bigatti
  P_Term P_Ideal P_Bridge P_Msm3 P_Corner P_Decomp P_Translator P_Internal P_Hil1 P_Hil6 P_Hil7 P_Hil8 P_Api3 P_Poly P_Poly2 P_Valid P_Scarf1 P_Bigatti1 P_Bigatti2 P_Bigatti3 P_Bigatti4 P_Bigatti5 P_Finish.
Local Open Scope nat_scope.

Lemma J0_internal : forall n I, in_ring n I -> lists_minimal_generators n I I -> internal n I (J0 n I).
Proof.
  intros n I Hr Hm. pose proof (minimal_list_minl n I Hr Hm) as [HN HM]. pose proof (proj1 (in_ring_wf _ _) Hr) as Hw. pose proof (J0_image n I Hw) as HI.
  pose proof (J0_below n I) as HB. pose proof (phi_embedding n I) as HE.
  assert (Inj : forall g, In g (J0 n I) -> In (image n (phi I) g) I) by (intros g Hg; apply (in_map (image n (phi I))) in Hg; rewrite HI in Hg; exact Hg).
  constructor; auto using J0_wf.
  - split.
    + apply (NoDup_map_inv (image n (phi I))). exact (eq_ind_r (fun l => NoDup l) HN HI).
    + intros g h Hg Hh Hle. assert (E : image n (phi I) g = image n (phi I) h).
      { apply HM; auto. intros v Hv. rewrite !image_nth by auto. apply (emb_le n (K I)); auto. }
      apply (image_inj n I); auto; split; auto; try (apply (J0_wf n I); auto); intros v Hv; apply HB; auto.
  - intros m Hl. rewrite (in_ideal_iff n) by auto. split.
    + intros [g [Hg Hle]]. assert (Hg' : In g (map (image n (phi I)) (J0 n I))) by (rewrite HI; auto). apply in_map_iff in Hg'. destruct Hg' as [h [Eh Hh]]. exists h. split; auto.
      intros v Hv. rewrite <- image_nth with (n := n) by auto. rewrite Eh. apply Hle; auto.
    + intros [g [Hg Hle]]. exists (image n (phi I) g). split; auto. intros v Hv. rewrite image_nth by auto. auto.
Qed.
Lemma set_internal : forall minimal n I, in_ring n I -> (minimal = true -> lists_minimal_generators n I I) ->
  exists J, setIdeal minimal n I = mkCommon n J (tr_initialize n I) /\ internal n I J.
Proof.
  intros minimal n I Hr Hm. unfold setIdeal. cbv zeta. eexists. split; [reflexivity|]. destruct minimal.
  - apply J0_internal; auto.
  - apply J1_internal. apply in_ring_wf; auto.
Qed.

Lemma multi_ops_bouts : forall o, multi_ops (bouts o) = Some (map (fun x => OpSigned (fst x) (snd x)) o).
Proof. induction o as [|[p t] o IH]; auto. cbn [bouts map multi_ops fst snd]. fold (bouts o). rewrite IH. auto. Qed.
Lemma uni_ops_spec : forall n I out, Forall (bok n (K I)) out ->
  exists ops, uni_ops n (tr_initialize n I) out = Some ops /\ no_clear ops /\ (forall c e, In (c, e) (flat_map op_pair ops) -> (0 <= e)%Z) /\
    forall w, ksum w (flat_map op_pair ops) = usum n (phi I) w out.
Proof.
  intros n I out H. induction H as [|b out Hb H IH].
  - exists []. split; [auto|]. split; [exact Logic.I|]. split; [intros c e []|]. auto.
  - destruct IH as (ops & E & NC & P & W). destruct b as [p t|c d]; cbn [uni_ops].
    + rewrite tr_degree_ok by auto. cbn [bind]. rewrite E. cbn [bind]. eexists. split; [reflexivity|]. split; [exact NC|]. split.
      * intros c e [Q|Hi]; [|eapply P; eauto]. injection Q as _ <-. rewrite tdeg_degree. lia.
      * intros w. cbn [flat_map op_pair app]. change (ksum w ((sign p, tdeg n (phi I) t) :: flat_map op_pair ops)) with (sign p * w (tdeg n (phi I) t) + ksum w (flat_map op_pair ops))%Z.
        rewrite W. auto.
    + rewrite E. cbn [bind]. eexists. split; [reflexivity|]. split; [exact NC|]. split.
      * intros c' e [Q|Hi]; [|eapply P; eauto]. injection Q as _ <-. exact Hb.
      * intros w. cbn [flat_map op_pair app]. change (ksum w ((c, d) :: flat_map op_pair ops)) with (c * w d + ksum w (flat_map op_pair ops))%Z.
        rewrite W. auto.
Qed.

Lemma progressing_legal : forall n pv, progressing_pivot n pv -> legal n pv.
Proof.
  intros n pv H I Hw Hm Hs. assert (Hr : in_ring n I) by (apply Forall_forall; auto).
  destruct (H I Hr (minl_lists n I Hr Hm) Hs) as (J & p & E & P & Lp & [v [Hv Hp]] & Hn & [g [Hg Hd]]).
  exists J, p. split; auto. split; auto. split; auto. split; [exists v; split; auto; unfold term in *; lia|]. split.
  - intros X. apply Hn. apply (in_ideal_iff n); auto.
  - exists g. split; auto. apply divs_iff; auto.
Qed.
Lemma legal_progressing : forall n pv, legal n pv -> progressing_pivot n pv.
Proof.
  intros n pv H I Hr Hm Hs. pose proof (proj1 (in_ring_wf _ _) Hr) as Hw. pose proof (minimal_list_minl n I Hr Hm) as HM.
  destruct (H I Hw HM Hs) as (J & p & E & P & Lp & [v [Hv Hp]] & Hn & [g [Hg Hd]]).
  exists J, p. split; auto. split; auto. split; auto. split; [exists v; split; auto; unfold term in *; lia|]. split.
  - intros X. apply Hn. apply (in_ideal_iff n); auto.
  - exists g. split; auto. apply (divs_iff n); auto.
Qed.

Lemma run_internal : forall n I J prm pv, internal n I J -> legal n pv -> exists steps, forall fuel, steps <= fuel ->
  exists out o, b_run fuel n prm pv (tr_initialize n I) J = Some out /\ rep n (K I) (phi I) (bp_uni prm) out o /\
    forall m, length m = n -> (fsum (fun x => dvd n x m) o = 1 - ind n J m)%Z.
Proof.
  intros n I J prm pv [Hw Hm HB HI] Hl. exists (Nat.max (cost (length (Kbox n (K I)))) (need n (K I) (mkBS J (t_identity n)))).
  intros fuel Hf. pose proof (phi_embedding n I) as HE.
  apply (run_spec n (tr_initialize n I) (K I) (phi I)).
  - intros t Ht. apply tr_degree_ok; auto.
  - intros v i j Hv Hij Hj. apply (emb_le n (K I)); auto; lia.
  - lia.
  - auto.
  - assert (Q : forall v, v < n -> t_identity n @ v = 0) by (intros; apply t_identity_nth).
    constructor; cbn [bs_I bs_q]; auto; [apply t_identity_length|..].
    + intros v Hv. rewrite Q by auto. destruct (HE v Hv) as [K0 _]. auto.
    + intros g v Hg Hv. rewrite Q by auto. rewrite Nat.add_0_r. apply HB; auto.
  - lia.
Qed.

Theorem p_bigatti_multi : forall n I minimal simplify generic pv arr canonical, in_ring n I ->
  (minimal = true -> lists_minimal_generators n I I) -> progressing_pivot n pv -> rearranges arr ->
  exists steps, forall fuel, steps <= fuel -> exists p,
    series_output n I canonical (bigatti_multigraded fuel simplify generic pv arr canonical (setIdeal minimal n I)) p.
Proof.
  intros n I minimal simplify generic pv arr canonical Hr Hmin Hp Ha.
  destruct (set_internal minimal n I Hr Hmin) as (J & EJ & HJ). rewrite EJ.
  destruct (run_internal n I J (mkBP simplify generic false) pv HJ (progressing_legal n pv Hp)) as [steps Hrun]. exists steps. intros fuel Hf.
  destruct (Hrun fuel Hf) as (out & o & E & R & V). destruct R as [R1 R2 R3 R4].
  destruct (finish_multi n I J o (int_below _ _ _ HJ) (int_ideal _ _ _ HJ) R3 V arr canonical Ha) as (p & T & A & B & C & D).
  exists p. constructor; auto. unfold bigatti_multigraded. cbn [co_n co_tr co_ideal]. rewrite E. cbn [bind]. rewrite (R1 eq_refl), multi_ops_bouts. cbn [bind]. exact T.
Qed.
Theorem p_bigatti_uni : forall n I minimal simplify generic pv arr canonical, in_ring n I ->
  (minimal = true -> lists_minimal_generators n I I) -> progressing_pivot n pv -> rearranges arr ->
  exists steps, forall fuel, steps <= fuel -> exists q,
    uni_series_output n I canonical (bigatti_univariate fuel simplify generic pv arr canonical (setIdeal minimal n I)) q.
Proof.
  intros n I minimal simplify generic pv arr canonical Hr Hmin Hp Ha.
  destruct (set_internal minimal n I Hr Hmin) as (J & EJ & HJ). rewrite EJ.
  destruct (run_internal n I J (mkBP simplify generic true) pv HJ (progressing_legal n pv Hp)) as [steps Hrun]. exists steps. intros fuel Hf.
  destruct (Hrun fuel Hf) as (out & o & E & R & V). destruct R as [R1 R2 R3 R4].
  destruct (uni_ops_spec n I out R2) as (ops & EO & NC & PO & W).
  destruct (finish_uni n I J o (int_below _ _ _ HJ) (int_ideal _ _ _ HJ) R3 V arr ops canonical Ha NC PO) as (q & T & A & B & C & D).
  { intros w. rewrite W. apply R4. }
  exists q. constructor; auto. unfold bigatti_univariate. cbn [co_n co_tr co_ideal]. rewrite E. cbn [bind]. rewrite EO. cbn [bind]. rewrite T. f_equal.
  unfold received, uni_poly. rewrite map_map. apply map_ext. intros. reflexivity.
Qed.
Theorem p_strategy_progressing : forall b widen n, progressing_pivot n (strategy b widen).
Proof. intros. apply legal_progressing, strategy_legal. Qed.
