(** The Scarf algorithm: deforming, enumerating and undeforming. *)
From Coq Require Import List Arith Bool ZArith Lia Permutation Sorted.
Import ListNotations.
From Verif Require Import Spec Spec_Slice Spec_Api Spec_Hilbert Spec_Poly Spec_Bigatti Spec_Scarf M_Term M_Ideal M_Slice M_Msm M_Api M_Hilbert M_Poly M_Tasks M_Scarf
  P_Term P_Ideal P_Bridge P_Msm3 P_Corner P_Decomp P_Translator P_Internal P_Hil1 P_Hil6 P_Hil7 P_Hil8 P_Api3 P_Poly P_Poly2 P_Valid P_Scarf1 P_Bigatti1 P_Bigatti2 P_Bigatti3 P_Bigatti5 P_Finish P_Bigatti6 P_Generic
  P_Tree P_Deform1 P_Deform2 P_Scarf2.
Local Open Scope nat_scope.

(** ** Gaps *)
Lemma gapfree_iff : forall n I, (forall w, w < n -> gapfree w I) <-> gap_free n I.
Proof.
  intros n I. split.
  - intros H g v e Hg Hv He. apply in_nth_iff in Hg. destruct Hg as [i [Hi <-]]. destruct (H v Hv i e Hi He) as [j [Hj E]]. exists (ge I j). split; [apply nth_In; auto|exact E].
  - intros H w Hw i e Hi He. destruct (H (ge I i) w e (nth_In _ _ Hi) Hw He) as [h [Hh E]]. apply in_nth_iff in Hh. destruct Hh as [j [Hj <-]]. exists j. auto.
Qed.
Lemma gap_free_perm : forall n I J, Permutation I J -> gap_free n I -> gap_free n J.
Proof.
  intros n I J P H g v e Hg Hv He. destruct (H g v e (Permutation_in _ (Permutation_sym P) Hg) Hv He) as [h [Hh E]]. exists h. split; auto. eapply Permutation_in; eauto.
Qed.
Lemma internal_image : forall n I J h, internal n I J -> minimal_generator n I h -> exists j, In j J /\ image n (phi I) j = h.
Proof.
  intros n I J h HJ (Lh & Ih & Mh). apply (int_ideal _ _ _ HJ h Lh) in Ih. destruct Ih as [j [Hj Hle]]. exists j. split; auto. apply Mh.
  - apply (int_ideal _ _ _ HJ); [apply tabulate_length|]. exists j. split; auto. intros v Hv. rewrite image_nth by auto. auto.
  - apply (divs_iff n); [apply tabulate_length|auto|]. intros v Hv. rewrite image_nth by auto. auto.
Qed.
Lemma internal_gap_free : forall n I J, internal n I J -> exponents_of_minimal_generators n I -> gap_free n J.
Proof.
  intros n I J HJ HM g v e Hg Hv He. pose proof (int_below _ _ _ HJ g v Hg Hv) as Hb. assert (He2 : e < K I v) by (unfold term in *; lia).
  assert (Hp : 0 < phi I v e) by (rewrite <- (phi_0 I v); apply phi_lt; lia).
  assert (Hi : In (phi I v e) (U I v)) by (apply nth_In; exact He2). apply U_in in Hi. destruct Hi as [Hi|[g' [Hg' Hi]]]; [lia|].
  destruct (HM g' v Hg' Hv ltac:(lia)) as [h [Hh E]]. destruct (internal_image n I J h HJ Hh) as [j [Hj Ej]]. exists j. split; auto.
  assert (Q : phi I v (j @ v) = phi I v e) by (rewrite <- image_nth with (n := n) by auto; rewrite Ej; unfold term in *; lia).
  pose proof (int_below _ _ _ HJ j v Hj Hv) as Hb2. destruct (Nat.lt_trichotomy (j @ v) e) as [X|[X|X]]; auto.
  - pose proof (phi_lt I v _ _ X He2). lia.
  - pose proof (phi_lt I v _ _ X Hb2). lia.
Qed.

(** ** Deformations *)
Lemma lcm_list_eq : forall n l, wf n l -> lcm_list n l = fold_right (t_lcm n) (t_identity n) l.
Proof.
  intros n l H. assert (G : lcm_list n l = fold_right (t_lcm n) (t_identity n) l /\ length (fold_right (t_lcm n) (t_identity n) l) = n); [|tauto].
  induction l as [|a l IH]; [split; [|apply t_identity_length]|].
  - cbn. apply term_ext with n; [apply repeat_length|apply t_identity_length|]. intros v Hv. rewrite t_identity_nth. apply nth_repeat.
  - destruct IH as [E L]; [intros x Hx; apply H; simpl; auto|]. unfold lcm_list in *. cbn [fold_right]. split; [|apply t_lcm_length]. rewrite E. apply pair_lcm_eq; auto. apply H; simpl; auto.
Qed.
Lemma deformation_holds : forall n strong order I, wf n (order I) ->
  deformation n (order I) (fst (deformer n strong order I)) (undeform n (snd (deformer n strong order I))).
Proof.
  intros n strong order I Hw. pose proof (deformer_spec n strong order I Hw) as HD. destruct (deformer n strong order I) as [D tabs]. cbn [fst snd] in *.
  pose proof (de_len _ _ _ _ _ HD) as LD. constructor.
  - exact LD.
  - apply in_ring_wf. apply (de_wf _ _ _ _ _ HD).
  - intros i v Hi Hv. apply (de_order _ _ _ _ _ HD i i v Hi Hi Hv).
  - intros i j v Hi Hj Hv. apply (de_order _ _ _ _ _ HD i j v Hi Hj Hv).
  - intros ps Hps. assert (WD : wf n (at_positions D ps)).
    { intros x Hx. apply in_map_iff in Hx. destruct Hx as [i [<- Hi]]. rewrite Forall_forall in Hps. apply (de_wf _ _ _ _ _ HD). apply nth_In. exact (eq_ind_r (fun k => i < k) (Hps i Hi) LD). }
    assert (WI : wf n (at_positions (order I) ps)).
    { intros x Hx. apply in_map_iff in Hx. destruct Hx as [i [<- Hi]]. rewrite Forall_forall in Hps. apply Hw. apply nth_In. auto. }
    rewrite !lcm_list_eq by auto. clear WD WI.
    assert (G : in_tables n tabs (fold_right (t_lcm n) (t_identity n) (at_positions D ps)) /\
      undef n tabs (fold_right (t_lcm n) (t_identity n) (at_positions D ps)) = fold_right (t_lcm n) (t_identity n) (at_positions (order I) ps)).
    { induction Hps as [|i ps Hi Hps IH]; [apply (un_1 _ _ _ _ _ HD)|]. destruct IH as [IH1 IH2]. unfold at_positions in *. cbn [map fold_right].
      assert (Hin : In (ge D i) D) by (apply nth_In; exact (eq_ind_r (fun k => i < k) Hi LD)).
      destruct (in_D _ _ _ _ _ HD Hw _ Hin) as [T _].
      destruct (un_lcm _ _ _ _ _ HD _ _ T IH1) as [X1 X2]. split; auto. etransitivity; [exact X2|]. f_equal; [|exact IH2]. apply (un_nth _ _ _ _ _ HD Hw); auto. }
    rewrite undeform_eq by tauto. f_equal. tauto.
Qed.
Lemma deformer_strong : forall n order I, wf n (order I) -> NoDup (order I) -> strongly_generic n (fst (deformer n true order I)).
Proof.
  intros n order I Hw HN. pose proof (deformer_spec n true order I Hw) as HD. destruct (deformer n true order I) as [D tabs]. cbn [fst snd] in *.
  intros a b v Ha Hb Hab Hv E. destruct (Nat.eq_dec (nth v a 0) 0) as [|X]; auto. exfalso.
  destruct (D_generic _ _ _ _ _ HD HN (or_introl eq_refl) a b v Ha Hb Hab Hv E) as [Y _]; [unfold term in *; lia|discriminate].
Qed.
Lemma deformer_generic : forall n strong order I, wf n (order I) -> NoDup (order I) -> strong = true \/ gap_free n (order I) ->
  forall a b w, In a (fst (deformer n strong order I)) -> In b (fst (deformer n strong order I)) -> a <> b -> w < n -> a @ w = b @ w -> 0 < a @ w ->
    exists g, In g (fst (deformer n strong order I)) /\ sdiv_n n g (t_lcm n a b).
Proof.
  intros n strong order I Hw HN G a b w Ha Hb Hab Hv E P. pose proof (deformer_spec n strong order I Hw) as HD. destruct (deformer n strong order I) as [D tabs]. cbn [fst snd] in *.
  destruct (D_generic _ _ _ _ _ HD HN) with (a := a) (b := b) (w := w); auto. destruct G as [G|G]; auto. right. apply gapfree_iff. auto.
Qed.
Lemma deformer_weak : forall n strong order I, wf n (order I) -> NoDup (order I) -> strong = true \/ gap_free n (order I) -> weakly_generic n (fst (deformer n strong order I)).
Proof.
  intros n strong order I Hw HN G a b v Ha Hb Hab Hv E P. destruct (deformer_generic n strong order I Hw HN G a b v Ha Hb Hab Hv E P) as [g [Hg S]].
  pose proof (de_wf _ _ _ _ _ (deformer_spec n strong order I Hw)) as HW. exists g. split; auto.
  rewrite (pair_lcm_eq n) by auto. apply (sdiv_iff n); auto using t_lcm_length.
Qed.

(** ** The terms *)
Lemma undeform_all_eq : forall n tabs l, Forall (fun x => in_tables n tabs (snd x)) l -> undeform_all n tabs l = Some (map (fun x => (fst x, undef n tabs (snd x))) l).
Proof.
  intros n tabs l H. induction H as [|[p t] l Ht H IH]; auto. cbn [undeform_all map fst snd] in *. rewrite undeform_eq by auto. rewrite IH. auto.
Qed.
Lemma fsum_map : forall (f : term -> term) h l, fsum h (map (fun x => (fst x, f (snd x))) l) = fsum (fun t => h (f t)) l.
Proof. intros. unfold fsum. rewrite map_map. auto. Qed.
Lemma scarf_terms_spec : forall n J B strong dord eord, wf n J -> NoDup J -> below n B J -> (forall w, w < n -> 0 < B w) -> Permutation (dord J) J -> (forall l, Permutation (eord l) l) -> strong = true \/ gap_free n J ->
  forall fuel, cost (length J) <= fuel -> exists o, scarf_terms fuel n strong dord eord J = Some o /\ Forall (fun x => okt n B (snd x)) o /\
    forall m, length m = n -> fsum (fun x => dvd n x m) o = (1 - ind n J m)%Z.
Proof.
  intros n J B strong dord eord Hw HN HB B0 HPd HPe HG fuel Hf.
  assert (HwO : wf n (dord J)) by (intros x Hx; apply Hw; eapply Permutation_in; eauto).
  assert (HNO : NoDup (dord J)) by (eapply Permutation_NoDup; [apply Permutation_sym; eauto|auto]).
  assert (HGO : strong = true \/ gap_free n (dord J)) by (destruct HG as [HG|HG]; auto; right; eapply gap_free_perm; [apply Permutation_sym; eauto|auto]).
  pose proof (deformer_spec n strong dord J HwO) as HD. pose proof (deformer_generic n strong dord J HwO HNO HGO) as HQ.
  unfold scarf_terms. destruct (deformer n strong dord J) as [D tabs]. cbn [fst snd] in *.
  pose proof (D_nodup _ _ _ _ _ HD HwO HNO) as ND. pose proof (un_map _ _ _ _ _ HD HwO) as UM. pose proof (HPe D) as PD. set (L := eord D) in *.
  assert (LL : length L = length J) by (rewrite (Permutation_length PD), (de_len _ _ _ _ _ HD), (Permutation_length HPd); auto).
  assert (WL : wf n L) by (intros x Hx; apply (de_wf _ _ _ _ _ HD); eapply Permutation_in; eauto).
  assert (NL : NoDup L) by (eapply Permutation_NoDup; [apply Permutation_sym; eauto|auto]).
  assert (GL : forall a b w, In a L -> In b L -> a <> b -> w < n -> a @ w = b @ w -> 0 < a @ w -> exists g, In g L /\ sdiv_n n g (t_lcm n a b)).
  { intros a b w Ha Hb Hab Hv E P. destruct (HQ a b w) as [g [Hg S]]; auto; try (eapply Permutation_in; eauto). exists g. split; auto. eapply Permutation_in; [apply Permutation_sym; eauto|auto]. }
  assert (CL : length J <= cost (length J)) by (clear; induction (length J) as [|k IH]; [lia|rewrite cost_S; lia]).
  destruct (scarfComplex_spec fuel n L WL NL GL) as (o & EO & HO); [rewrite LL; lia|rewrite LL; auto|]. rewrite EO. cbn [bind].
  assert (TL : forall g, In g L -> in_tables n tabs g) by (intros g Hg; apply (in_D _ _ _ _ _ HD HwO); eapply Permutation_in; eauto).
  assert (PU : Permutation (map (undef n tabs) L) J).
  { etransitivity; [apply Permutation_map; exact PD|]. rewrite UM. exact HPd. }
  assert (FT : forall l plus t, incl l L -> in_tables n tabs t -> okt n B (undef n tabs t) ->
     Forall (fun x => in_tables n tabs (snd x) /\ okt n B (undef n tabs (snd x))) (faces n (bad n L) plus t l)).
  { induction l as [|g l IH]; intros plus t Hi Ht Hok; cbn [faces]; [constructor; auto|]. apply Forall_app. split.
    - destruct (bad n L (t_lcm n t g)); [constructor|]. assert (Hg : In g L) by (apply Hi; simpl; auto). destruct (un_lcm _ _ _ _ _ HD t g Ht (TL g Hg)) as [X1 X2].
      apply IH; auto; [intros x Hx; apply Hi; simpl; auto|]. rewrite X2. split; [apply t_lcm_length|]. intros v Hv. rewrite t_lcm_nth by auto. destruct Hok as [_ Hok]. specialize (Hok v Hv).
      assert (In (undef n tabs g) J) by (eapply Permutation_in; [exact PU|apply in_map; auto]). pose proof (HB _ v H Hv). unfold term in *. lia.
    - apply IH; auto. intros x Hx. apply Hi; simpl; auto. }
  assert (TT : forall h l t, incl l L -> in_tables n tabs t -> taylor n (fun x => h (undef n tabs x)) t l = taylor n h (undef n tabs t) (map (undef n tabs) l)).
  { intros h. induction l as [|g l IH]; intros t Hi Ht; cbn [taylor map]; auto. assert (Hg : In g L) by (apply Hi; simpl; auto). destruct (un_lcm _ _ _ _ _ HD t g Ht (TL g Hg)) as [X1 X2].
    rewrite !IH by (auto; intros x Hx; apply Hi; simpl; auto). rewrite X2. auto. }
  destruct (un_1 _ _ _ _ _ HD) as [T1 U1].
  assert (FO : Forall (fun x => in_tables n tabs (snd x) /\ okt n B (undef n tabs (snd x))) o).
  { destruct HO as [[_ ->]|[_ ->]]; [constructor|]. apply FT; auto using incl_refl. rewrite U1. split; [apply t_identity_length|]. intros v Hv. rewrite t_identity_nth. auto. }
  rewrite undeform_all_eq by (eapply Forall_impl; [|exact FO]; cbn beta; tauto).
  exists (map (fun x => (fst x, undef n tabs (snd x))) o). split; auto. split.
  { apply Forall_forall. intros x Hx. apply in_map_iff in Hx. destruct Hx as [y [<- Hy]]. cbn [snd]. rewrite Forall_forall in FO. apply FO in Hy. tauto. }
  intros m Hm. rewrite fsum_map.
  assert (IE : ind n (map (undef n tabs) L) m = ind n J m).
  { assert (Q : inI n (map (undef n tabs) L) m <-> inI n J m).
    { split; intros [g [Hg Hle]]; exists g; split; auto; [eapply Permutation_in; eauto|]. eapply Permutation_in; [apply Permutation_sym; exact PU|auto]. }
    unfold ind. destruct (i_contains n (map (undef n tabs) L) m) eqn:X, (i_contains n J m) eqn:Y; auto; exfalso; rewrite ?not_true_false, ?i_contains_iff in *; tauto. }
  destruct HO as [[E ->]|[E ->]].
  - cbn [fsum map]. apply identity_dec in E. destruct E as [g [Hg Z]].
    assert (inI n J m).
    { exists (undef n tabs g). split; [eapply Permutation_in; [exact PU|apply in_map; auto]|]. intros w Hw'. unfold undef. rewrite tabulate_nth by auto. rewrite Z by auto.
      destruct (de_tab _ _ _ _ _ HD w Hw') as (_ & _ & A & _ & _). rewrite A. lia. }
    rewrite ind_1 by auto. reflexivity.
  - etransitivity; [exact (scarf_sum n L L (fun t => dvd n (undef n tabs t) m) (incl_refl L))|].
    rewrite (TT (fun x => dvd n x m)) by (auto using incl_refl). rewrite U1, taylor_series, IE.
    assert (D1 : dvd n (t_identity n) m = 1%Z); [|rewrite D1; lia]. unfold dvd. rewrite (proj2 (t_dominates_iff n m (t_identity n))); auto. intros v Hv. rewrite t_identity_nth. lia.
Qed.

Lemma degrees_all_eq : forall n I l, Forall (fun x => okt n (K I) (snd x)) l -> degrees_all n (tr_initialize n I) l = Some (map (fun x => (fst x, tdeg n (phi I) (snd x))) l).
Proof.
  intros n I l H. induction H as [|[p t] l Ht H IH]; auto. cbn [degrees_all map fst snd] in *. rewrite tr_degree_ok by auto. rewrite IH. auto.
Qed.
(** ** The whole run *)
Theorem p_scarf_multi : forall n I minimal strong dord eord arr canonical, in_ring n I ->
  (minimal = true -> lists_minimal_generators n I I) -> (forall l, Permutation (dord l) l) -> (forall l, Permutation (eord l) l) -> rearranges arr ->
  strong = true \/ exponents_of_minimal_generators n I ->
  exists steps, forall fuel, steps <= fuel -> exists p,
    series_output n I canonical (scarf_multigraded fuel strong dord eord arr canonical (setIdeal minimal n I)) p.
Proof.
  intros n I minimal strong dord eord arr canonical Hr Hmin Hd He Ha HG.
  destruct (set_internal minimal n I Hr Hmin) as (J & EJ & HJ). rewrite EJ. exists (cost (length J)). intros fuel Hf.
  destruct (scarf_terms_spec n J (K I) strong dord eord) with (fuel := fuel) as (o & E & R & V); auto; try apply HJ.
  - intros w _. apply K_bounds.
  - destruct HG as [HG|HG]; auto. right. eapply internal_gap_free; eauto.
  - destruct (finish_adds n I J o (int_below _ _ _ HJ) (int_ideal _ _ _ HJ) R V arr canonical Ha) as (p & T & A & B & C & D).
    exists p. constructor; auto. unfold scarf_multigraded. cbn [co_n co_tr co_ideal]. rewrite E. cbn [bind]. exact T.
Qed.
Theorem p_scarf_uni : forall n I minimal strong dord eord arr canonical, in_ring n I ->
  (minimal = true -> lists_minimal_generators n I I) -> (forall l, Permutation (dord l) l) -> (forall l, Permutation (eord l) l) -> rearranges arr ->
  strong = true \/ exponents_of_minimal_generators n I ->
  exists steps, forall fuel, steps <= fuel -> exists q,
    uni_series_output n I canonical (scarf_univariate fuel strong dord eord arr canonical (setIdeal minimal n I)) q.
Proof.
  intros n I minimal strong dord eord arr canonical Hr Hmin Hd He Ha HG.
  destruct (set_internal minimal n I Hr Hmin) as (J & EJ & HJ). rewrite EJ. exists (cost (length J)). intros fuel Hf.
  destruct (scarf_terms_spec n J (K I) strong dord eord) with (fuel := fuel) as (o & E & R & V); auto; try apply HJ.
  - intros w _. apply K_bounds.
  - destruct HG as [HG|HG]; auto. right. eapply internal_gap_free; eauto.
  - set (ops := map (fun x : bool * Z => OpAdd (sign (fst x)) (snd x)) (map (fun x => (fst x, tdeg n (phi I) (snd x))) o)).
    assert (FP : flat_map op_pair ops = map (fun x => (sign (fst x), tdeg n (phi I) (snd x))) o) by (unfold ops; clear; induction o as [|x l IH]; cbn; auto; f_equal; auto).
    destruct (finish_uni n I J o (int_below _ _ _ HJ) (int_ideal _ _ _ HJ) R V arr ops canonical Ha) as (q & T & A & B & C & D).
    + unfold ops. clear. induction o as [|x l IH]; cbn; auto.
    + intros c e Hi. rewrite FP in Hi. apply in_map_iff in Hi. destruct Hi as [x [Q _]]. injection Q as _ <-. rewrite tdeg_degree. lia.
    + intros w. rewrite FP. unfold ksum, fsum. rewrite map_map. auto.
    + exists q. constructor; auto. unfold scarf_univariate. cbn [co_n co_tr co_ideal]. rewrite E. cbn [bind]. rewrite degrees_all_eq by auto. cbn [bind]. fold ops. rewrite T. f_equal.
      unfold received, uni_poly. rewrite map_map. apply map_ext. intros. reflexivity.
Qed.
Lemma minimal_exponents : forall n I, in_ring n I -> lists_minimal_generators n I I -> exponents_of_minimal_generators n I.
Proof. intros n I _ [_ H] g v Hg _ _. exists g. split; auto. apply H. auto. Qed.
