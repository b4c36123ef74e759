(** Deforming all variables, and enumerating the faces of the Scarf complex. *)
From Coq Require Import List Arith Bool ZArith Lia Permutation Sorted.
Import ListNotations.
From Verif Require Import M_Term M_Ideal M_Api M_Scarf P_Term P_Ideal P_Translator P_Tree P_Deform1.
Local Open Scope nat_scope.
Notation ge l i := (nth i l (@nil nat)).

Definition table_ok (I D : ideal) (w : nat) (tab : list nat) : Prop :=
  (forall i, i < length I -> ((ge D i) @ w = 0 <-> (ge I i) @ w = 0)) /\
  (forall i, i < length I -> (ge D i) @ w < length tab /\ nth ((ge D i) @ w) tab 0 = (ge I i) @ w) /\
  nth 0 tab 0 = 0 /\ 0 < length tab /\ (forall a b, a <= b < length tab -> nth a tab 0 <= nth b tab 0).
Lemma table_mono : forall I D w tab i j, table_ok I D w tab -> i < length I -> j < length I -> (ge I i) @ w < (ge I j) @ w -> (ge D i) @ w < (ge D j) @ w.
Proof.
  intros I D w tab i j (_ & T & _ & _ & A) Hi Hj H. destruct (T i Hi) as [L1 E1], (T j Hj) as [L2 E2].
  destruct (Nat.le_gt_cases ((ge D j) @ w) ((ge D i) @ w)) as [X|X]; auto. specialize (A _ _ (conj X L1)). lia.
Qed.
Definition strict_in (n : nat) (I : ideal) (i j : nat) : Prop := exists k, k < length I /\ sdiv_n n (ge I k) (t_lcm n (ge I i) (ge I j)).
Definition order_kept (n : nat) (I D : ideal) : Prop := forall i j w, i < length I -> j < length I -> w < n ->
  ((ge I i) @ w < (ge I j) @ w -> (ge D i) @ w < (ge D j) @ w) /\ ((ge D i) @ w = 0 <-> (ge I i) @ w = 0).
Lemma strict_kept : forall n I D i j, length D = length I -> order_kept n I D -> i < length I -> j < length I -> strict_in n I i j -> strict_in n D i j.
Proof.
  intros n I D i j L O Hi Hj [k [Hk [A [w [Hw B]]]]]. exists k. rewrite L. split; auto. split.
  - intros u Hu. specialize (A u Hu). rewrite t_lcm_nth in * by auto. destruct (O k i u Hk Hi Hu) as [M1 Z1], (O k j u Hk Hj Hu) as [M2 _].
    destruct A as [A|A]; [left; tauto|]. right. destruct (Nat.max_spec ((ge I i) @ u) ((ge I j) @ u)) as [[X1 X2]|[X1 X2]]; rewrite X2 in A; [specialize (M2 A)|specialize (M1 A)]; lia.
  - exists w. split; auto. rewrite t_lcm_nth in * by auto. destruct (O i i w Hi Hi Hw) as [_ Z1], (O j j w Hj Hj Hw) as [_ Z2].
    destruct (Nat.eq_dec ((ge D i) @ w) 0) as [X|X], (Nat.eq_dec ((ge D j) @ w) 0) as [Y|Y]; lia.
Qed.

Lemma vars_spec : forall n strong vars I, wf n I -> NoDup vars -> (forall w, In w vars -> w < n) ->
  let r := deform_vars n strong vars I in
  length (fst r) = length I /\ wf n (fst r) /\ length (snd r) = length vars /\
  (forall i w, i < length I -> w < n -> ~ In w vars -> (ge (fst r) i) @ w = (ge I i) @ w) /\
  (forall p w, nth_error vars p = Some w -> table_ok I (fst r) w (nth p (snd r) [])) /\
  ((strong = true \/ forall w, In w vars -> gapfree w I) -> forall i j w, i < length I -> j < length I -> i <> j -> In w vars ->
     (ge (fst r) i) @ w = (ge (fst r) j) @ w -> 0 < (ge (fst r) i) @ w -> strong = false /\ strict_in n (fst r) i j).
Proof.
  intros n strong vars. induction vars as [|v vs IH]; intros I Hw HN Hlt; cbn [deform_vars]; cbv zeta.
  - cbn [fst snd]. split; [auto|]. split; [auto|]. split; [auto|]. split; [auto|]. split; [intros [|p] w H; discriminate|intros _ i j w _ _ _ []].
  - inversion HN as [|? ? Nv Nvs]; subst. assert (Hv : v < n) by (apply Hlt; simpl; auto).
    pose proof (deform_spec n strong v I Hv Hw) as P. destruct (deform n strong v I) as [I' tab]. cbn [fst snd] in P.
    destruct P as [P1 P2 P3 P4 P5 P6 P7 P8].
    destruct (IH I' P2 Nvs ltac:(intros; apply Hlt; simpl; auto)) as (A1 & A2 & A3 & A4 & A5 & A6).
    destruct (deform_vars n strong vs I') as [D tabs]. cbn [fst snd] in *. rewrite P1 in *.
    assert (Dv : forall i, i < length I -> (ge D i) @ v = (ge I' i) @ v) by (intros; apply A4; auto).
    assert (TB : forall p w, nth_error (v :: vs) p = Some w -> table_ok I D w (nth p (tab :: tabs) [])).
    { intros [|p] w E; cbn [nth_error nth] in *.
      - injection E as <-. split; [|split; [|split; [tauto|split; [tauto|auto]]]].
        + intros i Hi. rewrite Dv by auto. auto.
        + intros i Hi. rewrite Dv by auto. auto.
      - assert (Hw' : In w vs) by (eapply nth_error_In; eauto). assert (w <> v) by (intros ->; auto). assert (w < n) by (apply Hlt; simpl; auto).
        destruct (A5 p w E) as (B1 & B2 & B3). split; [|split; auto].
        + intros i Hi. rewrite <- (P3 i w) by auto. apply B1. lia.
        + intros i Hi. rewrite <- (P3 i w) by auto. apply B2. lia. }
    split; [auto|]. split; [auto|]. split; [simpl; auto|]. split; [|split; [auto|]].
    + intros i w Hi Hw' Hn. rewrite A4, P3 by (auto; intros X; apply Hn; simpl; auto). auto.
    + assert (OK : order_kept n I D).
      { intros i j w Hi Hj Hw'. destruct (in_dec Nat.eq_dec w (v :: vs)) as [X|X].
        - apply In_nth_error in X. destruct X as [p X]. pose proof (TB p w X) as T. split; [apply (table_mono I D w _ i j T); auto|apply T; auto].
        - assert (Q : forall i, i < length I -> (ge D i) @ w = (ge I i) @ w).
          { intros k Hk. rewrite A4, P3; auto; try (intros Z; apply X; simpl; auto). }
          rewrite !Q by auto. tauto. }
      intros G i j w Hi Hj D' [->|Hw'] E P.
      * rewrite (Dv i), (Dv j) in E by auto. rewrite Dv in P by auto. destruct (P8 (match G with or_introl x => or_introl x | or_intror f => or_intror (f w (or_introl eq_refl)) end) i j Hi Hj D' E P) as [S X].
        split; auto. apply (strict_kept n I); auto.
      * apply (A6) with w; auto. destruct G as [G|G]; auto. right. intros u Hu. pose proof (G u (or_intror Hu)) as Gu. intros k e Hk He.
        assert (u <> v) by (intros ->; auto). assert (u < n) by (apply Hlt; simpl; auto). rewrite P1 in *. rewrite P3 in He by auto.
        destruct (Gu k e Hk He) as [j' [Hj' Ej']]. exists j'. rewrite P3 by auto. auto.
Qed.

(** everything about the deformed ideal *)
Record deformed (n : nat) (strong : bool) (I D : ideal) (tabs : list (list nat)) : Prop := mk_deformed {
  de_len : length D = length I;
  de_wf : wf n D;
  de_tab : forall w, w < n -> table_ok I D w (nth w tabs []);
  de_order : order_kept n I D;
  de_eq : (strong = true \/ forall w, w < n -> gapfree w I) -> forall i j w, i < length I -> j < length I -> i <> j -> w < n ->
     (ge D i) @ w = (ge D j) @ w -> 0 < (ge D i) @ w -> strong = false /\ strict_in n D i j }.
Lemma deformer_spec : forall n strong order I, wf n (order I) ->
  deformed n strong (order I) (fst (deformer n strong order I)) (snd (deformer n strong order I)).
Proof.
  intros n strong order I Hw. unfold deformer. destruct (vars_spec n strong (seq 0 n) (order I) Hw (seq_NoDup n 0)) as (A1 & A2 & A3 & A4 & A5 & A6).
  { intros w Hw'. apply in_seq in Hw'. lia. }
  assert (T : forall w, w < n -> table_ok (order I) (fst (deform_vars n strong (seq 0 n) (order I))) w (nth w (snd (deform_vars n strong (seq 0 n) (order I))) [])).
  { intros w Hw'. apply A5. rewrite (nth_error_nth' _ 0) by (rewrite seq_length; auto). rewrite seq_nth by auto. auto. }
  constructor; auto.
  - intros i j w Hi Hj Hw'. pose proof (T w Hw') as Tw. split; [apply (table_mono _ _ w _ i j Tw); auto|apply Tw; auto].
  - intros G i j w Hi Hj D Hw'. apply (A6); auto.
    + destruct G as [G|G]; auto. right. intros u Hu. apply in_seq in Hu. apply G. lia.
    + apply in_seq. lia.
Qed.

(** ** Undeforming *)
Definition undef (n : nat) (tabs : list (list nat)) (t : term) : term := tabulate n (fun w => nth (t @ w) (nth w tabs []) 0).
Definition in_tables (n : nat) (tabs : list (list nat)) (t : term) : Prop := forall w, w < n -> t @ w < length (nth w tabs []).
Lemma undeform_eq : forall n tabs t, in_tables n tabs t -> undeform n tabs t = Some (undef n tabs t).
Proof.
  intros n tabs t H. unfold undeform, undef, tabulate.
  assert (G : forall k s, s + k = n -> undeform_from tabs t s k = Some (map (fun w => nth (t @ w) (nth w tabs []) 0) (seq s k))).
  { induction k as [|k IH]; intros s Hs; cbn [undeform_from seq map]; auto. rewrite (IH (S s)) by lia. rewrite (nth_error_nth' _ 0) by (apply H; lia). auto. }
  apply G. auto.
Qed.
Section Un.
Variables (n : nat) (strong : bool) (I D : ideal) (tabs : list (list nat)).
Hypothesis HD : deformed n strong I D tabs.
Hypothesis Hw : wf n I.
Lemma un_nth : forall i, i < length I -> undef n tabs (ge D i) = ge I i.
Proof.
  intros i Hi. apply term_ext with n; [apply tabulate_length|apply Hw, nth_In; auto|]. intros w Hw'. unfold undef. rewrite tabulate_nth by auto.
  destruct (de_tab _ _ _ _ _ HD w Hw') as (_ & T & _). apply T; auto.
Qed.
Lemma un_map : map (undef n tabs) D = I.
Proof.
  apply nth_ext with [] []; [rewrite map_length; apply (de_len _ _ _ _ _ HD)|]. intros i Hi. rewrite map_length, (de_len _ _ _ _ _ HD) in Hi.
  rewrite (nth_indep _ [] (undef n tabs [])) by (rewrite map_length, (de_len _ _ _ _ _ HD); auto). rewrite map_nth. apply un_nth; auto.
Qed.
Lemma in_D : forall g, In g D -> in_tables n tabs g /\ In (undef n tabs g) I.
Proof.
  intros g Hg. apply in_nth_iff in Hg. destruct Hg as [i [Hi <-]]. rewrite (de_len _ _ _ _ _ HD) in Hi. split.
  - intros w Hw'. destruct (de_tab _ _ _ _ _ HD w Hw') as (_ & T & _). apply T; auto.
  - rewrite un_nth by auto. apply nth_In; auto.
Qed.
Lemma un_lcm : forall a b, in_tables n tabs a -> in_tables n tabs b -> in_tables n tabs (t_lcm n a b) /\
  undef n tabs (t_lcm n a b) = t_lcm n (undef n tabs a) (undef n tabs b).
Proof.
  intros a b Ha Hb. split.
  - intros w Hw'. rewrite t_lcm_nth by auto. specialize (Ha w Hw'). specialize (Hb w Hw'). lia.
  - apply term_ext with n; [apply tabulate_length|apply t_lcm_length|]. intros w Hw'. unfold undef. rewrite t_lcm_nth by auto. rewrite !tabulate_nth by auto.
    rewrite t_lcm_nth by auto. specialize (Ha w Hw'). specialize (Hb w Hw'). destruct (de_tab _ _ _ _ _ HD w Hw') as (_ & _ & _ & _ & A).
    destruct (Nat.max_spec (a @ w) (b @ w)) as [[X ->]|[X ->]].
    + specialize (A (a @ w) (b @ w) ltac:(lia)). lia.
    + specialize (A (b @ w) (a @ w) ltac:(lia)). lia.
Qed.
Lemma un_1 : in_tables n tabs (t_identity n) /\ undef n tabs (t_identity n) = t_identity n.
Proof.
  split.
  - intros w Hw'. rewrite t_identity_nth. destruct (de_tab _ _ _ _ _ HD w Hw') as (_ & _ & _ & A & _). auto.
  - apply term_ext with n; [apply tabulate_length|apply t_identity_length|]. intros w Hw'. unfold undef. rewrite tabulate_nth, t_identity_nth by auto.
    destruct (de_tab _ _ _ _ _ HD w Hw') as (_ & _ & A & _ & _). auto.
Qed.
Lemma D_nodup : NoDup I -> NoDup D.
Proof. intros H. apply (NoDup_map_inv (undef n tabs)). rewrite un_map. auto. Qed.
(** weakly generic *)
Lemma D_generic : NoDup I -> (strong = true \/ forall w, w < n -> gapfree w I) -> forall a b w, In a D -> In b D -> a <> b -> w < n -> a @ w = b @ w -> 0 < a @ w ->
  strong = false /\ exists g, In g D /\ sdiv_n n g (t_lcm n a b).
Proof.
  intros HN G a b w Ha Hb Hab Hw' E P. apply in_nth_iff in Ha, Hb. destruct Ha as [i [Hi <-]], Hb as [j [Hj <-]].
  rewrite (de_len _ _ _ _ _ HD) in *. destruct (de_eq _ _ _ _ _ HD G i j w Hi Hj ltac:(congruence) Hw' E P) as [S [k [Hk X]]]. split; auto.
  exists (ge D k). split; auto. apply nth_In; auto.
Qed.
End Un.
