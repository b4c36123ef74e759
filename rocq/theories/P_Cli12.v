(** The names of strategies and of orders. *)
From Coq Require Import String Ascii.
From Coq Require Import List Arith Bool ZArith Lia Permutation Sorted.
Import ListNotations.
From Verif Require Import Spec_Names M_Term M_Ideal M_Slice M_Msm M_Api M_Names P_Names M_IO M_Opt M_Hilbert M_Bigatti M_Orderer Spec_Orderer P_Orderer Spec_Slice Spec_Run Spec_Opt Spec_Hilbert Spec_Bigatti P_Valid P_Hil7 P_Bigatti6 M_Cli3 Spec_Cli3.
Local Open Scope nat_scope.
Local Notation length := List.length.

Lemma abbreviates_unique names p x y : abbreviates names p x -> abbreviates names p y -> x = y.
Proof.
  intros [Hx [A|[A1 A2]]] [Hy [B|[B1 B2]]]; subst; auto.
  - apply B2; auto. exists []. now rewrite app_nil_r.
  - symmetry. apply A2; auto. exists []. now rewrite app_nil_r.
Qed.
Lemma lookup_abbreviates {A} (f : list (str * A)) p : NoDup (map fst f) ->
  match getUniqueNameWithPrefix f p with Found s => abbreviates (map fst f) p s | _ => forall x, ~ abbreviates (map fst f) p x end.
Proof.
  intros N. pose proof (p_lookup f p N) as H. destruct (getUniqueNameWithPrefix f p) as [s| |names].
  - destruct H as [H1 [H2 [H3|[H3 H4]]]]; split; auto.
  - intros x [Hx [->|[H1 _]]]; [apply (H x Hx); exists []; now rewrite app_nil_r|apply (H x Hx H1)].
  - destruct H as [H1 [H2 [_ [s [t [Hs [Ht D]]]]]]]. intros x [Hx [->|[X1 X2]]]; [auto|]. apply D. apply H2 in Hs, Ht. transitivity x; [|symmetry]; apply X2; tauto.
Qed.
Lemma created_spec {A} (f : list (str * A)) p : NoDup (map fst f) ->
  match created_with_prefix f p with
  | Ok a => exists x, abbreviates (map fst f) p x /\ In (x, a) f
  | OtherError => forall x, ~ abbreviates (map fst f) p x
  | _ => False
  end.
Proof.
  intros N. pose proof (p_create f p N) as H. pose proof (lookup_abbreviates f p N) as L. unfold created_with_prefix. destruct (createWithPrefix f p) as [r|e].
  - destruct H as [s [x [-> [Hi E]]]]. rewrite E in L. eauto.
  - destruct H as [-> H]. destruct (getUniqueNameWithPrefix f p) as [s| |]; auto. exfalso. now apply (H s).
Qed.
(** ** Splits *)
Lemma split_factory : map fst splitFactory = split_names.
Proof. reflexivity. Qed.
Fixpoint nodupb (l : list str) : bool :=
  match l with [] => true | x :: l' => negb (existsb (fun y => if str_dec x y then true else false) l') && nodupb l' end.
Lemma str_nodup (l : list str) : nodupb l = true -> NoDup l.
Proof.
  induction l as [|x l IH]; cbn [nodupb]; intros H; constructor; apply andb_true_iff in H; destruct H as [H1 H2]; auto.
  intros Hx. apply negb_true_iff in H1. assert (existsb (fun y => if str_dec x y then true else false) l = true); [|congruence]. apply existsb_exists. exists x. split; auto. destruct (str_dec x x); congruence.
Qed.
Lemma split_nodup : NoDup (map fst splitFactory).
Proof. apply str_nodup. vm_compute. reflexivity. Qed.
Lemma split_kinds x s : In (x, s) splitFactory -> (is_label_split s = true <-> In x label_names) /\ (s = DegreeSplit <-> In x degree_names) /\
  match s with FixedSplit (PivotSplit f) => legal_pivot_rule f /\ legal_hilbert_rule f | FixedSplit (LabelSplit f) => legal_label_rule f | DegreeSplit => True end.
Proof.
  pose proof builtin_rules as (B1 & B2 & B3 & B4 & B5 & B6 & B7 & B8 & B9). pose proof builtin_hrules as (C1 & C2 & C3 & C4 & C5 & C6).
  intros H. unfold splitFactory in H. cbn [In] in H. repeat (destruct H as [H|H]; [injection H as <- <-; split; [|split]; cbn [is_label_split];
    [split; [try discriminate; intros _; vm_compute; tauto|try reflexivity; intros X; exfalso; vm_compute in X; intuition discriminate]
    |split; [try discriminate; intros _; vm_compute; tauto|try reflexivity; intros X; exfalso; vm_compute in X; intuition discriminate]|auto]|]). destruct H.
Qed.
Lemma slice_config_spec allowLabel indep simp p : match slice_config allowLabel indep simp p with
  | Ok c => exists x, abbreviates split_names p x /\ ~ In p degree_names /\ (In x label_names -> allowLabel = true) /\ c_indep c = indep /\ c_simp c = simp /\
      if in_dec str_dec x degree_names then c_split c = PivotSplit degree_pivot else legal_config c /\ (~ In x label_names -> legal_hilbert_config c)
  | OtherError => (forall x, ~ abbreviates split_names p x) \/ (allowLabel = false /\ exists x, abbreviates split_names p x /\ In x label_names) \/ In p degree_names
  | _ => False
  end.
Proof.
  unfold slice_config, validateSplit, createSplit. pose proof (created_spec splitFactory p split_nodup) as H. rewrite split_factory in H.
  destruct (created_with_prefix splitFactory p) as [s| | | | |]; try destruct H; cbn [rbind]; auto. rename x into x. destruct H as [Hx Hi]. destruct (split_kinds x s Hi) as [K1 [K2 K3]].
  destruct (negb allowLabel && is_label_split s) eqn:E1.
  { cbn [rbind]. apply andb_true_iff in E1. destruct E1 as [E1 E2]. right. left. destruct allowLabel; [discriminate|]. split; auto. exists x. split; auto. now apply K1. }
  cbn [negb andb]. destruct (str_dec p (lit "degree")) as [->|D1]; [cbn [rbind]; right; right; vm_compute; tauto|].
  destruct (str_dec p (lit "frob")) as [->|D2]; [cbn [rbind]; right; right; vm_compute; tauto|]. cbn [rbind].
  exists x. split; auto. split; [intros [X|[X|[]]]; congruence|]. split.
  - intros X. apply K1 in X. rewrite X in E1. destruct allowLabel; auto.
  - split; auto. split; auto. cbn [c_split]. destruct (in_dec str_dec x degree_names) as [X|X].
    + apply K2 in X. subst s. reflexivity.
    + destruct s as [[f|f]|]; cbn [without_grading].
      * destruct K3 as [K3 K4]. split; [exact K3|]. intros _. exists f. split; auto.
      * split; [exact K3|]. intros Y. exfalso. apply Y. now apply K1.
      * exfalso. apply X. now apply K2.
Qed.
Lemma slice_oparams_spec simp elim bsimp p : match slice_oparams simp elim bsimp p with
  | Ok q => legal_oparams q /\ op_simp q = simp /\ op_elim q = elim /\ op_bsimp q = bsimp /\ exists x, abbreviates split_names p x
  | OtherError => forall x, ~ abbreviates split_names p x
  | _ => False
  end.
Proof.
  unfold slice_oparams, validateSplit, createSplit. pose proof (created_spec splitFactory p split_nodup) as H. rewrite split_factory in H.
  destruct (created_with_prefix splitFactory p) as [s| | | | |]; try destruct H; cbn [rbind negb andb]; auto. destruct H as [Hx Hi]. destruct (split_kinds _ s Hi) as [K1 [K2 K3]].
  split; [|eauto]. unfold legal_oparams. cbn [op_split]. destruct s as [[f|f]|]; tauto.
Qed.
(** ** Pivots *)
Lemma pivot_factory : map fst pivotFactory = pivot_names.
Proof. reflexivity. Qed.
Lemma pivot_nodup : NoDup (map fst pivotFactory).
Proof. apply str_nodup. vm_compute. reflexivity. Qed.
Lemma createPivot_spec p widen : match createPivot p widen with
  | Ok pv => (exists x, abbreviates pivot_names p x) /\ forall n, progressing_pivot n pv
  | OtherError => forall x, ~ abbreviates pivot_names p x
  | _ => False
  end.
Proof.
  unfold createPivot. pose proof (created_spec pivotFactory p pivot_nodup) as H. rewrite pivot_factory in H. destruct (created_with_prefix pivotFactory p) as [b| | | | |]; try destruct H; cbn [rbind]; auto.
  destruct H as [Hx Hi]. split; [eauto|]. intros n. apply p_strategy_progressing.
Qed.
(** ** Orders *)
Lemma order_factory : map fst ordererFactory = order_names.
Proof. reflexivity. Qed.
Lemma order_nodup : NoDup (map fst ordererFactory).
Proof. apply str_nodup. vm_compute. reflexivity. Qed.
Lemma found_abbreviates p s : getUniqueNameWithPrefix ordererFactory p = Found s <-> abbreviates order_names p s.
Proof.
  pose proof (lookup_abbreviates ordererFactory p order_nodup) as H. rewrite order_factory in H. destruct (getUniqueNameWithPrefix ordererFactory p) as [t| |]; split; intros X; try discriminate.
  - injection X as ->. auto.
  - f_equal. eapply abbreviates_unique; eauto.
  - now apply H in X.
  - now apply H in X.
Qed.
Lemma part_iff p : is_order_part p <-> exists s, stands_for p s.
Proof.
  split.
  - intros [q [x [H [->|[-> H']]]]]; pose proof (proj1 H) as Hx; rewrite <- order_factory in Hx; apply in_map_iff in Hx; destruct Hx as [[x' k] [<- Hk]]; apply found_abbreviates in H; cbn [fst] in *.
    + exists (SReverse k). exists q, x'. auto.
    + exists (SBase k). split; eauto.
  - intros [[k|k] H]; cbn [stands_for] in H.
    + destruct H as [H1 [x [H2 H3]]]. exists p, x. apply found_abbreviates in H3. auto.
    + destruct H as [q [x [-> [H2 H3]]]]. exists q, x. apply found_abbreviates in H3. auto.
Qed.
Lemma underscored_joined p ps : underscored p ps = Spec_Orderer.joined p ps.
Proof. revert p. induction ps as [|q ps IH]; intros p; cbn; auto; now rewrite ?IH. Qed.
Lemma joined_inj : forall ps p qs q, Forall (fun x => ~ In "_"%char x) (p :: ps) -> Forall (fun x => ~ In "_"%char x) (q :: qs) -> Spec_Orderer.joined p ps = Spec_Orderer.joined q qs -> p = q /\ ps = qs.
Proof.
  assert (G : forall (p q r s : str), ~ In "_"%char p -> ~ In "_"%char q -> p ++ "_"%char :: r = q ++ "_"%char :: s -> p = q /\ r = s).
  { induction p as [|a p IH]; intros [|b q] r s Hp Hq E; cbn in *.
    - injection E as E. auto.
    - injection E as <- E. exfalso. auto.
    - injection E as -> E. exfalso. auto.
    - injection E as -> E. destruct (IH q r s) as [-> ->]; auto. }
  assert (G' : forall (p q s : str), ~ In "_"%char p -> p <> q ++ "_"%char :: s).
  { intros p q s H ->. apply H. apply in_or_app. right. now left. }
  induction ps as [|p' ps IH]; intros p [|q' qs] q Hp Hq E; cbn [Spec_Orderer.joined] in E; pose proof (Forall_inv Hp) as P1; pose proof (Forall_inv_tail Hp) as P2; pose proof (Forall_inv Hq) as Q1; pose proof (Forall_inv_tail Hq) as Q2; cbn beta in P1, Q1.
  - auto.
  - exfalso. now apply (G' _ _ _ P1) in E.
  - exfalso. symmetry in E. now apply (G' _ _ _ Q1) in E.
  - apply G in E; auto. destruct E as [-> E]. apply IH in E; auto. destruct E as [-> ->]. auto.
Qed.
Lemma createOrder_spec name : match createOrder name with Ok _ => is_order name | OtherError => ~ is_order name | _ => False end.
Proof.
  destruct (p_create_orderer name) as [p [ps [E [N H]]]]. unfold createOrder. destruct (createIdealOrderer name) as [[o|]|e]; auto.
  - exists p, ps. rewrite underscored_joined. split; auto. split; auto. clear -H. induction H as [|q s l l' H1 H IH]; constructor; auto. apply part_iff. eauto.
  - destruct H as [[q [Hq H]] _]. intros [p' [ps' [E' [N' F]]]]. rewrite underscored_joined in E'. rewrite E in E'. apply joined_inj in E'; auto. destruct E' as [-> ->].
    rewrite Forall_forall in F. apply F, part_iff in Hq. destruct Hq as [s Hs]. now apply (H s).
Qed.
