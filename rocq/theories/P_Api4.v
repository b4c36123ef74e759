(** Entering ideals, the consumer protocol, independence of the generators, the translator. *)
From Coq Require Import List Arith Bool ZArith Lia Permutation Sorted.
Import ListNotations.
From Verif Require Import Spec Spec_Slice Spec_Run Spec_Api M_Term M_Ideal M_Slice M_Msm M_Api P_Term P_Ideal P_Bridge P_Msm1 P_Process P_Run P_Valid P_Corner P_Decomp P_Translator P_Api P_Api2 P_Api3.

(** ** C19 *)
Lemma list_set_replace : forall {A} (l : list A) i x, i < length l -> list_set l i x = replace_at l i x.
Proof.
  induction l as [|a l IH]; intros i x Hi; [simpl in Hi; lia|]. destruct i as [|i]; cbn [list_set]; [reflexivity|].
  rewrite IH by (simpl in Hi; lia). reflexivity.
Qed.
Lemma list_set_app : forall {A} (a : list A) x y, list_set (a ++ [x]) (length (a ++ [x]) - 1) y = a ++ [y].
Proof.
  intros. rewrite app_length. simpl. replace (length a + 1 - 1) with (length a) by lia.
  induction a as [|b a IH]; simpl; auto. rewrite IH. auto.
Qed.
Lemma nth_last : forall {A} (a : list A) x d, nth (length (a ++ [x]) - 1) (a ++ [x]) d = x.
Proof. intros. rewrite app_length. simpl. rewrite app_nth2 by lia. replace (length a + 1 - 1 - length a) with 0 by lia. auto. Qed.

(** state after entering: full rows F, then a partial row p *)
Definition entered_state (n : nat) (es : list Z) (s : api_ideal) : Prop :=
  ap_n s = n /\ exists F p, es = concat F ++ p /\ Forall (fun r => length r = n) F /\
  ((p = [] /\ ap_at s = n /\ ap_terms s = F) \/
   (0 < length p /\ length p < n /\ ap_at s = length p /\ ap_terms s = F ++ [p ++ repeat 0%Z (n - length p)])).

Lemma list_set_mid : forall p k (e : Z), list_set (p ++ repeat 0%Z (S k)) (length p) e = (p ++ [e]) ++ repeat 0%Z k.
Proof. induction p as [|x p IH]; intros; [reflexivity|]. cbn [app length list_set]. rewrite IH. auto. Qed.

Lemma entered_step : forall n es s e, 0 < n -> entered_state n es s -> entered_state n (es ++ [e]) (ap_add s e).
Proof.
  intros n es s e Hn [En [F [p [Ees [HF HC]]]]].
  assert (Hn0 : n =? 0 = false) by (apply Nat.eqb_neq; lia).
  destruct HC as [[Ep [Ea Et]]|[Hp1 [Hp2 [Ea Et]]]].
  - subst p. rewrite app_nil_r in Ees. unfold ap_add. rewrite En, Ea, Nat.eqb_refl, Et, Hn0. cbn [andb].
    rewrite nth_last, list_set_app. destruct n as [|n']; [lia|]. cbn [repeat list_set].
    destruct (Nat.eq_dec n' 0) as [E0|E0].
    + split; [reflexivity|]. exists (F ++ [[e]]), []. rewrite app_nil_r, concat_app. simpl. rewrite Ees. split; auto.
      subst n'. split; [apply Forall_app; split; auto|]. left. auto.
    + split; [reflexivity|]. exists F, [e]. rewrite Ees. split; auto. split; auto. right. simpl.
      split; [lia|]. split; [lia|]. split; auto. rewrite Nat.sub_0_r. auto.
  - unfold ap_add. rewrite En, Ea, Et. destruct (Nat.eqb_spec (length p) n) as [Ex|_]; [lia|]. cbn [andb].
    rewrite nth_last, list_set_app. replace (n - length p) with (S (n - length p - 1)) by lia. rewrite list_set_mid.
    destruct (Nat.eq_dec (S (length p)) n) as [E1|E1].
    + split; [reflexivity|]. exists (F ++ [p ++ [e]]), []. rewrite app_nil_r, concat_app. simpl. rewrite app_nil_r, Ees, <- app_assoc.
      split; auto. split; [apply Forall_app; split; auto; constructor; auto; rewrite app_length; simpl; lia|]. left. split; auto. split; auto.
      replace (n - length p - 1) with 0 by lia. simpl. rewrite app_nil_r. auto.
    + split; [reflexivity|]. exists F, (p ++ [e]). rewrite Ees, app_assoc. split; auto. split; auto. right.
      cbn [ap_at ap_terms]. rewrite app_length. simpl. split; [lia|]. split; [lia|]. split; [lia|].
      replace (n - (length p + 1)) with (n - length p - 1) by lia. auto.
Qed.

Lemma rows_full : forall F n p fuel, 0 < n -> Forall (fun r => length r = n) F -> length (concat F ++ p) <= fuel -> length p < n ->
  rows fuel n (concat F ++ p) = F ++ (if length p =? 0 then [] else [p ++ repeat 0%Z (n - length p)]).
Proof.
  induction F as [|r F IH]; intros n p fuel Hn HF Hf Hp.
  - simpl. destruct p as [|x p]; [destruct fuel; auto|]. cbn [length Nat.eqb]. destruct fuel as [|fuel]; [simpl in Hf; lia|].
    cbn [rows]. rewrite firstn_all2 by lia. rewrite skipn_all2 by lia. destruct fuel; auto.
  - inversion HF as [|? ? Hr HF']; subst. cbn [concat app]. rewrite <- app_assoc. cbn [concat] in Hf. rewrite <- app_assoc, app_length in Hf.
    destruct fuel as [|fuel]; [lia|]. destruct r as [|x r]; [simpl in Hn; lia|].
    set (row := x :: r) in *. assert (Er : exists y z, row ++ concat F ++ p = y :: z) by (exists x, (r ++ concat F ++ p); auto).
    destruct Er as [y [z Er]]. rewrite Er. cbn [rows]. rewrite <- Er.
    rewrite firstn_app, Nat.sub_diag, firstn_all, firstn_O, app_nil_r.
    rewrite skipn_app, Nat.sub_diag, skipn_all. cbn [skipn app]. 
    rewrite (IH (length row) p fuel) by (auto; lia).
    rewrite app_length. replace (length row - (length row + length (concat F ++ p))) with 0 by lia. cbn [repeat]. rewrite app_nil_r. auto.
Qed.

Lemma entered_0 : forall es s, ap_n s = 0 -> ap_at s = 0 ->
  ap_terms (fold_left ap_add es s) = ap_terms s ++ map (fun _ => []) es /\ ap_n (fold_left ap_add es s) = 0 /\ ap_at (fold_left ap_add es s) = 0.
Proof.
  induction es as [|e es IH]; intros s Hn Ha; cbn [fold_left map]; [rewrite app_nil_r; auto|].
  destruct (IH (ap_add s e)) as [A [B C]].
  - unfold ap_add. rewrite Hn, Ha. reflexivity.
  - unfold ap_add. rewrite Hn, Ha. reflexivity.
  - rewrite A. split; auto. unfold ap_add. rewrite Hn, Ha. cbn. rewrite <- app_assoc. auto.
Qed.

Lemma entered_fold : forall n es es0 s, 0 < n -> entered_state n es0 s -> entered_state n (es0 ++ es) (fold_left ap_add es s).
Proof.
  intros n es. induction es as [|e es IH]; intros es0 s Hn H; cbn [fold_left]; [rewrite app_nil_r; auto|].
  replace (es0 ++ e :: es) with ((es0 ++ [e]) ++ es) by (rewrite <- app_assoc; auto). apply IH; auto. apply entered_step; auto.
Qed.

Lemma p_entered : forall n es, ap_n (fold_left ap_add es (ap_new n)) = n /\ ap_terms (fold_left ap_add es (ap_new n)) = entered n es.
Proof.
  intros n es. unfold entered. destruct (Nat.eqb_spec n 0) as [->|Hn].
  - destruct (entered_0 es (ap_new 0) eq_refl eq_refl) as [A [B _]]. rewrite A. auto.
  - assert (H0 : entered_state n [] (ap_new n)) by (split; [reflexivity|]; exists [], []; split; [reflexivity|]; split; [constructor|]; left; auto).
    destruct (entered_fold n es [] (ap_new n) ltac:(lia) H0) as [En [F [p [Ees [HF HC]]]]].
    split; auto. cbn [app] in Ees. subst es. destruct HC as [[Ep [_ Et]]|[Hp1 [Hp2 [_ Et]]]]; rewrite Et.
    + rewrite Ep. rewrite (rows_full F n []) by (auto; try (simpl; lia)). simpl. rewrite app_nil_r. auto.
    + rewrite rows_full by (auto; lia). destruct (Nat.eqb_spec (length p) 0); [lia|]. auto.
Qed.

(** the store of objects follows the history *)
Definition obj_ok (s : api_ideal) (o : nat * list Z) : Prop := s = fold_left ap_add (snd o) (ap_new (fst o)).

Lemma steps_app : forall st calls c, steps st (calls ++ [c]) = bind (steps st calls) (fun st' => step st' c).
Proof.
  intros st calls c. revert st. induction calls as [|a calls IH]; intros st; cbn [app steps].
  - cbn [bind]. destruct (step st c); reflexivity.
  - destruct (step st a); cbn [bind]; auto.
Qed.
Lemma Forall2_nth : forall {A B} (R : A -> B -> Prop) l l' i b, Forall2 R l l' -> nth_error l' i = Some b -> exists a, nth_error l i = Some a /\ R a b.
Proof. intros A B R l l' i b H. revert i. induction H; intros [|i] E; try discriminate; simpl in *; [inversion E; subst; eauto|eauto]. Qed.
Lemma Forall2_length' : forall {A B} (R : A -> B -> Prop) l l', Forall2 R l l' -> length l = length l'.
Proof. intros. induction H; simpl; auto. Qed.
Lemma Forall2_replace : forall {A B} (R : A -> B -> Prop) l l' i a b, Forall2 R l l' -> i < length l -> R a b ->
  Forall2 R (list_set l i a) (replace_at l' i b).
Proof.
  intros A B R l l' i a b H. revert i. induction H as [|x y l l' Hxy H IH]; intros i Hi Hr; [simpl in Hi; lia|].
  destruct i as [|i]; cbn [list_set]; [constructor; auto|]. unfold replace_at. cbn [firstn skipn app]. constructor; auto.
  apply IH; auto. simpl in Hi. lia.
Qed.

Lemma p_history : forall calls h, history calls h -> exists st, steps [] calls = Some st /\ Forall2 obj_ok st h.
Proof.
  intros calls h H. induction H as [|calls st n H IH|calls st src o H IH E|calls st dst src o H IH Hd E|calls st id n es e H IH E].
  - exists []. auto.
  - destruct IH as [s [A B]]. rewrite steps_app, A. cbn. eexists. split; auto. apply Forall2_app; auto. constructor; auto. reflexivity.
  - destruct IH as [s [A B]]. rewrite steps_app, A. destruct (Forall2_nth _ _ _ _ _ B E) as [a [Ea Ha]].
    cbn [bind step]. unfold st_get. rewrite Ea. cbn. eexists. split; auto. apply Forall2_app; auto.
  - destruct IH as [s [A B]]. rewrite steps_app, A. destruct (Forall2_nth _ _ _ _ _ B E) as [a [Ea Ha]].
    pose proof (Forall2_length' _ _ _ B) as HL. unfold store in *.
    cbn [bind step]. unfold st_get. destruct (nth_error s dst) eqn:Ed; [|apply nth_error_None in Ed; lia]. rewrite Ea. cbn. eexists. split; auto.
    apply Forall2_replace; auto. lia.
  - destruct IH as [s [A B]]. rewrite steps_app, A. destruct (Forall2_nth _ _ _ _ _ B E) as [a [Ea Ha]].
    cbn [bind step]. unfold st_get. rewrite Ea. cbn. eexists. split; auto.
    apply Forall2_replace; auto; [apply nth_error_Some; rewrite Ea; discriminate|].
    unfold obj_ok in *. cbn [fst snd] in *. rewrite fold_left_app. simpl. congruence.
Qed.

Lemma p_enter : forall calls h, history calls h -> exists st, steps [] calls = Some st /\
  Forall2 (fun s o => ap_n s = fst o /\ ap_terms s = entered (fst o) (snd o)) st h.
Proof.
  intros calls h H. destruct (p_history calls h H) as [st [A B]]. exists st. split; auto.
  clear -B. induction B as [|s o st h Hs _ IH]; constructor; auto. unfold obj_ok in Hs. subst. apply p_entered.
Qed.

Lemma znat_inj : forall x y, znat x = znat y -> x = y.
Proof.
  induction x as [|e x IHx]; intros [|f y] E0; try discriminate; auto. simpl in E0. injection E0 as A B.
  f_equal; [apply Nat2Z.inj; auto|apply IHx; auto].
Qed.
Lemma block_inj : forall n L L', block n L = block n L' -> L = L'.
Proof.
  intros n X Y E. unfold block in E. injection E as EE. apply app_inj_tail in EE. destruct EE as [EE _]. revert Y EE.
  induction X as [|x X IHX]; intros [|y Y] EE; try discriminate; auto. cbn [map] in EE. injection EE as E0 E2. f_equal; [|apply IHX; auto]. apply znat_inj; auto.
Qed.

(** ** C20 *)
Lemma protocol_app : forall n a b open, protocol n open a -> protocol n false b -> protocol n open (a ++ b).
Proof.
  induction a as [|e a IH]; intros b open Ha Hb; cbn [app protocol] in *; [subst; auto|].
  destruct e; intuition.
Qed.
Lemma protocol_block : forall n L, in_ring n L -> protocol n false (block n L).
Proof.
  intros n L HL. unfold block. cbn [protocol]. split; auto. split; auto. induction HL as [|m L Hm _ IH]; cbn [map app protocol]; auto.
  split; auto. split; auto. unfold znat. rewrite map_length. auto.
Qed.
Lemma protocol_blocks : forall n Bs, (forall B, In B Bs -> in_ring n B) -> protocol n false (concat (map (block n) Bs)).
Proof.
  induction Bs as [|B Bs IH]; intros H; cbn [map concat protocol]; auto. apply protocol_app.
  - apply protocol_block. apply H. left. auto.
  - apply IH. intros B' HB. apply H. right. auto.
Qed.
Lemma irrgens_ring : forall n c, in_ring n (irreducible_generators n c).
Proof.
  intros n c. apply Forall_forall. intros g Hg. apply in_map_iff in Hg. destruct Hg as [i [<- _]]. unfold var_power. rewrite map_length, seq_length. auto.
Qed.
Lemma concat_map_map : forall {A} n (f : A -> list mono) L, concat (map (fun x => block n (f x)) L) = concat (map (block n) (map f L)).
Proof. intros. rewrite map_map. auto. Qed.

Lemma p_protocol : forall c rnd rnds n I point n' R, legal_config c -> in_ring n I -> in_ring n' R ->
  match point with Some a => length a = n | None => True end ->
  (exists ok evs, api_irrDecomMonomials c rnd n I = Some (ok, evs) /\ protocol n false evs) /\
  (exists evs, api_irrDecomIdeals c rnd n I = Some evs /\ protocol n false evs) /\
  (exists evs, api_maximalStandardMonomials c rnd n I = Some evs /\ protocol n false evs) /\
  (exists ok evs, api_alexanderDual c rnd n I point = Some (ok, evs) /\ protocol n false evs) /\
  (exists ok evs, api_alexanderDualIdeal c rnd n I n' R = Some (ok, evs) /\ protocol n false evs) /\
  (exists evs, api_associatedPrimes c rnd n I = Some evs /\ protocol n false evs) /\
  (exists evs, api_primaryDecomposition c rnds n I = Some evs /\ protocol n false evs).
Proof.
  intros c rnd rnds n I point n' R Hc Hr HR Hp.
  assert (Hdual : forall a, length a = n -> exists ok evs, api_alexanderDual c rnd n I (Some a) = Some (ok, evs) /\ protocol n false evs).
  { intros a Ha. destruct (p_api_bad c rnd n I a Hc Hr Ha) as [_ H].
    destruct (computeAlexanderDual c rnd (setIdeal false n I) a) as [[evs|]|] eqn:E.
    - assert (Hg : exists x, a = znat x /\ above_minimal_generators n I x).
      { apply (p_api_bad c rnd n I a Hc Hr Ha). exists evs. unfold api_alexanderDual. rewrite E. auto. }
      destruct Hg as [x [-> HA]]. unfold znat in Ha. rewrite map_length in Ha.
      destruct (p_dual c rnd n I x Hc Hr Ha HA) as [L [EL [HL _]]]. exists true, (block n L). unfold api_alexanderDual. rewrite EL. split; auto.
      apply protocol_block; auto.
    - exists false, []. unfold api_alexanderDual. rewrite E. simpl. auto.
    - exfalso. assert (X : ~ exists evs, api_alexanderDual c rnd n I (Some a) = Some (true, evs)) by (intros [evs X]; unfold api_alexanderDual in X; rewrite E in X; discriminate).
      rewrite <- (proj1 (p_api_bad c rnd n I a Hc Hr Ha)) in X. apply H in X. unfold api_alexanderDual in X. rewrite E in X. discriminate. }
  assert (Hd0 : exists ok evs, api_alexanderDual c rnd n I None = Some (ok, evs) /\ protocol n false evs).
  { destruct (p_api_default c rnd n I Hc Hr) as [a [L [H1 [H2 H3]]]]. exists true, (block n L). split; auto.
    destruct H1 as [Ha [HA _]]. destruct (p_dual c rnd n I a Hc Hr Ha HA) as [L' [EL [HL _]]].
    unfold api_alexanderDual in H3. rewrite EL in H3. cbn [bind] in H3. assert (EB : block n L' = block n L) by congruence. apply block_inj in EB. subst L'. apply protocol_block; auto. }
  split; [|split; [|split; [|split; [|split; [|split]]]]].
  - destruct I as [|g I]; [exists false, []; simpl; auto|]. destruct (p_irrMonomials c rnd n (g :: I) Hc Hr ltac:(discriminate)) as [D [E F]].
    exists true, (block n D). split; auto. apply protocol_block. apply F.
  - destruct I as [|g I]; [eexists; split; [reflexivity|]; simpl; auto|]. destruct (p_irrIdeals c rnd n (g :: I) Hc Hr ltac:(discriminate)) as [D [E F]].
    eexists. split; [apply E|]. rewrite concat_map_map. apply protocol_blocks. intros B HB. apply in_map_iff in HB. destruct HB as [x [<- _]]. apply irrgens_ring.
  - destruct (p_msm c rnd n I Hc Hr) as [L [E [F G]]]. eexists. split; [apply E|]. apply protocol_block. apply Forall_forall. intros m Hm. apply G in Hm. apply Hm.
  - destruct point as [a|]; auto.
  - pose proof (p_api_dualIdeal c rnd n I n' R Hc Hr HR) as H. destruct R as [|r [|r2 R]]; try (exists false, []; rewrite H; simpl; auto; fail).
    destruct (Nat.eqb_spec n' n) as [->|]; [|exists false, []; rewrite H; simpl; auto]. rewrite H. apply Hdual. unfold znat. rewrite map_length.
    inversion HR; auto.
  - destruct (p_ass c rnd n I Hc Hr) as [Ss [E _]]. eexists. split; [apply E|]. rewrite concat_map_map. apply protocol_blocks.
    intros B HB. apply in_map_iff in HB. destruct HB as [x [<- _]]. apply irrgens_ring.
  - destruct (p_primary c rnds n I Hc Hr) as [D [Gs [Bs [E [_ [_ [_ [F _]]]]]]]]. eexists. split; [apply E|]. apply protocol_blocks.
    clear -F. induction F as [|G B Gs Bs H _ IH]; intros B' HB; [destruct HB|]. destruct HB as [<-|HB]; auto. apply H.
Qed.

(** ** C21 *)
Lemma lists_minimal_perm : forall n P Q L L', (forall m, length m = n -> (P m <-> Q m)) -> lists_minimal n P L -> lists_minimal n Q L' -> Permutation L L'.
Proof.
  intros n P Q L L' H [A [B _]] [A' [B' _]]. apply NoDup_Permutation; auto. intros e. rewrite B, B'. unfold minimal_in.
  split; intros [X [Y Z]]; split; auto; split; try (apply H; auto; fail); intros h Hh Hp; apply Z; auto; apply H; auto.
Qed.
Lemma same_minimal : forall n I I' g, same_ideal n I I' -> in_ring n I -> in_ring n I' -> (minimal_generator n I g <-> minimal_generator n I' g).
Proof.
  intros n I I' g HS HI HI'. unfold minimal_generator.
  assert (G : forall A B, (forall m, length m = n -> (in_ideal A m <-> in_ideal B m)) -> in_ring n B -> minimal_generator n A g -> minimal_generator n B g).
  { intros A B H HB [X [Y Z]]. split; auto. split; [apply H; auto|]. intros h Hh Hd. apply Z; auto. apply H; auto.
    apply divs_length in Hd. congruence. }
  split; apply G; auto. intros m Hm. symmetry. auto.
Qed.
Lemma same_dual : forall n I I' a m, same_ideal n I I' -> in_ring n I -> in_ring n I' -> (in_alexander_dual I a m <-> in_alexander_dual I' a m).
Proof.
  intros n I I' a m HS HI HI'. apply in_ring_wf in HI, HI'. rewrite !(dual_iff n) by auto. rewrite (HS _ (sub_len n a m)). tauto.
Qed.
Lemma same_max : forall n I I' m, same_ideal n I I' -> (max_standard n I m <-> max_standard n I' m).
Proof.
  intros n I I' m HS. unfold max_standard. split; intros [A [B C]]; split; auto; split.
  1, 3: intros H; apply B; apply HS; auto. all: intros i Hi; apply HS; auto; rewrite times_var_length; auto.
Qed.
Lemma same_ass : forall n I I' s, same_ideal n I I' -> (associated_prime n I s <-> associated_prime n I' s).
Proof.
  intros n I I' s HS. unfold associated_prime. split; intros [A [B [m [C D]]]]; split; auto; split; auto; exists m; split; auto; intros t Ht;
  rewrite <- D by auto; [symmetry|]; apply HS; rewrite mono_mul_length; lia.
Qed.

Lemma p_independent : forall c rnd rnds c' rnd' rnds' n I I', legal_config c -> legal_config c' -> in_ring n I -> in_ring n I' -> same_ideal n I I' ->
  (I <> [] -> I' <> [] -> exists D D', api_irrDecomMonomials c rnd n I = Some (true, block n D) /\ api_irrDecomMonomials c' rnd' n I' = Some (true, block n D') /\ Permutation D D') /\
  (exists D D', api_irrDecomIdeals c rnd n I = Some (concat (map (fun d => block n (irreducible_generators n d)) D)) /\
     api_irrDecomIdeals c' rnd' n I' = Some (concat (map (fun d => block n (irreducible_generators n d)) D')) /\ Permutation D D') /\
  (exists L L', api_maximalStandardMonomials c rnd n I = Some (block n L) /\ api_maximalStandardMonomials c' rnd' n I' = Some (block n L') /\ Permutation L L') /\
  (forall point, length point = n -> (api_alexanderDual c rnd n I (Some point) = Some (false, []) /\ api_alexanderDual c' rnd' n I' (Some point) = Some (false, [])) \/
     exists L L', api_alexanderDual c rnd n I (Some point) = Some (true, block n L) /\ api_alexanderDual c' rnd' n I' (Some point) = Some (true, block n L') /\ Permutation L L') /\
  (exists L L', api_alexanderDual c rnd n I None = Some (true, block n L) /\ api_alexanderDual c' rnd' n I' None = Some (true, block n L') /\ Permutation L L') /\
  (exists Ss Ss', api_associatedPrimes c rnd n I = Some (concat (map (fun s => block n (irreducible_generators n s)) Ss)) /\
     api_associatedPrimes c' rnd' n I' = Some (concat (map (fun s => block n (irreducible_generators n s)) Ss')) /\ Permutation Ss Ss') /\
  (exists Bs Bs', api_primaryDecomposition c rnds n I = Some (concat (map (block n) Bs)) /\
     api_primaryDecomposition c' rnds' n I' = Some (concat (map (block n) Bs')) /\ Forall2 (@Permutation mono) Bs Bs').
Proof.
  intros c rnd rnds c' rnd' rnds' n I I' Hc Hc' Hr Hr' HS.
  assert (Hab : forall a, above_minimal_generators n I a <-> above_minimal_generators n I' a).
  { intros a. unfold above_minimal_generators. split; intros H g Hg; apply H; apply (same_minimal n I I' g); auto. }
  assert (Hdual : forall a, length a = n -> above_minimal_generators n I a -> exists L L', api_alexanderDual c rnd n I (Some (znat a)) = Some (true, block n L) /\ api_alexanderDual c' rnd' n I' (Some (znat a)) = Some (true, block n L') /\ Permutation L L').
  { intros a Ha HA. destruct (p_api_dual c rnd n I a Hc Hr Ha HA) as [L [E F]].
    destruct (p_api_dual c' rnd' n I' a Hc' Hr' Ha (proj1 (Hab a) HA)) as [L' [E' F']]. exists L, L'. split; auto. split; auto.
    eapply lists_minimal_perm; [|exact F|exact F']. intros m _. apply (same_dual n); auto. }
  split; [|split; [|split; [|split; [|split; [|split]]]]].
  - intros HN HN'. destruct (p_irrMonomials c rnd n I Hc Hr HN) as [D [E F]]. destruct (p_irrMonomials c' rnd' n I' Hc' Hr' HN') as [D' [E' F']].
    exists D, D'. split; auto. split; auto. eapply decomp_unique; eauto.
  - assert (HN : I = [] <-> I' = []).
    { split; intros ->; [destruct I' as [|g I'']|destruct I as [|g I'']]; auto; exfalso.
      - assert (Hg : in_ideal (g :: I'') g) by (exists g; split; [left; auto|clear; induction g; constructor; auto]).
        apply HS in Hg; [destruct Hg as [? [[] _]]|inversion Hr'; auto].
      - assert (Hg : in_ideal (g :: I'') g) by (exists g; split; [left; auto|clear; induction g; constructor; auto]).
        apply HS in Hg; [destruct Hg as [? [[] _]]|inversion Hr; auto]. }
    destruct I as [|g J] eqn:EI.
    + rewrite (proj1 HN eq_refl). exists [repeat 0 n], [repeat 0 n]. split; [|split; auto].
      all: cbn [api_irrDecomIdeals api_irrDecomMonomials bind decoder app map concat]; unfold irreducible_generators.
      all: replace (filter (fun i => 0 <? nth i (repeat 0 n) 0) (seq 0 n)) with (@nil nat); [reflexivity|].
      all: generalize (seq 0 n); induction l as [|i l IH]; auto; cbn [filter]; rewrite nth_repeat; simpl; auto.
    + rewrite <- EI in *. assert (HN1 : I <> []) by (rewrite EI; discriminate).
      assert (HN2 : I' <> []) by (intros H; apply HN1; apply HN; auto). 
      destruct (p_irrIdeals c rnd n I Hc Hr HN1) as [D [E F]]. destruct (p_irrIdeals c' rnd' n I' Hc' Hr' HN2) as [D' [E' F']].
      exists D, D'. split; auto. split; auto. eapply decomp_unique; eauto.
  - destruct (p_msm c rnd n I Hc Hr) as [L [E [F G]]]. destruct (p_msm c' rnd' n I' Hc' Hr') as [L' [E' [F' G']]].
    exists L, L'. split; auto. split; auto. apply NoDup_Permutation; auto. intros m. rewrite G, G'. apply same_max. auto.
  - intros point Hp. destruct (p_api_bad c rnd n I point Hc Hr Hp) as [P1 P2]. destruct (p_api_bad c' rnd' n I' point Hc' Hr' Hp) as [P1' P2'].
    destruct (computeAlexanderDual c rnd (setIdeal false n I) point) as [[evs|]|] eqn:E.
    + right. assert (Hg : exists x, point = znat x /\ above_minimal_generators n I x).
      { apply P1. exists evs. unfold api_alexanderDual. rewrite E. auto. }
      destruct Hg as [a [-> HA]]. unfold znat in Hp. rewrite map_length in Hp. apply Hdual; auto.
    + left. assert (X : api_alexanderDual c rnd n I (Some point) = Some (false, [])) by (unfold api_alexanderDual; rewrite E; auto).
      split; auto. apply P2'. apply P2 in X. intros [a [-> HA]]. apply X. exists a. split; auto. apply Hab; auto.
    + exfalso. assert (X : ~ exists evs, api_alexanderDual c rnd n I (Some point) = Some (true, evs)) by (intros [evs X]; unfold api_alexanderDual in X; rewrite E in X; discriminate).
      rewrite <- P1 in X. apply P2 in X. unfold api_alexanderDual in X. rewrite E in X. discriminate.
  - destruct (p_api_default c rnd n I Hc Hr) as [a [L [[Ha [HA HL]] [H2 H3]]]]. destruct (p_api_default c' rnd' n I' Hc' Hr') as [a' [L' [[Ha' [HA' HL']] [H2' H3']]]].
    assert (a = a'). { apply Hab in HA as HA2. apply Hab in HA' as HA2'. specialize (HL a' Ha' HA2'). specialize (HL' a Ha HA2).
      apply (divs_iff n) in HL; auto. apply (divs_iff n) in HL'; auto. apply le_n_antisym with n; auto. }
    subst a'. exists L, L'. split; auto. split; auto. destruct (Hdual a Ha HA) as [M [M' [E [E' P]]]].
    rewrite H3 in E. rewrite H3' in E'. assert (E1 : block n L = block n M) by congruence. assert (E1' : block n L' = block n M') by congruence.
    apply block_inj in E1. apply block_inj in E1'. subst. auto.
  - destruct (p_ass c rnd n I Hc Hr) as [L [E [F G]]]. destruct (p_ass c' rnd' n I' Hc' Hr') as [L' [E' [F' G']]].
    exists L, L'. split; auto. split; auto. apply NoDup_Permutation; auto. intros m. rewrite G, G'. apply same_ass. auto.
  - destruct (p_primary c rnds n I Hc Hr) as [D [Gs [Bs [E [F1 [F2 [F3 [F4 _]]]]]]]]. destruct (p_primary c' rnds' n I' Hc' Hr') as [D' [Gs' [Bs' [E' [F1' [F2' [F3' [F4' _]]]]]]]].
    exists Bs, Bs'. split; auto. split; auto.
    assert (D = D') by (apply sorted_unique; auto; eapply decomp_unique; eauto). subst D'.
    assert (Gs = Gs') by (eapply runs_functional; eauto). subst Gs'. clear -F4 F4'. revert Bs' F4'.
    induction F4 as [|G B Gs Bs H _ IH]; intros Bs' F4'; inversion F4'; subst; constructor; auto.
    destruct H as [_ [_ [_ H]]]. match goal with H2 : good_group n G _ |- _ => destruct H2 as [_ [_ [_ H2]]]; eapply lists_minimal_perm; [|exact H|exact H2]; tauto end.
Qed.

(** ** C24 *)
Lemma p_translator : forall n I, in_ring n I ->
  length (shrinkBigIdeal n (tr_initialize n I) I) = length I /\
  in_ring n (shrinkBigIdeal n (tr_initialize n I) I) /\
  translate_all n (tr_initialize n I) (shrinkBigIdeal n (tr_initialize n I) I) = Some (map znat I) /\
  (forall i j v, i < length I -> j < length I -> v < n ->
     (nth v (nth i I []) 0 <= nth v (nth j I []) 0 <->
      nth v (nth i (shrinkBigIdeal n (tr_initialize n I) I) []) 0 <= nth v (nth j (shrinkBigIdeal n (tr_initialize n I) I) []) 0)) /\
  (forall i v, i < length I -> v < n ->
     (nth v (nth i I []) 0 = 0 <-> nth v (nth i (shrinkBigIdeal n (tr_initialize n I) I) []) 0 = 0) /\
     nth v (nth i (shrinkBigIdeal n (tr_initialize n I) I) []) 0 < getMaxId (tr_initialize n I) v) /\
  (forall v, v < n -> getMaxId (tr_initialize n I) v <= length I + 1 /\
     getExponent (tr_initialize n I) v (getMaxId (tr_initialize n I) v) = Some 0%Z).
Proof.
  intros n I Hr. pose proof Hr as Hw. apply in_ring_wf in Hw. fold (J0 n I).
  assert (HL : length (J0 n I) = length I) by apply map_length.
  assert (Hn : forall i, i < length I -> nth i I [] = image n (phi I) (nth i (J0 n I) []) /\ In (nth i (J0 n I) []) (J0 n I)).
  { intros i Hi. assert (Hi' : i < length (J0 n I)) by lia. split; [|apply nth_In; auto].
    rewrite <- (J0_image n I Hw) at 1. rewrite nth_indep with (d' := image n (phi I) []) by (rewrite map_length; auto). apply map_nth. }
  split; auto. split; [apply in_ring_wf; apply J0_wf|]. split; [|split; [|split]].
  - rewrite (translate_all_spec n _ _ (fun t => znat (image n (phi I) t))).
    + f_equal. rewrite <- (map_map (image n (phi I)) znat). rewrite J0_image; auto.
    + intros t Ht. rewrite translate_comp by (intros v Hv; pose proof (J0_below n I t v Ht Hv); lia). f_equal. f_equal.
      apply term_ext with n; [apply tabulate_length|apply tabulate_length|]. intros v Hv. rewrite comp_nth, image_nth by auto.
      pose proof (J0_below n I t v Ht Hv). destruct (Nat.eqb_spec (t @ v) (K I v)); [lia|auto].
  - intros i j v Hi Hj Hv. destruct (Hn i Hi) as [E1 I1]. destruct (Hn j Hj) as [E2 I2]. rewrite E1, E2, !image_nth by auto.
    apply (emb_le n (K I)); auto using phi_embedding; apply (J0_below n I); auto.
  - intros i v Hi Hv. destruct (Hn i Hi) as [E1 I1]. rewrite maxId_eq by auto. pose proof (J0_below n I _ v I1 Hv) as HB. split; auto.
    rewrite E1, image_nth by auto. pose proof (emb_pos n (K I) (phi I) v _ (phi_embedding n I) Hv HB). lia.
  - intros v Hv. rewrite maxId_eq by auto. split; [rewrite Nat.add_1_r; exact (proj2 (K_bounds I v))|]. rewrite getExponent_eq by auto.
    rewrite Nat.ltb_irrefl, Nat.eqb_refl. auto.
Qed.
