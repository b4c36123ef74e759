(** Sorting generators, variables and ideals. *)
From Coq Require Import List Arith Bool ZArith Lia Ascii Sorted Permutation.
Import ListNotations.
From Verif Require Import Spec M_Term M_Ideal M_Api M_Names Spec_Names M_Intersect Spec_Intersect M_Transform Spec_Transform
  P_Term P_Ideal P_Corner P_Translator P_Names P_Names2 P_Intersect P_Intersect2 P_Intersect3 P_Transform P_Transform2 P_Transform3 P_Poly P_Poly3.

Section Strict.
  Context {A : Type} (lt : A -> A -> bool) (good : A -> Prop).
  Hypothesis asym : forall x y, lt x y = true -> lt y x = false.
  Hypothesis trans : forall x y z, good x -> good y -> good z -> lt x y = true -> lt y z = true -> lt x z = true.
  Hypothesis tot : forall x y, good x -> good y -> lt x y = false -> lt y x = false -> x = y.
  Lemma nl_trans x y z : good x -> good y -> good z -> lt y x = false -> lt z y = false -> lt z x = false.
  Proof.
    intros Gx Gy Gz H K. destruct (lt z x) eqn:E; auto. destruct (lt y z) eqn:F; [rewrite (trans y z x) in H; auto|]. rewrite (tot y z Gy Gz F K) in H. congruence.
  Qed.
  Lemma strict_sorted l : Forall good l -> StronglySorted (before lt) (std_sort lt l).
  Proof. apply (sort_sorted_on lt good asym nl_trans). Qed.
  Lemma sorted_unique_perm l l' : Permutation l l' -> Forall good l -> StronglySorted (before lt) l -> StronglySorted (before lt) l' -> l = l'.
  Proof.
    intros P G S S'. assert (G' : Forall good l') by (eapply Permutation_Forall; eauto). rewrite Forall_forall in *.
    apply (sorted_perm_unique (fun a b => good a /\ good b /\ before lt a b)); auto.
    - intros a b [Ga [Gb H]] [_ [_ K]]. unfold before in *. apply tot; auto.
    - eapply StronglySorted_impl; [|exact S]. auto.
    - eapply StronglySorted_impl; [|exact S']. auto.
  Qed.
  Lemma sort_unique l l' : Permutation l l' -> Forall good l -> std_sort lt l = std_sort lt l'.
  Proof.
    intros P G. assert (G' : Forall good l') by (eapply Permutation_Forall; eauto). apply sorted_unique_perm.
    - etransitivity; [apply std_sort_perm|]. etransitivity; [exact P|]. apply Permutation_sym, std_sort_perm.
    - eapply Permutation_Forall; [apply Permutation_sym, std_sort_perm|auto].
    - now apply strict_sorted.
    - now apply strict_sorted.
  Qed.
End Strict.

(** ** Generators *)
Lemma tg_asym : forall a b, term_greater a b = true -> term_greater b a = false.
Proof.
  induction a as [|x a IH]; intros [|y b] H; cbn [term_greater] in *; try discriminate; auto. destruct (Nat.ltb_spec y x), (Nat.ltb_spec x y); try lia; auto; discriminate.
Qed.
Lemma tg_trans : forall a b c, length a = length b -> length b = length c -> term_greater a b = true -> term_greater b c = true -> term_greater a c = true.
Proof.
  induction a as [|x a IH]; intros [|y b] [|z c] L L' H K; cbn [term_greater length] in *; try discriminate.
  destruct (Nat.ltb_spec y x), (Nat.ltb_spec x y), (Nat.ltb_spec z y), (Nat.ltb_spec y z), (Nat.ltb_spec z x), (Nat.ltb_spec x z); try lia; try discriminate; auto. apply (IH b c); auto.
Qed.
Lemma tg_tot : forall a b, length a = length b -> term_greater a b = false -> term_greater b a = false -> a = b.
Proof.
  induction a as [|x a IH]; intros [|y b] L H K; cbn [term_greater length] in *; try discriminate; auto. destruct (Nat.ltb_spec y x), (Nat.ltb_spec x y); try lia; try discriminate. f_equal; [lia|]. apply IH; auto.
Qed.
Lemma tg_trans_n n x y z : length x = n -> length y = n -> length z = n -> term_greater x y = true -> term_greater y z = true -> term_greater x z = true.
Proof. intros A B C. apply tg_trans; congruence. Qed.
Lemma tg_tot_n n x y : length x = n -> length y = n -> term_greater x y = false -> term_greater y x = false -> x = y.
Proof. intros A B. apply tg_tot; congruence. Qed.
Lemma sortGenerators_eq n I : wf n I -> bi_sortGenerators I = std_sort term_greater I /\ StronglySorted (before term_greater) (bi_sortGenerators I) /\ Permutation (bi_sortGenerators I) I.
Proof.
  intros W. unfold bi_sortGenerators. cbv zeta. set (lt := fun aa bb => term_greater (nth aa I []) (nth bb I [])). set (s := std_sort lt (seq 0 (length I))).
  assert (P : Permutation (map (fun o => nth o I []) s) I).
  { transitivity (map (fun o => nth o I []) (seq 0 (length I))); [apply Permutation_map, std_sort_perm|]. rewrite map_nth_seq. apply Permutation_refl. }
  assert (G : Forall (fun o => length (nth o I []) = n) (seq 0 (length I))) by (apply Forall_forall; intros o Ho; apply in_seq in Ho; apply W, nth_In; lia).
  assert (S : StronglySorted (before term_greater) (map (fun o => nth o I []) s)).
  { apply (StronglySorted_map _ (before lt)); [intros a b _ _ H; exact H|]. apply (sort_sorted_on lt (fun o => length (nth o I []) = n)); auto.
    - intros x y H. now apply tg_asym.
    - intros x y z Gx Gy Gz. unfold lt. apply (nl_trans term_greater (fun t => length t = n)); auto.
      + apply tg_trans_n.
      + apply tg_tot_n. }
  split; auto. apply (sorted_unique_perm term_greater (fun t => length t = n)); auto.
  - apply tg_tot_n.
  - etransitivity; [exact P|]. apply Permutation_sym, std_sort_perm.
  - apply Forall_forall. intros t Ht. apply W. eapply Permutation_in; eauto.
  - apply (strict_sorted term_greater (fun t => length t = n)); [apply tg_asym|apply tg_trans_n|apply tg_tot_n|]. apply Forall_forall. auto.
Qed.
Lemma sortGenerators_perm n I I' : wf n I -> Permutation I I' -> bi_sortGenerators I = bi_sortGenerators I'.
Proof.
  intros W P. assert (W' : wf n I') by (intros g Hg; apply W; eapply Permutation_in; [apply Permutation_sym; eauto|auto]).
  destruct (sortGenerators_eq n I W) as [-> _]. destruct (sortGenerators_eq n I' W') as [-> _].
  apply (sort_unique term_greater (fun t => length t = n)); [apply tg_asym|apply tg_trans_n|apply tg_tot_n|auto|]. apply Forall_forall. auto.
Qed.
(** Removing repetitions *)
Lemma term_eqb_iff a b : term_eqb a b = true <-> a = b.
Proof. unfold term_eqb. destruct (list_eq_dec Nat.eq_dec a b); split; congruence. Qed.
Lemma unique_on n : forall l x, Forall (fun t => length t = n) (x :: l) -> StronglySorted (before term_greater) (x :: l) ->
  StronglySorted (fun a b => term_greater a b = true) (x :: unique_aux term_eqb x l) /\ forall e, In e (x :: unique_aux term_eqb x l) <-> In e (x :: l).
Proof.
  induction l as [|y l IH]; intros x G H; cbn [unique_aux].
  - split; [repeat constructor | reflexivity].
  - inversion H as [|? ? Hs Hf]; subst. inversion Hf as [|? ? Hxy Hf']; subst. inversion G as [|? ? Gx Gl]; subst. inversion Gl as [|? ? Gy Gl']; subst. destruct (term_eqb x y) eqn:E.
    + apply term_eqb_iff in E. subst y. destruct (IH x Gl Hs) as [B C]. split; auto. intros e. rewrite C. cbn. tauto.
    + assert (L : term_greater x y = true). { destruct (term_greater x y) eqn:T; auto. unfold before in Hxy. apply (tg_tot x y) in T; auto. apply term_eqb_iff in T. congruence. }
      destruct (IH y Gl Hs) as [B C]. split.
      * constructor; auto. apply Forall_forall. intros e He. assert (He' : In e (y :: l)) by now apply C. rewrite Forall_forall in Gl. destruct He as [<-|He]; auto. inversion B as [|? ? B1 B2]; subst. rewrite Forall_forall in B2.
        apply (tg_trans x y e); auto; rewrite Gy; symmetry; apply Gl; auto.
      * intros e. specialize (C e). cbn in *. tauto.
Qed.
Lemma sortGeneratorsUnique_spec n I : wf n I -> StronglySorted (fun a b => term_greater a b = true) (bi_sortGeneratorsUnique I) /\ forall g, In g (bi_sortGeneratorsUnique I) <-> In g I.
Proof.
  intros W. destruct (sortGenerators_eq n I W) as [_ [S P]]. unfold bi_sortGeneratorsUnique. assert (G : Forall (fun t => length t = n) (bi_sortGenerators I)) by (apply Forall_forall; intros t Ht; apply W; eapply Permutation_in; eauto).
  assert (Q : forall g, In g (bi_sortGenerators I) <-> In g I) by (intros g; split; intros H; [exact (Permutation_in _ P H) | exact (Permutation_in _ (Permutation_sym P) H)]).
  destruct (bi_sortGenerators I) as [|x l]; cbn [std_unique]; [split; [constructor|auto]|]. destruct (unique_on n l x G S) as [A B]. split; auto. intros g. rewrite B. auto.
Qed.

(** ** Variables *)
Lemma permute_terms_spec l : forall J old, length old = length l -> Forall (fun t => length t = length l) J ->
  permute_terms (sorter l) old J = Some (map (fun t => map (fun i => nth i t 0) (sorter l)) J).
Proof.
  induction J as [|t J IH]; intros old O F; cbn [permute_terms map]; auto. inversion F as [|x y Ft Fr]; subst. unfold permute_big.
  destruct (permute_loop_map 0 (sorter l) old t) as [tmp' [E L]].
  - apply sorter_nodup.
  - rewrite Ft. apply sorter_range.
  - rewrite sorter_length. auto.
  - rewrite E. cbn [bind fst snd]. rewrite IH; auto. congruence.
Qed.
Lemma sortVariables_spec names I : wf (length names) I -> bi_sortVariables (names, I) = Some (ordered names, map (fun t => map (fun i => nth i t 0) (sorter names)) I).
Proof. intros W. unfold bi_sortVariables. cbn [fst snd]. rewrite permute_terms_spec; auto; [now rewrite map_length|]. now apply Forall_forall. Qed.
Lemma ordered_eq names : ordered names = map (ix names) (sorter names). Proof. reflexivity. Qed.
Lemma ordered_ok names : NoDup names -> ascending (ordered names) /\ Permutation (ordered names) names /\ length (ordered names) = length names.
Proof. intros N. rewrite ordered_eq. split; [now apply sorted_names_asc|]. split; [apply sorted_names_perm|]. now rewrite map_length, sorter_length. Qed.
Lemma ordered_perm a b : NoDup a -> Permutation a b -> ordered a = ordered b.
Proof.
  intros N P. assert (N' : NoDup b) by (eapply Permutation_NoDup; eauto). destruct (ordered_ok a N) as [A1 [P1 _]]. destruct (ordered_ok b N') as [A2 [P2 _]]. apply ascending_unique; auto. etransitivity; [exact P1|]. etransitivity; [exact P|]. now apply Permutation_sym.
Qed.
Definition arranged (names : list str) (t : list nat) : list nat := map (fun i => nth i t 0) (sorter names).
Lemma arranged_same names t : NoDup names -> same_term 0 names (ordered names) t (arranged names t).
Proof. intros N. split; [unfold arranged, ordered; now rewrite !map_length|]. intros s. rewrite ordered_eq. apply exponent_map; auto. apply sorter_perm. Qed.
Lemma arranged_eq a b t t' : NoDup a -> Permutation a b -> same_term 0 a b t t' -> arranged a t = arranged b t'.
Proof.
  intros N P [L S]. assert (N' : NoDup b) by (eapply Permutation_NoDup; eauto). destruct (arranged_same a t N) as [L1 S1]. destruct (arranged_same b t' N') as [L2 S2]. pose proof (ordered_perm a b N P) as E.
  apply (exponent_ext 0 (ordered a)); auto; [|congruence|].
  - destruct (ordered_ok a N) as [A _]. apply ascending_nodup. auto.
  - intros s. rewrite S1. rewrite E, S2. symmetry. apply S.
Qed.

(** ** Ideals *)
Lemma lx_irr {A} (lt : A -> A -> Prop) : (forall x, ~ lt x x) -> forall a, ~ lexico lt a a.
Proof. intros IR. induction a as [|x a IH]; intros H; inversion H; subst; [eapply IR; eauto|auto]. Qed.
Lemma lx_trans {A} (lt : A -> A -> Prop) : (forall x y z, lt x y -> lt y z -> lt x z) -> forall a b c, lexico lt a b -> lexico lt b c -> lexico lt a c.
Proof.
  intros T. induction a as [|x a IH]; intros b c H K; inversion H; subst; inversion K; subst; try (apply lexico_prefix); try (apply lexico_head; eauto; fail). apply lexico_tail. eapply IH; eauto.
Qed.
Lemma lx_total {A} (lt : A -> A -> Prop) : (forall x y, lt x y \/ x = y \/ lt y x) -> forall a b, lexico lt a b \/ a = b \/ lexico lt b a.
Proof.
  intros T. induction a as [|x a IH]; intros [|y b]; [auto|left; apply lexico_prefix|right; right; apply lexico_prefix|].
  destruct (T x y) as [C|[->|C]]; [left; now apply lexico_head| |right; right; now apply lexico_head]. destruct (IH b) as [H|[->|H]]; [left; now apply lexico_tail|auto|right; right; now apply lexico_tail].
Qed.
Lemma vl_asym a b : vn_less_names a b = true -> vn_less_names b a = false.
Proof.
  intros H. destruct (vn_less_names b a) eqn:E; auto. apply less_names_iff in H. apply less_names_iff in E. exfalso. apply (lx_irr str_lt str_lt_irr a). eapply lx_trans; eauto. apply str_lt_trans.
Qed.
Lemma vl_trans a b c : vn_less_names a b = true -> vn_less_names b c = true -> vn_less_names a c = true.
Proof. rewrite !less_names_iff. apply lx_trans. apply str_lt_trans. Qed.
Lemma vl_tot a b : vn_less_names a b = false -> vn_less_names b a = false -> a = b.
Proof.
  intros H K. destruct (lx_total str_lt str_lt_total a b) as [L|[L|L]]; auto; apply less_names_iff in L; congruence.
Qed.
Lemma term_order_eq : forall a b, term_order a b = if term_greater a b then Lt else if term_greater b a then Gt else Eq.
Proof.
  induction a as [|x a IH]; intros [|y b]; cbn [term_order term_greater]; auto. destruct (Nat.ltb_spec y x), (Nat.ltb_spec x y); try lia; auto.
Qed.
Lemma tl_asym : forall I J, terms_less I J = true -> terms_less J I = false.
Proof.
  induction I as [|a I IH]; intros [|b J] H; cbn [terms_less] in *; try discriminate; auto. rewrite term_order_eq in *. destruct (term_greater a b) eqn:E; [rewrite (tg_asym a b E); auto|].
  destruct (term_greater b a) eqn:F; [discriminate|]. auto.
Qed.
Lemma tl_trans n : forall I J K, wf n I -> wf n J -> wf n K -> terms_less I J = true -> terms_less J K = true -> terms_less I K = true.
Proof.
  induction I as [|a I IH]; intros [|b J] [|c K] WI WJ WK H H'; cbn [terms_less] in *; try discriminate; auto. rewrite term_order_eq in *.
  assert (La : length a = n) by (apply WI; left; auto). assert (Lb : length b = n) by (apply WJ; left; auto). assert (Lc : length c = n) by (apply WK; left; auto).
  destruct (term_greater a b) eqn:E.
  - destruct (term_greater b c) eqn:F; [rewrite (tg_trans_n n a b c); auto|]. destruct (term_greater c b) eqn:G; [discriminate|]. rewrite <- (tg_tot_n n b c); auto. now rewrite E.
  - destruct (term_greater b a) eqn:E'; [discriminate|]. assert (b = a) by (apply (tg_tot_n n); auto). subst b. destruct (term_greater a c); auto. destruct (term_greater c a); auto. apply (IH J); auto; intros x Hx; [apply WI|apply WJ|apply WK]; right; auto.
Qed.
Lemma tl_tot n : forall I J, wf n I -> wf n J -> terms_less I J = false -> terms_less J I = false -> I = J.
Proof.
  induction I as [|a I IH]; intros [|b J] WI WJ H H'; cbn [terms_less] in *; try discriminate; auto. rewrite term_order_eq in *.
  assert (La : length a = n) by (apply WI; left; auto). assert (Lb : length b = n) by (apply WJ; left; auto).
  destruct (term_greater a b) eqn:E; [discriminate|]. destruct (term_greater b a) eqn:F; [discriminate|]. f_equal; [apply (tg_tot_n n); auto|]. apply IH; auto; intros x Hx; [apply WI|apply WJ]; right; auto.
Qed.
Definition fits (J : nideal) : Prop := wf (length (fst J)) (snd J).
Lemma il_asym I J : ideal_less I J = true -> ideal_less J I = false.
Proof.
  unfold ideal_less. destruct (vn_less_names (fst I) (fst J)) eqn:E; [rewrite (vl_asym _ _ E); auto|]. destruct (vn_less_names (fst J) (fst I)) eqn:F; [discriminate|]. apply tl_asym.
Qed.
Lemma il_trans I J K : fits I -> fits J -> fits K -> ideal_less I J = true -> ideal_less J K = true -> ideal_less I K = true.
Proof.
  intros FI FJ FK. unfold ideal_less. destruct (vn_less_names (fst I) (fst J)) eqn:E.
  - intros _. destruct (vn_less_names (fst J) (fst K)) eqn:F; [now rewrite (vl_trans _ _ _ E F)|]. destruct (vn_less_names (fst K) (fst J)) eqn:G; [discriminate|]. pose proof (vl_tot _ _ F G) as Q. rewrite Q in E. now rewrite E.
  - destruct (vn_less_names (fst J) (fst I)) eqn:E'; [discriminate|]. pose proof (vl_tot _ _ E E') as Q. rewrite Q. destruct (vn_less_names (fst J) (fst K)) eqn:G'; auto. destruct (vn_less_names (fst K) (fst J)) eqn:G; auto. intros H H'.
    pose proof (vl_tot _ _ G' G) as Q'. unfold fits in *. rewrite Q in FI. rewrite <- Q' in FK. apply (tl_trans (length (fst J)) (snd I) (snd J) (snd K)); auto.
Qed.
Lemma il_tot I J : fits I -> fits J -> ideal_less I J = false -> ideal_less J I = false -> I = J.
Proof.
  intros FI FJ. unfold ideal_less. destruct (vn_less_names (fst I) (fst J)) eqn:E; [discriminate|]. destruct (vn_less_names (fst J) (fst I)) eqn:F; [discriminate|]. intros H H'. pose proof (vl_tot _ _ E F) as Q. unfold fits in *. rewrite Q in FI.
  pose proof (tl_tot _ _ _ FI FJ H H'). destruct I, J. cbn in *. congruence.
Qed.
Lemma sort_ideals_unique l l' : Permutation l l' -> Forall fits l -> std_sort ideal_less l = std_sort ideal_less l'.
Proof. intros P F. apply (sort_unique ideal_less fits); auto; [apply il_asym|apply il_trans|apply il_tot]. Qed.
