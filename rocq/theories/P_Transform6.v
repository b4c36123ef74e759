(** The action: canonical forms, single options, totality. *)
From Coq Require Import List Arith Bool ZArith Lia Ascii Sorted Permutation.
Import ListNotations.
From Verif Require Import Spec M_Term M_Ideal M_Api M_Names Spec_Names M_Intersect Spec_Intersect M_Transform Spec_Transform
  P_Term P_Ideal P_Corner P_Translator P_Names P_Names2 P_Intersect P_Intersect2 P_Intersect3 P_Transform P_Transform2 P_Transform3 P_Transform4 P_Transform5 P_Poly P_Poly3.

(** ** Canonical form *)
Definition canon1 (u : bool) (J : nideal) : nideal :=
  (ordered (fst J), (if u then bi_sortGeneratorsUnique else bi_sortGenerators) (map (arranged (fst J)) (snd J))).
Lemma order_canon s u J : good_named J -> s_order true s u J = TOk (canon1 u J).
Proof.
  destruct J as [nm I]. intros G. apply good_wf in G as [N W]. unfold s_order. rewrite sortVariables_spec by auto. cbn [of_option tbind fst snd]. unfold canon1. cbn [fst snd]. rewrite orb_true_r. destruct u; reflexivity.
Qed.
Lemma arranged_wf names I : wf (length (ordered names)) (map (arranged names) I).
Proof. intros g H. apply in_map_iff in H as [t [<- _]]. unfold arranged, ordered. now rewrite !map_length. Qed.
Lemma canon1_fits u J : P_Transform4.fits (canon1 u J).
Proof.
  unfold P_Transform4.fits, canon1. cbn [fst snd]. pose proof (arranged_wf (fst J) (snd J)) as W. destruct u.
  - intros g H. apply (sortGeneratorsUnique_spec _ _ W) in H. auto.
  - destruct (sortGenerators_eq _ _ W) as [_ [_ P]]. intros g H. apply W. eapply Permutation_in; eauto.
Qed.
Lemma lex_iff : forall a b, length a = length b -> (term_greater a b = true <-> lex_greater a b).
Proof.
  induction a as [|x a IH]; intros [|y b] L; cbn [length] in L; try discriminate; cbn [term_greater lex_greater]; try (split; [discriminate|tauto]).
  destruct (y <? x) eqn:E; [apply Nat.ltb_lt in E; split; auto|]. apply Nat.ltb_ge in E. destruct (x <? y) eqn:F.
  - apply Nat.ltb_lt in F. split; [discriminate|]. intros [H|[H _]]; lia.
  - apply Nat.ltb_ge in F. rewrite IH by lia. split; [right; split; [lia|auto]|]. intros [H|[_ H]]; [lia|auto].
Qed.
Lemma map_arranged names names' : forall I L, NoDup names -> Permutation names names' -> Forall2 (same_term 0 names names') I L -> map (arranged names) I = map (arranged names') L.
Proof. intros I L N P. induction 1 as [|t t' I L H F IH]; cbn [map]; auto. rewrite IH. f_equal. now apply arranged_eq. Qed.
Lemma canon_same J K : good_named J -> same_but_order J K -> canon1 false J = canon1 false K.
Proof.
  destruct J as [nm I], K as [nm' I']. intros G [P [L [PL F]]]. cbn [fst snd] in *. apply good_wf in G as [N W]. unfold canon1. cbn [fst snd]. rewrite (ordered_perm nm nm') by auto. f_equal.
  rewrite (map_arranged nm nm' I L) by auto. eapply sortGenerators_perm; [apply arranged_wf|]. now apply Permutation_map.
Qed.
Lemma unique_same n I I' : wf n I -> wf n I' -> (forall g, In g I <-> In g I') -> bi_sortGeneratorsUnique I = bi_sortGeneratorsUnique I'.
Proof.
  intros W W' E. destruct (sortGeneratorsUnique_spec n I W) as [S1 E1]. destruct (sortGeneratorsUnique_spec n I' W') as [S2 E2].
  assert (D : forall l, Forall (fun t => length t = n) l -> StronglySorted (fun a b => term_greater a b = true) l -> NoDup l).
  { intros l F S. clear -S. induction S as [|a l S IH H]; constructor; auto. intros C. rewrite Forall_forall in H. specialize (H a C). pose proof (tg_asym a a H). congruence. }
  assert (F1 : Forall (fun t => length t = n) (bi_sortGeneratorsUnique I)) by (apply Forall_forall; intros g H; apply W, E1, H).
  assert (F2 : Forall (fun t => length t = n) (bi_sortGeneratorsUnique I')) by (apply Forall_forall; intros g H; apply W', E2, H).
  assert (P : Permutation (bi_sortGeneratorsUnique I) (bi_sortGeneratorsUnique I')).
  { apply NoDup_Permutation; [apply D; auto | apply D; auto|]. intros g. rewrite E1, E2. apply E. }
  clear E1 E2. revert S2 F2 P. generalize (bi_sortGeneratorsUnique I'). revert S1 F1. induction (bi_sortGeneratorsUnique I) as [|a l IH]; intros S1 F1 l' S2 F2 P.
  - apply Permutation_nil in P. auto.
  - destruct l' as [|b l']; [apply Permutation_sym, Permutation_nil in P; discriminate|]. inversion S1 as [|? ? S1' H1]; inversion S2 as [|? ? S2' H2]; subst. inversion F1; inversion F2; subst.
    assert (a = b).
    { assert (A : In a (b :: l')) by (eapply Permutation_in; [exact P|left; auto]). assert (B : In b (a :: l)) by (eapply Permutation_in; [apply Permutation_sym; exact P|left; auto]).
      destruct A as [A|A]; auto. destruct B as [B|B]; auto. rewrite Forall_forall in H1, H2. specialize (H1 b B). specialize (H2 a A). pose proof (tg_asym _ _ H1). congruence. }
    subst b. f_equal. apply IH; auto. now apply Permutation_cons_inv in P.
Qed.
Lemma canon_same_set J K : good_named J -> same_set_but_order J K -> canon1 true J = canon1 true K.
Proof.
  destruct J as [nm I], K as [nm' I']. intros G [P [L [PL F]]]. cbn [fst snd] in *. apply good_wf in G as [N W]. unfold canon1. cbn [fst snd]. rewrite (ordered_perm nm nm') by auto. f_equal.
  rewrite (map_arranged nm nm' I L) by auto. eapply unique_same; [apply arranged_wf|apply arranged_wf|]. intros g. rewrite !in_map_iff. split; intros [h [E H]]; exists h; split; auto; apply PL; auto.
Qed.
Lemma canon_run s u names Js : Forall good_named Js -> transform (only_order true s u) names Js = TOk (ordered names, std_sort ideal_less (map (canon1 u) Js)).
Proof. intros G. rewrite t_order. rewrite (mapT_ok _ (canon1 u)); [reflexivity|]. intros J H. apply order_canon. rewrite Forall_forall in G. auto. Qed.
Lemma sorted_same l l' : Permutation l l' -> Forall P_Transform4.fits l -> std_sort ideal_less l = std_sort ideal_less l'.
Proof. apply sort_ideals_unique. Qed.
Lemma fits_all u Js : Forall P_Transform4.fits (map (canon1 u) Js).
Proof. apply Forall_forall. intros J H. apply in_map_iff in H as [K [<- _]]. apply canon1_fits. Qed.
Theorem p_canonical : forall s names names' Js Ks, NoDup names -> Permutation names names' -> Forall good_named Js -> Forall good_named Ks -> same_list_but_order Js Ks ->
  transform (only_order true s false) names Js = transform (only_order true s false) names' Ks.
Proof.
  intros s names names' Js Ks N P GJ GK [L [PL F]]. rewrite !canon_run by auto. rewrite (ordered_perm names names') by auto. do 2 f_equal.
  assert (E : map (canon1 false) Js = map (canon1 false) L).
  { clear PL. induction F as [|J K Js L H F IH]; cbn [map]; auto. inversion GJ; subst. rewrite IH by auto. f_equal. now apply canon_same. }
  rewrite E. apply sorted_same; [now apply Permutation_map | apply fits_all].
Qed.
Theorem p_canonical_unique : forall s names names' Js Ks, NoDup names -> Permutation names names' -> Forall good_named Js -> Forall good_named Ks -> same_sets_but_order Js Ks ->
  transform (only_order true s true) names Js = transform (only_order true s true) names' Ks.
Proof.
  intros s names names' Js Ks N P GJ GK [L [PL F]]. rewrite !canon_run by auto. rewrite (ordered_perm names names') by auto. do 2 f_equal.
  assert (E : map (canon1 true) Js = map (canon1 true) L).
  { clear PL. induction F as [|J K Js L H F IH]; cbn [map]; auto. inversion GJ; subst. rewrite IH by auto. f_equal. now apply canon_same_set. }
  rewrite E. apply sorted_same; [now apply Permutation_map | apply fits_all].
Qed.
(** The canonical form is the same ideals. *)
Lemma lex_sorted n l : wf n l -> StronglySorted (before term_greater) l -> StronglySorted (fun a b => a = b \/ lex_greater a b) l.
Proof.
  intros W S. induction S as [|a l S IH H]; constructor; [apply IH; intros g Hg; apply W; right; auto|]. rewrite Forall_forall in *. intros b Hb. specialize (H b Hb). unfold before in H.
  assert (length a = n) by (apply W; left; auto). assert (length b = n) by (apply W; right; auto). destruct (term_greater a b) eqn:E; [right; apply lex_iff; auto; congruence|]. left. eapply tg_tot; eauto. congruence.
Qed.
Lemma lex_strict n l : wf n l -> StronglySorted (fun a b => term_greater a b = true) l -> StronglySorted lex_greater l.
Proof.
  intros W S. induction S as [|a l S IH H]; constructor; [apply IH; intros g Hg; apply W; right; auto|]. rewrite Forall_forall in *. intros b Hb. apply lex_iff; [|auto]. rewrite (W a), (W b); auto; [right; auto|left; auto].
Qed.
Lemma canon1_ok J : good_named J -> same_but_order J (canon1 false J) /\ ascending (fst (canon1 false J)) /\ StronglySorted (fun a b => a = b \/ lex_greater a b) (snd (canon1 false J)).
Proof.
  destruct J as [nm I]. intros G. apply good_wf in G as [N W]. destruct (ordered_ok nm N) as [A [P L]]. destruct (sortGenerators_eq _ _ (arranged_wf nm I)) as [_ [S Q]]. unfold canon1. cbn [fst snd]. repeat split; auto; cbn [fst snd].
  - now apply Permutation_sym.
  - exists (map (arranged nm) I). split; [now apply Permutation_sym|]. clear -N. induction I as [|t I IH]; constructor; auto. now apply arranged_same.
  - eapply lex_sorted; [|exact S]. exact (canon1_fits false (nm, I)).
Qed.
Lemma canon1_unique_ok J : good_named J -> same_set_but_order J (canon1 true J) /\ ascending (fst (canon1 true J)) /\ StronglySorted lex_greater (snd (canon1 true J)).
Proof.
  destruct J as [nm I]. intros G. apply good_wf in G as [N W]. destruct (ordered_ok nm N) as [A [P L]]. destruct (sortGeneratorsUnique_spec _ _ (arranged_wf nm I)) as [S Q]. unfold canon1. cbn [fst snd]. repeat split; auto; cbn [fst snd].
  - now apply Permutation_sym.
  - exists (map (arranged nm) I). split; [intros g; symmetry; apply Q|]. clear -N. induction I as [|t I IH]; constructor; auto. now apply arranged_same.
  - eapply lex_strict; [|exact S]. exact (canon1_fits true (nm, I)).
Qed.
Theorem p_canonical_same : forall s names Js, NoDup names -> Forall good_named Js -> exists names' Rs,
  transform (only_order true s false) names Js = TOk (names', Rs) /\ Permutation names names' /\ ascending names' /\ same_list_but_order Js Rs /\
  Forall (fun R => ascending (fst R) /\ StronglySorted (fun a b => a = b \/ lex_greater a b) (snd R)) Rs.
Proof.
  intros s names Js N G. rewrite canon_run by auto. eexists. eexists. split; [reflexivity|]. destruct (ordered_ok names N) as [A [P L]]. split; [now apply Permutation_sym|]. split; auto.
  assert (Q : Permutation (std_sort ideal_less (map (canon1 false) Js)) (map (canon1 false) Js)) by apply std_sort_perm.
  split.
  - exists (map (canon1 false) Js). split; [now apply Permutation_sym|]. clear -G. induction G as [|J Js GJ G IH]; constructor; auto. now apply canon1_ok.
  - apply Forall_forall. intros R H. eapply Permutation_in in H; [|exact Q]. apply in_map_iff in H as [J [<- HJ]]. apply canon1_ok. rewrite Forall_forall in G. auto.
Qed.
Theorem p_canonical_unique_same : forall s names Js, NoDup names -> Forall good_named Js -> exists names' Rs,
  transform (only_order true s true) names Js = TOk (names', Rs) /\ Permutation names names' /\ ascending names' /\ same_sets_but_order Js Rs /\
  Forall (fun R => ascending (fst R) /\ StronglySorted lex_greater (snd R)) Rs.
Proof.
  intros s names Js N G. rewrite canon_run by auto. eexists. eexists. split; [reflexivity|]. destruct (ordered_ok names N) as [A [P L]]. split; [now apply Permutation_sym|]. split; auto.
  assert (Q : Permutation (std_sort ideal_less (map (canon1 true) Js)) (map (canon1 true) Js)) by apply std_sort_perm.
  split.
  - exists (map (canon1 true) Js). split; [now apply Permutation_sym|]. clear -G. induction G as [|J Js GJ G IH]; constructor; auto. now apply canon1_unique_ok.
  - apply Forall_forall. intros R H. eapply Permutation_in in H; [|exact Q]. apply in_map_iff in H as [J [<- HJ]]. apply canon1_unique_ok. rewrite Forall_forall in G. auto.
Qed.
(** Sorting without changing the variables *)
Theorem p_sort names (Js : list nideal) : Forall good_named Js -> exists Rs, transform (only_order false true false) names Js = TOk (names, Rs) /\
  Forall2 (fun J R => fst R = fst J /\ Permutation (snd J) (snd R) /\ StronglySorted (fun a b => a = b \/ lex_greater a b) (snd R)) Js Rs.
Proof.
  intros G. rewrite t_order. rewrite (mapT_ok _ (fun J : nideal => (fst J, bi_sortGenerators (snd J)) : nideal)); [|reflexivity]. eexists. split; [reflexivity|]. induction G as [|J Js GJ G IH]; cbn [map]; constructor; auto. destruct J as [nm I]. cbn [fst snd].
  apply good_wf in GJ as [N W]. destruct (sortGenerators_eq _ _ W) as [_ [S Q]]. split; auto. split; [now apply Permutation_sym|]. eapply lex_sorted; [|exact S]. intros g H. apply W. eapply Permutation_in; eauto.
Qed.
Theorem p_unique s names (Js : list nideal) : Forall good_named Js -> exists Rs, transform (only_order false s true) names Js = TOk (names, Rs) /\
  Forall2 (fun J R => fst R = fst J /\ (forall g, In g (snd R) <-> In g (snd J)) /\ StronglySorted lex_greater (snd R)) Js Rs.
Proof.
  intros G. rewrite t_order. rewrite (mapT_ok _ (fun J : nideal => (fst J, bi_sortGeneratorsUnique (snd J)) : nideal)); [|reflexivity]. eexists. split; [reflexivity|]. induction G as [|J Js GJ G IH]; cbn [map]; constructor; auto. destruct J as [nm I]. cbn [fst snd].
  apply good_wf in GJ as [N W]. destruct (sortGeneratorsUnique_spec _ _ W) as [S Q]. split; auto. split; auto. eapply lex_strict; [|exact S]. intros g H. apply W, Q, H.
Qed.

(** ** Single options *)
Lemma lift f names Js (Q : nideal -> nideal -> Prop) : Forall good_named Js -> (forall J, good_named J -> exists R, f J = TOk R /\ Q J R) ->
  exists Rs, pairup names (mapT f Js) = TOk (names, Rs) /\ Forall2 Q Js Rs.
Proof.
  intros G H. induction G as [|J Js GJ G [Rs [E F]]]; [exists []; split; [reflexivity|constructor]|]. destruct (H J GJ) as [R [A B]]. exists (R :: Rs). cbn [mapT]. rewrite A. cbn [tbind]. unfold pairup in *. destruct (mapT f Js); cbn [tbind] in *; try discriminate. split; [congruence|]. constructor; auto.
Qed.
Theorem t_p_radical names (Js : list nideal) : Forall good_named Js -> exists Rs, transform (only_radical true) names Js = TOk (names, Rs) /\
  Forall2 (fun J R => fst R = fst J /\ good_named R /\ forall m, length m = length (fst J) -> (in_ideal (snd R) m <-> exists k, in_ideal (snd J) (mono_power k m))) Js Rs.
Proof.
  intros G. rewrite t_radical. apply lift; auto. intros [nm I] GJ. destruct (p_radical nm I GJ) as [R [A [B [_ D]]]]. exists (nm, R). unfold s_radical. rewrite A. auto.
Qed.
Theorem t_p_minimize names (Js : list nideal) : Forall good_named Js -> exists Rs, transform (only_minimize true) names Js = TOk (names, Rs) /\
  Forall2 (fun J R => fst R = fst J /\ lists_minimal_generators (length (fst J)) (snd J) (snd R)) Js Rs.
Proof.
  intros G. rewrite t_minimize. apply lift; auto. intros [nm I] GJ. destruct (p_minimize nm I GJ) as [R [A [B D]]]. exists (nm, R). unfold s_minimize. rewrite A. auto.
Qed.
Theorem t_p_swap01 names (Js : list nideal) : Forall good_named Js -> exists Rs, transform (only_swap01 true) names Js = TOk (names, Rs) /\
  Forall2 (fun J R => fst R = fst J /\ good_named R /\ Forall2 (fun g r => forall v, v < length (fst J) ->
    nth v r 0 = match nth v g 0 with 0 => 1 | 1 => 0 | e => e end) (snd J) (snd R)) Js Rs.
Proof.
  intros G. rewrite t_swap. apply lift; auto. intros [nm I] GJ. destruct (p_swap01 nm I GJ) as [R [A [B D]]]. exists (nm, R). unfold s_swap. rewrite A. split; auto. split; auto. split; auto. cbn [fst snd].
  clear -D. induction D as [|g r I R H D IH]; constructor; auto. intros v Hv. destruct (H v Hv) as [H0 [H1 H2]]. destruct (nth v g 0) as [|[|e]]; auto. apply H2. lia.
Qed.
Theorem t_p_pure names (Js : list nideal) : Forall good_named Js -> exists Rs, transform (only_addPurePowers true) names Js = TOk (names, Rs) /\
  Forall2 (fun J R => fst R = fst J /\ good_named R /\ exists A, snd R = snd J ++ A /\ NoDup A /\
    (forall a, In a A <-> exists v, v < length (fst J) /\ ~ has_pure_power (length (fst J)) v (snd J) /\ a = pure_power (length (fst J)) v (S (largest_exponent v (snd J)))) /\
    forall m, length m = length (fst J) -> (in_ideal (snd R) m <-> in_ideal (snd J) m \/ exists v, v < length (fst J) /\ largest_exponent v (snd J) < nth v m 0)) Js Rs.
Proof.
  intros G. rewrite t_pure. apply lift; auto. intros [nm I] GJ. destruct (p_pure nm I GJ) as [A [E [B [N [D F]]]]]. exists (nm, I ++ A). unfold s_pure. rewrite E. split; auto. split; auto. split; auto. exists A. auto.
Qed.
Theorem t_p_deform names (Js : list nideal) : Forall good_named Js -> exists Rs, transform (only_deform true) names Js = TOk (names, Rs) /\
  Forall2 (fun J R => fst R = fst J /\ good_named R /\ length (snd R) = length (snd J) /\
    forall i j v, i < length (snd J) -> j < length (snd J) -> v < length (fst J) ->
    let g := nth v (nth i (snd J) []) 0 in let h := nth v (nth j (snd J) []) 0 in let d := nth v (nth i (snd R) []) 0 in let e := nth v (nth j (snd R) []) 0 in
    (g = 0 -> d = 0) /\ (g < h -> d < e) /\ (i < j -> 0 < g -> g = h -> d < e) /\ d <= length (snd J)) Js Rs.
Proof.
  intros G. rewrite t_deform. apply lift; auto. intros [nm I] GJ. destruct (p_deform nm I GJ) as [D [E [B [L F]]]]. exists (nm, D). unfold s_deform. rewrite E. split; auto.
Qed.
Theorem t_p_product names (Js : list nideal) : NoDup names -> (Forall (fun J => fst J = names) Js -> exists P, transform (only_product true) names Js = TOk (names, [(names, P)]) /\ good_named (names, P) /\
    Forall2 (fun J p => forall v, v < length names -> nth v p 0 = exponent_in_product v (snd J)) Js P) /\
  (Exists (fun J => fst J <> names) Js -> transform (only_product true) names Js = TErr).
Proof.
  intros N. split.
  - intros F. destruct (products_gen names Js [] F) as [P [A B]]. exists P. rewrite t_product. unfold pairup. change (if_takeProducts Js (names, [])) with (if_takeProducts Js ((names, []) : nideal)). split; [etransitivity; [exact (f_equal (fun r => tbind (tbind r (fun J => TOk [J])) (fun Js => TOk (names, Js))) A)|reflexivity]|]. split.
    + split; auto. cbn [fst snd]. clear -B. induction B as [|? ? ? ? [H _]]; constructor; auto.
    + clear -B. induction B as [|? ? ? ? [_ H]]; constructor; auto.
  - intros E. rewrite t_product. unfold pairup. exact (f_equal (fun r => tbind (tbind r (fun J => TOk [J])) (fun Js => TOk (names, Js))) (products_err names Js [] E)).
Qed.
Theorem t_p_project names (Js : list nideal) k : NoDup names -> 1 <= k <= length names -> Forall (fun J => good_named J /\ k <= length (fst J)) Js -> exists Rs, transform (only_projectVar k) names Js = TOk (remove_at (k - 1) names, Rs) /\
  Forall2 (fun J R => fst R = remove_at (k - 1) (fst J) /\ good_named R /\ forall m, length m = length (fst J) - 1 -> (in_ideal (snd R) m <-> exists e, in_ideal (snd J) (put_at (k - 1) e m))) Js Rs.
Proof.
  intros N K F. rewrite t_project. assert ((0 <? k) && (k <=? length names) = true) as -> by (apply andb_true_iff; rewrite Nat.ltb_lt, Nat.leb_le; lia).
  assert (X : exists Rs, mapO (bi_projectVar (k - 1)) Js = Some Rs /\ Forall2 (fun J R => fst R = remove_at (k - 1) (fst J) /\ good_named R /\ forall m, length m = length (fst J) - 1 -> (in_ideal (snd R) m <-> exists e, in_ideal (snd J) (put_at (k - 1) e m))) Js Rs).
  { induction F as [|J Js [GJ L] F [Rs [E H]]]; [exists []; split; [reflexivity|constructor]|]. destruct J as [nm I]. cbn [fst] in L. destruct (p_project nm I (k - 1) GJ ltac:(lia)) as [R [A [B D]]]. exists ((remove_at (k - 1) nm, R) :: Rs). cbn [mapO]. rewrite A. cbn [bind]. rewrite E. split; [reflexivity|]. constructor; auto. }
  destruct X as [Rs [E H]]. exists Rs. rewrite E. split; auto.
Qed.
Theorem t_p_project_none names (Js : list nideal) k : k = 0 \/ length names < k -> transform (only_projectVar k) names Js = TOk (names, Js).
Proof. intros K. rewrite t_project. assert ((0 <? k) && (k <=? length names) = false) as ->; auto. apply andb_false_iff. rewrite Nat.ltb_ge, Nat.leb_gt. lia. Qed.
Theorem t_p_trim names (Js : list nideal) : NoDup names -> Forall (fun J => fst J = names /\ good_named J) Js -> exists names' Rs,
  transform (only_trimVariables true) names Js = TOk (names', Rs) /\ names' = filter (divides_some names Js) names /\ Forall good_named Rs /\
  Forall2 (fun J R => fst R = names' /\ Forall2 (same_term 0 names names') (snd J) (snd R)) Js Rs.
Proof.
  intros N F. destruct (p_trim names Js F N) as [Rs [A [B D]]]. eexists. exists Rs. rewrite t_trim, A. split; [reflexivity|]. split; auto. split; auto. clear -D. set (n' := filter _ _) in *. clearbody n'. induction D as [|? ? ? ? [E H] D IH]; constructor; auto. split; auto. rewrite <- E. auto.
Qed.
Theorem t_p_transpose names (Js : list nideal) : Forall good_named Js -> exists names' Rs, transform (only_transpose true) names Js = TOk (names', Rs) /\
  names' = last (map fst Rs) [] /\
  Forall2 (fun J R => fst R = default_names (length (snd J)) /\ good_named R /\ length (snd R) = length (fst J) /\
    forall i j, i < length (fst J) -> j < length (snd J) -> nth j (nth i (snd R) []) 0 = nth i (nth j (snd J) []) 0) Js Rs.
Proof.
  intros G. rewrite t_transpose. cbv zeta. eexists. eexists. split; [reflexivity|]. split; [reflexivity|]. induction G as [|J Js GJ G IH]; cbn [map]; constructor; auto. destruct J as [nm I]. destruct (p_transpose nm I GJ) as [T [A [B [L [D _]]]]]. rewrite A. auto.
Qed.

(** ** Totality *)
Definition ring_ok (names : list str) (Js : list nideal) : Prop := NoDup names /\ Forall (fun J => fst J = names /\ good_named J) Js.
Lemma ok_good names Js : ring_ok names Js -> Forall good_named Js.
Proof. intros [_ F]. eapply Forall_impl; [|exact F]. intros J [_ G]. auto. Qed.
Lemma ok_map names (Js Rs : list nideal) (Q : nideal -> nideal -> Prop) : ring_ok names Js -> Forall2 Q Js Rs -> (forall J R, good_named J -> Q J R -> fst R = fst J /\ good_named R) -> ring_ok names Rs.
Proof. intros [N F] H X. split; auto. induction H as [|J R Js Rs q H IH]; constructor; inversion F as [|? ? [E GJ] F']; subst; [|auto]. destruct (X _ _ GJ q). split; auto. Qed.
Definition keeps (o : transform_options) : Prop := forall names Js, ring_ok names Js -> exists names' Rs, transform o names Js = TOk (names', Rs) /\ ring_ok names' Rs /\ incl names' names.
Lemma keeps_run : forall os names Js, Forall keeps os -> ring_ok names Js -> exists names' Rs, in_turn os names Js = TOk (names', Rs) /\ ring_ok names' Rs /\ incl names' names.
Proof. induction os as [|o os IH]; intros names Js F H; [exists names, Js; split; [auto|split; [auto|apply incl_refl]]|]. inversion F as [|? ? K F']; subst. destruct (K names Js H) as [n' [R [E [H' U]]]]. cbn [in_turn]. rewrite E. destruct (IH n' R F' H') as [n'' [R' [E' [H'' U']]]]. exists n'', R'. split; auto. split; auto. eapply incl_tran; eauto. Qed.
Lemma keeps_off o : (forall names Js, transform o names Js = TOk (names, Js)) -> keeps o.
Proof. intros H names Js R. exists names, Js. split; [auto|split; [auto|apply incl_refl]]. Qed.
Lemma k_radical b : keeps (only_radical b).
Proof. destruct b; [|apply keeps_off; intros; rewrite t_radical, mapT_id; reflexivity]. intros names Js H. destruct (t_p_radical names Js (ok_good _ _ H)) as [Rs [A B]]. exists names, Rs. split; auto. split; [|apply incl_refl]. eapply ok_map; [exact H|exact B|]. cbv beta. intros J R _ [E [G _]]. auto. Qed.
Lemma k_swap b : keeps (only_swap01 b).
Proof. destruct b; [|apply keeps_off; intros; rewrite t_swap, mapT_id; reflexivity]. intros names Js H. destruct (t_p_swap01 names Js (ok_good _ _ H)) as [Rs [A B]]. exists names, Rs. split; auto. split; [|apply incl_refl]. eapply ok_map; [exact H|exact B|]. cbv beta. intros J R _ [E [G _]]. auto. Qed.
Lemma k_deform b : keeps (only_deform b).
Proof. destruct b; [|apply keeps_off; intros; rewrite t_deform, mapT_id; reflexivity]. intros names Js H. destruct (t_p_deform names Js (ok_good _ _ H)) as [Rs [A B]]. exists names, Rs. split; auto. split; [|apply incl_refl]. eapply ok_map; [exact H|exact B|]. cbv beta. intros J R _ [E [G _]]. auto. Qed.
Lemma k_pure b : keeps (only_addPurePowers b).
Proof. destruct b; [|apply keeps_off; intros; rewrite t_pure, mapT_id; reflexivity]. intros names Js H. destruct (t_p_pure names Js (ok_good _ _ H)) as [Rs [A B]]. exists names, Rs. split; auto. split; [|apply incl_refl]. eapply ok_map; [exact H|exact B|]. cbv beta. intros J R _ [E [G _]]. auto. Qed.
Lemma k_minimize b : keeps (only_minimize b).
Proof.
  destruct b; [|apply keeps_off; intros; rewrite t_minimize, mapT_id; reflexivity]. intros names Js H. rewrite t_minimize.
  destruct (lift (s_minimize true) names Js (fun J R => fst R = fst J /\ good_named R) (ok_good _ _ H)) as [Rs [A B]].
  - intros [nm I] GJ. destruct (p_minimize nm I GJ) as [R [A [B _]]]. exists (nm, R). unfold s_minimize. rewrite A. auto.
  - exists names, Rs. split; auto. split; [|apply incl_refl]. eapply ok_map; [exact H|exact B|]. cbv beta. intros J R _ [E G]. auto.
Qed.
Lemma k_product b : keeps (only_product b).
Proof.
  destruct b; [|apply keeps_off; intros; rewrite t_product; reflexivity]. intros names Js [N F]. destruct (t_p_product names Js N) as [H _]. destruct H as [P [A [B _]]]; [eapply Forall_impl; [|exact F]; intros J [E _]; auto|].
  exists names, [(names, P)]. split; auto. split; [split; auto|apply incl_refl].
Qed.
Lemma k_project k : keeps (only_projectVar k).
Proof.
  intros names Js [N F]. destruct (le_lt_dec 1 k) as [K1|K1]; [destruct (le_lt_dec k (length names)) as [K2|K2]|].
  - destruct (t_p_project names Js k N ltac:(lia)) as [Rs [A B]]; [eapply Forall_impl; [|exact F]; cbv beta; intros J [E G]; split; auto; now rewrite E|]. eexists. exists Rs. split; [exact A|]. split; [|intros x Hx; unfold remove_at in Hx; apply in_app_or in Hx as [Hx|Hx]; rewrite <- (firstn_skipn (k - 1) names); apply in_or_app; [left; exact Hx|right; rewrite (skipn_cons [] (k - 1) names) by lia; right; exact Hx]]. split; [now apply removed_nodup|].
    clear -B F. induction B as [|J R Js Rs [E [G _]] B IH]; constructor; inversion F as [|? ? [E' _] F']; subst; auto.
  - exists names, Js. split; [apply t_p_project_none; lia|split; [split; auto|apply incl_refl]].
  - exists names, Js. split; [apply t_p_project_none; lia|split; [split; auto|apply incl_refl]].
Qed.
Lemma k_trim b : keeps (only_trimVariables b).
Proof.
  destruct b; [|apply keeps_off; intros; now rewrite t_trim]. intros names Js [N F]. destruct (t_p_trim names Js N F) as [n' [Rs [A [B [G D]]]]]. exists n', Rs. split; auto. split; [|subst; intros x Hx; apply filter_In in Hx; apply Hx]. split; [subst; now apply NoDup_filter|].
  clear -G D. induction D as [|J R Js Rs [E _] D IH]; constructor; inversion G; subst; auto.
Qed.
Lemma fits_good n J : NoDup (fst J) -> fst J = n -> P_Transform4.fits J -> fst J = n /\ good_named J.
Proof. intros N E F. split; auto. destruct J as [nm I]. cbn [fst] in *. subst. apply good_wf. split; auto. Qed.
Lemma k_order c s u : keeps (only_order c s u).
Proof.
  intros names Js [N F]. pose proof (ok_good names Js (conj N F)) as G. destruct c.
  - rewrite canon_run by auto. eexists. eexists. split; [reflexivity|]. destruct (ordered_ok names N) as [A [P L]]. assert (NO : NoDup (ordered names)) by (eapply Permutation_NoDup; [apply Permutation_sym; exact P|auto]). split; [|intros x Hx; eapply Permutation_in; [exact P|exact Hx]]. split; auto.
    apply Forall_forall. intros R H. assert (Q : In R (map (canon1 u) Js)) by (eapply Permutation_in; [apply std_sort_perm|exact H]). apply in_map_iff in Q as [J [<- HJ]]. rewrite Forall_forall in F. destruct (F J HJ) as [E _]. assert (EO : fst (canon1 u J) = ordered names) by exact (f_equal ordered E). apply fits_good; [rewrite EO; auto | exact EO | apply canon1_fits].
  - destruct u.
    + destruct (p_unique s names Js G) as [Rs [A B]]. exists names, Rs. split; auto. split; [|apply incl_refl]. eapply ok_map; [split; [exact N|exact F]|exact B|]. cbv beta. intros J R GJ [E [H _]]. split; auto. destruct J as [nm I], R as [nm' I']. cbn [fst snd] in *. subst. apply good_wf in GJ as [N' W]. apply good_wf. split; auto. intros g Hg. apply W, H, Hg.
    + destruct s; [|apply keeps_off; [intros; rewrite t_order, mapT_id; reflexivity|split; auto]].
      destruct (p_sort names Js G) as [Rs [A B]]. exists names, Rs. split; auto. split; [|apply incl_refl]. eapply ok_map; [split; [exact N|exact F]|exact B|]. cbv beta. intros J R GJ [E [H _]]. split; auto. destruct J as [nm I], R as [nm' I']. cbn [fst snd] in *. subst. apply good_wf in GJ as [N' W]. apply good_wf. split; auto. intros g Hg. apply W. eapply Permutation_in; [apply Permutation_sym; exact H|exact Hg].
Qed.
Theorem p_total o names Js : NoDup names -> Forall (fun J => fst J = names /\ good_named J) Js ->
  (o_transpose o = true -> forall J K, In J Js -> In K Js -> length (snd J) = length (snd K)) ->
  exists names' Rs, transform o names Js = TOk (names', Rs) /\ (NoDup names' /\ Forall (fun R => fst R = names' /\ good_named R) Rs) /\
    exists c, incl names' (if o_transpose o then default_names c else names).
Proof.
  intros N F T. rewrite p_one_by_one. change (one_by_one o) with (only_transpose (o_transpose o) :: tl (one_by_one o)). cbn [in_turn].
  assert (K : Forall keeps (tl (one_by_one o))).
  { unfold one_by_one. cbn [tl]. constructor; [apply k_project|]. constructor; [apply k_product|]. constructor; [apply k_radical|]. constructor; [apply k_swap|]. constructor; [apply k_minimize|]. constructor; [apply k_deform|]. constructor; [apply k_trim|]. constructor; [apply k_pure|]. constructor; [apply k_order|constructor]. }
  destruct (o_transpose o); [|rewrite t_transpose; destruct (keeps_run (tl (one_by_one o)) names Js K (conj N F)) as [n' [R [E [H U]]]]; exists n', R; split; [exact E|]; split; [exact H|exists 0; exact U]].
  - destruct (t_p_transpose names Js (ok_good names Js (conj N F))) as [n' [Rs [A [B D]]]]. rewrite A.
    assert (X : exists c, Forall (fun R => fst R = default_names c /\ good_named R) Rs).
    { destruct Js as [|J0 Js0]; [inversion D; exists 0; constructor|]. exists (length (snd J0)). specialize (T eq_refl). clear -D T. apply Forall_forall. intros R HR. apply In_nth with (d := ([], [])) in HR as [i [Li <-]].
      assert (Y : forall (l : list nideal) r, Forall2 (fun J R => fst R = default_names (length (snd J)) /\ good_named R /\ length (snd R) = length (fst J) /\ forall i j, i < length (fst J) -> j < length (snd J) -> nth j (nth i (snd R) []) 0 = nth i (nth j (snd J) []) 0) l r ->
        forall R, In R r -> exists J, In J l /\ fst R = default_names (length (snd J)) /\ good_named R).
      { intros l r H. induction H as [|J R l r [E [G _]] H IH]; intros R' HR'; [destruct HR'|]. destruct HR' as [<-|HR']; [exists J; split; [left; auto|auto]|]. destruct (IH _ HR') as [J' [HJ' Z']]. exists J'. split; [right; auto|auto]. }
      destruct (Y _ _ D (nth i Rs ([], [])) ltac:(now apply nth_In)) as [J [HJ [E G]]]. split; [|exact G]. etransitivity; [exact E|]. f_equal. apply T; [auto|left; auto]. }
    destruct X as [c X]. assert (n' = match Rs with [] => [] | _ => default_names c end) as ->.
    { rewrite B. clear -X. destruct Rs as [|R Rs]; auto. revert R X. induction Rs as [|R' Rs IH]; intros R X; inversion X as [|? ? [E _] X']; subst; [cbn; auto|]. change (last (map fst (R :: R' :: Rs)) []) with (last (map fst (R' :: Rs)) []). now apply IH. }
    assert (H : ring_ok (match Rs with [] => [] | _ => default_names c end) Rs) by (split; [destruct Rs; [constructor|rewrite <- numbered_eq; apply numbered_nodup]|]; destruct Rs; [constructor|exact X]).
    destruct (keeps_run (tl (one_by_one o)) _ Rs K H) as [n'' [R [E [H' U]]]]. exists n'', R. split; [exact E|]. split; [exact H'|]. exists c. eapply incl_tran; [exact U|]. destruct Rs; [intros ? []|apply incl_refl].
Qed.
