(** Proofs about sorted polynomials (C39) and accumulators (C38). *)
From Coq Require Import List Arith Bool ZArith Lia Sorted Permutation.
Import ListNotations.
From Verif Require Import Spec Spec_Api Spec_Poly M_Term M_Ideal M_Api M_Poly P_Term P_Api3.

(** ** Lists in order *)
Lemma lex_irr a : ~ lex_lt a a.
Proof. induction a as [|x a IH]; cbn; [tauto|]. intros [H|[_ H]]; [lia|auto]. Qed.
Lemma lex_trans a : forall b c, lex_lt a b -> lex_lt b c -> lex_lt a c.
Proof.
  induction a as [|x a IH]; intros [|y b] [|z c]; cbn; try tauto. intros [H|[-> H]] [K|[-> K]]; try (left; lia).
  right. split; auto. eauto.
Qed.
Lemma lex_total n : forall a b, length a = n -> length b = n -> lex_lt a b \/ a = b \/ lex_lt b a.
Proof.
  induction n as [|n IH]; intros [|x a] [|y b] A B; try discriminate; cbn; auto. injection A as A. injection B as B.
  destruct (IH a b A B) as [H|[->|H]]; destruct (Nat.lt_trichotomy x y) as [K|[->|K]]; auto.
Qed.
Lemma revLexLess_iff n a b : length a = n -> length b = n -> (t_revLexLess n a b = true <-> lex_lt b a).
Proof.
  intros A B. rewrite <- (lex_from_lt n b a B A). unfold t_revLexLess, t_lexCompare. rewrite (lex_from_antisym n a b 0).
  destruct (lex_from a b 0 n); cbn; split; congruence.
Qed.

Lemma sorted_perm_unique {A} (R : A -> A -> Prop) : (forall a b, R a b -> R b a -> a = b) ->
  forall l l', Permutation l l' -> StronglySorted R l -> StronglySorted R l' -> l = l'.
Proof.
  intros AS l. induction l as [|x l IH]; intros l' P S S'.
  - now apply Permutation_nil in P.
  - destruct l' as [|y l']; [apply Permutation_sym, Permutation_nil in P; discriminate|].
    assert (E : x = y).
    { inversion S as [|? ? S1 F]; subst. inversion S' as [|? ? S1' F']; subst. rewrite Forall_forall in F, F'.
      assert (I1 : In y (x :: l)) by (apply (Permutation_in _ (Permutation_sym P)); left; auto).
      assert (I2 : In x (y :: l')) by (apply (Permutation_in _ P); left; auto).
      destruct I1 as [->|I1]; auto. destruct I2 as [->|I2]; auto. }
    subst y. f_equal. apply IH; [now apply Permutation_cons_inv in P|now inversion S|now inversion S'].
Qed.
Lemma StronglySorted_map {A B} (f : A -> B) (R : A -> A -> Prop) (Q : B -> B -> Prop) l :
  (forall a b, In a l -> In b l -> R a b -> Q (f a) (f b)) -> StronglySorted R l -> StronglySorted Q (map f l).
Proof.
  intros H S. induction S as [|x l S IH F]; cbn; constructor.
  - apply IH. intros; apply H; try right; auto.
  - rewrite Forall_forall in *. intros y Hy. apply in_map_iff in Hy as [z [<- Hz]]. apply H; [left; auto|right; auto|auto].
Qed.
Lemma StronglySorted_impl {A} (R Q : A -> A -> Prop) l :
  (forall a b, In a l -> In b l -> R a b -> Q a b) -> StronglySorted R l -> StronglySorted Q l.
Proof. intros H S. rewrite <- (map_id l). now apply (StronglySorted_map (fun x => x) R Q). Qed.

(** ** Collecting *)
Lemma total_app p q m : total (p ++ q) m = (total p m + total q m)%Z.
Proof. induction p as [|[c d] p IH]; cbn [total app]; auto. rewrite IH. lia. Qed.
Lemma total_perm p q m : Permutation p q -> total p m = total q m.
Proof.
  induction 1 as [|[c d] p q _ IH|[c d] [c' d'] p|p q r _ IH1 _ IH2]; cbn [total]; try lia; congruence.
Qed.
Lemma total_absent p m : ~ In m (map snd p) -> total p m = 0%Z.
Proof.
  induction p as [|[c d] p IH]; cbn [total map snd In]; auto. intros H. rewrite IH by tauto.
  destruct (list_eq_dec Nat.eq_dec d m); tauto.
Qed.

Lemma sorted_by_less n p : poly_in_ring n p ->
  StronglySorted (fun a b => ~ lex_lt (snd a) (snd b)) (std_sort (coefTerm_less n) p) /\ Permutation (std_sort (coefTerm_less n) p) p.
Proof.
  intros L. set (s := std_sort (coefTerm_less n) p). assert (P : Permutation s p) by apply std_sort_perm. split; auto.
  assert (Ls : poly_in_ring n s) by (apply (Permutation_Forall (Permutation_sym P)); exact L).
  assert (S : StronglySorted (before (coefTerm_less n)) s).
  { apply std_sort_sorted; unfold before, coefTerm_less.
    - intros x y. unfold t_revLexLess, t_lexCompare. rewrite (lex_from_antisym n (snd x) (snd y) 0).
      destruct (lex_from (snd x) (snd y) 0 n); cbn; congruence.
    - intros x y z. assert (R : forall a b, t_revLexLess n a b = false <-> t_lexCompare n a b <> Gt).
      { intros. unfold t_revLexLess. destruct (t_lexCompare n a b); split; congruence. }
      rewrite !R. unfold t_lexCompare. intros A B. eapply lex_from_lt_trans; eauto. }
  revert S. apply StronglySorted_impl. intros a b Ia Ib H X. unfold poly_in_ring in Ls. rewrite Forall_forall in Ls.
  unfold before, coefTerm_less in H. apply (revLexLess_iff n (snd b) (snd a)) in X; auto. congruence.
Qed.

Definition smallest (p : list (Z * mono)) (m : mono) : Prop := In m (map snd p) /\ forall x, In x p -> ~ lex_lt (snd x) m.

Lemma collect_spec n : forall l done cur, poly_in_ring n (done ++ cur :: l) ->
  StronglySorted (fun a b => ~ lex_lt (snd a) (snd b)) (cur :: l) ->
  descending_terms (done ++ [cur]) -> Forall (fun x => fst x <> 0%Z) done ->
  let q := collect_loop n done cur l in
  descending_terms q /\ poly_in_ring n q /\ (forall m, total q m = total (done ++ cur :: l) m) /\
  Forall (fun x => fst x <> 0%Z) (removelast q) /\
  exists a z, q = a ++ [z] /\ smallest (cur :: l) (snd z).
Proof.
  induction l as [|x l IH]; intros done cur L S D Z; cbn [collect_loop]; cbv zeta in *; unfold term, mono in *.
  - split; [exact D|]. split; [exact L|]. split; [reflexivity|]. split; [now rewrite removelast_last|].
    exists done, cur. split; auto. split; [left; auto|]. intros y [<-|[]]. apply lex_irr.
  - assert (Lc : length (snd cur) = n /\ length (snd x) = n).
    { unfold poly_in_ring in L. rewrite Forall_forall in L. split; apply L, in_or_app; right; cbn; auto. }
    destruct Lc as [Lc Lx]. apply StronglySorted_inv in S as [S1 F]. pose proof S1 as S1'. apply StronglySorted_inv in S1' as [S2 F2].
    destruct (t_equals n (snd cur) (snd x)) eqn:E.
    + apply (t_equals_eq n) in E; auto. destruct cur as [c d], x as [c' d']; cbn [fst snd] in *. subst d'.
      destruct (IH done ((c + c')%Z, d)) as [A [B [C [E' [a [z [Q M]]]]]]]; cbn [fst snd].
      { unfold poly_in_ring in *. rewrite Forall_forall in *. intros y Hy. apply in_app_iff in Hy as [Hy|[<-|Hy]]; auto.
        - apply L, in_or_app; auto.
        - apply L, in_or_app; right; cbn; auto. }
      { constructor; auto. }
      { unfold descending_terms in *. clear -D. induction done as [|y done IHd]; cbn in *.
        - repeat constructor.
        - inversion D; subst. constructor; [apply IHd; auto|]. rewrite Forall_forall in *. intros z Hz.
          apply in_app_iff in Hz as [Hz|[<-|[]]]; [apply H2, in_or_app; auto|]. cbn. apply (H2 (c, d)), in_or_app. right; cbn; auto. }
      { exact Z. }
      split; auto. split; auto. split; [|split; auto].
      * intros m. rewrite C, !total_app. cbn [total]. destruct (list_eq_dec Nat.eq_dec d m); lia.
      * exists a, z. split; auto. destruct M as [M1 M2]. split.
        -- cbn [map snd In] in *. tauto.
        -- intros y [<-|[<-|Hy]]; cbn [snd].
           ++ apply (M2 ((c + c')%Z, d)). left; auto.
           ++ apply (M2 ((c + c')%Z, d)). left; auto.
           ++ apply M2. right; auto.
    + assert (NE : snd cur <> snd x) by (intros E'; apply (t_equals_eq n) in E'; auto; congruence).
      assert (LT : lex_lt (snd x) (snd cur)).
      { rewrite Forall_forall in F. pose proof (F x (or_introl eq_refl)) as F'.
        destruct (lex_total n (snd x) (snd cur)) as [H|[H|H]]; auto; congruence. }
      assert (SM : forall z, smallest (x :: l) z -> smallest (cur :: x :: l) z).
      { intros z [M1 M2]. split; [right; auto|]. intros y [<-|Hy]; [|apply M2; auto]. intros X.
        apply (M2 x (or_introl eq_refl)). eapply lex_trans; eauto. }
      destruct (fst cur =? 0)%Z eqn:Z0.
      * apply Z.eqb_eq in Z0. destruct (IH done x) as [A [B [C [E' [a [z [Q M]]]]]]].
        { unfold poly_in_ring in *. rewrite Forall_forall in *. intros y Hy. apply L. rewrite in_app_iff in *. cbn. tauto. }
        { exact S1. }
        { unfold descending_terms in *. clear -D LT. induction done as [|y done IHd]; cbn in *.
          - repeat constructor.
          - inversion D; subst. constructor; [apply IHd; auto|]. rewrite Forall_forall in *. intros z Hz.
            apply in_app_iff in Hz as [Hz|[<-|[]]]; [apply H2, in_or_app; auto|].
            apply lex_trans with (snd cur); auto. apply (H2 cur), in_or_app. right; cbn; auto. }
        { exact Z. }
        split; auto. split; auto. split; [|split; auto].
        -- intros m. rewrite C, !total_app. destruct cur as [c d]; cbn [fst snd total] in *. subst c. destruct (list_eq_dec _ d m); lia.
        -- exists a, z. auto.
      * apply Z.eqb_neq in Z0. destruct (IH (done ++ [cur]) x) as [A [B [C [E' [a [z [Q M]]]]]]].
        { now rewrite <- app_assoc. }
        { exact S1. }
        { unfold descending_terms in *. clear -D LT. induction done as [|y done IHd]; cbn in *.
          - repeat constructor. auto.
          - inversion D; subst. constructor; [apply IHd; auto|]. rewrite Forall_forall in *. intros z Hz.
            apply in_app_iff in Hz as [Hz|[<-|[]]]; [apply H2; auto|].
            apply lex_trans with (snd cur); auto. apply (H2 cur), in_or_app. right; cbn; auto. }
        { apply Forall_app. auto. }
        split; auto. split; auto. split; [|split; auto].
        -- intros m. now rewrite C, <- app_assoc.
        -- exists a, z. auto.
Qed.

Lemma total_in n q c m : descending_terms q -> poly_in_ring n q -> In (c, m) q -> total q m = c.
Proof.
  intros D L. induction D as [|[c' d] q D IH F]; cbn [In total]; [tauto|]. inversion L; subst. intros [E|H].
  - injection E as -> ->. destruct (list_eq_dec _ m m); [|tauto]. rewrite total_absent; [lia|].
    intros X. apply in_map_iff in X as [y [<- Hy]]. rewrite Forall_forall in F. apply (lex_irr (snd y)). apply (F y Hy).
  - rewrite IH; auto. destruct (list_eq_dec Nat.eq_dec d m); auto. subst. rewrite Forall_forall in F.
    exfalso. apply (lex_irr m). apply (F (c, m) H).
Qed.

Theorem p_collect n p : poly_in_ring n p -> let q := poly_sort n true p in
  descending_terms q /\ poly_in_ring n q /\ (forall m, total q m = total p m) /\ Forall (fun x => fst x <> 0%Z) (removelast q) /\
  (forall m, In (0%Z, m) q <-> In m (map snd p) /\ (forall x, In x p -> ~ lex_lt (snd x) m) /\ total p m = 0%Z).
Proof.
  intros L. unfold poly_sort. destruct (sorted_by_less n p L) as [S P].
  assert (Ls : poly_in_ring n (std_sort (coefTerm_less n) p)) by (apply (Permutation_Forall (Permutation_sym P)); exact L).
  destruct (std_sort (coefTerm_less n) p) as [|x l] eqn:E.
  - apply Permutation_nil in P. subst p. cbv zeta.
    split; [constructor|]. split; [constructor|]. split; [reflexivity|]. split; [constructor|]. cbn. tauto.
  - destruct (collect_spec n l [] x) as [A [B [C [D [a [z [Q M]]]]]]]; auto; [repeat constructor|].
    cbv beta iota zeta. unfold term, mono in *. split; auto. split; auto. split; [intros m; rewrite C; apply total_perm; exact P|]. split; auto.
    intros m. destruct M as [M1 M2]. split.
    + intros I0. assert (T0 : total p m = 0%Z).
      { rewrite <- (total_perm _ _ m P). cbn [app] in C. rewrite <- C. eapply total_in; eauto. }
      rewrite Q in I0, D. rewrite removelast_last in D. apply in_app_iff in I0 as [I0|[I0|[]]].
      * rewrite Forall_forall in D. now apply D in I0.
      * subst z. split; [apply (Permutation_in _ (Permutation_map snd P)); exact M1|]. split; auto.
        intros y Hy. apply M2. apply (Permutation_in _ (Permutation_sym P)). exact Hy.
    + intros [H1 [H2 H3]]. assert (EZ : snd z = m).
      { apply (Permutation_in _ (Permutation_map snd (Permutation_sym P))) in H1. apply in_map_iff in H1 as [y [<- Hy]].
        pose proof (M2 y Hy). apply in_map_iff in M1 as [w [E1 Hw]]. rewrite <- E1 in *.
        pose proof (H2 w (Permutation_in _ P Hw)).
        unfold poly_in_ring in Ls. rewrite Forall_forall in Ls.
        destruct (lex_total n (snd w) (snd y)) as [X|[X|X]]; auto; tauto. }
      assert (Iz : In (fst z, m) (collect_loop n [] x l)) by (unfold term, mono; rewrite Q; apply in_or_app; right; left; destruct z; cbn in *; congruence).
      pose proof (total_in n _ _ _ A B Iz) as T. unfold term, mono in *. rewrite C in T. cbn [app] in T. rewrite (total_perm _ _ m P), H3 in T. now rewrite T.
Qed.

Theorem p_sort_only n p : poly_in_ring n p -> let q := poly_sort n false p in
  Permutation q p /\ StronglySorted (fun a b => ~ lex_lt (snd a) (snd b)) q.
Proof.
  intros L. unfold poly_sort. destruct (sorted_by_less n p L) as [S P].
  destruct (std_sort (coefTerm_less n) p); cbv zeta; auto.
Qed.

(** ** Canonical series *)
Lemma added_coefs : forall p q, fold_left (fun q x => poly_add (fst x) (snd x) q) p q = q ++ filter (fun x => negb (fst x =? 0)%Z) p.
Proof.
  induction p as [|[c m] p IH]; intros q; cbn [fold_left filter fst snd]; [now rewrite app_nil_r|].
  rewrite IH. unfold poly_add. destruct (c =? 0)%Z; cbn [negb]; auto. now rewrite <- app_assoc.
Qed.
Lemma total_nonzero p m : total (filter (fun x => negb (fst x =? 0)%Z) p) m = total p m.
Proof.
  induction p as [|[c d] p IH]; cbn [filter fst total]; auto. destruct (c =? 0)%Z eqn:E; cbn [negb total]; rewrite IH; auto.
  apply Z.eqb_eq in E. subst. destruct (list_eq_dec _ d m); auto.
Qed.

Theorem p_canonical_coefs n p : poly_in_ring n p -> let q := canonical_coefs n p in
  descending_terms q /\ poly_in_ring n q /\ (forall m, total q m = total p m) /\ Forall (fun x => fst x <> 0%Z) (removelast q).
Proof.
  intros L. unfold canonical_coefs. rewrite added_coefs. cbn [app].
  assert (L' : poly_in_ring n (filter (fun x => negb (fst x =? 0)%Z) p)).
  { unfold poly_in_ring in *. rewrite Forall_forall in *. intros x Hx. apply filter_In in Hx. apply L. tauto. }
  destruct (p_collect n _ L') as [A [B [C [D _]]]]. split; auto. split; auto. split; auto. intros m. rewrite C. apply total_nonzero.
Qed.
Theorem p_canonical_normal n p : poly_in_ring n p -> NoDup (map snd p) -> Forall (fun x => fst x <> 0%Z) p ->
  let q := canonical_coefs n p in Permutation q p /\ descending_terms q.
Proof.
  intros L N NZ0. cbv zeta. destruct (p_canonical_coefs n p L) as [A [B [C D]]]. split; auto.
  assert (IP : forall c m, In (c, m) p -> total p m = c).
  { clear -N. induction p as [|[c d] p IH]; cbn [In total map snd] in *; [tauto|]. inversion N; subst. intros c' m [E|H].
    - injection E as -> ->. destruct (list_eq_dec _ m m); [|tauto]. rewrite total_absent by auto. lia.
    - rewrite (IH H2 c' m H). destruct (list_eq_dec Nat.eq_dec d m); auto. subst. exfalso. apply H1. apply in_map_iff. exists (c', m). auto. }
  assert (E0 : filter (fun x : Z * mono => negb (fst x =? 0)%Z) p = p).
  { clear -NZ0. induction NZ0 as [|x p H NZ0 IH]; cbn [filter]; auto. apply Z.eqb_neq in H. rewrite H. cbn. now rewrite IH. }
  assert (NZ : forall c m, In (c, m) (canonical_coefs n p) -> c <> 0%Z).
  { intros c m Hc ->. unfold canonical_coefs in Hc. rewrite added_coefs in Hc. cbn [app] in Hc. unfold term, mono in *. rewrite E0 in Hc.
    destruct (p_collect n p L) as [_ [_ [_ [_ X]]]]. apply X in Hc as [H1 [_ H3]]. apply in_map_iff in H1 as [[c m'] [E1 H1]]. cbn in E1. subst m'.
    rewrite (IP c m H1) in H3. subst c. rewrite Forall_forall in NZ0. now apply (NZ0 _ H1). }
  apply NoDup_Permutation.
  - clear -A. induction A as [|x q A IH F]; constructor; auto. intros H. rewrite Forall_forall in F. apply (lex_irr (snd x)). now apply F.
  - now apply NoDup_map_inv in N.
  - intros [c m]. split; intros H.
    + pose proof (NZ c m H) as Nc. apply (total_in n) in H; auto. rewrite C in H.
      destruct (in_dec (list_eq_dec Nat.eq_dec) m (map snd p)) as [I0|I0]; [|rewrite total_absent in H by auto; congruence].
      apply in_map_iff in I0 as [[c' m'] [E1 I0]]. cbn in E1. subst m'. now rewrite <- H, (IP _ _ I0).
    + pose proof (IP c m H) as T. rewrite <- C in T.
      destruct (in_dec (list_eq_dec Nat.eq_dec) m (map snd (canonical_coefs n p))) as [I0|I0].
      * apply in_map_iff in I0 as [[c' m'] [E1 I0]]. cbn in E1. subst m'. rewrite (total_in n _ _ _ A B I0) in T. now subst.
      * rewrite total_absent in T by auto. rewrite Forall_forall in NZ0. exfalso. apply (NZ0 _ H). cbn. congruence.
Qed.
