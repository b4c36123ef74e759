(** Proofs about variable names (C40) and name tables (C41). *)
From Coq Require Import List Arith Bool ZArith Ascii Lia Sorted Permutation DecimalNat.
Import ListNotations.
From Verif Require Import Spec_Names M_Term M_Api M_Names P_Term.

(** ** Lists *)
Lemma list_set_nth {A} : forall (l : list A) i x j, nth_error (list_set l i x) j = if (i <? length l) && (j =? i) then Some x else nth_error l j.
Proof.
  intros l i x. unfold list_set. revert i. induction l as [|y l IH]; intros i j.
  - rewrite skipn_nil. cbn [length]. destruct (Nat.ltb_spec i 0); [lia|]. reflexivity.
  - destruct i as [|i]; cbn [skipn firstn app length].
    + destruct j; cbn; reflexivity.
    + specialize (IH i). change (S i <? S (length l)) with (i <? length l). destruct (skipn i l) as [|z r] eqn:E.
      * destruct j as [|j]; cbn [nth_error]; [rewrite andb_false_r; auto|]. change (S j =? S i) with (j =? i). specialize (IH j).
        destruct ((i <? length l) && (j =? i)); auto.
      * destruct j as [|j]; cbn [nth_error]; [rewrite andb_false_r; auto|]. rewrite IH. reflexivity.
Qed.
Lemma list_set_length {A} (l : list A) i x : length (list_set l i x) = length l.
Proof.
  unfold list_set. destruct (skipn i l) as [|y r] eqn:E; auto. rewrite <- (firstn_skipn i l) at 2. rewrite E, !app_length. reflexivity.
Qed.
Lemma nth_error_ext {A} : forall l l' : list A, (forall i, nth_error l i = nth_error l' i) -> l = l'.
Proof.
  induction l as [|x l IH]; intros [|y l'] H; auto.
  - specialize (H 0). discriminate.
  - specialize (H 0). discriminate.
  - f_equal; [specialize (H 0); cbn in H; congruence|]. apply IH. intros i. apply (H (S i)).
Qed.
Lemma index_of_nth s : forall l i, NoDup l -> (index_of s l = Some i <-> nth_error l i = Some s).
Proof.
  induction l as [|x l IH]; intros i N; cbn [index_of].
  - destruct i; cbn; split; discriminate.
  - inversion N; subst. destruct (str_dec x s) as [->|E].
    + destruct i as [|i]; cbn; [split; auto|]. split; [discriminate|]. intros H. exfalso. apply H1. eapply nth_error_In; eauto.
    + destruct i as [|i]; cbn.
      * destruct (index_of s l); cbn; split; congruence.
      * rewrite <- IH by auto. destruct (index_of s l); cbn; split; congruence.
Qed.
Lemma index_of_none s l : index_of s l = None <-> ~ In s l.
Proof.
  induction l as [|x l IH]; cbn; [tauto|]. destruct (str_dec x s) as [->|E]; [split; [discriminate|tauto]|].
  destruct (index_of s l); cbn.
  - split; [discriminate|]. intros H. exfalso. assert (~ In s l) by tauto. apply IH in H0. discriminate.
  - split; auto. intros _ [X|X]; [auto|]. now apply IH.
Qed.

(** ** The invariant *)
Definition inv (v : varNames) (l : list str) : Prop :=
  vn_names v = l /\ forall s i, map_find s (vn_map v) = Some i <-> nth_error l i = Some s.
Lemma inv_nodup v l : inv v l -> NoDup l.
Proof.
  intros [_ H]. apply NoDup_nth_error. intros i j Hi E. destruct (nth_error l i) as [s|] eqn:F; [|apply nth_error_None in F; lia].
  symmetry in E. apply H in E. apply H in F. congruence.
Qed.
Lemma inv_in v l s : inv v l -> (map_find s (vn_map v) <> None <-> In s l).
Proof.
  intros [_ H]. split.
  - intros X. destruct (map_find s (vn_map v)) as [i|] eqn:E; [|congruence]. apply H in E. eapply nth_error_In; eauto.
  - intros X. apply In_nth_error in X as [i X]. apply H in X. congruence.
Qed.
Lemma inv_index v l s : inv v l -> map_find s (vn_map v) = index_of s l.
Proof.
  intros I. pose proof (inv_nodup v l I) as N. destruct (index_of s l) as [i|] eqn:E.
  - apply index_of_nth in E; auto. now apply I.
  - apply index_of_none in E. destruct (map_find s (vn_map v)) eqn:F; auto. exfalso. apply E. apply (inv_in v l s I). congruence.
Qed.
Lemma inv_getName v l i : inv v l -> vn_getName v i = nth_error l i.
Proof.
  intros I. pose proof I as [E H]. unfold vn_getName. rewrite E. destruct (nth_error l i) as [s|] eqn:F; auto. apply H in F. now rewrite F.
Qed.
Lemma inv_shows invalid v l : inv v l -> length l < invalid -> shows invalid v l.
Proof.
  intros I L. pose proof I as [E H]. split; [unfold vn_count; now rewrite E|]. split; [intros; now apply inv_getName|].
  assert (G : forall s, vn_getIndex invalid v s = match index_of s l with Some i => i | None => invalid end).
  { intros s. unfold vn_getIndex. now rewrite (inv_index v l s I). }
  split; auto. intros s. unfold vn_contains. rewrite G. destruct (index_of s l) as [i|] eqn:F.
  - apply index_of_nth in F; [|eapply inv_nodup; eauto]. split; [intros _; eapply nth_error_In; eauto|].
    intros _. assert (i < length l) by (apply nth_error_Some; congruence). destruct (Nat.eqb_spec i invalid); auto. lia.
  - apply index_of_none in F. rewrite Nat.eqb_refl. cbn. split; [discriminate|tauto].
Qed.
Lemma inv_empty : inv vn_empty [].
Proof. split; auto. intros s i. cbn. destruct i; split; discriminate. Qed.

Section WithIndex.
  Context (invalid : nat).
  Lemma addVar_new v l s : inv v l -> ~ In s l -> S (length l) <> invalid ->
    exists v', vn_addVar invalid s v = Some (v', true) /\ inv v' (l ++ [s]).
  Proof.
    intros I N L. pose proof I as [E H]. unfold vn_addVar. destruct (map_find s (vn_map v)) eqn:F.
    - exfalso. apply N. apply (inv_in v l s I). congruence.
    - unfold vn_count; cbn [vn_names]. rewrite app_length, E. cbn [length]. destruct (Nat.eqb_spec (length l + 1) invalid); [lia|].
      eexists. split; [reflexivity|]. split; [reflexivity|]. intros t i. cbn [vn_map map_find]. destruct (str_dec s t) as [<-|D].
      + split.
        * intros [= <-]. rewrite nth_error_app2, Nat.sub_diag by lia. reflexivity.
        * intros X. f_equal. destruct (Nat.lt_ge_cases i (length l)) as [C|C].
          -- rewrite nth_error_app1 in X by auto. exfalso. apply N. eapply nth_error_In; eauto.
          -- assert (i < length (l ++ [s])) by (apply nth_error_Some; congruence). rewrite app_length in H0. cbn in H0. lia.
      + rewrite H. destruct (Nat.lt_ge_cases i (length l)) as [C|C].
        * rewrite nth_error_app1 by auto. tauto.
        * assert (X : nth_error l i = None) by (apply nth_error_None; lia). rewrite X. rewrite nth_error_app2 by auto.
          destruct (i - length l) as [|[|]]; cbn; split; congruence.
  Qed.
  Lemma addVar_old v l s : inv v l -> In s l -> vn_addVar invalid s v = Some (v, false).
  Proof. intros I N. unfold vn_addVar. apply (inv_in v l s I) in N. destruct (map_find s (vn_map v)); congruence. Qed.

  Lemma copy_from v l : inv v l -> forall k var w m, inv w m -> var + k = length l -> NoDup (m ++ skipn var l) -> length m + k < invalid ->
    exists w', vn_copy_from invalid v var k w = Some w' /\ inv w' (m ++ skipn var l).
  Proof.
    intros I. induction k as [|k IH]; intros var w m W V N L; cbn [vn_copy_from].
    - exists w. split; auto. rewrite skipn_all2, app_nil_r by lia. exact W.
    - rewrite (inv_getName v l var I). destruct (nth_error l var) as [s|] eqn:F; [|apply nth_error_None in F; lia]. cbn [bind].
      assert (E : skipn var l = s :: skipn (S var) l).
      { clear -F. revert var F. induction l as [|x l IH]; intros [|var] F; cbn in *; try discriminate; [congruence|]. apply IH. auto. }
      rewrite E in N |- *. destruct (addVar_new w m s W) as [w' [A B]].
      { intros X. apply NoDup_remove_2 in N. apply N. apply in_or_app. auto. }
      { lia. }
      rewrite A. cbn [bind fst]. destruct (IH (S var) w' (m ++ [s]) B) as [w'' [C D]]; [lia|now rewrite <- app_assoc|rewrite app_length; cbn; lia|].
      exists w''. split; auto. now rewrite <- app_assoc in D.
  Qed.
  Lemma copy_spec v l : inv v l -> length l < invalid -> exists w, vn_copy invalid v = Some w /\ inv w l.
  Proof.
    intros I L. unfold vn_copy. destruct (copy_from v l I (vn_count v) 0 vn_empty [] inv_empty) as [w [A B]].
    - destruct I as [E _]. unfold vn_count. rewrite E. reflexivity.
    - cbn. eapply inv_nodup; eauto.
    - destruct I as [E _]. unfold vn_count. rewrite E. exact L.
    - exists w. auto.
  Qed.
  Lemma map_find_set k i m s : map_find s (map_set k i m) = if str_dec k s then Some i else map_find s m.
  Proof.
    induction m as [|[k' j] m IH]; cbn [map_set map_find].
    - reflexivity.
    - destruct (str_dec k' k) as [->|D]; cbn [map_find].
      + destruct (str_dec k s); reflexivity.
      + rewrite IH. destruct (str_dec k' s) as [->|D']; auto. destruct (str_dec k s); congruence.
  Qed.
  Lemma swap_at_nth a b l i : a < length l -> b < length l ->
    nth_error (swap_at a b l) i = if i =? a then nth_error l b else if i =? b then nth_error l a else nth_error l i.
  Proof.
    intros A B. unfold swap_at. destruct (Nat.lt_ge_cases i (length l)) as [C|C].
    - erewrite map_nth_error with (d := i).
      + destruct (i =? a); [|destruct (i =? b)]; symmetry; apply nth_error_nth'; auto.
      + rewrite (nth_error_nth' (seq 0 (length l)) 0) by now rewrite seq_length. now rewrite seq_nth.
    - assert (X : nth_error l i = None) by now apply nth_error_None.
      destruct (Nat.eqb_spec i a); [lia|]. destruct (Nat.eqb_spec i b); [lia|]. rewrite X. apply nth_error_None. now rewrite map_length, seq_length.
  Qed.
  Lemma swap_spec v l a b : inv v l -> a < length l -> b < length l ->
    exists v', vn_swapVariables a b v = Some v' /\ inv v' (swap_at a b l).
  Proof.
    intros I A B. unfold vn_swapVariables. rewrite !(inv_getName v l _ I).
    destruct (nth_error l a) as [sa|] eqn:Ea; [|apply nth_error_None in Ea; lia].
    destruct (nth_error l b) as [sb|] eqn:Eb; [|apply nth_error_None in Eb; lia]. cbn [bind].
    destruct (Nat.eqb_spec a b) as [<-|D].
    - exists v. split; auto. assert (swap_at a a l = l) as ->; [|exact I]. apply nth_error_ext. intros i. rewrite swap_at_nth by auto.
      destruct (Nat.eqb_spec i a); congruence.
    - eexists. split; [reflexivity|]. pose proof I as [E H].
      assert (LS : forall i, nth_error (list_set (list_set l a sb) b sa) i = nth_error (swap_at a b l) i).
      { intros i. rewrite swap_at_nth, !list_set_nth, list_set_length by auto.
        destruct (Nat.ltb_spec a (length l)); [|lia]. destruct (Nat.ltb_spec b (length l)); [|lia]. cbn [andb].
        destruct (Nat.eqb_spec i b) as [X|X]; destruct (Nat.eqb_spec i a) as [Y|Y]; congruence. }
      split; cbn [vn_names vn_map].
      + rewrite E. apply nth_error_ext. exact LS.
      + intros s i. rewrite swap_at_nth by auto. rewrite !map_find_set, Ea, Eb.
        assert (NE : sa <> sb). { intros ->. apply H in Ea. apply H in Eb. congruence. }
        destruct (str_dec sa s) as [<-|N1]; [|destruct (str_dec sb s) as [<-|N2]].
        * split; [intros [= <-]|].
          -- destruct (Nat.eqb_spec b a); [congruence|]. rewrite Nat.eqb_refl. reflexivity.
          -- destruct (Nat.eqb_spec i a) as [->|X]; [congruence|]. destruct (Nat.eqb_spec i b) as [->|Y]; auto.
             intros Z. apply H in Ea. apply H in Z. congruence.
        * split; [intros [= <-]; now rewrite Nat.eqb_refl|].
          destruct (Nat.eqb_spec i a) as [->|X]; auto. destruct (Nat.eqb_spec i b) as [->|Y]; [congruence|].
          intros Z. apply H in Eb. apply H in Z. congruence.
        * rewrite H. destruct (Nat.eqb_spec i a) as [->|X]; [split; congruence|]. destruct (Nat.eqb_spec i b) as [->|Y]; [split; congruence|]. tauto.
  Qed.
  Lemma project_from v l index : inv v l -> forall k var w m, inv w m -> var + k = length l -> NoDup (m ++ skipn var l) -> length m + k < invalid ->
    exists w', vn_project_from invalid v index var k w = Some w' /\
      inv w' (m ++ (if index <? var then skipn var l else remove_at (index - var) (skipn var l))).
  Proof.
    intros I. induction k as [|k IH]; intros var w m W V N L; cbn [vn_project_from].
    - exists w. split; auto. rewrite skipn_all2 by lia. unfold remove_at. rewrite firstn_nil, skipn_nil. destruct (index <? var); now rewrite app_nil_r.
    - destruct (nth_error l var) as [s|] eqn:F; [|apply nth_error_None in F; lia].
      assert (E : skipn var l = s :: skipn (S var) l).
      { clear -F. revert var F. induction l as [|x l IH]; intros [|var] F; cbn in *; try discriminate; [congruence|]. apply IH. auto. }
      destruct (Nat.eqb_spec var index) as [->|D].
      + destruct (IH (S index) w m W) as [w' [A B]]; [lia| |lia|].
        { rewrite E in N. now apply NoDup_remove_1 in N. }
        exists w'. split; auto. destruct (Nat.ltb_spec index (S index)); [|lia]. destruct (Nat.ltb_spec index index); [lia|].
        rewrite E, Nat.sub_diag. exact B.
      + rewrite (inv_getName v l var I), F. cbn [bind]. rewrite E in N.
        destruct (addVar_new w m s W) as [w' [A B]].
        { intros X. apply NoDup_remove_2 in N. apply N. apply in_or_app. auto. }
        { lia. }
        rewrite A. cbn [bind fst]. destruct (IH (S var) w' (m ++ [s]) B) as [w'' [C Q]]; [lia|now rewrite <- app_assoc|rewrite app_length; cbn; lia|].
        exists w''. split; auto. rewrite <- app_assoc in Q. rewrite E. cbn [app] in Q.
        destruct (Nat.ltb_spec index (S var)), (Nat.ltb_spec index var); try lia; auto.
        replace (index - var) with (S (index - S var)) by lia. exact Q.
  Qed.
  Lemma project_spec v l i : inv v l -> i < length l -> length l < invalid ->
    exists w, vn_projectVar invalid i v = Some w /\ inv w (remove_at i l).
  Proof.
    intros I Hi L. unfold vn_projectVar. destruct (project_from v l i I (vn_count v) 0 vn_empty [] inv_empty) as [w [A B]].
    - destruct I as [E _]. unfold vn_count. rewrite E. reflexivity.
    - cbn. eapply inv_nodup; eauto.
    - destruct I as [E _]. unfold vn_count. rewrite E. exact L.
    - rewrite A. cbn [bind]. cbn [app skipn] in B. destruct (Nat.ltb_spec i 0); [lia|]. rewrite Nat.sub_0_r in B.
      apply copy_spec; auto. unfold remove_at. rewrite app_length, firstn_length, skipn_length. lia.
  Qed.

  Lemma step_spec v l op l' out : inv v l -> length l < invalid -> names_step invalid l op = Some (l', out) ->
    exists v', vn_step invalid v op = Some (v', out) /\ inv v' l' /\ length l' < invalid.
  Proof.
    intros I L. destruct op as [s|a b|i| |]; cbn [names_step vn_step].
    - destruct (in_dec str_dec s l) as [J|J].
      + intros [= <- <-]. rewrite (addVar_old v l s I J). exists v. auto.
      + destruct (Nat.eqb_spec (S (length l)) invalid); [discriminate|]. intros [= <- <-].
        destruct (addVar_new v l s I J n) as [v' [A B]]. rewrite A. exists v'. split; auto. split; auto. rewrite app_length. cbn. lia.
    - destruct (Nat.ltb_spec a (length l)); [|discriminate]. destruct (Nat.ltb_spec b (length l)); [|discriminate]. intros [= <- <-].
      destruct (swap_spec v l a b I) as [v' [A B]]; auto. rewrite A. exists v'. split; auto. split; auto. unfold swap_at. now rewrite map_length, seq_length.
    - destruct (Nat.ltb_spec i (length l)); [|discriminate]. intros [= <- <-].
      destruct (project_spec v l i I) as [v' [A B]]; auto. rewrite A. exists v'. split; auto. split; auto.
      unfold remove_at. rewrite app_length, firstn_length, skipn_length. lia.
    - intros [= <- <-]. exists vn_empty. split; auto. split; [apply inv_empty|]. cbn. lia.
    - intros [= <- <-]. destruct (copy_spec v l I L) as [w [A B]]. rewrite A. exists w. auto.
  Qed.
  Lemma run_spec : forall ops v l l' out, inv v l -> length l < invalid -> names_run invalid l ops = Some (l', out) ->
    exists v', vn_run invalid v ops = Some (v', out) /\ inv v' l' /\ length l' < invalid.
  Proof.
    induction ops as [|op ops IH]; intros v l l' out I L; cbn [names_run vn_run].
    - intros [= <- <-]. exists v. auto.
    - destruct (names_step invalid l op) as [[l1 o1]|] eqn:E; [|discriminate]. destruct (names_run invalid l1 ops) as [[l2 o2]|] eqn:F; [|discriminate].
      intros [= <- <-]. destruct (step_spec v l op l1 o1 I L E) as [v1 [A [B C]]]. rewrite A. cbn [bind fst snd].
      destruct (IH v1 l1 l2 o2 B C F) as [v2 [A2 [B2 C2]]]. rewrite A2. exists v2. auto.
  Qed.
  Theorem p_history ops l outs : 0 < invalid -> names_run invalid [] ops = Some (l, outs) ->
    exists v, vn_run invalid vn_empty ops = Some (v, outs) /\ shows invalid v l /\ NoDup l.
  Proof.
    intros P H. destruct (run_spec ops vn_empty [] l outs inv_empty P H) as [v [A [B C]]].
    exists v. split; auto. split; [apply inv_shows; auto|eapply inv_nodup; eauto].
  Qed.
  Lemma reached_inv v l : 0 < invalid -> reached invalid v l -> inv v l /\ length l < invalid.
  Proof.
    intros P [ops [outs [A B]]]. destruct (run_spec ops vn_empty [] l outs inv_empty P A) as [v' [C [D E]]].
    rewrite B in C. injection C as <-. auto.
  Qed.

  (** ** Comparison *)
  Lemma str_less_iff : forall a b, str_less a b = true <-> str_lt a b.
  Proof.
    unfold str_lt. induction a as [|x a IH]; intros [|y b]; cbn [str_less].
    - split; [discriminate|]. intros H. inversion H.
    - split; auto. intros _. constructor.
    - split; [discriminate|]. intros H. inversion H.
    - destruct (Nat.ltb_spec (nat_of_ascii x) (nat_of_ascii y)) as [C|C]; [split; auto; intros _; now constructor|].
      destruct (Nat.ltb_spec (nat_of_ascii y) (nat_of_ascii x)) as [D|D].
      + split; [discriminate|]. intros H. inversion H; subst; lia.
      + assert (x = y). { assert (E : nat_of_ascii x = nat_of_ascii y) by lia. apply (f_equal ascii_of_nat) in E. now rewrite !ascii_nat_embedding in E. }
        subst. rewrite IH. split; [now constructor|]. intros H. inversion H; subst; auto. lia.
  Qed.
  Lemma str_lt_irr a : ~ str_lt a a.
  Proof. unfold str_lt. induction a as [|x a IH]; intros H; inversion H; subst; [lia|auto]. Qed.
  Lemma str_lt_trans : forall a b c, str_lt a b -> str_lt b c -> str_lt a c.
  Proof.
    unfold str_lt. induction a as [|x a IH]; intros b c H K; inversion H; subst; inversion K; subst; try (constructor; lia).
    apply lexico_tail. eapply IH; eauto.
  Qed.
  Lemma str_lt_total : forall a b, str_lt a b \/ a = b \/ str_lt b a.
  Proof.
    unfold str_lt. induction a as [|x a IH]; intros [|y b]; [auto|left; constructor|right; right; constructor|].
    destruct (Nat.lt_trichotomy (nat_of_ascii x) (nat_of_ascii y)) as [C|[C|C]]; [left; apply lexico_head; exact C| |right; right; apply lexico_head; exact C].
    apply (f_equal ascii_of_nat) in C. rewrite !ascii_nat_embedding in C. subst.
    destruct (IH b) as [H|[->|H]]; [left; apply lexico_tail; exact H|auto|right; right; apply lexico_tail; exact H].
  Qed.
  Lemma less_names_iff : forall a b, vn_less_names a b = true <-> lexico str_lt a b.
  Proof.
    induction a as [|x a IH]; intros [|y b]; cbn [vn_less_names].
    - split; [discriminate|]. intros H. inversion H.
    - split; auto. intros _. constructor.
    - split; [discriminate|]. intros H. inversion H.
    - destruct (str_less x y) eqn:E; [split; auto; intros _; apply lexico_head; now apply str_less_iff|].
      destruct (str_less y x) eqn:F.
      + split; [discriminate|]. intros H. apply str_less_iff in F. inversion H; subst.
        * exfalso. apply (str_lt_irr x). eapply str_lt_trans; eauto.
        * exfalso. now apply (str_lt_irr y).
      + assert (x = y). { destruct (str_lt_total x y) as [H|[H|H]]; auto; apply str_less_iff in H; congruence. }
        subst. rewrite IH. split; [now constructor|]. intros H. inversion H; subst; auto. exfalso. now apply (str_lt_irr y).
  Qed.
  Lemma eq_from v l w m : inv v l -> inv w m -> length l = length m -> forall k var, var + k = length l ->
    vn_eq_from v w var k = Some (if list_eq_dec str_dec (skipn var l) (skipn var m) then true else false).
  Proof.
    intros I J E. induction k as [|k IH]; intros var V; cbn [vn_eq_from].
    - rewrite !skipn_all2 by lia. destruct (list_eq_dec str_dec (@nil str) []); congruence.
    - rewrite (inv_getName v l var I), (inv_getName w m var J).
      destruct (nth_error l var) as [s|] eqn:F; [|apply nth_error_None in F; lia].
      destruct (nth_error m var) as [t|] eqn:G; [|apply nth_error_None in G; lia]. cbn [bind].
      assert (SK : forall (x : list str) v s, nth_error x v = Some s -> skipn v x = s :: skipn (S v) x).
      { clear. induction x as [|a x IH]; intros [|v] s F; cbn in *; try discriminate; [congruence|]. now apply IH. }
      rewrite (SK _ _ _ F), (SK _ _ _ G), IH by lia. destruct (str_dec s t) as [->|D].
      + destruct (list_eq_dec str_dec (skipn (S var) l) (skipn (S var) m)) as [->|N]; destruct (list_eq_dec str_dec _ _); congruence.
      + destruct (list_eq_dec str_dec _ _); congruence.
  Qed.
  Lemma eq_spec v l w m : inv v l -> inv w m -> vn_eq v w = Some (if list_eq_dec str_dec l m then true else false).
  Proof.
    intros I J. unfold vn_eq. pose proof I as [E _]. pose proof J as [F _]. unfold vn_count. rewrite E, F.
    destruct (Nat.eqb_spec (length l) (length m)) as [L|L].
    - rewrite (eq_from v l w m I J L (length l) 0) by lia. reflexivity.
    - destruct (list_eq_dec str_dec l m); congruence.
  Qed.
  Lemma deref_spec v l : inv v l -> vn_deref v (vn_names v) = Some l.
  Proof.
    intros I. pose proof I as [E _]. rewrite E.
    assert (G : forall m, incl m l -> vn_deref v m = Some m).
    { induction m as [|s m IH]; intros H; cbn [vn_deref]; auto. assert (S : In s l) by (apply H; left; auto).
      apply (inv_in v l s I) in S. destruct (map_find s (vn_map v)); [|congruence]. rewrite IH; auto. intros x Hx. apply H. right. auto. }
    apply G. apply incl_refl.
  Qed.
  Theorem p_compare v l w m : 0 < invalid -> reached invalid v l -> reached invalid w m ->
    (exists b, vn_eq v w = Some b /\ (b = true <-> l = m)) /\ (exists b, vn_less v w = Some b /\ (b = true <-> lexico str_lt l m)).
  Proof.
    intros P R S. destruct (reached_inv v l P R) as [I _]. destruct (reached_inv w m P S) as [J _]. split.
    - rewrite (eq_spec v l w m I J). eexists. split; [reflexivity|]. destruct (list_eq_dec str_dec l m); split; congruence.
    - unfold vn_less. rewrite (deref_spec v l I), (deref_spec w m J). cbn [bind]. eexists. split; [reflexivity|]. apply less_names_iff.
  Qed.
  Lemma toString_from v l : inv v l -> forall k i, i + k = length l ->
    vn_toString_from v i k = Some (if i =? 0 then with_commas (skipn i l) else concat (map (fun t => ","%char :: " "%char :: t) (skipn i l))).
  Proof.
    intros I. induction k as [|k IH]; intros i V; cbn [vn_toString_from].
    - rewrite skipn_all2 by lia. now destruct (i =? 0).
    - rewrite (inv_getName v l i I). destruct (nth_error l i) as [s|] eqn:F; [|apply nth_error_None in F; lia]. cbn [bind].
      assert (SK : skipn i l = s :: skipn (S i) l).
      { clear -F. revert i F. induction l as [|a x IH]; intros [|v] F; cbn in *; try discriminate; [congruence|]. now apply IH. }
      rewrite IH, SK by lia. cbn [bind Nat.eqb]. destruct (i =? 0); reflexivity.
  Qed.
  Theorem p_toString v l : 0 < invalid -> reached invalid v l -> vn_toString v = Some (with_commas l).
  Proof.
    intros P R. destruct (reached_inv v l P R) as [I _]. unfold vn_toString. pose proof I as [E _]. unfold vn_count. rewrite E.
    rewrite (toString_from v l I (length l) 0) by lia. reflexivity.
  Qed.

  (** ** Default names *)
  Lemma digits_inj : forall u w, digits u = digits w -> u = w.
  Proof. induction u; destruct w; cbn; intros H; try discriminate; auto; injection H as H; f_equal; auto. Qed.
  Lemma nat_str_inj a b : nat_str a = nat_str b -> a = b.
  Proof. intros H. apply digits_inj in H. apply (f_equal Nat.of_uint) in H. now rewrite !Unsigned.of_to in H. Qed.
  Lemma default_from : forall k i w, inv w (default_names i) -> i + k < invalid ->
    exists w', vn_default_from invalid i k w = Some w' /\ inv w' (default_names (i + k)).
  Proof.
    induction k as [|k IH]; intros i w W L; cbn [vn_default_from].
    - exists w. rewrite Nat.add_0_r. auto.
    - destruct (addVar_new w (default_names i) ("x"%char :: nat_str (i + 1)) W) as [w' [A B]].
      + unfold default_names. intros X. apply in_map_iff in X as [j [E Hj]]. injection E as E. apply nat_str_inj in E. apply in_seq in Hj. lia.
      + unfold default_names. rewrite map_length, seq_length. lia.
      + rewrite A. cbn [bind fst]. destruct (IH (S i) w') as [w'' [C D]]; [|lia|].
        * replace (default_names (S i)) with (default_names i ++ ["x"%char :: nat_str (i + 1)]); auto.
          unfold default_names. now rewrite seq_S, map_app.
        * exists w''. split; auto. now replace (i + S k) with (S i + k) by lia.
  Qed.
  Theorem p_default n : n < invalid -> exists v, vn_default invalid n = Some v /\ shows invalid v (default_names n) /\ NoDup (default_names n).
  Proof.
    intros L. destruct (default_from n 0 vn_empty inv_empty L) as [v [A B]]. cbn [Nat.add] in B. exists v. split; auto. split.
    - apply inv_shows; auto. unfold default_names. now rewrite map_length, seq_length.
    - eapply inv_nodup; eauto.
  Qed.
  Theorem p_namesAreDefault v l : 0 < invalid -> reached invalid v l ->
    exists b, vn_namesAreDefault invalid v = Some b /\ (b = true <-> l = default_names (length l)).
  Proof.
    intros P R. destruct (reached_inv v l P R) as [I L]. unfold vn_namesAreDefault. pose proof I as [E _]. unfold vn_count. rewrite E.
    destruct (default_from (length l) 0 vn_empty inv_empty L) as [w [A B]]. cbn [Nat.add] in B. unfold vn_default. rewrite A. cbn [bind].
    rewrite (eq_spec v l w _ I B). eexists. split; [reflexivity|]. destruct (list_eq_dec str_dec l (default_names (length l))); split; congruence.
  Qed.
End WithIndex.

(** ** Name tables *)
Lemma has_prefix_iff p s : has_prefix p s = true <-> prefix_of p s.
Proof.
  unfold has_prefix, prefix_of. destruct (str_dec (firstn (length p) s) p) as [E|N]; split; auto; try discriminate.
  - intros _. exists (skipn (length p) s). rewrite <- E at 1. now rewrite firstn_skipn.
  - intros [t ->]. exfalso. apply N. rewrite firstn_app, firstn_all, Nat.sub_diag, firstn_O, app_nil_r. reflexivity.
Qed.
Lemma str_sorted l : StronglySorted (fun a b => ~ str_lt b a) (std_sort str_less l).
Proof.
  assert (S : StronglySorted (before str_less) (std_sort str_less l)).
  { apply std_sort_sorted; unfold before.
    - intros x y H. apply str_less_iff in H. destruct (str_less y x) eqn:E; auto. apply str_less_iff in E.
      exfalso. apply (str_lt_irr x). eapply str_lt_trans; eauto.
    - intros x y z H K. destruct (str_less z x) eqn:E; auto. apply str_less_iff in E.
      assert (H' : ~ str_lt y x) by (intros X; apply str_less_iff in X; congruence).
      assert (K' : ~ str_lt z y) by (intros X; apply str_less_iff in X; congruence).
      destruct (str_lt_total y x) as [X|[->|X]]; [tauto|tauto|]. exfalso. apply K'. eapply str_lt_trans; eauto. }
  induction S as [|a s S IH F]; constructor; auto. rewrite Forall_forall in *. intros b Hb X. specialize (F b Hb). unfold before in F.
  apply str_less_iff in X. congruence.
Qed.
Section Factory.
  Context {P : Type} (f : list (str * P)).
  Lemma with_prefix_in p s : In s (getNamesWithPrefix f p) <-> In s (map fst f) /\ prefix_of p s.
  Proof.
    unfold getNamesWithPrefix. rewrite <- has_prefix_iff, <- filter_In. split; apply Permutation_in; [apply std_sort_perm|apply Permutation_sym, std_sort_perm].
  Qed.
  Lemma with_prefix_nodup p : NoDup (map fst f) -> NoDup (getNamesWithPrefix f p).
  Proof.
    intros N. apply (Permutation_NoDup (Permutation_sym (std_sort_perm _ _))). now apply NoDup_filter.
  Qed.
  Lemma exact_exists p : existsb (fun s => if str_dec s p then true else false) (getNamesWithPrefix f p) = true <-> In p (map fst f).
  Proof.
    rewrite existsb_exists. split.
    - intros [s [H E]]. destruct (str_dec s p) as [->|]; [|discriminate]. now apply with_prefix_in in H.
    - intros H. exists p. split; [|destruct (str_dec p p); congruence]. apply with_prefix_in. split; auto. exists []. now rewrite app_nil_r.
  Qed.
  Theorem p_lookup p : NoDup (map fst f) ->
    match getUniqueNameWithPrefix f p with
    | Found s => In s (map fst f) /\ prefix_of p s /\ (s = p \/ (~ In p (map fst f) /\ forall t, In t (map fst f) -> prefix_of p t -> t = s))
    | Unknown => forall t, In t (map fst f) -> ~ prefix_of p t
    | Ambiguous names => ~ In p (map fst f) /\ (forall t, In t names <-> In t (map fst f) /\ prefix_of p t) /\ ascending names /\
        exists s t, In s names /\ In t names /\ s <> t
    end.
  Proof.
    intros N. unfold getUniqueNameWithPrefix. pose proof (exact_exists p) as X.
    destruct (existsb _ _).
    - assert (H : In p (map fst f)) by now apply X. split; auto. split; [exists []; now rewrite app_nil_r|auto].
    - assert (H : ~ In p (map fst f)) by (intros Y; apply X in Y; discriminate). pose proof (with_prefix_in p) as W. pose proof (with_prefix_nodup p N) as D.
      pose proof (str_sorted (filter (has_prefix p) (map fst f))) as S. fold (getNamesWithPrefix f p) in S.
      destruct (getNamesWithPrefix f p) as [|s [|t l]].
      + intros t Ht Hp. apply (W t). auto.
      + assert (Hs : In s [s]) by (left; auto). apply W in Hs. split; [tauto|]. split; [tauto|]. right. split; auto.
        intros t Ht Hp. assert (Y : In t [s]) by (apply W; auto). destruct Y as [<-|[]]; auto.
      + split; auto. split; auto. split.
        * unfold ascending. clear -D S. remember (s :: t :: l) as names eqn:Q. clear Q s t l. induction S as [|a m S IH F]; constructor; [apply IH; now inversion D|].
          rewrite Forall_forall in *. intros b Hb. destruct (str_lt_total a b) as [H|[->|H]]; auto; [|exfalso; now apply (F b)].
          inversion D; subst. tauto.
        * exists s, t. split; [left; auto|]. split; [right; left; auto|]. inversion D; subst. intros ->. apply H2. left; auto.
  Qed.
  Lemma createNoThrow_in s : In s (map fst f) -> exists p, createNoThrow f s = Some p /\ In (s, p) f.
  Proof.
    induction f as [|[t q] g IH]; cbn [map In createNoThrow fst]; [tauto|]. intros [E|H]; destruct (str_dec t s) as [D|D].
    - subst. exists q. auto.
    - congruence.
    - subst. exists q. auto.
    - destruct (IH H) as [p [A B]]. exists p. auto.
  Qed.
  Theorem p_create p : NoDup (map fst f) ->
    match createWithPrefix f p with
    | inl r => exists s x, r = Some x /\ In (s, x) f /\ getUniqueNameWithPrefix f p = Found s
    | inr e => e = getUniqueNameWithPrefix f p /\ forall s, e <> Found s
    end.
  Proof.
    intros N. unfold createWithPrefix. pose proof (p_lookup p N) as L. destruct (getUniqueNameWithPrefix f p) as [s| |names].
    - destruct L as [H _]. destruct (createNoThrow_in s H) as [x [A B]]. exists s, x. auto.
    - split; congruence.
    - split; congruence.
  Qed.
End Factory.
Theorem p_create_name {P} (f : list (str * P)) s :
  match create f s with inl x => In (s, x) f | inr _ => ~ In s (map fst f) end.
Proof.
  unfold create. destruct (in_dec str_dec s (map fst f)) as [H|H].
  - destruct (createNoThrow_in f s H) as [x [-> B]]. exact B.
  - destruct (createNoThrow f s) as [x|] eqn:E; auto. exfalso. apply H. revert E. clear. induction f as [|[t q] g IH]; cbn; [discriminate|].
    destruct (str_dec t s); auto.
Qed.
