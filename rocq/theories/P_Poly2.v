(** Proofs about the accumulators (C38). *)
From Coq Require Import List Arith Bool ZArith Lia Sorted Permutation.
Import ListNotations.
From Verif Require Import Spec Spec_Api Spec_Poly M_Term M_Ideal M_Api M_Poly P_Term P_Api3 P_Poly.

Section Accum.
  Context {K : Type} (dec : forall a b : K, {a = b} + {a <> b}) (good : K -> Prop) (eqb : K -> K -> bool).
  Hypothesis eqb_iff : forall a b, good a -> good b -> (eqb a b = true <-> a = b).

  Definition holds (m : list (K * Z)) (F : K -> Z) : Prop :=
    NoDup (map fst m) /\ Forall (fun e => good (fst e)) m /\ forall k c, In (k, c) m <-> c = F k /\ c <> 0%Z.

  Lemma hm_ref_spec k m : good k -> Forall (fun e => good (fst e)) m -> NoDup (map fst m) ->
    let '(a, x, b) := hm_ref eqb k m in
    (m = a ++ (k, x) :: b) \/ (m = a /\ x = 0%Z /\ b = [] /\ ~ In k (map fst m)).
  Proof.
    intros G. induction m as [|[k' c] m IH]; intros Gm N; cbn [hm_ref]; [right; cbn; auto|].
    inversion Gm; inversion N; subst. cbn [fst map] in *. destruct (eqb k' k) eqn:E.
    - apply eqb_iff in E; auto. subst. left. reflexivity.
    - assert (k' <> k) by (intros X; apply (eqb_iff k' k) in X; auto; congruence).
      specialize (IH H2 H6). destruct (hm_ref eqb k m) as [[a x] b]. destruct IH as [->|[-> [-> [-> X]]]]; [left; reflexivity|].
      right. repeat split; auto. cbn. tauto.
  Qed.
  Lemma erase_absent k m : good k -> Forall (fun e => good (fst e)) m -> ~ In k (map fst m) -> hm_erase eqb k m = m.
  Proof.
    intros G. induction m as [|[k' c] m IH]; intros Gm N; cbn [hm_erase filter fst]; auto. inversion Gm; subst. cbn [map fst In] in *.
    destruct (eqb k' k) eqn:E; [apply eqb_iff in E; auto; tauto|]. cbn. f_equal. apply IH; auto.
  Qed.
  Lemma holds_perm m m' F : Permutation m' m -> holds m F -> holds m' F.
  Proof.
    intros P [A [B C]]. split; [|split].
    - apply (Permutation_NoDup (Permutation_map fst (Permutation_sym P))). exact A.
    - apply (Permutation_Forall (Permutation_sym P)). exact B.
    - intros k c. rewrite <- C. split; apply Permutation_in; auto using Permutation_sym.
  Qed.
  Lemma holds_update arr f k m F : (forall l, Permutation (arr l) l) -> good k -> holds m F ->
    holds (hm_update eqb arr f k m) (fun k' => if dec k k' then f (F k) else F k').
  Proof.
    intros P G [A [B C]]. unfold hm_update. pose proof (hm_ref_spec k m G B A) as R. destruct (hm_ref eqb k m) as [[a x] b].
    apply (holds_perm _ _ _ (P _)).
    assert (X : x = F k).
    { destruct R as [->|[-> [-> [-> R]]]].
      - apply C. apply in_or_app. right. left. auto.
      - destruct (Z.eq_dec (F k) 0) as [E|E]; auto. exfalso. apply R. apply in_map_iff. exists (k, F k). split; auto. apply C. auto. }
    assert (H0 : NoDup (map fst (a ++ b)) /\ Forall (fun e => good (fst e)) (a ++ b) /\ ~ In k (map fst (a ++ b)) /\
                 forall k' c, In (k', c) (a ++ b) <-> k <> k' /\ c = F k' /\ c <> 0%Z).
    { destruct R as [->|[-> [-> [-> R]]]].
      - rewrite map_app in A. cbn [map fst] in A. pose proof (NoDup_remove_1 _ _ _ A) as A1. pose proof (NoDup_remove_2 _ _ _ A) as A2.
        rewrite <- map_app in A1, A2. split; auto. split; [|split; auto].
        + rewrite Forall_forall in *. intros e He. apply B. rewrite in_app_iff in *. cbn. tauto.
        + intros k' c. rewrite <- C, !in_app_iff. cbn [In]. split.
          * intros H. split; [|tauto]. intros ->. apply A2. apply in_map_iff. exists (k', c). split; auto. apply in_app_iff. tauto.
          * intros [H1 [H|[H|H]]]; auto. congruence.
      - rewrite !app_nil_r. split; auto. split; auto. split; auto. intros k' c. rewrite <- C. split; [|tauto].
        intros H. split; auto. intros ->. apply R. apply in_map_iff. exists (k', c). auto. }
    destruct H0 as [N0 [G0 [R0 C0]]]. clear A B C R. subst x.
    assert (P1 : Permutation ((k, f (F k)) :: a ++ b) (a ++ (k, f (F k)) :: b)) by apply Permutation_middle.
    destruct (f (F k) =? 0)%Z eqn:E.
    - apply Z.eqb_eq in E.
      assert (EE : hm_erase eqb k (a ++ (k, f (F k)) :: b) = a ++ b).
      { transitivity (hm_erase eqb k (a ++ b)); [|apply erase_absent; auto]. unfold hm_erase. rewrite !filter_app. f_equal. cbn [filter fst].
        assert (eqb k k = true) by (apply eqb_iff; auto). now rewrite H. }
      rewrite EE. split; auto. split; auto. intros k' c. rewrite C0. destruct (dec k k'); intuition congruence.
    - apply Z.eqb_neq in E. apply (holds_perm _ _ _ (Permutation_sym P1)). split; [|split].
      + cbn [map fst]. constructor; auto.
      + constructor; auto.
      + intros k' c. cbn [In]. rewrite C0. destruct (dec k k') as [D|D].
        * subst. intuition congruence.
        * intuition congruence.
  Qed.

  Definition op_good (op : accum_op K) : Prop := match op with OpAdd _ k | OpSigned _ k => good k | OpClear => True end.
  Definition added_from (F : K -> Z) (ops : list (accum_op K)) (k : K) : Z :=
    fold_left (fun s op => match op with
                           | OpClear => 0
                           | OpAdd c k' => if dec k' k then s + c else s
                           | OpSigned plus k' => if dec k' k then (if plus then s + 1 else s - 1) else s
                           end%Z) ops (F k).
  Lemma holds_ext m F F' : (forall k, F k = F' k) -> holds m F -> holds m F'.
  Proof. intros E [A [B C]]. split; auto. split; auto. intros k c. now rewrite <- E. Qed.
  Lemma holds_empty : holds [] (fun _ => 0%Z).
  Proof. split; [constructor|]. split; [constructor|]. intros k c. cbn. intuition congruence. Qed.

  Lemma accum_spec arr : rearranges arr -> forall ops i m F, Forall op_good ops -> holds m F ->
    holds (accum eqb arr i m ops) (added_from F ops).
  Proof.
    intros P. induction ops as [|[c k|pl k|] ops IH]; intros i m F G H; cbn [accum].
    - exact H.
    - inversion G; subst. cbn [op_good] in *.
      assert (H1 : holds (hm_add eqb (arr i) c k m) (fun k' => if dec k k' then F k' + c else F k')%Z).
      { unfold hm_add. destruct (c =? 0)%Z eqn:E.
        - apply Z.eqb_eq in E. subst. apply (holds_ext m F); auto. intros k'. destruct (dec k k'); lia.
        - eapply holds_ext; [|apply holds_update; eauto]. intros k'. cbn. destruct (dec k k'); subst; auto. }
      eapply holds_ext; [|apply IH; [assumption|exact H1]]. intros k'. reflexivity.
    - inversion G; subst. cbn [op_good] in *.
      assert (H1 : holds (hm_addSigned eqb (arr i) pl k m) (fun k' => if dec k k' then (if pl then F k' + 1 else F k' - 1) else F k')%Z).
      { unfold hm_addSigned. eapply holds_ext; [|apply holds_update; eauto]. intros k'. cbn. destruct (dec k k'); subst; auto. }
      eapply holds_ext; [|apply IH; [assumption|exact H1]]. intros k'. reflexivity.
    - inversion G; subst. eapply holds_ext; [|apply IH; [assumption|apply holds_empty]]. intros k'. reflexivity.
  Qed.

  Lemma feed_spec greater canonical m F : holds m F ->
    let p := hm_feed greater canonical m in
    NoDup (map snd p) /\ (forall c k, In (c, k) p <-> c = F k /\ c <> 0%Z) /\ Forall (fun e => good (snd e)) p.
  Proof.
    intros H. unfold hm_feed. set (m' := if canonical then _ else _).
    assert (H' : holds m' F) by (unfold m'; destruct canonical; auto; apply (holds_perm m); auto using std_sort_perm).
    destruct H' as [A [B C]]. cbv zeta. split; [|split].
    - rewrite map_map. cbn [snd]. exact A.
    - intros c k. rewrite <- C, in_map_iff. split.
      + intros [[k' c'] [E H']]. cbn in E. injection E as -> ->. exact H'.
      + intros H'. exists (k, c). auto.
    - rewrite Forall_forall in *. intros e He. apply in_map_iff in He as [y [<- Hy]]. cbn. apply B. auto.
  Qed.
End Accum.

Lemma sorted_strict {A B} (lt : A -> A -> bool) (R : B -> B -> Prop) (f : A -> B) (l : list A) : StronglySorted (before lt) l -> NoDup (map f l) ->
  (forall a b, In a l -> In b l -> lt b a = false -> f a <> f b -> R (f b) (f a)) -> StronglySorted (fun a b => R (f b) (f a)) l.
Proof.
  intros S N H. induction S as [|x l S IH F]; constructor.
  - apply IH; [inversion N; auto|]. intros; apply H; try right; auto.
  - rewrite Forall_forall in *. intros y Hy. apply H; [left; auto|right; auto|apply F; auto|].
    intros E. inversion N; subst. apply H2. rewrite E. now apply in_map.
Qed.

Theorem p_hash n arr ops canonical : rearranges arr -> Forall (op_in_ring n) ops ->
  let p := hash_polynomial n arr ops canonical in
  NoDup (map snd p) /\ (forall c m, In (c, m) p <-> c = added (list_eq_dec Nat.eq_dec) ops m /\ c <> 0%Z) /\
  (canonical = true -> descending_terms p).
Proof.
  intros P G. unfold hash_polynomial.
  pose proof (accum_spec (list_eq_dec Nat.eq_dec) (fun m => length m = n) (t_equals n) (fun a b => t_equals_eq n a b) arr P ops 0 [] (fun _ => 0%Z) G (holds_empty _)) as H.
  destruct (feed_spec (fun m => length m = n) (t_revLexLess n) canonical _ _ H) as [A [B C]]. cbv zeta. split; auto. split; [exact B|].
  intros ->. unfold hm_feed in *. destruct H as [H1 [H2 H3]]. set (m := accum _ _ _ _ _) in *.
  assert (S : StronglySorted (before (fun a b : term * Z => t_revLexLess n (fst a) (fst b))) (std_sort (fun a b : term * Z => t_revLexLess n (fst a) (fst b)) m)).
  { apply std_sort_sorted; unfold before.
    - intros x y. unfold t_revLexLess, t_lexCompare. rewrite (lex_from_antisym n (fst x) (fst y) 0).
      destruct (lex_from (fst x) (fst y) 0 n); cbn; congruence.
    - intros x y z. assert (R : forall a b, t_revLexLess n a b = false <-> t_lexCompare n a b <> Gt).
      { intros. unfold t_revLexLess. destruct (t_lexCompare n a b); split; congruence. }
      rewrite !R. unfold t_lexCompare. intros X Y. eapply lex_from_lt_trans; eauto. }
  unfold descending_terms. set (s := std_sort _ m) in *.
  apply (StronglySorted_map (fun e : term * Z => (snd e, fst e)) (fun a b => lex_lt (fst b) (fst a))); [cbn; auto|].
  assert (PM : Permutation s m) by apply std_sort_perm.
  apply (sorted_strict (fun a b : term * Z => t_revLexLess n (fst a) (fst b)) lex_lt fst); auto.
  - apply (Permutation_NoDup (Permutation_map fst (Permutation_sym PM))). exact H1.
  - intros a b Ia Ib L NE. rewrite Forall_forall in H2. pose proof (H2 a (Permutation_in _ PM Ia)). pose proof (H2 b (Permutation_in _ PM Ib)). cbn beta in *.
    destruct (lex_total n (fst a) (fst b)) as [X|[X|X]]; auto; [|congruence].
    apply (revLexLess_iff n (fst b) (fst a)) in X; auto. congruence.
Qed.

Theorem p_uni_hash arr ops canonical : rearranges arr ->
  let p := uni_hash_polynomial arr ops canonical in
  NoDup (map snd p) /\ (forall c e, In (c, e) p <-> c = added Z.eq_dec ops e /\ c <> 0%Z) /\
  (canonical = true -> StronglySorted (fun a b => (snd b < snd a)%Z) p).
Proof.
  intros P. unfold uni_hash_polynomial.
  assert (G : Forall (op_good (fun _ : Z => True)) ops) by (apply Forall_forall; intros [| |] _; exact Logic.I).
  pose proof (accum_spec Z.eq_dec (fun _ => True) Z.eqb (fun a b _ _ => Z.eqb_eq a b) arr P ops 0 [] (fun _ => 0%Z) G (holds_empty _)) as H.
  destruct (feed_spec (fun _ => True) (fun a b => b <? a)%Z canonical _ _ H) as [A [B C]]. cbv zeta. split; auto. split; [exact B|].
  intros ->. unfold hm_feed in *. destruct H as [H1 [H2 H3]]. set (m := accum _ _ _ _ _) in *.
  assert (S : StronglySorted (before (fun a b : Z * Z => fst b <? fst a)%Z) (std_sort (fun a b : Z * Z => fst b <? fst a)%Z m)).
  { apply std_sort_sorted; unfold before; intros; lia. }
  set (s := std_sort _ m) in *.
  apply (StronglySorted_map (fun e : Z * Z => (snd e, fst e)) (fun a b => fst b < fst a)%Z); [cbn; auto|].
  assert (PM : Permutation s m) by apply std_sort_perm.
  apply (sorted_strict (fun a b : Z * Z => fst b <? fst a)%Z Z.lt fst); auto.
  - apply (Permutation_NoDup (Permutation_map fst (Permutation_sym PM))). exact H1.
  - intros a b Ia Ib L NE. lia.
Qed.
