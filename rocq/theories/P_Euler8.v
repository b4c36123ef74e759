(** The choice of pivots. *)
From Coq Require Import List Arith Bool ZArith Lia Permutation.
Import ListNotations.
From Verif Require Import M_SqFree M_Euler Spec_Euler Spec_EulerCfg P_Euler1 P_Euler2 P_Euler3 P_Euler4 P_Euler5 P_Euler6 P_Euler7.

(** ** Variables *)
Lemma first_best_lt better keys : forall i best besti, besti < i -> first_best better keys i best besti < i + length keys.
Proof.
  induction keys as [|k keys IH]; intros i best besti H; cbn [first_best length]; [lia|].
  destruct (better k best); (eapply Nat.lt_le_trans; [apply IH; lia|lia]).
Qed.
Lemma best_lt better keys : keys <> [] -> e_best better keys < length keys.
Proof. destruct keys as [|k keys]; intros H; [congruence|]. cbn [e_best length]. apply (first_best_lt better keys 1). lia. Qed.
Lemma first_best_max keys0 : forall keys i best besti, skipn i keys0 = keys -> nth besti keys0 0 = best ->
  let r := first_best (fun a b => b <? a) keys i best besti in
  best <= nth r keys0 0 /\ forall x, In x keys -> x <= nth r keys0 0.
Proof.
  induction keys as [|k keys IH]; intros i best besti Sk Nb; cbn [first_best].
  - rewrite Nb. split; auto. intros x [].
  - assert (Nk : nth i keys0 0 = k /\ skipn (S i) keys0 = keys).
    { clear - Sk. revert keys0 Sk. induction i as [|i IH]; intros [|y l] Sk; cbn in *; try discriminate; [injection Sk as <- <-; auto|apply IH; auto]. }
    destruct Nk as [Nk Sk']. destruct (Nat.ltb_spec best k).
    + destruct (IH (S i) k i Sk' Nk) as [A B]. split; [lia|]. intros x [<-|I]; auto.
    + destruct (IH (S i) best besti Sk' Nb) as [A B]. split; [lia|]. intros x [<-|I]; auto. lia.
Qed.
Lemma popVar_max counts x : In x counts -> x <= nth (getPopVar counts) counts 0.
Proof.
  destruct counts as [|k keys]; intros I; [destruct I|]. unfold getPopVar, e_best.
  destruct (first_best_max (k :: keys) keys 1 k 0 eq_refl eq_refl) as [A B]. destruct I as [<-|I]; auto.
Qed.
Lemma popVar_cnt n G v : lens n G -> cnt v G <= cnt (getPopVar (e_counts n G)) G.
Proof.
  intros L. rewrite <- !(nth_counts_any n) by auto. destruct (Nat.lt_ge_cases v n) as [H|H].
  - apply popVar_max, nth_In. now rewrite counts_length.
  - rewrite nth_overflow; [lia|]. now rewrite counts_length.
Qed.
Lemma rare_loop_spec counts0 : forall counts i best besti, skipn i counts0 = counts -> 0 < nth besti counts0 0 ->
  0 < nth (rare_loop counts i best besti) counts0 0.
Proof.
  induction counts as [|c counts IH]; intros i best besti Sk Nb; cbn [rare_loop]; auto.
  assert (Nk : nth i counts0 0 = c /\ skipn (S i) counts0 = counts).
  { clear - Sk. revert counts0 Sk. induction i as [|i IH]; intros [|y l] Sk; cbn in *; try discriminate; [injection Sk as <- <-; auto|apply IH; auto]. }
  destruct Nk as [Nk Sk']. destruct ((0 <? c) && (c <? best)) eqn:Q; apply IH; auto.
  apply andb_true_iff in Q as [Q _]. apply Nat.ltb_lt in Q. lia.
Qed.
Lemma rareVar_spec counts : (exists v, 0 < nth v counts 0) -> exists v, getRareVar counts = Some v /\ 0 < nth v counts 0.
Proof.
  intros H. unfold getRareVar.
  assert (Q : forall l i, skipn i counts = l -> (exists v, 0 < nth v l 0) -> exists v, getRareVar_from l i = Some v /\ 0 < nth v counts 0).
  { induction l as [|c l IH]; intros i Sk [v V]; [destruct v; cbn in V; lia|].
    assert (Nk : nth i counts 0 = c /\ skipn (S i) counts = l).
    { clear - Sk. revert counts Sk. induction i as [|i IH]; intros [|y k] Sk; cbn in *; try discriminate; [injection Sk as <- <-; auto|apply IH; auto]. }
    destruct Nk as [Nk Sk']. cbn [getRareVar_from]. destruct c as [|c].
    - apply IH; auto. destruct v; [cbn in V; lia|]. exists v. exact V.
    - eexists. split; [reflexivity|]. apply rare_loop_spec; auto. lia. }
  apply Q; auto.
Qed.
Lemma rareVar_cnt n G : lens n G -> (exists v, 0 < cnt v G) -> exists v, getRareVar (e_counts n G) = Some v /\ 0 < cnt v G.
Proof.
  intros L [v V]. destruct (rareVar_spec (e_counts n G)) as [u [A B]].
  - exists v. now rewrite nth_counts_any.
  - exists u. rewrite nth_counts_any in B; auto.
Qed.
Lemma anyVar_spec elim : forall i v, anyVar elim i = Some v -> i <= v /\ v - i < length elim /\ e_get elim (v - i) = false.
Proof.
  induction elim as [|b elim IH]; intros i v H; cbn in H; [discriminate|]. destruct b.
  - destruct (IH (S i) v H) as [A [B C]]. cbn [length]. split; [lia|]. split; [lia|]. replace (v - i) with (S (v - S i)) by lia. exact C.
  - injection H as <-. rewrite Nat.sub_diag. cbn. split; auto. split; auto. lia.
Qed.
Lemma anyVar_some elim : forall i v, v < length elim -> e_get elim v = false -> exists u, anyVar elim i = Some u.
Proof.
  induction elim as [|b elim IH]; intros i v L H; cbn [length] in L; [lia|]. cbn [anyVar]. destruct b; [|eauto].
  destruct v; [discriminate|]. apply (IH (S i) v); auto. lia.
Qed.
Lemma randomVar_spec rnd n elim : 0 < n -> forall tries i v, randomVar rnd n elim tries i = Some v -> v < n /\ e_get elim v = false.
Proof.
  intros N. induction tries as [|k IH]; intros i v H; cbn [randomVar] in H; [discriminate|].
  destruct (e_get elim (rnd i mod n)) eqn:Q; [eauto|]. injection H as <-. split; auto. apply Nat.mod_upper_bound. lia.
Qed.
Lemma randomVar_some rnd n elim : forall tries i j, i <= j -> j < i + tries -> e_get elim (rnd j mod n) = false -> exists v, randomVar rnd n elim tries i = Some v.
Proof.
  induction tries as [|k IH]; intros i j A B C; [lia|]. cbn [randomVar]. destruct (e_get elim (rnd i mod n)) eqn:Q; [|eauto].
  assert (i <> j) by (intros ->; congruence). apply (IH (S i) j); auto; lia.
Qed.

Section Ready.
Variables (cf : econfig) (s : estate).
Hypothesis (R : ready cf s).
Let K := rd_ok _ _ R.
Let n := es_n s.
Let counts := e_counts (es_n s) (es_gens s).
Lemma lens_s : lens n (es_gens s). Proof. apply K. Qed.
Lemma some_cnt : exists v, 0 < cnt v (es_gens s).
Proof. apply some_count; auto. pose proof (rd_three _ _ R). lia. Qed.
Lemma pop_pos : 0 < cnt (getPopVar counts) (es_gens s).
Proof. destruct some_cnt as [v V]. eapply Nat.lt_le_trans; [exact V|]. apply popVar_cnt. apply K. Qed.
Lemma n_pos : 0 < n.
Proof. destruct some_cnt as [v V]. apply (cnt_elim s v) in V; auto. unfold n. lia. Qed.
Lemma std_var_sound rnd tries st v : std_var rnd tries st s counts = Some v -> v < n /\ e_get (es_elim s) v = false.
Proof.
  destruct st; cbn [std_var]; intros H.
  - injection H as <-. apply cnt_elim; auto. apply pop_pos.
  - destruct (rareVar_cnt n (es_gens s) lens_s some_cnt) as [u [A B]]. fold n counts in A. unfold counts, n in *. rewrite A in H. injection H as <-.
    now apply cnt_elim.
  - injection H as <-. apply cnt_elim; auto. apply pop_pos.
  - apply randomVar_spec in H; auto. apply n_pos.
  - apply anyVar_spec in H as [_ [A B]]. rewrite Nat.sub_0_r in *. rewrite (ok_elim s K) in A. auto.
Qed.
Lemma left_cnt v : v < n -> e_get (es_elim s) v = false -> 0 < cnt v (es_gens s).
Proof. intros V NE. apply cnt_pos. apply (rd_supp _ _ R). now apply get_tgt. Qed.
Lemma std_var_some rnd tries st : (st = StdRandom -> forall v, v < n -> exists i, i < tries /\ rnd i mod n = v) ->
  exists v, std_var rnd tries st s counts = Some v.
Proof.
  destruct some_cnt as [v V]. destruct (cnt_elim s v K V) as [V1 V2]. intros H. destruct st; cbn [std_var]; eauto.
  - destruct (rareVar_cnt n (es_gens s) lens_s some_cnt) as [u [A _]]. eauto.
  - destruct (H eq_refl v V1) as [i [I1 I2]]. fold n. apply (randomVar_some _ _ _ _ 0 i); [lia|lia|]. now rewrite I2.
  - apply (anyVar_some _ 0 v); auto. rewrite (ok_elim s K). auto.
Qed.

(** ** Terms *)
Lemma get_var v u : v < n -> e_get (e_var n v) u = true <-> u = v.
Proof.
  intros V. unfold e_var. rewrite get_set by now rewrite one_length. rewrite get_one.
  destruct (Nat.eqb_spec u v); split; auto; congruence.
Qed.
Lemma var_length v : length (e_var n v) = n. Proof. unfold e_var. now rewrite set_length, one_length. Qed.
Lemma var_divides v g : v < n -> length g = n -> e_get g v = true -> e_divides (e_var n v) g = true.
Proof. intros V L G. apply divides_iff; [now rewrite var_length|]. intros u U. apply get_var in U; auto. now subst. Qed.
Lemma filter_sub_len {A} (f g : A -> bool) l : (forall x, In x l -> f x = true -> g x = true) -> length (filter f l) <= length (filter g l).
Proof.
  induction l as [|x l IH]; intros H; auto. cbn. assert (length (filter f l) <= length (filter g l)) by (apply IH; intros; apply H; auto; now right).
  destruct (f x) eqn:F; [rewrite (H x) by (auto; now left); cbn; lia|]. destruct (g x); cbn; lia.
Qed.
Lemma popGcd_spec v : v < n -> forall gens seen pivot, lens n gens -> length pivot = n -> (0 < seen -> e_get pivot v = true) ->
  (seen = 0 -> exists g, In g gens /\ e_get g v = true) -> seen < 3 ->
  let t := popGcd_loop v gens seen pivot in
  length t = n /\ e_get t v = true /\ (0 < seen -> e_divides t pivot = true) /\
  (seen = 0 -> exists g, In g gens /\ e_divides t g = true) /\
  Nat.min 3 (seen + cnt v gens) <= seen + length (multiples t gens).
Proof.
  intros V. induction gens as [|g gens IH]; intros seen pivot L Lp Pv Ex S3; cbn [popGcd_loop].
  - destruct seen; [destruct (Ex eq_refl) as [g [[] _]]|]. split; auto. split; [apply Pv; lia|]. split; [intros; apply divides_refl|].
    split; [discriminate|]. unfold cnt, multiples. cbn [filter length]. lia.
  - apply lens_cons in L as [Lg L]. destruct (e_get g v) eqn:G.
    + set (p' := if seen =? 0 then g else e_gcd pivot g).
      assert (Lp' : length p' = n) by (unfold p'; destruct (seen =? 0); auto; rewrite gcd_length; lia).
      assert (Pv' : e_get p' v = true).
      { unfold p'. destruct (Nat.eqb_spec seen 0); auto. rewrite get_gcd, G, Pv by lia. auto. }
      assert (Dg : e_divides p' g = true).
      { apply divides_iff; [lia|]. intros u. unfold p'. destruct (seen =? 0); auto. rewrite get_gcd by lia. intros X. now apply andb_true_iff in X. }
      assert (Dp : 0 < seen -> e_divides p' pivot = true).
      { intros Sp. apply divides_iff; [lia|]. intros u. unfold p'. destruct (Nat.eqb_spec seen 0); [lia|]. rewrite get_gcd by lia. intros X. now apply andb_true_iff in X. }
      assert (Cg : cnt v (g :: gens) = S (cnt v gens)) by (unfold cnt; cbn [filter]; rewrite G; auto).
      destruct (Nat.eqb_spec (S seen) 3) as [Q|Q].
      * split; auto. split; auto. split; auto. split; [lia|]. unfold multiples. cbn [filter]. rewrite Dg. cbn [length]. lia.
      * destruct (IH (S seen) p') as [A [B [C [D F]]]]; auto; try lia. specialize (C ltac:(lia)).
        assert (Tg : e_divides (popGcd_loop v gens (S seen) p') g = true) by (apply (divides_trans n _ p'); auto).
        split; auto. split; auto. split; [intros Sp; apply (divides_trans n _ p'); auto|]. split.
        -- intros _. exists g. split; auto. now left.
        -- unfold multiples in *. cbn [filter]. rewrite Tg. cbn [length]. lia.
    + assert (Cg : cnt v (g :: gens) = cnt v gens) by (unfold cnt; cbn [filter]; rewrite G; auto).
      destruct (IH seen pivot) as [A [B [C [D F]]]]; auto.
      { intros Z. destruct (Ex Z) as [h [[<-|I] H]]; [congruence|eauto]. }
      split; auto. split; auto. split; auto. split.
      * intros Z. destruct (D Z) as [h [I H]]. exists h. split; auto. now right.
      * unfold multiples in *. cbn [filter]. destruct (e_divides _ g); cbn [length]; lia.
Qed.
Lemma std_pivot_sound rnd tries st t : std_pivot rnd tries st s counts = Some t ->
  legal s (PTerm t) /\ (c_unique cf = true -> shrinks s (PTerm t)).
Proof.
  unfold std_pivot. destruct (std_var rnd tries st s counts) as [v|] eqn:SV; [|discriminate].
  destruct (std_var_sound _ _ _ _ SV) as [V NE]. pose proof (left_cnt v V NE) as C.
  assert (Var : legal s (PTerm (e_var n v)) /\ (c_unique cf = true -> shrinks s (PTerm (e_var n v)))).
  { split.
    - split; [apply var_length|]. split; [exists v; now apply get_var|]. apply cnt_pos in C as [g [I G]]. exists g. split; auto.
      apply var_divides; auto. now apply K.
    - intros U. pose proof (rd_one _ _ R U v). cbn [shrinks]. eapply Nat.le_trans with (cnt v (es_gens s)); [lia|].
      apply filter_sub_len. intros g I G. apply var_divides; auto. now apply K. }
  assert (Gen : Some (e_var n v) = Some t -> legal s (PTerm t) /\ (c_unique cf = true -> shrinks s (PTerm t))) by (intros [= <-]; auto).
  destruct st; auto. unfold counts at 1. rewrite nth_counts_any by apply K. destruct (Nat.eqb_spec (cnt v (es_gens s)) 1) as [Q|Q]; auto.
  intros [= <-]. destruct (popGcd_spec v V (es_gens s) 0 (e_one (es_n s))) as [A [B [_ [D F]]]].
  - apply K.
  - apply one_length.
  - lia.
  - intros _. now apply cnt_pos.
  - lia.
  - split; [|intros _; cbn [shrinks]; lia]. split; auto. split; [eauto|]. auto.
Qed.
Lemma gcd_multiples div : length (e_getGcdOfMultiples n div (es_gens s)) = n /\
  forall u, e_get (e_getGcdOfMultiples n div (es_gens s)) u = true <-> u < n /\ forall g, In g (es_gens s) -> e_divides div g = true -> e_get g u = true.
Proof.
  unfold e_getGcdOfMultiples.
  assert (Q : forall G a, lens n G -> length a = n ->
    length (fold_left (fun a g => if e_divides div g then e_gcd a g else a) G a) = n /\
    forall u, e_get (fold_left (fun a g => if e_divides div g then e_gcd a g else a) G a) u = true <->
      e_get a u = true /\ forall g, In g G -> e_divides div g = true -> e_get g u = true).
  { induction G as [|g G IH]; intros a L La; cbn [fold_left].
    - split; auto. intros u. split; [|tauto]. intros H. split; auto; intros g [].
    - apply lens_cons in L as [Lg L]. destruct (e_divides div g) eqn:D.
      + destruct (IH (e_gcd a g)) as [A B]; auto; [rewrite gcd_length; lia|]. split; auto. intros u. rewrite B, get_gcd by lia.
        rewrite andb_true_iff. split.
        * intros [[X Y] Z]. split; auto. intros h [<-|I]; auto.
        * intros [X Y]. split; [split; auto; apply Y; auto; now left|]. intros h I. apply Y. now right.
      + destruct (IH a) as [A B]; auto. split; auto. intros u. rewrite B. split.
        * intros [X Y]. split; auto. intros h [<-|I]; [congruence|auto].
        * intros [X Y]. split; auto. intros h I. apply Y. now right. }
  destruct (Q (es_gens s) (e_all n) lens_s (all_length n)) as [A B]. split; auto. intros u. rewrite B. split.
  - intros [X Y]. split; auto. apply get_lt in X. now rewrite all_length in X.
  - intros [X Y]. split; auto. now apply get_all.
Qed.
Lemma widen_sound t : legal s (PTerm t) ->
  let t' := e_getGcdOfMultiples n t (es_gens s) in legal s (PTerm t') /\ (shrinks s (PTerm t) -> shrinks s (PTerm t')).
Proof.
  intros [Lt [[v V] [g [Ig Dg]]]]. destruct (gcd_multiples t) as [A B]. cbn zeta. set (t' := e_getGcdOfMultiples n t (es_gens s)) in *.
  assert (D : forall h, In h (es_gens s) -> e_divides t h = true -> e_divides t' h = true).
  { intros h I H. apply divides_iff; [rewrite A; symmetry; now apply K|]. intros u U. apply B in U as [_ U]. auto. }
  split; [split; auto; split|].
  - exists v. apply B. split; [apply get_lt in V; unfold n; lia|]. intros h I H. revert v V. apply divides_iff; auto.
    rewrite Lt. symmetry. now apply K.
  - exists g. auto.
  - cbn [shrinks]. intros H. eapply Nat.le_trans; [exact H|]. apply filter_sub_len. intros h I Hh. apply D; auto.
Qed.

(** ** Generators *)
Lemma filter_loop_perm key better : forall l best kept skipped a b, filter_loop key better l best kept skipped = (a, b) ->
  Permutation (kept ++ skipped ++ l) (a ++ b).
Proof.
  induction l as [|x l IH]; intros best kept skipped a b H; cbn [filter_loop] in H.
  - injection H as <- <-. now rewrite app_nil_r.
  - assert (Sk : forall b0 k sk, filter_loop key better l b0 k (sk ++ [x]) = (a, b) -> Permutation (k ++ sk ++ x :: l) (a ++ b)).
    { intros b0 k sk Q. apply IH in Q. rewrite <- Q. now rewrite <- app_assoc. }
    destruct (key x) as [k|]; [|eapply Sk; eauto]. destruct (better best k); [eapply Sk; eauto|].
    assert (Go : forall b0 k0 s0, Permutation (kept ++ skipped) (k0 ++ s0) ->
      match s0 with [] => filter_loop key better l b0 (k0 ++ [x]) [] | y :: ss => filter_loop key better l b0 (k0 ++ [x]) (ss ++ [y]) end = (a, b) ->
      Permutation (kept ++ skipped ++ x :: l) (a ++ b)).
    { intros b0 k0 s0 P Q. rewrite app_assoc, P. destruct s0 as [|y ss]; apply IH in Q; rewrite <- Q.
      - rewrite app_nil_r. cbn. now rewrite <- app_assoc.
      - rewrite <- !app_assoc. apply Permutation_app_head. cbn [app]. rewrite <- !Permutation_middle. rewrite perm_swap. reflexivity. }
    destruct (better k best); apply Go in H; auto.
Qed.
Lemma filter_loop_kept key better : forall l best kept skipped, kept <> [] -> fst (filter_loop key better l best kept skipped) <> [].
Proof.
  induction l as [|x l IH]; intros best kept skipped H; cbn [filter_loop]; auto.
  destruct (key x) as [k|]; auto. destruct (better best k); auto.
  assert (N : forall k0, k0 ++ [x] <> []) by (intros [|? ?]; discriminate).
  destruct (better k best); destruct (kept ++ skipped), skipped; apply IH, N.
Qed.
Lemma filter_loop_some key better : forall l best kept skipped, (exists x k, In x l /\ key x = Some k /\ better best k = false) ->
  fst (filter_loop key better l best kept skipped) <> [].
Proof.
  induction l as [|x l IH]; intros best kept skipped [y [k [I [Ky B]]]]; [destruct I|]. cbn [filter_loop].
  assert (N : forall k0, k0 ++ [x] <> []) by (intros [|? ?]; discriminate).
  destruct (key x) as [k'|] eqn:Kx.
  - destruct (better best k') eqn:B'.
    + destruct I as [<-|I]; [rewrite Ky in Kx; injection Kx as <-; congruence|]. apply IH. eauto.
    + destruct (better k' best); destruct (kept ++ skipped), skipped; apply filter_loop_kept, N.
  - destruct I as [<-|I]; [congruence|]. apply IH. eauto.
Qed.
Lemma rarest_filter_spec c l : let (a, b) := rarest_filter counts c l in Permutation l (a ++ b) /\ (l <> [] -> a <> []).
Proof.
  unfold rarest_filter. destruct (filter_loop _ _ l 0 [] []) as [a b] eqn:Q. apply filter_loop_perm in Q. cbn [app] in Q.
  destruct a as [|x a].
  - rewrite app_nil_r. cbn [app] in Q. split; auto. intros N Z. subst b. apply Permutation_sym, Permutation_nil in Q. congruence.
  - split; auto. discriminate.
Qed.
Lemma rarest_loop_spec rounds : forall last l rest, let (a, b) := rarest_loop rounds counts last l rest in
  Permutation (l ++ rest) (a ++ b) /\ (l <> [] -> a <> []).
Proof.
  induction rounds as [|k IH]; intros last l rest; cbn [rarest_loop]; auto.
  destruct (length l <=? 1); auto. destruct (next_count counts last) as [c|]; auto.
  pose proof (rarest_filter_spec c l) as F. destruct (rarest_filter counts c l) as [a b]. destruct F as [F1 F2].
  specialize (IH c a (b ++ rest)). destruct (rarest_loop k counts c a (b ++ rest)) as [a' b']. destruct IH as [I1 I2]. split.
  - rewrite F1, <- app_assoc. exact I1.
  - intros N. apply I2, F2, N.
Qed.
Lemma mask_length counts0 c : length (mask_of counts0 c) = length counts0. Proof. apply map_length. Qed.
Lemma pop_not_prime g : length g = n -> e_get g (getPopVar counts) = true ->
  e_prime (mask_of counts (nth (getPopVar counts) counts 0)) g = false.
Proof.
  intros L G. rewrite <- not_true_iff_false. rewrite prime_iff by (rewrite mask_length; unfold counts; rewrite counts_length; auto).
  intros H. rewrite (H (getPopVar counts)) in G; [discriminate|]. unfold e_get, mask_of.
  rewrite nth_indep with (d' := 0 =? nth (getPopVar counts) counts 0).
  2: { rewrite map_length. unfold counts. rewrite counts_length. apply get_lt in G. fold counts. lia. }
  rewrite (map_nth (fun x => x =? nth (getPopVar counts) counts 0)). apply Nat.eqb_refl.
Qed.
Lemma gen_filter_perm rnd g l after a b : filter_step rnd counts g l after = Some (a, b) -> Permutation (l ++ after) (a ++ b).
Proof.
  unfold filter_step.
  assert (FL : forall key better best, (let (x, y) := filter_loop key better l best [] [] in Some (x, y ++ after)) = Some (a, b) ->
     Permutation (l ++ after) (a ++ b)).
  { intros key better best. destruct (filter_loop key better l best [] []) as [x y] eqn:Q. apply filter_loop_perm in Q. cbn [app] in Q.
    intros [= <- <-]. rewrite Q, app_assoc. reflexivity. }
  destruct g; cbn [gen_filter].
  - intros H. destruct (filter_loop _ _ _ _ _ _) as [x y] eqn:Q. eapply FL. rewrite Q. exact H.
  - destruct (getRareVar counts); [|discriminate]. intros H. destruct (filter_loop _ _ _ _ _ _) as [x y] eqn:Q. eapply FL. rewrite Q. exact H.
  - destruct (getRareVar counts); [|discriminate]. intros H. destruct (filter_loop _ _ _ _ _ _) as [x y] eqn:Q. eapply FL. rewrite Q. exact H.
  - pose proof (rarest_loop_spec (S (length counts)) 0 l []) as Q. destruct (rarest_loop _ _ _ _ _) as [x y]. destruct Q as [Q _].
    rewrite app_nil_r in Q. intros [= <- <-]. rewrite Q, app_assoc. reflexivity.
  - intros H. destruct (filter_loop _ _ _ _ _ _) as [x y] eqn:Q. eapply FL. rewrite Q. exact H.
  - intros H. destruct (filter_loop _ _ _ _ _ _) as [x y] eqn:Q. eapply FL. rewrite Q. exact H.
  - destruct (l ++ after) as [|x r]; [discriminate|]. intros [= <- <-]. reflexivity.
  - destruct (length l) as [|k] eqn:Lk; [discriminate|]. set (c := rnd mod S k).
    destruct (skipn c l) as [|y r] eqn:Sk; [discriminate|]. destruct l as [|x l']; [discriminate|].
    destruct (Nat.eqb_spec c 0) as [Z|Z]; intros [= <- <-].
    + cbn. now rewrite app_comm_cons.
    + destruct c as [|c']; [lia|]. cbn [skipn] in Sk. cbn [firstn skipn].
      assert (Q : l' = firstn c' l' ++ y :: r) by (rewrite <- Sk; symmetry; apply firstn_skipn).
      set (f := firstn c' l') in *. clearbody f. rewrite Q. cbn [app]. rewrite <- !app_assoc. cbn [app].
      rewrite <- !Permutation_middle. apply perm_swap.
Qed.
Lemma composite_perm rnd fs : forall i l after a b, composite_loop rnd i counts fs l after = Some (a, b) -> Permutation (l ++ after) (a ++ b).
Proof.
  induction fs as [|f fs IH]; intros i l after a b H; cbn [composite_loop] in H; [injection H as <- <-; reflexivity|].
  destruct (filter_step (rnd i) counts f l after) as [[a' b']|] eqn:F; [|discriminate]. apply gen_filter_perm in F. rewrite F. eauto.
Qed.
Lemma rareMax_bound v : forall gens i best b, (forall j, b = Some j -> j < i) -> forall j, rareMax_loop v gens i best b = Some j -> j < i + length gens.
Proof.
  induction gens as [|g gens IH]; intros i best b B j H; cbn [rareMax_loop length] in *; [specialize (B j H); lia|].
  destruct (_ && _); apply IH in H; try lia; intros j0 Q; [injection Q as <-; lia|specialize (B j0 Q); lia].
Qed.
Lemma rareMax_some v : forall gens i best b, b <> None \/ (exists g, In g gens /\ e_get g v = true /\ best < e_size g) ->
  rareMax_loop v gens i best b <> None.
Proof.
  induction gens as [|g gens IH]; intros i best b H; cbn [rareMax_loop]; [destruct H as [H|[g [[] _]]]; auto|].
  destruct (e_get g v && (best <? e_size g)) eqn:Q; apply IH; [left; discriminate|].
  destruct H as [H|[h [[<-|I] [G S]]]]; auto; [|right; eauto]. rewrite G in Q. apply Nat.ltb_lt in S. rewrite S in Q. discriminate.
Qed.
Lemma gens_ne : es_gens s <> [].
Proof. intros Z. pose proof (rd_three _ _ R) as H. rewrite Z in H. cbn in H. lia. Qed.
Lemma multiple_lt v : 0 < cnt v (es_gens s) -> e_getMultiple v (es_gens s) < length (es_gens s).
Proof. intros C. apply cnt_pos in C. destruct (multiple_spec v _ C) as [g [N _]]. apply nth_error_Some. congruence. Qed.
Lemma gen_pivot_sound rnd g G p : gen_pivot rnd g s counts = Some (G, p) -> Permutation (es_gens s) G /\ exists i, p = PGen i /\ i < length G.
Proof.
  destruct g; cbn [gen_pivot].
  - intros [= <- <-]. split; auto. eexists. split; [reflexivity|]. apply multiple_lt, pop_pos.
  - destruct (getRareVar counts) as [v|]; [|discriminate]. destruct (rareMax_loop v (es_gens s) 0 0 None) as [i|] eqn:Q; [|discriminate].
    intros [= <- <-]. split; auto. eexists. split; [reflexivity|]. apply rareMax_bound in Q; auto. discriminate.
  - destruct (rareVar_cnt n (es_gens s) lens_s some_cnt) as [u [A B]]. unfold counts. unfold n in A. rewrite A.
    intros [= <- <-]. split; auto. eexists. split; [reflexivity|]. now apply multiple_lt.
  - pose proof (rarest_loop_spec (S (length counts)) 0 (es_gens s) []) as Q. destruct (rarest_loop _ _ _ _ _) as [x y]. destruct Q as [Q _].
    rewrite app_nil_r in Q. intros [= <- <-]. split; auto. eexists. split; [reflexivity|]. rewrite <- (Permutation_length Q).
    pose proof (rd_three _ _ R). lia.
  - intros [= <- <-]. split; auto. eexists. split; [reflexivity|]. unfold e_getMaxSupportGen.
    eapply Nat.lt_le_trans; [apply best_lt|now rewrite map_length]. intros Z. apply map_eq_nil in Z. now apply gens_ne.
  - intros [= <- <-]. split; auto. eexists. split; [reflexivity|]. unfold e_getMinSupportGen.
    eapply Nat.lt_le_trans; [apply best_lt|now rewrite map_length]. intros Z. apply map_eq_nil in Z. now apply gens_ne.
  - intros [= <- <-]. split; auto. eexists. split; [reflexivity|]. pose proof (rd_three _ _ R). lia.
  - destruct (length (es_gens s)) as [|k] eqn:Q; [discriminate|]. intros [= <- <-]. split; auto. eexists. split; [reflexivity|].
    rewrite Q. lia.
Qed.
Lemma gen_pivot_some rnd g : gen_pivot rnd g s counts <> None.
Proof.
  destruct g; cbn [gen_pivot]; try discriminate.
  - destruct (rareVar_cnt n (es_gens s) lens_s some_cnt) as [u [A B]]. unfold counts. unfold n in A. rewrite A.
    apply cnt_pos in B as [g [I G]]. destruct (rareMax_loop u (es_gens s) 0 0 None) eqn:Q; [discriminate|]. exfalso. revert Q. apply rareMax_some.
    right. exists g. split; auto. split; auto. now apply (size_pos g u).
  - destruct (rareVar_cnt n (es_gens s) lens_s some_cnt) as [u [A B]]. unfold counts. unfold n in A. rewrite A. discriminate.
  - destruct (rarest_loop _ _ _ _ _). discriminate.
  - pose proof gens_ne. destruct (es_gens s); [congruence|]. discriminate.
Qed.

(** The pivot that a strategy chooses *)
Lemma do_pivot_sound rnd tries st : forall G p, do_pivot rnd tries st s counts = Some (G, p) ->
  Permutation (es_gens s) G /\ legal (ES (es_n s) G (es_elim s) (es_sign s)) p /\
  (strategy_ends (c_unique cf) st -> shrinks (ES (es_n s) G (es_elim s) (es_sign s)) p).
Proof.
  induction st as [st|st|g|fs|a IHa b IHb]; intros G p; cbn [do_pivot].
  - assert (Var : match std_var rnd tries st s counts with None => None | Some v => Some (es_gens s, PVar v) end = Some (G, p) ->
      Permutation (es_gens s) G /\ legal (ES (es_n s) G (es_elim s) (es_sign s)) p /\ (strategy_ends (c_unique cf) (SStd st) -> shrinks (ES (es_n s) G (es_elim s) (es_sign s)) p)).
    { destruct (std_var rnd tries st s counts) as [v|] eqn:Q; [|discriminate]. intros [= <- <-]. apply std_var_sound in Q. split; auto. split; [exact Q|cbn; auto]. }
    destruct st; auto. destruct (std_pivot rnd tries StdPopGcd s counts) as [t|] eqn:Q; [|discriminate]. intros [= <- <-].
    apply std_pivot_sound in Q as [Q1 Q2]. split; auto.
  - destruct (std_pivot rnd tries st s counts) as [t|] eqn:Q; [|discriminate]. intros [= <- <-].
    apply std_pivot_sound in Q as [Q1 Q2]. apply widen_sound in Q1 as [Q3 Q4]. split; auto.
  - intros H. apply gen_pivot_sound in H as [A [i [-> B]]]. split; auto.
  - destruct (composite_loop rnd 0 counts fs (es_gens s) []) as [[a b]|] eqn:Q; [|discriminate]. intros [= <- <-].
    apply composite_perm in Q. rewrite app_nil_r in Q. split; auto. split; [|cbn; auto]. cbn. rewrite <- (Permutation_length Q).
    pose proof (rd_three _ _ R). lia.
  - destruct (_ <? _); intros H; [apply IHa in H as [A [B C]]|apply IHb in H as [A [B C]]]; split; auto; split; auto; intros [X Y]; auto.
Qed.
Lemma filter_step_some rnd g l after all some :
  Permutation (es_gens s) (l ++ after) -> (all = true -> after = []) -> (some = true -> l <> []) -> (all = true -> some = true) ->
  never_empty all some [g] = true ->
  exists a b, filter_step rnd counts g l after = Some (a, b) /\
    match g with GenPopVar | GenRareMax | GenRareVar => all = true -> a <> [] | GenRarestVars | GenMaxSupport | GenMinSupport => some = true -> a <> []
    | _ => a <> [] end.
Proof.
  intros P A Sm AS NE. unfold filter_step.
  assert (Sz : forall x, In x l -> length x = n).
  { intros x I. apply K. apply (Permutation_in _ (Permutation_sym P)), in_or_app. auto. }
  assert (FL : forall key better best, exists a b, (let (x, y) := filter_loop key better l best [] [] in Some (x, y ++ after)) = Some (a, b) /\
      ((exists x k, In x l /\ key x = Some k /\ better best k = false) -> a <> [])).
  { intros key better best. pose proof (filter_loop_some key better l best [] []) as Q. destruct (filter_loop _ _ _ _ _ _) as [x y]. eauto. }
  assert (Sub : all = true -> l = l ++ after) by (intros H; rewrite (A H), app_nil_r; auto).
  assert (InL : all = true -> forall x, In x (es_gens s) -> In x l).
  { intros H x I. rewrite (Sub H). now apply (Permutation_in _ P). }
  destruct g; cbn [gen_filter].
  - match goal with |- context [filter_loop ?k ?b l ?be [] []] => destruct (FL k b be) as [a [b' [Q1 Q2]]]; destruct (filter_loop k b l be [] []) as [x0 y0] end.
    exists a, b'. split; [exact Q1|]. intros H. apply Q2. pose proof pop_pos as C. apply cnt_pos in C as [x [I X]]. exists x, 0. split; auto. split; auto.
      rewrite pop_not_prime; auto.
  - destruct (rareVar_cnt n (es_gens s) lens_s some_cnt) as [u [A1 B1]]. unfold counts. unfold n in A1. rewrite A1.
    match goal with |- context [filter_loop ?k ?b l ?be [] []] => destruct (FL k b be) as [a [b' [Q1 Q2]]]; destruct (filter_loop k b l be [] []) as [x0 y0] end.
    exists a, b'. split; [exact Q1|]. intros H. apply Q2. apply cnt_pos in B1 as [x [I X]]. exists x, (e_size x). split; auto. rewrite X. split; auto.
  - destruct (rareVar_cnt n (es_gens s) lens_s some_cnt) as [u [A1 B1]]. unfold counts. unfold n in A1. rewrite A1.
    match goal with |- context [filter_loop ?k ?b l ?be [] []] => destruct (FL k b be) as [a [b' [Q1 Q2]]]; destruct (filter_loop k b l be [] []) as [x0 y0] end.
    exists a, b'. split; [exact Q1|]. intros H. apply Q2. apply cnt_pos in B1 as [x [I X]]. exists x, 0. split; auto. rewrite X. split; auto.
  - pose proof (rarest_loop_spec (S (length counts)) 0 l []) as Q. destruct (rarest_loop _ _ _ _ _) as [x y]. destruct Q as [_ Q].
    do 2 eexists. split; [reflexivity|]. auto.
  - match goal with |- context [filter_loop ?k ?b l ?be [] []] => destruct (FL k b be) as [a [b' [Q1 Q2]]]; destruct (filter_loop k b l be [] []) as [x0 y0] end.
    exists a, b'. split; [exact Q1|]. intros H. apply Q2. destruct l as [|x l']; [now destruct (Sm H)|]. exists x, (e_size x). split; [now left|]. auto.
  - match goal with |- context [filter_loop ?k ?b l ?be [] []] => destruct (FL k b be) as [a [b' [Q1 Q2]]]; destruct (filter_loop k b l be [] []) as [x0 y0] end.
    exists a, b'. split; [exact Q1|]. intros H. apply Q2. destruct l as [|x l']; [now destruct (Sm H)|]. exists x, (e_size x). split; [now left|]. split; auto. unfold less. apply Nat.ltb_ge.
      unfold counts. rewrite counts_length. eapply Nat.le_trans; [apply size_le|]. rewrite (Sz x) by (now left). apply Nat.le_refl.
  - destruct (l ++ after) as [|x r].
    + exfalso. apply Permutation_sym, Permutation_nil in P. now apply gens_ne.
    + do 2 eexists. split; [reflexivity|]. discriminate.
  - cbn in NE. rewrite andb_true_r in NE. specialize (Sm NE). destruct (length l) as [|k] eqn:Lk; [now destruct l|].
    set (c := rnd mod S k). assert (Cl : c < length l) by (rewrite Lk; apply Nat.mod_upper_bound; lia).
    destruct (skipn c l) as [|y r] eqn:Sk.
    { exfalso. pose proof (skipn_length c l) as Q. rewrite Sk in Q. cbn [length] in Q. lia. }
    destruct l as [|x l']; [congruence|]. destruct (c =? 0); do 2 eexists; (split; [reflexivity|]); discriminate.
Qed.
Lemma composite_some rnd fs : forall i l after all some,
  Permutation (es_gens s) (l ++ after) -> (all = true -> after = []) -> (some = true -> l <> []) -> (all = true -> some = true) ->
  never_empty all some fs = true -> composite_loop rnd i counts fs l after <> None.
Proof.
  induction fs as [|f fs IH]; intros i l after all some P A S AS NE; cbn [composite_loop]; [discriminate|].
  destruct (filter_step_some (rnd i) f l after all some P A S AS) as [a [b [Q1 Q2]]].
  { destruct f; cbn in *; auto. apply andb_true_iff in NE as [-> _]. auto. }
  rewrite Q1. pose proof (gen_filter_perm _ _ _ _ _ _ Q1) as Q3.
  assert (P' : Permutation (es_gens s) (a ++ b)) by (rewrite P; auto).
  destruct f; cbn [never_empty] in NE;
    try (apply andb_true_iff in NE as [_ NE]); eapply IH; try exact NE; eauto; discriminate.
Qed.
Lemma do_pivot_some rnd tries st : (draws_variables st = true -> forall v, v < n -> exists i, i < tries /\ rnd i mod n = v) ->
  strategy_ends (c_unique cf) st -> do_pivot rnd tries st s counts <> None.
Proof.
  induction st as [st|st|g|fs|a IHa b IHb]; intros Dr En; cbn [do_pivot].
  - assert (H : st = StdRandom -> forall v, v < n -> exists i, i < tries /\ rnd i mod n = v) by (intros ->; auto).
    destruct (std_var_some rnd tries st H) as [v V]. destruct st; try (rewrite V; discriminate).
    unfold std_pivot. rewrite V. discriminate.
  - assert (H : st = StdRandom -> forall v, v < n -> exists i, i < tries /\ rnd i mod n = v) by (intros ->; auto).
    destruct (std_var_some rnd tries st H) as [v V]. unfold std_pivot. rewrite V. destruct st; discriminate.
  - apply gen_pivot_some.
  - pose proof (composite_some rnd fs 0 (es_gens s) [] true true) as Q.
    destruct (composite_loop rnd 0 counts fs (es_gens s) []) as [[a b]|]; [discriminate|]. exfalso. apply Q; auto.
    + now rewrite app_nil_r.
    + intros _. apply gens_ne.
  - cbn in Dr, En. destruct En as [Ea Eb]. destruct (_ <? _); [apply IHa|apply IHb]; auto; intros D; apply Dr; rewrite D; auto; apply orb_true_r.
Qed.
End Ready.
