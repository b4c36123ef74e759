(** Variables that divide one generator, the base case of three generators, and the simplification loop. *)
From Coq Require Import List Arith Bool ZArith Lia Permutation.
Import ListNotations.
From Verif Require Import M_SqFree M_Euler Spec_Euler P_Euler1 P_Euler2 P_Euler3 P_Euler4 P_Euler5.

(** ** Colon by a term *)
Record colon_term (p : eterm) (s s' : estate) : Prop := {
  ct_ok : st_ok s'; ct_n : es_n s' = es_n s; ct_sign : es_sign s' = es_sign s; ct_elim : es_elim s' = e_lcm (es_elim s) p;
  ct_val : val s' = (es_sign s * E (es_gens s) (e_colon (tgt s) p))%Z;
  ct_len : length (es_gens s') <= length (es_gens s);
  ct_total : total (es_gens s') <= total (es_gens s);
  ct_non : es_nonElim s' <= es_nonElim s;
  ct_same : length (es_gens s') = length (es_gens s) -> Permutation (map (fun g => e_colon g p) (es_gens s)) (es_gens s') }.
Lemma invert_lcm a b : length a = length b -> e_invert (e_lcm a b) = e_colon (e_invert a) b.
Proof.
  intros L. apply get_ext; [rewrite invert_length, lcm_length, colon_length; rewrite ?invert_length; auto|].
  intros v V. rewrite invert_length, lcm_length in V by auto.
  rewrite get_invert, get_lcm, get_colon, get_invert by (rewrite ?invert_length, ?lcm_length; auto).
  now rewrite negb_orb.
Qed.
Lemma size_colon a b : length a = length b -> e_size (e_colon a b) <= e_size a.
Proof. intros L. apply size_mono; [now apply colon_length|]. intros v. rewrite get_colon by auto. intros H. now apply andb_true_iff in H. Qed.
Lemma colonTerm_state s p : st_ok s -> length p = es_n s ->
  exists s', toColonTerm s p = (negb (length (es_gens s) =? length (es_gens s')), s') /\ colon_term p s s'.
Proof.
  intros K Lp. unfold toColonTerm.
  exists (ES (es_n s) (e_colonReminimize p (es_gens s)) (e_lcm (es_elim s) p) (es_sign s)). split; [reflexivity|].
  pose proof (ok_elim s K) as Le. pose proof (ok_lens s K) as Ll.
  pose proof (colon_reduced (es_n s) p (es_gens s) Lp Ll (ok_anti s K)) as R.
  assert (Lc : lens (es_n s) (map (fun g => e_colon g p) (es_gens s))).
  { intros g I. apply in_map_iff in I as [x [<- I]]. rewrite colon_length; rewrite (Ll x I); auto. }
  pose proof (reduced_le _ _ R) as Rl. rewrite map_length in Rl.
  split; cbn [es_n es_gens es_elim es_sign]; auto.
  - split; cbn [es_n es_gens es_elim es_sign].
    + rewrite lcm_length; lia.
    + now apply (reduced_lens _ _ _ R).
    + apply R.
    + intros g u I U. apply (reduced_in _ _ _ R) in I. apply in_map_iff in I as [x [<- I]].
      rewrite get_colon in U by (rewrite (Ll x I); auto). apply andb_true_iff in U as [U1 U2]. apply negb_true_iff in U2.
      rewrite get_lcm, U2, orb_false_r by lia. now apply (ok_disj s K x).
  - unfold val, tgt. cbn [es_sign es_gens es_elim]. rewrite invert_lcm by lia. f_equal.
    rewrite <- (reduced_E (es_n s) _ _ _ Lc); auto.
    2: { rewrite colon_length; rewrite invert_length; lia. }
    apply E_map.
    + intros g I. rewrite (Ll g I), colon_length; rewrite invert_length; lia.
    + intros g I. rewrite colon_length; rewrite (Ll g I); auto. rewrite colon_length; rewrite invert_length; lia.
    + intros g u I U. rewrite get_colon in U by (rewrite invert_length; lia). apply andb_true_iff in U as [_ U].
      rewrite get_colon by (rewrite (Ll g I); auto). now rewrite U, andb_true_r.
  - pose proof (reduced_total _ _ R).
    assert (total (map (fun g => e_colon g p) (es_gens s)) <= total (es_gens s)).
    { apply total_map_le. intros g I. apply size_colon. rewrite (Ll g I); auto. } lia.
  - unfold es_nonElim. cbn [es_n es_elim]. assert (e_size (es_elim s) <= e_size (e_lcm (es_elim s) p)); [|lia].
    apply size_mono; [rewrite lcm_length; lia|]. intros v H. rewrite get_lcm, H by lia. auto.
  - intros L. apply reduced_same; auto. now rewrite map_length.
Qed.

(** ** A variable that divides one generator *)
Lemma colon_colon a b c : length a = length b -> length a = length c -> e_colon (e_colon a b) c = e_colon a (e_lcm b c).
Proof.
  intros B C. apply get_ext; [rewrite !colon_length; rewrite ?colon_length, ?lcm_length; lia|].
  intros v _. rewrite !get_colon, get_lcm by (rewrite ?colon_length, ?lcm_length; lia).
  now destruct (e_get a v), (e_get b v), (e_get c v).
Qed.
Definition opt_term (n : nat) (t : option eterm) : eterm := match t with None => e_one n | Some t => t end.
Lemma colon_one a : e_colon a (e_one (length a)) = a.
Proof.
  apply get_ext; [rewrite colon_length; rewrite ?one_length; auto|]. intros v _. rewrite get_colon, get_one, andb_true_r; auto.
  now rewrite one_length.
Qed.
Lemma oneDiv_spec s (K : st_ok s) : forall vars (gens removed : list eterm) sign tmp,
  Permutation (es_gens s) (gens ++ removed) ->
  length (opt_term (es_n s) tmp) = es_n s ->
  (forall u, e_get (opt_term (es_n s) tmp) u = true <-> exists g, In g removed /\ e_get g u = true) ->
  (tmp = None <-> removed = []) ->
  (sign * E gens (e_colon (tgt s) (opt_term (es_n s) tmp)) = val s)%Z ->
  exists gens' removed' sign' tmp',
    oneDiv_loop vars (e_counts (es_n s) (es_gens s)) gens sign tmp = Some (gens', sign', tmp') /\
    Permutation (es_gens s) (gens' ++ removed') /\
    length (opt_term (es_n s) tmp') = es_n s /\
    (forall u, e_get (opt_term (es_n s) tmp') u = true <-> exists g, In g removed' /\ e_get g u = true) /\
    (tmp' = None <-> removed' = []) /\
    (sign' * E gens' (e_colon (tgt s) (opt_term (es_n s) tmp')) = val s)%Z /\
    (forall u, e_get (opt_term (es_n s) tmp) u = true -> e_get (opt_term (es_n s) tmp') u = true) /\
    (forall u, In u vars -> cnt u (es_gens s) = 1 -> e_get (opt_term (es_n s) tmp') u = true).
Proof.
  induction vars as [|v vars IH]; intros gens removed sign tmp P Lt Gt Nt Vt; cbn [oneDiv_loop].
  { exists gens, removed, sign, tmp. repeat (split; auto). }
  rewrite nth_counts_any by apply K.
  assert (TE : match tmp with None => false | Some t => e_get t v end = e_get (opt_term (es_n s) tmp) v).
  { destruct tmp; auto. symmetry. apply get_one. }
  rewrite TE. destruct (negb (cnt v (es_gens s) =? 1) || e_get (opt_term (es_n s) tmp) v) eqn:C.
  - destruct (IH gens removed sign tmp P Lt Gt Nt Vt) as [g' [r' [s' [t' [R [A [B [D [F [G [H J]]]]]]]]]]].
    exists g', r', s', t'. split; auto. split; auto. split; auto. split; auto. split; auto. split; auto. split; auto.
    intros u [<-|I] Cu; auto. apply H. apply orb_true_iff in C as [C|C]; auto. rewrite Cu in C. discriminate.
  - apply orb_false_iff in C as [C1 C2]. apply negb_false_iff, Nat.eqb_eq in C1.
    pose proof (cnt_perm v _ _ P) as CP. rewrite C1 in CP. unfold cnt in CP. rewrite filter_app, app_length in CP. fold (cnt v gens) (cnt v removed) in CP.
    assert (CR : cnt v removed = 0).
    { destruct (cnt v removed) eqn:X; auto. exfalso. assert (0 < cnt v removed) by lia. apply cnt_pos in H. apply Gt in H. congruence. }
    destruct (multiple_spec v gens) as [g [Ng Gg]]; [apply cnt_pos; lia|].
    destruct (remove_spec gens _ g Ng) as [gens' [RG PG]]. rewrite Ng, RG.
    assert (Ig : In g (es_gens s)).
    { apply (Permutation_in _ (Permutation_sym P)). apply in_or_app. left. now apply nth_error_In in Ng. }
    assert (Lg : length g = es_n s) by now apply K.
    assert (Tv : e_get (tgt s) v = true) by now apply (gens_tgt s g).
    set (tmp1 := Some match tmp with None => g | Some t => e_lcm t g end).
    assert (Lt1 : length (opt_term (es_n s) tmp1) = es_n s).
    { unfold tmp1, opt_term in *. destruct tmp; auto. rewrite lcm_length; lia. }
    assert (Gt1 : forall u, e_get (opt_term (es_n s) tmp1) u = e_get (opt_term (es_n s) tmp) u || e_get g u).
    { intros u. unfold tmp1, opt_term in *. destruct tmp; [apply get_lcm; lia|now rewrite get_one]. }
    assert (O1 : e_colon (tgt s) (opt_term (es_n s) tmp1) = e_colon (e_colon (tgt s) (opt_term (es_n s) tmp)) g).
    { pose proof (tgt_length s K). apply get_ext; [rewrite !colon_length; rewrite ?colon_length; lia|].
      intros u _. rewrite !get_colon, Gt1 by (rewrite ?colon_length; lia). now destruct (e_get (tgt s) u), (e_get (opt_term (es_n s) tmp) u), (e_get g u). }
    destruct (IH gens' (g :: removed) (- sign)%Z tmp1) as [g' [r' [s' [t' [R [A [B [D [F [G [H J]]]]]]]]]]].
    + rewrite P, PG. cbn [app]. now rewrite <- Permutation_middle.
    + auto.
    + intros u. rewrite Gt1, orb_true_iff, Gt. split.
      * intros [[h [I X]]|X]; [exists h|exists g]; split; auto; [now right|now left].
      * intros [h [[<-|I] X]]; auto. left. eauto.
    + unfold tmp1. split; discriminate.
    + rewrite O1. rewrite <- Vt. rewrite (E_perm gens (g :: gens')) by auto.
      pose proof (tgt_length s K) as LT.
      rewrite E_cons by (rewrite colon_length; lia).
      rewrite (E_unsupported gens' v (e_colon (tgt s) (opt_term (es_n s) tmp))); [lia| | |].
      * intros h I. rewrite colon_length by lia. rewrite LT. apply K. apply (Permutation_in _ (Permutation_sym P)), in_or_app. left.
        apply (Permutation_in _ (Permutation_sym PG)). now right.
      * rewrite get_colon, Tv, C2 by lia. auto.
      * intros h I. destruct (e_get h v) eqn:X; auto. exfalso.
        pose proof (cnt_perm v _ _ PG) as Q. unfold cnt in Q at 2. cbn [filter] in Q. rewrite Gg in Q. cbn [length] in Q. fold (cnt v gens') in Q.
        assert (0 < cnt v gens') by (apply cnt_pos; eauto). lia.
    + exists g', r', s', t'. split; auto. split; auto. split; auto. split; auto. split; auto. split; auto. split.
      * intros u U. apply H. rewrite Gt1, U. auto.
      * intros u [<-|I] Cu; auto. apply H. rewrite Gt1, Gg. apply orb_true_r.
Qed.
Lemma zeroAt_nth t : forall l v, length t = length l -> nth v (zeroAt t l) 0 = if e_get t v then 0 else nth v l 0.
Proof.
  induction t as [|b t IH]; intros [|c l] v L; cbn in L; try lia; cbn [zeroAt].
  - unfold e_get. destruct v; auto.
  - destruct v; cbn [nth e_get]; [unfold e_get; cbn; now destruct b|]. rewrite IH by lia. reflexivity.
Qed.
Lemma zeroAt_length t : forall l, length (zeroAt t l) = length l.
Proof. induction t as [|b t IH]; intros [|c l]; cbn; auto. Qed.
Lemma filter_map_len {A B} (f : A -> B) (p : B -> bool) l : length (filter p (map f l)) = length (filter (fun x => p (f x)) l).
Proof. induction l as [|x l IH]; auto. cbn. destruct (p (f x)); cbn; now rewrite IH. Qed.
Lemma oneDiv_state acc s : st_ok s ->
  exists b s' counts', optimizeOneDivCounts s (e_counts (es_n s) (es_gens s)) = Some (b, s', counts') /\
  step acc s acc s' /\ (b = true -> es_weight s' < es_weight s) /\
  (b = false -> (supported s -> supported s') /\ (3 <= length (es_gens s) -> 3 <= length (es_gens s')) /\
     counts' = e_counts (es_n s') (es_gens s') /\ (forall u, nth u counts' 0 <> 1)).
Proof.
  intros K. unfold optimizeOneDivCounts.
  destruct (oneDiv_spec s K (seq 0 (es_n s)) (es_gens s) [] (es_sign s) None) as [g' [r' [s' [t' [R [A [B [D [F [G [H J]]]]]]]]]]].
  - now rewrite app_nil_r.
  - apply one_length.
  - intros u. cbn [opt_term]. rewrite get_one. split; [discriminate|]. intros [g [[] _]].
  - split; auto.
  - cbn [opt_term]. rewrite <- (tgt_length s K), colon_one. reflexivity.
  - rewrite R. destruct t' as [tmp|].
    + cbn [opt_term] in *. destruct r' as [|g0 r']; [pose proof (proj2 F eq_refl); discriminate|]. clear F.
      set (s0 := ES (es_n s) g' (es_elim s) s').
      assert (Ig : forall g, In g g' -> In g (es_gens s)) by (intros g I; apply (Permutation_in _ (Permutation_sym A)), in_or_app; auto).
      assert (K0 : st_ok s0).
      { split; cbn.
        - apply K.
        - intros g I. apply K; auto.
        - pose proof (antichain_perm _ _ A (ok_anti s K)) as Q. now apply antichain_app in Q.
        - intros g u I. apply (ok_disj s K); auto. }
      destruct (colonTerm_state s0 tmp K0 B) as [s1 [T1 C]]. fold s0. rewrite T1.
      pose proof (Permutation_length A) as LA. rewrite app_length in LA. cbn [length] in LA.
      pose proof (total_perm _ _ A) as TA. rewrite total_app in TA.
      assert (W : es_weight s1 < es_weight s).
      { destruct C. unfold es_weight. fold (total (es_gens s1)) (total (es_gens s)). change (es_gens s0) with g' in *.
        change (es_nonElim s0) with (es_nonElim s) in *. lia. }
      assert (S : step acc s acc s1).
      { destruct C. change (es_gens s0) with g' in *. split; auto; try lia. rewrite ct_val0. change (tgt s0) with (tgt s). rewrite <- G. reflexivity. }
      cbn [es_gens s0]. destruct (Nat.eqb_spec (length g') (length (es_gens s1))) as [Q|Q]; cbn [negb orb].
      2: { do 3 eexists. split; [reflexivity|]. split; auto. split; auto. discriminate. }
      destruct (Nat.leb_spec (length (es_gens s1)) 2) as [L2|L2].
      { do 3 eexists. split; [reflexivity|]. split; auto. split; auto. discriminate. }
      do 3 eexists. split; [reflexivity|]. split; auto. split; [auto|]. intros _.
      pose proof (ct_same _ _ _ C (eq_sym Q)) as P1. cbn [es_gens s0] in P1.
      assert (Lg : forall g, In g g' -> length g = length tmp) by (intros g I; rewrite B; apply K; auto).
      split; [|split; [lia|]].
      * intros Sp u U. apply get_tgt in U; [|apply C]. rewrite (ct_n _ _ _ C), (ct_elim _ _ _ C) in U. cbn [es_n es_elim s0] in U. destruct U as [U1 U2].
        pose proof (ok_elim s K) as Le. rewrite get_lcm in U2 by lia. apply orb_false_iff in U2 as [U2 U3].
        destruct (Sp u) as [g [I Gu]]; [now apply get_tgt|]. apply (Permutation_in _ A), in_app_or in I as [I|I].
        -- exists (e_colon g tmp). split; [apply (Permutation_in _ P1); apply in_map_iff; eauto|].
           rewrite get_colon by auto. now rewrite Gu, U3.
        -- exfalso. rewrite <- not_true_iff_false in U3. apply U3, D. eauto.
      * assert (CE : zeroAt tmp (e_counts (es_n s) (es_gens s)) = e_counts (es_n s1) (es_gens s1)).
        { rewrite (ct_n _ _ _ C). cbn [es_n s0]. apply counts_ext; [now rewrite zeroAt_length, counts_length|].
          intros u U. rewrite zeroAt_nth by now rewrite counts_length. rewrite nth_counts by auto.
          rewrite <- (cnt_perm u _ _ P1), (cnt_perm u _ _ A). unfold cnt. rewrite filter_map_len, filter_app, app_length.
          assert (Q1 : forall l, (forall g, In g l -> length g = length tmp) -> length (filter (fun g => e_get (e_colon g tmp) u) l) =
                       if e_get tmp u then 0 else cnt u l).
          { unfold cnt. induction l as [|x l IH]; intros Lx; [now destruct (e_get tmp u)|]. cbn [filter]. rewrite get_colon by (apply Lx; now left).
            assert (Lx' : forall g, In g l -> length g = length tmp) by (intros; apply Lx; now right). specialize (IH Lx').
            destruct (e_get tmp u), (e_get x u); cbn [negb andb length]; rewrite IH; auto. }
          rewrite Q1 by auto. destruct (e_get tmp u) eqn:X; auto. unfold cnt.
          replace (filter (fun g => e_get g u) (g0 :: r')) with (@nil eterm); [cbn; lia|].
          symmetry. assert (Z : cnt u (g0 :: r') = 0); [|unfold cnt in Z; now apply length_zero_iff_nil in Z].
          destruct (cnt u (g0 :: r')) eqn:Y; auto. exfalso. assert (Y' : 0 < cnt u (g0 :: r')) by lia. apply cnt_pos, D in Y'. congruence. }
        split; auto. intros u. rewrite zeroAt_nth by now rewrite counts_length. destruct (e_get tmp u) eqn:X; [lia|].
        rewrite nth_counts_any by apply K. intros Q1. assert (Us : In u (seq 0 (es_n s))).
        { apply in_seq. assert (P0 : 0 < cnt u (es_gens s)) by lia. apply (cnt_elim s u K) in P0. lia. }
        rewrite (J u Us Q1) in X. discriminate.
    + do 3 eexists. split; [reflexivity|]. split; [now apply step_refl|]. split; [discriminate|]. intros _.
      split; auto. split; auto. split; auto. intros u. rewrite nth_counts_any by apply K. intros Q1.
      assert (Us : In u (seq 0 (es_n s))).
      { apply in_seq. assert (P0 : 0 < cnt u (es_gens s)) by lia. apply (cnt_elim s u K) in P0. lia. }
      specialize (J u Us Q1). cbn [opt_term] in J. rewrite get_one in J. discriminate.
Qed.

(** ** Three generators *)
Lemma three_gens s : st_ok s -> supported s -> length (es_gens s) = 3 -> (forall u, cnt u (es_gens s) <> 1) -> val s = (es_sign s + es_sign s)%Z.
Proof.
  intros K Sp L3 C. unfold val. pose proof (lens_tgt s K) as LT. pose proof (ok_anti s K) as KA.
  pose proof (fun g v => gens_tgt s g v K) as GT. unfold supported in Sp.
  destruct (es_gens s) as [|a [|b [|c [|? ?]]]] eqn:EG; try discriminate. clear L3.
  assert (La : length a = length (tgt s)) by (apply LT; cbn; auto). assert (Lb : length b = length (tgt s)) by (apply LT; cbn; auto).
  assert (Lc : length c = length (tgt s)) by (apply LT; cbn; auto).
  apply antichain_cons in KA as [KA KB]. apply antichain_cons in KB as [KB _].
  pose proof (KA b ltac:(cbn; auto)) as AB. pose proof (KA c ltac:(cbn; auto)) as AC. pose proof (KB c ltac:(cbn; auto)) as BC.
  destruct (inc_witness _ _ _ La Lb AB) as [x [X1 X2]]. destruct (inc_witness _ _ _ Lb La (inc_sym _ _ AB)) as [y [Y1 Y2]].
  destruct (inc_witness _ _ _ La Lc AC) as [z [Z1 Z2]].
  assert (Tx : e_get (tgt s) x = true) by (apply (GT a); cbn; auto). assert (Ty : e_get (tgt s) y = true) by (apply (GT b); cbn; auto).
  assert (Tz : e_get (tgt s) z = true) by (apply (GT a); cbn; auto).
  rewrite !E_cons by (rewrite ?colon_length; rewrite ?colon_length; lia).
  rewrite (E_nil_pos (tgt s) x) by auto.
  rewrite (E_nil_pos (e_colon (tgt s) b) x) by (rewrite get_colon, Tx, X2 by lia; auto).
  rewrite (E_nil_pos (e_colon (tgt s) a) y) by (rewrite get_colon, Ty, Y2 by lia; auto).
  rewrite (E_nil_pos (e_colon (tgt s) c) z) by (rewrite get_colon, Tz, Z2 by lia; auto).
  assert (Two : forall u, e_get (tgt s) u = true -> (if e_get a u then 1 else 0) + (if e_get b u then 1 else 0) + (if e_get c u then 1 else 0) >= 2).
  { intros u U. specialize (C u). destruct (Sp u U) as [g G]. assert (0 < cnt u [a; b; c]) by (apply cnt_pos; eauto).
    unfold cnt in *. cbn [filter] in *. destruct (e_get a u), (e_get b u), (e_get c u); cbn [length] in *; lia. }
  rewrite !E_nil_empty; [lia| | | |]; intros u; rewrite !get_colon by (rewrite ?colon_length; rewrite ?colon_length; lia);
    destruct (e_get (tgt s) u) eqn:U; auto; specialize (Two u U); destruct (e_get a u), (e_get b u), (e_get c u); cbn in *; auto; lia.
Qed.
Lemma some_count s : st_ok s -> 2 <= length (es_gens s) -> exists v, 0 < cnt v (es_gens s).
Proof.
  intros K L. pose proof (ok_anti s K) as A. pose proof (ok_lens s K) as Ll. destruct (es_gens s) as [|g [|h G]]; cbn [length] in L; try lia.
  apply antichain_cons in A as [A _]. specialize (A h (or_introl eq_refl)).
  destruct (inc_witness (es_n s) g h) as [u [U _]]; auto; try (apply Ll; cbn; auto). exists u. apply cnt_pos. exists g. split; auto. now left.
Qed.

(** ** The loop *)
Definition pairs_sound (cf : econfig) : Prop := c_pairs cf = true -> c_unique cf = true \/ c_many cf = true.
(** What holds when a pivot is chosen *)
Record ready (cf : econfig) (s : estate) : Prop := {
  rd_ok : st_ok s; rd_supp : supported s; rd_three : 3 <= length (es_gens s);
  rd_one : c_unique cf = true -> forall u, cnt u (es_gens s) <> 1 }.
Definition second (st : strategy) (s : estate) : nat := match st with SGen _ | SComposite _ => length (es_gens s) | _ => es_n s end.
Lemma transpose_second st s s' : st_ok s -> shouldTranspose st s = true -> es_n s' = length (es_gens s) ->
  length (es_gens s') <= es_nonElim s -> second st s' < second st s.
Proof.
  intros K H N L. unfold es_nonElim in L. unfold second. destruct st; cbn in H; try discriminate;
    apply Nat.ltb_lt in H; lia.
Qed.
Lemma simplify_spec cf : pairs_sound cf -> forall rounds acc s N, st_ok s -> es_n s <= N -> length (es_gens s) <= N ->
  match simplify cf rounds acc s with
  | SBase a => a = (acc + val s)%Z
  | SPivot a s' counts => ready cf s' /\ (a + val s' = acc + val s)%Z /\ counts = e_counts (es_n s') (es_gens s') /\
      es_weight s' <= es_weight s /\ es_n s' <= N /\ length (es_gens s') <= N
  | SUndef => False
  | SMore => rounds <= es_weight s * S N + second (c_strategy cf) s
  end.
Proof.
  intros PS. induction rounds as [|k IH]; intros acc s N K Nn Ng; cbn [simplify]; [lia|].
  (* going on with a smaller state *)
  assert (Sec : second (c_strategy cf) s <= N) by (unfold second; destruct (c_strategy cf); lia).
  assert (Go : forall acc' s', st_ok s' -> es_n s' <= N -> length (es_gens s') <= N -> (acc' + val s' = acc + val s)%Z ->
             es_weight s' < es_weight s \/ (es_weight s' <= es_weight s /\ second (c_strategy cf) s' < second (c_strategy cf) s) ->
   match simplify cf k acc' s' with
   | SBase a => a = (acc + val s)%Z
   | SPivot a s' counts => ready cf s' /\ (a + val s' = acc + val s)%Z /\ counts = e_counts (es_n s') (es_gens s') /\
      es_weight s' <= es_weight s /\ es_n s' <= N /\ length (es_gens s') <= N
   | SUndef => False
   | SMore => S k <= es_weight s * S N + second (c_strategy cf) s
   end).
  { intros acc' s' K' A B C D. specialize (IH acc' s' N K' A B).
    assert (Sec' : second (c_strategy cf) s' <= N) by (unfold second; destruct (c_strategy cf); lia).
    destruct (simplify cf k acc' s') as [a|a s2 co| |]; auto.
    - lia.
    - destruct IH as [I1 [I2 [I3 [I4 [I5 I6]]]]]. split; auto. split; [lia|]. split; auto. split; [destruct D; lia|auto].
    - destruct D as [D|[D1 D2]]; nia. }
  destruct (baseCaseSimple1 acc s) as [a|] eqn:B1; [now apply base1_spec|].
  apply base1_none in B1 as [Sp L3]; auto.
  assert (O : exists b s1 counts1, (if c_unique cf then optimizeOneDivCounts s (e_counts (es_n s) (es_gens s)) else Some (false, s, e_counts (es_n s) (es_gens s)))
      = Some (b, s1, counts1) /\ step acc s acc s1 /\ (b = true -> es_weight s1 < es_weight s) /\
      (b = false -> supported s1 /\ 3 <= length (es_gens s1) /\ counts1 = e_counts (es_n s1) (es_gens s1) /\
         (c_unique cf = true -> forall u, nth u counts1 0 <> 1))).
  { destruct (c_unique cf).
    - destruct (oneDiv_state acc s K) as [b [s1 [co [R [S [W P]]]]]]. exists b, s1, co. split; auto. split; auto. split; auto.
      intros B. destruct (P B) as [P1 [P2 [P3 P4]]]. auto.
    - do 3 eexists. split; [reflexivity|]. split; [now apply step_refl|]. split; [discriminate|]. intros _. split; auto. split; auto. split; auto. discriminate. }
  destruct O as [b1 [s1 [co1 [-> [S1 [W1 P1]]]]]]. destruct b1.
  { specialize (W1 eq_refl). destruct S1. apply Go; auto; lia. }
  destruct (P1 eq_refl) as [Sp1 [L1 [-> U1]]]. clear P1 W1.
  assert (O : exists b acc2 s2 counts2, (if c_many cf then optimizeSimple (seq 0 (es_n s1)) (length (es_gens s1)) acc s1 (e_counts (es_n s1) (es_gens s1))
      else Some (false, acc, s1, e_counts (es_n s1) (es_gens s1)))
      = Some (b, acc2, s2, counts2) /\ step acc s1 acc2 s2 /\ (b = true -> es_weight s2 < es_weight s1) /\
      (b = false -> kept s1 s2 /\ counts2 = e_counts (es_n s2) (es_gens s2) /\
         (forall u, nth u counts2 0 = 0 \/ nth u counts2 0 = nth u (e_counts (es_n s1) (es_gens s1)) 0) /\
         (c_many cf = true -> forall u, nth u counts2 0 < length (es_gens s1) - 2))).
  { destruct (c_many cf).
    - destruct (simple_spec (seq 0 (es_n s1)) (length (es_gens s1)) L1 acc s1 (sp_ok _ _ _ _ S1) eq_refl) as [b [a [s2 [co [R [S [W P]]]]]]].
      exists b, a, s2, co. split; auto. split; auto. split; auto. intros B. destruct (P B) as [P1 [P2 [P3 P4]]]. split; auto. split; auto. split; auto.
      intros _ u. destruct (Nat.lt_ge_cases u (es_n s1)) as [Lu|Lu]; [apply P4, in_seq; lia|].
      rewrite nth_overflow; [lia|]. rewrite P2, counts_length, (sp_n _ _ _ _ S). auto.
    - do 4 eexists. split; [reflexivity|]. split; [apply step_refl, S1|]. split; [discriminate|]. intros _. split; [split; auto|].
      split; auto. split; auto. discriminate. }
  destruct O as [b2 [acc2 [s2 [co2 [-> [S2 [W2 P2]]]]]]].
  pose proof (step_trans _ _ _ _ _ _ S1 S2) as S12. destruct b2.
  { specialize (W2 eq_refl). pose proof (sp_weight _ _ _ _ S1). destruct S12. apply Go; auto; lia. }
  destruct (P2 eq_refl) as [[L2 Sp2] [-> [N2 M2]]]. specialize (Sp2 Sp1). clear P2 W2.
  assert (O : exists b s3 counts3, (if c_pairs cf then optimizeVarPairs (seq 0 (es_n s2)) s2 (e_counts (es_n s2) (es_gens s2))
      else Some (false, s2, e_counts (es_n s2) (es_gens s2)))
      = Some (b, s3, counts3) /\ step acc2 s2 acc2 s3 /\ (b = true -> es_weight s3 < es_weight s2) /\
      (b = false -> kept s2 s3 /\ counts3 = e_counts (es_n s3) (es_gens s3) /\
         (forall u, nth u counts3 0 = 0 \/ nth u counts3 0 = nth u (e_counts (es_n s2) (es_gens s2)) 0))).
  { destruct (c_pairs cf).
    - destruct (pairs_spec (seq 0 (es_n s2)) (fun _ _ => Logic.I) acc2 s2) as [b [s3 [co [R [S [W P]]]]]]; [apply S2|intros v I; apply in_seq in I; lia|].
      exists b, s3, co. auto.
    - do 3 eexists. split; [reflexivity|]. split; [apply step_refl, S2|]. split; [discriminate|]. intros _. split; [split; auto|]. split; auto. }
  destruct O as [b3 [s3 [co3 [-> [S3 [W3 P3]]]]]].
  pose proof (step_trans _ _ _ _ _ _ S12 S3) as S13. destruct b3.
  { specialize (W3 eq_refl). pose proof (sp_weight _ _ _ _ S12). destruct S13. apply Go; auto; lia. }
  destruct (P3 eq_refl) as [[L3' Sp3] [-> N3]]. specialize (Sp3 Sp2). clear P3 W3.
  pose proof (sp_ok _ _ _ _ S13) as K3.
  assert (Rd : ready cf s3).
  { split; auto; try lia. intros Q u. rewrite <- (nth_counts_any (es_n s3)) by apply K3. specialize (U1 Q u).
    destruct (N3 u) as [X|X]; rewrite X; [lia|]. destruct (N2 u) as [Y|Y]; rewrite Y; lia. }
  destruct (if c_pairs cf then baseCasePreconditionSimplified acc2 s3 else None) as [a|] eqn:BP.
  { destruct (c_pairs cf) eqn:CP; [|discriminate]. unfold baseCasePreconditionSimplified in BP.
    destruct (Nat.eqb_spec (length (es_gens s3)) 3) as [Q3|]; [|discriminate]. injection BP as <-.
    pose proof (sp_val _ _ _ _ S13) as VV. destruct (PS CP) as [Q|Q].
    - rewrite (three_gens s3 K3 Sp3 Q3 (rd_one _ _ Rd Q)) in VV. lia.
    - exfalso. destruct (some_count s3 K3) as [u U]; [lia|]. rewrite <- (nth_counts_any (es_n s3)) in U by apply K3. specialize (M2 Q u).
      destruct (N3 u) as [X|X]; rewrite X in U; lia. }
  destruct (c_auto cf && shouldTranspose (c_strategy cf) s3) eqn:T.
  - apply andb_true_iff in T as [_ T].
    destruct (transpose_spec s3 K3) as [s4 [-> [K4 [Lv [V4 [W4 [N4 G4]]]]]]].
    { intros E0. rewrite E0 in *. cbn in *. lia. }
    pose proof (transpose_second _ _ _ K3 T N4 G4). pose proof (sp_val _ _ _ _ S13). pose proof (sp_weight _ _ _ _ S13).
    pose proof (sp_n _ _ _ _ S13). pose proof (sp_len _ _ _ _ S13).
    assert (second (c_strategy cf) s3 <= second (c_strategy cf) s) by (unfold second; destruct (c_strategy cf); lia).
    assert (es_nonElim s3 <= es_n s3) by (unfold es_nonElim; lia).
    apply Go; auto; try lia.
  - split; auto. destruct S13. split; auto. split; auto. lia.
Qed.
