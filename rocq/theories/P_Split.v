(** The split strategies choose legal pivots and label variables. *)
From Coq Require Import List Arith Bool Lia Permutation Sorted.
Import ListNotations.
From Verif Require Import M_Term M_Ideal M_Slice M_Partition M_Msm P_Term P_Ideal P_Msm1 P_Msm2 P_Msm3 P_Msm4 P_Msm5.

Definition legal (s : slice) (p : term) : Prop :=
  length p = s_n s /\ (exists v, v < s_n s /\ 0 < p @ v) /\ sB s p.

(** the same slice with the generators of the ideal in another order *)
Record reordered (s s' : slice) : Prop := mkReord {
  re_n : s_n s' = s_n s; re_I : Permutation (s_I s') (s_I s); re_S : s_S s' = s_S s; re_q : s_q s' = s_q s;
  re_lcm : s_lcm s' = s_lcm s; re_upd : s_upd s' = s_upd s; re_hint : s_hint s' = s_hint s }.

Definition pivot_sound0 (f : pivot_rule) : Prop := forall simp rnd k s, slice_ok s -> sndl s -> nonbase simp s ->
  exists s' p k', f rnd k s = Some (s', p, k') /\ reordered s s' /\ legal s p.

(** what the pivot strategies need to know about the slice *)
Record pivotable (s : slice) : Prop := mkPv {
  pv_n : 0 < s_n s;
  pv_full : full (s_n s) (slcm s);
  pv_big : exists v, v < s_n s /\ 2 <= (slcm s) @ v;
  pv_lcm : s_lcm s = slcm s }.
Lemma nonbase_pivotable : forall simp s, nonbase simp s -> pivotable s.
Proof.
  intros simp s H. pose proof (nb_n _ _ H). constructor; [lia|apply (nb_full _ _ H)|apply (nb_big _ _ H)|apply (nb_lcm _ _ H)].
Qed.
Definition pivot_sound1 (f : pivot_rule) : Prop := forall rnd k s, slice_ok s -> pivotable s ->
  exists s' p k', f rnd k s = Some (s', p, k') /\ reordered s s' /\ legal s p.
Lemma pivot_sound1_0 : forall f, pivot_sound1 f -> pivot_sound0 f.
Proof. intros f H simp rnd k s Hok _ Hb. apply H; auto. apply nonbase_pivotable with simp; auto. Qed.

Definition label_sound0 (f : label_rule) : Prop := forall simp s, slice_ok s -> sndl s -> nonbase simp s ->
  adjusted (s_n s) (s_I s) ->
  exists v, f s = Some v /\ v < s_n s /\ ~ In (var_pow (s_n s) v 1) (s_I s).

Lemma sdiv_legal : forall s p h, slice_ok s -> full (s_n s) (slcm s) -> length p = s_n s ->
  (exists v, v < s_n s /\ 0 < p @ v) -> In h (s_I s) -> sdiv_n (s_n s) p h -> legal s p.
Proof.
  intros s p h Hok Hf Hl Hp Hh Hd. split; auto. split; auto. split; auto. split; [|split].
  - intros v Hv. destruct (proj1 Hd v Hv) as [E|E]; [rewrite E; apply Hf; auto|].
    pose proof (i_lcm_ge (s_n s) (s_I s) h v Hv Hh). lia.
  - intros [g [Hg Hle]]. assert (g = h).
    { apply (proj2 (ok_minI s Hok)); auto. intros v Hv. specialize (Hle v Hv). destruct (proj1 Hd v Hv); lia. }
    subst g. destruct (proj2 Hd) as [v [Hv Hz]]. specialize (Hle v Hv). destruct (proj1 Hd v Hv); lia.
  - intros [g [Hg Hle]]. apply (ok_norm s Hok g h); auto. split; [|apply Hd].
    intros v Hv. specialize (Hle v Hv). destruct (proj1 Hd v Hv); lia.
Qed.

Lemma pure_legal : forall s v e, slice_ok s -> full (s_n s) (slcm s) -> v < s_n s -> 1 <= e -> e < (slcm s) @ v ->
  legal s (var_pow (s_n s) v e).
Proof.
  intros s v e Hok Hf Hv He Hlt. destruct (i_lcm_attained (s_n s) (s_I s) v Hv (Hf v Hv)) as [h [Hh E]].
  apply sdiv_legal with h; auto.
  - apply t_set_length.
  - exists v. split; auto. rewrite var_pow_nth, Nat.eqb_refl; auto.
  - split; [|exists v; split; auto; specialize (Hf v Hv); unfold slcm in Hf; lia].
    intros w Hw. rewrite var_pow_nth by auto. destruct (Nat.eqb_spec w v) as [->|]; auto. right. unfold slcm in Hlt. lia.
Qed.

Lemma firstMax_spec : forall n a, 0 < n -> t_firstMax n a < n /\ forall v, v < n -> a @ v <= a @ (t_firstMax n a).
Proof.
  intros n a Hn. unfold t_firstMax.
  assert (H : forall l mx, (forall v, In v l -> v < n) -> mx < n ->
     let r := fold_left (fun mx v => if a @ mx <? a @ v then v else mx) l mx in
     r < n /\ a @ mx <= a @ r /\ forall v, In v l -> a @ v <= a @ r).
  { induction l as [|x l IH]; intros mx Hl Hm; cbn [fold_left]; cbv zeta.
    - split; auto. split; auto. intros v [].
    - assert (Hx : x < n) by (apply Hl; left; auto).
      assert (Hl' : forall v, In v l -> v < n) by (intros; apply Hl; right; auto).
      destruct (Nat.ltb_spec (a @ mx) (a @ x)) as [Hlt|Hge].
      + destruct (IH x Hl' Hx) as [A [B C]]. split; auto. split; [lia|]. intros v [<-|Hv]; auto.
      + destruct (IH mx Hl' Hm) as [A [B C]]. split; auto. split; [lia|]. intros v [<-|Hv]; auto. lia. }
  destruct (H (seq 1 (n - 1)) 0) as [A [B C]]; auto. { intros v Hv. apply in_seq in Hv. lia. }
  split; auto. intros v Hv. destruct (Nat.eq_dec v 0) as [->|N]; auto. apply C. apply in_seq. lia.
Qed.

Lemma middle_from_spec : forall (a : term) k v off,
  off < length (filter (fun v => negb (a @ v =? 0)) (seq v k)) ->
  v <= middle_from a v k off < v + k /\ a @ (middle_from a v k off) <> 0.
Proof.
  intros a. induction k as [|k IH]; intros v off H; cbn [seq filter length] in H; [lia|]. cbn [middle_from].
  destruct (Nat.eqb_spec (a @ v) 0) as [E|E]; cbn [negb length] in H.
  - destruct (IH (S v) off H) as [A B]. split; auto. lia.
  - destruct off as [|off]; [split; auto; lia|]. destruct (IH (S v) off) as [A B]; [lia|]. split; auto. lia.
Qed.

Lemma middle_spec : forall n a, (exists v, v < n /\ a @ v <> 0) -> t_middleNonZero n a < n /\ a @ (t_middleNonZero n a) <> 0.
Proof.
  intros n a [v [Hv Hz]]. unfold t_middleNonZero.
  assert (Hpos : 0 < t_sizeOfSupport n a).
  { destruct (t_sizeOfSupport n a) eqn:E; [|lia]. rewrite (proj1 (t_sizeOfSupport_0 n a) E v Hv) in Hz. lia. }
  destruct (middle_from_spec a n 0 (t_sizeOfSupport n a / 2)) as [A B].
  - unfold t_sizeOfSupport in *. apply Nat.div_lt; lia.
  - split; auto. lia.
Qed.

Lemma supportCounts_pos : forall n I v, v < n -> (0 < (i_supportCounts n I) @ v <-> exists g, In g I /\ 0 < g @ v).
Proof.
  intros n I v Hv. unfold i_supportCounts. rewrite tabulate_nth by auto. split.
  - intros H. destruct (filter (fun g => 0 <? g @ v) I) as [|g l] eqn:E; [simpl in H; lia|].
    assert (Hin : In g (filter (fun g => 0 <? g @ v) I)) by (rewrite E; left; auto).
    apply filter_In in Hin. destruct Hin as [A B]. apply Nat.ltb_lt in B. exists g; auto.
  - intros [g [A B]]. assert (Hin : In g (filter (fun g => 0 <? g @ v) I)) by (apply filter_In; split; auto; apply Nat.ltb_lt; auto).
    destruct (filter (fun g => 0 <? g @ v) I); [destruct Hin|simpl; lia].
Qed.

Lemma getBestVar_spec : forall s, pivotable s -> getBestVar s < s_n s /\ 2 <= (slcm s) @ (getBestVar s).
Proof.
  intros s Hb. pose proof (pv_n _ Hb) as Hn. unfold getBestVar. cbv zeta. rewrite (pv_lcm _ Hb).
  set (n := s_n s) in *. set (l := slcm s) in *. set (sc := i_supportCounts n (s_I s)).
  set (co := tabulate n (fun v => if l @ v <=? 1 then 0 else sc @ v)).
  destruct (firstMax_spec n co ltac:(lia)) as [A B]. set (mx := co @ (t_firstMax n co)) in *.
  destruct (pv_big _ Hb) as [v [Hv H2]]. fold n in Hv. fold l in H2.
  assert (Hmx : 0 < mx).
  { specialize (B v Hv). unfold co at 1 in B. rewrite tabulate_nth in B by auto.
    destruct (Nat.leb_spec (l @ v) 1); [lia|]. assert (0 < sc @ v); [|lia]. apply supportCounts_pos; auto.
    destruct (i_lcm_attained n (s_I s) v Hv) as [g [G1 G2]]. { unfold l, slcm in H2. fold n in H2. lia. }
    exists g. split; auto. unfold l, slcm in H2. fold n in H2. lia. }
  set (co' := tabulate n (fun v => if co @ v <? mx then 0 else co @ v)).
  destruct (middle_spec n co') as [C D].
  { exists (t_firstMax n co). split; auto. unfold co'. rewrite tabulate_nth by auto. fold mx. rewrite Nat.ltb_irrefl. lia. }
  split; auto. set (v0 := t_middleNonZero n co') in *. clearbody v0. unfold co' in D. rewrite tabulate_nth in D by auto.
  destruct (_ <? mx); [lia|]. unfold co in D. rewrite tabulate_nth in D by auto.
  destruct (Nat.leb_spec (l @ v0) 1); [congruence|]. lia.
Qed.

Lemma re_refl : forall s, reordered s s. Proof. intros s. constructor; auto. Qed.

Lemma minimum_sound1 : pivot_sound1 minimum_pivot.
Proof.
  intros rnd k s Hok Hb. destruct (getBestVar_spec s Hb) as [A B]. do 3 eexists. split; [reflexivity|].
  split; [apply re_refl|]. apply pure_legal; auto. apply (pv_full _ Hb).
Qed.

Lemma maximum_sound1 : pivot_sound1 maximum_pivot.
Proof.
  intros rnd k s Hok Hb. destruct (getBestVar_spec s Hb) as [A B]. do 3 eexists. split; [reflexivity|].
  split; [apply re_refl|]. rewrite (pv_lcm _ Hb). apply pure_legal; auto; [apply (pv_full _ Hb)|lia|lia].
Qed.

Lemma skip_zero_spec : forall var l, StronglySorted (fun a b => a @ var <= b @ var) l ->
  (forall g, In g (skip_zero var l) -> In g l /\ 0 < g @ var) /\
  ((exists g, In g l /\ 0 < g @ var) -> skip_zero var l <> []).
Proof.
  intros var. induction l as [|g l IH]; intros Hs.
  - split; [intros g []|intros [g [[] _]]].
  - apply StronglySorted_inv in Hs. destruct Hs as [Hs Hh]. cbn [skip_zero]. destruct (Nat.eqb_spec (g @ var) 0) as [E|E].
    + destruct (IH Hs) as [A B]. split.
      * intros h Hx. apply A in Hx. split; [right; apply Hx|apply Hx].
      * intros [h [[<-|Hx] Hp]]; [lia|]. apply B. exists h; auto.
    + split; [|discriminate]. intros h [<-|Hx]; [split; [left; auto|lia]|]. split; [right; auto|].
      rewrite Forall_forall in Hh. specialize (Hh h Hx). lia.
Qed.

Lemma median_sound1 : pivot_sound1 median_pivot.
Proof.
  intros rnd k s Hok Hb. destruct (getBestVar_spec s Hb) as [A B].
  unfold median_pivot. cbv zeta. set (v := getBestVar s) in *. set (n := s_n s) in *.
  destruct (skip_zero_spec v (i_singleDegreeSort (s_I s) v) (std_sort_deg_sorted v (s_I s))) as [S1 S2].
  unfold medianExponent. destruct (i_lcm_attained n (s_I s) v A) as [h [H1 H2]]. { unfold slcm in B. fold n in B. lia. }
  destruct (skip_zero v (i_singleDegreeSort (s_I s) v)) as [|g0 l0] eqn:E.
  { exfalso. apply S2; auto. exists h. split; [|unfold slcm in B; fold n in B; lia].
    apply (Permutation_in h (Permutation_sym (std_sort_perm (t_singleDegreeLess v) (s_I s)))); auto. }
  destruct (nth_error (g0 :: l0) (length (g0 :: l0) / 2)) as [g|] eqn:En.
  2:{ exfalso. apply nth_error_None in En. pose proof (Nat.div_lt (length (g0 :: l0)) 2). simpl in *. lia. }
  apply nth_error_In in En. destruct (S1 g En) as [Hg Hp].
  apply (Permutation_in g (std_sort_perm (t_singleDegreeLess v) (s_I s))) in Hg.
  do 3 eexists. split; [reflexivity|]. split.
  - constructor; auto. cbn [s_I]. apply std_sort_perm.
  - rewrite (pv_lcm _ Hb). pose proof (i_lcm_ge n (s_I s) g v A Hg) as Hge. change (i_lcm n (s_I s)) with (slcm s) in Hge.
    apply pure_legal; auto; [apply (pv_full _ Hb)| |]; destruct (Nat.eqb_spec (g @ v) ((slcm s) @ v)); lia.
Qed.

Lemma indep_sound1 : pivot_sound1 indep_pivot.
Proof.
  intros rnd k s Hok Hb. unfold indep_pivot. destruct (s_n s =? 1); apply median_sound1; auto.
Qed.

Lemma gcd_select_spec : forall L rnd k, L <> [] -> exists g, gcd_select L rnd k = Some g /\ In g L.
Proof.
  intros L rnd k HL. unfold gcd_select. destruct L as [|a L]; [congruence|].
  destruct (nth_error (a :: L) (rnd k mod length (a :: L))) as [g|] eqn:E.
  - exists g. split; auto. apply nth_error_In in E. auto.
  - exfalso. apply nth_error_None in E. pose proof (Nat.mod_upper_bound (rnd k) (length (a :: L)) ltac:(simpl; lia)). lia.
Qed.

Lemma decrement_sdiv : forall s g p v, slice_ok s -> full (s_n s) (slcm s) -> v < s_n s -> In g (s_I s) ->
  le_n (s_n s) p g -> 2 <= p @ v -> legal s (t_decrement (s_n s) p).
Proof.
  intros s g p v Hok Hf Hv Hg Hle H2. apply sdiv_legal with g; auto.
  - apply t_decrement_length.
  - exists v. split; auto. rewrite t_decrement_nth by auto. lia.
  - split; [|exists v; split; auto; specialize (Hle v Hv); lia].
    intros w Hw. rewrite t_decrement_nth by auto. specialize (Hle w Hw). lia.
Qed.

Lemma gcd_sound1 : pivot_sound1 gcd_pivot.
Proof.
  intros rnd k s Hok Hb. destruct (getBestVar_spec s Hb) as [A B]. unfold gcd_pivot. cbv zeta.
  set (v := getBestVar s) in *. set (n := s_n s) in *. set (L := filter (fun g => 2 <=? g @ v) (s_I s)).
  assert (HL : L <> []).
  { destruct (i_lcm_attained n (s_I s) v A) as [h [H1 H2]]. { unfold slcm in B. fold n in B. lia. }
    assert (Hin : In h L). { apply filter_In. split; auto. apply Nat.leb_le. unfold slcm in B. fold n in B. lia. }
    destruct L; [destruct Hin|discriminate]. }
  destruct (gcd_select_spec L rnd k HL) as [a [Ea Ia]]. destruct (gcd_select_spec L rnd (k + 1) HL) as [b [Eb Ib]].
  destruct (gcd_select_spec L rnd (k + 2) HL) as [c [Ec Ic]]. rewrite Ea, Eb, Ec.
  apply filter_In in Ia, Ib, Ic. destruct Ia as [Ia Ha], Ib as [Ib Hb'], Ic as [Ic Hc]. apply Nat.leb_le in Ha, Hb', Hc.
  do 3 eexists. split; [reflexivity|]. split; [apply re_refl|].
  apply decrement_sdiv with a v; auto; [apply (pv_full _ Hb)| |].
  - intros w Hw. rewrite !t_gcd_nth by auto. lia.
  - fold n. rewrite !t_gcd_nth by auto. lia.
Qed.

Lemma mingen_sound1 : pivot_sound1 mingen_pivot.
Proof.
  intros rnd k s Hok Hb. unfold mingen_pivot. cbv zeta. set (n := s_n s) in *.
  destruct (gcd_select_spec (filter (fun g => negb (t_isSquareFree n g)) (s_I s)) rnd k) as [a [Ea Ia]].
  { destruct (pv_big _ Hb) as [v [Hv H2]]. fold n in Hv. unfold slcm in H2. fold n in H2.
    destruct (i_lcm_attained n (s_I s) v Hv) as [h [H1 E]]; [lia|].
    assert (Hin : In h (filter (fun g => negb (t_isSquareFree n g)) (s_I s))).
    { apply filter_In. split; auto. apply negb_true_iff, not_true_false. rewrite t_isSquareFree_iff. intros Hs. specialize (Hs v Hv). lia. }
    intros E0. rewrite E0 in Hin. destruct Hin. }
  rewrite Ea. apply filter_In in Ia. destruct Ia as [Ia Hs]. apply negb_true_iff in Hs.
  do 3 eexists. split; [reflexivity|]. split; [apply re_refl|].
  assert (Hv : exists v, v < n /\ 2 <= a @ v).
  { unfold t_isSquareFree in Hs. destruct (existsb (fun v => 2 <=? a @ v) (seq 0 n)) eqn:Ex.
    - apply existsb_seq in Ex. destruct Ex as [v [Hv E]]. apply Nat.leb_le in E. exists v; auto.
    - exfalso. apply not_true_false in Hs. apply Hs. apply forallb_forall. intros v Hv.
      rewrite (existsb_false_all _ _ Ex v Hv). auto. }
  destruct Hv as [v [Hv H2]]. apply decrement_sdiv with a v; auto; [apply (pv_full _ Hb)|apply le_n_refl].
Qed.

Lemma minimum_sound : pivot_sound0 minimum_pivot. Proof. apply pivot_sound1_0, minimum_sound1. Qed.
Lemma maximum_sound : pivot_sound0 maximum_pivot. Proof. apply pivot_sound1_0, maximum_sound1. Qed.
Lemma median_sound : pivot_sound0 median_pivot. Proof. apply pivot_sound1_0, median_sound1. Qed.
Lemma indep_sound : pivot_sound0 indep_pivot. Proof. apply pivot_sound1_0, indep_sound1. Qed.
Lemma gcd_sound : pivot_sound0 gcd_pivot. Proof. apply pivot_sound1_0, gcd_sound1. Qed.
Lemma mingen_sound : pivot_sound0 mingen_pivot. Proof. apply pivot_sound1_0, mingen_sound1. Qed.

(** ** Labels *)
Lemma SI_adjusted : forall n I, SI n I -> adjusted n I.
Proof. intros n I H v h Hv _ _. destruct (H v Hv) as [[g [A [_ B]]] _]. exists g. auto. Qed.

(** a generator with two variables *)
Lemma two_supp : forall n g, (exists v, v < n /\ 0 < g @ v) -> t_sizeOfSupport n g <> 1 ->
  exists u w, u < n /\ w < n /\ u < w /\ 0 < g @ u /\ 0 < g @ w.
Proof.
  intros n g [v [Hv Hp]] H1.
  destruct (existsb (fun w => negb (w =? v) && (0 <? g @ w)) (seq 0 n)) eqn:Ex.
  - apply existsb_seq in Ex. destruct Ex as [w [Hw E]]. apply andb_true_iff in E. destruct E as [E1 E2].
    apply negb_true_iff, Nat.eqb_neq in E1. apply Nat.ltb_lt in E2.
    destruct (Nat.lt_ge_cases v w); [exists v, w|exists w, v]; repeat split; auto; lia.
  - exfalso. apply H1. apply t_sizeOfSupport_1. exists v. split; auto. split; auto. intros w Hw Hne.
    pose proof (existsb_false_all _ _ Ex w ltac:(apply in_seq; lia)) as E. cbv beta in E.
    rewrite (proj2 (Nat.eqb_neq w v) Hne) in E. cbn [negb andb] in E. apply Nat.ltb_ge in E. lia.
Qed.

Lemma nonpure_exists : forall simp s, slice_ok s -> nonbase simp s ->
  exists h u w, In h (s_I s) /\ u < s_n s /\ w < s_n s /\ u < w /\ 0 < h @ u /\ 0 < h @ w.
Proof.
  intros simp s Hok Hb. set (n := s_n s).
  pose proof (nb_count _ _ Hb) as Hc. pose proof (nb_one _ _ Hb) as [_ [_ [H1 _]]].
  assert (Hne : forall g, In g (s_I s) -> exists v, v < n /\ 0 < g @ v).
  { intros g Hg. destruct (t_firstNonZero_spec n g) as [[A [B C]]|[A B]]; [exists (t_firstNonZero n g); auto|].
    exfalso. apply H1. exists g. split; auto. intros v Hv. fold n in Hv. rewrite B by auto. lia. }
  destruct (existsb (fun g => negb (t_sizeOfSupport n g =? 1)) (s_I s)) eqn:Ex.
  - apply existsb_exists in Ex. destruct Ex as [h [Hh E]]. apply negb_true_iff, Nat.eqb_neq in E.
    destruct (two_supp n h (Hne h Hh) E) as [u [w Huw]]. exists h, u, w. split; auto.
  - exfalso. assert (Hpure : forall g, In g (s_I s) -> t_sizeOfSupport n g = 1).
    { intros g Hg. pose proof (existsb_false_all _ _ Ex g Hg) as E. cbv beta in E. apply negb_false_iff, Nat.eqb_eq in E. auto. }
    assert (Hlen : length (map (t_firstNonZero n) (s_I s)) <= length (seq 0 n)).
    { apply NoDup_incl_length.
      - apply NoDup_map_inj; [apply (ok_minI s Hok)|]. intros x y Hx Hy E.
        destruct (proj1 (t_sizeOfSupport_1 n x) (Hpure x Hx)) as [v [Hv [Pv Zv]]].
        destruct (proj1 (t_sizeOfSupport_1 n y) (Hpure y Hy)) as [w [Hw [Pw Zw]]].
        assert (Fx : t_firstNonZero n x = v).
        { destruct (t_firstNonZero_spec n x) as [[A [B C]]|[A B]]; [|rewrite B in Pv by auto; lia].
          destruct (Nat.eq_dec (t_firstNonZero n x) v); auto. rewrite Zv in B by auto. lia. }
        assert (Fy : t_firstNonZero n y = w).
        { destruct (t_firstNonZero_spec n y) as [[A [B C]]|[A B]]; [|rewrite B in Pw by auto; lia].
          destruct (Nat.eq_dec (t_firstNonZero n y) w); auto. rewrite Zw in B by auto. lia. }
        assert (v = w) by congruence. subst w.
        destruct (Nat.le_ge_cases (x @ v) (y @ v)).
        + apply (proj2 (ok_minI s Hok)); auto. intros u Hu. destruct (Nat.eq_dec u v) as [->|N]; auto. rewrite Zv by auto. lia.
        + symmetry. apply (proj2 (ok_minI s Hok)); auto. intros u Hu. destruct (Nat.eq_dec u v) as [->|N]; auto. rewrite (Zw u Hu) by congruence. lia.
      - intros x Hx. apply in_map_iff in Hx. destruct Hx as [g [<- Hg]]. apply in_seq.
        destruct (t_firstNonZero_spec n g) as [[A _]|[A B]]; [lia|]. destruct (Hne g Hg) as [v [Hv Pv]]. rewrite B in Pv by auto. lia. }
    rewrite map_length, seq_length in Hlen. fold n in Hc. unfold ideal, term in *. lia.
Qed.

(** if the variable itself is a generator, it is the only one with that variable *)
Lemma var_only : forall n I v g, minl n I -> wf n I -> v < n -> In (var_pow n v 1) I -> In g I -> 0 < g @ v -> g = var_pow n v 1.
Proof.
  intros n I v g [_ Hm] Hw Hv Hx Hg Hp. symmetry. apply Hm; auto. intros w Hw'. rewrite var_pow_nth by auto.
  destruct (Nat.eqb_spec w v) as [->|]; lia.
Qed.

Lemma maxlabel_sound : label_sound0 maxlabel_var.
Proof.
  intros simp s Hok Hd Hb _. pose proof (nb_n _ _ Hb) as Hn. unfold maxlabel_var. set (n := s_n s) in *.
  set (sc := i_supportCounts n (s_I s)). destruct (firstMax_spec n sc ltac:(lia)) as [A B].
  eexists. split; [reflexivity|]. split; auto. set (v := t_firstMax n sc) in *. intros Hx.
  pose proof (ok_minI s Hok) as Hm. pose proof (ok_wfI s Hok) as Hw. fold n in Hm, Hw.
  assert (Hc1 : sc @ v <= 1).
  { unfold sc, i_supportCounts. rewrite tabulate_nth by auto.
    transitivity (length [var_pow n v 1]); [|simpl; lia]. apply NoDup_incl_length; [apply NoDup_filter, Hm|].
    intros g Hg. apply filter_In in Hg. destruct Hg as [G1 G2]. apply Nat.ltb_lt in G2. left. symmetry.
    apply (var_only n (s_I s)); auto. }
  destruct (nonpure_exists simp s Hok Hb) as [h [u [w [Hh [Hu [Hw' [Huw [Pu Pw]]]]]]]]. fold n in Hu, Hw'.
  assert (Honly : forall x, x < n -> 0 < h @ x -> h @ x = (i_lcm n (s_I s)) @ x).
  { intros x Hxn Px. destruct (i_lcm_attained n (s_I s) x Hxn) as [g [G1 G2]].
    { pose proof (i_lcm_ge n (s_I s) h x Hxn Hh). lia. }
    assert (B' : sc @ x <= 1) by (specialize (B x Hxn); lia). clear B. rename B' into B. assert (g = h); [|congruence].
    unfold sc, i_supportCounts in B. rewrite tabulate_nth in B by auto.
    assert (Ig : In g (filter (fun g => 0 <? g @ x) (s_I s))).
    { apply filter_In. split; auto. apply Nat.ltb_lt. pose proof (i_lcm_ge n (s_I s) h x Hxn Hh). lia. }
    assert (Ih : In h (filter (fun g => 0 <? g @ x) (s_I s))) by (apply filter_In; split; auto; apply Nat.ltb_lt; auto).
    destruct (filter (fun g => 0 <? g @ x) (s_I s)) as [|y [|z l]]; simpl in B; [destruct Ig| |lia].
    destruct Ig as [<-|[]], Ih as [<-|[]]. auto. }
  pose proof (ndl_unique n (s_I s) h u w (nb_full _ _ Hb) Hd Hh Hu Hw' (Honly u Hu Pu) (Honly w Hw' Pw)). lia.
Qed.

Lemma oneCounts_pos : forall n I v, v < n -> (0 < (i_oneCounts n I) @ v <->
  exists g, In g I /\ g @ v = 1 /\ t_sizeOfSupport n g <> 1).
Proof.
  intros n I v Hv. unfold i_oneCounts. rewrite tabulate_nth by auto. split.
  - intros H. destruct (filter (fun g => negb (t_sizeOfSupport n g =? 1) && (g @ v =? 1)) I) as [|g l] eqn:E; [simpl in H; lia|].
    assert (Hin : In g (filter (fun g => negb (t_sizeOfSupport n g =? 1) && (g @ v =? 1)) I)) by (rewrite E; left; auto).
    apply filter_In in Hin. destruct Hin as [A B]. apply andb_true_iff in B. destruct B as [B C].
    apply negb_true_iff, Nat.eqb_neq in B. apply Nat.eqb_eq in C. exists g; auto.
  - intros [g [A [B C]]].
    assert (Hin : In g (filter (fun g => negb (t_sizeOfSupport n g =? 1) && (g @ v =? 1)) I)).
    { apply filter_In; split; auto. rewrite (proj2 (Nat.eqb_neq _ _) C), (proj2 (Nat.eqb_eq _ _) B). auto. }
    destruct (filter (fun g => negb (t_sizeOfSupport n g =? 1) && (g @ v =? 1)) I); [destruct Hin|simpl; lia].
Qed.

Lemma var_pow_size : forall n v e, v < n -> 0 < e -> t_sizeOfSupport n (var_pow n v e) = 1.
Proof.
  intros n v e Hv He. apply t_sizeOfSupport_1. exists v. split; auto. split.
  - rewrite var_pow_nth, Nat.eqb_refl by auto. auto.
  - intros w Hw Hne. rewrite var_pow_nth by auto. rewrite (proj2 (Nat.eqb_neq w v) Hne). auto.
Qed.

Lemma oneCounts_label : forall s v, slice_ok s -> v < s_n s -> 0 < (i_oneCounts (s_n s) (s_I s)) @ v ->
  ~ In (var_pow (s_n s) v 1) (s_I s).
Proof.
  intros s v Hok Hv H Hx. apply oneCounts_pos in H; auto. destruct H as [g [A [B C]]]. apply C.
  rewrite (var_only (s_n s) (s_I s) v g); auto; [apply var_pow_size; auto|apply Hok|apply Hok|lia].
Qed.

Lemma adjusted_oneCounts : forall n I h u w, minl n I -> wf n I -> adjusted n I -> In h I ->
  u < n -> w < n -> u <> w -> 0 < h @ u -> 0 < h @ w -> 0 < (i_oneCounts n I) @ w.
Proof.
  intros n I h u w Hm Hwf Ha Hh Hu Hw Hne Pu Pw. destruct (Ha w h Hw Hh Pw) as [g [G1 G2]].
  apply oneCounts_pos; auto. exists g. split; auto. split; auto. intros Hs. apply t_sizeOfSupport_1 in Hs.
  destruct Hs as [v [Hv [Pv Zv]]]. assert (v = w). { destruct (Nat.eq_dec v w); auto. rewrite Zv in G2 by auto. lia. }
  subst v. assert (Hgh : g = h).
  { apply (proj2 Hm); auto. intros x Hx. destruct (Nat.eq_dec x w) as [->|N]; [lia|]. rewrite Zv by auto. lia. }
  subst g. rewrite (Zv u Hu Hne) in Pu. lia.
Qed.

Lemma varlabel_sound : label_sound0 varlabel_var.
Proof.
  intros simp s Hok Hd Hb Ha. unfold varlabel_var. cbv zeta. set (n := s_n s) in *.
  destruct (nonpure_exists simp s Hok Hb) as [h [u [w [Hh [Hu [Hw [Huw [Pu Pw]]]]]]]]. fold n in Hu, Hw.
  pose proof (adjusted_oneCounts n (s_I s) h u w (ok_minI s Hok) (ok_wfI s Hok) Ha Hh Hu Hw ltac:(lia) Pu Pw) as H1.
  destruct (find_from_spec (fun v => 0 <? (i_oneCounts n (s_I s)) @ v) n 0) as [[A [_ [B _]]]|[A B]].
  - set (v := find_from (fun v => 0 <? (i_oneCounts n (s_I s)) @ v) 0 n) in *. rewrite (proj2 (Nat.ltb_lt v n)) by lia.
    exists v. split; auto. split; [lia|]. apply Nat.ltb_lt in B. apply oneCounts_label; auto.
  - specialize (B w ltac:(lia)). cbv beta in B. apply Nat.ltb_ge in B. lia.
Qed.

Lemma minlabel_sound : label_sound0 minlabel_var.
Proof.
  intros simp s Hok Hd Hb Ha. pose proof (nb_n _ _ Hb) as Hn. unfold minlabel_var. cbv zeta. set (n := s_n s) in *.
  destruct (nonpure_exists simp s Hok Hb) as [h [u [w [Hh [Hu [Hw [Huw [Pu Pw]]]]]]]]. fold n in Hu, Hw.
  pose proof (adjusted_oneCounts n (s_I s) h u w (ok_minI s Hok) (ok_wfI s Hok) Ha Hh Hu Hw ltac:(lia) Pu Pw) as H1.
  set (one := i_oneCounts n (s_I s)) in *.
  assert (Hfold : forall l mg, (0 < mg \/ exists x, In x l /\ 0 < one @ x) ->
    let r := fold_left (fun mg v => if (mg =? 0) || ((one @ v <? mg) && (0 <? one @ v)) then one @ v else mg) l mg in
    0 < r /\ (r = mg \/ exists x, In x l /\ r = one @ x)).
  { induction l as [|x l IH]; intros mg H; cbn [fold_left]; cbv zeta.
    - destruct H as [H|[x [[] _]]]. auto.
    - set (mg' := if (mg =? 0) || ((one @ x <? mg) && (0 <? one @ x)) then one @ x else mg).
      assert (Hmg : mg' = one @ x \/ mg' = mg) by (unfold mg'; destruct (_ || _); auto).
      destruct (IH mg') as [A B].
      { unfold mg'. destruct (Nat.eqb_spec mg 0) as [->|N]; cbn [orb].
        - destruct H as [H|[y [[<-|Hy] Py]]]; [lia|left; auto|right; exists y; auto].
        - left. destruct (Nat.ltb_spec (one @ x) mg), (Nat.ltb_spec 0 (one @ x)); simpl; lia. }
      split; auto. destruct B as [B|[y [Hy B]]]; [|right; exists y; split; [right; auto|auto]].
      destruct Hmg as [Hmg|Hmg]; [right; exists x; split; [left; auto|congruence]|left; congruence]. }
  destruct (Hfold (seq 1 (n - 1)) 0) as [A B].
  { right. exists w. split; auto. apply in_seq. lia. }
  set (mg := fold_left (fun mg v => if (mg =? 0) || ((one @ v <? mg) && (0 <? one @ v)) then one @ v else mg) (seq 1 (n - 1)) 0) in *.
  destruct B as [B|[x [Hx B]]]; [lia|]. apply in_seq in Hx.
  set (co := tabulate n (fun v => if one @ v =? mg then (i_supportCounts n (s_I s)) @ v else 0)).
  destruct (firstMax_spec n co ltac:(lia)) as [C D]. eexists. split; [reflexivity|]. split; auto.
  apply oneCounts_label; auto. fold n one.
  assert (Hpos : 0 < co @ x).
  { unfold co. rewrite tabulate_nth by lia. rewrite (proj2 (Nat.eqb_eq _ _)) by auto. apply supportCounts_pos; [lia|].
    assert (Ho : 0 < one @ x) by lia. apply oneCounts_pos in Ho; [|lia]. destruct Ho as [g [G1 [G2 _]]]. exists g. split; auto. lia. }
  specialize (D x ltac:(lia)). set (v0 := t_firstMax n co) in *. clearbody v0.
  assert (D' : 0 < co @ v0) by lia. unfold co in D'. rewrite tabulate_nth in D' by auto.
  destruct (Nat.eqb_spec (one @ v0) mg) as [E|E]; lia.
Qed.
