(** States: their value, compaction and transposition. *)
From Coq Require Import List Arith Bool ZArith Lia Permutation.
Import ListNotations.
From Verif Require Import M_SqFree M_Euler Spec_Euler P_Euler1 P_Euler2.

Definition total (G : list eterm) : nat := list_sum (map e_size G).
Lemma total_perm G G' : Permutation G G' -> total G = total G'.
Proof. unfold total, list_sum. induction 1; cbn in *; lia. Qed.
Lemma total_app G H : total (G ++ H) = total G + total H.
Proof. unfold total. rewrite map_app. apply list_sum_app. Qed.
Lemma total_cons g G : total (g :: G) = e_size g + total G. Proof. reflexivity. Qed.
Lemma reduced_total G M : reduced G M -> total M <= total G.
Proof. intros [[R P] _]. rewrite (total_perm _ _ P), total_app. lia. Qed.
Lemma total_map_le f G : (forall g, In g G -> e_size (f g) <= e_size g) -> total (map f G) <= total G.
Proof.
  induction G as [|g G IH]; intros H; auto. cbn [map]. rewrite !total_cons. pose proof (H g (or_introl eq_refl)).
  assert (total (map f G) <= total G); [apply IH; intros; apply H; now right|lia].
Qed.
Lemma total_filter f G : total (filter f G) <= total G.
Proof. induction G as [|g G IH]; auto. cbn [filter]. destruct (f g); rewrite ?total_cons; lia. Qed.

Lemma invert_length t : length (e_invert t) = length t. Proof. apply map_length. Qed.
Lemma get_invert t v : v < length t -> e_get (e_invert t) v = negb (e_get t v).
Proof. intros H. unfold e_get, e_invert. rewrite nth_indep with (d' := negb false) by now rewrite map_length. apply map_nth. Qed.
Lemma get_invert_true t v : e_get (e_invert t) v = true <-> v < length t /\ e_get t v = false.
Proof.
  split.
  - intros H. pose proof (get_lt _ _ H) as L. rewrite invert_length in L. split; auto. rewrite get_invert in H by auto. now apply negb_true_iff.
  - intros [L H]. rewrite get_invert, H by auto. auto.
Qed.
Lemma size_invert t : e_size (e_invert t) = length t - e_size t.
Proof.
  induction t as [|x t IH]; auto. cbn [e_invert map]. rewrite !size_cons. fold (e_invert t). rewrite IH.
  pose proof (size_le t). cbn [length]. destruct x; cbn [negb]; lia.
Qed.
Lemma invert_one n : e_invert (e_one n) = e_all n.
Proof. unfold e_invert, e_one, e_all. induction n; cbn; auto. now rewrite IHn. Qed.
Lemma size_one n : e_size (e_one n) = 0.
Proof. apply size_zero. intros. apply get_one. Qed.

Definition disjoint_elim (elim : eterm) (G : list eterm) : Prop := forall g u, In g G -> e_get g u = true -> e_get elim u = false.
Record st_ok (s : estate) : Prop := {
  ok_elim : length (es_elim s) = es_n s;
  ok_lens : lens (es_n s) (es_gens s);
  ok_anti : antichain (es_gens s);
  ok_disj : disjoint_elim (es_elim s) (es_gens s) }.
Definition tgt (s : estate) : eterm := e_invert (es_elim s).
Definition val (s : estate) : Z := (es_sign s * E (es_gens s) (tgt s))%Z.
Definition live (s : estate) : Prop := exists v, e_get (tgt s) v = true.
Lemma live_iff s : st_ok s -> (live s <-> 0 < es_nonElim s).
Proof.
  intros K. unfold live, es_nonElim. rewrite <- (ok_elim s K). rewrite <- size_invert. fold (tgt s). split.
  - intros [v V]. destruct (e_size (tgt s)) eqn:Z; [|lia]. rewrite size_zero in Z. rewrite Z in V. discriminate.
  - intros P. destruct (existsb (e_get (tgt s)) (seq 0 (length (tgt s)))) eqn:X.
    + apply existsb_exists in X as [v [_ V]]. eauto.
    + exfalso. assert (e_size (tgt s) = 0); [|lia]. apply size_zero. intros v.
      destruct (e_get (tgt s) v) eqn:V; auto. rewrite <- X. symmetry. apply existsb_exists. exists v. split; auto.
      apply in_seq. apply get_lt in V. lia.
Qed.

(** ** Compaction *)
Lemma keep_length e : forall a b, length a = length e -> length b = length e -> length (e_keep e a) = length (e_keep e b).
Proof.
  induction e as [|x e IH]; intros [|y a] [|z b] A B; cbn in *; try lia.
  destruct x; [apply IH; lia|cbn; f_equal; apply IH; lia].
Qed.
Lemma keep_colon e : forall v g, length v = length e -> length g = length e ->
  e_keep e (e_colon v g) = e_colon (e_keep e v) (e_keep e g).
Proof.
  induction e as [|x e IH]; intros [|y v] [|z g] A B; cbn in *; try lia; auto.
  unfold e_colon in *. destruct x; cbn; rewrite IH by lia; auto.
Qed.
Lemma keep_size e : forall v, length v = length e -> (forall u, e_get v u = true -> e_get e u = false) -> e_size (e_keep e v) = e_size v.
Proof.
  induction e as [|x e IH]; intros [|y v] A H; cbn [length] in A; try lia; auto. cbn [e_keep].
  assert (H' : forall u, e_get v u = true -> e_get e u = false) by (intros u; apply (H (S u))).
  destruct x.
  - destruct y; [specialize (H 0 eq_refl); discriminate|]. rewrite size_cons, IH by (auto; lia). auto.
  - rewrite !size_cons, IH by (auto; lia). auto.
Qed.
Lemma keep_invert e : e_keep e (e_invert e) = e_all (length e - e_size e).
Proof.
  induction e as [|x e IH]; auto. cbn [e_invert map e_keep]. fold (e_invert e). rewrite IH, size_cons. pose proof (size_le e).
  cbn [length]. destruct x; cbn [negb Nat.add]; auto. rewrite Nat.sub_succ_l by lia. reflexivity.
Qed.
Lemma keep_divides e : forall a b, length a = length e -> length b = length e -> (forall u, e_get a u = true -> e_get e u = false) ->
  e_divides (e_keep e a) (e_keep e b) = e_divides a b.
Proof.
  induction e as [|x e IH]; intros [|y a] [|z b] A B H; cbn in *; try lia; auto.
  assert (H' : forall u, e_get a u = true -> e_get e u = false) by (intros u; apply (H (S u))).
  unfold e_divides in *. destruct x; cbn; rewrite IH by (auto; lia); auto.
  destruct y; auto. specialize (H 0 eq_refl). discriminate.
Qed.
Lemma E_keep e G : forall v, (forall g, In g G -> length g = length e) -> length v = length e ->
  (forall u, e_get v u = true -> e_get e u = false) -> E (map (e_keep e) G) (e_keep e v) = E G v.
Proof.
  induction G as [|g G IH]; intros v L Lv H; cbn [map].
  - rewrite !E_nil, keep_size; auto.
  - assert (Lg : length g = length e) by (apply L; now left).
    rewrite !E_cons by (try apply keep_length; lia).
    rewrite IH by (auto; intros; apply L; now right). rewrite <- keep_colon by auto.
    rewrite IH; auto; try (intros; apply L; now right).
    + rewrite colon_length; lia.
    + intros u U. rewrite get_colon in U by lia. apply andb_true_iff in U. now apply H.
Qed.
Lemma compact_spec w s : st_ok s -> live s -> exists s', es_compact w s = Some s' /\ st_ok s' /\ live s' /\ val s' = val s /\
  es_weight s' = es_weight s /\ es_n s' <= es_n s /\ length (es_gens s') = length (es_gens s).
Proof.
  intros K V. unfold es_compact. destruct (getWordCount w (es_nonElim s) <? getWordCount w (es_n s)).
  2: { exists s. repeat split; auto; apply K. }
  pose proof (proj1 (live_iff s K) V) as NE. destruct (Nat.eqb_spec (es_nonElim s) 0); [lia|].
  eexists. split; [reflexivity|]. destruct K as [Le Ll Ka Kd]. set (m := es_nonElim s) in *.
  assert (Hm : m = length (es_elim s) - e_size (es_elim s)) by (unfold m, es_nonElim; lia).
  assert (Lk : forall t, length t = length (es_elim s) -> length (e_keep (es_elim s) t) = m).
  { intros t Lt. rewrite (keep_length _ t (e_invert (es_elim s))) by (rewrite ?invert_length; auto).
    rewrite keep_invert, all_length. lia. }
  assert (Ll' : lens m (e_compact (es_elim s) (es_gens s))).
  { intros g I. apply in_map_iff in I as [x [<- I]]. apply Lk. rewrite Le. now apply Ll. }
  assert (K' : st_ok (ES m (e_compact (es_elim s) (es_gens s)) (e_one m) (es_sign s))).
  { split; cbn; auto.
    - apply one_length.
    - clear - Ka Kd Ll Le. unfold e_compact. induction (es_gens s) as [|g G IH]; [constructor|].
      apply lens_cons in Ll as [Lg Ll]. apply antichain_cons in Ka as [A B]. cbn [map]. apply antichain_cons. split.
      + intros h I. apply in_map_iff in I as [x [<- I]]. destruct (A x I) as [C D].
        split; rewrite keep_divides; auto; try lia; try (rewrite Ll; auto).
        * intros u. apply Kd. now left.
        * intros u. apply Kd. now right.
      + apply IH; auto. intros h u I. apply Kd. now right.
    - intros g u _ _. apply get_one. }
  split; [exact K'|]. split; [|split; [|split; [|split; [cbn; unfold m, es_nonElim; lia|cbn; apply map_length]]]].
  - apply live_iff; auto. unfold es_nonElim. cbn [es_n es_elim]. rewrite size_one. lia.
  - unfold val, tgt. cbn [es_sign es_gens es_elim]. f_equal. rewrite invert_one, Hm, <- keep_invert. apply E_keep.
    + intros. rewrite Le. now apply Ll.
    + apply invert_length.
    + intros u U. now apply get_invert_true in U.
  - unfold es_weight, es_nonElim at 1. cbn [es_n es_elim es_gens]. rewrite size_one, Nat.sub_0_r. fold m. f_equal; [f_equal|].
    + apply map_length.
    + unfold e_compact. rewrite map_map. f_equal. apply map_ext_in. intros g I. apply keep_size; [rewrite Le; now apply Ll|].
      intros u. now apply Kd.
Qed.

(** ** Transposition *)
Fixpoint sel (R : eterm) (G : list eterm) : list eterm :=
  match R, G with r :: R', g :: G' => if r then g :: sel R' G' else sel R' G' | _, _ => [] end.
Definition col (G : list eterm) (v : nat) : eterm := map (fun g => e_get g v) G.
Definition mask (n : nat) (vars : list nat) : eterm := map (fun u => existsb (Nat.eqb u) vars) (seq 0 n).
Lemma mask_length n l : length (mask n l) = n. Proof. unfold mask. now rewrite map_length, seq_length. Qed.
Lemma get_mask n l u : u < n -> e_get (mask n l) u = existsb (Nat.eqb u) l.
Proof.
  intros H. unfold e_get, mask. rewrite nth_indep with (d' := existsb (Nat.eqb 0) l) by now rewrite map_length, seq_length.
  rewrite (map_nth (fun u => existsb (Nat.eqb u) l)). now rewrite seq_nth.
Qed.
Lemma E_empty_target G v : (forall g, In g G -> length g = length v) -> e_size v = 0 -> E G v = match G with [] => 1%Z | _ => 0%Z end.
Proof.
  destruct G as [|g G]; intros L Z; [rewrite E_nil, Z; auto|]. assert (Lg : length g = length v) by (apply L; now left).
  rewrite E_cons by auto. replace (e_colon v g) with v; [lia|].
  rewrite size_zero in Z. apply get_ext; [symmetry; now apply colon_length|]. intros u _. rewrite get_colon, Z by auto. auto.
Qed.
Lemma sel_length R : forall G, length R = length G -> length (sel R G) = e_size R.
Proof.
  induction R as [|r R IH]; intros [|g G] L; cbn in L; try lia; auto. rewrite size_cons. cbn. destruct r; cbn; rewrite IH; lia.
Qed.
Lemma sel_in R : forall G g, In g (sel R G) -> In g G.
Proof. induction R as [|r R IH]; intros [|h G] g I; cbn in *; try contradiction. destruct r; [destruct I as [<-|I]|]; auto. Qed.
Lemma sel_filter x R : forall G, length R = length G ->
  filter (fun g => negb (e_get g x)) (sel R G) = sel (e_colon R (col G x)) G.
Proof.
  induction R as [|r R IH]; intros [|g G] L; cbn in L; try lia; auto. unfold e_colon in *. cbn.
  destruct r; cbn; [|apply IH; lia]. destruct (e_get g x); cbn; rewrite IH by lia; auto.
Qed.
Lemma sel_all G : sel (e_all (length G)) G = G.
Proof. induction G; cbn; auto. unfold e_all in IHG. now rewrite IHG. Qed.
Lemma E_cols n G vars : lens n G -> NoDup vars -> (forall v, In v vars -> v < n) -> forall R, length R = length G ->
  E (map (col G) vars) R = E (sel R G) (mask n vars).
Proof.
  intros L. induction vars as [|x vars IH]; intros N B R LR.
  - cbn [map]. rewrite E_nil. rewrite E_empty_target.
    + pose proof (sel_length R G LR) as S. destruct (sel R G), (e_size R); cbn in S; auto; discriminate.
    + intros g I. rewrite mask_length. apply L. eapply sel_in; eauto.
    + apply size_zero. intros u. destruct (Nat.lt_ge_cases u n); [now rewrite get_mask|]. apply get_out. now rewrite mask_length.
  - apply NoDup_cons_iff in N as [Nx N]. assert (Bx : x < n) by (apply B; now left).
    assert (B' : forall v, In v vars -> v < n) by (intros; apply B; now right).
    cbn [map]. rewrite E_cons by (unfold col; rewrite map_length; auto).
    rewrite (E_var (sel R G) x).
    2: { intros g I. rewrite mask_length. apply L. eapply sel_in; eauto. }
    2: { rewrite get_mask by auto. cbn. now rewrite Nat.eqb_refl. }
    replace (e_set (mask n (x :: vars)) x false) with (mask n vars).
    2: { apply get_ext; [now rewrite set_length, !mask_length|]. intros u U. rewrite mask_length in U.
         rewrite get_set_false, !get_mask by auto. cbn. destruct (Nat.eqb_spec u x); auto. subst u.
         destruct (existsb (Nat.eqb x) vars) eqn:X; auto. apply existsb_exists in X as [y [Iy Ey]].
         apply Nat.eqb_eq in Ey. subst. contradiction. }
    rewrite sel_filter by auto. rewrite IH, IH; auto.
    rewrite colon_length; auto. unfold col. now rewrite map_length.
Qed.
Definition left_vars (e : eterm) : list nat := filter (fun v => negb (e_get e v)) (seq 0 (length e)).
Lemma left_mask e : mask (length e) (left_vars e) = e_invert e.
Proof.
  apply get_ext; [now rewrite mask_length, invert_length|]. intros u U. rewrite mask_length in U. rewrite get_mask, get_invert by auto.
  apply eq_true_iff_eq. rewrite existsb_exists. unfold left_vars. split.
  - intros [y [I Q]]. apply Nat.eqb_eq in Q. subst y. apply filter_In in I. tauto.
  - intros H. exists u. split; [apply filter_In; split; auto; apply in_seq; lia|apply Nat.eqb_refl].
Qed.
Lemma left_length e : length (left_vars e) = length e - e_size e.
Proof.
  unfold left_vars. rewrite <- (size_invert e). unfold e_size, e_invert.
  assert (Q : forall l k, length (filter (fun v => negb (nth (v - k) l false)) (seq k (length l))) = length (filter (fun x => x) (map negb l))).
  { induction l as [|x l IH]; intros k; auto. cbn [length seq filter map]. rewrite Nat.sub_diag. change (nth 0 (x :: l) false) with x.
    assert (R : filter (fun v => negb (nth (v - k) (x :: l) false)) (seq (S k) (length l)) =
                filter (fun v => negb (nth (v - S k) l false)) (seq (S k) (length l))).
    { apply filter_ext_in. intros v I. apply in_seq in I. replace (v - k) with (S (v - S k)) by lia. reflexivity. }
    rewrite R. specialize (IH (S k)). destruct (negb x); cbn [length]; now rewrite IH. }
  rewrite <- (Q e 0). f_equal. apply filter_ext. intros v. now rewrite Nat.sub_0_r.
Qed.
Lemma transpose_cols e G : e_transpose e G = map (col G) (left_vars e). Proof. reflexivity. Qed.
Lemma total_cols n G vars : lens n G -> NoDup vars -> total (map (col G) vars) <= total G.
Proof.
  intros L N.
  assert (Q : forall (g : eterm) vs, NoDup vs -> length (filter (fun b => b) (map (fun v => e_get g v) vs)) <= e_size g).
  { intros g vs Nv. unfold e_size.
    assert (E1 : length (filter (fun b : bool => b) (map (fun v => e_get g v) vs)) = length (filter (e_get g) vs)).
    { clear. induction vs as [|v vs IH]; auto. cbn. destruct (e_get g v); cbn; now rewrite IH. }
    rewrite E1.
    assert (E2 : length (filter (fun b : bool => b) g) = length (filter (e_get g) (seq 0 (length g)))).
    { clear. assert (Q : forall k, length (filter (fun b : bool => b) g) = length (filter (fun v => e_get g (v - k)) (seq k (length g)))).
      { induction g as [|x g IH]; intros k; auto. cbn [length seq filter]. rewrite Nat.sub_diag. change (e_get (x :: g) 0) with x.
        assert (R : filter (fun v => e_get (x :: g) (v - k)) (seq (S k) (length g)) = filter (fun v => e_get g (v - S k)) (seq (S k) (length g))).
        { apply filter_ext_in. intros v I. apply in_seq in I. replace (v - k) with (S (v - S k)) by lia. reflexivity. }
        rewrite R. specialize (IH (S k)). destruct x; cbn [length]; now rewrite IH. }
      rewrite (Q 0). f_equal. apply filter_ext. intros v. now rewrite Nat.sub_0_r. }
    rewrite E2. apply NoDup_incl_length; [now apply NoDup_filter|]. intros v I. apply filter_In in I as [_ I].
    apply filter_In. split; auto. apply in_seq. apply get_lt in I. lia. }
  clear L. induction G as [|g G IH].
  - assert (Z : total (map (col []) vars) = 0); [|lia]. clear. induction vars; auto.
  - rewrite total_cons. specialize (Q g vars N).
    assert (S : total (map (col (g :: G)) vars) = length (filter (fun b => b) (map (fun v => e_get g v) vars)) + total (map (col G) vars)).
    { clear. induction vars as [|v vars IH]; auto. cbn [map]. rewrite !total_cons, IH. unfold col at 1. cbn [map]. rewrite size_cons.
      fold (col G v). cbn [filter]. destruct (e_get g v); cbn [length]; lia. }
    rewrite S. lia.
Qed.
Lemma transpose_spec s : st_ok s -> es_gens s <> [] -> exists s', es_transpose s = Some s' /\ st_ok s' /\ live s' /\ val s' = val s /\
  es_weight s' <= es_weight s /\ es_n s' = length (es_gens s) /\ length (es_gens s') <= es_nonElim s.
Proof.
  intros [Le Ll Ka Kd] NE. unfold es_transpose. destruct (es_gens s) as [|g0 G0] eqn:EG; [contradiction|].
  rewrite <- EG in *. eexists. split; [reflexivity|]. set (m := length (es_gens s)) in *.
  set (T := e_transpose (es_elim s) (es_gens s)).
  assert (LT : lens m T).
  { intros g I. unfold T in I. rewrite transpose_cols in I. apply in_map_iff in I as [v [<- _]]. apply map_length. }
  pose proof (minimize_spec m T LT) as Rd. fold (reduced T (e_minimize T)) in Rd.
  assert (NDv : NoDup (left_vars (es_elim s))) by apply NoDup_filter, seq_NoDup.
  assert (m > 0) by (unfold m; rewrite EG; cbn; lia).
  assert (K' : st_ok (ES m (e_minimize T) (e_one m) (es_sign s))).
  { split; cbn.
    - apply one_length.
    - exact (reduced_lens _ _ _ Rd LT).
    - apply Rd.
    - intros g u _ _. apply get_one. }
  pose proof (reduced_le _ _ Rd) as Le'. unfold T in Le'. rewrite transpose_cols, map_length, left_length, Le in Le'. fold (es_nonElim s) in Le'.
  split; [exact K'|]. split; [|split; [|split; [|split]]]; auto.
  - apply live_iff; auto. unfold es_nonElim. cbn [es_n es_elim]. rewrite size_one. lia.
  - unfold val, tgt. cbn [es_sign es_gens es_elim]. f_equal.
    rewrite <- (reduced_E m T _ _ LT) by (auto; now rewrite invert_length, one_length).
    unfold T. rewrite transpose_cols, invert_one, (E_cols (es_n s)); auto.
    + unfold m. rewrite sel_all. f_equal. rewrite <- Le. apply left_mask.
    + intros v I. apply filter_In in I as [I _]. apply in_seq in I. lia.
    + apply all_length.
  - unfold es_weight. unfold es_nonElim at 1. cbn [es_n es_elim es_gens]. rewrite size_one, Nat.sub_0_r. fold (total (e_minimize T)) (total (es_gens s)).
    pose proof (reduced_total _ _ Rd). pose proof (total_cols (es_n s) (es_gens s) (left_vars (es_elim s)) Ll NDv).
    unfold T in *. rewrite transpose_cols in *. lia.
Qed.
