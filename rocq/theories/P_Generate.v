(** Proofs about generated ideals: lists, trees, chess. *)
From Coq Require Import String Ascii.
From Coq Require Import List Arith Bool ZArith Lia Permutation Sorted.
Import ListNotations.
From Verif Require Import M_Term M_Ideal M_Names M_IO M_Generate P_Term P_Msm3 P_Poly.
From Verif Require Import Spec Spec_Api Spec_Cli Spec_Generate.
Local Open Scope list_scope.
Local Open Scope nat_scope.
Local Notation length := List.length.

(** ** Generators that do not divide each other *)
Lemma divs_refl' a : divs a a. Proof. unfold divs. induction a; constructor; auto. Qed.
Lemma g_minimal n gens : in_ring n gens -> NoDup gens -> no_divisors gens -> lists_minimal_generators n gens gens.
Proof.
  intros R N D. split; auto. intros g. split.
  - intros H. split; [unfold in_ring in R; rewrite Forall_forall in R; auto|]. split; [exists g; split; auto using divs_refl'|].
    intros h (g' & G' & D') Dh. assert (g' = g) by (apply D; auto; unfold divs in *; clear - D' Dh; revert h g D' Dh; induction g'; intros h g D' Dh; inversion D'; subst; inversion Dh; subst; constructor; [lia|eauto]).
    subst. assert (L1 := divs_length _ _ D'). assert (L2 := divs_length _ _ Dh). apply term_ext with (length g); auto.
    intros v Hv. apply (divs_iff (length g)) in D', Dh; auto. specialize (D' v Hv). specialize (Dh v Hv). lia.
  - intros (L & (g' & G' & D') & M). rewrite <- (M g'); auto. exists g'; split; auto using divs_refl'.
Qed.
Lemma divs_nth a b v : divs a b -> nth v a 0 <= nth v b 0.
Proof. intros D. revert v. induction D; intros [|v]; cbn; auto. Qed.
Lemma g_ring_exactly n P gens : exactly P gens -> (forall m, P m -> length m = n) -> in_ring n gens.
Proof. intros [_ E] H. unfold in_ring. rewrite Forall_forall. intros m Hm. apply H, E, Hm. Qed.
Lemma big_znat J : big J = map znat J. Proof. reflexivity. Qed.
Lemma names_x n : defaultNames n = x_names n. Proof. reflexivity. Qed.

(** ** Products *)
Lemma product_ext n P m m' : (forall v, {P v} + {~ P v}) -> product_over n P m -> product_over n P m' -> m = m'.
Proof.
  intros dec [L1 H1] [L2 H2]. apply term_ext with n; auto. intros v Hv. destruct (H1 v Hv) as [A1 B1], (H2 v Hv) as [A2 B2].
  destruct (dec v); [rewrite A1, A2|rewrite B1, B2]; auto.
Qed.
(** a product of two variables *)
Definition pair_term (n v w : nat) : mono := t_set n (t_set n (t_identity n) v 1) w 1.
Lemma pair_nth n v w u : u < n -> nth u (pair_term n v w) 0 = if (u =? v) || (u =? w) then 1 else 0.
Proof.
  intros H. unfold pair_term. rewrite t_set_nth by auto. destruct (u =? w) eqn:E; [now rewrite orb_true_r|]. rewrite t_set_nth by auto. rewrite t_identity_nth. now rewrite orb_false_r.
Qed.
Lemma pair_length n v w : length (pair_term n v w) = n. Proof. apply t_set_length. Qed.
Lemma pair_product n v w : product_over n (fun u => u = v \/ u = w) (pair_term n v w).
Proof.
  split; [apply pair_length|]. intros u Hu. rewrite pair_nth by auto. destruct (Nat.eqb_spec u v), (Nat.eqb_spec u w); cbn; split; intros; auto; tauto.
Qed.
Lemma pair_iff n v w m : product_over n (fun u => u = v \/ u = w) m <-> m = pair_term n v w.
Proof.
  split; [|intros ->; apply pair_product]. intros H. eapply product_ext; [|exact H|apply pair_product].
  intros u. destruct (Nat.eq_dec u v), (Nat.eq_dec u w); tauto.
Qed.
Lemma pair_divs n v w v' w' : v < n -> w < n -> v' < n -> w' < n -> v <> w -> v' <> w' -> divs (pair_term n v w) (pair_term n v' w') ->
  (v = v' /\ w = w') \/ (v = w' /\ w = v').
Proof.
  intros A B C D N N' H. pose proof (divs_nth _ _ v H) as H1. pose proof (divs_nth _ _ w H) as H2. rewrite !pair_nth in * by auto.
  rewrite Nat.eqb_refl in H1. cbn in H1. rewrite (Nat.eqb_refl w), orb_true_r in H2.
  destruct (Nat.eqb_spec v v'), (Nat.eqb_spec v w'), (Nat.eqb_spec w v'), (Nat.eqb_spec w w'); cbn in *; try lia.
Qed.
Lemma pair_swap n v w : pair_term n v w = pair_term n w v.
Proof. apply term_ext with n; try apply pair_length. intros u Hu. rewrite !pair_nth by auto. now rewrite orb_comm. Qed.

(** ** Lists *)
Lemma p_list n : exists gens, generateLinkedListIdeal n = (x_names n, map znat gens) /\ length gens = n - 1 /\
  (forall i, S i < n -> product_over n (fun v => v = i \/ v = S i) (nth i gens [])) /\ lists_minimal_generators n gens gens.
Proof.
  set (f := fun var => pair_term n var (var - 1)). set (gens := map f (seq 1 (n - 1))). exists gens.
  assert (L : length gens = n - 1) by (unfold gens; now rewrite map_length, seq_length).
  assert (E : forall i, S i < n -> nth i gens [] = pair_term n i (S i)).
  { intros i H. rewrite (nth_indep gens [] (f 0)) by lia. unfold gens. rewrite map_nth, seq_nth by lia. unfold f. cbn [Nat.add]. rewrite pair_swap. f_equal; lia. }
  assert (R : in_ring n gens). { unfold in_ring. rewrite Forall_forall. intros m H. apply in_map_iff in H. destruct H as (x & <- & _). apply pair_length. }
  assert (D : forall i j, S i < n -> S j < n -> divs (nth i gens []) (nth j gens []) -> i = j).
  { intros i j Hi Hj H. rewrite !E in H by auto. apply pair_divs in H; lia. }
  split; [reflexivity|]. split; auto. split.
  - intros i H. rewrite E by auto. apply pair_product.
  - apply g_minimal; auto.
    + rewrite (NoDup_nth gens []). intros i j Hi Hj H. apply D; try lia. rewrite H. apply divs_refl'.
    + intros a b Ha Hb H. apply In_nth with (d := []) in Ha, Hb. destruct Ha as (i & Hi & Ei), Hb as (j & Hj & Ej). subst a b. rewrite (D i j); auto; lia.
Qed.

(** ** Trees *)
Definition tree_mono (n : nat) (p : list bool) : mono := map (fun b : bool => if b then n - length (filter (fun b => b) p) + 1 else 0) p.
Lemma tree_term_mono n p : tree_term n p = znat (tree_mono n p).
Proof. unfold tree_term, tree_mono, znat. rewrite map_map. apply map_ext. intros [|]; reflexivity. Qed.
Fixpoint bits (p : list bool) : nat := match p with [] => 0 | b :: p' => (if b then 1 else 0) + 2 * bits p' end.
Lemma next_spec p : match nextBitPattern p with
  | Some q => length q = length p /\ bits q = S (bits p)
  | None => S (bits p) = 2 ^ length p
  end.
Proof.
  induction p as [|[|] p IH]; cbn; auto. destruct (nextBitPattern p); cbn; [lia|lia].
Qed.
Lemma bits_bound p : bits p < 2 ^ length p.
Proof. induction p as [|[|] p IH]; cbn; lia. Qed.
Lemma bits_inj p : forall q, length p = length q -> bits p = bits q -> p = q.
Proof.
  induction p as [|b p IH]; intros [|c q]; cbn; intros L E; try discriminate; auto. destruct b, c; try lia; f_equal; apply IH; lia.
Qed.
Lemma bits_zero n : bits (repeat false n) = 0. Proof. induction n; cbn; lia. Qed.
(** the loop goes through all patterns with a greater number *)
Lemma tree_run n : forall k p terms, length p = n -> 2 ^ n = S (bits p) + k ->
  exists ps, (forall fuel, k < fuel -> tree_loop fuel n p terms = Ok (terms ++ map (tree_term n) ps)) /\ NoDup ps /\
    forall q, In q ps <-> length q = n /\ bits p < bits q.
Proof.
  induction k as [|k IH]; intros p terms L B.
  - exists []. pose proof (next_spec p) as N. rewrite L in N. destruct (nextBitPattern p) as [q|] eqn:E.
    + destruct N as [N1 N2]. pose proof (bits_bound q). rewrite N1 in H. lia.
    + split; [intros [|fuel] F; [lia|]; cbn; rewrite E, app_nil_r; auto|]. split; [constructor|]. intros q. split; [intros []|].
      intros [Lq Bq]. pose proof (bits_bound q). rewrite Lq in H. lia.
  - pose proof (next_spec p) as N. rewrite L in N. destruct (nextBitPattern p) as [q|] eqn:E; [|lia]. destruct N as [N1 N2].
    destruct (IH q (terms ++ [tree_term n q]) ltac:(lia) ltac:(lia)) as (ps & R & ND & I).
    exists (q :: ps). split; [|split].
    + intros [|fuel] F; [lia|]. cbn. rewrite E, R by lia. now rewrite <- app_assoc.
    + constructor; auto. intros H. apply I in H. lia.
    + intros r. cbn. rewrite I. split.
      * intros [<- | [H1 H2]]; [split; [lia|lia]|split; [auto|lia]].
      * intros [H1 H2]. destruct (Nat.eq_dec (bits q) (bits r)) as [Eq|Ne]; [left; apply bits_inj; auto; lia|right; split; auto; lia].
Qed.
Definition setbits (p : list bool) : list nat := filter (fun v => nth v p false) (seq 0 (length p)).
Lemma setbits_in p v : In v (setbits p) <-> nth v p false = true.
Proof.
  unfold setbits. rewrite filter_In, in_seq. split; [intros [_ H]; auto|]. intros H. split; auto.
  destruct (Nat.lt_ge_cases v (length p)); [lia|]. rewrite nth_overflow in H by auto. discriminate.
Qed.
Lemma setbits_length p : length (setbits p) = length (filter (fun b => b) p).
Proof.
  unfold setbits. induction p as [|b p IH]; auto. cbn [length seq filter nth]. rewrite <- seq_shift.
  assert (E : forall l, length (filter (fun v => nth v (b :: p) false) (map S l)) = length (filter (fun v => nth v p false) l)).
  { induction l as [|x l IHl]; auto. cbn [map filter]. cbn [nth]. destruct (nth x p false); cbn [length]; auto. }
  destruct b; cbn [length]; rewrite E, IH; auto.
Qed.
Lemma tree_nth n p v : nth v (tree_mono n p) 0 = if nth v p false then n - length (setbits p) + 1 else 0.
Proof.
  rewrite setbits_length. unfold tree_mono. generalize (n - length (filter (fun b => b) p) + 1). intros e. revert v. induction p as [|b p IH]; intros [|v]; cbn; auto; destruct b; auto.
Qed.
Lemma tree_length n p : length (tree_mono n p) = length p. Proof. apply map_length. Qed.
Lemma tree_inj n p q : length p = length q -> tree_mono n p = tree_mono n q -> p = q.
Proof.
  intros L E. apply nth_ext with (d := false) (d' := false); auto. intros v _. assert (H := f_equal (fun m => nth v m 0) E). cbn beta in H. rewrite !tree_nth in H.
  destruct (nth v p false), (nth v q false); auto; lia.
Qed.
Lemma setbits_all p F : (forall v, v < length p -> (nth v p false = true <-> In v F)) -> NoDup F -> (forall v, In v F -> v < length p) -> length (setbits p) = length F.
Proof.
  intros H N B. apply Permutation_length, NoDup_Permutation; auto.
  - apply NoDup_filter, seq_NoDup.
  - intros v. rewrite setbits_in. split; intros A; [|apply H; auto]. apply H; auto.
    destruct (Nat.lt_ge_cases v (length p)); auto. rewrite nth_overflow in A by auto. discriminate.
Qed.
Lemma tree_is n m : tree_generator n m <-> exists p, length p = n /\ 0 < bits p /\ m = tree_mono n p.
Proof.
  assert (Z : forall p, bits p = 0 <-> setbits p = []).
  { intros p. split.
    - intros H. destruct (setbits p) as [|v l] eqn:E; auto. exfalso. assert (In v (setbits p)) by (rewrite E; cbn; auto). apply setbits_in in H0.
      clear E. revert v H H0. induction p as [|b p IH]; intros [|v] H H0; cbn in *; try discriminate; destruct b; try lia; try discriminate. apply (IH v); auto; lia.
    - intros H. assert (A : forall v, nth v p false = false). { intros v. destruct (nth v p false) eqn:E; auto. apply setbits_in in E. rewrite H in E. destruct E. }
      clear H. induction p as [|b p IH]; auto. cbn. rewrite IH; [|intros v; apply (A (S v))]. specialize (A 0). cbn in A. subst. auto. }
  split.
  - intros (L & F & NE & N & B & H). set (p := map (fun v => if in_dec Nat.eq_dec v F then true else false) (seq 0 n)).
    assert (Lp : length p = n) by (unfold p; now rewrite map_length, seq_length).
    assert (P : forall v, v < n -> nth v p false = if in_dec Nat.eq_dec v F then true else false).
    { intros v Hv. rewrite (nth_indep p false (if in_dec Nat.eq_dec 0 F then true else false)) by lia. unfold p.
      rewrite (map_nth (fun v => if in_dec Nat.eq_dec v F then true else false)), seq_nth by auto. reflexivity. }
    assert (S : length (setbits p) = length F).
    { apply setbits_all; auto; [|now rewrite Lp]. intros v Hv. rewrite P by lia. destruct (in_dec Nat.eq_dec v F); split; auto; intros; try discriminate; tauto. }
    exists p. split; auto. split.
    + destruct (bits p) eqn:E; [|lia]. apply Z in E. rewrite E in S. destruct F; [tauto|discriminate].
    + apply term_ext with n; auto; [now rewrite tree_length|]. intros v Hv. rewrite tree_nth, P, S by auto. destruct (H v Hv) as [H1 H2]. destruct (in_dec Nat.eq_dec v F); auto.
  - intros (p & L & B & ->). split; [now rewrite tree_length|]. exists (setbits p). split; [intros E; apply Z in E; lia|]. split; [apply NoDup_filter, seq_NoDup|]. split.
    + intros v Hv. apply filter_In in Hv. rewrite in_seq in Hv. lia.
    + intros v Hv. rewrite tree_nth, setbits_in. destruct (nth v p false); split; intros; auto; try discriminate; tauto.
Qed.
Lemma tree_no_divisors n m m' : tree_generator n m -> tree_generator n m' -> divs m m' -> m = m'.
Proof.
  intros (L & F & NE & N & B & H) (L' & F' & NE' & N' & B' & H') D.
  assert (I : incl F F').
  { intros v Hv. pose proof (divs_nth _ _ v D) as E. destruct (H v (B v Hv)) as [H1 _]. rewrite H1 in E by auto.
    destruct (in_dec Nat.eq_dec v F'); auto. destruct (H' v (B v Hv)) as [_ H2]. rewrite H2 in E by auto. lia. }
  assert (Q : length F <= length F') by (apply NoDup_incl_length; auto).
  assert (B2 : length F' <= n). { rewrite <- (seq_length n 0). apply NoDup_incl_length; auto. intros v Hv. apply in_seq. specialize (B' v Hv). lia. }
  assert (E : length F = length F').
  { destruct F as [|v F]; [tauto|]. pose proof (divs_nth _ _ v D) as E. destruct (H v (B v (or_introl eq_refl))) as [H1 _]. rewrite H1 in E by (cbn; auto).
    destruct (H' v (B v (or_introl eq_refl))) as [H2 _]. rewrite H2 in E by (apply I; cbn; auto). lia. }
  assert (I' : incl F' F) by (apply NoDup_length_incl; auto; lia).
  apply term_ext with n; auto. intros v Hv. destruct (H v Hv) as [A1 A2], (H' v Hv) as [C1 C2]. rewrite <- E in C1.
  destruct (in_dec Nat.eq_dec v F) as [Y|Y]; [rewrite A1, C1; auto|]. rewrite A2, C2; auto.
Qed.
Lemma p_tree n : exists gens, (exists enough, forall fuel, enough <= fuel -> generateTreeIdeal fuel n = Ok (x_names n, map znat gens)) /\
  exactly (tree_generator n) gens /\ lists_minimal_generators n gens gens /\ length gens = 2 ^ n - 1.
Proof.
  assert (P2 : 0 < 2 ^ n) by (apply Nat.neq_0_lt_0, Nat.pow_nonzero; lia).
  destruct (tree_run n (2 ^ n - 1) (repeat false n) []) as (ps & R & N & I); [apply repeat_length|rewrite bits_zero; lia|].
  exists (map (tree_mono n) ps).
  assert (E : exactly (tree_generator n) (map (tree_mono n) ps)).
  { split.
    - apply NoDup_map_inj; auto. intros p q Hp Hq Ep. apply I in Hp, Hq. eapply tree_inj; eauto. lia.
    - intros m. rewrite in_map_iff, tree_is. split.
      + intros (p & <- & Hp). apply I in Hp. rewrite bits_zero in Hp. exists p. tauto.
      + intros (p & A & B & ->). exists p. split; auto. apply I. rewrite bits_zero. auto. }
  split; [|split; [auto|split]].
  - exists (2 ^ n). intros fuel F. unfold generateTreeIdeal. rewrite R by lia. cbn [rbind app]. repeat f_equal. rewrite map_map. apply map_ext. intros p. apply tree_term_mono.
  - apply g_minimal; [|apply E|].
    + eapply g_ring_exactly; eauto. intros m H. apply H.
    + intros a b Ha Hb. apply E in Ha, Hb. now apply (tree_no_divisors n).
  - rewrite map_length. rewrite <- (seq_length (2 ^ n - 1) 1). rewrite <- (map_length bits ps). apply Permutation_length, NoDup_Permutation.
    + apply NoDup_map_inj; auto. intros p q Hp Hq. apply I in Hp, Hq. apply bits_inj. lia.
    + apply seq_NoDup.
    + intros k. rewrite in_map_iff, in_seq. split.
      * intros (p & <- & Hp). apply I in Hp. rewrite bits_zero in Hp. pose proof (bits_bound p). destruct Hp as [Lp ?]. rewrite Lp in H. lia.
      * intros Hk. assert (X : forall n k, k < 2 ^ n -> exists p, length p = n /\ bits p = k).
        { clear. induction n as [|n IH]; intros k H; cbn in H; [exists []; cbn; lia|]. destruct (IH (k / 2)) as (p & L & B); [apply Nat.div_lt_upper_bound; lia|].
          exists (Nat.odd k :: p). cbn [length bits]. split; [lia|]. rewrite B. rewrite (Nat.div2_odd k) at 3. rewrite Nat.div2_div. unfold Nat.b2n. destruct (Nat.odd k); lia. }
        destruct (X n k ltac:(lia)) as (p & L & B). exists p. split; auto. apply I. rewrite bits_zero. lia.
Qed.

(** ** Chess *)
Lemma position_inj k r c r' c' : c < k -> c' < k -> r * k + c = r' * k + c' -> r = r' /\ c = c'.
Proof.
  intros H H' E. assert (r = r'). { apply (f_equal (fun x => x / k)) in E. rewrite !Nat.div_add_l, !Nat.div_small in E by lia. lia. }
  subst. lia.
Qed.
Lemma position_lt n k r c : r < n -> c < k -> r * k + c < n * k. Proof. intros. nia. Qed.
Lemma off_board_iff count pos d : pos < count -> (off_board count pos d = false <-> (0 <= Z.of_nat pos + d < Z.of_nat count)%Z).
Proof.
  intros H. unfold off_board. rewrite orb_false_iff, !andb_false_iff, !Z.ltb_ge, Z.leb_gt. lia.
Qed.
Section Chess.
  Variable n : nat.
  Variable deltas : list (Z * Z).
  Hypothesis nodup : NoDup deltas.
  Hypothesis moves : forall d, In d deltas -> d <> (0, 0)%Z.
  Hypothesis half : forall d, In d deltas -> ~ In (- fst d, - snd d)%Z deltas.
  Definition legal (r c : nat) (d : Z * Z) (r' c' : nat) : Prop :=
    r < n /\ c < n /\ In d deltas /\ r' < n /\ c' < n /\ Z.of_nat r' = (Z.of_nat r + fst d)%Z /\ Z.of_nat c' = (Z.of_nat c + snd d)%Z.
  Lemma legal_key r c d r' c' s t e s' t' : legal r c d r' c' -> legal s t e s' t' ->
    divs (pair_term (n * n) (r * n + c) (r' * n + c')) (pair_term (n * n) (s * n + t) (s' * n + t')) -> r = s /\ c = t /\ d = e.
  Proof.
    intros (A1 & A2 & A3 & A4 & A5 & A6 & A7) (B1 & B2 & B3 & B4 & B5 & B6 & B7) D. destruct d as [d1 d2], e as [e1 e2]. cbn [fst snd] in *.
    apply pair_divs in D; try apply position_lt; auto.
    - destruct D as [[E1 E2]|[E1 E2]]; apply position_inj in E1, E2; auto; destruct E1, E2; subst.
      + repeat split; f_equal; lia.
      + exfalso. apply (half (d1, d2) A3). cbn [fst snd]. replace (- d1)%Z with e1 by lia. replace (- d2)%Z with e2 by lia. auto.
    - intros E. apply position_inj in E; auto. destruct E; subst. apply (moves (d1, d2) A3). f_equal; lia.
    - intros E. apply position_inj in E; auto. destruct E; subst. apply (moves (e1, e2) B3). f_equal; lia.
  Qed.
  Lemma at_delta row column d m : row < n -> column < n ->
    In m (if off_board n row (fst d) then [] else if off_board n column (snd d) then [] else
      let targetRow := Z.to_nat (Z.of_nat row + fst d) in
      let targetColumn := Z.to_nat (Z.of_nat column + snd d) in
      let nn := n * n in
      [t_set nn (t_set nn (t_identity nn) (row * n + column) 1) (targetRow * n + targetColumn) 1]) ->
    In d deltas -> exists r' c', legal row column d r' c' /\ m = pair_term (n * n) (row * n + column) (r' * n + c').
  Proof.
    intros Hr Hc H Hd. destruct (off_board n row (fst d)) eqn:E1; [destruct H|]. destruct (off_board n column (snd d)) eqn:E2; [destruct H|].
    rewrite off_board_iff in E1, E2 by auto. destruct H as [<-|[]]. do 2 eexists. split; [|reflexivity]. unfold legal. repeat split; auto; lia.
  Qed.
  Lemma chess_in m : In m (chess_moves n n deltas) <-> exists r c d r' c', legal r c d r' c' /\ m = pair_term (n * n) (r * n + c) (r' * n + c').
  Proof.
    unfold chess_moves. split.
    - intros H. apply in_flat_map in H. destruct H as (r & Hr & H). apply in_flat_map in H. destruct H as (c & Hc & H). apply in_flat_map in H. destruct H as (d & Hd & H).
      apply in_seq in Hr, Hc. exists r, c, d. apply at_delta; auto; lia.
    - intros (r & c & d & r' & c' & (A1 & A2 & A3 & A4 & A5 & A6 & A7) & ->). apply in_flat_map. exists r. split; [apply in_seq; lia|]. apply in_flat_map. exists c. split; [apply in_seq; lia|].
      apply in_flat_map. exists d. split; auto. destruct (off_board n r (fst d)) eqn:E1. { apply not_false_iff_true in E1. exfalso. apply E1. apply off_board_iff; auto. lia. }
      destruct (off_board n c (snd d)) eqn:E2. { apply not_false_iff_true in E2. exfalso. apply E2. apply off_board_iff; auto. lia. }
      left. cbv zeta. rewrite <- A6, <- A7, !Nat2Z.id. reflexivity.
  Qed.
  Lemma chess_nodup : NoDup (chess_moves n n deltas).
  Proof.
    unfold chess_moves. apply NoDup_flat_map; [apply seq_NoDup| |].
    - intros r Hr. apply in_seq in Hr. apply NoDup_flat_map; [apply seq_NoDup| |].
      + intros c Hc. apply in_seq in Hc. apply NoDup_flat_map; auto.
        * intros d _. destruct (off_board n r (fst d)); [constructor|]. destruct (off_board n c (snd d)); repeat constructor. intros [].
        * intros d e m Hd He H1 H2. apply at_delta in H1, H2; auto; try lia. destruct H1 as (r1 & c1 & L1 & ->), H2 as (r2 & c2 & L2 & E).
          apply (legal_key _ _ _ _ _ _ _ _ _ _ L1 L2). rewrite <- E. apply divs_refl'.
      + intros c t m Hc Ht H1 H2. apply in_seq in Hc, Ht. apply in_flat_map in H1, H2. destruct H1 as (d & Hd & H1), H2 as (e & He & H2). apply at_delta in H1, H2; auto; try lia.
        destruct H1 as (r1 & c1 & L1 & ->), H2 as (r2 & c2 & L2 & E). apply (legal_key _ _ _ _ _ _ _ _ _ _ L1 L2). rewrite <- E. apply divs_refl'.
    - intros r s m Hr Hs H1 H2. apply in_seq in Hr, Hs. apply in_flat_map in H1, H2. destruct H1 as (c & Hc & H1), H2 as (t & Ht & H2). apply in_seq in Hc, Ht.
      apply in_flat_map in H1, H2. destruct H1 as (d & Hd & H1), H2 as (e & He & H2). apply at_delta in H1, H2; auto; try lia.
      destruct H1 as (r1 & c1 & L1 & ->), H2 as (r2 & c2 & L2 & E). apply (legal_key _ _ _ _ _ _ _ _ _ _ L1 L2). rewrite <- E. apply divs_refl'.
  Qed.
  Variable move : nat -> nat -> nat -> nat -> Prop.
  Hypothesis sym : forall r c r' c', move r c r' c' -> move r' c' r c.
  Hypothesis deltas_move : forall r c r' c', move r c r' c' <->
    In (Z.of_nat r' - Z.of_nat r, Z.of_nat c' - Z.of_nat c)%Z deltas \/ In (Z.of_nat r - Z.of_nat r', Z.of_nat c - Z.of_nat c')%Z deltas.
  Lemma chess_is m : In m (chess_moves n n deltas) <-> chess_generator move n m.
  Proof.
    rewrite chess_in. split.
    - intros (r & c & d & r' & c' & (A1 & A2 & A3 & A4 & A5 & A6 & A7) & ->). exists r, c, r', c'. repeat split; auto.
      + apply deltas_move. left. destruct d as [d1 d2]. cbn [fst snd] in *. replace (_ - _)%Z with d1 by lia. replace (_ - _)%Z with d2 by lia. auto.
      + apply pair_length.
      + now apply pair_product.
      + now apply pair_product.
    - intros (r & c & r' & c' & A1 & A2 & A3 & A4 & M & P). apply pair_iff in P. apply deltas_move in M. destruct M as [M|M].
      + exists r, c, (Z.of_nat r' - Z.of_nat r, Z.of_nat c' - Z.of_nat c)%Z, r', c'. split; auto. unfold legal. cbn [fst snd]. repeat split; auto; lia.
      + exists r', c', (Z.of_nat r - Z.of_nat r', Z.of_nat c - Z.of_nat c')%Z, r, c. split; [|now rewrite pair_swap]. unfold legal. cbn [fst snd]. repeat split; auto; lia.
  Qed.
  Lemma chess_no_divisors : no_divisors (chess_moves n n deltas).
  Proof.
    intros a b Ha Hb D. apply chess_in in Ha, Hb. destruct Ha as (r & c & d & r' & c' & L1 & ->), Hb as (s & t & e & s' & t' & L2 & ->).
    destruct (legal_key _ _ _ _ _ _ _ _ _ _ L1 L2 D) as (-> & -> & ->). destruct L1 as (_ & _ & _ & _ & _ & A & B), L2 as (_ & _ & _ & _ & _ & A' & B').
    assert (r' = s') by lia. assert (c' = t') by lia. now subst.
  Qed.
  Lemma chess_ring : in_ring (n * n) (chess_moves n n deltas).
  Proof. unfold in_ring. rewrite Forall_forall. intros m H. apply chess_in in H. destruct H as (? & ? & ? & ? & ? & _ & ->). apply pair_length. Qed.
  Lemma chess_sorted I : in_ring (n * n) I -> NoDup I -> descending (i_sortReverseLex (n * n) I).
  Proof.
    intros R N. unfold i_sortReverseLex, descending. pose proof (std_sort_revlex_sorted (n * n) I) as S. pose proof (std_sort_perm (t_revLexLess (n * n)) I) as P.
    set (L := std_sort _ _) in *. assert (RL : Forall (fun g => length g = n * n) L). { unfold in_ring in R. rewrite Forall_forall in *. intros g Hg. apply R. eapply Permutation_in; eauto. }
    assert (NL : NoDup L) by (eapply Permutation_NoDup; [apply Permutation_sym|]; eauto). clear P. induction S as [|a L S IH F]; constructor.
    - apply IH; inversion RL; inversion NL; auto.
    - inversion RL as [|? ? Ra RL']; inversion NL as [|? ? Na NL']; subst. rewrite Forall_forall in *. intros b Hb. specialize (F b Hb). unfold before in F.
      destruct (lex_total (n * n) a b Ra (RL' b Hb)) as [H|[->|H]]; [|tauto|auto].
      exfalso. rewrite <- not_true_iff_false in F. apply F. apply revLexLess_iff; auto.
  Qed.
  Lemma chess_names_ok : chess_variables n (chess_names n n).
  Proof.
    unfold chess_variables, chess_names. set (g := fun row => map _ _). assert (Lg : forall row, length (g row) = n) by (intros; unfold g; now rewrite map_length, seq_length).
    assert (A : forall k s, length (flat_map g (seq s k)) = k * n). { induction k as [|k IH]; intros s; cbn; auto. rewrite app_length, Lg, IH. lia. }
    split; auto. intros r c Hr Hc.
    assert (B : forall k s r, r < k -> nth (r * n + c) (flat_map g (seq s k)) [] = nth c (g (s + r)) []).
    { induction k as [|k IH]; intros s [|r0] H; try lia; cbn [seq flat_map].
      - rewrite app_nth1 by (rewrite Lg; lia). f_equal. f_equal. lia.
      - rewrite app_nth2 by (rewrite Lg; nia). rewrite Lg. replace (S r0 * n + c - n) with (r0 * n + c) by nia. rewrite IH by lia. f_equal. f_equal. lia. }
    rewrite B by auto. cbn [Nat.add]. unfold g. set (h := fun column => _). rewrite (nth_indep _ [] (h 0)) by (now rewrite map_length, seq_length). rewrite map_nth, seq_nth by auto. reflexivity.
  Qed.
  Lemma p_chess max : exists names gens,
    generateChessIdeal max n n deltas = (if (max <? Z.of_nat (n * n))%Z then OtherError else Ok (names, map znat gens)) /\
    chess_variables n names /\ exactly (chess_generator move n) gens /\ lists_minimal_generators (n * n) gens gens /\ descending gens.
  Proof.
    exists (chess_names n n), (i_sortReverseLex (n * n) (chess_moves n n deltas)). assert (P := std_sort_perm (t_revLexLess (n * n)) (chess_moves n n deltas)).
    fold (i_sortReverseLex (n * n) (chess_moves n n deltas)) in P.
    split; [unfold generateChessIdeal; rewrite Nat2Z.inj_mul; reflexivity|]. split; [apply chess_names_ok|].
    assert (N : NoDup (i_sortReverseLex (n * n) (chess_moves n n deltas))) by (eapply Permutation_NoDup; [apply Permutation_sym; eauto|apply chess_nodup]).
    split; [|split].
    - split; auto. intros m. rewrite <- chess_is. split; apply Permutation_in; auto using Permutation_sym.
    - apply g_minimal; auto.
      + unfold in_ring. pose proof chess_ring as R. unfold in_ring in R. rewrite Forall_forall in *. intros g Hg. apply R. eapply Permutation_in; eauto.
      + intros a b Ha Hb. apply chess_no_divisors; eapply Permutation_in; eauto.
    - apply chess_sorted; [apply chess_ring|apply chess_nodup].
  Qed.
End Chess.
Lemma in_pairs (l : list (Z * Z)) d : In d l <-> Exists (fun e => fst d = fst e /\ snd d = snd e) l.
Proof.
  rewrite Exists_exists. split; [intros H; exists d; auto|]. intros ([a b] & H & A & B). destruct d. cbn in *. now subst.
Qed.
Ltac pairs := rewrite !in_pairs; cbn [combine]; rewrite !Exists_cons, !Exists_nil; cbn [fst snd].
Lemma p_king max n : exists names gens,
  generateKingChessIdeal max n = (if (max <? Z.of_nat (n * n))%Z then OtherError else Ok (names, map znat gens)) /\
  chess_variables n names /\ exactly (chess_generator king_move n) gens /\ lists_minimal_generators (n * n) gens gens /\ descending gens.
Proof.
  apply p_chess.
  - cbn [combine]. repeat constructor; cbn; intuition congruence.
  - cbn [combine]. intros d H E. subst. cbn in H. intuition congruence.
  - cbn [combine]. intros d H E. cbn in H. destruct H as [<-|[<-|[<-|[<-|[]]]]]; cbn in E; intuition congruence.
  - intros r c r' c'. pairs. unfold king_move, apart. lia.
Qed.
Lemma p_knight max n : exists names gens,
  generateKnightChessIdeal max n = (if (max <? Z.of_nat (n * n))%Z then OtherError else Ok (names, map znat gens)) /\
  chess_variables n names /\ exactly (chess_generator knight_move n) gens /\ lists_minimal_generators (n * n) gens gens /\ descending gens.
Proof.
  apply p_chess.
  - cbn [combine]. repeat constructor; cbn; intuition congruence.
  - cbn [combine]. intros d H E. subst. cbn in H. intuition congruence.
  - cbn [combine]. intros d H E. cbn in H. destruct H as [<-|[<-|[<-|[<-|[]]]]]; cbn in E; intuition congruence.
  - intros r c r' c'. pairs. unfold knight_move, apart. lia.
Qed.
