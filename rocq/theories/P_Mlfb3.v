(** The rows that are sums, and the facets that are pushed out. *)
From Coq Require Import List Arith Bool ZArith QArith Qcanon Lia Sorted.
Import ListNotations.
From Verif Require Import M_IO M_Matrix M_SatBinom M_Mlfb Spec_Matrix Spec_SatBinom Spec_Mlfb P_Matrix P_Matrix5 P_Matrix8 P_SatBinom.
Local Open Scope nat_scope.
Local Notation length := List.length.

(** ** Pushing out *)
Lemma push_steps test value P : (forall k, test k = true <-> P k) -> forall k p r, first_least p P value r ->
  first_least (p + k) P value (fold_left (fun onFacet n =>
    if test n then match onFacet with None => Some n | Some m => if (value m >? value n)%Z then Some n else onFacet end else onFacet) (seq p k) r).
Proof.
  intros T. induction k as [|k IH]; intros p r H; [rewrite Nat.add_0_r; exact H|]. cbn [seq fold_left]. replace (p + S k) with (S p + k) by lia. apply IH.
  destruct (test p) eqn:E.
  - apply T in E. destruct r as [m|]; cbn [first_least] in *.
    + destruct H as (H1 & H2 & H3 & H4). rewrite Z.gtb_ltb. destruct (Z.ltb_spec (value p) (value m)) as [L|L]; cbn [first_least].
      * split; [lia|]. split; auto. split.
        -- intros j Hj Pj. destruct (Nat.eq_dec j p) as [->|]; [lia|]. specialize (H3 j ltac:(lia) Pj). lia.
        -- intros j Hj Pj. specialize (H3 j Hj Pj). lia.
      * split; [lia|]. split; auto. split; auto. intros j Hj Pj. destruct (Nat.eq_dec j p) as [->|]; [lia|]. apply H3; auto. lia.
    + split; [lia|]. split; auto. split.
      * intros j Hj Pj. destruct (Nat.eq_dec j p) as [->|]; [lia|]. exfalso. apply (H j); auto. lia.
      * intros j Hj Pj. exfalso. apply (H j); auto.
  - assert (N : ~ P p) by (rewrite <- T; congruence). destruct r as [m|]; cbn [first_least] in *.
    + destruct H as (H1 & H2 & H3 & H4). split; [lia|]. split; auto. split; auto. intros j Hj Pj. destruct (Nat.eq_dec j p) as [->|]; [contradiction|]. apply H3; auto. lia.
    + intros j Hj. destruct (Nat.eq_dec j p) as [->|]; auto. apply H. lia.
Qed.
Lemma push_right test value P count : (forall k, test k = true <-> P k) -> first_least count P value (push_out test value count).
Proof. intros T. unfold push_out. apply (push_steps test value P T count 0 None). intros k H. lia. Qed.
Theorem positive_right n gens facet rhs : first_least (length gens) (fun k => forall i, i < n -> i <> facet -> (coordinate (nth k gens []) i < coordinate rhs i)%Z)
  (fun k => coordinate (nth k gens []) facet) (pushOutFacetPositive n gens facet rhs).
Proof.
  apply push_right. intros k. rewrite forallb_forall. unfold entry. split.
  - intros H i Hi Ni. specialize (H i ltac:(apply in_seq; lia)). apply orb_true_iff in H. destruct H as [H|H]; [apply Nat.eqb_eq in H; contradiction|].
    rewrite Z.geb_leb in H. destruct (Z.leb_spec (nth i rhs 0%Z) (nth i (nth k gens []) 0%Z)); [discriminate|lia].
  - intros H i Hi. apply in_seq in Hi. apply orb_true_iff. destruct (Nat.eqb_spec i facet); auto. right. specialize (H i ltac:(lia) ltac:(auto)). rewrite Z.geb_leb.
    destruct (Z.leb_spec (nth i rhs 0%Z) (nth i (nth k gens []) 0%Z)); [lia|auto].
Qed.
Theorem zero_right n gens rhs : first_least (length gens) (fun k => forall i, 1 <= i < n -> (- coordinate (nth k gens []) i < coordinate rhs i)%Z)
  (fun k => (- coordinate (nth k gens []) 0)%Z) (pushOutFacetZero n gens rhs).
Proof.
  apply push_right. intros k. rewrite forallb_forall. unfold entry. split.
  - intros H i Hi. specialize (H i ltac:(apply in_seq; lia)).
    rewrite Z.geb_leb in H. destruct (Z.leb_spec (nth i rhs 0%Z) (- nth i (nth k gens []) 0)%Z); [discriminate|lia].
  - intros H i Hi. apply in_seq in Hi. specialize (H i ltac:(lia)). rewrite Z.geb_leb.
    destruct (Z.leb_spec (nth i rhs 0%Z) (- nth i (nth k gens []) 0)%Z); [lia|auto].
Qed.

(** ** Marks *)
Lemma mark_length rows k : k < length rows -> length (mark rows k) = length rows.
Proof. intros H. unfold mark. rewrite app_length. cbn [length]. rewrite firstn_length, skipn_length. lia. Qed.
Lemma mark_nth rows k j : k < length rows -> nth j (mark rows k) false = true <-> j = k \/ nth j rows false = true.
Proof.
  intros H. unfold mark. revert k j H. induction rows as [|r rows IH]; intros k j H; cbn in H; [lia|]. destruct k as [|k].
  - cbn [firstn skipn app]. destruct j as [|j]; cbn [nth]; [tauto|]. split; auto. intros [|]; auto. lia.
  - cbn [firstn app]. change (skipn (S (S k)) (r :: rows)) with (skipn (S k) rows). destruct j as [|j]; cbn [nth]; [split; auto; intros [|]; auto; lia|]. rewrite IH by lia. split; (intros [|]; [left; lia|auto]).
Qed.
Lemma filter_sorted (f : nat -> bool) l : StronglySorted lt l -> StronglySorted lt (filter f l).
Proof.
  induction 1 as [|x l H IH F]; cbn [filter]; [constructor|]. destruct (f x); auto. constructor; auto. rewrite Forall_forall in *. intros y Hy. apply filter_In in Hy. apply F. tauto.
Qed.
Lemma seq_sorted k : forall p, StronglySorted lt (seq p k).
Proof. induction k as [|k IH]; intros p; cbn [seq]; constructor; auto. apply Forall_forall. intros y Hy. apply in_seq in Hy. lia. Qed.
Section Marks.
Variables (h : matrix) (count : nat).
Hypothesis H : rowCount h = count.
Lemma getSum_lt a b k : getSum h a b = Some k -> k < count.
Proof. intros E. apply find_some in E. destruct E as [E _]. apply in_seq in E. lia. Qed.
Lemma inner_marks i l : forall rows, length rows = count -> let r := fold_left (fun rows j => match getSum h i j with Some row => mark rows row | None => rows end) l rows in
  length r = count /\ forall k, nth k r false = true <-> nth k rows false = true \/ exists j, In j l /\ getSum h i j = Some k.
Proof.
  induction l as [|j l IH]; intros rows L; cbn [fold_left].
  - split; auto. intros k. split; auto. intros [|(j & [] & _)]; auto.
  - destruct (getSum h i j) as [row|] eqn:E.
    + assert (R : row < length rows) by (rewrite L; eapply getSum_lt; eauto). specialize (IH (mark rows row)). rewrite mark_length in IH by auto. destruct (IH L) as [A B]. split; auto.
      intros k. rewrite B, mark_nth by auto. split.
      * intros [[->|]|(j' & J1 & J2)]; auto; right; [exists j|exists j']; simpl; auto.
      * intros [|(j' & [<-|J1] & J2)]; auto; [left; left; congruence|]. right. eauto.
    + destruct (IH rows L) as [A B]. split; auto. intros k. rewrite B. split.
      * intros [|(j' & J1 & J2)]; auto. right. exists j'. simpl. auto.
      * intros [|(j' & [<-|J1] & J2)]; auto; [congruence|]. right. eauto.
Qed.
Lemma outer_marks l : forall rows, length rows = count -> let r := fold_left (mark_sums h) l rows in
  length r = count /\ forall k, nth k r false = true <-> nth k rows false = true \/ exists i j, In i l /\ j < i /\ getSum h i j = Some k.
Proof.
  induction l as [|i l IH]; intros rows L; cbn [fold_left].
  - split; auto. intros k. split; auto. intros [|(i & j & [] & _)]; auto.
  - destruct (inner_marks i (seq 0 i) rows L) as [A B]. fold (mark_sums h rows i) in A, B. destruct (IH _ A) as [C D]. split; auto. intros k. rewrite D, B. split.
    + intros [[|(j & J1 & J2)]|(i' & j & I & J1 & J2)]; auto; right; [exists i, j|exists i', j]; simpl; auto. apply in_seq in J1. split; auto. split; auto. lia.
    + intros [|(i' & j & [<-|I] & J1 & J2)]; auto; [left; right; exists j; split; auto; apply in_seq; lia|]. right. exists i', j. auto.
Qed.
End Marks.

(** ** Sums *)
Lemma finite_choice (count : nat) (P : nat -> vector -> Prop) : (forall k, k < count -> exists x, P k x) -> exists X : nat -> vector, forall k, k < count -> P k (X k).
Proof.
  induction count as [|c IH]; intros H; [exists (fun _ _ => 0%Qc); lia|]. destruct IH as [X HX]; [intros; apply H; lia|]. destruct (H c) as [x Hx]; [lia|].
  exists (fun k => if k =? c then x else X k). intros k Hk. destruct (Nat.eqb_spec k c) as [->|]; auto. apply HX. lia.
Qed.
Lemma rational_inj a b : Q2Qc (inject_Z a) = Q2Qc (inject_Z b) -> a = b.
Proof. intros H. rewrite <- (proj1 (integer_num a)), H. apply integer_num. Qed.
Lemma rational_add a b : (Q2Qc (inject_Z a) + Q2Qc (inject_Z b))%Qc = Q2Qc (inject_Z (a + b)).
Proof. apply Qc_is_canon. unfold Qcplus. cbn [this Q2Qc]. rewrite !Qred_correct. rewrite inject_Z_plus. reflexivity. Qed.
Section Sums.
Variables (mat : matrix) (n : nat) (gens : list (list Z)).
Hypothesis V : vectors n gens.
Hypothesis N : NoDup gens.
Hypothesis C : colCount mat = n.
Hypothesis Ind : independent (rowCount mat) (fun r c => get mat r c) n.
Hypothesis Span : forall g, In g gens -> in_row_space mat (rational g).
Lemma solved : exists s, solve (transpose mat) (transpose (y_matrix n gens)) = Ok (Some s) /\ rowCount (transpose s) = length gens /\ colCount (transpose s) = rowCount mat /\
  forall k c, k < length gens -> c < n -> rational (nth k gens []) c = sum (rowCount mat) (fun i => (get (transpose s) k i * get mat i c)%Qc).
Proof.
  destruct (p_transpose mat) as (_ & A1 & A2 & A3). destruct (p_transpose (y_matrix n gens)) as (_ & B1 & B2 & B3). cbn [y_matrix build rowCount colCount] in B1, B2, B3.
  assert (Y : forall k c, k < length gens -> c < n -> get (transpose (y_matrix n gens)) c k = rational (nth k gens []) c).
  { intros k c Hk Hc. rewrite B3 by auto. unfold y_matrix. rewrite get_build by auto. reflexivity. }
  destruct (p_solve (transpose mat) (transpose (y_matrix n gens))) as [(s & S1 & S2 & S3)|[S1 S2]]; [congruence| |].
  - exists s. split; auto. destruct S3 as (P1 & P2 & P3 & P4). destruct (p_transpose s) as (_ & D1 & D2 & D3). rewrite D1, D2. split; [congruence|]. split; [congruence|].
    intros k c Hk Hc. rewrite <- Y by auto. rewrite P4 by congruence. rewrite A2. apply sum_ext. intros i Hi. rewrite A3 by congruence. rewrite D3 by congruence. ring.
  - exfalso. destruct (finite_choice (length gens) (fun k x => forall c, c < colCount mat -> rational (nth k gens []) c = sum (rowCount mat) (fun i => (x i * get mat i c)%Qc))) as [X HX].
    { intros k Hk. apply (Span (nth k gens [])). apply nth_In. auto. }
    apply (S2 (build (rowCount mat) (length gens) (fun i k => X k i))). split; [exact A2|]. split; [congruence|]. split; [exact B2|]. cbn [build colCount]. rewrite A1, A2. intros c k Hc Hk. rewrite Y by congruence.
    rewrite HX by auto. apply sum_ext. intros i Hi. rewrite A3 by auto. rewrite get_build by auto. ring.
Qed.
Variable h : matrix.
Hypothesis H1 : rowCount h = length gens.
Hypothesis H2 : colCount h = rowCount mat.
Hypothesis H3 : forall k c, k < length gens -> c < n -> rational (nth k gens []) c = sum (rowCount mat) (fun i => (get h k i * get mat i c)%Qc).
Lemma sum_row_iff a b k : a < length gens -> b < length gens -> k < length gens ->
  forallb (fun col => Qc_eq_bool (get h a col + get h b col)%Qc (get h k col)) (seq 0 (colCount h)) = true <-> is_sum n (nth a gens []) (nth b gens []) (nth k gens []).
Proof.
  intros Ha Hb Hk. rewrite forallb_forall, H2. split.
  - intros F. split; [now apply vectors_nth|]. intros c Hc. apply rational_inj. rewrite <- rational_add. change (rational (nth k gens []) c = (rational (nth a gens []) c + rational (nth b gens []) c)%Qc).
    rewrite !H3 by auto. rewrite sum_add. apply sum_ext. intros i Hi. specialize (F i ltac:(apply in_seq; lia)). apply Qc_eq_bool_correct in F. rewrite <- F. ring.
  - intros [_ F] i Hi. apply in_seq in Hi. set (x := fun i => (get h a i + get h b i - get h k i)%Qc). assert (X : x i = 0%Qc).
    { apply Ind; [|lia]. intros c Hc. transitivity (rational (nth a gens []) c + rational (nth b gens []) c + (- (1)) * rational (nth k gens []) c)%Qc.
      - rewrite !H3 by auto. rewrite sum_scale, !sum_add. apply sum_ext. intros j Hj. unfold x. ring.
      - unfold rational. rewrite F by auto. rewrite <- rational_add. ring. }
    unfold x in X. assert (E : (get h a i + get h b i)%Qc = get h k i). { replace (get h a i + get h b i)%Qc with (get h a i + get h b i - get h k i + get h k i)%Qc by ring. rewrite X. ring. }
    rewrite E. unfold Qc_eq_bool. destruct (Qc_eq_dec _ _); auto.
Qed.
Lemma getSum_right a b : a < length gens -> b < length gens ->
  match getSum h a b with
  | Some k => k < length gens /\ is_sum n (nth a gens []) (nth b gens []) (nth k gens [])
  | None => forall k, k < length gens -> ~ is_sum n (nth a gens []) (nth b gens []) (nth k gens [])
  end.
Proof.
  intros Ha Hb. destruct (getSum h a b) as [k|] eqn:E; unfold getSum in E.
  - apply find_some in E. destruct E as [E1 E2]. apply in_seq in E1. rewrite H1 in E1. split; [lia|]. apply sum_row_iff in E2; auto. lia.
  - intros k Hk S. pose proof (find_none _ _ E k) as E'. cbv beta in E'. rewrite (proj2 (sum_row_iff a b k Ha Hb Hk) S) in E'. discriminate E'. apply in_seq. lia.
Qed.
Lemma getSum_of a b k : a < length gens -> b < length gens -> k < length gens -> is_sum n (nth a gens []) (nth b gens []) (nth k gens []) -> getSum h a b = Some k.
Proof.
  intros Ha Hb Hk S. pose proof (getSum_right a b Ha Hb) as R. destruct (getSum h a b) as [j|]; [|exfalso; eapply R; eauto]. destruct R as [R1 R2]. f_equal.
  apply (proj1 (NoDup_nth gens []) N); auto. eapply is_sum_unique; eauto.
Qed.
Lemma is_sum_comm a b s : is_sum n a b s -> is_sum n b a s.
Proof. intros [A B]. split; auto. intros i Hi. rewrite B by auto. lia. Qed.
Lemma marked_iff k : (exists i j, In i (seq 0 (length gens)) /\ j < i /\ getSum h i j = Some k) <-> sum_of_two n gens k.
Proof.
  split.
  - intros (i & j & I & J & E). apply in_seq in I. pose proof (getSum_right i j ltac:(lia) ltac:(lia)) as R. rewrite E in R. destruct R as [R1 R2].
    exists i, j, (nth i gens []), (nth j gens []), (nth k gens []). split; [lia|]. repeat (split; [apply nth_error_nth_some; lia|]). exact R2.
  - intros (i & j & a & b & s & Nij & A & B & S & IS). assert (Ai : i < length gens) by (apply nth_error_Some; congruence). assert (Bj : j < length gens) by (apply nth_error_Some; congruence).
    assert (Sk : k < length gens) by (apply nth_error_Some; congruence). apply nth_error_nth with (d := []) in A, B, S. subst a b s.
    destruct (Nat.lt_ge_cases j i) as [L|L].
    + exists i, j. split; [apply in_seq; lia|]. split; auto. apply getSum_of; auto.
    + exists j, i. split; [apply in_seq; lia|]. split; [lia|]. apply getSum_of; auto. apply is_sum_comm; auto.
Qed.
End Sums.
Theorem sums_right mat n gens : vectors n gens -> NoDup gens -> colCount mat = n -> independent (rowCount mat) (fun r c => get mat r c) n ->
  (forall g, In g gens -> in_row_space mat (rational g)) ->
  exists lat, newGrobLat mat n gens = Ok lat /\
    (rowCount (gl_h lat) = length gens /\ colCount (gl_h lat) = rowCount mat /\
     forall k c, k < length gens -> c < n -> rational (nth k gens []) c = sum (rowCount mat) (fun i => (get (gl_h lat) k i * get mat i c)%Qc)) /\
    (forall a b, a < length gens -> b < length gens ->
      match getSum (gl_h lat) a b with
      | Some k => k < length gens /\ is_sum n (nth a gens []) (nth b gens []) (nth k gens [])
      | None => forall k, k < length gens -> ~ is_sum n (nth a gens []) (nth b gens []) (nth k gens [])
      end) /\
    (length (gl_isSumRow lat) = length gens /\ forall k, nth k (gl_isSumRow lat) false = true <-> sum_of_two n gens k) /\
    StronglySorted lt (gl_nonSums lat) /\ forall k, In k (gl_nonSums lat) <-> k < length gens /\ ~ sum_of_two n gens k.
Proof.
  intros V N C Ind Span. destruct (solved mat n gens C Span) as (s & S & R1 & R2 & R3). unfold newGrobLat. rewrite S. eexists. split; [reflexivity|]. cbn [gl_h gl_isSumRow gl_nonSums].
  destruct (outer_marks (transpose s) (length gens) R1 (seq 0 (length gens)) (repeat false (length gens)) (repeat_length _ _)) as [A B].
  set (rows := fold_left _ _ _) in *.
  assert (M : forall k, nth k rows false = true <-> sum_of_two n gens k).
  { intros k. rewrite B, (marked_iff mat n gens V N C Ind (transpose s) R1 R2 R3 k) || rewrite B. 
    split; auto. intros [H|H]; auto. exfalso. rewrite nth_repeat in H. discriminate. }
  split; [auto|]. split; [|split; [auto|split]].
  - intros a b Ha Hb. eapply getSum_right; eauto.
  - apply filter_sorted, seq_sorted.
  - intros k. rewrite filter_In, in_seq. split.
    + intros [K1 K2]. split; [lia|]. rewrite <- M. destruct (nth k rows false); [discriminate|congruence].
    + intros [K1 K2]. split; [lia|]. rewrite <- M in K2. destruct (nth k rows false); auto.
Qed.
