(** The rank and the null space. *)
From Coq Require Import List Arith Bool ZArith QArith Qcanon Lia.
Import ListNotations.
From Verif Require Import M_IO M_Matrix Spec_Matrix P_Matrix P_Matrix2 P_Matrix3.
Local Open Scope nat_scope.
Local Notation "0q" := (0%Qc). Local Notation "1q" := (1%Qc).

(** ** Dimensions *)
Lemma bounded_choice : forall (P : nat -> vector -> Prop) n, (forall i, i < n -> exists x, P i x) -> exists X, forall i, i < n -> P i (X i).
Proof.
  intros P n. induction n; intros H; [exists (fun _ _ => 0q); intros; lia|].
  destruct IHn as (X & HX); [intros; apply H; lia|]. destruct (H n ltac:(lia)) as (x & Hx).
  exists (fun i => if i =? n then x else X i). intros i Hi. destruct (Nat.eqb_spec i n) as [->|]; [auto|apply HX; lia].
Qed.
Lemma wide_kernel : forall m, rowCount m < colCount m -> exists y f, in_kernel m y /\ f < colCount m /\ y f = 1q.
Proof.
  intros m L. destruct (rowReduceFully_ok m) as (S & k & p & _ & Q & Rd). pose proof Q as (R & C & _). pose proof (proj1 Rd) as E.
  destruct (free_dec (colCount m) k p) as [All|(f & Hf & F)].
  - destruct (all_pivots S k p _ E All) as (A & _). destruct E as (Hk & _). lia.
  - exists (nullv S k p f), f. split; [|split; [auto|rewrite nullv_free, Nat.eqb_refl by auto; reflexivity]].
    apply (equiv_kernel _ _ _ Q). apply nullv_kernel; auto. lia.
Qed.
Lemma independent_le : forall a u b w n, independent a u n -> (forall i, i < a -> in_span b w n (u i)) -> a <= b.
Proof.
  intros a u b w n Ind Sp. destruct (Nat.le_gt_cases a b) as [|L]; auto. exfalso.
  destruct (bounded_choice (fun i x => forall c, c < n -> u i c = sum b (fun j => (x j * w j c)%Qc)) a Sp) as (X & HX).
  destruct (wide_kernel (build b a (fun j i => X i j)) L) as (y & f & K & Hf & Y). cbn in Hf.
  assert (Z : forall i, i < a -> y i = 0q).
  { apply Ind. intros c Hc.
    rewrite (sum_ext a _ (fun i => sum b (fun j => (X i j * y i * w j c)%Qc))).
    - rewrite sum_swap. apply sum_zero. intros j Hj. rewrite <- sum_scale_r. specialize (K j Hj). cbn [colCount build] in K.
      rewrite (sum_ext a _ (fun i => (X i j * y i)%Qc)) in K by (intros i Hi; rewrite get_build by auto; reflexivity). rewrite K. ring.
    - intros i Hi. rewrite (HX i Hi c Hc), sum_scale. apply sum_ext. intros; ring. }
  specialize (Z f Hf). rewrite Y in Z. discriminate Z.
Qed.
Lemma dimension_unique : forall n V k l, dimension n V k -> dimension n V l -> k = l.
Proof.
  intros n V k l (u & Iu & Su) (w & Iw & Sw). apply Nat.le_antisymm.
  - apply (independent_le k u l w n Iu). intros i Hi. apply Sw, Su. apply span_row. auto.
  - apply (independent_le l w k u n Iw). intros i Hi. apply Su, Sw. apply span_row. auto.
Qed.
Lemma reduced_dimension : forall m k p, reduced m k p -> dimension (colCount m) (in_row_space m) k.
Proof.
  intros m k p ((Hk & E1 & E2 & E3) & N). exists (fun r c => get m r c). split.
  - intros x H i Hi. specialize (H (p i) (proj1 (E1 i Hi))). rewrite (sum_delta k i) in H; auto.
    + rewrite (N i i Hi Hi), Nat.eqb_refl in H. rewrite <- H. ring.
    + intros j Hj NE. rewrite (N i j Hi Hj). apply Nat.eqb_neq in NE. rewrite NE. ring.
  - intros w. unfold in_row_space, in_span.
    assert (Cut : forall x c, c < colCount m -> sum (rowCount m) (fun i => (x i * get m i c)%Qc) = sum k (fun i => (x i * get m i c)%Qc)).
    { intros x c Hc. replace (rowCount m) with (k + (rowCount m - k)) by lia. rewrite sum_app.
      rewrite (sum_zero (rowCount m - k)); [ring|]. intros i Hi. rewrite E3 by lia. ring. }
    split; intros (x & H); exists x; intros c Hc; rewrite (H c Hc); [|symmetry]; apply Cut; auto.
Qed.

(** ** Finding the pivots *)
Lemma find_pivots_ok : forall fuel m k p i c fl, echelon m k p -> i <= k -> (forall j, j < i -> p j <= c) -> (forall j, i <= j -> j < k -> c <= p j) ->
  (forall x, fl x = true <-> exists j, j < i /\ p j = x) -> (rowCount m - i) + (colCount m - c) <= fuel ->
  exists fl', find_pivots fuel m i c i fl = Ok (k, fl') /\ forall x, fl' x = true <-> exists j, j < k /\ p j = x.
Proof.
  induction fuel; intros m k p i c fl E Hi Lo Hi' Fl F; pose proof E as (Hk & E1 & E2 & E3).
  - assert (X : (i <? rowCount m) && (c <? colCount m) = false).
    { destruct (Nat.ltb_spec i (rowCount m)); destruct (Nat.ltb_spec c (colCount m)); auto; lia. }
    cbn [find_pivots]. rewrite X. assert (i = k); [|subst; exists fl; auto]. destruct (Nat.eq_dec i k); auto.
    pose proof (Hi' i ltac:(lia) ltac:(lia)). destruct (E1 i ltac:(lia)) as (A & _). lia.
  - cbn [find_pivots]. destruct (Nat.ltb_spec i (rowCount m)) as [A|A]; destruct (Nat.ltb_spec c (colCount m)) as [B|B]; cbn [andb].
    2,3,4: assert (i = k); [|subst; exists fl; auto]; destruct (Nat.eq_dec i k); auto;
      pose proof (Hi' i ltac:(lia) ltac:(lia)); destruct (E1 i ltac:(lia)) as (D & _); lia.
    destruct (is_zero (get m i c)) eqn:Z.
    + apply is_zero_iff in Z. apply (IHfuel m k p i (S c) fl E Hi); [intros j Hj; pose proof (Lo j Hj); lia| |exact Fl|lia]. intros j Hj Hjk. pose proof (Hi' j Hj Hjk).
      destruct (Nat.eq_dec c (p j)) as [e|]; [|lia]. exfalso. destruct (Nat.eq_dec j i) as [->|N].
      * destruct (E1 i Hjk) as (_ & X & _). apply X. rewrite <- e. auto.
      * pose proof (E2 i j ltac:(lia) Hjk). pose proof (Hi' i ltac:(lia) ltac:(lia)). lia.
    + apply is_zero_false in Z. assert (Lt : i < k). { destruct (Nat.lt_ge_cases i k); auto. destruct Z. apply E3; auto. }
      assert (e : c = p i). { pose proof (Hi' i ltac:(lia) Lt). destruct (Nat.eq_dec c (p i)); auto. destruct Z. apply E1; auto. lia. } subst c.
      apply (IHfuel m k p (S i) (p i) (fun c0 => if c0 =? p i then true else fl c0) E Lt);
        [|intros j Hj Hjk; pose proof (E2 i j ltac:(lia) Hjk); lia| |lia].
      * intros j Hj. destruct (Nat.eq_dec j i) as [->|]; [lia|]. apply Lo. lia.
      * intros x. destruct (Nat.eqb_spec x (p i)) as [->|N].
        -- split; [intros _; exists i; lia|auto].
        -- rewrite Fl. split; intros (j & Hj & e); exists j; (split; [|auto]); [lia|]. destruct (Nat.eq_dec j i) as [->|]; [congruence|lia].
Qed.
Lemma pivots_found : forall m k p, echelon m k p ->
  exists fl, find_pivots (rowCount m + colCount m) m 0 0 0 (fun _ => false) = Ok (k, fl) /\ forall x, fl x = true <-> exists j, j < k /\ p j = x.
Proof.
  intros m k p E. apply (find_pivots_ok _ m k p 0 0 _ E); [lia|intros; lia|intros; lia| |lia]. intros x. split; [discriminate|]. intros (j & Hj & _). lia.
Qed.
Lemma matrixRank_ok : forall m, exists k, matrixRank m = Ok k /\ dimension (colCount m) (in_row_space m) k.
Proof.
  intros m. unfold matrixRank. destruct (rowReduceFully_ok m) as (S & k & p & -> & Q & Rd). cbn [rbind].
  destruct (pivots_found S k p (proj1 Rd)) as (fl & -> & _). cbn [rbind]. exists k. split; [auto|]. destruct Q as (_ & C & W).
  destruct (reduced_dimension S k p Rd) as (v & I & Sp). exists v. rewrite C. split; [auto|]. intros w. rewrite W. auto.
Qed.

(** ** The null space *)
Lemma null_column_ok : forall m k p fl f cnt c i, reduced m k p -> (forall x, fl x = true <-> exists j, j < k /\ p j = x) -> (forall i, i < k -> p i <> f) ->
  i <= k -> (forall j, j < i -> p j < c) -> (forall j, i <= j -> j < k -> c <= p j) ->
  null_column m fl f (seq c cnt) i = map (nullv m k p f) (seq c cnt).
Proof.
  intros m k p fl f cnt. induction cnt; intros c i Rd Fl F Hi Lo Hi'; [reflexivity|]. cbn [seq null_column map].
  pose proof Rd as ((Hk & E1 & E2 & E3) & N).
  destruct (fl c) eqn:X.
  - apply Fl in X. destruct X as (j & Hj & <-).
    assert (j = i). { destruct (Nat.lt_trichotomy j i) as [L|[L|L]]; auto; [pose proof (Lo j L); lia|]. pose proof (Hi' i ltac:(lia) ltac:(lia)).
      pose proof (E2 i j L Hj). lia. } subst j.
    rewrite nullv_pivot by auto. f_equal. apply (IHcnt _ _ Rd Fl F Hj).
    + intros j L. destruct (Nat.eq_dec j i) as [->|]; [lia|]. pose proof (Lo j ltac:(lia)). lia.
    + intros j L Lk. pose proof (E2 i j ltac:(lia) Lk). lia.
  - assert (NP : forall j, j < k -> p j <> c). { intros j Hj e. assert (T : fl c = true) by (apply Fl; exists j; auto). congruence. }
    rewrite nullv_free by auto. f_equal. apply (IHcnt _ _ Rd Fl F Hi).
    + intros j L. pose proof (Lo j L). lia.
    + intros j L Lk. pose proof (Hi' j L Lk). pose proof (NP j Lk). lia.
Qed.
Lemma filter_length : forall (f : nat -> bool) l, length (filter f l) + length (filter (fun x => negb (f x)) l) = length l.
Proof. intros f l. induction l as [|a l IH]; [reflexivity|]. cbn. destruct (f a); cbn; lia. Qed.
Lemma free_count : forall m k p fl, echelon m k p -> (forall x, fl x = true <-> exists j, j < k /\ p j = x) ->
  length (filter (fun c => negb (fl c)) (seq 0 (colCount m))) = colCount m - k.
Proof.
  intros m k p fl E Fl. pose proof (filter_length fl (seq 0 (colCount m))) as T. rewrite seq_length in T.
  assert (L : length (filter fl (seq 0 (colCount m))) = k); [|lia].
  assert (ND1 : NoDup (filter fl (seq 0 (colCount m)))) by (apply NoDup_filter, seq_NoDup).
  assert (ND2 : NoDup (map p (seq 0 k))).
  { assert (G : forall l, NoDup l -> (forall x, In x l -> x < k) -> NoDup (map p l)).
    { induction l as [|a l IH]; intros ND B; [constructor|]. inversion ND as [|x y NI ND' e]; subst. cbn. constructor.
      - intros H. apply in_map_iff in H. destruct H as (x & e & Hx). apply NI. rewrite <- (pivot_inj m k p x a E); auto; [apply B; right; auto|apply B; left; auto].
      - apply IH; auto. intros x Hx. apply B. right. auto. }
    apply G; [apply seq_NoDup|]. intros x Hx. apply in_seq in Hx. lia. }
  apply Nat.le_antisymm.
  - enough (X : length (filter fl (seq 0 (colCount m))) <= length (map p (seq 0 k))) by (rewrite map_length, seq_length in X; auto).
    apply NoDup_incl_length; auto. intros x Hx. apply filter_In in Hx. destruct Hx as (_ & Hx).
    apply Fl in Hx. destruct Hx as (j & Hj & <-). apply in_map, in_seq. lia.
  - enough (X : length (map p (seq 0 k)) <= length (filter fl (seq 0 (colCount m)))) by (rewrite map_length, seq_length in X; auto).
    apply NoDup_incl_length; auto. intros x Hx. apply in_map_iff in Hx.
    destruct Hx as (j & <- & Hj). apply in_seq in Hj. apply filter_In. destruct E as (_ & E1 & _). split; [apply in_seq; destruct (E1 j ltac:(lia)); lia|].
    apply Fl. exists j. split; [lia|auto].
Qed.
