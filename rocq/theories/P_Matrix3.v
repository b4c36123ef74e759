(** Systems of linear equations and inverses. *)
From Coq Require Import List Arith Bool ZArith QArith Qcanon Lia.
Import ListNotations.
From Verif Require Import M_IO M_Matrix Spec_Matrix P_Matrix P_Matrix2.
Local Open Scope nat_scope.
Local Notation "0q" := (0%Qc). Local Notation "1q" := (1%Qc).

Lemma get_resize : forall m R C r c, r < R -> c < C ->
  get (resize m R C) r c = if (r <? rowCount m) && (c <? colCount m) then get m r c else 0q.
Proof.
  intros m R C r c Hr Hc. unfold resize. destruct (Nat.eqb_spec R (rowCount m)) as [->|NR]; destruct (Nat.eqb_spec C (colCount m)) as [->|NC]; cbn [andb].
  - apply Nat.ltb_lt in Hr, Hc. rewrite Hr, Hc. reflexivity.
  - rewrite get_build by auto. destruct (Nat.ltb_spec c (Nat.min C (colCount m))); destruct (Nat.ltb_spec c (colCount m)); try lia;
      rewrite Nat.min_id; reflexivity.
  - rewrite get_build by auto. destruct (Nat.ltb_spec r (Nat.min R (rowCount m))); destruct (Nat.ltb_spec r (rowCount m)); try lia;
      rewrite Nat.min_id; reflexivity.
  - rewrite get_build by auto. destruct (Nat.ltb_spec c (Nat.min C (colCount m))); destruct (Nat.ltb_spec c (colCount m)); try lia;
      destruct (Nat.ltb_spec r (Nat.min R (rowCount m))); destruct (Nat.ltb_spec r (rowCount m)); try lia; reflexivity.
Qed.
Lemma resize_dims : forall m R C, rowCount (resize m R C) = R /\ colCount (resize m R C) = C.
Proof.
  intros m R C. unfold resize. destruct (Nat.eqb_spec R (rowCount m)); destruct (Nat.eqb_spec C (colCount m)); cbn [andb]; auto.
Qed.
Lemma append_dims : forall a b, rowCount (append_cols a b) = rowCount a /\ colCount (append_cols a b) = colCount a + colCount b.
Proof. intros a b. unfold append_cols. cbn [rowCount colCount build]. apply resize_dims. Qed.
Lemma get_append : forall a b r c, r < rowCount a -> c < colCount a + colCount b ->
  get (append_cols a b) r c = if c <? colCount a then get a r c else get b r (c - colCount a).
Proof.
  intros a b r c Hr Hc. unfold append_cols. destruct (resize_dims a (rowCount a) (colCount a + colCount b)) as (R & C).
  rewrite get_build by lia. rewrite get_resize by lia. apply Nat.ltb_lt in Hr. rewrite Hr. rewrite Nat.leb_antisym.
  destruct (c <? colCount a); reflexivity.
Qed.

(** ** A solution of a system, beside the negative of a unit vector *)
Definition beside (mid : nat) (x : vector) (r : nat) : vector :=
  fun c => if c <? mid then x c else if c =? mid + r then (- (1))%Qc else 0q.
Lemma beside_sum : forall t mid n x r, r < n ->
  sum (mid + n) (fun c => (t c * beside mid x r c)%Qc) = (sum mid (fun c => (t c * x c)%Qc) - t (mid + r)%nat)%Qc.
Proof.
  intros t mid n x r Hr. rewrite sum_app. rewrite (sum_delta n r); [|auto|].
  - unfold beside. rewrite (sum_ext mid _ (fun c => (t c * x c)%Qc)).
    + replace (mid + r <? mid) with false by (symmetry; apply Nat.ltb_ge; lia). rewrite Nat.eqb_refl. ring.
    + intros c Hc. apply Nat.ltb_lt in Hc. rewrite Hc. reflexivity.
  - intros j Hj N. unfold beside. replace (mid + j <? mid) with false by (symmetry; apply Nat.ltb_ge; lia).
    replace (mid + j =? mid + r) with false by (symmetry; apply Nat.eqb_neq; lia). ring.
Qed.
Lemma beside_kernel : forall m mid n x r, colCount m = mid + n -> r < n ->
  in_kernel m (beside mid x r) <-> forall i, i < rowCount m -> sum mid (fun c => (get m i c * x c)%Qc) = get m i (mid + r).
Proof.
  intros m mid n x r C Hr. unfold in_kernel. rewrite C. split; intros H i Hi; specialize (H i Hi).
  - rewrite beside_sum in H by auto. transitivity (sum mid (fun c => (get m i c * x c)%Qc) - get m i (mid + r) + get m i (mid + r))%Qc; [ring|]. rewrite H. ring.
  - rewrite beside_sum by auto. rewrite H. ring.
Qed.
Lemma append_kernel : forall a b x r, r < colCount b ->
  in_kernel (append_cols a b) (beside (colCount a) x r) <->
  forall i, i < rowCount a -> sum (colCount a) (fun c => (get a i c * x c)%Qc) = get b i r.
Proof.
  intros a b x r Hr. destruct (append_dims a b) as (R & C). rewrite (beside_kernel _ _ (colCount b)) by auto. rewrite R.
  split; intros H i Hi; specialize (H i Hi).
  - rewrite get_append in H by lia. replace (colCount a + r <? colCount a) with false in H by (symmetry; apply Nat.ltb_ge; lia).
    replace (colCount a + r - colCount a) with r in H by lia. rewrite <- H. apply sum_ext. intros c Hc. rewrite get_append by lia.
    apply Nat.ltb_lt in Hc. rewrite Hc. reflexivity.
  - rewrite get_append by lia. replace (colCount a + r <? colCount a) with false by (symmetry; apply Nat.ltb_ge; lia).
    replace (colCount a + r - colCount a) with r by lia. rewrite <- H. apply sum_ext. intros c Hc. rewrite get_append by lia.
    apply Nat.ltb_lt in Hc. rewrite Hc. reflexivity.
Qed.

(** ** Pivots *)
Lemma pivot_increasing : forall m k p i j, echelon m k p -> i <= j -> j < k -> p i + (j - i) <= p j.
Proof.
  intros m k p i j E Hij. destruct E as (_ & _ & E2 & _). induction j; intros Hj.
  - replace i with 0 by lia. lia.
  - destruct (Nat.eq_dec i (S j)) as [->|N]; [lia|]. pose proof (E2 j (S j) ltac:(lia) Hj). pose proof (IHj ltac:(lia) ltac:(lia)). lia.
Qed.
Lemma pivot_inj : forall m k p i j, echelon m k p -> i < k -> j < k -> p i = p j -> i = j.
Proof.
  intros m k p i j (_ & _ & E2 & _) Hi Hj E. destruct (Nat.lt_trichotomy i j) as [L|[L|L]]; auto.
  - pose proof (E2 i j L Hj). lia.
  - pose proof (E2 j i L Hi). lia.
Qed.
Lemma pivot_dec : forall (k : nat) (p : nat -> nat) c, {i | i < k /\ p i = c} + {forall i, i < k -> p i <> c}.
Proof.
  induction k; intros p c; [right; intros; lia|]. destruct (Nat.eq_dec (p k) c) as [E|N]; [left; exists k; lia|].
  destruct (IHk p c) as [(i & Hi & E)|H]; [left; exists i; lia|]. right. intros i Hi. destruct (Nat.eq_dec i k) as [->|]; [auto|apply H; lia].
Qed.
Lemma free_dec : forall n (k : nat) (p : nat -> nat), (forall c, c < n -> exists i, i < k /\ p i = c) \/ exists f, f < n /\ forall i, i < k -> p i <> f.
Proof.
  induction n; intros k p; [left; intros; lia|]. destruct (IHn k p) as [H|(f & Hf & H)]; [|right; exists f; split; [lia|auto]].
  destruct (pivot_dec k p n) as [(i & Hi & E)|N].
  - left. intros c Hc. destruct (Nat.eq_dec c n) as [->|]; [exists i; auto|apply H; lia].
  - right. exists n. auto.
Qed.
Lemma all_pivots : forall m k p n, echelon m k p -> (forall c, c < n -> exists i, i < k /\ p i = c) -> n <= k /\ forall i, i < n -> p i = i.
Proof.
  intros m k p n E. induction n; intros H; [split; [lia|intros; lia]|].
  destruct IHn as (L & Q); [intros c Hc; apply H; lia|]. destruct (H n (Nat.lt_succ_diag_r n)) as (i & Hi & Ei).
  assert (i = n). { pose proof (pivot_increasing m k p 0 i E ltac:(lia) Hi). destruct (Nat.eq_dec i n); auto. pose proof (Q i ltac:(lia)). lia. }
  subst i. split; [lia|]. intros j Hj. destruct (Nat.eq_dec j n) as [->|]; auto. apply Q. lia.
Qed.

(** The vector of the kernel with 1 at the free column f *)
Definition nullv (m : matrix) (k : nat) (p : nat -> nat) (f c : nat) : Qc :=
  if c =? f then 1q else match pivot_dec k p c with inleft (exist _ i _) => (- get m i f)%Qc | inright _ => 0q end.
Lemma nullv_pivot : forall m k p f i, reduced m k p -> (forall i, i < k -> p i <> f) -> i < k -> nullv m k p f (p i) = (- get m i f)%Qc.
Proof.
  intros m k p f i (E & _) F Hi. unfold nullv. destruct (Nat.eqb_spec (p i) f) as [e|_]; [destruct (F i Hi e)|].
  destruct (pivot_dec k p (p i)) as [(j & Hj & Ej)|N]; [|destruct (N i Hi eq_refl)]. rewrite (pivot_inj _ _ _ j i E Hj Hi Ej). reflexivity.
Qed.
Lemma nullv_free : forall m k p f c, (forall i, i < k -> p i <> c) -> nullv m k p f c = if c =? f then 1q else 0q.
Proof. intros m k p f c F. unfold nullv. destruct (c =? f); auto. destruct (pivot_dec k p c) as [(j & Hj & Ej)|N]; auto. destruct (F j Hj Ej). Qed.
Lemma nullv_after : forall m k p f c, reduced m k p -> (forall i, i < k -> p i <> f) -> f < c -> nullv m k p f c = 0q.
Proof.
  intros m k p f c R F L. destruct (pivot_dec k p c) as [(j & Hj & <-)|N].
  - rewrite nullv_pivot by auto. destruct R as ((_ & E1 & _) & _). destruct (E1 j Hj) as (_ & _ & D). rewrite (D f L). ring.
  - rewrite nullv_free by auto. replace (c =? f) with false by (symmetry; apply Nat.eqb_neq; lia). reflexivity.
Qed.
Lemma nullv_kernel : forall m k p f, reduced m k p -> (forall i, i < k -> p i <> f) -> f < colCount m -> in_kernel m (nullv m k p f).
Proof.
  intros m k p f Rd F Hf r Hr. pose proof Rd as ((Hk & E1 & E2 & E3) & N). pose proof (proj1 Rd) as E. destruct (Nat.lt_ge_cases r k) as [L|L].
  2: { apply sum_zero. intros c Hc. rewrite E3 by auto. ring. }
  rewrite (sum_ext _ _ (fun c => ((if c =? f then get m r f else 0q) + (if c =? p r then - get m r f else 0q))%Qc)).
  - rewrite <- sum_add. rewrite (sum_delta _ f), (sum_delta _ (p r)); auto; [rewrite !Nat.eqb_refl; ring|apply E1; auto| |];
      intros j _ NE; apply Nat.eqb_neq in NE; rewrite NE; reflexivity.
  - intros c Hc. destruct (pivot_dec k p c) as [(j & Hj & <-)|NP].
    + rewrite nullv_pivot by auto. rewrite (N j r Hj L). destruct (Nat.eqb_spec (p j) f) as [e|_]; [destruct (F j Hj e)|].
      destruct (Nat.eqb_spec r j) as [->|NE]; [rewrite Nat.eqb_refl; ring|].
      replace (p j =? p r) with false; [ring|]. symmetry. apply Nat.eqb_neq. intros e. apply NE. symmetry. apply (pivot_inj _ _ _ j r E Hj L e).
    + rewrite nullv_free by auto. replace (c =? p r) with false by (symmetry; apply Nat.eqb_neq; intros e; apply (NP r L); auto).
      destruct (Nat.eqb_spec c f) as [->|]; ring.
Qed.

(** ** solve *)
Lemma extract_ok : forall S k p mid n cnt c i, reduced S k p -> c + cnt <= mid -> mid <= colCount S -> i <= k ->
  (forall j, j < i -> p j < c) -> (forall j, i <= j -> j < k -> c <= p j) ->
  length (extract S mid n (seq c cnt) i) = cnt /\
  forall x, c <= x -> x < c + cnt ->
    (forall j, j < k -> p j = x -> nth (x - c) (extract S mid n (seq c cnt) i) [] = map (fun r => get S j (mid + r)) (seq 0 n)) /\
    ((forall j, j < k -> p j <> x) -> nth (x - c) (extract S mid n (seq c cnt) i) [] = map (fun _ => 0q) (seq 0 n)).
Proof.
  intros S k p mid n cnt. induction cnt; intros c i Rd Hc Hm Hi Lo Hi'; [split; [auto|intros; lia]|].
  pose proof Rd as ((Hk & E1 & E2 & E3) & N).
  cbn [seq extract].
  assert (Cases : (i < k /\ p i = c) \/ ((i = k \/ c < p i) /\ ((i =? rowCount S) || is_zero (get S i c)) = true)).
  { destruct (Nat.eq_dec i k) as [->|NE].
    - right. split; [auto|]. destruct (Nat.eqb_spec k (rowCount S)) as [|NK]; [reflexivity|]. apply is_zero_iff. apply E3; lia.
    - destruct (Nat.eq_dec (p i) c) as [e|NP]; [left; split; [lia|auto]|right]. pose proof (Hi' i ltac:(lia) ltac:(lia)). split; [lia|].
      replace (is_zero (get S i c)) with true; [apply orb_true_r|]. symmetry. apply is_zero_iff. apply E1; lia. }
  destruct Cases as [(Lt & Pi)|(W & T)].
  - assert (T : (i =? rowCount S) || is_zero (get S i c) = false).
    { replace (i =? rowCount S) with false by (symmetry; apply Nat.eqb_neq; lia). cbn [orb]. apply is_zero_false. rewrite <- Pi. apply E1. auto. }
    rewrite T. destruct (IHcnt (Datatypes.S c) (Datatypes.S i) Rd ltac:(lia) Hm ltac:(lia)) as (Ln & H).
    { intros j Hj. destruct (Nat.eq_dec j i) as [->|]; [lia|]. pose proof (Lo j ltac:(lia)). lia. }
    { intros j Hj Hjk. pose proof (E2 i j ltac:(lia) Hjk). lia. }
    split; [cbn [length]; lia|]. intros x Hx Hx'. destruct (Nat.eq_dec x c) as [->|NX].
    + rewrite Nat.sub_diag. cbn [nth]. split.
      * intros j Hj e. replace j with i; auto. apply (pivot_inj _ _ _ i j (proj1 Rd)); auto. lia.
      * intros F. destruct (F i Lt Pi).
    + replace (x - c) with (Datatypes.S (x - Datatypes.S c)) by lia. cbn [nth]. apply H; lia.
  - rewrite T. destruct (IHcnt (Datatypes.S c) i Rd ltac:(lia) Hm Hi) as (Ln & H).
    { intros j Hj. pose proof (Lo j Hj). lia. }
    { intros j Hj Hjk. destruct W as [->|W]; [lia|]. destruct (Nat.eq_dec j i) as [->|]; [lia|]. pose proof (E2 i j ltac:(lia) Hjk). lia. }
    split; [cbn [length]; lia|]. intros x Hx Hx'. destruct (Nat.eq_dec x c) as [->|NX].
    + rewrite Nat.sub_diag. cbn [nth]. split; [|auto]. intros j Hj e. exfalso.
      destruct (Nat.lt_ge_cases j i) as [L|L]; [pose proof (Lo j L); lia|]. destruct W as [->|W]; [lia|].
      destruct (Nat.eq_dec j i) as [->|]; [lia|]. pose proof (E2 i j ltac:(lia) Hj). lia.
    + replace (x - c) with (Datatypes.S (x - Datatypes.S c)) by lia. cbn [nth]. apply H; lia.
Qed.
Lemma get_rows : forall rows cols l r c n f, nth r l [] = map f (seq 0 n) -> c < n -> get (Matrix rows cols l) r c = f c.
Proof.
  intros rows cols l r c n f E Hc. unfold get. cbn [entries]. rewrite E. rewrite (nth_indep _ 0q (f 0)) by (rewrite map_length, seq_length; auto).
  rewrite map_nth, seq_nth by auto. reflexivity.
Qed.
Lemma extract_lengths : forall S mid n cols i row, In row (extract S mid n cols i) -> length row = n.
Proof.
  intros S mid n cols. induction cols as [|c cols IH]; intros i row H; [destruct H|]. cbn [extract] in H.
  destruct (_ || _); destruct H as [<-|H]; try (rewrite map_length, seq_length; reflexivity); eapply IH; eauto.
Qed.

Definition solvable_col (a b : matrix) (r : nat) (x : vector) : Prop :=
  forall i, i < rowCount a -> sum (colCount a) (fun c => (get a i c * x c)%Qc) = get b i r.
Lemma solve_ok : forall a b,
  (exists s, solve a b = Ok (Some s) /\ well_formed s /\ rowCount s = colCount a /\ colCount s = colCount b /\
     forall r, r < colCount b -> solvable_col a b r (fun c => get s c r)) \/
  (solve a b = Ok None /\ exists r, r < colCount b /\ forall x, ~ solvable_col a b r x).
Proof.
  intros a b. unfold solve. destruct (rowReduceFully_ok (append_cols a b)) as (S & k & p & -> & Q & Rd). cbn [rbind].
  destruct (append_dims a b) as (R & C). pose proof Q as (RS & CS & _). rewrite R in RS. rewrite C in CS.
  pose proof Rd as ((Hk & E1 & E2 & E3) & N).
  destruct (existsb _ _) eqn:X.
  - right. split; [auto|]. apply existsb_exists in X. destruct X as (row & Hrow & X). apply in_seq in Hrow. apply andb_prop in X. destruct X as (Left & Right).
    apply existsb_exists in Right. destruct Right as (c & Hc & NZ). apply in_seq in Hc. apply negb_true_iff, is_zero_false in NZ.
    rewrite forallb_forall in Left. exists (c - colCount a). split; [lia|]. intros x Sx.
    apply (append_kernel a b x (c - colCount a)) in Sx; [|lia]. apply (equiv_kernel _ _ _ Q) in Sx.
    rewrite (beside_kernel S (colCount a) (colCount b)) in Sx by lia. specialize (Sx row ltac:(lia)).
    replace (colCount a + (c - colCount a)) with c in Sx by lia. apply NZ. rewrite <- Sx. apply sum_zero. intros i Hi.
    assert (Z : get S row i = 0q) by (apply is_zero_iff, Left, in_seq; lia). rewrite Z. ring.
  - left.
    assert (Pl : forall i, i < k -> p i < colCount a).
    { intros i Hi. destruct (Nat.lt_ge_cases (p i) (colCount a)) as [|L]; auto. exfalso.
      assert (T : existsb (fun row => forallb (fun col => is_zero (get S row col)) (seq 0 (colCount a)) &&
                    existsb (fun col => negb (is_zero (get S row col))) (seq (colCount a) (colCount S - colCount a))) (seq 0 (rowCount S)) = true).
      { apply existsb_exists. exists i. split; [apply in_seq; lia|]. destruct (E1 i Hi) as (A & B & D). apply andb_true_intro. split.
        - apply forallb_forall. intros c Hc. apply in_seq in Hc. apply is_zero_iff. apply D. lia.
        - apply existsb_exists. exists (p i). split; [apply in_seq; lia|]. apply negb_true_iff, is_zero_false. auto. }
      congruence. }
    destruct (extract_ok S k p (colCount a) (colCount b) (colCount a) 0 0 Rd ltac:(lia) ltac:(lia) ltac:(lia) ltac:(intros; lia) ltac:(intros; lia)) as (Ln & H).
    set (s := Matrix (colCount a) (colCount b) (extract S (colCount a) (colCount b) (seq 0 (colCount a)) 0)).
    exists s. split; [reflexivity|]. split; [split; [exact Ln|intros row Hr; eapply extract_lengths; exact Hr]|]. split; [reflexivity|split; [reflexivity|]].
    intros r Hr. unfold solvable_col. apply (proj1 (append_kernel a b (fun c => get s c r) r Hr)). apply (equiv_kernel _ _ _ Q). rewrite (beside_kernel S (colCount a) (colCount b)) by lia.
    intros i Hi. destruct (Nat.lt_ge_cases i k) as [L|L].
    + rewrite (sum_delta (colCount a) (p i)).
      * rewrite (N i i L L), Nat.eqb_refl. destruct (H (p i) ltac:(lia) (Pl i L)) as (G & _). rewrite Nat.sub_0_r in G.
        unfold s. rewrite (get_rows _ _ _ _ r _ _ (G i L eq_refl) Hr). ring.
      * apply Pl. auto.
      * intros c Hc NE. destruct (pivot_dec k p c) as [(j & Hj & <-)|F].
        -- rewrite (N j i Hj L). destruct (Nat.eqb_spec i j) as [->|]; [destruct NE; reflexivity|ring].
        -- destruct (H c ltac:(lia) Hc) as (_ & G). rewrite Nat.sub_0_r in G. unfold s. rewrite (get_rows _ _ _ _ r _ _ (G F) Hr). ring.
    + rewrite (E3 i (colCount a + r)) by lia. apply sum_zero. intros c Hc. rewrite E3 by lia. ring.
Qed.

(** ** inverse *)
Lemma get_identity : forall m n r c, rowCount m = n -> colCount m = n -> r < n -> c < n + n ->
  get (put_identity (resize m n (n + n)) n) r c = if c <? n then get m r c else if c =? n + r then 1q else 0q.
Proof.
  intros m n r c R C Hr Hc. unfold put_identity. destruct (resize_dims m n (n + n)) as (A & B). rewrite get_build by lia.
  rewrite get_resize by lia. replace (r <? rowCount m) with true by (symmetry; apply Nat.ltb_lt; lia). rewrite C. cbn [andb].
  destruct (Nat.ltb_spec c n) as [L|L]; [|reflexivity].
  replace (c =? n + r) with false by (symmetry; apply Nat.eqb_neq; lia). reflexivity.
Qed.
Lemma identity_sum : forall m n w r, rowCount m = n -> colCount m = n -> r < n ->
  sum (n + n) (fun c => (get (put_identity (resize m n (n + n)) n) r c * w c)%Qc) = (sum n (fun c => (get m r c * w c)%Qc) + w (n + r)%nat)%Qc.
Proof.
  intros m n w r R C Hr. rewrite sum_app. f_equal.
  - apply sum_ext. intros c Hc. rewrite get_identity by (auto; lia). apply Nat.ltb_lt in Hc. rewrite Hc. reflexivity.
  - rewrite (sum_delta n r); [|auto|].
    + rewrite get_identity by (auto; lia). replace (n + r <? n) with false by (symmetry; apply Nat.ltb_ge; lia). rewrite Nat.eqb_refl. ring.
    + intros j Hj NE. rewrite get_identity by (auto; lia). replace (n + j <? n) with false by (symmetry; apply Nat.ltb_ge; lia).
      replace (n + j =? n + r) with false by (symmetry; apply Nat.eqb_neq; lia). ring.
Qed.
Lemma inverse_ok : forall a n, rowCount a = n -> colCount a = n -> 0 < n ->
  (exists b, inverse a = Ok (Some b) /\ well_formed b /\ rowCount b = n /\ colCount b = n /\
     (forall r c, r < n -> c < n -> sum n (fun i => (get a r i * get b i c)%Qc) = if r =? c then 1q else 0q) /\
     (forall r c, r < n -> c < n -> sum n (fun i => (get b r i * get a i c)%Qc) = if r =? c then 1q else 0q)) \/
  (inverse a = Ok None /\ exists x, in_kernel a x /\ exists i, i < n /\ x i <> 0q).
Proof.
  intros a n R C Hn. unfold inverse. rewrite R.
  set (sys := put_identity (resize a n (n + n)) n).
  assert (RS : rowCount sys = n) by (unfold sys, put_identity; cbn; apply resize_dims).
  assert (CS : colCount sys = n + n) by (unfold sys, put_identity; cbn; apply resize_dims).
  destruct (rowReduceFully_ok sys) as (S & k & p & -> & Q & Rd). cbn [rbind]. pose proof Q as (R' & C' & _).
  pose proof Rd as (E & N). pose proof E as (Hk & E1 & E2 & E3).
  destruct n as [|last]; [lia|]. set (n := Datatypes.S last) in *.
  assert (Ker : forall w, in_kernel S w <-> forall r, r < n -> (sum n (fun c => (get a r c * w c)%Qc) + w (n + r)%nat)%Qc = 0q).
  { intros w. rewrite <- (equiv_kernel _ _ _ Q). unfold in_kernel. rewrite RS, CS. split; intros H r Hr; specialize (H r Hr).
    - unfold sys in H. rewrite identity_sum in H by auto. auto.
    - unfold sys. rewrite identity_sum by auto. auto. }
  destruct (is_zero (get S last last)) eqn:Z.
  - right. split; [auto|]. apply is_zero_iff in Z. destruct (free_dec n k p) as [All|(f & Hf & F)].
    + exfalso. destruct (all_pivots S k p n E All) as (L & P). pose proof (P last ltac:(lia)) as Pl. pose proof (N last last ltac:(lia) ltac:(lia)) as X.
      rewrite Pl, Nat.eqb_refl, Z in X. discriminate X.
    + exists (nullv S k p f). assert (K : in_kernel S (nullv S k p f)) by (apply nullv_kernel; auto; lia). rewrite Ker in K. split.
      * intros r Hr. rewrite R in Hr. rewrite C. specialize (K r Hr). rewrite (nullv_after S k p f (n + r)) in K by (auto; lia).
        rewrite <- K. ring.
      * exists f. split; [auto|]. rewrite nullv_free, Nat.eqb_refl by auto. discriminate.
  - left. apply is_zero_false in Z.
    assert (Lk : last < k). { destruct (Nat.lt_ge_cases last k); auto. destruct Z. apply E3; lia. }
    assert (Pl : p last <= last). { destruct (Nat.le_gt_cases (p last) last); auto. destruct Z. apply E1; auto. }
    assert (P : forall i, i < n -> p i = i).
    { intros i Hi. pose proof (pivot_increasing S k p i last E ltac:(lia) Lk). pose proof (pivot_increasing S k p 0 i E ltac:(lia) ltac:(lia)). lia. }
    assert (Hk' : k = n) by lia.
    assert (Id : forall r c, r < n -> c < n -> get S r c = if r =? c then 1q else 0q).
    { intros r c Hr Hc. rewrite <- (P c Hc) at 1. apply N; lia. }
    set (b := subMatrix S 0 n n (2 * n)). exists b. split; [reflexivity|]. split; [apply well_build|]. split; [cbn; lia|]. split; [unfold b, subMatrix; cbn [colCount build]; lia|].
    assert (B : forall r c, r < n -> c < n -> get b r c = get S r (n + c)).
    { intros r c Hr Hc. unfold b, subMatrix. rewrite get_build by lia. reflexivity. }
    assert (Left : forall w r, r < n -> sum (n + n) (fun c => (get S r c * w c)%Qc) = (w r + sum n (fun i => (get b r i * w (n + i)%nat)%Qc))%Qc).
    { intros w r Hr. rewrite sum_app. f_equal.
      - rewrite (sum_delta n r); auto; [rewrite Id, Nat.eqb_refl by auto; ring|]. intros j Hj NE. rewrite Id by auto.
        replace (r =? j) with false by (symmetry; apply Nat.eqb_neq; auto). ring.
      - apply sum_ext. intros i Hi. rewrite B by auto. reflexivity. }
    assert (KS : forall w, in_kernel S w <-> forall r, r < n -> (w r + sum n (fun i => (get b r i * w (n + i)%nat)%Qc))%Qc = 0q).
    { intros w. unfold in_kernel. rewrite <- R', <- C', RS, CS. split; intros H r Hr; specialize (H r Hr); [rewrite Left in H by auto|rewrite Left by auto]; auto. }
    split.
    + intros r c Hr Hc. set (w := fun i => if i <? n then get b i c else if i =? n + c then (- (1))%Qc else 0q).
      assert (K : in_kernel S w).
      { apply KS. intros i Hi. rewrite (sum_delta n c); auto.
        - unfold w. replace (n + c <? n) with false by (symmetry; apply Nat.ltb_ge; lia). rewrite Nat.eqb_refl. apply Nat.ltb_lt in Hi. rewrite Hi. ring.
        - intros j Hj NE. unfold w. replace (n + j <? n) with false by (symmetry; apply Nat.ltb_ge; lia).
          replace (n + j =? n + c) with false by (symmetry; apply Nat.eqb_neq; lia). ring. }
      rewrite Ker in K. specialize (K r Hr). unfold w in K. replace (n + r <? n) with false in K by (symmetry; apply Nat.ltb_ge; lia).
      rewrite (sum_ext n _ (fun i => (get a r i * get b i c)%Qc)) in K by (intros i Hi; apply Nat.ltb_lt in Hi; rewrite Hi; reflexivity).
      set (s := sum n _) in *. destruct (Nat.eqb_spec r c) as [->|NE].
      * rewrite Nat.eqb_refl in K. replace s with (s + - (1) + 1)%Qc by ring. rewrite K. ring.
      * replace (n + r =? n + c) with false in K by (symmetry; apply Nat.eqb_neq; lia). rewrite <- K. ring.
    + intros r c Hr Hc. set (w := fun i => if i <? n then (if i =? c then 1q else 0q) else (- get a (i - n) c)%Qc).
      assert (K : in_kernel S w).
      { apply Ker. intros i Hi. rewrite (sum_delta n c); auto.
        - unfold w. replace (n + i <? n) with false by (symmetry; apply Nat.ltb_ge; lia). rewrite Nat.eqb_refl. replace (n + i - n) with i by lia.
          apply Nat.ltb_lt in Hc. rewrite Hc. ring.
        - intros j Hj NE. unfold w. apply Nat.ltb_lt in Hj. rewrite Hj. apply Nat.eqb_neq in NE. rewrite NE. ring. }
      rewrite KS in K. specialize (K r Hr). unfold w in K.
      rewrite (sum_ext n _ (fun i => (- (1) * (get b r i * get a i c))%Qc)) in K.
      * rewrite <- sum_scale in K. set (s := sum n _) in *. replace (r <? n) with true in K by (symmetry; apply Nat.ltb_lt; auto).
        replace s with ((if r =? c then 1 else 0) - ((if r =? c then 1 else 0) + - (1) * s))%Qc by ring. rewrite K. destruct (r =? c); ring.
      * intros i Hi. replace (n + i <? n) with false by (symmetry; apply Nat.ltb_ge; lia). replace (n + i - n) with i by lia. ring.
Qed.
