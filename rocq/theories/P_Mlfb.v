(** Maximal lattice free bodies and irreducible components. *)
From Coq Require Import List Arith Bool ZArith Lia Permutation.
Import ListNotations.
From Verif Require Import M_Term P_Term P_SatBinom P_SatBinom2 Spec_SatBinom Spec_Mlfb Spec.
Local Open Scope nat_scope.
Local Notation length := List.length.

Section Bodies.
Variables (n : nat) (gens : list (list Z)) (D : list mono).
Hypothesis V : vectors n gens.
Hypothesis O : one_sided n gens.
Let M := map initial_monomial gens.
Hypothesis HD : irreducible_decomposition n M D.
Definition mk (f : nat -> nat) : mono := map f (seq 0 n).
Lemma mk_length f : length (mk f) = n.
Proof. unfold mk. now rewrite map_length, seq_length. Qed.
Lemma mk_nth f i : i < n -> nth i (mk f) 0 = f i.
Proof. intros H. unfold mk. rewrite nth_indep with (d' := f 0) by (rewrite map_length, seq_length; auto). rewrite map_nth, seq_nth; auto. Qed.
Lemma mk_over f i : n <= i -> nth i (mk f) 0 = 0.
Proof. intros H. apply nth_overflow. now rewrite mk_length. Qed.
Lemma gen_length g : In g gens -> length g = n.
Proof. intros H. unfold vectors in V. rewrite Forall_forall in V. auto. Qed.
Lemma in_M m : length m = n -> (in_ideal M m <-> exists g, In g gens /\ forall i, i < n -> Z.to_nat (coordinate g i) <= nth i m 0).
Proof.
  intros L. unfold in_ideal, M. split.
  - intros (h & H & E). apply in_map_iff in H. destruct H as (g & <- & H). exists g. split; auto. intros i Hi.
    apply divs_iff with (n := n) in E; auto; [|unfold initial_monomial; rewrite map_length; now apply gen_length]. specialize (E i Hi). unfold le_n in E. now rewrite im_nth in E.
  - intros (g & H & E). exists (initial_monomial g). split; [now apply in_map|]. apply divs_iff with (n := n); auto; [unfold initial_monomial; rewrite map_length; now apply gen_length|].
    intros i Hi. rewrite im_nth. auto.
Qed.
Lemma first_zero g : In g gens -> Z.to_nat (coordinate g 0) = 0.
Proof. intros H. destruct O as (_ & O1 & _). destruct (O1 g H). lia. Qed.
Lemma comp_length c : In c D -> length c = n.
Proof. destruct HD as (H & _). unfold in_ring in H. rewrite Forall_forall in H. auto. Qed.
Lemma in_all m : length m = n -> (in_ideal M m <-> forall c, In c D -> in_irreducible c m).
Proof. destruct HD as (_ & _ & H & _). auto. Qed.
(** The witness of a component *)
Lemma witness c : In c D -> exists w, length w = n /\ ~ in_ideal M w /\ (forall c', In c' D -> c' <> c -> in_irreducible c' w) /\ ~ in_irreducible c w.
Proof.
  intros H. destruct HD as (_ & _ & _ & W). destruct (W c H) as (w & L & N & A). exists w. split; auto. split; auto. split; auto.
  intros X. apply N. apply in_all; auto. intros c' H'. destruct (list_eq_dec Nat.eq_dec c' c) as [->|E]; auto.
Qed.
Lemma in_irr_lt c m : length c = n -> in_irreducible c m -> exists i, i < n /\ 0 < nth i c 0 /\ nth i c 0 <= nth i m 0.
Proof.
  intros L (k & A & B). exists k. split; auto. destruct (le_lt_dec n k); auto. rewrite nth_overflow in A by lia. lia.
Qed.
Lemma comp_zero c : In c D -> nth 0 c 0 = 0.
Proof.
  intros H. destruct (Nat.eq_dec (nth 0 c 0) 0) as [|N]; auto. exfalso. pose proof (comp_length c H) as L.
  assert (P : 0 < n) by (destruct c; cbn in *; lia).
  destruct (witness c H) as (w & Lw & W1 & W2 & W3).
  set (m := mk (fun i => if i =? 0 then nth 0 c 0 else nth i w 0)).
  assert (E : ~ in_ideal M m).
  { intros X. apply W1. apply in_M in X; [|apply mk_length]. apply in_M; auto. destruct X as (g & G & X). exists g. split; auto. intros i Hi.
    destruct (Nat.eq_dec i 0) as [->|]; [rewrite (first_zero g G); lia|]. specialize (X i Hi). unfold m in X. rewrite mk_nth in X by auto. destruct (Nat.eqb_spec i 0); [lia|auto]. }
  apply E, in_all; [apply mk_length|]. intros c' H'. destruct (list_eq_dec Nat.eq_dec c' c) as [->|X].
  - exists 0. split; [lia|]. unfold m. rewrite mk_nth by auto. cbn. lia.
  - destruct (in_irr_lt c' w (comp_length c' H') (W2 c' H' X)) as (i & I1 & I2 & I3). exists i. split; auto. unfold m. rewrite mk_nth by auto.
    destruct (Nat.eqb_spec i 0) as [->|]; auto. etransitivity; [exact I3|]. destruct (le_lt_dec (nth 0 w 0) (nth 0 c 0)); auto.
    exfalso. apply W3. exists 0. lia.
Qed.
Lemma comp_pos c i : In c D -> 1 <= i < n -> 0 < nth i c 0.
Proof.
  intros H Hi. destruct O as (_ & _ & O2). destruct (O2 i Hi) as (g & G & X).
  set (m := mk (fun j => if j =? i then Z.to_nat (coordinate g i) else 0)).
  assert (A : in_ideal M m).
  { apply in_M; [apply mk_length|]. exists g. split; auto. intros j Hj. unfold m. rewrite mk_nth by auto. destruct (Nat.eqb_spec j i) as [->|N]; auto. specialize (X j Hj N). lia. }
  pose proof (proj1 (in_all _ (mk_length _)) A) as A'; clear A; rename A' into A. destruct (in_irr_lt c m (comp_length c H) (A c H)) as (k & K1 & K2 & K3). unfold m in K3. rewrite mk_nth in K3 by auto.
  destruct (Nat.eqb_spec k i) as [<-|]; lia.
Qed.
Lemma corner_out c : In c D -> ~ in_ideal M (mk (fun i => nth i c 0 - 1)).
Proof.
  intros H X. pose proof (proj1 (in_all _ (mk_length _)) X) as X'; clear X; rename X' into X. destruct (in_irr_lt c _ (comp_length c H) (X c H)) as (i & A & B & C). rewrite mk_nth in C by auto. lia.
Qed.
Lemma facet_point c i : In c D -> 1 <= i < n -> exists g, In g gens /\ Z.to_nat (coordinate g i) = nth i c 0 /\ forall j, j < n -> j <> i -> Z.to_nat (coordinate g j) <= nth j c 0 - 1.
Proof.
  intros H Hi. set (m := mk (fun j => if j =? i then nth j c 0 else nth j c 0 - 1)).
  assert (A : in_ideal M m).
  { apply in_all; [apply mk_length|]. intros c' H'. destruct (list_eq_dec Nat.eq_dec c' c) as [->|X].
    - exists i. split; [now apply comp_pos|]. unfold m. rewrite mk_nth, Nat.eqb_refl by lia. auto.
    - destruct (witness c H) as (w & Lw & W1 & W2 & W3). destruct (in_irr_lt c' w (comp_length c' H') (W2 c' H' X)) as (k & K1 & K2 & K3).
      exists k. split; auto. etransitivity; [exact K3|]. unfold m. rewrite mk_nth by auto.
      assert (k <> 0) by (intros ->; rewrite (comp_zero c' H') in K2; lia).
      assert (nth k w 0 < nth k c 0). { destruct (le_lt_dec (nth k c 0) (nth k w 0)); auto. exfalso. apply W3. exists k. split; auto. apply comp_pos; auto. lia. }
      destruct (k =? i); lia. }
  apply in_M in A; [|apply mk_length]. destruct A as (g & G & X). exists g. split; auto.
  assert (Y : forall j, j < n -> j <> i -> Z.to_nat (coordinate g j) <= nth j c 0 - 1).
  { intros j Hj N. specialize (X j Hj). unfold m in X. rewrite mk_nth in X by auto. destruct (Nat.eqb_spec j i); [lia|auto]. }
  split; auto. pose proof (X i ltac:(lia)) as E. unfold m in E. rewrite mk_nth, Nat.eqb_refl in E by lia.
  destruct (Nat.eq_dec (Z.to_nat (coordinate g i)) (nth i c 0)); auto. exfalso. apply (corner_out c H). apply in_M; [apply mk_length|]. exists g. split; auto.
  intros j Hj. rewrite mk_nth by auto. destruct (Nat.eq_dec j i) as [->|]; [lia|auto].
Qed.
Lemma of_nat_nth (c : list nat) i : coordinate (map Z.of_nat c) i = Z.of_nat (nth i c 0).
Proof. change 0%Z with (Z.of_nat 0). now rewrite map_nth. Qed.
Lemma repeat_nth i : coordinate (repeat 0%Z n) i = 0%Z.
Proof. generalize n as k. intros k. revert i. induction k; intros [|i]; cbn; auto. Qed.
Lemma comp_maximal c : In c D -> maximal_free n gens (map Z.of_nat c).
Proof.
  intros H. split; [rewrite map_length; now apply comp_length|]. split; [|split].
  - split; [rewrite repeat_nth, of_nat_nth, (comp_zero c H); auto|]. intros j Hj N. rewrite repeat_nth, of_nat_nth. pose proof (comp_pos c j H). lia.
  - intros i Hi. destruct (facet_point c i H Hi) as (g & G & A & B). exists g. split; auto. pose proof (comp_pos c i H Hi). split; [rewrite of_nat_nth; lia|].
    intros j Hj N. rewrite of_nat_nth. specialize (B j Hj N). destruct (Nat.eq_dec j 0) as [->|]; [rewrite (comp_zero c H); destruct O as (_ & O1 & _); destruct (O1 g G); lia|].
    pose proof (comp_pos c j H). lia.
  - intros g G. assert (X : in_ideal M (mk (fun i => Z.to_nat (coordinate g i)))).
    { apply in_M; [apply mk_length|]. exists g. split; auto. intros i Hi. now rewrite mk_nth. }
    pose proof (proj1 (in_all _ (mk_length _)) X) as X'; clear X; rename X' into X. destruct (in_irr_lt c _ (comp_length c H) (X c H)) as (i & A & B & C). rewrite mk_nth in C by auto. exists i. split; auto. rewrite of_nat_nth. lia.
Qed.
Lemma maximal_comp b : maximal_free n gens b -> In (map Z.to_nat b) D /\ map Z.of_nat (map Z.to_nat b) = b.
Proof.
  intros (L & (Z1 & Z2) & F & Fr).
  assert (P : forall j, 1 <= j < n -> (0 < coordinate b j)%Z). { intros j Hj. pose proof (Z2 j ltac:(lia) ltac:(lia)) as Q. rewrite repeat_nth in Q. exact Q. }
  rewrite repeat_nth in Z1.
  assert (E : map Z.of_nat (map Z.to_nat b) = b).
  { rewrite map_map. rewrite <- (map_id b) at 2. apply map_ext_in. intros z Hz. apply In_nth with (d := 0%Z) in Hz. destruct Hz as (j & Hj & <-).
    destruct (Nat.eq_dec j 0) as [->|]; [rewrite <- Z1; auto|]. specialize (P j ltac:(lia)). lia. }
  split; auto. set (e := fun i => Z.to_nat (coordinate b i)). set (m := mk (fun i => e i - 1)).
  assert (N : ~ in_ideal M m).
  { intros X. apply in_M in X; [|apply mk_length]. destruct X as (g & G & X). destruct (Fr g G) as (i & Hi & Y). specialize (X i Hi). unfold m in X. rewrite mk_nth in X by auto. unfold e in X.
    destruct (Nat.eq_dec i 0) as [->|]; [destruct O as (_ & O1 & _); destruct (O1 g G); lia|]. specialize (P i ltac:(lia)). lia. }
  assert (exists c, In c D /\ ~ in_irreducible c m) as (c & H & X).
  { assert (Dec : forall c, length c = n -> in_irreducible c m \/ ~ in_irreducible c m).
    { intros c Lc. destruct (existsb (fun i => (0 <? nth i c 0) && (nth i c 0 <=? nth i m 0)) (seq 0 n)) eqn:Ex.
      - left. apply existsb_exists in Ex. destruct Ex as (i & _ & Ex). apply andb_true_iff in Ex. destruct Ex as [A B]. exists i. apply Nat.ltb_lt in A. apply Nat.leb_le in B. auto.
      - right. intros Y. destruct (in_irr_lt c m Lc Y) as (i & A & B & C). assert (Ex' : existsb (fun i => (0 <? nth i c 0) && (nth i c 0 <=? nth i m 0)) (seq 0 n) = true); [|congruence].
        apply existsb_exists. exists i. split; [apply in_seq; lia|]. apply andb_true_iff. split; [now apply Nat.ltb_lt|now apply Nat.leb_le]. }
    assert (G : forall l, incl l D -> (forall c, In c l -> in_irreducible c m) \/ exists c, In c l /\ ~ in_irreducible c m).
    { induction l as [|c l IH]; intros I; [left; intros c []|]. destruct (Dec c (comp_length c (I c (or_introl eq_refl)))) as [Y|Y]; [|right; exists c; simpl; auto].
      destruct IH as [A|(c' & A & B)]; [intros x Hx; apply I; simpl; auto|left; intros c' [<-|Hc]; auto|right; exists c'; simpl; auto]. }
    destruct (G D (incl_refl D)) as [A|A]; auto. exfalso. apply N, in_all; auto. apply mk_length. }
  assert (c = map Z.to_nat b) as <-; auto. apply (nth_ext _ _ 0 0); [rewrite map_length, L; now apply comp_length|]. rewrite (comp_length c H). intros i Hi.
  change 0 with (Z.to_nat 0) at 2. rewrite map_nth. destruct (Nat.eq_dec i 0) as [->|Ni]; [rewrite (comp_zero c H), <- Z1; auto|].
  pose proof (comp_pos c i H ltac:(lia)) as Pc. fold (e i).
  assert (Lt : forall k, 1 <= k < n -> nth k m 0 < nth k c 0). { intros k Hk. destruct (le_lt_dec (nth k c 0) (nth k m 0)); auto. exfalso. apply X. exists k. split; auto. apply comp_pos; auto. }
  assert (A : e i <= nth i c 0). { specialize (Lt i ltac:(lia)). unfold m in Lt. rewrite mk_nth in Lt by auto. lia. }
  destruct (F i ltac:(lia)) as (g & G & G1 & G2).
  assert (B : in_ideal M (mk (fun j => if j =? i then e j else e j - 1))).
  { apply in_M; [apply mk_length|]. exists g. split; auto. intros j Hj. rewrite mk_nth by auto. destruct (Nat.eqb_spec j i) as [->|Nj]; unfold e; [lia|]. specialize (G2 j Hj Nj). lia. }
  pose proof (proj1 (in_all _ (mk_length _)) B) as B'; clear B; rename B' into B. destruct (in_irr_lt c _ (comp_length c H) (B c H)) as (k & K1 & K2 & K3). rewrite mk_nth in K3 by auto.
  assert (k <> 0) by (intros ->; rewrite (comp_zero c H) in K2; lia). specialize (Lt k ltac:(lia)). unfold m in Lt. rewrite mk_nth in Lt by auto. destruct (Nat.eqb_spec k i) as [->|]; lia.
Qed.
End Bodies.
