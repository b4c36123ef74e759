(** The option -zero of latformat. *)
From Coq Require Import String Ascii.
From Coq Require Import List Arith Bool ZArith Lia.
Import ListNotations.
From Verif Require Import M_Names M_IO Spec_Frob M_Lattice P_Lattice P_Lattice4.
From Verif Require Import Spec Spec_Lattice.
Local Notation length := List.length.

(** Adding to an entry *)
Fixpoint add_at (i : nat) (d : Z) (xs : list Z) : list Z :=
  match xs, i with [], _ => [] | x :: xs', 0 => (x + d)%Z :: xs' | x :: xs', S i' => x :: add_at i' d xs' end.
Lemma add_length : forall i d xs, length (add_at i d xs) = length xs.
Proof. induction i; intros d [|x xs]; cbn; auto. Qed.
Lemma add_nth : forall i d xs j, i < length xs -> nth j (add_at i d xs) 0%Z = (nth j xs 0 + if (j =? i)%nat then d else 0)%Z.
Proof.
  induction i as [|i IH]; intros d [|x xs] [|j] H; cbn [length add_at nth Nat.eqb] in *; try lia.
  apply IH. lia.
Qed.
Lemma inner_add_l : forall i d cs xs, i < length cs -> length cs = length xs -> inner (add_at i d cs) xs = (inner cs xs + d * nth i xs 0)%Z.
Proof.
  induction i as [|i IH]; intros d [|c cs] [|x xs] H L; cbn [length] in *; try lia; cbn [add_at inner nth]; [lia|]. rewrite IH by lia. lia.
Qed.
Lemma inner_add_r : forall i d cs xs, i < length cs -> length cs = length xs -> inner cs (add_at i d xs) = (inner cs xs + d * nth i cs 0)%Z.
Proof.
  induction i as [|i IH]; intros d [|c cs] [|x xs] H L; cbn [length] in *; try lia; cbn [add_at inner nth]; [lia|]. rewrite IH by lia. lia.
Qed.

Definition column (k : nat) (b : list (list Z)) : list Z := map (fun row => nth k row 0%Z) b.
Lemma column_nth k b i : nth i (column k b) 0%Z = nth k (nth i b []) 0%Z.
Proof. unfold column. rewrite <- (map_nth (fun row : list Z => nth k row 0%Z) b [] i). f_equal. destruct k; reflexivity. Qed.

Lemma map_seq_nth {A} (f : nat -> A) k i d : i < k -> nth i (map f (seq 0 k)) d = f i.
Proof. intros H. rewrite (nth_indep _ d (f 0)) by (now rewrite map_length, seq_length). rewrite map_nth, seq_nth by auto. reflexivity. Qed.
Section Add.
Variables (n : nat) (b : list (list Z)) (a t : nat) (m : Z).
Hypothesis C : has_columns n b.
Hypothesis Ha : a < length b.
Hypothesis Ht : t < length b.
Hypothesis D : a <> t.
Let b' := addMultiple b a t m.
Lemma first_length : length (nth 0 b []) = n.
Proof. unfold has_columns in C. rewrite Forall_forall in C. apply C. apply nth_In. lia. Qed.
Lemma am_length : length b' = length b.
Proof. unfold b', addMultiple. destruct (m =? 0)%Z; auto. now rewrite map_length, seq_length. Qed.
Lemma row_width i : i < length b -> length (nth i b []) = n.
Proof. intros H. unfold has_columns in C. rewrite Forall_forall in C. apply C. now apply nth_In. Qed.
Lemma am_row i : i < length b -> i <> t -> nth i b' [] = nth i b [].
Proof.
  intros H N. unfold b', addMultiple. destruct (m =? 0)%Z; auto.
  rewrite map_seq_nth by auto. destruct (Nat.eqb_spec i t); [contradiction|reflexivity].
Qed.
Lemma am_changed : nth t b' [] = map (fun k => (nth k (nth t b []) 0 + nth k (nth a b []) 0 * m)%Z) (seq 0 n) \/ (m = 0%Z /\ b' = b).
Proof.
  unfold b', addMultiple. destruct (Z.eqb_spec m 0) as [->|N]; [right; auto|left].
  rewrite map_seq_nth by auto. rewrite Nat.eqb_refl, first_length. reflexivity.
Qed.
Lemma am_columns : has_columns n b'.
Proof.
  unfold has_columns. apply Forall_forall. intros row H. apply (In_nth _ _ []) in H. destruct H as (i & Hi & <-). rewrite am_length in Hi. destruct (Nat.eq_dec i t) as [->|N].
  - destruct am_changed as [->|(_ & ->)]; [now rewrite map_length, seq_length|now apply row_width].
  - rewrite am_row by auto. now apply row_width.
Qed.
Lemma am_column k : k < n -> column k b' = add_at t (m * nth a (column k b) 0)%Z (column k b).
Proof.
  intros Hk. assert (LC : length (column k b) = length b) by (apply map_length). apply list_ext; [rewrite add_length; unfold column; rewrite !map_length; apply am_length|]. intros i. rewrite add_nth by (now rewrite LC).
  rewrite !column_nth. destruct (Nat.eqb_spec i t) as [->|N].
  - destruct am_changed as [->|(-> & ->)]; [|lia].
    rewrite map_seq_nth by auto. lia.
  - destruct (lt_dec i (length b)) as [H|H]; [rewrite am_row by auto; lia|]. rewrite !(nth_overflow _ []) by (rewrite ?am_length; lia). destruct k; cbn; lia.
Qed.
(** A combination of the new rows is one of the old rows, with these coefficients, and the other way around *)
Definition old_cs (cs : list Z) : list Z := add_at a (m * nth t cs 0)%Z cs.
Definition new_cs (cs : list Z) : list Z := add_at a (- m * nth t cs 0)%Z cs.
Lemma old_combination cs v : combination_of n b' cs v -> combination_of n b (old_cs cs) v.
Proof.
  intros (L & Lv & H). rewrite am_length in L. split; [unfold old_cs; now rewrite add_length|]. split; auto. intros k Hk. rewrite (H k Hk). fold (column k b') (column k b).
  assert (LC : length (column k b) = length b) by (apply map_length).
  rewrite am_column by auto. rewrite inner_add_r by lia. unfold old_cs. rewrite inner_add_l by lia. lia.
Qed.
Lemma new_combination cs v : combination_of n b cs v -> combination_of n b' (new_cs cs) v.
Proof.
  intros (L & Lv & H). split; [unfold new_cs; now rewrite add_length, am_length|]. split; auto. intros k Hk. rewrite (H k Hk). fold (column k b') (column k b).
  assert (LC : length (column k b) = length b) by (apply map_length).
  rewrite am_column by auto. rewrite inner_add_r by (unfold new_cs; rewrite add_length; lia). unfold new_cs. rewrite inner_add_l by lia. rewrite add_nth by lia.
  destruct (Nat.eqb_spec t a) as [->|_]; [contradiction|]. lia.
Qed.
End Add.

(** The same size, the same lattice, and independent if the old rows are *)
Definition same_lattice (n : nat) (b b' : list (list Z)) : Prop :=
  length b' = length b /\ has_columns n b' /\ (forall v, in_lattice n b v <-> in_lattice n b' v) /\ (independent_rows n b <-> independent_rows n b').
Lemma same_refl n b : has_columns n b -> same_lattice n b b.
Proof. intros C. repeat split; auto. Qed.
Lemma same_trans n b c d : same_lattice n b c -> same_lattice n c d -> same_lattice n b d.
Proof. intros (A1 & A2 & A3 & A4) (B1 & B2 & B3 & B4). split; [congruence|]. split; auto. split; [intros v; rewrite A3; apply B3|rewrite A4; exact B4]. Qed.
Lemma zero_add i d k : i < k -> add_at i d (repeat 0%Z k) = repeat 0%Z k -> d = 0%Z.
Proof. intros H E. pose proof (f_equal (fun l => nth i l 0%Z) E) as X. cbv beta in X. rewrite add_nth, Nat.eqb_refl, nth_repeat in X by (now rewrite repeat_length). lia. Qed.
Lemma zero_from i d k cs : i < k -> length cs = k -> add_at i d cs = repeat 0%Z k -> forall j, j <> i -> nth j cs 0%Z = 0%Z.
Proof. intros H L E j N. pose proof (f_equal (fun l => nth j l 0%Z) E) as X. cbv beta in X. rewrite add_nth, nth_repeat in X by lia. destruct (Nat.eqb_spec j i); [contradiction|]. lia. Qed.
Lemma add_zero : forall i xs, add_at i 0 xs = xs.
Proof. induction i as [|i IH]; intros [|x xs]; cbn; auto; [f_equal; lia|now rewrite IH]. Qed.
Lemma add_same n b a t m : has_columns n b -> a < length b -> t < length b -> a <> t -> same_lattice n b (addMultiple b a t m).
Proof.
  intros C Ha Ht D. split; [apply am_length|]. split; [eapply am_columns; eauto|]. split.
  - intros v. split; intros (cs & H); [exists (new_cs a t m cs)|exists (old_cs a t m cs)]; [apply new_combination; auto|apply old_combination; auto].
  - split; intros I cs H.
    + rewrite am_length. pose proof (old_combination n b a t m C Ha Ht D cs _ H) as O. apply I in O. destruct H as (L & _). rewrite am_length in L. unfold old_cs in O.
      assert (T : nth t cs 0%Z = 0%Z) by (eapply zero_from; [| |exact O|]; auto). rewrite T, Z.mul_0_r, add_zero in O. exact O.
    + pose proof (new_combination n b a t m C Ha Ht D cs _ H) as O. apply I in O. destruct H as (L & _). rewrite am_length in O. unfold new_cs in O.
      assert (T : nth t cs 0%Z = 0%Z) by (eapply zero_from; [| |exact O|]; auto). rewrite T, Z.mul_0_r, add_zero in O. exact O.
Qed.

(** ** The loops *)
Definition step (i col : nat) (sign : Z) (b : list (list Z)) (j : nat) : list (list Z) :=
  if j =? i then b else addMultiple b i j (-1 * sign * nth col (nth j b []) 0)%Z.
Lemma steps_same n i col sign : forall js b, has_columns n b -> i < length b -> Forall (fun j => j < length b) js -> same_lattice n b (fold_left (step i col sign) js b).
Proof.
  induction js as [|j js IH]; intros b C Hi F; cbn [fold_left]; [now apply same_refl|]. inversion F as [|? ? F1 F2]; subst.
  assert (S : same_lattice n b (step i col sign b j)) by (unfold step; destruct (Nat.eqb_spec j i); [now apply same_refl|apply add_same; auto]).
  eapply same_trans; [exact S|]. destruct S as (A & B & _). apply IH; [exact B|congruence|rewrite A; exact F2].
Qed.
Lemma steps_rows n i col sign : forall js b, has_columns n b -> i < length b -> col < n -> Forall (fun j => j < length b) js -> NoDup js -> (sign * nth col (nth i b []) 0 = 1)%Z -> (sign * sign = 1)%Z ->
  let b' := fold_left (step i col sign) js b in nth i b' [] = nth i b [] /\ (forall j, j < length b -> ~ In j js -> nth j b' [] = nth j b []) /\
    (forall j, In j js -> j <> i -> nth col (nth j b' []) 0%Z = 0%Z).
Proof.
  induction js as [|j js IH]; intros b C Hi Hc F N Sg Sq; cbn [fold_left]; cbv zeta; [split; auto; split; auto; intros j []|]. inversion F as [|? ? F1 F2]; subst. inversion N as [|? ? N1 N2]; subst.
  assert (S : same_lattice n b (step i col sign b j)) by (unfold step; destruct (Nat.eqb_spec j i); [now apply same_refl|apply add_same; auto]). destruct S as (SL & SC & _).
  assert (R : forall k, k < length b -> k <> j -> nth k (step i col sign b j) [] = nth k b []).
  { intros k Hk Nk. unfold step. destruct (Nat.eqb_spec j i); auto. eapply am_row; eauto. }
  assert (Ri : nth i (step i col sign b j) [] = nth i b []).
  { destruct (Nat.eq_dec i j) as [->|Nij]; [unfold step; now rewrite Nat.eqb_refl|now apply R]. }
  destruct (IH (step i col sign b j) SC ltac:(congruence) Hc ltac:(rewrite SL; exact F2) N2 ltac:(rewrite Ri; exact Sg) Sq) as (I1 & I2 & I3). cbv zeta in *. split; [congruence|]. split.
  - intros k Hk Nk. rewrite I2; [apply R; auto; intros ->; apply Nk; left; reflexivity|congruence|intros X; apply Nk; right; exact X].
  - intros k [->|Hk] Nk; [|now apply I3]. rewrite I2 by (auto; congruence). unfold step. destruct (Nat.eqb_spec k i) as [|_]; [contradiction|].
    destruct (am_changed n b i k (-1 * sign * nth col (nth k b []) 0)%Z C Hi F1 ltac:(auto)) as [E|(E1 & E)].
    + rewrite E. rewrite map_seq_nth by auto. nia.
    + rewrite E. nia.
Qed.
Lemma clear_step b i col sign : clear_column b i col sign = fold_left (step i col sign) (seq 0 (length b)) b.
Proof. reflexivity. Qed.
Lemma seq_below k : Forall (fun j => j < k) (seq 0 k).
Proof. apply Forall_forall. intros j H. apply in_seq in H. lia. Qed.
(** The column has an entry 1 or -1, and all others are zero *)
Definition cleared (b : list (list Z)) (col : nat) : Prop :=
  exists i, i < length b /\ (nth col (nth i b []) 0 = 1 \/ nth col (nth i b []) 0 = -1)%Z /\ forall j, j < length b -> j <> i -> nth col (nth j b []) 0%Z = 0%Z.
Lemma clear_ok n b i col sign : has_columns n b -> i < length b -> col < n -> nth col (nth i b []) 0%Z = sign -> (sign = 1 \/ sign = -1)%Z ->
  same_lattice n b (clear_column b i col sign) /\ cleared (clear_column b i col sign) col.
Proof.
  intros C Hi Hc E Sg. rewrite clear_step. pose proof (steps_same n i col sign (seq 0 (length b)) b C Hi (seq_below _)) as S. split; auto.
  destruct (steps_rows n i col sign (seq 0 (length b)) b C Hi Hc (seq_below _) (seq_NoDup _ _) ltac:(rewrite E; lia) ltac:(lia)) as (A & _ & B). cbv zeta in *. destruct S as (SL & _).
  exists i. rewrite SL, A, E. split; auto. split; auto. intros j Hj Nj. apply B; auto. apply in_seq. lia.
Qed.
Lemma zero_column_ok n col : forall rows b, has_columns n b -> col < n -> Forall (fun i => i < length b) rows ->
  same_lattice n b (zero_column rows b col) /\ (cleared (zero_column rows b col) col \/ (zero_column rows b col = b /\ forall i, In i rows -> nth col (nth i b []) 0%Z <> 1%Z /\ nth col (nth i b []) 0%Z <> (-1)%Z)).
Proof.
  induction rows as [|i rows IH]; intros b C Hc F; cbn [zero_column]; [split; [now apply same_refl|right; split; auto; intros i []]|]. inversion F as [|? ? F1 F2]; subst.
  destruct (Z.eqb_spec (nth col (nth i b []) 0%Z) 1) as [E|E]; [destruct (clear_ok n b i col 1 C F1 Hc E ltac:(auto)); auto|].
  destruct (Z.eqb_spec (nth col (nth i b []) 0%Z) (-1)) as [E'|E']; [destruct (clear_ok n b i col (-1) C F1 Hc E' ltac:(auto)); auto|].
  destruct (IH b C Hc F2) as (A & B). split; auto. destruct B as [B|(B1 & B2)]; auto. right. split; auto. intros j [<-|Hj]; auto.
Qed.
Lemma zero_loop n : forall cols b, has_columns n b -> Forall (fun c => c < n) cols ->
  let b' := fold_left (fun b col => zero_column (seq 0 (length b)) b col) cols b in
  same_lattice n b b' /\ (forall col, cols <> [] -> last cols 0 = col -> cleared b' col \/ forall i, i < length b' -> nth col (nth i b' []) 0%Z <> 1%Z /\ nth col (nth i b' []) 0%Z <> (-1)%Z).
Proof.
  induction cols as [|c cols IH]; intros b C F; cbn [fold_left]; cbv zeta; [split; [now apply same_refl|congruence]|]. inversion F as [|? ? F1 F2]; subst.
  destruct (zero_column_ok n c (seq 0 (length b)) b C F1 (seq_below _)) as (S & P). destruct (IH _ (proj1 (proj2 S)) F2) as (A & B). cbv zeta in *. split; [eapply same_trans; eauto|].
  intros col _ L. destruct cols as [|c' cols]; [|apply B; [discriminate|exact L]]. cbn [last fold_left] in *. subst c. destruct P as [P|(P1 & P2)]; auto. right. rewrite P1. intros i Hi. apply P2. apply in_seq. lia.
Qed.
Lemma makeZeroes_ok n b : has_columns n b -> b <> [] -> n <> 0 -> exists b', makeZeroes b = Ok b' /\ same_lattice n b b' /\
  (2 <= n -> cleared b' 1 \/ forall i, i < length b' -> nth 1 (nth i b' []) 0%Z <> 1%Z /\ nth 1 (nth i b' []) 0%Z <> (-1)%Z) /\ (n = 1 -> b' = b).
Proof.
  intros C N Z. unfold makeZeroes. destruct b as [|row b]; [congruence|]. assert (Lr : length row = n) by (inversion C; auto). destruct row as [|x row]; [cbn in Lr; congruence|]. rewrite Lr.
  set (b0 := (x :: row) :: b) in *.
  destruct (zero_loop n (rev (seq 1 (n - 1))) b0 C) as (A & B); [apply Forall_rev, Forall_forall; intros j H; apply in_seq in H; lia|]. cbv zeta in *. eexists. split; [reflexivity|]. split; [exact A|]. split.
  - intros H. apply B; [intros X; apply (f_equal (@List.length nat)) in X; rewrite rev_length, seq_length in X; cbn in X; lia|]. destruct n as [|[|n]]; try lia. cbn [Nat.sub seq rev]. now rewrite last_last.
  - intros ->. reflexivity.
Qed.
Lemma makeZeroes_undefined b n : has_columns n b -> b = [] \/ n = 0 -> makeZeroes b = Undefined.
Proof. intros C [-> | ->]; auto. destruct b as [|row b]; auto. inversion C; subst. destruct row; [reflexivity|discriminate]. Qed.

Lemma p_latformat_zero max iformat oformat file n rows : In iformat lattice_formats -> In (output_lattice_format iformat oformat) lattice_formats ->
  shape_known max iformat n rows -> lattice_file iformat n rows file -> rows <> [] -> n <> 0 ->
  exists rows', latformat_print max iformat oformat true file = Ok (lattice_text (output_lattice_format iformat oformat) n rows') /\
    length rows' = length rows /\ has_columns n rows' /\ (forall v, in_lattice n rows v <-> in_lattice n rows' v) /\ (independent_rows n rows <-> independent_rows n rows') /\
    forall i j, i < length rows -> j < length rows -> i <> j -> (Z.abs (nth 1 (nth i rows' []) 0) = 1 -> nth 1 (nth j rows' []) 0 = 0)%Z.
Proof.
  intros Fi Fo S H N Z. pose proof S as (C & _). destruct (makeZeroes_ok n rows C N Z) as (rows' & E & (A1 & A2 & A3 & A4) & P & Q). exists rows'.
  rewrite (latformat_read max iformat oformat true file n rows) by auto. rewrite E. cbn [rbind]. split; auto. split; auto. split; auto. split; auto. split; auto.
  intros i j Hi Hj D U. rewrite <- A1 in Hi, Hj. destruct (le_lt_dec 2 n) as [L|L].
  - destruct (P L) as [(k & Hk & _ & K)|K]; [|exfalso; specialize (K i Hi); lia]. destruct (Nat.eq_dec j k) as [->|Nj]; [|now apply K]. rewrite (K i Hi D) in U. discriminate U.
  - exfalso. rewrite nth_overflow in U; [discriminate U|]. unfold has_columns in A2. rewrite Forall_forall in A2. rewrite (A2 (nth i rows' [])) by (now apply nth_In). lia.
Qed.
Lemma p_latformat_zero_undefined max iformat oformat file n rows : In iformat lattice_formats -> In (output_lattice_format iformat oformat) lattice_formats ->
  shape_known max iformat n rows -> lattice_file iformat n rows file -> rows = [] \/ n = 0 -> latformat_print max iformat oformat true file = Undefined.
Proof.
  intros Fi Fo S H N. rewrite (latformat_read max iformat oformat true file n rows) by auto. rewrite (makeZeroes_undefined rows n) by (auto; apply S). reflexivity.
Qed.
