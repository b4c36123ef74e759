(** Texts of numbers. *)
From Coq Require Import String Ascii.
From Coq Require Import List Arith Bool ZArith Lia.
Import ListNotations.
From Verif Require Import M_Names M_IO Spec_IO M_Frob Spec_Frob P_IO P_IO3 P_IO7 P_IO8 P_IOPoly P_IOPoly2 P_Frob P_Frob2 M_Lattice.
From Verif Require Import Spec Spec_Lattice.
Local Notation length := List.length.

Definition spaces (w : text) : Prop := Forall (fun c => isspace c = true) w.
(** White space, and then each number with white space *)
Inductive nt : list Z -> text -> Prop :=
| nt_nil w : spaces w -> nt [] w
| nt_cons z ns w s : spaces w -> w <> [] -> nt ns s -> nt (z :: ns) (w ++ z_str z ++ s).

Lemma number_nt : forall ns blanks w, spaces w -> w <> [] -> length blanks = length ns -> Forall blank blanks ->
  nt ns (w ++ concat (map (fun p => z_str (fst p) ++ snd p) (combine ns blanks))).
Proof.
  induction ns as [|z ns IH]; intros [|b blanks] w W N L F; try discriminate; cbn [combine map concat fst snd]; [rewrite app_nil_r; now constructor|].
  inversion F as [|? ? F1 F2]; subst. destruct (blank_space b F1) as [B1 B2]. rewrite <- app_assoc. apply nt_cons; auto.
Qed.
Lemma file_nt ns file : number_text ns file -> nt ns (" "%char :: file).
Proof. intros (blanks & L & F & ->). apply (number_nt ns blanks [" "%char]); auto; [repeat constructor|discriminate]. Qed.
Lemma nt_stop ns s : nt ns s -> stop isdigit s.
Proof.
  intros H. destruct H as [w W|z ns w s W N H].
  - destruct w as [|c w]; [exact I|]. inversion W; subst. cbn. now apply space_not_digit.
  - destruct w as [|c w]; [congruence|]. inversion W; subst. cbn. now apply space_not_digit.
Qed.
Lemma nt_integer z ns s : nt (z :: ns) s -> exists r, readInteger s = Ok (z, r) /\ nt ns r.
Proof.
  intros H. inversion H as [|? ? w r W N H']; subst. exists r. split; auto. apply readInteger_any; [|eapply nt_stop; eauto].
  rewrite eat_blank by exact W. apply eat_zany.
Qed.
Lemma nt_size max z ns s : nt (z :: ns) s -> (0 <= z <= max)%Z -> exists r, readSizeT max s = Ok (Z.to_nat z, r) /\ nt ns r.
Proof.
  intros H B. destruct (nt_integer _ _ _ H) as (r & E & H'). exists r. split; auto. unfold readSizeT. rewrite E. cbn [rbind].
  assert (((0 <=? z) && (z <=? max))%Z = true) as -> by (apply andb_true_iff; split; apply Z.leb_le; lia). reflexivity.
Qed.
Lemma nt_negzero z ns s : nt (z :: ns) s -> exists r, readIntegerAndNegativeAsZero s = Ok (Z.max 0 z, r) /\ nt ns r.
Proof.
  intros H. inversion H as [|? ? w r W N H']; subst. exists r. split; auto. pose proof (nt_stop _ _ H') as St. destruct w as [|c w]; [congruence|].
  assert (E : eat ((c :: w) ++ z_str z ++ r) = z_str z ++ r) by (rewrite eat_blank by exact W; apply eat_zany).
  cbn [app] in *. unfold readIntegerAndNegativeAsZero. destruct (ascii_dec c "0") as [->|_]; [inversion W as [|? ? X _]; discriminate X|].
  destruct (Z.ltb_spec z 0) as [L|L].
  - rewrite z_str_neg in E by auto. destruct (z_str_digits (- z)) as [A B]; [lia|]. rewrite z_str_neg by auto.
    unfold readIntegerString. rewrite z_str_neg in * by auto. rewrite E. cbn [app]. destruct (ascii_dec "-" "-") as [_|X]; [|congruence].
    rewrite span_app by auto. destruct (z_str (- z)) as [|d ds]; [congruence|]. cbn [rbind]. destruct (ascii_dec "-" "-") as [_|X]; [|congruence]. do 2 f_equal. lia.
  - destruct (z_str_digits z L) as [A B]. rewrite (readIntegerString_yes (z_str z) _ r) by auto. cbn [rbind]. destruct (ascii_dec "+" "-") as [X|_]; [discriminate|].
    rewrite parse_value by auto. cbv zeta. rewrite z_value by auto. destruct (ascii_dec "+" "-") as [X|_]; [discriminate|]. do 2 f_equal. lia.
Qed.

(** ** Matrices and Grobner bases *)
Lemma nt_row : forall row ns s, nt (row ++ ns) s -> exists r, readRow (length row) s = Ok (row, r) /\ nt ns r.
Proof.
  induction row as [|z row IH]; intros ns s H; cbn [readRow length app] in *; [eauto|]. destruct (nt_integer _ _ _ H) as (r & E & H'). rewrite E. cbn [rbind].
  destruct (IH _ _ H') as (r' & E' & H''). rewrite E'. cbn [rbind]. eauto.
Qed.
Lemma nt_rows n : forall rows ns s, has_columns n rows -> nt (concat rows ++ ns) s -> exists r, readRows (length rows) n s = Ok (rows, r) /\ nt ns r.
Proof.
  induction rows as [|row rows IH]; intros ns s F H; cbn [readRows length concat app] in *; [eauto|]. inversion F as [|? ? F1 F2]; subst. rewrite <- app_assoc in H.
  destruct (nt_row _ _ _ H) as (r & E & H'). rewrite E. cbn [rbind]. destruct (IH _ _ F2 H') as (r' & E' & H''). rewrite E'. cbn [rbind]. eauto.
Qed.
Lemma nt_entries : forall row ns s, nt (row ++ ns) s -> exists r, readEntries (length row) s = Ok (map (Z.max 0) row, r) /\ nt ns r.
Proof.
  induction row as [|z row IH]; intros ns s H; cbn [readEntries length app map] in *; [eauto|]. destruct (nt_negzero _ _ _ H) as (r & E & H'). rewrite E. cbn [rbind].
  destruct (IH _ _ H') as (r' & E' & H''). rewrite E'. cbn [rbind]. exists r'. split; auto. do 3 f_equal. destruct (Z.ltb_spec 0 (Z.max 0 z)); lia.
Qed.
Lemma nt_terms n : forall G ns s, Forall (fun g => length g = S n /\ (nth 0 g 0 <= 0)%Z) G -> nt (concat G ++ ns) s ->
  exists r, grobner_readTerms (length G) n s = Ok (map (fun g => map (Z.max 0) (tl g)) G, r) /\ nt ns r.
Proof.
  induction G as [|g G IH]; intros ns s F H; cbn [grobner_readTerms length concat app map] in *; [eauto|]. inversion F as [|? ? (L & P) F2]; subst. rewrite <- app_assoc in H.
  destruct g as [|x g]; [discriminate|]. cbn [length nth tl app] in *. injection L as <-. unfold grobner_readTerm. destruct (nt_negzero _ _ _ H) as (r & E & H'). rewrite E. cbn [rbind].
  assert ((0 <? Z.max 0 x)%Z = false) as -> by (apply Z.ltb_ge; lia). destruct (nt_entries _ _ _ H') as (r' & E' & H''). rewrite E'. cbn [rbind].
  destruct (IH _ _ F2 H'') as (r2 & E2 & H2). rewrite E2. cbn [rbind]. eauto.
Qed.
(** A positive first entry *)
Lemma nt_terms_bad n : forall G ns s, Forall (fun g => length g = S n) G -> ~ Forall (fun g => nth 0 g 0 <= 0)%Z G -> nt (concat G ++ ns) s -> grobner_readTerms (length G) n s = OtherError.
Proof.
  induction G as [|g G IH]; intros ns s F B H; [destruct B; constructor|]. cbn [grobner_readTerms length concat app map] in *. inversion F as [|? ? L F2]; subst. rewrite <- app_assoc in H.
  destruct g as [|x g]; [discriminate|]. cbn [length app] in *. injection L as <-. unfold grobner_readTerm. destruct (nt_negzero _ _ _ H) as (r & E & H'). rewrite E. cbn [rbind].
  destruct (Z.ltb_spec 0 (Z.max 0 x)); [reflexivity|]. destruct (nt_entries _ _ _ H') as (r' & E' & H''). rewrite E'. cbn [rbind].
  rewrite (IH _ _ F2) with (2 := H''); [reflexivity|]. intros X. apply B. constructor; auto. cbn [nth]. apply (Z.le_trans _ _ _ (Z.le_max_r 0 x)); assumption.
Qed.
Lemma nt_numbers : forall ns fuel acc s, Forall (fun a => 1 < a)%Z ns -> nt ns s -> length ns < fuel -> readNumbers fuel acc s = Ok (acc ++ ns, []).
Proof.
  induction ns as [|z ns IH]; intros fuel acc s F H K; (destruct fuel as [|fuel]; [cbn in K; lia|]); cbn [readNumbers]; unfold hasMoreInput.
  - inversion H as [w W|]; subst. pose proof (eat_blank s [] W) as X. rewrite app_nil_r in X. rewrite X. cbn [eat]. now rewrite app_nil_r.
  - inversion F as [|? ? F1 F2]; subst. cbv beta in F1. assert (P : (0 <= z)%Z) by lia. inversion H as [|? ? w r W N H']; subst. rewrite eat_blank by exact W. rewrite eat_zany.
    destruct (z_str z ++ r) as [|c q] eqn:Q; [destruct (z_str_digits z P) as [_ X]; destruct (z_str z); [congruence|discriminate]|]. rewrite <- Q.
    rewrite (readInteger_any z _ r) by (try apply eat_zany; eapply nt_stop; eauto). cbn [rbind]. assert ((z <=? 1)%Z = false) as -> by (apply Z.leb_gt; lia).
    rewrite (IH fuel (acc ++ [z]) r) by (auto; cbn in K; lia). now rewrite <- app_assoc.
Qed.
Lemma nt_length : forall ns s, nt ns s -> length ns <= length s.
Proof. intros ns s H. induction H as [|z ns w s W N H IH]; cbn; [lia|]. rewrite !app_length. destruct w; [congruence|]. cbn. lia. Qed.
Lemma nt_instance a s : Forall (fun x => 1 < x)%Z a -> a <> [] -> nt a s -> coprime a -> readFrobeniusInstance s = Ok (a, []).
Proof.
  intros F N H C. unfold readFrobeniusInstance. rewrite (nt_numbers a) by (auto; pose proof (nt_length _ _ H); auto with arith). cbn [rbind app]. destruct a as [|x rest]; [congruence|].
  assert ((fold_left Z.gcd rest x =? 1)%Z = true) as ->; [|reflexivity]. apply Z.eqb_eq. apply gcd_coprime; auto. inversion F; subst. lia.
Qed.
Lemma read_frobgrob_text max a G file : Forall (fun x => 1 < x)%Z a -> a <> [] -> coprime a ->
  Forall (fun g => length g = length a /\ (nth 0 g 0 <= 0)%Z) G -> (Z.of_nat (length G) <= max)%Z -> (Z.of_nat (length a) <= max)%Z ->
  number_text (Z.of_nat (length G) :: Z.of_nat (length a) :: concat G ++ a) file ->
  read_frobgrob max file = Ok (defaultNames (length a - 1), map (fun g => map (Z.max 0) (tl g)) G, a).
Proof.
  intros F N C FG M1 M2 T. apply file_nt in T. unfold read_frobgrob, readGrobnerBasis. destruct (nt_size max _ _ _ T) as (r1 & E1 & T1); [lia|]. rewrite E1. cbn [rbind]. rewrite Nat2Z.id.
  destruct (nt_size max _ _ _ T1) as (r2 & E2 & T2); [lia|]. rewrite E2. cbn [rbind]. rewrite Nat2Z.id. destruct (length a) as [|n] eqn:L; [destruct a; [congruence|discriminate]|].
  destruct (nt_terms n G _ _ FG T2) as (r3 & E3 & T3). rewrite E3. cbn [rbind]. rewrite (nt_instance a) by auto. cbn [rbind fst]. unfold defaultNames at 1. rewrite map_length, seq_length, L.
  replace (S n =? n + 1) with true by (symmetry; apply Nat.eqb_eq; lia). cbn [expectEOF eat rbind]. now rewrite Nat.sub_1_r.
Qed.
