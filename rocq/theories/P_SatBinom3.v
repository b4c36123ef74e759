(** Reading saturated binomial ideals *)
From Coq Require Import String Ascii.
From Coq Require Import List Arith Bool ZArith Lia.
Import ListNotations.
From Verif Require Import M_Names M_IO Spec_IO M_Frob Spec_Frob P_IO P_IO2 P_IO3 P_IO6 P_IO7 P_IO8 P_IOPoly P_IOPoly2 P_Frob P_Frob2 M_Lattice.
From Verif Require Import Spec Spec_Lattice P_Lattice2 P_Lattice4 M_SatBinom Spec_SatBinom Spec_SatBinom2.
Local Notation length := List.length.

Section Tail.
Variable t : text.
Hypothesis Ht : stop isdigit t.
Inductive ntt : list Z -> text -> Prop :=
| ntt_nil w : spaces w -> ntt [] (w ++ t)
| ntt_cons z ns w s : spaces w -> w <> [] -> ntt ns s -> ntt (z :: ns) (w ++ z_str z ++ s).
Lemma number_ntt : forall ns blanks w, spaces w -> w <> [] -> length blanks = length ns -> Forall blank blanks ->
  ntt ns (w ++ concat (map (fun p => z_str (fst p) ++ snd p) (combine ns blanks)) ++ t).
Proof.
  induction ns as [|z ns IH]; intros [|b blanks] w W N L F; try discriminate; cbn [combine map concat fst snd app]; [now constructor|].
  inversion F as [|? ? F1 F2]; subst. destruct (blank_space b F1) as [B1 B2]. rewrite <- !app_assoc. apply ntt_cons; auto.
Qed.
Lemma file_ntt ns file : number_text ns file -> ntt ns (" "%char :: file ++ t).
Proof. intros (blanks & L & F & ->). apply (number_ntt ns blanks [" "%char]); auto; [repeat constructor|discriminate]. Qed.
Lemma ntt_stop ns s : ntt ns s -> stop isdigit s.
Proof.
  intros H. destruct H as [w W|z ns w s W N H].
  - destruct w as [|c w]; [exact Ht|]. inversion W; subst. cbn. now apply space_not_digit.
  - destruct w as [|c w]; [congruence|]. inversion W; subst. cbn. now apply space_not_digit.
Qed.
Lemma ntt_integer z ns s : ntt (z :: ns) s -> exists r, readInteger s = Ok (z, r) /\ ntt ns r.
Proof.
  intros H. inversion H as [|? ? w r W N H']; subst. exists r. split; auto. apply readInteger_any; [|eapply ntt_stop; eauto].
  rewrite eat_blank by exact W. apply eat_zany.
Qed.
Lemma ntt_size max z ns s : ntt (z :: ns) s -> (0 <= z <= max)%Z -> exists r, readSizeT max s = Ok (Z.to_nat z, r) /\ ntt ns r.
Proof.
  intros H B. destruct (ntt_integer _ _ _ H) as (r & E & H'). exists r. split; auto. unfold readSizeT. rewrite E. cbn [rbind].
  assert (((0 <=? z) && (z <=? max))%Z = true) as -> by (apply andb_true_iff; split; apply Z.leb_le; lia). reflexivity.
Qed.
Lemma ntt_row : forall row ns s, ntt (row ++ ns) s -> exists r, readRow (length row) s = Ok (row, r) /\ ntt ns r.
Proof.
  induction row as [|z row IH]; intros ns s H; cbn [readRow length app] in *; [eauto|]. destruct (ntt_integer _ _ _ H) as (r & E & H'). rewrite E. cbn [rbind].
  destruct (IH _ _ H') as (r' & E' & H''). rewrite E'. cbn [rbind]. eauto.
Qed.
Lemma ntt_rows n : forall rows ns s, vectors n rows -> ntt (concat rows ++ ns) s -> exists r, readRows (length rows) n s = Ok (rows, r) /\ ntt ns r.
Proof.
  induction rows as [|row rows IH]; intros ns s F H; cbn [readRows length concat app] in *; [eauto|]. inversion F as [|? ? F1 F2]; subst. rewrite <- app_assoc in H.
  destruct (ntt_row _ _ _ H) as (r & E & H'). rewrite E. cbn [rbind]. destruct (IH _ _ F2 H') as (r' & E' & H''). rewrite E'. cbn [rbind]. eauto.
Qed.
Lemma ideal_numbers_read max n gens file : (Z.of_nat (length gens) <= max)%Z -> (Z.of_nat n <= max)%Z -> vectors n gens -> ideal_numbers n gens file ->
  exists w, spaces w /\ readSatBinomIdeal max (file ++ t) =
    match peekIdentifier (w ++ t) with
    | (true, s) => LET (names, s) := fourti2_readNames n [] s IN Ok (SB names gens, s)
    | (false, s) => Ok (SB (defaultNames n) gens, s)
    end.
Proof.
  intros M1 M2 V H. apply file_ntt in H. unfold readSatBinomIdeal.
  destruct (ntt_size max _ _ _ H ltac:(lia)) as (r & E & H1).
  assert (E' : readSizeT max (file ++ t) = Ok (length gens, r)) by (rewrite Nat2Z.id in E; exact E).
  rewrite E'. cbn [rbind]. destruct (ntt_size max _ _ _ H1 ltac:(lia)) as (r2 & E2 & H2). rewrite Nat2Z.id in E2. rewrite E2. cbn [rbind].
  rewrite <- (app_nil_r (concat gens)) in H2. destruct (ntt_rows n gens [] r2 V H2) as (r3 & E3 & H3). rewrite E3. cbn [rbind].
  inversion H3 as [w W|]; subst. exists w. split; [exact W | reflexivity].
Qed.
End Tail.
Lemma spaces_eat w t : spaces w -> eat (w ++ t) = eat t.
Proof. apply eat_blank. Qed.
Lemma defaults n : defaultNames n = map (fun i => "x"%char :: nat_str i) (seq 1 n).
Proof. unfold defaultNames. rewrite <- seq_shift, map_map. apply map_ext. intros i. rewrite Nat.add_1_r. reflexivity. Qed.
Lemma white_spaces w : Forall (fun c => nat_of_ascii c = 32 \/ 9 <= nat_of_ascii c <= 13) w -> spaces w.
Proof.
  intros H. destruct w as [|c w]; [constructor|].
  assert (B : blank (c :: w)) by (split; [discriminate | exact H]). apply blank_space in B. apply B.
Qed.
Lemma eat_spaces w : spaces w -> eat w = [].
Proof. intros H. rewrite <- (app_nil_r w), eat_blank by exact H. reflexivity. Qed.
Theorem ideal_read max names gens file : legal_names names -> vectors (length names) gens ->
  (Z.of_nat (length gens) <= max)%Z -> (Z.of_nat (length names) <= max)%Z -> sat_binom_file names gens file ->
  exists rest, readSatBinomIdeal max file = Ok (SB names gens, rest) /\ expectEOF rest = Ok tt.
Proof.
  intros [ND L] V M1 M2 (t & H & [(D & ->) | (N & w & W & ->)]).
  - destruct (ideal_numbers_read [] I max _ gens t M1 M2 V H) as (w & Hw & E). rewrite !app_nil_r in E. rewrite E.
    unfold peekIdentifier. rewrite (eat_spaces w Hw). rewrite defaults, <- D. exists []. split; reflexivity.
  - assert (S : stop isdigit (sep_names (lit " ") names ++ w)).
    { destruct (sep_names_head (lit " ") names N L) as (c & r & -> & A). cbn. destruct (isdigit c) eqn:X; [|reflexivity]. exfalso.
      apply letter_iff in A. unfold isdigit, within in X. apply andb_true_iff in X. rewrite !Nat.leb_le in X. unfold letter in A. lia. }
    destruct (ideal_numbers_read _ S max _ gens t M1 M2 V H) as (v & Hv & E). rewrite E.
    rewrite (peekIdentifier_cong _ (sep_names (lit " ") names ++ w)) by (apply eat_blank, Hv).
    rewrite names_head by assumption. rewrite (f4_names names [] _ w); [| exact L | exact ND | exact N | | reflexivity].
    + cbn [rbind app]. exists w. split; [reflexivity|]. unfold expectEOF. rewrite eat_spaces by (apply white_spaces, W). reflexivity.
    + apply white_spaces in W. destruct w as [|c w]; [exact I|]. inversion W as [|? ? Hc _]; subst. cbn. apply space_not_ident, Hc.
Qed.
(** Every file *)
Lemma sy_names : forall k names s, sy (fourti2_readNames k names s).
Proof.
  induction k as [|k IH]; intros names s; [exact I|]. cbn [fourti2_readNames]. apply sy_bind.
  - unfold readIdentifier. destruct (eat s) as [|c q]; [exact I|]. destruct (isalpha c); exact I.
  - intros [x r]. apply sy_bind; [|intros n; apply IH]. unfold addVarUnique. destruct (in_dec _ _ _); exact I.
Qed.
Theorem ideal_any max file :
  match readSatBinomIdeal max file with
  | Ok (J, _) => vectors (length (sb_names J)) (sb_gens J) /\ legal_names (sb_names J)
  | SyntaxError => True
  | _ => False
  end.
Proof.
  assert (G : gd (fun p => vectors (length (sb_names (fst p))) (sb_gens (fst p)) /\ legal_names (sb_names (fst p))) (readSatBinomIdeal max file)).
  { unfold readSatBinomIdeal. eapply gd_bind; [apply readSizeT_gd|]. intros [g s1] _. eapply gd_bind; [apply readSizeT_gd|]. intros [n s2] _.
    eapply gd_bind; [apply (rows_gd n)|]. intros [rows s3] Hr. cbn [fst] in Hr. destruct (peekIdentifier s3) as [[|] s4].
    - eapply gd_bind; [apply f4_names_gd, legal_nil|]. intros [names s5] (H1 & H2 & _). cbn [fst snd gd sb_names sb_gens] in *. rewrite H2. cbn [length]. rewrite Nat.add_0_r. split; [exact Hr | exact H1].
    - cbn [fst gd sb_names sb_gens]. rewrite default_length. split; [exact Hr | apply default_legal]. }
  assert (S : sy (readSatBinomIdeal max file)).
  { unfold readSatBinomIdeal. apply sy_bind; [apply sy_size|]. intros [g s1]. apply sy_bind; [apply sy_size|]. intros [n s2]. apply sy_bind; [apply sy_rows|]. intros [rows s3].
    destruct (peekIdentifier s3) as [[|] s4]; [|exact I]. apply sy_bind; [apply sy_names|]. intros [names s5]. exact I. }
  destruct (readSatBinomIdeal max file) as [[J r]| | | | |]; cbn in G, S; auto.
Qed.
(** Projection *)
Theorem projection_right J var : var < length (sb_names J) -> vectors (length (sb_names J)) (sb_gens J) ->
  let K := sb_projectVar J var in
  S (length (sb_names K)) = length (sb_names J) /\ length (sb_gens K) = length (sb_gens J) /\
  forall i, let i' := if i <? var then i else S i in
    nth_error (sb_names K) i = nth_error (sb_names J) i' /\
    forall k g, nth_error (sb_gens J) k = Some g -> exists h, nth_error (sb_gens K) k = Some h /\ nth_error h i = nth_error g i'.
Proof.
  intros Hv V. cbv zeta.
  assert (E : forall (A : Type) (l : list A) i, var < length l -> nth_error (firstn var l ++ skipn (S var) l) i = nth_error l (if i <? var then i else S i)).
  { intros A l. clear. revert l. induction var as [|var IH]; intros [|x l] i H; cbn [length] in H; try lia; [reflexivity|].
    destruct i as [|i]; [reflexivity|]. cbn [firstn app nth_error]. change (skipn (S (S var)) (x :: l)) with (skipn (S var) l). rewrite IH by lia.
    change (S i <? S var) with (i <? var). destruct (i <? var); reflexivity. }
  unfold sb_projectVar. cbn [sb_names sb_gens]. split; [rewrite app_length, firstn_length, skipn_length; lia|]. split; [apply map_length|].
  intros i. split; [apply E, Hv|]. intros k g Hg. exists (firstn var g ++ skipn (S var) g). split; [rewrite nth_error_map, Hg; reflexivity|].
  apply E. unfold vectors in V. rewrite Forall_forall in V. rewrite (V g (nth_error_In _ _ Hg)). exact Hv.
Qed.
