(** Polynomials that are written term by term; reading any text as a polynomial. *)
From Coq Require Import String Ascii.
From Coq Require Import List Arith Bool ZArith Lia.
Import ListNotations.
From Verif Require Import M_Term M_Api M_Names M_IO M_Poly M_IOPoly Spec_IO Spec_IOPoly P_Names P_IO P_IO2 P_IO3 P_IO4 P_IO5 P_IO6 P_IO7 P_IO8 P_IO10 P_IOPoly P_IOPoly2.

(** ** Output term by term *)
Lemma identity_nth (t : list nat) : identity_term t = true <-> forall v, nth v t 0 = 0.
Proof.
  unfold identity_term. induction t as [|e t IH]; cbn; [split; auto; intros _ [|v]; auto|]. rewrite andb_true_iff, IH. split.
  - intros [A B] [|v]; auto. now destruct e.
  - intros H. split; [now rewrite (H 0) | intros v; apply (H (S v))].
Qed.
Lemma is_identity_nth (t : list Z) : is_identity t = true <-> forall v, nth v t 0%Z = 0%Z.
Proof.
  unfold is_identity. induction t as [|e t IH]; cbn [forallb]; [split; auto; intros _ [|v]; auto|]. rewrite andb_true_iff, IH, Z.eqb_eq. split.
  - intros [A B] [|v]; cbn; auto.
  - intros H. split; [symmetry; apply (H 0) | intros v; apply (H (S v))].
Qed.
Lemma value_nth tr t v : List.length t = List.length tr -> v < List.length tr -> nth v (t_value tr t) 0%Z = nth (nth v t 0) (nth v tr []) 0%Z.
Proof.
  intros L H. unfold t_value. rewrite (nth_indep _ 0%Z (nth 0 [] 0%Z)) by (rewrite map_length, combine_length; lia).
  change (nth 0 [] 0%Z) with ((fun p : list Z * nat => nth (snd p) (fst p) 0%Z) ([], 0)). rewrite map_nth, combine_nth by auto. reflexivity.
Qed.
Lemma value_length tr t : List.length t = List.length tr -> List.length (t_value tr t) = List.length tr.
Proof. intros L. unfold t_value. rewrite map_length, combine_length. lia. Qed.
Lemma identity_value tr t : List.length t = List.length tr -> proper_indices tr t -> identity_term t = is_identity (t_value tr t).
Proof.
  intros L T. apply eq_true_iff_eq. rewrite identity_nth, is_identity_nth. split; intros H v.
  - destruct (Nat.lt_ge_cases v (List.length tr)) as [C|C]; [|apply nth_overflow; rewrite value_length; lia].
    rewrite value_nth by auto. now apply T.
  - destruct (Nat.lt_ge_cases v (List.length tr)) as [C|C]; [|apply nth_overflow; lia].
    apply T; auto. rewrite <- value_nth by auto. apply H.
Qed.
(** In CoCoA 4 all exponents of a term are nonzero, or none is *)
Definition full_or_one (t : list Z) : Prop := Forall (fun e => e <> 0%Z) t \/ Forall (fun e => e = 0%Z) t.
Lemma every_pairs : forall (t : list Z) i, Forall (fun e => e <> 0%Z) t -> combine (seq i (List.length t)) t = pairs i t.
Proof.
  induction t as [|e t IH]; intros i F; auto. inversion F; subst. cbn [List.length seq combine pairs]. assert ((e =? 0)%Z = false) as -> by lia. now rewrite IH.
Qed.
Lemma stream_term f names tr first c t : f = M2 \/ f = Singular \/ f = CoCoA4 -> List.length tr = List.length names -> List.length t = List.length tr ->
  proper_indices tr t -> (f = CoCoA4 -> full_or_one (t_value tr t)) -> p_t_term f names tr first (c, t) = p_term f names first (c, t_value tr t).
Proof.
  intros Ff L1 L2 T C. pose proof (identity_value tr t L2 T) as I.
  destruct Ff as [-> | [-> | ->]]; cbn [p_t_term p_term]; rewrite I, ?t_product_value by auto; auto. f_equal.
  specialize (C eq_refl) as [A|A].
  - rewrite cocoa_t_body by auto. unfold every. rewrite every_pairs by auto. now rewrite <- (cocoa_body names).
  - assert (is_identity (t_value tr t) = true) as ->. { apply forallb_forall. intros x Hx. rewrite Forall_forall in A. apply Z.eqb_eq. symmetry. auto. }
    reflexivity.
Qed.
Lemma stream_same f names tr : polynomial_format f -> List.length tr = List.length names ->
  forall p q, Forall2 (translated tr) p q -> Forall (fun ct => proper_indices tr (snd ct)) p -> (f = CoCoA4 -> Forall (fun ct => full_or_one (snd ct)) q) ->
  write_poly_stream f names tr p = write_polynomial f names q.
Proof.
  intros Ff L p q H T C.
  assert (E : map (fun ct => (fst ct, t_value tr (snd ct))) p = q).
  { clear T C. induction H as [|[c t] [d e] p q [A [B D]] H IH]; auto. cbn [map fst snd] in *. rewrite IH. f_equal. subst. f_equal. now apply looked_up_value. }
  assert (Q : f = M2 \/ f = Singular \/ f = CoCoA4 \/ f = Fourti2) by exact Ff.
  assert (K : f = Fourti2 \/ (f = M2 \/ f = Singular \/ f = CoCoA4)) by tauto. clear Q. destruct K as [-> | K].
  { unfold write_poly_stream. now rewrite E. }
  assert (G : forall first, p_terms (p_t_term f names tr) first p = p_terms (p_term f names) first q).
  { rewrite <- E in C. clear E. revert C. induction H as [|[c t] [d e] p q [A [B D]] H IH]; intros C first; auto. cbn [map fst snd p_terms] in *. inversion T as [|? ? T1 T2]; subst.
    rewrite (looked_up_value tr t e B D) in C.
    rewrite IH; auto; [|intros X; specialize (C X); now inversion C]. f_equal. rewrite <- (looked_up_value tr t e B D). apply stream_term; auto.
    intros X. specialize (C X). inversion C; subst. cbn [snd] in *. now rewrite (looked_up_value tr t e B D). }
  assert (Em : is_empty p = is_empty q) by (destruct H; reflexivity).
  unfold write_poly_stream, write_polynomial. destruct K as [-> | [-> | ->]]; cbn [p_header]; rewrite G, Em; reflexivity.
Qed.

(** ** Reading any text *)
Lemma zeros_fine (names : list str) : pfine (List.length names) (map (fun _ => 0%Z) names).
Proof. split; [apply map_length|]. apply Forall_map, Forall_forall. intros; lia. Qed.
Lemma set_fine n t v z : pfine n t -> (0 <= z)%Z -> pfine n (list_set t v z).
Proof.
  intros [A B] Hz. assert (M : monomials n [t]) by (constructor; auto). apply (monomials_set n t [] v z) in M; auto. inversion M; subst. auto.
Qed.
Lemma readSign_gd first s : gd (fun p => # (snd p) <= # s) (readSign first s).
Proof.
  unfold readSign. apply (gd_bind (fun p : bool * text => # (snd p) <= # s)).
  - destruct first.
    + one; small.
    + one; [one; small|]. one; small; try exact I.
  - intros [b r] H. cbn [snd] in H. one; [exact I|]. one; [exact I|]. small.
Qed.
Lemma readVarPower_gd names t s : pfine # names t -> gd (fun p => pfine # names (fst p) /\ # (snd p) < # s) (readVarPower names t s).
Proof.
  intros F. unfold readVarPower. one. destruct (var_index x names) as [v|] eqn:V; [|exact I]. apply var_index_lt in V.
  destruct (nth_error t v) as [e|] eqn:N; [|apply nth_error_None in N; destruct F; lia]. destruct (e =? 0)%Z; [|exact I]. one.
  - eapply gd_bind; [apply readInteger_gd|]. intros [z r] Hz. destruct (z <=? 0)%Z eqn:E; [exact I|]. split; [apply set_fine; auto; lia | small].
  - split; [apply set_fine; auto; lia | small].
Qed.
Lemma readPowers_gd names : forall fuel t s, pfine # names t -> # s < fuel -> gd (fun p => pfine # names (fst p) /\ # (snd p) <= # s) (readPowers names fuel t s).
Proof.
  induction fuel as [|fuel IH]; intros t s F K; [lia|]. cbn [readPowers]. one.
  - eapply gd_bind; [apply readVarPower_gd; auto|]. intros [t' r] [A B]. cbn [fst snd] in *. eapply gd_imp; [apply IH; auto; small|]. intros p [P Q]. split; auto. small.
  - split; auto; small.
Qed.
Definition term_post (n : nat) (s : text) (p : Z * list Z * text) : Prop := pfine n (snd (fst p)) /\ # (snd p) < # s.
Lemma readCoefTerm_gd names first s : gd (term_post # names s) (readCoefTerm names first s).
Proof.
  unfold readCoefTerm. eapply gd_bind; [apply readSign_gd|]. intros [b r] H. cbn [snd] in H. cbv zeta.
  apply (gd_bind (term_post # names s)).
  - one.
    + eapply gd_bind; [apply readVarPower_gd, zeros_fine|]. intros [t r'] [A B]. split; auto. small.
    + eapply gd_bind; [apply readInteger_gd|]. intros [c r'] A. split; [apply zeros_fine | small].
  - intros [[c t] r'] [A B]. cbn [fst snd] in *. eapply gd_bind; [apply readPowers_gd; auto|]. intros [t' r2] [P Q]. split; auto. small.
Qed.
Lemma cocoa_readVarPower_gd m n t s : pfine n t -> gd (fun p => pfine n (fst p) /\ # (snd p) < # s) (cocoa_readVarPower m t s).
Proof.
  intros F. unfold cocoa_readVarPower. do 3 one. destruct ((n0 =? 0) || (# t <? n0)) eqn:V; [exact I|]. apply orb_false_iff in V as [V1 V2].
  apply Nat.eqb_neq in V1. apply Nat.ltb_ge in V2. cbv zeta. one.
  destruct (nth_error t (n0 - 1)) as [e|] eqn:N; [|apply nth_error_None in N; lia]. destruct (e =? 0)%Z; [|exact I]. one.
  - eapply gd_bind; [apply readInteger_gd|]. intros [z r] Hz. destruct (z <=? 0)%Z eqn:E; [exact I|]. split; [apply set_fine; auto; lia | small].
  - split; [apply set_fine; auto; lia | small].
Qed.
Lemma cocoa_readPowers_gd m n : forall fuel t s, pfine n t -> # s < fuel -> gd (fun p => pfine n (fst p) /\ # (snd p) <= # s) (cocoa_readPowersOf m fuel t s).
Proof.
  induction fuel as [|fuel IH]; intros t s F K; [lia|]. cbn [cocoa_readPowersOf]. one.
  - eapply gd_bind; [apply cocoa_readVarPower_gd; eauto|]. intros [t' r] [A B]. cbn [fst snd] in *. eapply gd_imp; [apply IH; auto; small|]. intros p [P Q]. split; auto. small.
  - split; auto.
Qed.
Lemma cocoa_readCoefTerm_gd m names first s : gd (term_post # names s) (cocoa_readCoefTerm m names first s).
Proof.
  unfold cocoa_readCoefTerm. eapply gd_bind; [apply readSign_gd|]. intros [b r] H. cbn [snd] in H. cbv zeta.
  apply (gd_bind (term_post # names s)).
  - one.
    + eapply gd_bind; [apply cocoa_readVarPower_gd, zeros_fine|]. intros [t r'] [A B]. split; auto. small.
    + eapply gd_bind; [apply readInteger_gd|]. intros [c r'] A. split; [apply zeros_fine | small].
  - intros [[c t] r'] [A B]. cbn [fst snd] in *. eapply gd_bind; [eapply cocoa_readPowers_gd; eauto|]. intros [t' r2] [P Q]. split; auto. small.
Qed.
Definition poly_post (n : nat) (s : text) (p : list (Z * list Z) * text) : Prop := Forall (fun ct => pfine n (snd ct)) (fst p) /\ # (snd p) <= # s.
Lemma readCoefTerms_gd n read : (forall first s, gd (term_post n s) (read first s)) -> forall fuel first s, # s < fuel -> gd (poly_post n s) (readCoefTerms read fuel first s).
Proof.
  intros R. induction fuel as [|fuel IH]; intros first s K; [lia|]. cbn [readCoefTerms]. eapply gd_bind; [apply R|]. intros [[c t] r] [A B]. cbn [fst snd] in *. one.
  - split; [repeat constructor; auto; apply A | small].
  - eapply gd_bind; [apply IH; small|]. intros [p r'] [P Q]. cbn [fst snd] in *. split; [constructor; auto | small].
Qed.
Lemma bare_gd m f names s : f = M2 \/ f = Singular \/ f = CoCoA4 -> gd (poly_post # names s) (readBarePolynomial m f names s).
Proof.
  intros [-> | [-> | ->]]; cbn [readBarePolynomial].
  - do 2 one. eapply gd_imp; [apply (readCoefTerms_gd # names); [apply readCoefTerm_gd | lia]|]. intros p [P Q]. split; auto. small.
  - do 3 one. eapply gd_imp; [apply (readCoefTerms_gd # names); [apply readCoefTerm_gd | lia]|]. intros p [P Q]. split; auto. small.
  - do 2 one. eapply gd_imp; [apply (readCoefTerms_gd # names); [apply cocoa_readCoefTerm_gd | lia]|]. intros p [P Q]. split; auto. small.
Qed.
Definition good_poly (p : list str * list (Z * list Z)) : Prop := legal_names (fst p) /\ terms_of (List.length (fst p)) (snd p).
Lemma of_fine n p : Forall (fun ct : Z * list Z => pfine n (snd ct)) p -> terms_of n p.
Proof. intros H. unfold terms_of, monomials. apply Forall_map. eapply Forall_impl; [|exact H]. intros [c t] [A B]. split; auto. Qed.
Lemma common_poly_gd m f s : f = M2 \/ f = Singular \/ f = CoCoA4 -> gd (fun p => good_poly (fst p)) (common_readPolynomial m f s).
Proof.
  intros Ff. unfold common_readPolynomial. eapply gd_bind; [apply ring_gd; destruct Ff as [-> | [-> | ->]]; unfold is_common; auto|]. intros [names r] [A B]. cbn [fst snd] in *.
  eapply gd_bind; [apply bare_gd; auto|]. intros [p r'] [P Q]. cbn [fst snd] in *. split; auto. now apply of_fine.
Qed.
(** The same for 4ti2, where the result may be undefined *)
Definition gu {A} (P : A -> Prop) (r : res A) : Prop := match r with Ok a => P a | OutOfFuel | InvalidArgument => False | _ => True end.
Lemma gu_bind {A B} (Q : A -> Prop) (P : B -> Prop) r k : gu Q r -> (forall a, Q a -> gu P (k a)) -> gu P (rbind r k).
Proof. destruct r; cbn; auto; contradiction. Qed.
Lemma gu_imp {A} (Q P : A -> Prop) r : gu Q r -> (forall a, Q a -> P a) -> gu P r.
Proof. destruct r; cbn; auto. Qed.
(** No exception *)
Definition np {A} (r : res A) : Prop := r <> InvalidArgument.
Lemma np_bind {A B} (r : res A) (k : A -> res B) : np r -> (forall a, np (k a)) -> np (rbind r k).
Proof. unfold np. destruct r; cbn; auto; discriminate. Qed.
Lemma gu_of {A} (P : A -> Prop) r : gd P r -> np r -> gu P r.
Proof. unfold np. destruct r; cbn; auto; congruence. Qed.
Ltac npa := repeat (cbv beta iota zeta; match goal with
  | |- np (rbind _ _) => apply np_bind; [|intros ?]
  | |- np (Ok _) => discriminate | |- np SyntaxError => discriminate | |- np OtherError => discriminate | |- np OutOfFuel => discriminate | |- np Undefined => discriminate
  | |- np (match ?x with _ => _ end) => destruct x
  | |- np (let '(_, _) := ?x in _) => destruct x
  end).
Lemma np_expect_char c s : np (expect_char c s). Proof. unfold expect_char. npa. Qed.
Lemma np_expect_rest : forall w s, np (expect_rest w s).
Proof. induction w as [|c w IH]; intros [|x s]; cbn; try discriminate. destruct (ascii_dec c x); auto; discriminate. Qed.
Lemma np_expect_str w s : np (expect_str w s). Proof. apply np_expect_rest. Qed.
Lemma np_ident s : np (readIdentifier s). Proof. unfold readIdentifier. npa. Qed.
Lemma np_intstr s : np (readIntegerString s). Proof. unfold readIntegerString. npa. Qed.
Lemma np_int s : np (readInteger s). Proof. unfold readInteger. npa. apply np_intstr. Qed.
Lemma np_size m s : np (readSizeT m s). Proof. unfold readSizeT. npa; apply np_int. Qed.
Lemma np_negzero s : np (readIntegerAndNegativeAsZero s). Proof. unfold readIntegerAndNegativeAsZero. npa; apply np_intstr. Qed.
Lemma np_addVar names x : np (addVarUnique names x). Proof. unfold addVarUnique. npa. Qed.
Ltac npp := npa; try first [apply np_expect_char | apply np_expect_str | apply np_ident | apply np_int | apply np_intstr | apply np_size | apply np_addVar | apply np_negzero].
Lemma np_names : forall fuel names s, np (readNames fuel names s).
Proof. induction fuel as [|fuel IH]; intros names s; [discriminate|]. cbn [readNames]. npp. apply IH. Qed.
Lemma np_cocoa_names : forall k names s, np (cocoa_readNames k names s).
Proof. induction k as [|k IH]; intros names s; [discriminate|]. cbn [cocoa_readNames]. npp; apply IH. Qed.
Lemma np_m2_ring s : np (m2_readRing s).
Proof. unfold m2_readRing. npp; apply np_names. Qed.
Lemma np_singular_ring s : np (singular_readRing s).
Proof. unfold singular_readRing. npp; apply np_names. Qed.
Lemma np_cocoa_ring m s : np (cocoa_readRing m s).
Proof. unfold cocoa_readRing. npp; apply np_cocoa_names. Qed.
Lemma np_ring m f s : f = M2 \/ f = Singular \/ f = CoCoA4 -> np (fmt_readRing m f s).
Proof. intros [-> | [-> | ->]]; cbn [fmt_readRing]; [apply np_m2_ring | apply np_singular_ring | apply np_cocoa_ring]. Qed.
Lemma np_sign first s : np (readSign first s).
Proof. unfold readSign. npp. Qed.
Lemma np_power names t s : np (readVarPower names t s).
Proof. unfold readVarPower. npp. Qed.
Lemma np_powers names : forall fuel t s, np (readPowers names fuel t s).
Proof. induction fuel as [|fuel IH]; intros t s; [discriminate|]. cbn [readPowers]. npp; try apply np_power. apply IH. Qed.
Lemma np_coefTerm names first s : np (readCoefTerm names first s).
Proof. unfold readCoefTerm. npp; try apply np_power; try apply np_powers. apply np_sign. Qed.
Lemma np_cocoa_power m t s : np (cocoa_readVarPower m t s).
Proof. unfold cocoa_readVarPower. npp. Qed.
Lemma np_cocoa_powers m : forall fuel t s, np (cocoa_readPowersOf m fuel t s).
Proof. induction fuel as [|fuel IH]; intros t s; [discriminate|]. cbn [cocoa_readPowersOf]. npp; try apply np_cocoa_power. apply IH. Qed.
Lemma np_cocoa_coefTerm m names first s : np (cocoa_readCoefTerm m names first s).
Proof. unfold cocoa_readCoefTerm. npp; try apply np_cocoa_power; try apply np_cocoa_powers. apply np_sign. Qed.
Lemma np_terms read : (forall first s, np (read first s)) -> forall fuel first s, np (readCoefTerms read fuel first s).
Proof. intros R. induction fuel as [|fuel IH]; intros first s; [discriminate|]. cbn [readCoefTerms]. npp; auto. Qed.
Lemma np_bare m f names s : np (readBarePolynomial m f names s).
Proof. unfold readBarePolynomial. destruct f; npp; apply np_terms; intros; first [apply np_coefTerm | apply np_cocoa_coefTerm]. Qed.
Lemma np_common m f s : f = M2 \/ f = Singular \/ f = CoCoA4 -> np (common_readPolynomial m f s).
Proof. intros H. unfold common_readPolynomial. npp; [now apply np_ring | apply np_bare]. Qed.
(** 4ti2 *)
Lemma np_eof s : np (expectEOF s).
Proof. unfold expectEOF. npp. Qed.
Lemma parseInteger_nonneg sg ds : sg <> "-"%char -> Forall (fun c => isdigit c = true) ds -> (0 <= parseInteger sg ds)%Z.
Proof.
  intros S F. rewrite parse_value by auto. cbv zeta. destruct (ascii_dec sg "-"); [congruence|].
  assert (G : forall l acc, (0 <= acc -> 0 <= fold_left (fun l c => 10 * l + digit_value c) l acc)%Z).
  { induction l as [|c l IH]; intros acc A; cbn [fold_left]; auto. apply IH. unfold digit_value. lia. }
  apply G. lia.
Qed.
Lemma readIntegerString_digits s : gd (fun p => Forall (fun c => isdigit c = true) (snd (fst p)) /\ # (snd p) < # s) (readIntegerString s).
Proof.
  unfold readIntegerString. pose proof (eat_le s) as E.
  assert (G : forall c r, # r <= # s -> gd (fun p => Forall (fun c => isdigit c = true) (snd (fst p)) /\ # (snd p) < # s) (match span isdigit r with ([], _) => SyntaxError | ((a :: l) as ds, s') => Ok (c : ascii, ds, s') end)).
  { intros c r L. destruct (span_parts isdigit r) as [P Q]. destruct (span isdigit r) as [[|d ds] s']; cbn in *; auto. split; auto. lia. }
  destruct (eat s) as [|c r]; cbn in E; [apply G; cbn; lia|]. destruct (ascii_dec c "-"); [apply G; lia|]. destruct (ascii_dec c "+"); apply G; cbn; lia.
Qed.
Lemma negzero_gd s : gd (fun p => 0 <= fst p)%Z (readIntegerAndNegativeAsZero s).
Proof.
  assert (G : forall r, gd (fun p => 0 <= fst p)%Z (LET (sign, ds, s) := readIntegerString r IN Ok (if ascii_dec sign "-" then 0%Z else parseInteger sign ds, s))).
  { intros r. eapply gd_bind; [apply readIntegerString_digits|]. intros [[sg ds] r'] [A B]. cbn [gd fst snd] in *. destruct (ascii_dec sg "-"); [lia | now apply parseInteger_nonneg]. }
  unfold readIntegerAndNegativeAsZero. destruct s as [|c s']; [apply G|]. destruct (ascii_dec c "0"); [|apply G]. destruct s' as [|d s'']; [cbn; lia|]. destruct (isdigit d); [apply G | cbn; lia].
Qed.
Lemma exponents_gd : forall k s, gd (fun p => pfine k (fst p)) (fourti2_readExponents k s).
Proof.
  induction k as [|k IH]; intros s; cbn [fourti2_readExponents]; [repeat split; constructor|]. eapply gd_bind; [apply negzero_gd|]. intros [e r] H. cbn [fst] in H.
  eapply gd_bind; [apply IH|]. intros [t r'] [A B]. cbn [fst] in *. split; cbn; [congruence | constructor; auto].
Qed.
Lemma np_exponents : forall k s, np (fourti2_readExponents k s).
Proof. induction k as [|k IH]; intros s; cbn [fourti2_readExponents]; npp. apply IH. Qed.
Lemma f4_terms_gd vars : forall gens s, gd (fun p => Forall (fun ct : Z * list Z => pfine vars (snd ct)) (fst p)) (fourti2_readCoefTerms gens vars s).
Proof.
  induction gens as [|gens IH]; intros s; cbn [fourti2_readCoefTerms]; [constructor|]. eapply gd_bind; [apply readInteger_gd|]. intros [c r] _.
  eapply gd_bind; [apply exponents_gd|]. intros [t r1] A. eapply gd_bind; [apply IH|]. intros [p r2] B. constructor; auto.
Qed.
Lemma np_f4_terms vars : forall gens s, np (fourti2_readCoefTerms gens vars s).
Proof. induction gens as [|gens IH]; intros s; cbn [fourti2_readCoefTerms]; npp; [apply np_exponents | apply IH]. Qed.
Lemma addNames_gd : forall k names s, legal_names names -> gd (fun p => legal_names (fst p)) (fourti2_addNames k names s).
Proof.
  induction k as [|k IH]; intros names s L; cbn [fourti2_addNames]; [exact L|]. one. apply IH. unfold addVar. destruct (in_dec str_dec x names) as [H1|H1]; auto.
  pose proof (addVarUnique_gd names x L K) as G. unfold addVarUnique in G. destruct (in_dec str_dec x names); [contradiction|]. apply G.
Qed.
Lemma np_addNames : forall k names s, np (fourti2_addNames k names s).
Proof. induction k as [|k IH]; intros names s; cbn [fourti2_addNames]; npp. apply IH. Qed.
Lemma f4_poly_gu m s : gu (fun p => good_poly (fst p)) (fourti2_readPolynomial m s).
Proof.
  unfold fourti2_readPolynomial.
  eapply gu_bind; [eapply gu_of; [apply readSizeT_gd | apply np_size]|]. intros [gens r1] _. eapply gu_bind; [eapply gu_of; [apply readSizeT_gd | apply np_size]|]. intros [cols r2] _.
  destruct (cols =? 0); [exact I|]. cbv zeta. eapply gu_bind; [eapply gu_of; [apply f4_terms_gd | apply np_f4_terms]|]. intros [p r3] A. cbn [fst] in A.
  apply (gu_bind (fun _ => True)). { destruct (match_char "(" r3) as [[] r4]; [exact I|]. eapply gu_of; [eapply gd_imp; [apply expect_str_gd|]; auto | apply np_expect_str]. }
  intros r4 _. eapply gu_bind; [eapply gu_of; [apply expect_str_gd | apply np_expect_str]|]. intros r5 _. eapply gu_bind; [eapply gu_of; [apply expect_char_gd | apply np_expect_char]|]. intros r6 _.
  cbv beta. destruct (peekIdentifier r6) as [[] r7].
  - eapply gu_bind; [eapply gu_of; [apply (addNames_gd (cols - 1) [] r7 legal_nil) | apply np_addNames]|]. intros [names r8] L. cbn [fst] in L. destruct (List.length names =? cols - 1) eqn:E; [|exact I].
    apply Nat.eqb_eq in E. split; auto. cbn [fst snd]. rewrite E. now apply of_fine.
  - split; [apply default_legal|]. cbn [fst snd]. rewrite default_length. now apply of_fine.
Qed.
Lemma poly_reading m f file :
  match read_polynomial m f file with
  | Ok (names, p) => legal_names names /\ terms_of (List.length names) p
  | SyntaxError | OtherError => True
  | Undefined => f = Fourti2
  | OutOfFuel | InvalidArgument => False
  end.
Proof.
  unfold read_polynomial, handler_readPolynomial. destruct f; cbn [has_polynomials]; try exact I.
  4:{ pose proof (f4_poly_gu m (" "%char :: file)) as H. destruct (fourti2_readPolynomial m (" "%char :: file)) as [[[names p] r]| | | | |]; cbn in *; auto; try contradiction.
      pose proof (np_eof r) as Q. pose proof (expectEOF_gd r) as G. destruct (expectEOF r); cbn in *; auto; try contradiction. }
  all: (match goal with |- context [common_readPolynomial _ ?f _] => pose proof (common_poly_gd m f (" "%char :: file)) as H; pose proof (np_common m f (" "%char :: file)) as N;
          assert (X : f = M2 \/ f = Singular \/ f = CoCoA4) by tauto; specialize (H X); specialize (N X);
          destruct (common_readPolynomial m f (" "%char :: file)) as [[[names p] r]| | | | |]; cbn in *; auto; try contradiction; try (now elim N);
          pose proof (np_eof r) as Q; pose proof (expectEOF_gd r) as G; destruct (expectEOF r); cbn in *; auto; try contradiction end).
  all: now elim Q.
Qed.
