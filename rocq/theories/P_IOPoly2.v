(** Whole files with a polynomial are read as they were written. *)
From Coq Require Import String Ascii.
From Coq Require Import List Arith Bool ZArith Lia.
Import ListNotations.
From Verif Require Import M_Term M_Api M_Names M_IO M_Poly M_IOPoly Spec_IO Spec_IOPoly P_Names P_IO P_IO2 P_IO3 P_IO4 P_IO5 P_IO6 P_IO7 P_IO8 P_IO10 P_IOPoly.

(** ** Terms with their signs *)
Lemma signed_here (first : bool) c u : starter u -> signed first (negb (c <? 0)%Z) (sign first c ++ u) u.
Proof.
  intros H. unfold sign. destruct (c <? 0)%Z; cbn [negb app]; [apply SMinus|]. destruct first; cbn [app]; [apply SFirst|]. apply SPlus. now apply starter_eat.
Qed.
Lemma eat_newline s : eat (newline ++ s) = eat s.
Proof. reflexivity. Qed.
Lemma sign_eat first c u : starter u -> eat (sign first c ++ u) = sign first c ++ u.
Proof. intros H. unfold sign. destruct (c <? 0)%Z; [reflexivity|]. destruct first; [now apply starter_eat | reflexivity]. Qed.
Lemma plain_starter star id c body rest : (0 <= c)%Z -> (id = false -> starter (body ++ rest)) -> starter (plain star id c body ++ rest).
Proof.
  intros H B. unfold plain. destruct id; [now apply z_starter|]. destruct (c =? 1)%Z; auto. rewrite app_rest. now apply z_starter.
Qed.
(** M2 writes a plus sign in front of every term but the first *)
Lemma m2_signed (first : bool) c u : starter u -> exists pre, eat ((if first then newline else lit " +" ++ newline) ++ sign true c ++ u) = pre /\ signed first (negb (c <? 0)%Z) pre u.
Proof.
  intros H. destruct first.
  - rewrite eat_newline, sign_eat by auto. eexists. split; [reflexivity|]. now apply signed_here.
  - eexists. split; [reflexivity|]. unfold sign. destruct (c <? 0)%Z; cbn [negb app].
    + apply SPlusMinus. reflexivity.
    + apply SPlus. rewrite eat_newline. now apply starter_eat.
Qed.

Lemma fine_of n p : terms_of n p -> Forall (fun ct => pfine n (snd ct)) p.
Proof. unfold terms_of, monomials. rewrite Forall_map. intros H. eapply Forall_impl; [|exact H]. intros [c t] [A B]. split; auto. Qed.

Section Common.
  Context (m : Z) (names : list str).
  Hypothesis (LN : legal_names names).
  Notation ok := (fun ct : Z * list Z => pfine (List.length names) (snd ct)).
  Lemma body_starter t rest : pfine (List.length names) t -> is_identity t = false -> starter (writeTermProduct names t ++ rest).
  Proof.
    intros F I. destruct (pairs 0 t) as [|p ps] eqn:E; [apply identity_pairs in E; congruence|].
    change (writeTermProduct names t) with (body names t). rewrite (body_pairs names t p ps F E), app_rest. pose proof (pairs_good names t F) as G. rewrite E in G. inversion G as [|? ? [G1 _] _]; subst.
    destruct (ptext_alpha names LN p G1) as [c [r [-> A]]]. exists c, (r ++ stars names ps ++ rest). split; auto. unfold isalnum. now rewrite A.
  Qed.
  Lemma cbody_starter t rest : is_identity t = false -> starter (cocoa_writeTermProduct t ++ rest).
  Proof.
    intros I. destruct (pairs 0 t) as [|p ps] eqn:E; [apply identity_pairs in E; congruence|].
    change (cocoa_writeTermProduct t) with (tbody CoCoA4 names t). rewrite cocoa_body, E. cbn [pbody map concat]. destruct (ctext_head p) as [r ->].
    exists "x"%char. eexists. split; reflexivity.
  Qed.
  Lemma m2_sign ct rest : stop isident (p_term M2 names false ct ++ rest) /\ exists c r, eat (p_term M2 names false ct ++ rest) = c :: r /\ (c = "+"%char \/ c = "-"%char).
  Proof. destruct ct as [c t]. cbn [p_term]. split; [reflexivity|]. eexists. eexists. split; [reflexivity|]. auto. Qed.
  Lemma other_sign f ct rest : f = Singular \/ f = CoCoA4 ->
    stop isident (p_term f names false ct ++ rest) /\ exists c r, eat (p_term f names false ct ++ rest) = c :: r /\ (c = "+"%char \/ c = "-"%char).
  Proof.
    destruct ct as [c t]. intros [-> | ->]; cbn [p_term]; (split; [reflexivity|]); rewrite app_rest, eat_newline, writeCoef_plain; unfold sign;
      destruct (c <? 0)%Z; (eexists; eexists; split; [reflexivity|]; auto).
  Qed.
  Lemma m2_coefTerm first ct s rest : ok ct -> eat s = eat (p_term M2 names first ct ++ rest) -> ends rest ->
    exists r, readCoefTerm names first s = Ok (fst ct, snd ct, r) /\ eat r = eat rest.
  Proof.
    intros F E N. destruct ct as [c t]. cbn [p_term fst snd] in *. rewrite writeCoef_plain, !app_rest in E.
    destruct (m2_signed first c (plain ["*"%char] (is_identity t) (Z.abs c) (writeTermProduct names t) ++ rest)) as [pre [P1 P2]].
    - apply plain_starter; [apply Z.abs_nonneg|]. now apply body_starter.
    - apply (coefTerm_read names LN first (c, t) pre s rest); auto. etransitivity; [exact E|]. exact P1.
  Qed.
  Lemma singular_coefTerm first ct s rest : ok ct -> eat s = eat (p_term Singular names first ct ++ rest) -> ends rest ->
    exists r, readCoefTerm names first s = Ok (fst ct, snd ct, r) /\ eat r = eat rest.
  Proof.
    intros F E N. destruct ct as [c t]. cbn [p_term fst snd] in *. rewrite writeCoef_plain, !app_rest, eat_newline in E.
    set (u := plain ["*"%char] (is_identity t) (Z.abs c) (writeTermProduct names t) ++ rest) in *.
    assert (U : starter u) by (apply plain_starter; [apply Z.abs_nonneg | now apply body_starter]).
    rewrite sign_eat in E by auto. apply (coefTerm_read names LN first (c, t) _ s rest F (signed_here first c u U) E N).
  Qed.
  Lemma cocoa_coefTerm first ct s rest : fits m (List.length names) -> ok ct -> eat s = eat (p_term CoCoA4 names first ct ++ rest) -> ends rest ->
    exists r, cocoa_readCoefTerm m names first s = Ok (fst ct, snd ct, r) /\ eat r = eat rest.
  Proof.
    intros FT F E N. destruct ct as [c t]. cbn [p_term fst snd] in *. rewrite writeCoef_plain, !app_rest, eat_newline in E.
    set (u := plain [] (is_identity t) (Z.abs c) (cocoa_writeTermProduct t) ++ rest) in *.
    assert (U : starter u) by (apply plain_starter; [apply Z.abs_nonneg | now apply cbody_starter]).
    rewrite sign_eat in E by auto. apply (cocoa_coefTerm_read m names FT first (c, t) _ s rest F (signed_here first c u U) E N).
  Qed.
  Lemma terms_length {A} (term : bool -> A -> text) : (forall first ct, term first ct <> []) -> forall p first, List.length p <= List.length (p_terms term first p).
  Proof.
    intros H. induction p as [|ct p IH]; intros first; cbn [p_terms List.length]; [lia|]. rewrite app_length. specialize (IH false).
    destruct (term first ct) eqn:E; [now apply H in E|]. cbn [List.length]. lia.
  Qed.
  Lemma p_term_nonempty f first ct : f = M2 \/ f = Singular \/ f = CoCoA4 -> p_term f names first ct <> [].
  Proof. destruct ct as [c t]. intros [-> | [-> | ->]]; cbn [p_term]; try destruct first; discriminate. Qed.
  Definition p_head (f : format) : text := match f with M2 => lit "p =" | Singular => lit "poly p =" | CoCoA4 => lit "p :=" | _ => [] end.
  Lemma bare_poly f ct p s rest : f = M2 \/ f = Singular \/ f = CoCoA4 -> (f = CoCoA4 -> fits m (List.length names)) -> Forall ok (ct :: p) ->
    eat s = eat (p_head f ++ p_terms (p_term f names) true (ct :: p) ++ ";"%char :: rest) -> readBarePolynomial m f names s = Ok (ct :: p, rest).
  Proof.
    intros Ff FT F E.
    assert (K : forall r, List.length (ct :: p) <= S (List.length (p_terms (p_term f names) true (ct :: p) ++ r))).
    { intros r. rewrite app_length. pose proof (terms_length (p_term f names) (fun a b => p_term_nonempty f a b Ff) (ct :: p) true). lia. }
    assert (SG : forall q r, stop isident (p_term f names false q ++ r) /\ exists c r0, eat (p_term f names false q ++ r) = c :: r0 /\ (c = "+"%char \/ c = "-"%char)).
    { intros q r. destruct Ff as [-> | Ff]; [apply m2_sign | now apply other_sign]. }
    destruct Ff as [-> | [-> | ->]]; cbn [readBarePolynomial p_head] in *.
    - erewrite expect_char_yes; [|rewrite E; lits; reflexivity]. cbn [rbind]. erewrite expect_char_yes; [|reflexivity]. cbn [rbind].
      apply (readCoefTerms_zero (readCoefTerm names) (p_term M2 names) ok); auto. intros first q s0 rest0. apply m2_coefTerm.
    - erewrite expect_str_yes; [|rewrite E; lits; reflexivity]. cbn [rbind]. erewrite expect_char_yes; [|reflexivity]. cbn [rbind]. erewrite expect_char_yes; [|reflexivity]. cbn [rbind].
      apply (readCoefTerms_zero (readCoefTerm names) (p_term Singular names) ok); auto. intros first q s0 rest0. apply singular_coefTerm.
    - erewrite expect_char_yes; [|rewrite E; lits; reflexivity]. cbn [rbind]. erewrite (expect_str_yes (lit ":=")); [|lits; reflexivity]. cbn [rbind].
      apply (readCoefTerms_zero (cocoa_readCoefTerm m names) (p_term CoCoA4 names) ok); auto. intros first q s0 rest0. apply cocoa_coefTerm. now apply FT.
  Qed.
  (** What is written for a nonempty polynomial *)
  Lemma common_write f p : f = M2 \/ f = Singular \/ f = CoCoA4 ->
    write_polynomial f names p = Ok (ringt f names ++ p_head f ++ p_terms (p_term f names) true p ++ p_footer f names (is_empty p)).
  Proof.
    intros [-> | [-> | ->]]; unfold write_polynomial; cbn [p_header].
    - unfold m2_writeRing. destruct (ring_name_ok names) as [-> _]. cbn [rbind ringt]. now rewrite !app_rest.
    - cbn [rbind ringt]. now rewrite !app_rest.
    - cbn [rbind ringt]. now rewrite !app_rest.
  Qed.
  (** The zero polynomial is written like the term 0 *)
  Definition zero_terms : list (Z * list Z) := [(0%Z, map (fun _ => 0%Z) names)].
  Lemma zero_identity : is_identity (map (fun _ : str => 0%Z) names) = true.
  Proof. induction names; auto. cbn. apply IHl. split; [destruct LN as [D _] | destruct LN as [_ F]]; [now inversion D | now inversion F]. Qed.
  Lemma write_zero f : f = M2 \/ f = Singular \/ f = CoCoA4 -> write_polynomial f names [] = write_polynomial f names zero_terms.
  Proof.
    intros Ff. rewrite !common_write by auto. do 3 f_equal. destruct Ff as [-> | [-> | ->]]; cbn [p_terms zero_terms p_term is_empty p_footer]; rewrite zero_identity; reflexivity.
  Qed.
  Definition as_read (f : format) (p : list (Z * list Z)) : list (Z * list Z) := match f, p with Fourti2, _ => p | _, [] => zero_terms | _, _ => p end.
  Lemma zero_ok : Forall ok zero_terms.
  Proof. repeat constructor; cbn [snd]; [apply map_length|]. apply Forall_map. apply Forall_forall. intros; lia. Qed.
  Lemma common_roundtrip f p file : f = M2 \/ f = Singular \/ f = CoCoA4 -> Forall ok p -> polynomial_fits m f names p -> write_polynomial f names p = Ok file ->
    read_polynomial m f file = Ok (names, as_read f p).
  Proof.
    intros Ff F FT W.
    assert (FC : is_common f) by (destruct Ff as [-> | [-> | ->]]; unfold is_common; auto).
    assert (FF : format_fits m f names []) by (destruct Ff as [-> | [-> | ->]]; cbn in *; auto).
    assert (FZ : f = CoCoA4 -> fits m (List.length names)) by (intros ->; exact FT).
    assert (G : forall ct q, Forall ok (ct :: q) -> write_polynomial f names (ct :: q) = Ok file -> read_polynomial m f file = Ok (names, ct :: q)).
    { intros ct q Fq Wq. rewrite common_write in Wq by auto.
      assert (FO : p_footer f names (is_empty (ct :: q)) = ";"%char :: [nl]) by (destruct Ff as [-> | [-> | ->]]; reflexivity). rewrite FO in Wq.
      set (b := p_head f ++ p_terms (p_term f names) true (ct :: q) ++ ";"%char :: [nl]) in *.
      assert (EF : file = ringt f names ++ b) by congruence. subst file. clear Wq.
      assert (HC : common_readPolynomial m f (" "%char :: ringt f names ++ b) = Ok (names, ct :: q, [nl])).
      { unfold common_readPolynomial. rewrite (ring_read m f names _ b FC LN FF) by reflexivity. cbn [rbind].
        rewrite (bare_poly f ct q (nl :: b) [nl] Ff FZ Fq) by reflexivity. reflexivity. }
      unfold read_polynomial, handler_readPolynomial. destruct Ff as [-> | [-> | ->]]; cbn [has_polynomials]; rewrite HC; reflexivity. }
    destruct p as [|ct q].
    - assert (as_read f [] = zero_terms) as -> by (destruct Ff as [-> | [-> | ->]]; reflexivity).
      rewrite write_zero in W by auto. apply G; auto. apply zero_ok.
    - assert (as_read f (ct :: q) = ct :: q) as -> by (destruct Ff as [-> | [-> | ->]]; reflexivity). now apply G.
  Qed.
End Common.

(** ** 4ti2 *)
Lemma negzero_yes e s rest : (0 <= e)%Z -> eat s = z_str e ++ rest -> stop isdigit rest -> (exists s', s = " "%char :: s') -> readIntegerAndNegativeAsZero s = Ok (e, rest).
Proof.
  intros P E S [s' ->]. destruct (z_str_digits e P) as [A B]. unfold readIntegerAndNegativeAsZero. destruct (ascii_dec " " "0") as [X|_]; [discriminate|].
  rewrite (readIntegerString_yes (z_str e) _ rest) by auto. cbn [rbind]. destruct (ascii_dec "+" "-") as [X|_]; [discriminate|]. rewrite parse_value by auto. cbv zeta. rewrite z_value by auto. reflexivity.
Qed.
Lemma f4_exponents : forall t s rest, Forall (fun e => 0 <= e)%Z t -> stop isdigit rest -> (t <> [] -> exists s', s = " "%char :: s') ->
  eat s = eat (concat (map (fun e => " "%char :: z_str e) t) ++ rest) -> exists r, fourti2_readExponents (List.length t) s = Ok (t, r) /\ eat r = eat rest.
Proof.
  induction t as [|e t IH]; intros s rest P S N E; cbn [List.length fourti2_readExponents]; [eauto|]. inversion P as [|? ? P1 P2]; subst. cbn [map concat] in E. rewrite app_rest in E. cbn [app] in E.
  set (more := concat (map (fun e => " "%char :: z_str e) t) ++ rest) in *.
  change (eat (" "%char :: z_str e ++ more)) with (eat (z_str e ++ more)) in E. rewrite eat_z in E by auto. rewrite (negzero_yes e _ more); auto.
  - cbn [rbind]. destruct (IH more rest) as [r [A B]]; auto.
    + intros X. unfold more. destruct t; [congruence|]. cbn. eauto.
    + rewrite A. cbn [rbind]. eauto.
  - unfold more. destruct t; auto. reflexivity.
  - apply N. discriminate.
Qed.
Lemma f4_coefTerms names n : forall p s rest, Forall (fun ct : Z * list Z => pfine n (snd ct)) p -> eat s = eat (p_terms (p_term Fourti2 names) true p ++ rest) ->
  exists r, fourti2_readCoefTerms (List.length p) n s = Ok (p, r) /\ eat r = eat rest.
Proof.
  assert (G : forall (p : list (Z * list Z)) b b', p_terms (p_term Fourti2 names) b p = p_terms (p_term Fourti2 names) b' p) by (destruct p as [|[c t] p]; reflexivity).
  induction p as [|[c t] p IH]; intros s rest F E; cbn [List.length fourti2_readCoefTerms]; [eauto|]. inversion F as [|? ? [F1 F2] F3]; subst. cbn [p_terms p_term snd] in *.
  rewrite (G p false true) in E. set (more := p_terms (p_term Fourti2 names) true p ++ rest) in *.
  assert (E' : eat s = z_str c ++ match t with [] => [nl] | _ => " "%char :: fourti2_writeTerm t end ++ more).
  { rewrite E, !app_rest. fold more. apply eat_zany. }
  rewrite (readInteger_any c s (match t with [] => [nl] | _ => " "%char :: fourti2_writeTerm t end ++ more) E') by (destruct t; reflexivity). cbn [rbind].
  destruct (f4_exponents t (match t with [] => [nl] | _ => " "%char :: fourti2_writeTerm t end ++ more) (nl :: more)) as [r [A B]]; auto.
  - reflexivity.
  - destruct t; [congruence|]. cbn [app]. eauto.
  - destruct t; [reflexivity|]. cbn [app]. unfold fourti2_writeTerm. rewrite app_rest. reflexivity.
  - rewrite A. cbn [rbind]. destruct (IH r rest F3) as [r' [X Y]]; [exact B|]. rewrite X. cbn [rbind]. eauto.
Qed.
Lemma f4_addNames : forall k acc s ns r, fourti2_readNames k acc s = Ok (ns, r) -> fourti2_addNames k acc s = Ok (ns, r).
Proof.
  induction k as [|k IH]; intros acc s ns r H; cbn [fourti2_readNames fourti2_addNames] in *; auto. destruct (readIdentifier s) as [[x s']| | | | |]; try discriminate. cbn [rbind] in *.
  unfold addVarUnique, addVar in *. destruct (in_dec str_dec x acc); cbn [rbind] in H; [discriminate|]. auto.
Qed.
Lemma f4_write names p : write_polynomial Fourti2 names p =
  Ok (nat_str (List.length p) ++ " "%char :: nat_str (List.length names + 1) ++ nl :: p_terms (p_term Fourti2 names) true p ++ p_footer Fourti2 names (is_empty p)).
Proof. unfold write_polynomial. cbn [p_header rbind]. rewrite !app_rest. cbn [app]. now rewrite !app_rest. Qed.
Lemma f4_poly_roundtrip m names p file : legal_names names -> Forall (fun ct : Z * list Z => pfine (List.length names) (snd ct)) p -> polynomial_fits m Fourti2 names p ->
  write_polynomial Fourti2 names p = Ok file -> read_polynomial m Fourti2 file = Ok (names, p).
Proof.
  intros [D L] F [M1 M2] W. rewrite f4_write in W. match type of W with Ok ?x = _ => assert (EF : file = x) by congruence end. subst file. clear W. unfold read_polynomial, handler_readPolynomial. cbn [has_polynomials]. unfold fourti2_readPolynomial.
  erewrite (size_yes m (List.length p)); [|exact M2| |].
  2:{ match goal with |- eat (" "%char :: ?z) = _ => change (eat (" "%char :: z)) with (eat z) end. rewrite eat_nat. reflexivity. }
  2:{ reflexivity. }
  cbn [rbind]. erewrite (size_yes m (List.length names + 1)); [|rewrite Nat.add_1_r; exact M1| |].
  2:{ match goal with |- eat (" "%char :: ?z) = _ => change (eat (" "%char :: z)) with (eat z) end. rewrite eat_nat. reflexivity. }
  2:{ reflexivity. }
  cbn [rbind]. assert ((List.length names + 1 =? 0) = false) as -> by (apply Nat.eqb_neq; lia). rewrite Nat.add_sub. cbv zeta.
  destruct (f4_coefTerms names (List.length names) p (nl :: p_terms (p_term Fourti2 names) true p ++ p_footer Fourti2 names (is_empty p)) (p_footer Fourti2 names (is_empty p)) F) as [r [A B]]; [reflexivity|].
  rewrite A. cbn [rbind]. cbn [p_footer] in B. set (tail := if list_eq_dec str_dec names (defaultNames (List.length names)) then [nl] else fourti2_writeNames names) in *.
  rewrite (match_char_yes "(" r (lit "coefficient)" ++ tail)) by (rewrite B; reflexivity). cbn [rbind].
  erewrite (expect_str_yes (lit "coefficient")); [|lits; reflexivity]. cbn [rbind]. erewrite expect_char_yes; [|reflexivity]. cbn [rbind].
  unfold tail. destruct (list_eq_dec str_dec names (defaultNames (List.length names))) as [Q|Q].
  - cbn. now rewrite <- Q.
  - assert (NN : names <> []) by (intros X; apply Q; subst; reflexivity).
    assert (W : fourti2_writeNames names = " "%char :: sep_names (lit " ") names ++ [nl]) by (destruct names; [congruence | reflexivity]).
    rewrite W. rewrite (peekIdentifier_cong _ (sep_names (lit " ") names ++ [nl])) by reflexivity. rewrite names_head by auto.
    rewrite (f4_addNames _ _ _ names [nl]).
    2:{ rewrite (f4_names names [] _ [nl]); auto. reflexivity. }
    cbn [rbind]. now rewrite Nat.eqb_refl.
Qed.

(** ** All formats *)
Lemma poly_roundtrip m f names p file : polynomial_format f -> legal_names names -> terms_of (List.length names) p -> polynomial_fits m f names p ->
  write_polynomial f names p = Ok file -> read_polynomial m f file = Ok (names, as_read names f p) /\ autoDetect file = f.
Proof.
  intros Ff L T FT W. apply fine_of in T.
  assert (Q : f = M2 \/ f = Singular \/ f = CoCoA4 \/ f = Fourti2) by exact Ff. destruct Q as [Q|[Q|[Q|Q]]].
  4:{ subst f. split; [now apply f4_poly_roundtrip|]. rewrite f4_write in W. injection W as <-.
      destruct (nat_str_digits (List.length p)) as [A B]. destruct (nat_str (List.length p)) as [|c r]; [congruence|]. inversion A; subst. cbn [app]. now apply detect_digit. }
  all: (split; [apply common_roundtrip; auto | rewrite common_write in W by auto; injection W as <-; subst f; apply detect_common; unfold is_common; auto]).
Qed.
Lemma write_polynomial_ok f names p : polynomial_format f -> exists file, write_polynomial f names p = Ok file.
Proof.
  intros [Q|[Q|[Q|Q]]]; subst f; eauto using f4_write.
  - rewrite common_write; eauto. - rewrite common_write; eauto. - rewrite common_write; eauto.
Qed.
Lemma as_read_same names f p : same_polynomial (as_read names f p) p.
Proof.
  intros t. unfold as_read. destruct f, p; auto; unfold coefficient, zero_terms; cbn [fold_right fst snd]; match goal with |- context [zmono_dec ?a ?b] => destruct (zmono_dec a b) end; reflexivity.
Qed.
