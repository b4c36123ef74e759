(** What is written in the new Monos and 4ti2 formats is read back; single ideals in every format. *)
From Coq Require Import String Ascii.
From Coq Require Import List Arith Bool ZArith Lia.
Import ListNotations.
From Verif Require Import M_Term M_Api M_Names M_IO Spec_IO P_Names P_IO P_IO2 P_IO3 P_IO4 P_IO5.

(** ** New Monos *)
Definition spaced (names : list str) : text := concat (map (fun x => " "%char :: x) names).
Definition nm_terms (names : list str) (J : list (list Z)) : text := concat (map (fun t => nl :: " "%char :: writeTermProduct names t) J).
Definition nm_text (names : list str) (J : list (list Z)) : text :=
  lit "(monomial-ideal-with-order" ++ nl :: " "%char :: newmonos_writeRing names ++ nm_terms names J ++ nl :: lit ")" ++ [nl].
Lemma nm_names : forall names acc fuel s rest, Forall legal_name names -> NoDup (acc ++ names) -> eat s = eat (spaced names ++ ")"%char :: rest) -> List.length names < fuel ->
  newmonos_readNames fuel acc s = Ok (acc ++ names, rest).
Proof.
  induction names as [|x names IH]; intros acc fuel s rest F D E K; (destruct fuel as [|fuel]; [cbn in K; lia|]); cbn [newmonos_readNames].
  - cbn in E. rewrite (match_char_yes _ s rest E). now rewrite app_nil_r.
  - inversion F as [|? ? F1 F2]; subst. unfold spaced in *. cbn [map concat] in E. rewrite app_rest in E. cbn [app] in E.
    set (more := concat (map (fun x => " "%char :: x) names) ++ ")"%char :: rest) in *.
    change (eat (" "%char :: x ++ more)) with (eat (x ++ more)) in E. rewrite eat_name in E by auto.
    destruct (legal_cons x F1) as [c [r [-> [A _]]]].
    rewrite match_char_no.
    2:{ rewrite E. cbn. intros X. injection X as ->. discriminate. }
    rewrite (ident_yes (c :: r) (eat s) more F1) by (rewrite ?eat_idem; auto; unfold more; destruct names; reflexivity). cbn [rbind].
    rewrite addVarUnique_new.
    2:{ apply NoDup_remove_2 in D. intros X. apply D. apply in_or_app. now left. }
    cbn [rbind]. rewrite (IH _ fuel more rest); auto; [now rewrite <- app_assoc | now rewrite <- app_assoc | cbn in K; lia].
Qed.
Lemma spaced_length names : List.length names <= List.length (spaced names).
Proof. unfold spaced. induction names; cbn; auto. rewrite app_length. lia. Qed.
Lemma nm_ring names s rest : legal_names names -> eat s = eat (lit "lex-order" ++ spaced names ++ ")"%char :: rest) -> newmonos_readRing s = Ok (names, rest).
Proof.
  intros [D F] E. unfold newmonos_readRing. erewrite expect_str_yes; [|rewrite E; reflexivity]. cbn [rbind].
  rewrite (nm_names names [] _ _ rest); auto. rewrite app_length. pose proof (spaced_length names). lia.
Qed.
Section NM.
  Context (names : list str) (req : bool) (done : list (list str * in_ideal)).
  Hypothesis (LN : legal_names names).
  Notation fine := (fine_term names req).
  Lemma nm_terms_read : forall J fuel ic T s rest, Forall fine J -> st names req done T ic -> eat s = eat (nm_terms names J ++ nl :: ")"%char :: rest) -> List.length J < fuel ->
    exists ic', newmonos_readTerms fuel ic s = Ok (ic', rest) /\ st names req done (rev J ++ T) ic'.
  Proof.
    induction J as [|t J IH]; intros fuel ic T s rest F H E K; (destruct fuel as [|fuel]; [cbn in K; lia|]); cbn [newmonos_readTerms].
    - rewrite (match_char_yes _ s rest E). exists ic. auto.
    - inversion F as [|? ? F1 F2]; subst. unfold nm_terms in *. cbn [map concat] in E. rewrite app_rest in E.
      set (more := concat (map (fun t => nl :: " "%char :: writeTermProduct names t) J) ++ nl :: ")"%char :: rest) in *.
      change (eat ((nl :: " "%char :: writeTermProduct names t) ++ more)) with (eat (writeTermProduct names t ++ more)) in E.
      rewrite match_char_no.
      2:{ rewrite E. apply (body_not names req LN Monos t more); auto. discriminate. }
      destruct (term_yes names req done LN ic t T (eat s) more) as [ic' [r [A [B C]]]]; auto.
      + rewrite eat_idem, E. apply (body_eat names req LN Monos t more); auto.
      + unfold more. destruct J as [|u J].
        * split; [reflexivity | split; discriminate].
        * inversion F2 as [|? ? F3 _]; subst. cbn [map concat]. rewrite app_rest. cbn [app].
          split; [reflexivity|]. change (fun t0 => nl :: " "%char :: writeTermProduct names t0) with (fun t0 => nl :: " "%char :: tbody Monos names t0).
          match goal with |- context [eat (nl :: " "%char :: ?z)] => change (eat (nl :: " "%char :: z)) with (eat z) end.
          split; (apply (body_not names req LN Monos u); [auto | reflexivity | discriminate]).
      + rewrite A. cbn [rbind]. destruct (IH fuel ic' (t :: T) r rest) as [ic'' [X Y]]; auto; [cbn in K; lia|].
        exists ic''. cbn [rev]. rewrite <- app_assoc. auto.
  Qed.
End NM.
Lemma nm_terms_length names J : List.length J <= List.length (nm_terms names J).
Proof. unfold nm_terms. induction J; cbn; auto. rewrite app_length. lia. Qed.
(** From after the left parenthesis *)
Lemma nm_ideal names req done J names0 s rest : legal_names names -> Forall (fine_term names req) J -> "("%char :: s = nm_text names J ++ rest ->
  exists ic' r, newmonos_readIdeal (IC names0 None req done) s = Ok (ic', r) /\ ended names req done J ic' /\ eat r = eat rest.
Proof.
  intros L F E. unfold nm_text, newmonos_writeRing in E. rewrite !app_rest in E. cbn [lit list_ascii_of_string app] in E. injection E as ->.
  unfold newmonos_readIdeal. erewrite (expect_str_yes (lit "monomial-ideal-with-order")); [|reflexivity]. cbn [rbind].
  erewrite expect_char_yes; [|reflexivity]. cbn [rbind]. rewrite !app_rest. cbn [app].
  set (more := nm_terms names J ++ nl :: ")"%char :: nl :: rest).
  rewrite (nm_ring names _ more) by (auto; unfold spaced; lits; rewrite ?app_rest; reflexivity). cbn [rbind consumeRing ic_cur ic_require ic_ideals].
  destruct (begin_ideal names req done) as [ic [A St]]. rewrite A. cbn [rbind].
  destruct (nm_terms_read names req done L J (S (List.length more)) ic [] more (nl :: rest) F St) as [ic' [B C]]; auto.
  - unfold more. rewrite app_length. pose proof (nm_terms_length names J). lia.
  - rewrite B. cbn [rbind]. rewrite app_nil_r in C. destruct (end_ideal names req done J ic' C) as [ic'' [X Y]]. rewrite X. cbn [rbind]. exists ic'', (nl :: rest). auto.
Qed.
Lemma nm_run names fi : forall J fg, exists fg', iw_run NewMonos (IW names fi fg) (map WTerm J) = Ok (IW names fi fg', nm_terms names J).
Proof.
  induction J as [|t J IH]; intros fg; cbn [map iw_run]; [eauto|]. cbn [iw_step w_term iw_names iw_firstIdeal rbind].
  destruct (IH false) as [fg' ->]. cbn [rbind]. exists fg'. unfold nm_terms. cbn [map concat]. reflexivity.
Qed.
Lemma nm_iw w names J : exists fg, iw_ideal NewMonos w names J = Ok (IW names false fg, nm_text names J).
Proof.
  unfold iw_ideal. destruct (ring_step NewMonos w names) as [fg ->]. cbn [rbind iw_names iw_firstIdeal w_header].
  destruct (nm_run names (again w names) J true) as [fg' ->]. cbn [rbind iw_step w_footer iw_names iw_firstGen]. eexists. unfold nm_text. rewrite !app_rest. reflexivity.
Qed.

(** ** 4ti2 *)
Definition f4_tail (names : list str) : text := if list_eq_dec str_dec names (defaultNames (List.length names)) then [] else fourti2_writeNames names.
Definition f4_text (names : list str) (J : list (list Z)) : text :=
  nat_str (List.length J) ++ " "%char :: nat_str (List.length names) ++ nl :: concat (map fourti2_writeTerm J) ++ f4_tail names.
Lemma f4_term names req done : forall es l ic T s rest, st names req done ((l ++ map (fun _ => 0%Z) es) :: T) ic ->
  Forall (fun e => 0 <= e)%Z es -> (req = true -> Forall (fun e => e <= 1)%Z es) -> (es <> [] -> stop isdigit rest) ->
  eat s = eat (concat (map (fun e => " "%char :: z_str e) es) ++ rest) ->
  exists ic' r, fourti2_readTerm (List.length es) (List.length l) ic s = Ok (ic', r) /\ st names req done ((l ++ es) :: T) ic' /\ eat r = eat rest.
Proof.
  induction es as [|e es IH]; intros l ic T s rest H P Q S E; cbn [List.length fourti2_readTerm].
  - exists ic, s. auto.
  - inversion P as [|? ? P1 P2]; subst. cbn [map concat] in E. rewrite app_rest in E. set (more := concat (map (fun e => " "%char :: z_str e) es) ++ rest) in *.
    change (eat ((" "%char :: z_str e) ++ more)) with (eat (z_str e ++ more)) in E. rewrite eat_z in E by auto.
    destruct (z_str_digits e P1) as [Z1 Z2].
    rewrite match_char_no.
    2:{ rewrite E. destruct (z_str e) as [|d ds]; [congruence|]. inversion Z1; subst. cbn. intros X. injection X as ->. discriminate. }
    destruct (step_exp names req done (l ++ map (fun _ => 0%Z) (e :: es)) T ic (List.length l) (eat s) (z_str e) more e) as [ic' [A B]]; auto.
    + rewrite nth_error_app2, Nat.sub_diag by lia. reflexivity.
    + unfold more. destruct es; [|reflexivity]. apply S. discriminate.
    + now rewrite eat_idem.
    + apply mpz_assign_z. auto.
    + intros X. specialize (Q X). inversion Q as [|? ? Q1 _]; subst. apply z_str_01. lia.
    + rewrite A. cbn [rbind]. destruct (IH (l ++ [e]) ic' T more rest) as [ic'' [r [X [Y Z0]]]]; auto.
      * cbn [map] in B. rewrite list_set_app in B. now rewrite <- app_assoc.
      * intros X. specialize (Q X). now inversion Q.
      * intros X. apply S. discriminate.
      * exists ic'', r. rewrite app_length in X. cbn [List.length] in X. rewrite Nat.add_1_r in X. rewrite X. repeat split; auto. now rewrite <- app_assoc in Y.
Qed.
Lemma f4_terms names req done : forall J ic T s rest, st names req done T ic -> Forall (fine_term names req) J ->
  eat s = eat (concat (map fourti2_writeTerm J) ++ rest) ->
  exists ic' r, fourti2_readTerms (List.length J) (List.length names) ic s = Ok (ic', r) /\ st names req done (rev J ++ T) ic' /\ eat r = eat rest.
Proof.
  induction J as [|t J IH]; intros ic T s rest H F E; cbn [List.length fourti2_readTerms].
  - exists ic, s. auto.
  - inversion F as [|? ? [F1 [F2 F3]] F4]; subst. destruct (begin_term names req done T ic H) as [ic' [A B]]. rewrite A. cbn [rbind].
    cbn [map concat] in E. unfold fourti2_writeTerm at 1 in E. rewrite !app_rest in E.
    destruct (f4_term names req done t [] ic' T s (match t with [] => [] | _ :: _ => [nl] end ++ concat (map fourti2_writeTerm J) ++ rest)) as [ic'' [r [X [Y Z0]]]]; auto.
    + cbn [app]. now rewrite (zeros names t F1).
    + destruct t; [congruence|]. intros _. reflexivity.
    + cbn [List.length] in X. rewrite F1 in X. rewrite X. cbn [rbind].
      destruct (IH ic'' (t :: T) r rest) as [ic3 [r3 [X3 [Y3 Z3]]]]; auto.
      * rewrite Z0. destruct t; reflexivity.
      * exists ic3, r3. repeat split; auto. cbn [rev]. now rewrite <- app_assoc.
Qed.
Lemma f4_names : forall names acc s rest, Forall legal_name names -> NoDup (acc ++ names) -> names <> [] -> stop isident rest ->
  eat s = eat (sep_names (lit " ") names ++ rest) -> fourti2_readNames (List.length names) acc s = Ok (acc ++ names, rest).
Proof.
  induction names as [|x names IH]; intros acc s rest F D N S E; [congruence|]. cbn [List.length fourti2_readNames]. inversion F as [|? ? F1 F2]; subst.
  assert (U : ~ In x acc). { apply NoDup_remove_2 in D. intros X. apply D. apply in_or_app. now left. }
  destruct names as [|y names].
  - cbn [sep_names] in E. rewrite eat_name in E by auto. rewrite (ident_yes x s rest F1 E S). cbn [rbind]. rewrite addVarUnique_new by auto. cbn [rbind List.length fourti2_readNames].
    reflexivity.
  - rewrite sep_names_cons, !app_rest, eat_name in E by auto. rewrite (ident_yes x s (lit " " ++ sep_names (lit " ") (y :: names) ++ rest) F1) by (auto; reflexivity).
    cbn [rbind]. rewrite addVarUnique_new by auto. cbn [rbind]. rewrite (IH (acc ++ [x]) _ rest); auto; [now rewrite <- app_assoc | now rewrite <- app_assoc | discriminate].
Qed.
Definition not_name (rest : text) : Prop := match eat rest with [] => True | c :: _ => isalpha c = false end.
Lemma default_length n : List.length (defaultNames n) = n.
Proof. unfold defaultNames. now rewrite map_length, seq_length. Qed.
Lemma names_head names : names <> [] -> Forall legal_name names -> forall rest, peekIdentifier (sep_names (lit " ") names ++ rest) = (true, sep_names (lit " ") names ++ rest).
Proof.
  intros N F rest. unfold peekIdentifier. rewrite eat_sep by auto. destruct (sep_names_head (lit " ") names N F) as [c [r [-> A]]]. cbn. now rewrite A.
Qed.
Lemma f4_body names req done J names0 s rest : legal_names names -> Forall (fine_term names req) J -> not_name rest ->
  eat s = eat (concat (map fourti2_writeTerm J) ++ f4_tail names ++ rest) ->
  exists ic' r, fourti2_readBody (IC names0 None req done) (List.length J) (List.length names) s = Ok (ic', r) /\ ended names req done J ic' /\ eat r = eat rest.
Proof.
  intros [D L] F R E. unfold fourti2_readBody. cbn [consumeRing ic_cur rbind ic_require ic_ideals]. set (dn := defaultNames (List.length names)).
  assert (DL : List.length dn = List.length names) by apply default_length.
  destruct (begin_ideal dn req done) as [ic [A St]]. rewrite A. cbn [rbind].
  assert (F' : Forall (fine_term dn req) J).
  { rewrite Forall_forall in *. intros t Ht. destruct (F t Ht) as [F1 F2]. split; auto. now rewrite DL. }
  destruct (f4_terms dn req done J ic [] s (f4_tail names ++ rest) St F') as [ic' [r [B [C G]]]]; auto. rewrite DL in B. rewrite B. cbn [rbind]. rewrite app_nil_r in C.
  assert (H : exists ic2 r2, (match peekIdentifier r with
      | (true, s) => LET (names, s) := fourti2_readNames (List.length names) [] s IN LET ic := consumeRing names ic' IN Ok (ic, s)
      | (false, s) => Ok (ic', s)
      end) = Ok (ic2, r2) /\ st names req done (rev J) ic2 /\ eat r2 = eat rest).
  { unfold f4_tail in G. fold dn in G. rewrite (peekIdentifier_cong _ _ G). destruct (list_eq_dec str_dec names dn) as [Q|Q].
    - cbn [app] in *. rewrite <- Q in C.
      assert (peekIdentifier rest = (false, eat rest)) as ->. { unfold peekIdentifier, not_name in *. destruct (eat rest); auto. now rewrite R. }
      exists ic', (eat rest). repeat split; auto. apply eat_idem.
    - assert (NN : names <> []) by (intros X; apply Q; subst; reflexivity).
      assert (W : fourti2_writeNames names = " "%char :: sep_names (lit " ") names ++ [nl]) by (destruct names; [congruence | reflexivity]).
      rewrite W. cbn [app]. rewrite app_rest. rewrite (peekIdentifier_cong _ (sep_names (lit " ") names ++ [nl] ++ rest)) by reflexivity.
      rewrite names_head by auto. rewrite (f4_names names [] _ ([nl] ++ rest)) by (auto; reflexivity). cbn [rbind].
      destruct C as [K [-> [C1 C2]]]. cbn [consumeRing ic_cur]. rewrite DL, Nat.eqb_refl. cbn [rbind ic_require ic_ideals app].
      eexists. eexists. split; [reflexivity|]. split; [|reflexivity]. exists K. auto. }
  destruct H as [ic2 [r2 [H1 [H2 H3]]]]. rewrite H1. cbn [rbind]. destruct (end_ideal names req done J ic2 H2) as [ic3 [X Y]]. rewrite X. cbn [rbind]. eauto.
Qed.
Lemma f4_ideal m names req done J names0 s rest : legal_names names -> Forall (fine_term names req) J -> not_name rest ->
  fits m (List.length J) -> fits m (List.length names) -> eat s = eat (f4_text names J ++ rest) ->
  exists ic' r, fourti2_readIdeal m (IC names0 None req done) s = Ok (ic', r) /\ ended names req done J ic' /\ eat r = eat rest.
Proof.
  intros L F R M1 M2 E. unfold f4_text in E. rewrite !app_rest in E. cbn [app] in E. rewrite !app_rest in E. cbn [app] in E. rewrite !app_rest in E. rewrite eat_nat in E.
  unfold fourti2_readIdeal. erewrite (size_yes m (List.length J)); [|exact M1|exact E|reflexivity]. cbn [rbind].
  erewrite (size_yes m (List.length names)); [|exact M2| |].
  2:{ match goal with |- eat (" "%char :: ?z) = _ => change (eat (" "%char :: z)) with (eat z) end. rewrite eat_nat. reflexivity. }
  2:{ reflexivity. }
  cbn [rbind]. apply f4_body; auto.
Qed.
Lemma f4_run names fi : forall J fg, exists fg', iw_run Fourti2 (IW names fi fg) (map WTerm J) = Ok (IW names fi fg', concat (map fourti2_writeTerm J)).
Proof.
  induction J as [|t J IH]; intros fg; cbn [map iw_run]; [eauto|]. cbn [iw_step w_term iw_names iw_firstIdeal rbind].
  destruct (IH false) as [fg' ->]. cbn [rbind]. exists fg'. reflexivity.
Qed.
Lemma f4_iw w names J : exists fg, iw_ideal Fourti2 w names J = Ok (IW names false fg, f4_text names J).
Proof.
  unfold iw_ideal. destruct (ring_step Fourti2 w names) as [fg ->]. cbn [rbind iw_names iw_firstIdeal w_header].
  destruct (f4_run names (again w names) J true) as [fg' ->]. cbn [rbind iw_step w_footer iw_names iw_firstGen]. eexists. unfold f4_text, f4_tail. do 2 f_equal.
  rewrite !app_rest. cbn [app]. now rewrite !app_rest.
Qed.

(** ** A single ideal in any format *)
Definition itext (f : format) (names : list str) (J : list (list Z)) : text :=
  match f with NewMonos => nm_text names J | Fourti2 => f4_text names J | _ => ringt f names ++ baret f names J end.
Lemma write_ideal_text f names J : write_ideal f names J = Ok (itext f names J).
Proof.
  destruct f; try (apply write_ideal_common; unfold is_common; auto).
  - unfold write_ideal. destruct (nm_iw iw_new names J) as [fg ->]. reflexivity.
  - unfold write_ideal. destruct (f4_iw iw_new names J) as [fg ->]. reflexivity.
Qed.
Lemma common_single m f names J req : is_common f -> legal_names names -> Forall (fine_term names req) J -> format_fits m f names J ->
  exists ic r, common_readIdeal m f (IC [] None req []) (" "%char :: ringt f names ++ baret f names J) = Ok (ic, r) /\ ended names req [] J ic /\ eat r = [].
Proof.
  intros C L F R. unfold common_readIdeal. rewrite (ring_read m f names _ (baret f names J) C L) by (eauto using fits_nil). cbn [rbind consumeRing ic_cur ic_require ic_ideals].
  apply (bare_read m names req [] L f J (nl :: baret f names J) [] C); eauto using fits_nil. now rewrite app_nil_r.
Qed.
Lemma single m f names J req : legal_names names -> Forall (fine_term names req) J -> format_fits m f names J ->
  exists ic r, handler_readIdeal m f (IC [] None req []) (" "%char :: itext f names J) = Ok (ic, r) /\ ended names req [] J ic /\ eat r = [].
Proof.
  intros L F R. destruct f; cbn [handler_readIdeal itext]; try (apply common_single; unfold is_common; auto).
  - erewrite expect_char_yes; [|unfold nm_text; lits; reflexivity]. cbn [rbind].
    apply (nm_ideal names req [] J [] _ []); auto; try (rewrite app_nil_r; unfold nm_text; lits; reflexivity).
  - destruct R as [R1 R2]. apply (f4_ideal m names req [] J [] _ []); auto; try exact I. now rewrite app_nil_r.
Qed.
