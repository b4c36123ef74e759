(** Generators and ideals in the formats that share IOHandlerCommon. *)
From Coq Require Import String Ascii.
From Coq Require Import List Arith Bool ZArith Lia.
Import ListNotations.
From Verif Require Import M_Term M_Api M_Names M_IO Spec_IO P_Names P_IO P_IO2 P_IO3.

Lemma identity_pairs : forall t i, is_identity t = true <-> pairs i t = [].
Proof.
  induction t as [|e t IH]; intros i; [cbn; tauto|]. unfold is_identity in *. cbn [forallb pairs]. rewrite andb_true_iff, Z.eqb_eq. destruct (e =? 0)%Z eqn:E.
  - apply Z.eqb_eq in E. subst. rewrite (IH (S i)). tauto.
  - apply Z.eqb_neq in E. split; [intros [X _]; congruence | discriminate].
Qed.

Section Bodies.
  Context (m : Z) (names : list str) (req : bool) (done : list (list str * in_ideal)).
  Hypothesis (LN : legal_names names).
  Notation fine := (fine_term names req).
  Lemma identity_text t : fine t -> is_identity t = true -> writeTermProduct names t = ["1"%char].
  Proof. intros [L _] I. unfold writeTermProduct. rewrite (powers_pairs names t [] L). cbn [List.length app]. apply (identity_pairs t 0) in I. now rewrite I. Qed.
  Lemma identity_read ic t T s rest : st names req done T ic -> fine t -> is_identity t = true -> eat s = "1"%char :: rest ->
    exists ic', consumeTermProductNotation ic s = Ok (ic', rest) /\ st names req done (t :: T) ic'.
  Proof.
    intros H [L _] I E. unfold consumeTermProductNotation. destruct (begin_term names req done T ic H) as [ic' [A B]]. rewrite A. cbn [rbind].
    rewrite (match_char_yes "1" s rest E). exists ic'. split; auto. rewrite <- (zeros names t L) in B. apply (identity_pairs t 0) in I.
    now rewrite <- (pairs_nil_zero t 0 I) in B.
  Qed.
  Lemma m2_term ic t T s rest : st names req done T ic -> fine t -> eat s = tbody M2 names t ++ rest -> follow rest -> hd_error (eat rest) <> Some "_"%char ->
    exists ic' r, m2_readTerm ic s = Ok (ic', r) /\ st names req done (t :: T) ic' /\ eat r = eat rest.
  Proof.
    intros H Ft E F U. cbn [tbody] in E. unfold m2_readTerm. destruct (is_identity t) eqn:I.
    - rewrite (identity_text t Ft I), app_rest in E. cbn [app] in E.
      destruct (identity_read ic t T s _ H Ft I E) as [ic' [A B]]. rewrite A. cbn [rbind].
      rewrite (match_char_yes "_" _ (ring_name names ++ rest)) by reflexivity.
      destruct (ring_name_ok names) as [_ [L _]]. destruct F as [F1 _].
      rewrite (ident_yes (ring_name names) _ rest L) by (auto; now apply eat_name). cbn [rbind]. eauto.
    - rewrite app_nil_r in E. destruct (term_yes names req done LN ic t T s rest H Ft E F) as [ic' [r [A [B C]]]]. rewrite A. cbn [rbind].
      rewrite (match_char_cong _ r rest C), match_char_no by auto. exists ic', (eat rest). repeat split; auto. apply eat_idem.
  Qed.
  (** *** CoCoA *)
  Definition ctext (p : nat * Z) : str := cocoa_power (fst p) (snd p).
  Lemma cocoa_powers_pairs : forall t i, cocoa_powers i t = map ctext (pairs i t).
  Proof. induction t as [|e t IH]; intros i; cbn [cocoa_powers pairs]; auto. destruct (e =? 0)%Z; auto. cbn [map]. now rewrite IH. Qed.
  Hypothesis (FT : fits m (List.length names)).
  Definition cgood (t : list Z) (p : nat * Z) : Prop :=
    fst p < List.length names /\ nth_error t (fst p) = Some 0%Z /\ (0 <= snd p)%Z /\ (req = true -> snd p <= 1)%Z.
  Lemma cocoa_power_yes ic t T s rest p : st names req done (t :: T) ic -> cgood t p -> eat s = ctext p ++ rest -> stop isdigit rest ->
    hd_error (eat rest) <> Some "^"%char ->
    exists s1 s2 s3 s4, expect_char "x" s = Ok s1 /\ expect_char "[" s1 = Ok s2 /\ consumeVarNumber m ic s2 = Ok (fst p, s3) /\ expect_char "]" s3 = Ok s4 /\
    exists ic' r, (match match_char "^" s4 with
                   | (true, s5) => consumeVarExponent (fst p) ic s5
                   | (false, s5) => LET ic := consumeVarExponentOne (fst p) ic IN Ok (ic, s5)
                   end) = Ok (ic', r) /\ st names req done (list_set t (fst p) (snd p) :: T) ic' /\ eat r = eat rest.
  Proof.
    intros H [P1 [P2 [P3 P4]]] E S C. unfold ctext, cocoa_power in E. rewrite !app_rest in E.
    set (tail := (if (snd p =? 1)%Z then [] else "^"%char :: z_str (snd p)) ++ rest) in *.
    exists ("["%char :: nat_str (fst p + 1) ++ "]"%char :: tail), (nat_str (fst p + 1) ++ "]"%char :: tail), ("]"%char :: tail), tail.
    split; [apply expect_char_yes; exact E|]. split; [apply expect_char_yes; reflexivity|].
    split.
    { destruct H as [J [-> _]]. unfold consumeVarNumber. rewrite (size_yes m (fst p + 1) _ ("]"%char :: tail)).
      - cbn [rbind ic_names]. assert ((fst p + 1 =? 0) = false) as -> by (apply Nat.eqb_neq; lia).
        assert ((List.length names <? fst p + 1) = false) as -> by (apply Nat.ltb_ge; lia). cbn [orb]. do 2 f_equal. lia.
      - unfold fits in *. lia.
      - apply eat_nat.
      - reflexivity. }
    split; [apply expect_char_yes; reflexivity|].
    unfold tail. destruct (snd p =? 1)%Z eqn:E1.
    - apply Z.eqb_eq in E1. cbn [app]. rewrite match_char_no by auto.
      destruct (step_one names req done t T ic (fst p) H P2) as [ic' [A B]]. rewrite A. cbn [rbind].
      exists ic', (eat rest). rewrite E1. repeat split; auto. apply eat_idem.
    - cbn [app]. rewrite (match_char_yes "^" _ (z_str (snd p) ++ rest)) by reflexivity.
      destruct (z_str_digits (snd p)) as [Z1 Z2]; [lia|].
      destruct (step_exp names req done t T ic (fst p) (z_str (snd p) ++ rest) (z_str (snd p)) rest (snd p)) as [ic' [A B]]; auto.
      + apply eat_z. lia.
      + apply mpz_assign_z. lia.
      + intros X. apply z_str_01. specialize (P4 X). lia.
      + exists ic', rest. auto.
  Qed.
  Lemma ctext_head p : exists r, ctext p = "x"%char :: r.
  Proof. unfold ctext, cocoa_power. lits. eauto. Qed.
  Lemma cocoa_product_yes : forall ps fuel ic t T s rest, ps <> [] -> st names req done (t :: T) ic -> Forall (cgood t) ps -> NoDup (map fst ps) ->
    eat s = concat (map ctext ps) ++ rest -> stop isdigit rest -> hd_error (eat rest) <> Some "^"%char -> hd_error (eat rest) <> Some "x"%char -> List.length ps <= fuel ->
    exists ic' r, cocoa_readPowers m fuel ic s = Ok (ic', r) /\ st names req done (set_all t ps :: T) ic' /\ eat r = eat rest.
  Proof.
    induction ps as [|p ps IH]; intros fuel ic t T s rest N H G D E F1 F2 F3 K; [congruence|].
    destruct fuel as [|fuel]; [cbn in K; lia|]. inversion G as [|? ? G1 G2]; subst. cbn [map] in D. inversion D as [|? ? D1 D2]; subst. cbn [cocoa_readPowers].
    cbn [map concat] in E. rewrite app_rest in E. destruct ps as [|q ps].
    - cbn [map concat app] in E. destruct (cocoa_power_yes ic t T s rest p H G1 E F1 F2) as [s1 [s2 [s3 [s4 [A1 [A2 [A3 [A4 [ic' [r [B [C1 C2]]]]]]]]]]]].
      rewrite A1. cbn [rbind]. rewrite A2. cbn [rbind]. rewrite A3. cbn [rbind]. rewrite A4. cbn [rbind]. rewrite B. cbn [rbind].
      assert (peek_char "x" r = (false, eat rest)) as ->. { rewrite <- peek_char_eat, C2, peek_char_eat. now apply peek_char_no. }
      exists ic', (eat rest). repeat split; auto. apply eat_idem.
    - set (more := concat (map ctext (q :: ps)) ++ rest) in *.
      assert (exists r0, more = "x"%char :: r0) as [r0 EM]. { destruct (ctext_head q) as [r0 X]. unfold more. cbn [map concat]. rewrite X. cbn. eauto. }
      destruct (cocoa_power_yes ic t T s more p H G1 E) as [s1 [s2 [s3 [s4 [A1 [A2 [A3 [A4 [ic' [r [B [C1 C2]]]]]]]]]]]].
      + rewrite EM. reflexivity.
      + rewrite EM. discriminate.
      + rewrite A1. cbn [rbind]. rewrite A2. cbn [rbind]. rewrite A3. cbn [rbind]. rewrite A4. cbn [rbind]. rewrite B. cbn [rbind].
        assert (EE : eat more = more) by (rewrite EM; reflexivity).
        assert (peek_char "x" r = (true, more)) as ->. { rewrite <- peek_char_eat, C2, EE. rewrite (peek_char_yes "x" more r0); [now rewrite EE | rewrite EE; exact EM]. }
        destruct (IH fuel ic' (list_set t (fst p) (snd p)) T more rest) as [ic'' [r' [X1 [X2 X3]]]]; auto.
        * discriminate.
        * rewrite Forall_forall in G2 |- *. intros w Hw. destruct (G2 w Hw) as [W1 [W2 [W3 W4]]]. repeat split; auto.
          rewrite list_set_other; auto. intros Q. apply D1. rewrite Q. now apply in_map.
        * cbn in K |- *. lia.
        * exists ic'', r'. repeat split; auto.
  Qed.
  Definition pbody (ps : list (nat * Z)) : text := match ps with [] => ["1"%char] | _ => concat (map ctext ps) end.
  Lemma pbody_read ps ic t T s rest : List.length t = List.length names -> st names req done T ic -> Forall (cgood (map (fun _ => 0%Z) t)) ps -> NoDup (map fst ps) ->
    set_all (map (fun _ => 0%Z) t) ps = t -> eat s = pbody ps ++ rest -> follow rest -> hd_error (eat rest) <> Some "x"%char ->
    exists ic' r, cocoa_readTerm m ic s = Ok (ic', r) /\ st names req done (t :: T) ic' /\ eat r = eat rest.
  Proof.
    intros L H GP ND SA E [F1 [F2 F3]] X.
    unfold cocoa_readTerm. destruct (begin_term names req done T ic H) as [ic' [A B]]. rewrite A. cbn [rbind].
    rewrite <- (zeros names t L) in B. destruct ps as [|p ps].
    - cbn [pbody] in E. rewrite (match_char_yes "1" s rest E). exists ic', rest. cbn in SA. rewrite SA in B. auto.
    - cbn [pbody] in E. destruct (ctext_head p) as [r0 Hp].
      rewrite match_char_no.
      2:{ rewrite E. cbn [map concat]. rewrite Hp. discriminate. }
      destruct (cocoa_product_yes (p :: ps) (S (List.length (eat s))) ic' (map (fun _ => 0%Z) t) T (eat s) rest) as [ic'' [r' [X1 [X2 X3]]]]; auto.
      + discriminate.
      + now rewrite eat_idem.
      + destruct rest as [|c rest']; auto. cbn in *. destruct (isdigit c) eqn:Y; auto. apply digit_ident in Y. congruence.
      + rewrite E, app_length.
        assert (G : forall qs, List.length qs <= List.length (concat (map ctext qs))).
        { induction qs as [|q qs IH]; auto. cbn [map concat List.length]. rewrite app_length. destruct (ctext_head q) as [r1 ->]. cbn [List.length]. lia. }
        specialize (G (p :: ps)). lia.
      + rewrite X1. exists ic'', r'. repeat split; auto. now rewrite SA in X2.
  Qed.
  Lemma pbody_eat ps rest : eat (pbody ps ++ rest) = pbody ps ++ rest.
  Proof. destruct ps as [|p ps]; [reflexivity|]. cbn [pbody map concat]. destruct (ctext_head p) as [r ->]. reflexivity. Qed.
  Lemma pbody_not ps rest c : isalpha c = false -> c <> "1"%char -> hd_error (eat (pbody ps ++ rest)) <> Some c.
  Proof.
    intros A N. rewrite pbody_eat. destruct ps as [|p ps]; [cbn; congruence|].
    cbn [pbody map concat]. destruct (ctext_head p) as [r ->]. cbn. intros X. injection X as X. subst c. discriminate.
  Qed.
  Lemma pairs_good t : fine t -> Forall (cgood (map (fun _ => 0%Z) t)) (pairs 0 t).
  Proof.
    intros [L [P Q]]. rewrite Forall_forall. intros [v e] Hv. apply pairs_ge in Hv as [H1 [H2 H3]]. cbn [Nat.add] in *. rewrite Nat.sub_0_r in H3. split; [cbn [fst]; lia|].
    cbn [fst snd]. rewrite Forall_forall in P. pose proof (P e (nth_error_In _ _ H3)) as P'. repeat split; [|lia|].
    - apply (map_nth_error (fun _ => 0%Z)) in H3. exact H3.
    - intros Rq. specialize (Q Rq). rewrite Forall_forall in Q. exact (Q e (nth_error_In _ _ H3)).
  Qed.
  Lemma cocoa_body t : tbody CoCoA4 names t = pbody (pairs 0 t).
  Proof. cbn [tbody]. unfold cocoa_writeTermProduct. rewrite cocoa_powers_pairs. now destruct (pairs 0 t). Qed.
  (** The powers of all variables, as the writer with a translator prints them *)
  Definition every (t : list Z) : list (nat * Z) := combine (seq 0 (List.length t)) t.
  Lemma every_nth : forall (t : list Z) i v e, In (v, e) (combine (seq i (List.length t)) t) -> i <= v /\ nth_error t (v - i) = Some e.
  Proof.
    induction t as [|x t IH]; intros i v e H; [contradiction|]. cbn in H. destruct H as [H|H].
    - injection H as <- <-. rewrite Nat.sub_diag. auto.
    - apply IH in H as [A B]. split; [lia|]. replace (v - i) with (S (v - S i)) by lia. exact B.
  Qed.
  Lemma every_good t : fine t -> Forall (cgood (map (fun _ => 0%Z) t)) (every t).
  Proof.
    intros [L [P Q]]. rewrite Forall_forall. intros [v e] Hv. apply every_nth in Hv as [_ H3]. rewrite Nat.sub_0_r in H3. pose proof (nth_error_In _ _ H3) as HI.
    assert (v < List.length t) by (apply nth_error_Some; congruence). split; [cbn [fst]; lia|].
    cbn [fst snd]. rewrite Forall_forall in P. repeat split; auto.
    - apply (map_nth_error (fun _ => 0%Z)) in H3. exact H3.
    - intros Rq. specialize (Q Rq). rewrite Forall_forall in Q. auto.
  Qed.
  Lemma every_nodup t : NoDup (map fst (every t)).
  Proof. unfold every. assert (map fst (combine (seq 0 (List.length t)) t) = seq 0 (List.length t)) as ->; [|apply seq_NoDup].
    generalize 0. induction t as [|x t IH]; intros i; cbn; auto. now rewrite IH. Qed.
  Lemma every_set : forall t l : list Z, set_all (l ++ map (fun _ => 0%Z) t) (combine (seq (List.length l) (List.length t)) t) = l ++ t.
  Proof.
    induction t as [|e t IH]; intros l; cbn [List.length seq combine map]; auto. specialize (IH (l ++ [e])). rewrite app_length in IH. cbn [List.length] in IH.
    rewrite Nat.add_1_r in IH. rewrite <- !app_assoc in IH. cbn [app] in IH. unfold set_all in *. cbn [fold_left fst snd]. rewrite list_set_app. exact IH.
  Qed.
End Bodies.

(** ** Whole ideals *)
(** The consumer between ideals, with the ideal that was just read *)
Definition ended (names : list str) (req : bool) (done : list (list str * in_ideal)) (J : list (list Z)) (ic : consumer) : Prop :=
  exists K, ic = IC names None req ((names, K) :: done) /\ to_big K = rev J /\ (req = true -> exists B, K = Sqf B).
Lemma begin_ideal names req done : exists ic, beginIdeal (IC names None req done) = Ok ic /\ st names req done [] ic.
Proof. eexists. split; [reflexivity|]. exists (Sqf []). repeat split; eauto. Qed.
Lemma end_ideal names req done J ic : st names req done (rev J) ic -> exists ic', endIdeal ic = Ok ic' /\ ended names req done J ic'.
Proof. intros [K [-> [A B]]]. eexists. split; [reflexivity|]. exists K. auto. Qed.

Section Bare.
  Context (m : Z) (names : list str) (req : bool) (done : list (list str * in_ideal)).
  Hypothesis (LN : legal_names names).
  Notation fine := (fine_term names req).
  Lemma body_eat f t rest : fine t -> eat (tbody f names t ++ rest) = tbody f names t ++ rest.
  Proof.
    intros F. assert (A : forall z, eat (writeTermProduct names t ++ z) = writeTermProduct names t ++ z) by (intros z; apply (writeTerm_head names req LN t z F)).
    destruct f; cbn [tbody]; auto.
    - rewrite app_rest. apply A.
    - change (cocoa_writeTermProduct t) with (tbody CoCoA4 names t). rewrite cocoa_body. apply pbody_eat.
  Qed.
  Lemma body_not f t rest c : fine t -> isalpha c = false -> c <> "1"%char -> hd_error (eat (tbody f names t ++ rest)) <> Some c.
  Proof.
    intros F A N. rewrite body_eat by auto.
    assert (B : forall z, hd_error (writeTermProduct names t ++ z) <> Some c).
    { intros z X. destruct (pairs 0 t) as [|p ps] eqn:E.
      - apply identity_pairs in E. rewrite (identity_text names req t F E) in X. cbn in X. congruence.
      - destruct (writeTerm_head names req LN t z F) as [_ Y]. destruct Y as [d [r [Y Z]]]; [rewrite E; discriminate|]. rewrite Y in X. cbn in X. congruence. }
    destruct f; cbn [tbody]; auto.
    - rewrite app_rest. apply B.
    - rewrite <- (body_eat CoCoA4) by auto. cbn [tbody]. change (cocoa_writeTermProduct t) with (tbody CoCoA4 names t). rewrite cocoa_body. now apply pbody_not.
  Qed.
  Lemma m2_bare J s rest : Forall fine J -> eat s = eat (baret M2 names J ++ rest) ->
    exists ic' r, m2_readBareIdeal (IC names None req done) s = Ok (ic', r) /\ ended names req done J ic' /\ eat r = eat rest.
  Proof.
    intros F E. unfold baret in E. rewrite !app_rest in E. unfold m2_readBareIdeal.
    destruct (begin_ideal names req done) as [ic [A St]]. rewrite A. cbn [rbind].
    erewrite (expect_char_yes "I"); [|rewrite E; lits; reflexivity]. cbn [rbind]. erewrite (expect_char_yes "="); [|reflexivity]. cbn [rbind].
    erewrite (expect_str_yes (lit "monomialIdeal")); [|lits; reflexivity]. cbn [rbind].
    erewrite (expect_char_yes "("); [|reflexivity]. cbn [rbind].
    destruct J as [|t J].
    - cbn [terms_text nonempty negb bare_foot app]. rewrite !app_rest. erewrite match_char_yes; [|lits; reflexivity].
      erewrite match_char_yes; [|reflexivity]. destruct (ring_name_ok names) as [_ [L _]].
      erewrite (ident_yes (ring_name names) _ _ L); [|now rewrite eat_name|reflexivity]. cbn [rbind].
      do 2 (erewrite expect_char_yes; [|reflexivity]; cbn [rbind]).
      destruct (end_ideal names req done [] ic St) as [ic' [B C]]. rewrite B. cbn [rbind]. exists ic', (nl :: rest). auto.
    - inversion F as [|? ? F1 F2]; subst. set (foot := bare_foot M2 names (negb (nonempty (t :: J)))) in *. cbn [terms_text]. rewrite !app_rest.
      set (more := tbody M2 names t ++ terms_text (tbody M2 names) false J ++ foot ++ rest).
      assert (EM : eat (w_sep true ++ more) = more) by (apply body_eat; auto).
      rewrite match_char_no.
      2:{ rewrite EM. unfold more. rewrite <- (body_eat M2) by auto. apply body_not; auto. discriminate. }
      rewrite EM.
      destruct (readTerms_yes names req done m2_readTerm (tbody M2 names) fine) with (J := J) (t := t) (fuel := S (List.length more)) (ic := ic) (T := @nil (list Z)) (s := more) (rest := foot ++ rest) as [ic' [r [B [C D]]]]; auto.
      + intros. now apply body_eat.
      + intros. apply m2_term; auto.
      + unfold list_end, follow. repeat match goal with |- _ /\ _ => split end; first [reflexivity | discriminate].
      + unfold more. rewrite !app_length. pose proof (terms_length (tbody M2 names) J false). lia.
      + rewrite B. cbn [rbind]. rewrite (expect_char_cong _ r _ D). do 2 (erewrite expect_char_yes; [|reflexivity]; cbn [rbind]).
        rewrite app_nil_r in C. destruct (end_ideal names req done (t :: J) ic' C) as [ic'' [X Y]]. rewrite X. cbn [rbind]. exists ic'', (nl :: rest). auto.
  Qed.
  Lemma monos_bare J s rest : Forall fine J -> eat s = eat (baret Monos names J ++ rest) ->
    exists ic' r, monos_readBareIdeal (IC names None req done) s = Ok (ic', r) /\ ended names req done J ic' /\ eat r = eat rest.
  Proof.
    intros F E. unfold baret in E. rewrite !app_rest in E. unfold monos_readBareIdeal.
    destruct (begin_ideal names req done) as [ic [A St]]. rewrite A. cbn [rbind].
    erewrite (expect_char_yes "["); [|rewrite E; lits; reflexivity]. cbn [rbind].
    destruct J as [|t J].
    - cbn [terms_text nonempty negb bare_foot app]. erewrite match_char_yes; [|lits; reflexivity]. cbn [rbind].
      erewrite expect_char_yes; [|reflexivity]; cbn [rbind].
      destruct (end_ideal names req done [] ic St) as [ic' [B C]]. rewrite B. cbn [rbind]. exists ic', (nl :: rest). auto.
    - inversion F as [|? ? F1 F2]; subst. set (foot := bare_foot Monos names (negb (nonempty (t :: J)))) in *. cbn [terms_text]. rewrite !app_rest.
      set (more := tbody Monos names t ++ terms_text (tbody Monos names) false J ++ foot ++ rest).
      assert (EM : eat (w_sep true ++ more) = more) by (apply body_eat; auto).
      rewrite match_char_no.
      2:{ rewrite EM. unfold more. rewrite <- (body_eat Monos) by auto. apply body_not; auto. discriminate. }
      rewrite EM.
      destruct (readTerms_yes names req done consumeTermProductNotation (tbody Monos names) fine) with (J := J) (t := t) (fuel := S (List.length more)) (ic := ic) (T := @nil (list Z)) (s := more) (rest := foot ++ rest) as [ic' [r [B [C D]]]]; auto.
      + intros. now apply body_eat.
      + intros. apply term_yes; auto.
      + unfold list_end, follow. repeat match goal with |- _ /\ _ => split end; first [reflexivity | discriminate].
      + unfold more. rewrite !app_length. pose proof (terms_length (tbody Monos names) J false). lia.
      + rewrite B. cbn [rbind]. rewrite (match_char_cong _ r _ D). erewrite match_char_yes; [|reflexivity]. cbn [rbind].
        erewrite expect_char_yes; [|reflexivity]; cbn [rbind].
        rewrite app_nil_r in C. destruct (end_ideal names req done (t :: J) ic' C) as [ic'' [X Y]]. rewrite X. cbn [rbind]. exists ic'', (nl :: rest). auto.
  Qed.
  Lemma singular_bare J s rest : Forall fine J -> eat s = eat (baret Singular names J ++ rest) ->
    exists ic' r, singular_readBareIdeal (IC names None req done) s = Ok (ic', r) /\ ended names req done J ic' /\ eat r = eat rest.
  Proof.
    intros F E. unfold baret in E. rewrite !app_rest in E. unfold singular_readBareIdeal.
    destruct (begin_ideal names req done) as [ic [A St]]. rewrite A. cbn [rbind].
    erewrite (expect_str_yes (lit "ideal")); [|rewrite E; lits; reflexivity]. cbn [rbind].
    do 2 (erewrite expect_char_yes; [|reflexivity]; cbn [rbind]).
    destruct J as [|t J].
    - cbn [terms_text nonempty negb bare_foot app]. erewrite match_char_yes; [|lits; reflexivity]. cbn [rbind].
      erewrite expect_char_yes; [|reflexivity]; cbn [rbind].
      destruct (end_ideal names req done [] ic St) as [ic' [B C]]. rewrite B. cbn [rbind]. exists ic', (nl :: rest). auto.
    - inversion F as [|? ? F1 F2]; subst. set (foot := bare_foot Singular names (negb (nonempty (t :: J)))) in *. cbn [terms_text]. rewrite !app_rest.
      set (more := tbody Singular names t ++ terms_text (tbody Singular names) false J ++ foot ++ rest).
      assert (EM : eat (w_sep true ++ more) = more) by (apply body_eat; auto).
      rewrite match_char_no.
      2:{ rewrite EM. unfold more. rewrite <- (body_eat Singular) by auto. apply body_not; auto. discriminate. }
      rewrite EM.
      destruct (readTerms_yes names req done consumeTermProductNotation (tbody Singular names) fine) with (J := J) (t := t) (fuel := S (List.length more)) (ic := ic) (T := @nil (list Z)) (s := more) (rest := foot ++ rest) as [ic' [r [B [C D]]]]; auto.
      + intros. now apply body_eat.
      + intros. apply term_yes; auto.
      + unfold list_end, follow. repeat match goal with |- _ /\ _ => split end; first [reflexivity | discriminate].
      + unfold more. rewrite !app_length. pose proof (terms_length (tbody Singular names) J false). lia.
      + rewrite B. cbn [rbind]. rewrite (expect_char_cong _ r _ D).
        erewrite expect_char_yes; [|reflexivity]; cbn [rbind].
        rewrite app_nil_r in C. destruct (end_ideal names req done (t :: J) ic' C) as [ic'' [X Y]]. rewrite X. cbn [rbind]. exists ic'', (nl :: rest). auto.
  Qed.
  (** For either way to print a generator *)
  Lemma cocoa_bare_gen (ps : list Z -> list (nat * Z)) J s rest : fits m (List.length names) ->
    (forall t, fine t -> Forall (cgood names req (map (fun _ => 0%Z) t)) (ps t) /\ NoDup (map fst (ps t)) /\ set_all (map (fun _ => 0%Z) t) (ps t) = t) ->
    Forall fine J -> eat s = eat ((bare_head CoCoA4 ++ terms_text (fun t => pbody (ps t)) true J ++ bare_foot CoCoA4 names (negb (nonempty J))) ++ rest) ->
    exists ic' r, cocoa_readBareIdeal m (IC names None req done) s = Ok (ic', r) /\ ended names req done J ic' /\ eat r = eat rest.
  Proof.
    intros FT PS F E. rewrite !app_rest in E. unfold cocoa_readBareIdeal.
    destruct (begin_ideal names req done) as [ic [A St]]. rewrite A. cbn [rbind].
    erewrite expect_char_yes; [|rewrite E; lits; reflexivity]. cbn [rbind].
    erewrite (expect_str_yes (lit ":=")); [|lits; reflexivity]. cbn [rbind]. erewrite (expect_str_yes (lit "Ideal")); [|lits; reflexivity]. cbn [rbind].
    erewrite expect_char_yes; [|reflexivity]; cbn [rbind].
    destruct J as [|t J].
    - cbn [terms_text nonempty negb bare_foot app]. erewrite match_char_yes; [|lits; reflexivity]. cbn [rbind].
      erewrite match_char_yes; [|reflexivity]; cbn [snd].
      destruct (end_ideal names req done [] ic St) as [ic' [B C]]. rewrite B. cbn [rbind]. exists ic', (nl :: rest). auto.
    - inversion F as [|? ? F1 F2]; subst. set (foot := bare_foot CoCoA4 names (negb (nonempty (t :: J)))) in *. cbn [terms_text]. rewrite !app_rest.
      set (tt := fun t => pbody (ps t)) in *. set (more := pbody (ps t) ++ terms_text tt false J ++ foot ++ rest).
      assert (EM : eat (w_sep true ++ more) = more) by (apply pbody_eat).
      rewrite match_char_no.
      2:{ change (tt t ++ terms_text tt false J ++ foot ++ rest) with more. rewrite EM. unfold more. rewrite <- pbody_eat. apply pbody_not; auto. discriminate. }
      change (tt t ++ terms_text tt false J ++ foot ++ rest) with more. rewrite EM.
      destruct (readTerms_yes names req done (cocoa_readTerm m) tt fine) with (J := J) (t := t) (fuel := S (List.length more)) (ic := ic) (T := @nil (list Z)) (s := more) (rest := foot ++ rest) as [ic' [r [B [C D]]]]; auto.
      + intros. now apply pbody_eat.
      + intros ic' u T s' r' HS HF HE HR _ HX. destruct (PS u HF) as [P1 [P2 P3]]. apply (pbody_read m names req done FT (ps u)); auto. apply HF.
      + unfold list_end, follow. repeat match goal with |- _ /\ _ => split end; first [reflexivity | discriminate].
      + unfold more. rewrite !app_length. pose proof (terms_length tt J false). lia.
      + rewrite B. cbn [rbind]. rewrite (expect_char_cong _ r _ D).
        erewrite expect_char_yes; [|reflexivity]; cbn [rbind]. erewrite match_char_yes; [|reflexivity]; cbn [snd].
        rewrite app_nil_r in C. destruct (end_ideal names req done (t :: J) ic' C) as [ic'' [X Y]]. rewrite X. cbn [rbind]. exists ic'', (nl :: rest). auto.
  Qed.
  Lemma terms_text_ext tt tt' : (forall t, tt t = tt' t) -> forall J first, terms_text tt first J = terms_text tt' first J.
  Proof. intros H. induction J as [|t J IH]; intros first; cbn; auto. now rewrite H, IH. Qed.
  Lemma cocoa_bare J s rest : fits m (List.length names) -> Forall fine J -> eat s = eat (baret CoCoA4 names J ++ rest) ->
    exists ic' r, cocoa_readBareIdeal m (IC names None req done) s = Ok (ic', r) /\ ended names req done J ic' /\ eat r = eat rest.
  Proof.
    intros FT F E. apply (cocoa_bare_gen (pairs 0)); auto.
    - intros t Ft. split; [now apply pairs_good|]. split; [apply pairs_nodup | exact (set_all_pairs t [])].
    - rewrite E. unfold baret. rewrite (terms_text_ext (tbody CoCoA4 names) (fun t => pbody (pairs 0 t))); auto. intros t. apply cocoa_body.
  Qed.
  Lemma bare_read f J s rest : is_common f -> format_fits m f names [] -> Forall fine J -> eat s = eat (baret f names J ++ rest) ->
    exists ic' r, fmt_readBareIdeal m f (IC names None req done) s = Ok (ic', r) /\ ended names req done J ic' /\ eat r = eat rest.
  Proof.
    intros [-> | [-> | [-> | ->]]] FT F E; cbn [fmt_readBareIdeal].
    - now apply m2_bare. - now apply monos_bare. - now apply singular_bare. - now apply cocoa_bare.
  Qed.
End Bare.
