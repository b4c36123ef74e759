(** Products of powers, lists of names and lists of generators. *)
From Coq Require Import String Ascii.
From Coq Require Import List Arith Bool ZArith Lia.
Import ListNotations.
From Verif Require Import M_Term M_Api M_Names M_IO Spec_IO P_Names P_IO.

Ltac lits := cbn [lit list_ascii_of_string app].
(** Functions that skip white space first *)
Lemma match_char_cong c a b : eat a = eat b -> match_char c a = match_char c b.
Proof. intros H. now rewrite <- match_char_eat, H, match_char_eat. Qed.
Lemma expect_char_cong c a b : eat a = eat b -> expect_char c a = expect_char c b.
Proof. intros H. now rewrite <- expect_char_eat, H, expect_char_eat. Qed.
Lemma peekIdentifier_cong a b : eat a = eat b -> peekIdentifier a = peekIdentifier b.
Proof. intros H. now rewrite <- peekIdentifier_eat, H, peekIdentifier_eat. Qed.
Lemma hasMoreInput_cong a b : eat a = eat b -> hasMoreInput a = hasMoreInput b.
Proof. intros H. now rewrite <- hasMoreInput_eat, H, hasMoreInput_eat. Qed.
Lemma app_rest {A} (a b r : list A) : (a ++ b) ++ r = a ++ (b ++ r).
Proof. symmetry. apply app_assoc. Qed.

(** ** Names *)
Lemma addVarUnique_new names x : ~ In x names -> addVarUnique names x = Ok (names ++ [x]).
Proof. intros H. unfold addVarUnique. destruct (in_dec str_dec x names); [contradiction|reflexivity]. Qed.
Definition follow (rest : text) : Prop := stop isident rest /\ hd_error (eat rest) <> Some "*"%char /\ hd_error (eat rest) <> Some "^"%char.
Lemma sep_names_cons sep x y names : sep_names sep (x :: y :: names) = x ++ sep ++ sep_names sep (y :: names).
Proof. reflexivity. Qed.
Lemma sep_names_head sep names : names <> [] -> Forall legal_name names -> exists c r, sep_names sep names = c :: r /\ isalpha c = true.
Proof.
  intros N F. destruct names as [|x names]; [congruence|]. inversion F as [|? ? L _]; subst. destruct (legal_cons x L) as [c [r [-> [A _]]]].
  destruct names; cbn; eauto.
Qed.
Lemma eat_sep sep names rest : names <> [] -> Forall legal_name names -> eat (sep_names sep names ++ rest) = sep_names sep names ++ rest.
Proof.
  intros N F. destruct (sep_names_head sep names N F) as [c [r [-> A]]]. apply eat_nonspace. now apply ident_not_space, alpha_ident.
Qed.
Lemma stop_sep sep rest : forall names, stop isident (sep_names sep names ++ rest) -> True.
Proof. auto. Qed.
Lemma readNames_yes : forall names acc s rest fuel, names <> [] -> Forall legal_name names -> NoDup (acc ++ names) ->
  eat s = sep_names (lit ", ") names ++ rest -> stop isident rest -> hd_error (eat rest) <> Some ","%char -> List.length names <= fuel ->
  readNames fuel acc s = Ok (acc ++ names, eat rest).
Proof.
  induction names as [|x names IH]; intros acc s rest fuel N F D E S C K; [congruence|].
  destruct fuel as [|fuel]; [cbn in K; lia|]. inversion F as [|? ? L F']; subst. cbn [readNames].
  assert (NI : ~ In x acc). { intros X. apply NoDup_remove_2 in D. apply D. apply in_or_app. now left. }
  destruct names as [|y names].
  - cbn [sep_names] in E. rewrite (readIdentifier_yes x s rest) by auto. cbn [rbind]. rewrite addVarUnique_new by auto. cbn [rbind].
    rewrite match_char_no by auto. reflexivity.
  - rewrite sep_names_cons, !app_rest in E. rewrite (readIdentifier_yes x s (lit ", " ++ sep_names (lit ", ") (y :: names) ++ rest)) by (auto; reflexivity).
    cbn [rbind]. rewrite addVarUnique_new by auto. cbn [rbind].
    erewrite match_char_yes by (lits; reflexivity).
    rewrite (IH (acc ++ [x]) _ rest fuel); auto.
    + now rewrite <- app_assoc.
    + discriminate.
    + now rewrite <- app_assoc.
    + change (eat (" "%char :: sep_names (lit ", ") (y :: names) ++ rest)) with (eat (sep_names (lit ", ") (y :: names) ++ rest)).
      apply eat_sep; auto. discriminate.
    + cbn in K |- *. lia.
Qed.
Lemma sep_length sep names : Forall legal_name names -> List.length names <= List.length (sep_names sep names).
Proof.
  intros F. induction F as [|x names L F IH]; auto. destruct (legal_cons x L) as [c [r [-> _]]].
  destruct names as [|y names]; [cbn; lia|]. rewrite sep_names_cons, !app_length. cbn [List.length] in *. lia.
Qed.

(** ** Products *)
Definition ptext (names : list str) (p : nat * Z) : str :=
  let name := nth (fst p) names [] in if (snd p =? 1)%Z then name else name ++ "^"%char :: z_str (snd p).
Lemma powers_pairs : forall names t pre, List.length t = List.length names ->
  powers names t = map (ptext (pre ++ names)) (pairs (List.length pre) t).
Proof.
  induction names as [|x names IH]; intros [|e t] pre L; try discriminate; auto. cbn [powers pairs].
  injection L as L. specialize (IH t (pre ++ [x]) L). rewrite app_length in IH. cbn [List.length] in IH. rewrite Nat.add_1_r, <- app_assoc in IH.
  cbn [app] in IH. destruct (e =? 0)%Z; [exact IH|]. cbn [map]. rewrite IH. f_equal. unfold ptext. cbn [fst snd].
  rewrite app_nth2, Nat.sub_diag by lia. reflexivity.
Qed.
Lemma list_set_other {A} (l : list A) i j x : i <> j -> nth_error (list_set l i x) j = nth_error l j.
Proof. intros H. rewrite list_set_nth. assert (j =? i = false) as -> by (apply Nat.eqb_neq; lia). now rewrite andb_false_r. Qed.

Section Product.
  Context (max_ulong : Z) (names : list str) (req : bool) (done : list (list str * in_ideal)).
  Hypothesis (LN : legal_names names).
  Lemma consumeVar_yes ic T s rest v x : st names req done T ic -> nth_error names v = Some x -> stop isident rest -> eat s = x ++ rest ->
    consumeVar ic s = Ok (v, rest).
  Proof.
    intros [J [-> _]] N S E. destruct LN as [D F]. unfold consumeVar.
    rewrite (readIdentifier_yes x s rest); auto.
    - cbn [rbind ic_names]. now rewrite (var_index_nth names v x).
    - rewrite Forall_forall in F. apply F. eapply nth_error_In; eauto.
  Qed.
  Definition good_pair (t : list Z) (p : nat * Z) : Prop :=
    fst p < List.length names /\ nth_error t (fst p) = Some 0%Z /\ (1 <= snd p)%Z /\ (req = true -> snd p = 1%Z).
  (** One power *)
  Lemma power_yes ic t T s rest p : st names req done (t :: T) ic -> good_pair t p -> eat s = ptext names p ++ rest -> stop isident rest ->
    hd_error (eat rest) <> Some "^"%char ->
    exists var s1, consumeVar ic s = Ok (var, s1) /\
    exists ic' r, (match match_char "^" s1 with
                   | (true, s2) => consumeVarExponent var ic s2
                   | (false, s2) => LET ic := consumeVarExponentOne var ic IN Ok (ic, s2)
                   end) = Ok (ic', r) /\ st names req done (list_set t (fst p) (snd p) :: T) ic' /\ eat r = eat rest.
  Proof.
    intros H [P1 [P2 [P3 P4]]] E S C. destruct (nth_error names (fst p)) as [x|] eqn:N; [|apply nth_error_None in N; lia].
    unfold ptext in E. rewrite (nth_error_nth names (fst p) [] N) in E. destruct (snd p =? 1)%Z eqn:E1.
    - apply Z.eqb_eq in E1. exists (fst p), rest. split; [eapply consumeVar_yes; eauto|].
      rewrite match_char_no by auto. destruct (step_one names req done t T ic (fst p) H P2) as [ic' [A B]]. rewrite A. cbn [rbind].
      exists ic', (eat rest). rewrite E1. repeat split; auto. apply eat_idem.
    - rewrite app_rest in E. cbn [app] in E. exists (fst p), ("^"%char :: z_str (snd p) ++ rest). split; [eapply consumeVar_yes; eauto; reflexivity|].
      rewrite (match_char_yes "^" _ (z_str (snd p) ++ rest)) by reflexivity.
      destruct (z_str_digits (snd p)) as [Z1 Z2]; [lia|].
      destruct (step_exp names req done t T ic (fst p) (z_str (snd p) ++ rest) (z_str (snd p)) rest (snd p)) as [ic' [A B]]; auto.
      + destruct rest as [|c rest']; auto. cbn in *. destruct (isdigit c) eqn:X; auto. apply digit_ident in X. congruence.
      + apply eat_z. lia.
      + apply mpz_assign_z. lia.
      + intros X. apply Z.eqb_neq in E1. now rewrite (P4 X) in E1.
      + exists ic', rest. auto.
  Qed.
  Lemma product_yes : forall ps fuel ic t T s rest, ps <> [] -> st names req done (t :: T) ic -> Forall (good_pair t) ps -> NoDup (map fst ps) ->
    eat s = sep_names ["*"%char] (map (ptext names) ps) ++ rest -> follow rest -> List.length ps <= fuel ->
    exists ic' r, consumeProduct fuel ic s = Ok (ic', r) /\ st names req done (set_all t ps :: T) ic' /\ eat r = eat rest.
  Proof.
    induction ps as [|p ps IH]; intros fuel ic t T s rest N H G D E F K; [congruence|].
    destruct fuel as [|fuel]; [cbn in K; lia|]. inversion G as [|? ? G1 G2]; subst. cbn [map] in D. inversion D as [|? ? D1 D2]; subst. cbn [consumeProduct].
    destruct F as [F1 [F2 F3]]. destruct ps as [|q ps].
    - cbn [map sep_names] in E. destruct (power_yes ic t T s rest p) as [var [s1 [A [ic' [r [B [C1 C2]]]]]]]; auto.
      rewrite A. cbn [rbind]. rewrite B. cbn [rbind]. rewrite (match_char_cong _ r rest C2), match_char_no by auto.
      exists ic', (eat rest). repeat split; auto. apply eat_idem.
    - cbn [map] in E. rewrite sep_names_cons, !app_rest in E. change (ptext names q :: map (ptext names) ps) with (map (ptext names) (q :: ps)) in E. set (more := sep_names ["*"%char] (map (ptext names) (q :: ps)) ++ rest) in *.
      destruct (power_yes ic t T s (["*"%char] ++ more) p) as [var [s1 [A [ic' [r [B [C1 C2]]]]]]]; auto.
      + reflexivity.
      + discriminate.
      + rewrite A. cbn [rbind]. rewrite B. cbn [rbind]. rewrite (match_char_cong _ r _ C2). rewrite (match_char_yes "*" _ more) by reflexivity.
        assert (EM : eat more = more).
        { assert (Q : good_pair t q) by (inversion G2; auto). destruct Q as [Q _].
          destruct (nth_error names (fst q)) as [x|] eqn:Nq; [|apply nth_error_None in Nq; lia].
          assert (L : legal_name x). { destruct LN as [_ L]. rewrite Forall_forall in L. apply L. eapply nth_error_In; eauto. }
          destruct (legal_cons x L) as [c [r0 [Hx [Al _]]]].
          assert (exists r1, more = c :: r1) as [r1 ->]; [|apply eat_nonspace; now apply ident_not_space, alpha_ident].
          unfold more, ptext. cbn [map]. rewrite (nth_error_nth names (fst q) [] Nq), Hx.
          destruct (snd q =? 1)%Z; destruct ps; cbn; eauto. }
        destruct (IH fuel ic' (list_set t (fst p) (snd p)) T more rest) as [ic'' [r' [X1 [X2 X3]]]]; auto.
        * discriminate.
        * rewrite Forall_forall in G2 |- *. intros w Hw. destruct (G2 w Hw) as [W1 [W2 [W3 W4]]]. repeat split; auto.
          rewrite list_set_other; auto. intros Q. apply D1. rewrite Q. now apply in_map.
        * repeat split; auto.
        * cbn in K |- *. lia.
        * exists ic'', r'. repeat split; auto.
  Qed.
  Definition fine_term (t : list Z) : Prop :=
    List.length t = List.length names /\ Forall (fun e => 0 <= e)%Z t /\ (req = true -> Forall (fun e => e <= 1)%Z t).
  Lemma pairs_nil_zero : forall t i, pairs i t = [] -> t = map (fun _ => 0%Z) t.
  Proof.
    induction t as [|e t IH]; intros i H; auto. cbn in H. destruct (e =? 0)%Z eqn:E; [|discriminate]. apply Z.eqb_eq in E. subst. cbn. f_equal. eauto.
  Qed.
  Lemma zeros (t : list Z) : List.length t = List.length names -> map (fun _ => 0%Z) t = map (fun _ => 0%Z) names.
  Proof. clear. revert names. induction t as [|e t IH]; intros [|x names] H; try discriminate; auto. cbn. f_equal. apply IH. now injection H. Qed.
  Lemma writeTerm_head t rest : fine_term t -> eat (writeTermProduct names t ++ rest) = writeTermProduct names t ++ rest /\
    (pairs 0 t <> [] -> exists c r, writeTermProduct names t = c :: r /\ isalpha c = true).
  Proof.
    intros [L [P _]]. unfold writeTermProduct. rewrite (powers_pairs names t [] L). cbn [app List.length].
    destruct (pairs 0 t) as [|p ps] eqn:E; [split; [reflexivity|congruence]|].
    assert (Q : In p (pairs 0 t)) by (rewrite E; now left). destruct p as [v e]. apply pairs_ge in Q as [Q _].
    destruct (nth_error names v) as [x|] eqn:N; [|apply nth_error_None in N; lia].
    assert (LX : legal_name x). { destruct LN as [_ L']. rewrite Forall_forall in L'. apply L'. eapply nth_error_In; eauto. }
    destruct (legal_cons x LX) as [c [r0 [Hx [Al _]]]].
    assert (X : exists r, sep_names ["*"%char] (map (ptext names) ((v, e) :: ps)) = c :: r).
    { unfold ptext. cbn [map fst snd]. rewrite (nth_error_nth names v [] N), Hx. destruct (e =? 1)%Z; destruct ps; cbn; eauto. }
    cbn [map] in *. destruct X as [r X]. split.
    - rewrite X. apply eat_nonspace. now apply ident_not_space, alpha_ident.
    - intros _. eauto.
  Qed.
  Lemma alpha_not c d : isalpha c = true -> isalpha d = false -> c <> d.
  Proof. intros A B C. subst. congruence. Qed.
  (** A whole term *)
  Lemma term_yes ic t T s rest : st names req done T ic -> fine_term t -> eat s = writeTermProduct names t ++ rest -> follow rest ->
    exists ic' r, consumeTermProductNotation ic s = Ok (ic', r) /\ st names req done (t :: T) ic' /\ eat r = eat rest.
  Proof.
    intros H Ft E F. pose proof (writeTerm_head t rest Ft) as [_ HH]. destruct Ft as [L [P Q]].
    unfold consumeTermProductNotation. destruct (begin_term names req done T ic H) as [ic' [A B]]. rewrite A. cbn [rbind].
    rewrite <- (zeros t L) in B.
    destruct (pairs 0 t) as [|p ps] eqn:EP.
    - assert (W : writeTermProduct names t = ["1"%char]). { unfold writeTermProduct. rewrite (powers_pairs names t [] L). cbn [List.length app]. now rewrite EP. }
      rewrite W in E. rewrite (match_char_yes "1" s rest) by exact E. exists ic', rest. rewrite <- (pairs_nil_zero t 0 EP) in B. auto.
    - destruct (HH ltac:(discriminate)) as [c [r [W Al]]].
      rewrite match_char_no.
      2:{ rewrite E, W. cbn. intros X. injection X as X. subst c. discriminate. }
      destruct (product_yes (p :: ps) (S (List.length (eat s))) ic' (map (fun _ => 0%Z) t) T (eat s) rest) as [ic'' [r' [X1 [X2 X3]]]]; auto.
      + discriminate.
      + rewrite <- EP. rewrite Forall_forall. intros [v e] Hv. apply pairs_ge in Hv as [H1 [H2 H3]]. cbn [Nat.add] in *. rewrite Nat.sub_0_r in H3. split; [cbn [fst]; lia|].
        cbn [fst snd]. rewrite Forall_forall in P. pose proof (P e (nth_error_In _ _ H3)) as P'. repeat split; [|lia|].
        * apply (map_nth_error (fun _ => 0%Z)) in H3. exact H3.
        * intros Rq. specialize (Q Rq). rewrite Forall_forall in Q. pose proof (Q e (nth_error_In _ _ H3)). lia.
      + rewrite <- EP. apply pairs_nodup.
      + rewrite eat_idem, E, <- EP. unfold writeTermProduct. rewrite (powers_pairs names t [] L). cbn [List.length app]. rewrite EP. reflexivity.
      + rewrite E, app_length. unfold writeTermProduct. rewrite (powers_pairs names t [] L). cbn [List.length app]. rewrite EP.
        assert (G : forall qs, (forall q, In q qs -> fst q < List.length names) -> List.length qs <= List.length (sep_names ["*"%char] (map (ptext names) qs))).
        { clear - LN. induction qs as [|q qs IH]; intros G; auto. cbn [map].
          assert (X : 0 < List.length (ptext names q)).
          { specialize (G q (or_introl eq_refl)). destruct (nth_error names (fst q)) as [x|] eqn:N; [|apply nth_error_None in N; lia].
            assert (LX : legal_name x). { destruct LN as [_ L']. rewrite Forall_forall in L'. apply L'. eapply nth_error_In; eauto. }
            destruct (legal_cons x LX) as [c [r0 [Hx _]]]. unfold ptext. rewrite (nth_error_nth names (fst q) [] N), Hx. destruct (_ =? _)%Z; cbn; lia. }
          specialize (IH (fun q' Hq' => G q' (or_intror Hq'))). destruct qs as [|q' qs]; [cbn in *; lia|]. cbn [map] in *. rewrite sep_names_cons, !app_length.
          cbn [List.length] in *. lia. }
        cbn [map] in *. specialize (G (p :: ps)). cbn [map List.length] in G. apply le_S. eapply Nat.le_trans; [apply G|lia].
        intros [v e] Hv. cbn [fst]. change (In (v, e) (p :: ps)) in Hv. rewrite <- EP in Hv. apply pairs_ge in Hv. lia.
      + rewrite X1. exists ic'', r'. repeat split; auto. rewrite <- EP in X2. pose proof (set_all_pairs t []) as Y. cbn [List.length app] in Y. now rewrite Y in X2.
  Qed.
End Product.

(** ** Lists of generators *)
Section Terms.
  Context (names : list str) (req : bool) (done : list (list str * in_ideal)).
  Context (readTerm : consumer -> text -> res (consumer * text)) (tt : list Z -> text) (ok : list Z -> Prop).
  Hypothesis tt_eat : forall t rest, ok t -> eat (tt t ++ rest) = tt t ++ rest.
  Hypothesis tt_read : forall ic t T s rest, st names req done T ic -> ok t -> eat s = tt t ++ rest -> follow rest -> hd_error (eat rest) <> Some "_"%char -> hd_error (eat rest) <> Some "x"%char ->
    exists ic' r, readTerm ic s = Ok (ic', r) /\ st names req done (t :: T) ic' /\ eat r = eat rest.
  Fixpoint terms_text (first : bool) (J : list (list Z)) : text :=
    match J with [] => [] | t :: J' => w_sep first ++ tt t ++ terms_text false J' end.
  Definition list_end (rest : text) : Prop :=
    follow rest /\ hd_error (eat rest) <> Some "_"%char /\ hd_error (eat rest) <> Some "x"%char /\ hd_error (eat rest) <> Some ","%char.
  Lemma terms_eat first t J rest : ok t -> eat (terms_text first (t :: J) ++ rest) =
    (if first then [] else ","%char :: nl :: [" "%char]) ++ tt t ++ terms_text false J ++ rest.
  Proof.
    intros H. cbn [terms_text]. rewrite !app_rest. destruct first; [|reflexivity].
    change (eat (w_sep true ++ tt t ++ terms_text false J ++ rest)) with (eat (tt t ++ terms_text false J ++ rest)). now apply tt_eat.
  Qed.
  Lemma readTerms_yes : forall J t fuel ic T s rest, Forall ok (t :: J) -> st names req done T ic ->
    eat s = tt t ++ terms_text false J ++ rest -> list_end rest -> List.length J < fuel ->
    exists ic' r, readTerms readTerm fuel ic s = Ok (ic', r) /\ st names req done (rev (t :: J) ++ T) ic' /\ eat r = eat rest.
  Proof.
    induction J as [|u J IH]; intros t fuel ic T s rest F H E R K.
    - destruct fuel as [|fuel]; [lia|]. inversion F as [|? ? F1 _]; subst. cbn [terms_text app] in E. destruct R as [R1 [R2 [R2' R3]]]. cbn [readTerms].
      destruct (tt_read ic t T s rest) as [ic' [r [A [B C]]]]; auto. rewrite A. cbn [rbind].
      rewrite (match_char_cong _ r rest C), match_char_no by auto. exists ic', (eat rest). repeat split; auto. apply eat_idem.
    - destruct fuel as [|fuel]; [cbn in K; lia|]. inversion F as [|? ? F1 F2]; subst. inversion F2 as [|? ? F3 _]; subst. cbn [readTerms].
      destruct (tt_read ic t T s (terms_text false (u :: J) ++ rest)) as [ic' [r [A [B C]]]]; auto.
      + cbn [terms_text]. split; [reflexivity | split; discriminate].
      + discriminate.
      + discriminate.
      + rewrite A. cbn [rbind]. rewrite (match_char_cong _ r _ C). cbn [terms_text]. rewrite !app_rest.
        set (more := tt u ++ terms_text false J ++ rest) in *.
        erewrite (match_char_yes "," _ (nl :: " "%char :: more)) by reflexivity.
        destruct (IH u fuel ic' (t :: T) (nl :: " "%char :: more) rest) as [ic'' [r' [X1 [X2 X3]]]]; auto.
        * change (eat (nl :: " "%char :: more)) with (eat more). now apply tt_eat.
        * cbn in K. lia.
        * exists ic'', r'. repeat split; auto. cbn [rev] in *. now rewrite <- !app_assoc in *.
  Qed.
  Lemma terms_length : forall J first, List.length J <= List.length (terms_text first J).
  Proof.
    induction J as [|t J IH]; intros first; cbn [terms_text]; auto. rewrite !app_length. specialize (IH false). cbn [List.length].
    assert (2 <= List.length (w_sep first)) by (destruct first; cbn; lia). lia.
  Qed.
End Terms.
