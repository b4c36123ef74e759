(** Polynomials are read as they were written. *)
From Coq Require Import String Ascii.
From Coq Require Import List Arith Bool ZArith Lia.
Import ListNotations.
From Verif Require Import M_Term M_Api M_Names M_IO M_Poly M_IOPoly Spec_IO Spec_IOPoly P_Names P_IO P_IO2 P_IO3 P_IO4 P_IO5 P_IO6 P_IO7 P_IO8 P_IO10.

(** ** Integers *)
Lemma z_value z : (0 <= z)%Z -> fold_left (fun l c => 10 * l + digit_value c)%Z (z_str z) 0%Z = z.
Proof.
  intros H. pose proof (decimal_z z H) as D. unfold decimal_value in D. rewrite <- decimal_fold in D; auto.
  apply digit_iff_all. apply z_str_digits. auto.
Qed.
Lemma readInteger_pos z s rest : (0 <= z)%Z -> eat s = z_str z ++ rest -> stop isdigit rest -> readInteger s = Ok (z, rest).
Proof.
  intros H E S. destruct (z_str_digits z H) as [A B]. unfold readInteger. rewrite (readIntegerString_yes (z_str z) s rest) by auto. cbn [rbind].
  rewrite parse_value by auto. cbv zeta. rewrite z_value by auto. reflexivity.
Qed.
Lemma z_str_neg z : (z < 0)%Z -> z_str z = "-"%char :: z_str (- z).
Proof. destruct z; cbn; try lia. reflexivity. Qed.
Lemma readInteger_any z s rest : eat s = z_str z ++ rest -> stop isdigit rest -> readInteger s = Ok (z, rest).
Proof.
  intros E S. destruct (Z.ltb_spec z 0) as [L|L]; [|now apply readInteger_pos].
  rewrite z_str_neg in E by auto. destruct (z_str_digits (- z)) as [A B]; [lia|].
  unfold readInteger, readIntegerString. rewrite E. cbn [app]. destruct (ascii_dec "-" "-") as [_|X]; [|congruence].
  rewrite span_app by auto. pose proof (z_value (- z) ltac:(lia)) as V. destruct (z_str (- z)) as [|d ds] eqn:D; [congruence|]. cbn [rbind].
  rewrite parse_value by auto. cbv zeta. rewrite V. destruct (ascii_dec "-" "-") as [_|X]; [|congruence]. do 2 f_equal. lia.
Qed.
Lemma eat_zany z rest : eat (z_str z ++ rest) = z_str z ++ rest.
Proof. destruct (Z.ltb_spec z 0) as [L|L]; [|now apply eat_z]. rewrite z_str_neg by auto. reflexivity. Qed.

(** ** Signs *)
Definition starter (u : text) : Prop := exists c r, u = c :: r /\ isalnum c = true.
Lemma starter_eat u : starter u -> eat u = u.
Proof. intros [c [r [-> A]]]. apply eat_nonspace. apply ident_not_space. unfold isident. now rewrite A. Qed.
Lemma starter_not u c : starter u -> isalnum c = false -> hd_error (eat u) <> Some c.
Proof. intros S A. rewrite starter_eat by auto. destruct S as [d [r [-> B]]]. cbn. intros X. injection X as ->. congruence. Qed.
Inductive signed : bool -> bool -> text -> text -> Prop :=
  | SFirst u : signed true true u u
  | SMinus first u : signed first false ("-"%char :: u) u
  | SPlus w u : eat w = u -> signed false true ("+"%char :: w) u
  | SPlusMinus w u : eat w = "-"%char :: u -> signed false false ("+"%char :: w) u.
Lemma readSign_yes first positive s p u : starter u -> signed first positive p u -> eat s = p -> readSign first s = Ok (positive, u).
Proof.
  intros St H E. unfold readSign.
  assert (Q : forall v b, eat v = u -> (match match_char "+" v with (true, _) => SyntaxError | (false, s) => match match_char "-" s with (true, _) => SyntaxError | (false, s) => Ok (b, s) end end : res (bool * text)) = Ok (b, u)).
  { intros v b V. rewrite match_char_no by (rewrite V, <- (starter_eat u St); now apply starter_not). rewrite V.
    rewrite match_char_no by now apply starter_not. now rewrite starter_eat. }
  destruct H as [u|first u|w u W|w u W].
  - rewrite match_char_no by (rewrite E, <- (starter_eat u St); now apply starter_not). cbn [rbind]. apply Q. rewrite eat_idem. exact E.
  - assert ((if first then (false, s) else match_char "+" s) = (false, if first then s else eat s)) as ->.
    { destruct first; auto. apply match_char_no. rewrite E. discriminate. }
    rewrite (match_char_yes "-" _ u) by (destruct first; rewrite ?eat_idem; exact E). cbn [rbind]. apply Q. now apply starter_eat.
  - rewrite (match_char_yes "+" s w E). rewrite match_char_no.
    2:{ rewrite W, <- (starter_eat u St). now apply starter_not. }
    cbn [rbind negb]. apply Q. now rewrite eat_idem.
  - rewrite (match_char_yes "+" s w E). rewrite (match_char_yes "-" w u W). cbn [rbind negb]. apply Q. now apply starter_eat.
Qed.

(** ** A coefficient and a product *)
Definition plain (star : text) (identity : bool) (c : Z) (body : text) : text :=
  if identity then z_str c else if (c =? 1)%Z then body else z_str c ++ star ++ body.
Definition sign (hide : bool) (c : Z) : text := if (c <? 0)%Z then ["-"%char] else if hide then [] else ["+"%char].
Lemma writeCoef_plain star id hide c body : writeCoef star id hide c body = sign hide c ++ plain star id (Z.abs c) body.
Proof.
  unfold writeCoef, sign, plain. destruct (Z.ltb_spec c 0) as [L|L].
  - assert ((0 <=? c)%Z = false) as -> by lia. cbn [andb app]. rewrite Z.abs_neq by lia. destruct id; [now rewrite z_str_neg|].
    assert ((c =? 1)%Z = false) as -> by lia. destruct (c =? -1)%Z eqn:M.
    + apply Z.eqb_eq in M. subst c. reflexivity.
    + apply Z.eqb_neq in M. assert ((- c =? 1)%Z = false) as -> by lia. rewrite z_str_neg by auto. cbn [app]. now rewrite app_rest.
  - assert ((0 <=? c)%Z = true) as -> by lia. rewrite Z.abs_eq by lia. cbn [andb]. assert ((c =? -1)%Z = false) as -> by lia.
    destruct hide; cbn [negb app]; destruct id; auto; destruct (c =? 1)%Z; auto; now rewrite app_rest.
Qed.
Lemma z_starter z rest : (0 <= z)%Z -> starter (z_str z ++ rest).
Proof.
  intros H. destruct (z_str_digits z H) as [A B]. destruct (z_str z) as [|c r]; [congruence|]. inversion A; subst. exists c, (r ++ rest). split; auto.
  unfold isalnum. rewrite H2. apply orb_true_r.
Qed.
Lemma z_not_ident z s rest : (0 <= z)%Z -> eat s = z_str z ++ rest -> peekIdentifier s = (false, z_str z ++ rest).
Proof.
  intros H E. destruct (z_str_digits z H) as [A B]. unfold peekIdentifier. rewrite E. destruct (z_str z) as [|c r]; [congruence|]. inversion A; subst. cbn [app]. do 2 f_equal.
  destruct (isalpha c) eqn:X; auto. apply letter_iff in X. apply digit_iff in H2. unfold letter, digit in *. lia.
Qed.
(** After a term: the semicolon or the sign of the next term *)
Definition ends (rest : text) : Prop := stop isident rest /\ exists c r, eat rest = c :: r /\ (c = ";"%char \/ c = "+"%char \/ c = "-"%char).
Lemma ends_not rest c : ends rest -> c <> ";"%char -> c <> "+"%char -> c <> "-"%char -> hd_error (eat rest) <> Some c.
Proof. intros [_ [d [r [-> D]]]] A B C. cbn. intros X. injection X as ->. tauto. Qed.
Lemma stop_digit rest : stop isident rest -> stop isdigit rest.
Proof. destruct rest as [|c r]; auto. cbn. intros H. destruct (isdigit c) eqn:X; auto. apply digit_ident in X. congruence. Qed.
Lemma zeros_nth (names : list str) v : v < List.length names -> nth_error (map (fun _ => 0%Z) names) v = Some 0%Z.
Proof. intros H. destruct (nth_error names v) as [x|] eqn:N; [|apply nth_error_None in N; lia]. now rewrite (map_nth_error _ _ _ N). Qed.
Lemma signed_abs (c : Z) : (if (c <? 0)%Z then - Z.abs c else Z.abs c)%Z = c.
Proof. destruct (Z.ltb_spec c 0); lia. Qed.
(** What is in front of the absolute value of the coefficient *)
Definition pfine (n : nat) (t : list Z) : Prop := List.length t = n /\ Forall (fun e => 0 <= e)%Z t.

Section Product.
  Context (names : list str).
  Hypothesis (LN : legal_names names).
  Definition good_pow (t : list Z) (p : nat * Z) : Prop := fst p < List.length names /\ nth_error t (fst p) = Some 0%Z /\ (1 <= snd p)%Z.
  Lemma ptext_alpha p : fst p < List.length names -> exists c r, ptext names p = c :: r /\ isalpha c = true.
  Proof.
    intros H. destruct (nth_error names (fst p)) as [x|] eqn:N; [|apply nth_error_None in N; lia].
    assert (LX : legal_name x). { destruct LN as [_ L']. rewrite Forall_forall in L'. apply L'. eapply nth_error_In; eauto. }
    destruct (legal_cons x LX) as [c [r0 [Hx [Al _]]]]. unfold ptext. rewrite (nth_error_nth names (fst p) [] N), Hx. destruct (_ =? _)%Z; cbn; eauto.
  Qed.
  Lemma power_read t s rest p : good_pow t p -> eat s = ptext names p ++ rest -> stop isident rest -> hd_error (eat rest) <> Some "^"%char ->
    exists r, readVarPower names t s = Ok (list_set t (fst p) (snd p), r) /\ eat r = eat rest.
  Proof.
    intros [P1 [P2 P3]] E S C. destruct (nth_error names (fst p)) as [x|] eqn:N; [|apply nth_error_None in N; lia].
    assert (LX : legal_name x). { destruct LN as [_ L']. rewrite Forall_forall in L'. apply L'. eapply nth_error_In; eauto. }
    unfold ptext in E. rewrite (nth_error_nth names (fst p) [] N) in E. unfold readVarPower. destruct (snd p =? 1)%Z eqn:E1.
    - rewrite (readIdentifier_yes x s rest) by auto. cbn [rbind]. rewrite (var_index_nth names (fst p) x) by (auto; apply LN). rewrite P2. cbn [Z.eqb].
      rewrite match_char_no by auto. apply Z.eqb_eq in E1. rewrite E1. exists (eat rest). split; auto. apply eat_idem.
    - rewrite app_rest in E. cbn [app] in E. rewrite (readIdentifier_yes x s ("^"%char :: z_str (snd p) ++ rest)) by (auto; reflexivity).
      cbn [rbind]. rewrite (var_index_nth names (fst p) x) by (auto; apply LN). rewrite P2. cbn [Z.eqb].
      rewrite (match_char_yes "^" _ (z_str (snd p) ++ rest)) by reflexivity. rewrite (readInteger_any (snd p) _ rest) by (try apply eat_zany; now apply stop_digit). cbn [rbind].
      assert ((snd p <=? 0)%Z = false) as -> by lia. eauto.
  Qed.
  Definition stars (ps : list (nat * Z)) : text := concat (map (fun p => "*"%char :: ptext names p) ps).
  Lemma stars_sep p ps : sep_names ["*"%char] (map (ptext names) (p :: ps)) = ptext names p ++ stars ps.
  Proof.
    revert p. induction ps as [|q ps IH]; intros p; [cbn; now rewrite app_nil_r|]. specialize (IH q). unfold stars in *. cbn [map concat] in *. rewrite sep_names_cons, IH.
    reflexivity.
  Qed.
  Lemma stars_stop ps rest : stop isident rest -> stop isident (stars ps ++ rest).
  Proof. destruct ps; auto. intros _. reflexivity. Qed.
  Lemma stars_eat ps rest c : c <> "*"%char -> hd_error (eat rest) <> Some c -> hd_error (eat (stars ps ++ rest)) <> Some c.
  Proof. destruct ps as [|p ps]; auto. intros A _ X. cbn in X. injection X as X. auto. Qed.
  Lemma powers_read : forall ps fuel t s rest, Forall (good_pow t) ps -> NoDup (map fst ps) -> eat s = eat (stars ps ++ rest) ->
    stop isident rest -> hd_error (eat rest) <> Some "*"%char -> hd_error (eat rest) <> Some "^"%char -> List.length ps < fuel ->
    exists r, readPowers names fuel t s = Ok (set_all t ps, r) /\ eat r = eat rest.
  Proof.
    induction ps as [|p ps IH]; intros fuel t s rest G D E S C1 C2 K; (destruct fuel as [|fuel]; [lia|]); cbn [readPowers].
    - cbn [stars map concat app] in E. rewrite match_char_no by (rewrite E; auto). rewrite E. exists (eat rest). split; auto. apply eat_idem.
    - inversion G as [|? ? G1 G2]; subst. cbn [map] in D. inversion D as [|? ? D1 D2]; subst.
      change (stars (p :: ps)) with ("*"%char :: ptext names p ++ stars ps) in E. cbn [app] in E. rewrite app_rest in E.
      rewrite (match_char_yes "*" s _ E). destruct (ptext_alpha p) as [c [r0 [Hp A]]]; [apply G1|].
      destruct (power_read t (ptext names p ++ stars ps ++ rest) (stars ps ++ rest) p) as [r [R1 R2]]; auto.
      + rewrite Hp. cbn [app]. apply eat_nonspace. now apply ident_not_space, alpha_ident.
      + now apply stars_stop.
      + now apply stars_eat.
      + rewrite R1. cbn [rbind]. apply IH; auto; [|cbn in K; lia].
        rewrite Forall_forall in G2 |- *. intros q Hq. destruct (G2 q Hq) as [X1 [X2 X3]]. repeat split; auto. rewrite list_set_other; auto.
        intros Q. apply D1. rewrite Q. now apply in_map.
  Qed.
  Lemma stars_length ps : List.length ps <= List.length (stars ps).
  Proof. unfold stars. induction ps; cbn; auto. rewrite app_length. lia. Qed.
  Lemma pairs_good t : pfine (List.length names) t -> Forall (good_pow (map (fun _ => 0%Z) names)) (pairs 0 t).
  Proof.
    intros [L P]. apply Forall_forall. intros [v e] H. apply pairs_ge in H as [H1 [H2 H3]]. rewrite Nat.sub_0_r in H3. cbn [Nat.add] in H1.
    repeat split; cbn [fst snd]; [lia| |].
    - apply zeros_nth. lia.
    - rewrite Forall_forall in P. specialize (P e (nth_error_In _ _ H3)). lia.
  Qed.
  Lemma set_pairs t : pfine (List.length names) t -> set_all (map (fun _ => 0%Z) names) (pairs 0 t) = t.
  Proof. intros [L _]. pose proof (set_all_pairs t []) as H. cbn [List.length app] in H. now rewrite (zeros names t L) in H. Qed.
  (** A term, as M2 and Singular write it *)
  Definition body (t : list Z) : text := writeTermProduct names t.
  Lemma body_pairs t p ps : pfine (List.length names) t -> pairs 0 t = p :: ps -> body t = ptext names p ++ stars ps.
  Proof.
    intros [L _] E. unfold body, writeTermProduct. rewrite (powers_pairs names t [] L). cbn [app List.length]. rewrite E. cbn [map].
    change (ptext names p :: map (ptext names) ps) with (map (ptext names) (p :: ps)). apply stars_sep.
  Qed.
  Lemma coefTerm_read first ct pre s rest : pfine (List.length names) (snd ct) ->
    signed first (negb (fst ct <? 0)%Z) pre (plain ["*"%char] (is_identity (snd ct)) (Z.abs (fst ct)) (body (snd ct)) ++ rest) ->
    eat s = pre -> ends rest -> exists r, readCoefTerm names first s = Ok (fst ct, snd ct, r) /\ eat r = eat rest.
  Proof.
    destruct ct as [c t]. cbn [fst snd]. intros F H E En. pose proof En as [St _]. unfold readCoefTerm.
    assert (C1 : hd_error (eat rest) <> Some "*"%char) by (apply ends_not; auto; discriminate).
    assert (C2 : hd_error (eat rest) <> Some "^"%char) by (apply ends_not; auto; discriminate).
    assert (SG : (if negb (c <? 0)%Z then Z.abs c else (- Z.abs c)%Z) = c).
    { rewrite <- (signed_abs c) at 4. destruct (c <? 0)%Z; reflexivity. }
    unfold plain in H. destruct (pairs 0 t) as [|p ps] eqn:EP.
    - assert (ID : is_identity t = true) by (apply (identity_pairs t 0); auto). rewrite ID in H.
      rewrite (readSign_yes _ _ _ _ _ (z_starter _ _ (Z.abs_nonneg c)) H E). cbn [rbind].
      rewrite (z_not_ident (Z.abs c) _ rest) by (try apply Z.abs_nonneg; apply eat_zany). rewrite (readInteger_any (Z.abs c) _ rest) by (try apply eat_zany; now apply stop_digit). cbn [rbind].
      destruct (powers_read [] (S (List.length rest)) (map (fun _ => 0%Z) names) rest rest) as [r [R1 R2]]; auto; [apply NoDup_nil | cbn; lia |].
      rewrite R1. cbn [rbind]. exists r. rewrite SG. split; auto. do 3 f_equal. rewrite <- EP. now apply set_pairs.
    - assert (ID : is_identity t = false). { destruct (is_identity t) eqn:X; auto. apply (identity_pairs t 0) in X. congruence. } rewrite ID in H.
      pose proof (pairs_good t F) as G. rewrite EP in G. inversion G as [|? ? G1 G2]; subst.
      pose proof (pairs_nodup t 0) as D. rewrite EP in D. cbn [map] in D. inversion D as [|? ? D1 D2]; subst.
      rewrite (body_pairs t p ps F EP) in H. destruct (ptext_alpha p) as [a [r0 [Hp A]]]; [apply G1|].
      assert (SET : set_all (list_set (map (fun _ => 0%Z) names) (fst p) (snd p)) ps = t).
      { pose proof (set_pairs t F) as X. rewrite EP in X. exact X. }
      assert (G3 : Forall (good_pow (list_set (map (fun _ => 0%Z) names) (fst p) (snd p))) ps).
      { rewrite Forall_forall in G2 |- *. intros q Hq. destruct (G2 q Hq) as [X1 [X2 X3]]. repeat split; auto. rewrite list_set_other; auto.
        intros Q. apply D1. rewrite Q. now apply in_map. }
      assert (EB : forall z, eat (ptext names p ++ z) = ptext names p ++ z).
      { intros z. rewrite Hp. cbn [app]. apply eat_nonspace. now apply ident_not_space, alpha_ident. }
      destruct (Z.abs c =? 1)%Z eqn:E1.
      + apply Z.eqb_eq in E1. rewrite app_rest in H.
        assert (ST : starter (ptext names p ++ stars ps ++ rest)). { rewrite Hp. exists a, (r0 ++ stars ps ++ rest). split; auto. unfold isalnum. now rewrite A. }
        rewrite (readSign_yes _ _ _ _ _ ST H eq_refl). cbn [rbind].
        assert (peekIdentifier (ptext names p ++ stars ps ++ rest) = (true, ptext names p ++ stars ps ++ rest)) as ->.
        { unfold peekIdentifier. rewrite EB, Hp. cbn [app]. now rewrite A. }
        destruct (power_read (map (fun _ => 0%Z) names) (ptext names p ++ stars ps ++ rest) (stars ps ++ rest) p G1) as [r [R1 R2]].
        { apply EB. } { now apply stars_stop. } { apply stars_eat; auto; discriminate. }
        rewrite R1. cbn [rbind].
        destruct (powers_read ps (S (List.length r)) (list_set (map (fun _ => 0%Z) names) (fst p) (snd p)) r rest) as [r' [Q1 Q2]]; auto.
        { pose proof (eat_le r) as LE. rewrite R2 in LE.
          assert (List.length ps <= List.length (eat (stars ps ++ rest))); [|lia]. destruct ps as [|q qs]; [cbn; lia|].
          change (eat (stars (q :: qs) ++ rest)) with (stars (q :: qs) ++ rest). rewrite app_length. pose proof (stars_length (q :: qs)). lia. }
        rewrite Q1. cbn [rbind]. exists r'. split; auto. rewrite SET, <- E1, SG. reflexivity.
      + rewrite !app_rest in H. cbn [app] in H.
        rewrite (readSign_yes _ _ _ _ _ (z_starter _ _ (Z.abs_nonneg c)) H eq_refl). cbn [rbind].
        rewrite (z_not_ident (Z.abs c) _ ("*"%char :: ptext names p ++ stars ps ++ rest)) by (try apply Z.abs_nonneg; apply eat_zany).
        rewrite (readInteger_any (Z.abs c) _ ("*"%char :: ptext names p ++ stars ps ++ rest)) by (try apply eat_zany; reflexivity). cbn [rbind].
        destruct (powers_read (p :: ps) (S (List.length ("*"%char :: ptext names p ++ stars ps ++ rest))) (map (fun _ => 0%Z) names) ("*"%char :: ptext names p ++ stars ps ++ rest) rest) as [r' [Q1 Q2]]; auto.
        { unfold stars. cbn [map concat app]. now rewrite !app_rest. }
        { cbn [List.length]. rewrite !app_length. pose proof (stars_length ps). lia. }
        rewrite Q1. cbn [rbind]. exists r'. split; auto. rewrite SG. do 3 f_equal. exact SET.
  Qed.
End Product.

(** *** CoCoA *)
Section Cocoa.
  Context (m : Z) (names : list str).
  Hypothesis (FT : fits m (List.length names)).
  Lemma cpower_read t s rest p : List.length t = List.length names -> good_pow names t p -> eat s = ctext p ++ rest -> stop isdigit rest -> hd_error (eat rest) <> Some "^"%char ->
    exists r, cocoa_readVarPower m t s = Ok (list_set t (fst p) (snd p), r) /\ eat r = eat rest.
  Proof.
    intros L [P1 [P2 P3]] E S C. unfold ctext, cocoa_power in E. rewrite !app_rest in E.
    set (tail := (if (snd p =? 1)%Z then [] else "^"%char :: z_str (snd p)) ++ rest) in *. unfold cocoa_readVarPower.
    rewrite (expect_char_yes "x" s ("["%char :: nat_str (fst p + 1) ++ "]"%char :: tail)) by exact E. cbn [rbind].
    rewrite (expect_char_yes "[" _ (nat_str (fst p + 1) ++ "]"%char :: tail)) by reflexivity. cbn [rbind].
    rewrite (size_yes m (fst p + 1) _ ("]"%char :: tail)); [|unfold fits in *; lia|apply eat_nat|reflexivity]. cbn [rbind].
    assert ((fst p + 1 =? 0) = false) as -> by (apply Nat.eqb_neq; lia).
    assert ((List.length t <? fst p + 1) = false) as -> by (apply Nat.ltb_ge; lia). cbn [orb]. cbv zeta.
    rewrite (expect_char_yes "]" _ tail) by reflexivity. cbn [rbind]. replace (fst p + 1 - 1) with (fst p) by lia. rewrite P2. cbn [Z.eqb].
    unfold tail. destruct (snd p =? 1)%Z eqn:E1.
    - apply Z.eqb_eq in E1. cbn [app]. rewrite match_char_no by auto. rewrite E1. exists (eat rest). split; auto. apply eat_idem.
    - cbn [app]. rewrite (match_char_yes "^" _ (z_str (snd p) ++ rest)) by reflexivity.
      rewrite (readInteger_any (snd p) _ rest) by (auto; apply eat_zany). cbn [rbind]. assert ((snd p <=? 0)%Z = false) as -> by lia. eauto.
  Qed.
  Lemma set_length {A} (l : list A) i x : i < List.length l -> List.length (list_set l i x) = List.length l.
  Proof.
    intros H. destruct (nth_error l i) as [y|] eqn:N; [|apply nth_error_None in N; lia].
    apply nth_error_split in N as [a [b [-> <-]]]. rewrite list_set_app, !app_length. reflexivity.
  Qed.
  Definition ctexts (ps : list (nat * Z)) : text := concat (map ctext ps).
  Lemma ctexts_stop ps rest : stop isident rest -> stop isdigit (ctexts ps ++ rest).
  Proof. destruct ps as [|p ps]; [apply stop_digit|]. unfold ctexts. cbn [map concat]. destruct (ctext_head p) as [r ->]. intros _. reflexivity. Qed.
  Lemma ctexts_eat p ps rest : eat (ctexts (p :: ps) ++ rest) = ctexts (p :: ps) ++ rest.
  Proof. unfold ctexts. cbn [map concat]. destruct (ctext_head p) as [r ->]. reflexivity. Qed.
  Lemma ctexts_not ps rest c : c <> "x"%char -> hd_error (eat rest) <> Some c -> hd_error (eat (ctexts ps ++ rest)) <> Some c.
  Proof. destruct ps as [|p ps]; auto. rewrite ctexts_eat. unfold ctexts. cbn [map concat]. destruct (ctext_head p) as [r ->]. intros A _ X. cbn in X. injection X as X. auto. Qed.
  Lemma cpowers_read : forall ps fuel t s rest, List.length t = List.length names -> Forall (good_pow names t) ps -> NoDup (map fst ps) -> eat s = eat (ctexts ps ++ rest) ->
    stop isident rest -> hd_error (eat rest) <> Some "x"%char -> hd_error (eat rest) <> Some "^"%char -> List.length ps < fuel ->
    exists r, cocoa_readPowersOf m fuel t s = Ok (set_all t ps, r) /\ eat r = eat rest.
  Proof.
    induction ps as [|p ps IH]; intros fuel t s rest L G D E S C1 C2 K; (destruct fuel as [|fuel]; [lia|]); cbn [cocoa_readPowersOf].
    - cbn [ctexts map concat app] in E. rewrite peek_char_no by (rewrite E; auto). rewrite E. exists (eat rest). split; auto. apply eat_idem.
    - inversion G as [|? ? G1 G2]; subst. cbn [map] in D. inversion D as [|? ? D1 D2]; subst. rewrite ctexts_eat in E.
      assert (exists r0, eat s = "x"%char :: r0) as [r0 EX]. { rewrite E. unfold ctexts. cbn [map concat]. destruct (ctext_head p) as [r ->]. cbn [app]. eauto. }
      rewrite (peek_char_yes "x" s r0 EX).
      change (ctexts (p :: ps)) with (ctext p ++ ctexts ps) in E. rewrite app_rest in E.
      destruct (cpower_read t (eat s) (ctexts ps ++ rest) p L G1) as [r [R1 R2]].
      + now rewrite eat_idem.
      + now apply ctexts_stop.
      + apply ctexts_not; auto; discriminate.
      + rewrite R1. cbn [rbind]. apply IH; auto; [| |cbn in K; lia].
        * rewrite set_length; auto. rewrite L. apply G1.
        * rewrite Forall_forall in G2 |- *. intros q Hq. destruct (G2 q Hq) as [X1 [X2 X3]]. repeat split; auto. rewrite list_set_other; auto.
          intros Q. apply D1. rewrite Q. now apply in_map.
  Qed.
  Lemma ctexts_length ps : List.length ps <= List.length (ctexts ps).
  Proof. unfold ctexts. induction ps as [|p ps IH]; auto. cbn [map concat List.length]. rewrite app_length. destruct (ctext_head p) as [r ->]. cbn [List.length]. lia. Qed.
  Lemma cocoa_coefTerm_read first ct pre s rest : pfine (List.length names) (snd ct) ->
    signed first (negb (fst ct <? 0)%Z) pre (plain [] (is_identity (snd ct)) (Z.abs (fst ct)) (cocoa_writeTermProduct (snd ct)) ++ rest) ->
    eat s = pre -> ends rest -> exists r, cocoa_readCoefTerm m names first s = Ok (fst ct, snd ct, r) /\ eat r = eat rest.
  Proof.
    destruct ct as [c t]. cbn [fst snd]. intros F H E En. pose proof En as [St _]. unfold cocoa_readCoefTerm.
    assert (C1 : hd_error (eat rest) <> Some "x"%char) by (apply ends_not; auto; discriminate).
    assert (C2 : hd_error (eat rest) <> Some "^"%char) by (apply ends_not; auto; discriminate).
    assert (SG : (if negb (c <? 0)%Z then Z.abs c else (- Z.abs c)%Z) = c).
    { rewrite <- (signed_abs c) at 4. destruct (c <? 0)%Z; reflexivity. }
    assert (LZ : List.length (map (fun _ : str => 0%Z) names) = List.length names) by apply map_length.
    unfold plain in H. destruct (pairs 0 t) as [|p ps] eqn:EP.
    - assert (ID : is_identity t = true) by (apply (identity_pairs t 0); auto). rewrite ID in H.
      rewrite (readSign_yes _ _ _ _ _ (z_starter _ _ (Z.abs_nonneg c)) H E). cbn [rbind].
      rewrite (z_not_ident (Z.abs c) _ rest) by (try apply Z.abs_nonneg; apply eat_zany). rewrite (readInteger_any (Z.abs c) _ rest) by (try apply eat_zany; now apply stop_digit). cbn [rbind].
      destruct (cpowers_read [] (S (List.length rest)) (map (fun _ => 0%Z) names) rest rest) as [r [R1 R2]]; auto; [apply NoDup_nil | cbn; lia |].
      rewrite R1. cbn [rbind]. exists r. rewrite SG. split; auto. do 3 f_equal. rewrite <- EP. now apply set_pairs.
    - assert (ID : is_identity t = false). { destruct (is_identity t) eqn:X; auto. apply (identity_pairs t 0) in X. congruence. } rewrite ID in H.
      pose proof (pairs_good names t F) as G. rewrite EP in G. inversion G as [|? ? G1 G2]; subst.
      pose proof (pairs_nodup t 0) as D. rewrite EP in D. cbn [map] in D. inversion D as [|? ? D1 D2]; subst.
      assert (cocoa_writeTermProduct t = ctext p ++ ctexts ps) as BD.
      { change (cocoa_writeTermProduct t) with (tbody CoCoA4 names t). rewrite cocoa_body, EP. reflexivity. }
      rewrite BD in H. destruct (ctext_head p) as [r0 Hp].
      assert (SET : set_all (list_set (map (fun _ => 0%Z) names) (fst p) (snd p)) ps = t).
      { pose proof (set_pairs names t F) as X. rewrite EP in X. exact X. }
      assert (G3 : Forall (good_pow names (list_set (map (fun _ => 0%Z) names) (fst p) (snd p))) ps).
      { rewrite Forall_forall in G2 |- *. intros q Hq. destruct (G2 q Hq) as [X1 [X2 X3]]. repeat split; auto. rewrite list_set_other; auto.
        intros Q. apply D1. rewrite Q. now apply in_map. }
      assert (EB : forall z, eat (ctext p ++ z) = ctext p ++ z) by (intros z; rewrite Hp; reflexivity).
      destruct (Z.abs c =? 1)%Z eqn:E1.
      + apply Z.eqb_eq in E1. rewrite app_rest in H.
        assert (ST : starter (ctext p ++ ctexts ps ++ rest)). { rewrite Hp. exists "x"%char, (r0 ++ ctexts ps ++ rest). split; auto. }
        rewrite (readSign_yes _ _ _ _ _ ST H eq_refl). cbn [rbind].
        assert (peekIdentifier (ctext p ++ ctexts ps ++ rest) = (true, ctext p ++ ctexts ps ++ rest)) as ->.
        { unfold peekIdentifier. rewrite EB, Hp. reflexivity. }
        destruct (cpower_read (map (fun _ => 0%Z) names) (ctext p ++ ctexts ps ++ rest) (ctexts ps ++ rest) p LZ G1) as [r [R1 R2]].
        { apply EB. } { now apply ctexts_stop. } { apply ctexts_not; auto; discriminate. }
        rewrite R1. cbn [rbind].
        destruct (cpowers_read ps (S (List.length r)) (list_set (map (fun _ => 0%Z) names) (fst p) (snd p)) r rest) as [r' [Q1 Q2]]; auto.
        { rewrite set_length; auto. rewrite LZ. apply G1. }
        { pose proof (eat_le r) as LE. rewrite R2 in LE.
          assert (List.length ps <= List.length (eat (ctexts ps ++ rest))); [|lia]. destruct ps as [|q qs]; [cbn; lia|].
          rewrite ctexts_eat. rewrite app_length. pose proof (ctexts_length (q :: qs)). lia. }
        rewrite Q1. cbn [rbind]. exists r'. split; auto. rewrite SET, <- E1, SG. reflexivity.
      + cbn [app] in H. rewrite !app_rest in H.
        rewrite (readSign_yes _ _ _ _ _ (z_starter _ _ (Z.abs_nonneg c)) H eq_refl). cbn [rbind].
        rewrite (z_not_ident (Z.abs c) _ (ctext p ++ ctexts ps ++ rest)) by (try apply Z.abs_nonneg; apply eat_zany).
        rewrite (readInteger_any (Z.abs c) _ (ctext p ++ ctexts ps ++ rest)) by (try apply eat_zany; rewrite Hp; reflexivity). cbn [rbind].
        destruct (cpowers_read (p :: ps) (S (List.length (ctext p ++ ctexts ps ++ rest))) (map (fun _ => 0%Z) names) (ctext p ++ ctexts ps ++ rest) rest) as [r' [Q1 Q2]]; auto.
        { unfold ctexts. cbn [map concat]. now rewrite !app_rest. }
        { rewrite !app_length. pose proof (ctexts_length ps). rewrite Hp. cbn [List.length]. lia. }
        rewrite Q1. cbn [rbind]. exists r'. split; auto. rewrite SG. do 3 f_equal. exact SET.
  Qed.
End Cocoa.

(** ** The terms of a polynomial *)
Section Terms.
  Context (read : bool -> text -> res (Z * list Z * text)) (txt : bool -> Z * list Z -> text) (ok : Z * list Z -> Prop).
  Hypothesis read_yes : forall first ct s rest, ok ct -> eat s = eat (txt first ct ++ rest) -> ends rest ->
    exists r, read first s = Ok (fst ct, snd ct, r) /\ eat r = eat rest.
  Hypothesis txt_sign : forall ct rest, stop isident (txt false ct ++ rest) /\ exists c r, eat (txt false ct ++ rest) = c :: r /\ (c = "+"%char \/ c = "-"%char).
  Lemma readCoefTerms_yes : forall p ct first fuel s rest, Forall ok (ct :: p) -> eat s = eat (p_terms txt first (ct :: p) ++ ";"%char :: rest) -> List.length p < fuel ->
    readCoefTerms read fuel first s = Ok (ct :: p, rest).
  Proof.
    induction p as [|q p IH]; intros ct first fuel s rest F E K; (destruct fuel as [|fuel]; [lia|]); cbn [readCoefTerms]; inversion F as [|? ? F1 F2]; subst;
      cbn [p_terms] in E; rewrite app_rest in E.
    - destruct (read_yes first ct s (";"%char :: rest) F1 E) as [r [A B]]. { split; [reflexivity|]. exists ";"%char, rest. auto. }
      rewrite A. cbn [rbind]. rewrite (match_char_yes ";" r rest B). destruct ct. reflexivity.
    - set (more := p_terms txt false (q :: p) ++ ";"%char :: rest).
      assert (SM : stop isident more /\ exists c r, eat more = c :: r /\ (c = "+"%char \/ c = "-"%char)).
      { unfold more. cbn [p_terms]. rewrite app_rest. apply txt_sign. }
      destruct SM as [M1 [c [r0 [M2 M3]]]].
      destruct (read_yes first ct s more F1 E) as [r [A B]]. { split; auto. exists c, r0. tauto. }
      rewrite A. cbn [rbind]. rewrite match_char_no.
      2:{ rewrite B, M2. cbn. destruct M3; subst; discriminate. }
      rewrite (IH q false fuel (eat r) rest F2); [destruct ct; reflexivity | rewrite B; apply eat_idem | cbn in K; lia].
  Qed.
  Lemma readCoefTerms_zero ct p fuel s rest : Forall ok (ct :: p) -> eat s = eat (p_terms txt true (ct :: p) ++ ";"%char :: rest) -> List.length (ct :: p) <= fuel ->
    readCoefTerms read fuel true s = Ok (ct :: p, rest).
  Proof. intros. apply readCoefTerms_yes; auto. Qed.
End Terms.
