(** The scanner and the input consumer. *)
From Coq Require Import String Ascii.
From Coq Require Import List Arith Bool ZArith Lia.
From Coq Require Import DecimalFacts DecimalPos DecimalNat DecimalN.
From Coq Require Import List.
Import ListNotations.
From Verif Require Import M_Term M_Api M_Names M_IO Spec_IO P_Names.

(** ** Characters *)
Definition stop (f : ascii -> bool) (s : text) : Prop := match s with [] => True | c :: _ => f c = false end.
Lemma letter_iff c : isalpha c = true <-> letter c.
Proof.
  unfold isalpha, within, letter. rewrite orb_true_iff, !andb_true_iff, !Nat.leb_le. lia.
Qed.
Lemma digit_iff c : isdigit c = true <-> digit c.
Proof. unfold isdigit, within, digit. rewrite andb_true_iff, !Nat.leb_le. lia. Qed.
Lemma code_inj a b : code a = code b -> a = b.
Proof. intros H. rewrite <- (ascii_nat_embedding a), <- (ascii_nat_embedding b), H. reflexivity. Qed.
Lemma underscore_code c : code c = 95 <-> c = "_"%char.
Proof. split; intros H; [apply code_inj; rewrite H; reflexivity | subst; reflexivity]. Qed.
Lemma isident_iff c : isident c = true <-> letter c \/ digit c \/ c = "_"%char.
Proof.
  unfold isident, isalnum. rewrite !orb_true_iff, letter_iff, digit_iff, Nat.eqb_eq, underscore_code. tauto.
Qed.
Lemma space_code c : isspace c = true -> 9 <= code c <= 32.
Proof. unfold isspace, within. rewrite orb_true_iff, andb_true_iff, !Nat.leb_le, Nat.eqb_eq. lia. Qed.
Lemma ident_code c : isident c = true -> 48 <= code c.
Proof. rewrite isident_iff. intros [H|[H|H]]; [destruct H; lia | unfold digit in H; lia | subst; cbn; lia]. Qed.
Lemma ident_not_space c : isident c = true -> isspace c = false.
Proof. intros H. apply ident_code in H. destruct (isspace c) eqn:E; auto. apply space_code in E. lia. Qed.
Lemma alpha_ident c : isalpha c = true -> isident c = true.
Proof. intros H. unfold isident, isalnum. now rewrite H. Qed.
Lemma digit_ident c : isdigit c = true -> isident c = true.
Proof. intros H. unfold isident, isalnum. rewrite H, orb_true_r. reflexivity. Qed.
Lemma digit_code c : isdigit c = true -> 48 <= code c <= 57.
Proof. rewrite digit_iff. auto. Qed.
Lemma legal_cons x : legal_name x -> exists c r, x = c :: r /\ isalpha c = true /\ Forall (fun d => isident d = true) x.
Proof.
  destruct x as [|c r]; [contradiction|]. intros [A B]. exists c, r. apply letter_iff in A. repeat split; auto.
  constructor; [now apply alpha_ident|]. eapply Forall_impl; [|exact B]. intros d D. now apply isident_iff.
Qed.
Lemma digits_ident ds : Forall (fun c => isdigit c = true) ds -> Forall (fun c => isident c = true) ds.
Proof. apply Forall_impl. intros c. apply digit_ident. Qed.

(** ** White space *)
Lemma eat_idem s : eat (eat s) = eat s.
Proof. induction s as [|c s IH]; auto. cbn. destruct (isspace c) eqn:E; auto. cbn. now rewrite E. Qed.
Lemma eat_nonspace c s : isspace c = false -> eat (c :: s) = c :: s.
Proof. intros H. cbn. now rewrite H. Qed.
Lemma eat_le s : List.length (eat s) <= List.length s.
Proof. induction s as [|c s IH]; cbn; auto. destruct (isspace c); cbn; lia. Qed.
Lemma eat_word f w s : (forall c, f c = true -> isspace c = false) -> w <> [] -> Forall (fun c => f c = true) w -> eat (w ++ s) = w ++ s.
Proof. intros F N H. destruct w as [|c w]; [congruence|]. inversion H; subst. cbn. now rewrite (F c). Qed.
Lemma stop_eat f s : (forall c, isspace c = true -> f c = false) -> stop f (eat s) -> stop f s.
Proof. intros F H. destruct s as [|c s]; auto. cbn in *. destruct (isspace c) eqn:E; auto. Qed.
Lemma space_not_ident c : isspace c = true -> isident c = false.
Proof. intros H. destruct (isident c) eqn:E; auto. apply ident_not_space in E. congruence. Qed.
Lemma space_not_digit c : isspace c = true -> isdigit c = false.
Proof. intros H. destruct (isdigit c) eqn:E; auto. apply digit_ident, ident_not_space in E. congruence. Qed.

(** The functions that skip white space first do not see it *)
Lemma match_char_eat c s : match_char c (eat s) = match_char c s.
Proof. unfold match_char. now rewrite eat_idem. Qed.
Lemma expect_char_eat c s : expect_char c (eat s) = expect_char c s.
Proof. unfold expect_char. now rewrite eat_idem. Qed.
Lemma expect_str_eat w s : expect_str w (eat s) = expect_str w s.
Proof. unfold expect_str. now rewrite eat_idem. Qed.
Lemma peekIdentifier_eat s : peekIdentifier (eat s) = peekIdentifier s.
Proof. unfold peekIdentifier. now rewrite eat_idem. Qed.
Lemma peek_char_eat c s : peek_char c (eat s) = peek_char c s.
Proof. unfold peek_char. now rewrite eat_idem. Qed.
Lemma hasMoreInput_eat s : hasMoreInput (eat s) = hasMoreInput s.
Proof. unfold hasMoreInput. now rewrite eat_idem. Qed.
Lemma expectEOF_eat s : expectEOF (eat s) = expectEOF s.
Proof. unfold expectEOF. now rewrite eat_idem. Qed.
Lemma readIdentifier_eat s : readIdentifier (eat s) = readIdentifier s.
Proof. unfold readIdentifier. now rewrite eat_idem. Qed.

Lemma match_char_yes c s s' : eat s = c :: s' -> match_char c s = (true, s').
Proof. intros H. unfold match_char. rewrite H. destruct (ascii_dec c c); congruence. Qed.
Lemma match_char_no c s : hd_error (eat s) <> Some c -> match_char c s = (false, eat s).
Proof. intros H. unfold match_char. destruct (eat s) as [|x s']; auto. cbn in H. destruct (ascii_dec c x); congruence. Qed.
Lemma expect_char_yes c s s' : eat s = c :: s' -> expect_char c s = Ok s'.
Proof. intros H. unfold expect_char. rewrite H. destruct (ascii_dec c c); congruence. Qed.
Lemma expect_rest_yes w s : expect_rest w (w ++ s) = Ok s.
Proof. induction w as [|c w IH]; cbn; [now destruct s|]. destruct (ascii_dec c c); congruence. Qed.
Lemma expect_str_yes w s s' : eat s = w ++ s' -> expect_str w s = Ok s'.
Proof. intros H. unfold expect_str. rewrite H. apply expect_rest_yes. Qed.
Lemma peek_char_yes c s s' : eat s = c :: s' -> peek_char c s = (true, eat s).
Proof. intros H. unfold peek_char. rewrite H. destruct (ascii_dec c c); congruence. Qed.
Lemma peek_char_no c s : hd_error (eat s) <> Some c -> peek_char c s = (false, eat s).
Proof. intros H. unfold peek_char. destruct (eat s) as [|x s']; auto. cbn in H. destruct (ascii_dec x c); congruence. Qed.

Lemma span_app f w s : Forall (fun c => f c = true) w -> stop f s -> span f (w ++ s) = (w, s).
Proof.
  intros H S. induction H as [|c w Hc _ IH]; cbn.
  - destruct s as [|c s]; auto. cbn in *. now rewrite S.
  - rewrite Hc, IH. reflexivity.
Qed.
Lemma readIdentifier_yes x s rest : legal_name x -> stop isident rest -> eat s = x ++ rest -> readIdentifier s = Ok (x, rest).
Proof.
  intros L S E. destruct (legal_cons x L) as [c [r [Q [A F]]]]. unfold readIdentifier. rewrite E. subst x. cbn [app]. rewrite A.
  f_equal. change (c :: r ++ rest) with ((c :: r) ++ rest). now apply span_app.
Qed.
Lemma eat_name x rest : legal_name x -> eat (x ++ rest) = x ++ rest.
Proof.
  intros L. destruct (legal_cons x L) as [c [r [Q [A F]]]]. apply (eat_word isident); auto using ident_not_space. subst; discriminate.
Qed.
Lemma readIntegerStringNoSign_yes ds s rest :
  Forall (fun c => isdigit c = true) ds -> ds <> [] -> stop isdigit rest -> eat s = ds ++ rest -> readIntegerStringNoSign s = Ok (ds, rest).
Proof.
  intros F N S E. destruct ds as [|c r]; [congruence|]. unfold readIntegerStringNoSign. rewrite E. cbn [app].
  inversion F as [|? ? Hc Hr]; subst. pose proof (digit_code c Hc) as K.
  destruct (ascii_dec c "-") as [->|_]; [cbn in K; lia|]. destruct (ascii_dec c "+") as [->|_]; [cbn in K; lia|].
  change (c :: r ++ rest) with ((c :: r) ++ rest). now rewrite span_app.
Qed.
Lemma readIntegerString_yes ds s rest :
  Forall (fun c => isdigit c = true) ds -> ds <> [] -> stop isdigit rest -> eat s = ds ++ rest -> readIntegerString s = Ok ("+"%char, ds, rest).
Proof.
  intros F N S E. destruct ds as [|c r]; [congruence|]. unfold readIntegerString. rewrite E. cbn [app].
  inversion F as [|? ? Hc Hr]; subst. pose proof (digit_code c Hc) as K.
  destruct (ascii_dec c "-") as [->|_]; [cbn in K; lia|]. destruct (ascii_dec c "+") as [->|_]; [cbn in K; lia|].
  change (c :: r ++ rest) with ((c :: r) ++ rest). now rewrite span_app.
Qed.

(** ** Numbers *)
Lemma digits_digit u : Forall (fun c => isdigit c = true) (digits u).
Proof. induction u; cbn; constructor; auto. Qed.
Lemma mpz_acc_pos : forall u p, mpz_acc 10 (Zpos p) (digits u) = Some (Zpos (Pos.of_uint_acc u p)).
Proof.
  induction u; intros p; cbn [digits mpz_acc Pos.of_uint_acc]; auto;
    (match goal with |- context [digit_value ?c] => let d := eval vm_compute in (digit_value c) in change (digit_value c) with d end);
    cbn [Z.ltb Z.compare Pos.compare Pos.compare_cont]; rewrite <- IHu; f_equal; lia.
Qed.
Lemma mpz_acc_zero : forall u, mpz_acc 10 0 (digits u) = Some (Z.of_N (Pos.of_uint u)).
Proof.
  induction u; cbn [digits mpz_acc Pos.of_uint]; auto;
    (match goal with |- context [digit_value ?c] => let d := eval vm_compute in (digit_value c) in change (digit_value c) with d end);
    cbn [Z.ltb Z.compare Pos.compare Pos.compare_cont]; try (rewrite <- IHu; reflexivity);
    change (10 * 0)%Z with 0%Z; rewrite Z.add_0_l; apply mpz_acc_pos.
Qed.
Lemma to_uint_head p u : Pos.to_uint p <> Decimal.D0 u.
Proof.
  intros E. assert (X : Pos.to_uint p = Decimal.unorm (Pos.to_uint p)).
  { rewrite <- DecimalPos.Unsigned.to_of, DecimalPos.Unsigned.of_to. reflexivity. }
  rewrite E in X at 2. unfold Decimal.unorm in X. destruct (Decimal.nzhead (Decimal.D0 u)) eqn:N.
  - pose proof (DecimalPos.Unsigned.of_to p) as Y. rewrite X in Y. discriminate.
  - exfalso. apply (nzhead_nonzero (Decimal.D0 u) u0). exact N.
  - congruence.
  - congruence.
  - congruence.
  - congruence.
  - congruence.
  - congruence.
  - congruence.
  - congruence.
  - congruence.
Qed.
Lemma to_uint_nonempty p : digits (Pos.to_uint p) <> [].
Proof. intros E. apply (DecimalPos.Unsigned.to_uint_nonnil p). destruct (Pos.to_uint p); auto; discriminate. Qed.
Lemma digits_head u : hd_error (digits u) = Some "0"%char -> exists w, u = Decimal.D0 w.
Proof. destruct u; cbn; intros H; try discriminate. eauto. Qed.
Lemma z_str_digits z : (0 <= z)%Z -> Forall (fun c => isdigit c = true) (z_str z) /\ z_str z <> [].
Proof.
  intros H. destruct z as [|p|p]; [repeat constructor; discriminate | |lia]. split; [apply digits_digit | apply to_uint_nonempty].
Qed.
Lemma mpz_assign_nozero ds z : hd_error ds <> Some "0"%char -> ds <> [] -> mpz_acc 10 0 ds = Some z -> mpz_assign ds = Ok z.
Proof.
  intros A B C. unfold mpz_assign. destruct ds as [|c r]; [congruence|]. destruct (ascii_dec c "0") as [->|_]; [now destruct A|]. now rewrite C.
Qed.
Lemma mpz_assign_z z : (0 <= z)%Z -> mpz_assign (z_str z) = Ok z.
Proof.
  intros H. destruct z as [|p|p]; [reflexivity | |lia]. cbn [z_str]. apply mpz_assign_nozero.
  - intros E. apply digits_head in E as [w E]. now apply to_uint_head in E.
  - apply to_uint_nonempty.
  - rewrite mpz_acc_zero, DecimalPos.Unsigned.of_to. reflexivity.
Qed.
Lemma z_str_01 z : (0 <= z <= 1)%Z -> z_str z = ["0"%char] \/ z_str z = ["1"%char].
Proof. intros H. assert (z = 0 \/ z = 1)%Z as [-> | ->] by lia; auto. Qed.

Lemma digit_value_lt c : isdigit c = true -> (0 <= digit_value c < 10)%Z.
Proof. intros H. apply digit_code in H. unfold digit_value. lia. Qed.
Lemma mpz_acc_fold : forall ds acc, Forall (fun c => isdigit c = true) ds ->
  mpz_acc 10 acc ds = Some (fold_left (fun l c => 10 * l + digit_value c)%Z ds acc).
Proof.
  induction ds as [|c ds IH]; intros acc F; auto. inversion F; subst. cbn. apply digit_value_lt in H1.
  assert (digit_value c <? 10 = true)%Z as -> by lia. now apply IH.
Qed.
Lemma parse_value ds sign : Forall (fun c => isdigit c = true) ds ->
  parseInteger sign ds = let v := fold_left (fun l c => 10 * l + digit_value c)%Z ds 0%Z in if ascii_dec sign "-" then (- v)%Z else v.
Proof.
  intros F. unfold parseInteger. destruct (_ <? 10).
  - cbv zeta. destruct (ascii_dec sign "-"); reflexivity.
  - rewrite mpz_acc_fold by auto. cbv zeta. destruct (ascii_dec sign "-"); reflexivity.
Qed.
Lemma fold_nat : forall u a, fold_left (fun l c => 10 * l + digit_value c)%Z (digits u) (Z.of_nat a) = Z.of_nat (Nat.of_uint_acc u a).
Proof.
  induction u; intros a; cbn [digits fold_left Nat.of_uint_acc]; auto;
    (match goal with |- context [digit_value ?c] => let d := eval vm_compute in (digit_value c) in change (digit_value c) with d end);
    rewrite <- IHu, Nat.tail_mul_spec; f_equal; lia.
Qed.
Lemma nat_str_value n : fold_left (fun l c => 10 * l + digit_value c)%Z (nat_str n) 0%Z = Z.of_nat n.
Proof. unfold nat_str. rewrite (fold_nat _ 0). f_equal. apply (DecimalNat.Unsigned.of_to n). Qed.
Lemma nat_str_digits n : Forall (fun c => isdigit c = true) (nat_str n) /\ nat_str n <> [].
Proof.
  split; [apply digits_digit|]. unfold nat_str. intros E. assert (X : Nat.to_uint n = Decimal.Nil) by (destruct (Nat.to_uint n); auto; discriminate).
  pose proof (DecimalNat.Unsigned.of_to n) as Y. rewrite X in Y. cbn in Y. subst n. discriminate.
Qed.
Lemma readSizeT_yes m n s rest : fits m n -> stop isdigit rest -> eat s = nat_str n ++ rest -> readSizeT m s = Ok (n, rest).
Proof.
  intros F S E. destruct (nat_str_digits n) as [A B]. unfold readSizeT, readInteger. rewrite (readIntegerString_yes (nat_str n) s rest) by auto.
  cbn [rbind]. rewrite parse_value by auto. cbv zeta. rewrite nat_str_value. destruct (ascii_dec "+" "-") as [X|_]; [discriminate|].
  unfold fits in F. assert ((0 <=? Z.of_nat n) && (Z.of_nat n <=? m) = true)%Z as -> by lia. now rewrite Nat2Z.id.
Qed.
Lemma eat_nat n rest : eat (nat_str n ++ rest) = nat_str n ++ rest.
Proof. destruct (nat_str_digits n). apply (eat_word isdigit); auto. intros c H1. now apply ident_not_space, digit_ident. Qed.
Lemma eat_z z rest : (0 <= z)%Z -> eat (z_str z ++ rest) = z_str z ++ rest.
Proof. intros H. destruct (z_str_digits z H). apply (eat_word isdigit); auto. intros c H2. now apply ident_not_space, digit_ident. Qed.

(** ** The input consumer *)
Definition b2z (b : bool) : Z := if b then 1%Z else 0%Z.
(** The consumer is in an ideal whose generators so far are [T], newest first *)
Definition st (names : list str) (req : bool) (done : list (list str * in_ideal)) (T : list (list Z)) (ic : consumer) : Prop :=
  exists J, ic = IC names (Some (names, J)) req done /\ to_big J = T /\ (req = true -> exists B, J = Sqf B).
Lemma map_list_set {A B} (f : A -> B) l i x : map f (list_set l i x) = list_set (map f l) i (f x).
Proof.
  unfold list_set. rewrite skipn_map. destruct (skipn i l) as [|y r] eqn:E; cbn; auto. now rewrite map_app, firstn_map.
Qed.
Lemma list_set_same {A} (l : list A) i x : nth_error l i = Some x -> list_set l i x = l.
Proof.
  intros H. apply nth_error_ext. intros j. rewrite list_set_nth. destruct (_ <? _) eqn:E; cbn; auto. destruct (j =? i) eqn:E2; auto.
  apply Nat.eqb_eq in E2. now subst.
Qed.
Lemma st_sqf b B names req done : st names req done (map b2z b :: map (map b2z) B) (IC names (Some (names, Sqf (b :: B))) req done).
Proof. exists (Sqf (b :: B)). repeat split; eauto. Qed.
Lemma step_one names req done t T ic var : st names req done (t :: T) ic -> nth_error t var = Some 0%Z ->
  exists ic', consumeVarExponentOne var ic = Ok ic' /\ st names req done (list_set t var 1%Z :: T) ic'.
Proof.
  intros [J [-> [E R]]] N. destruct J as [[|b B]|[|t' T']]; cbn in E; try discriminate; injection E as E1 E2; subst.
  - change (fun b0 : bool => if b0 then 1%Z else 0%Z) with b2z in *. rewrite nth_error_map in N.
    destruct (nth_error b var) as [[|]|] eqn:Nb; try discriminate.
    eexists. split; [cbn; rewrite Nb; reflexivity|]. unfold ic_set; cbn.
    change (list_set (map b2z b) var 1%Z) with (list_set (map b2z b) var (b2z true)); rewrite <- (map_list_set b2z b var true). apply st_sqf.
  - eexists. split; [cbn; rewrite N; reflexivity|]. unfold ic_set; cbn. exists (Big (list_set t var 1%Z :: T)). repeat split; auto.
    intros X. destruct (R X) as [B ?]. discriminate.
Qed.
Lemma step_exp names req done t T ic var s ds rest z : st names req done (t :: T) ic -> nth_error t var = Some 0%Z ->
  Forall (fun c => isdigit c = true) ds -> ds <> [] -> stop isdigit rest -> eat s = ds ++ rest -> mpz_assign ds = Ok z ->
  (req = true -> ds = ["0"%char] \/ ds = ["1"%char]) ->
  exists ic', consumeVarExponent var ic s = Ok (ic', rest) /\ st names req done (list_set t var z :: T) ic'.
Proof.
  intros [J [-> [E R]]] N F D S Es M Q.
  pose proof (readIntegerStringNoSign_yes ds s rest F D S Es) as RD.
  destruct J as [[|b B]|[|t' T']]; cbn in E; try discriminate; injection E as E1 E2; subst.
  - change (fun b0 : bool => if b0 then 1%Z else 0%Z) with b2z in *. pose proof N as N'. rewrite nth_error_map in N.
    destruct (nth_error b var) as [[|]|] eqn:Nb; try discriminate.
    cbn [consumeVarExponent ic_cur]. rewrite RD. cbn [rbind]. rewrite Nb.
    destruct (str_dec ds ["1"%char]) as [->|D1].
    { eexists. split; [reflexivity|]. unfold ic_set; cbn. replace z with 1%Z by (unfold mpz_assign in M; cbn in M; injection M as <-; reflexivity). change (list_set (map b2z b) var 1%Z) with (list_set (map b2z b) var (b2z true)); rewrite <- (map_list_set b2z b var true). apply st_sqf. }
    destruct (str_dec ds ["0"%char]) as [->|D0].
    { eexists. split; [reflexivity|]. replace z with 0%Z by (unfold mpz_assign in M; cbn in M; injection M as <-; reflexivity). rewrite list_set_same by auto. apply st_sqf. }
    cbn [ic_require]. destruct req; [destruct Q; congruence|]. cbn [to_big map]. rewrite M. cbn [rbind].
    eexists. split; [reflexivity|]. unfold ic_set; cbn. eexists (Big _). repeat split; eauto; discriminate.
  - cbn [consumeVarExponent ic_cur]. rewrite N. cbn [Z.eqb]. unfold readIntegerNoSign. rewrite RD. cbn [rbind]. rewrite M. cbn [rbind].
    eexists. split; [reflexivity|]. unfold ic_set; cbn. exists (Big (list_set t var z :: T)). repeat split; auto.
    intros X. destruct (R X) as [B ?]. discriminate.
Qed.
Lemma begin_term names req done T ic : st names req done T ic ->
  exists ic', beginTerm ic = Ok ic' /\ st names req done (map (fun _ => 0%Z) names :: T) ic'.
Proof.
  intros [J [-> [E R]]]. destruct J as [B|T'].
  - eexists. split; [reflexivity|]. cbn [ic_names ic_require ic_ideals]. exists (Sqf (map (fun _ => false) names :: B)). repeat split; eauto.
    cbn [to_big map]. rewrite map_map. cbn in E. rewrite <- E. reflexivity.
  - eexists. split; [reflexivity|]. cbn [ic_names ic_require ic_ideals]. exists (Big (map (fun _ => 0%Z) names :: T')). repeat split; eauto.
    + cbn in *. now subst.
    + intros X. destruct (R X). discriminate.
Qed.
Lemma var_index_nth : forall names i x, NoDup names -> nth_error names i = Some x -> var_index x names = Some i.
Proof.
  induction names as [|y names IH]; intros i x D N; [now destruct i|]. inversion D; subst. destruct i as [|i]; cbn in N.
  - injection N as ->. cbn. destruct (str_dec x x); congruence.
  - cbn. destruct (str_dec y x) as [->|_]; [destruct H1; eapply nth_error_In; eauto|]. now rewrite (IH i).
Qed.

(** ** Products of powers *)
(** The variables with exponents that are not zero, from variable [i] *)
Fixpoint pairs (i : nat) (t : list Z) : list (nat * Z) :=
  match t with
  | [] => []
  | e :: t' => if (e =? 0)%Z then pairs (S i) t' else (i, e) :: pairs (S i) t'
  end.
Definition set_all (t : list Z) (ps : list (nat * Z)) : list Z := fold_left (fun t p => list_set t (fst p) (snd p)) ps t.
Lemma list_set_app {A} (l r : list A) x y : list_set (l ++ x :: r) (List.length l) y = l ++ y :: r.
Proof.
  unfold list_set. rewrite skipn_app, skipn_all2, Nat.sub_diag by lia. cbn. rewrite firstn_app, Nat.sub_diag, firstn_all2 by lia. cbn.
  now rewrite app_nil_r.
Qed.
Lemma set_all_pairs : forall t l, set_all (l ++ map (fun _ => 0%Z) t) (pairs (List.length l) t) = l ++ t.
Proof.
  induction t as [|e t IH]; intros l; cbn [pairs map]; auto. specialize (IH (l ++ [e])). rewrite app_length in IH. cbn [List.length] in IH.
  rewrite Nat.add_1_r in IH. rewrite <- !app_assoc in IH. cbn [app] in IH.
  destruct (e =? 0)%Z eqn:E.
  - apply Z.eqb_eq in E. subst e. exact IH.
  - unfold set_all in *. cbn [fold_left fst snd]. rewrite list_set_app. exact IH.
Qed.
Lemma pairs_ge : forall t i v e, In (v, e) (pairs i t) -> i <= v < i + List.length t /\ e <> 0%Z /\ nth_error t (v - i) = Some e.
Proof.
  induction t as [|x t IH]; intros i v e H; [contradiction|]. cbn in H. destruct (x =? 0)%Z eqn:E.
  - apply IH in H as [A [B C]]. cbn [List.length]. repeat split; try lia; auto. replace (v - i) with (S (v - S i)) by lia. exact C.
  - apply Z.eqb_neq in E. destruct H as [H|H].
    + injection H as <- <-. cbn [List.length]. repeat split; auto; try lia. now rewrite Nat.sub_diag.
    + apply IH in H as [A [B C]]. cbn [List.length]. repeat split; try lia; auto. replace (v - i) with (S (v - S i)) by lia. exact C.
Qed.
Lemma pairs_nodup : forall t i, NoDup (map fst (pairs i t)).
Proof.
  induction t as [|x t IH]; intros i; cbn; [constructor|]. destruct (x =? 0)%Z; auto. cbn. constructor; auto.
  intros H. apply in_map_iff in H as [[v e] [E H]]. cbn in E. subst. apply pairs_ge in H. lia.
Qed.
