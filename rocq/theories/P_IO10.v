(** Output term by term, detection of the format, numerals and the buffer. *)
From Coq Require Import String Ascii.
From Coq Require Import List Arith Bool ZArith Lia.
Import ListNotations.
From Verif Require Import M_Term M_Api M_Names M_IO Spec_IO P_Names P_IO P_IO2 P_IO3 P_IO4 P_IO5 P_IO6 P_IO7.

(** ** Output term by term *)
Lemma t_powers_value : forall names tr t, List.length names = List.length tr -> List.length t = List.length tr -> t_powers names tr t = powers names (t_value tr t).
Proof.
  induction names as [|x names IH]; intros [|tb tr] [|e t] A B; try discriminate; auto. cbn [t_powers]. unfold t_value. cbn [combine map powers fst snd].
  unfold varExponentString. cbn in A, B. injection A as A. injection B as B. rewrite (IH tr t A B). destruct (nth e tb 0 =? 0)%Z; auto.
Qed.
Lemma t_product_value names tr t : List.length names = List.length tr -> List.length t = List.length tr -> t_writeTermProduct names tr t = writeTermProduct names (t_value tr t).
Proof. intros A B. unfold t_writeTermProduct, writeTermProduct. now rewrite t_powers_value. Qed.
Lemma z_str_one z : z_str z = ["1"%char] -> z = 1%Z.
Proof.
  intros H. destruct z as [|p|p]; cbn [z_str] in H; try discriminate.
  assert (E : mpz_assign (z_str (Z.pos p)) = Ok 1%Z) by (cbn [z_str]; rewrite H; reflexivity). rewrite mpz_assign_z in E by lia. congruence.
Qed.
Lemma cocoa_t_value : forall tr t i, List.length t = List.length tr -> cocoa_t_powers i tr t = map ctext (combine (seq i (List.length (t_value tr t))) (t_value tr t)).
Proof.
  induction tr as [|tb tr IH]; intros [|e t] i B; try discriminate; auto. cbn [cocoa_t_powers exponentString]. injection B as B. rewrite (IH t (S i) B).
  unfold t_value at 3 4. cbn [combine map List.length seq fst snd]. f_equal. unfold ctext, cocoa_power. cbn [fst snd]. do 3 f_equal.
  destruct (str_dec (z_str (nth e tb 0%Z)) ["1"%char]) as [X|X].
  - apply z_str_one in X. now rewrite X.
  - destruct (nth e tb 0 =? 1)%Z eqn:Y; auto. apply Z.eqb_eq in Y. rewrite Y in X. now exfalso; apply X.
Qed.
Lemma cocoa_t_body tr t : List.length t = List.length tr -> cocoa_t_writeTermProduct tr t = pbody (every (t_value tr t)).
Proof.
  intros B. unfold cocoa_t_writeTermProduct. rewrite cocoa_t_value by auto. unfold every, pbody. now destruct (combine _ _).
Qed.
Definition sbody (f : format) (names : list str) (t : list Z) : text := match f with CoCoA4 => pbody (every t) | _ => tbody f names t end.
Lemma w_t_term_common f names tr first t : is_common f -> List.length names = List.length tr -> List.length t = List.length tr ->
  w_t_term f names first tr t = Ok (w_sep first ++ sbody f names (t_value tr t)).
Proof.
  intros [-> | [-> | [-> | ->]]] A B; cbn [w_t_term sbody tbody]; rewrite ?t_product_value, ?cocoa_t_body by auto; auto.
  destruct (ring_name_ok names) as [-> _]. reflexivity.
Qed.
Lemma run_app f : forall es w es', iw_run f w (es ++ es') = LET (w, a) := iw_run f w es IN LET (w, b) := iw_run f w es' IN Ok (w, a ++ b).
Proof.
  induction es as [|e es IH]; intros w es'; cbn [app iw_run].
  - cbn [rbind]. destruct (iw_run f w es') as [[w' b]| | | | |]; reflexivity.
  - destruct (iw_step f w e) as [[w1 a]| | | | |]; cbn [rbind]; auto. rewrite IH.
    destruct (iw_run f w1 es) as [[w2 b]| | | | |]; cbn [rbind]; auto. destruct (iw_run f w2 es') as [[w3 c]| | | | |]; cbn [rbind]; auto. now rewrite app_assoc.
Qed.
Lemma run_t_terms f names tr fi : is_common f -> List.length names = List.length tr -> forall I first, Forall (fun t => List.length t = List.length tr) I ->
  iw_run f (IW names fi first) (map (WTTerm tr) I) = Ok (IW names fi (first && negb (nonempty I)), terms_text (sbody f names) first (map (t_value tr) I)).
Proof.
  intros C A. induction I as [|t J IH]; intros first F; cbn [map iw_run].
  - cbn. now rewrite andb_true_r.
  - inversion F; subst. cbn [iw_step iw_names iw_firstGen iw_firstIdeal]. rewrite w_t_term_common by auto. cbn [rbind]. rewrite IH by auto. cbn [rbind]. cbn [terms_text nonempty negb andb]. rewrite andb_false_r.
    now rewrite app_rest.
Qed.
Lemma nm_t_run names tr fi : List.length names = List.length tr -> forall I fg, Forall (fun t => List.length t = List.length tr) I ->
  exists fg', iw_run NewMonos (IW names fi fg) (map (WTTerm tr) I) = Ok (IW names fi fg', nm_terms names (map (t_value tr) I)).
Proof.
  intros A. induction I as [|t J IH]; intros fg F; cbn [map iw_run]; [eauto|]. inversion F; subst. cbn [iw_step w_t_term iw_names iw_firstIdeal rbind].
  destruct (IH false) as [fg' ->]; auto. cbn [rbind]. exists fg'. unfold nm_terms. cbn [map concat]. now rewrite t_product_value.
Qed.
Definition stext (f : format) (names : list str) (J : list (list Z)) : text :=
  match f with
  | CoCoA4 => ringt CoCoA4 names ++ bare_head CoCoA4 ++ terms_text (fun t => pbody (every t)) true J ++ bare_foot CoCoA4 names (negb (nonempty J))
  | _ => itext f names J
  end.
Lemma nonempty_map {A B} (g : A -> B) l : nonempty (map g l) = nonempty l.
Proof. now destruct l. Qed.
Lemma stream_common f names tr I : is_common f -> List.length names = List.length tr -> Forall (fun t => List.length t = List.length tr) I ->
  exists w, iw_run f iw_new (WRing names :: WBegin :: map (WTTerm tr) I ++ [WDone]) = Ok (w, stext f names (map (t_value tr) I)).
Proof.
  intros C A F. cbn [iw_run]. destruct (ring_step f iw_new names) as [fg ->]. cbn [rbind].
  set (ag := again iw_new names). assert (AG : shown f ag = true) by (unfold ag, again, iw_new; cbn [iw_names iw_firstIdeal]; destruct (list_eq_dec str_dec [] names), C as [-> | [-> | [-> | ->]]]; reflexivity).
  assert (iw_step f (IW names ag fg) WBegin = Ok (IW names ag true, ringt f names ++ bare_head f)) as ->.
  { pose proof (header_common f names ag 0 C) as H. rewrite AG in H. destruct C as [-> | [-> | [-> | ->]]]; cbn [iw_step iw_names iw_firstIdeal]; rewrite H; reflexivity. }
  cbn [rbind]. rewrite run_app, run_t_terms by auto. cbn [rbind iw_run iw_step iw_names iw_firstGen andb]. rewrite footer_common by auto. cbn [rbind]. rewrite app_nil_r.
  eexists. do 2 f_equal. cbn [app]. rewrite app_rest. destruct C as [-> | [-> | [-> | ->]]]; cbn [stext itext sbody]; unfold baret; rewrite nonempty_map; reflexivity.
Qed.
Lemma stream_text f names tr I : List.length names = List.length tr -> Forall (fun t => List.length t = List.length tr) I ->
  write_stream f names tr I = Ok (stext f names (map (t_value tr) I)).
Proof.
  intros A F. destruct f; cbn [write_stream stext itext];
    try (solve [match goal with |- context [iw_run ?g _ _] => destruct (stream_common g names tr I) as [w ->]; [unfold is_common; auto | auto | auto | reflexivity] end]).
  - cbn [iw_run]. destruct (ring_step NewMonos iw_new names) as [fg ->]. cbn [rbind iw_step iw_names iw_firstIdeal w_header].
    rewrite run_app. destruct (nm_t_run names tr (again iw_new names) A I true F) as [fg' ->]. cbn [rbind iw_run iw_step w_footer iw_names iw_firstGen]. unfold nm_text. rewrite !app_rest. cbn [app].
    now rewrite app_rest.
  - destruct (ring_step Fourti2 iw_new names) as [fg ->]. cbn [rbind]. destruct (f4_iw (IW names (again iw_new names) fg) names (map (t_value tr) I)) as [fg' ->]. reflexivity.
Qed.
Lemma stream_read m f names J : good_ideal (names, J) -> format_fits m f names J -> read_ideal m f (stext f names J) = Ok (names, J).
Proof.
  intros G F.
  assert (N : f <> CoCoA4 -> read_ideal m f (stext f names J) = Ok (names, J)).
  { intros X. destruct (ideal_round m f names J G F) as [file [W R]]. rewrite write_ideal_text in W. injection W as W. destruct f; try congruence; cbn [stext]; rewrite W; exact R. }
  destruct f; try (apply N; discriminate). clear N. cbn [stext]. pose proof (good_fine _ G) as FT. destruct G as [L M]. cbn [fst snd format_fits] in *.
  unfold read_ideal, handler_readIdeal. unfold common_readIdeal.
  set (bare := bare_head CoCoA4 ++ _).
  rewrite (ring_read m CoCoA4 names (" "%char :: ringt CoCoA4 names ++ bare) bare) by (unfold is_common; auto 6). cbn [rbind consumeRing ic_cur ic_new ic_require ic_ideals fmt_readBareIdeal].
  destruct (cocoa_bare_gen m names false [] every J (nl :: bare) []) as [ic [r [A [B C]]]]; auto.
  - intros t Ft. split; [now apply every_good|]. split; [apply every_nodup|]. exact (every_set t []).
  - now rewrite app_nil_r.
  - rewrite A. cbn [rbind]. unfold expectEOF. rewrite C. cbn [eat rbind]. now rewrite (big_ideals_ended _ _ _ _ _ B).
Qed.
Lemma looked_up_value tr t e : List.length t = List.length tr -> looked_up tr t e -> t_value tr t = e.
Proof.
  intros L [A B]. unfold t_value. apply (nth_ext _ _ 0%Z 0%Z); rewrite map_length, combine_length, L, Nat.min_id; [congruence|].
  intros i Hi. rewrite B by lia. pose proof (map_nth (fun p : list Z * nat => nth (snd p) (fst p) 0%Z) (combine tr t) ([], 0) i) as Q. rewrite combine_nth in Q by auto. exact Q.
Qed.
Lemma stream_round m f names tr I J : List.length tr = List.length names -> Forall (fun t => List.length t = List.length names) I -> Forall2 (looked_up tr) I J ->
  good_ideal (names, J) -> format_fits m f names J -> exists file, write_stream f names tr I = Ok file /\ read_ideal m f file = Ok (names, J).
Proof.
  intros A F LU G FT. assert (E : map (t_value tr) I = J).
  { clear - A F LU. induction LU as [|t e I J H LU IH]; auto. inversion F; subst. cbn. f_equal; auto. apply looked_up_value; auto. congruence. }
  exists (stext f names J). split.
  - rewrite stream_text, E; auto. rewrite A. exact F.
  - now apply stream_read.
Qed.

(** ** Detection *)
Lemma detect_common f names rest : is_common f -> autoDetect (ringt f names ++ rest) = f.
Proof.
  intros [-> | [-> | [-> | ->]]]; cbn [ringt].
  - destruct (ring_name_ok names) as [_ [_ [[r ->] _]]]. reflexivity.
  - reflexivity.
  - unfold singular_writeRing. destruct names; reflexivity.
  - unfold cocoa_writeRing. destruct names; reflexivity.
Qed.
Lemma detect_digit c r : isdigit c = true -> autoDetect (c :: r) = Fourti2.
Proof.
  intros H. assert (In c (lit "0123456789")) as X.
  { destruct c as [[] [] [] [] [] [] [] []]; vm_compute in H; try discriminate H; cbn; tauto. }
  cbn in X. intuition (subst; reflexivity).
Qed.
Lemma detect_ideal f names J file : write_ideal f names J = Ok file -> autoDetect file = f.
Proof.
  rewrite write_ideal_text. intros H. injection H as <-. destruct f; cbn [itext]; try (solve [apply detect_common; unfold is_common; auto]).
  - reflexivity.
  - destruct (f4_head names J []) as [c [r [X Y]]]. rewrite app_nil_r in X. rewrite X. now apply detect_digit.
Qed.
Lemma detect_list f names Js file : write_ideals f names Js = Ok file -> autoDetect file = f.
Proof.
  assert (C : is_common f -> write_ideals f names Js = Ok file -> autoDetect file = f).
  { intros C. destruct (write_ideals_common f names Js C) as [fg W]. rewrite W. intros H. injection H as <-. destruct Js as [|J Js].
    - rewrite <- (app_nil_r (ringt f names)). now apply detect_common.
    - cbn [texts]. assert (shown f (again (IW names true fg) (fst J)) = true) as ->.
      { unfold again. cbn [iw_names iw_firstIdeal]. destruct (list_eq_dec str_dec names (fst J)); destruct C as [-> | [-> | [-> | ->]]]; reflexivity. }
      now apply detect_common. }
  destruct f; try (solve [apply C; unfold is_common; auto]).
  - rewrite nm_write. intros H. injection H as <-. destruct Js; reflexivity.
  - rewrite f4_write. intros H. injection H as <-. destruct Js as [|J Js]; [reflexivity|]. unfold f4_texts. cbn [map concat].
    match goal with |- context [f4_text ?a ?b ++ ?z] => destruct (f4_head a b z) as [c [r [-> Y]]] end. now apply detect_digit.
Qed.

(** ** Numerals *)
Definition dval (c : ascii) : Z := (Z.of_nat (nat_of_ascii c) - 48)%Z.
Lemma decimal_last ds c : decimal_value (ds ++ [c]) = (10 * decimal_value ds + dval c)%Z.
Proof. unfold decimal_value. now rewrite fold_left_app. Qed.
Lemma dval_range c : digit c -> (0 <= dval c <= 9)%Z.
Proof. unfold digit, dval. lia. Qed.
Lemma decimal_pos : forall ds, Forall digit ds -> (0 <= decimal_value ds)%Z /\ (ds <> [] -> hd_error ds <> Some "0"%char -> 0 < decimal_value ds)%Z.
Proof.
  induction ds as [|c ds IH] using rev_ind; intros F; [split; [cbn; lia | congruence]|].
  rewrite decimal_last. apply Forall_app in F as [F1 F2]. inversion F2 as [|? ? D _]; subst. pose proof (dval_range c D) as DR. destruct (IH F1) as [P Q]. split; [lia|]. intros _ H.
  destruct ds as [|d ds].
  - cbn in *. unfold dval, digit in *. assert (code c <> 48) by (intros X; apply H; rewrite <- (ascii_nat_embedding c), X; reflexivity). lia.
  - specialize (Q ltac:(discriminate) H). lia.
Qed.
Lemma decimal_inj : forall a b, Forall digit a -> Forall digit b -> hd_error a <> Some "0"%char -> hd_error b <> Some "0"%char -> decimal_value a = decimal_value b -> a = b.
Proof.
  induction a as [|c a IH] using rev_ind; intros b A B HA HB E.
  - destruct b as [|d b]; auto. destruct (decimal_pos _ B) as [_ Q]. specialize (Q ltac:(discriminate) HB). change (decimal_value []) with 0%Z in E. lia.
  - destruct b as [|d b _] using rev_ind.
    { destruct (decimal_pos _ A) as [_ Q]. specialize (Q (fun X => app_cons_not_nil _ _ _ (eq_sym X)) HA). change (decimal_value []) with 0%Z in E. lia. }
    rewrite !decimal_last in E. apply Forall_app in A as [A1 A2]. apply Forall_app in B as [B1 B2]. inversion A2 as [|? ? DC _]; subst. inversion B2 as [|? ? DD _]; subst.
    pose proof (dval_range c DC). pose proof (dval_range d DD). assert (dval c = dval d) by lia. assert (decimal_value a = decimal_value b) by lia.
    assert (a = b) as ->.
    { apply IH; auto; [destruct a; [discriminate | exact HA] | destruct b; [discriminate | exact HB]]. }
    do 2 f_equal. unfold dval in *. rewrite <- (ascii_nat_embedding c), <- (ascii_nat_embedding d). f_equal. lia.
Qed.
Lemma decimal_fold : forall ds a, Forall digit ds -> fold_left (fun l c => 10 * l + digit_value c)%Z ds a = fold_left (fun v c => 10 * v + (Z.of_nat (nat_of_ascii c) - 48))%Z ds a.
Proof. induction ds as [|c ds IH]; intros a F; auto. inversion F as [|? ? D F2]; subst. cbn. rewrite IH by auto. f_equal. unfold digit_value, digit in *. lia. Qed.
Lemma digit_iff_all ds : Forall (fun c => isdigit c = true) ds -> Forall digit ds.
Proof. apply Forall_impl. intros c. apply digit_iff. Qed.
Lemma decimal_z z : (0 <= z)%Z -> decimal_value (z_str z) = z.
Proof.
  intros H. destruct z as [|p|p]; [reflexivity| |lia]. unfold decimal_value. rewrite <- decimal_fold by (apply digit_iff_all, digits_digit).
  assert (E : Some (fold_left (fun l c => 10 * l + digit_value c)%Z (z_str (Z.pos p)) 0%Z) = Some (Z.pos p)); [|congruence].
  rewrite <- mpz_acc_fold by apply digits_digit. cbn [z_str]. now rewrite mpz_acc_zero, DecimalPos.Unsigned.of_to.
Qed.
Lemma numeral_z ds : numeral ds -> no_leading_zero ds -> ds = z_str (decimal_value ds).
Proof.
  intros [N F] [->|H]; [reflexivity|]. destruct (decimal_pos ds F) as [P Q]. specialize (Q N H).
  apply decimal_inj; auto.
  - apply digit_iff_all. apply z_str_digits. lia.
  - destruct (decimal_value ds) as [|p|p]; [lia| |lia]. cbn [z_str]. intros E. apply digits_head in E as [w E]. now apply to_uint_head in E.
  - now rewrite decimal_z by lia.
Qed.
Lemma power_text f z : (1 < z)%Z -> power_file f (z_str z) = itext f [lit "x"] [[z]].
Proof.
  intros H. assert (A : (z =? 0)%Z = false) by lia. assert (B : (z =? 1)%Z = false) by lia. assert (C : (0 =? z)%Z = false) by lia.
  destruct f; cbn [itext power_file ringt]; unfold baret; cbn [terms_text tbody bare_head bare_foot nonempty negb].
  - unfold writeTermProduct, is_identity. cbn [powers forallb]. rewrite A, B, C. cbn [andb sep_names]. unfold w_sep. lits. rewrite !app_rest. cbn [app]. rewrite ?app_rest. reflexivity.
  - unfold cocoa_writeTermProduct. cbn [cocoa_powers]. rewrite A. unfold cocoa_power. rewrite B. cbn [concat]. rewrite app_nil_r. unfold w_sep. lits. rewrite !app_rest. cbn [app]. rewrite ?app_rest. reflexivity.
  - unfold writeTermProduct. cbn [powers]. rewrite A, B. cbn [sep_names]. unfold w_sep. lits. rewrite !app_rest. cbn [app]. rewrite ?app_rest. reflexivity.
  - unfold writeTermProduct. cbn [powers]. rewrite A, B. cbn [sep_names]. unfold w_sep. lits. rewrite !app_rest. cbn [app]. rewrite ?app_rest. reflexivity.
  - unfold nm_text, nm_terms, writeTermProduct. cbn [map concat powers]. rewrite A, B. cbn [sep_names]. lits. rewrite !app_rest. cbn [app]. rewrite ?app_rest. reflexivity.
  - unfold f4_text. cbn [map concat List.length]. unfold f4_tail. destruct (list_eq_dec str_dec [lit "x"] (defaultNames (List.length [lit "x"]))) as [X|_]; [discriminate|].
    unfold fourti2_writeTerm. cbn [map concat fourti2_writeNames sep_names]. lits. rewrite !app_nil_r, !app_rest. cbn [app]. rewrite ?app_rest. reflexivity.
Qed.
Lemma power_small m f ds z : (1 <= m)%Z -> (ds = ["0"%char] /\ z = 0 \/ ds = ["1"%char] /\ z = 1)%Z -> read_ideal m f (power_file f ds) = Ok ([lit "x"], [[z]]).
Proof.
  intros M H.
  destruct m as [|p|p]; [lia| |lia]. destruct H as [[-> ->]|[-> ->]], f; try reflexivity; destruct p; reflexivity.
Qed.
Lemma numeral_read m f ds : (1 <= m)%Z -> numeral ds -> no_leading_zero ds -> read_ideal m f (power_file f ds) = Ok ([lit "x"], [[decimal_value ds]]).
Proof.
  intros M N Z0. pose proof (numeral_z ds N Z0) as E. destruct N as [_ F]. destruct (decimal_pos ds F) as [P _]. set (z := decimal_value ds) in *. clearbody z. subst ds.
  destruct (Z.le_gt_cases z 1) as [L|L].
  - apply power_small; auto. assert (z = 0 \/ z = 1)%Z as [-> | ->] by lia; auto.
  - rewrite power_text by auto. destruct (ideal_round m f [lit "x"] [[z]]) as [file [W R]].
    + split; cbn [fst snd].
      * split; [constructor; [intros []|constructor]|]. constructor; auto. split; auto. { right. vm_compute. lia. } constructor.
      * constructor; auto.
    + destruct f; cbn; auto; unfold fits; cbn; lia.
    + rewrite write_ideal_text in W. injection W as <-. exact R.
Qed.

(** ** The buffer *)
Lemma nextChars_end cap : forall k n, (b_buf n = [] /\ (b_full n = false \/ b_file n = [])) -> nextChars cap k n = repeat None k.
Proof.
  induction k as [|k IH]; intros n [A B]; auto. cbn [nextChars]. unfold nextChar, readBuffer. rewrite A. destruct B as [B|B].
  - rewrite B. cbn [negb]. cbn [repeat]. rewrite IH; auto.
  - destruct (b_full n) eqn:F; cbn [negb].
    + rewrite B. rewrite firstn_nil. cbn [repeat]. rewrite IH; auto. cbn. split; auto. right. apply skipn_nil.
    + cbn [repeat]. rewrite IH; auto.
Qed.
Lemma nextChars_all cap : 1 <= cap -> forall k b, (b_full b = false -> b_file b = []) ->
  nextChars cap k b = map Some (firstn k (b_buf b ++ b_file b)) ++ repeat None (k - List.length (b_buf b ++ b_file b)).
Proof.
  intros C. induction k as [|k IH]; intros [buf file full] H; auto. cbn [nextChars b_buf b_file b_full] in *. unfold nextChar. cbn [b_buf b_file b_full]. destruct buf as [|c buf].
  - unfold readBuffer. cbn [b_buf b_file b_full]. destruct full; cbn [negb].
    + destruct cap as [|cap]; [lia|]. destruct file as [|c file].
      * cbn [firstn app List.length skipn map Nat.sub repeat]. rewrite nextChars_end; auto.
      * cbn [firstn app List.length skipn]. rewrite IH.
        -- cbn [b_buf b_file map app Nat.sub]. now rewrite firstn_skipn.
        -- cbn [b_full b_file]. intros X. apply Nat.eqb_neq in X. apply skipn_all2. rewrite firstn_length in X. lia.
    + rewrite (H eq_refl). cbn [app firstn map List.length Nat.sub repeat]. rewrite nextChars_end; auto.
  - cbn [app firstn map List.length Nat.sub]. rewrite IH; auto.
Qed.
Lemma buffer_file cap k file : 1 <= cap -> nextChars cap k (Buf [] file true) = map Some (firstn k file) ++ repeat None (k - List.length file).
Proof. intros C. rewrite nextChars_all; auto. discriminate. Qed.

(** ** In the form of the theorems *)
Lemma monos_round max f names J : f = Monos \/ f = NewMonos -> legal_names names -> monomials (List.length names) J ->
  exists file, write_ideal f names J = Ok file /\ read_ideal max f file = Ok (names, J).
Proof. intros [-> | ->] L M; apply ideal_round; try exact Logic.I; exact (conj L M). Qed.
Lemma others_round max f names J : f = Singular \/ f = CoCoA4 -> legal_names names -> monomials (List.length names) J ->
  (f = CoCoA4 -> Z.of_nat (List.length names) <= max)%Z ->
  exists file, write_ideal f names J = Ok file /\ read_ideal max f file = Ok (names, J).
Proof. intros [-> | ->] L M F; apply ideal_round; try exact Logic.I; try exact (conj L M). now apply F. Qed.
Lemma octal_read : forall f, exists a b, numeral a /\ numeral b /\
  (exists e, read_ideal 100 f (power_file f a) = Ok ([lit "x"], [[e]]) /\ e <> decimal_value a) /\
  read_ideal 100 f (power_file f b) = InvalidArgument.
Proof.
  assert (N : forall ds, Forall (fun c => isdigit c = true) ds -> ds <> [] -> numeral ds) by (intros ds A B; split; auto using digit_iff_all).
  intros f. exists (lit "010"), (lit "08"). split; [apply N; [repeat constructor | discriminate]|]. split; [apply N; [repeat constructor | discriminate]|].
  split; [|destruct f; vm_compute; reflexivity]. exists 8%Z. split; [destruct f; vm_compute; reflexivity | vm_compute; discriminate].
Qed.
Lemma detect_both f names J Js file : write_ideal f names J = Ok file \/ write_ideals f names Js = Ok file -> autoDetect file = f.
Proof. intros [H|H]; [eapply detect_ideal | eapply detect_list]; eassumption. Qed.
