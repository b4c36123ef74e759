(** Round trips of ideals and of lists of ideals in every format. *)
From Coq Require Import String Ascii.
From Coq Require Import List Arith Bool ZArith Lia.
Import ListNotations.
From Verif Require Import M_Term M_Api M_Names M_IO Spec_IO P_Names P_IO P_IO2 P_IO3 P_IO4 P_IO5 P_IO6.

Lemma ended_big names req done J ic : ended names req done J ic -> exists done', ic = IC names None req done' /\
  forall n, big_ideals (IC n None req done') = big_ideals (IC n None req done) ++ [(names, J)].
Proof. intros E. pose proof (big_ideals_ended _ _ _ _ _ E) as B. destruct E as [K [-> _]]. eexists. split; [reflexivity|]. exact (fun _ => B). Qed.
Lemma ideal_round m f names J : good_ideal (names, J) -> format_fits m f names J ->
  exists file, write_ideal f names J = Ok file /\ read_ideal m f file = Ok (names, J).
Proof.
  intros G F. exists (itext f names J). split; [apply write_ideal_text|]. unfold read_ideal. pose proof (good_fine _ G) as FT. destruct G as [L _].
  destruct (single m f names J false L FT F) as [ic [r [A [B C]]]]. unfold ic_new. rewrite A. cbn [rbind]. unfold expectEOF. rewrite C. cbn [rbind].
  now rewrite (big_ideals_ended _ _ _ _ _ B).
Qed.

(** ** Lists in the new Monos format *)
Definition last_names (Js : list (list str * list (list Z))) (names : list str) : list str := last (map fst Js) names.
Lemma last_names_cons J Js names : last_names (J :: Js) names = last_names Js (fst J).
Proof. unfold last_names. cbn [map]. apply last_cons. Qed.
Definition nm_texts (Js : list (list str * list (list Z))) : text := concat (map (fun J => nm_text (fst J) (snd J)) Js).
Lemma nm_more : forall Js J fuel names0 done s, Forall good_ideal (J :: Js) -> "("%char :: s = nm_texts (J :: Js) -> List.length Js < fuel ->
  exists done' r, newmonos_readMore fuel (IC names0 None false done) s = Ok (IC (last_names (J :: Js) names0) None false done', r) /\ eat r = [] /\
    forall n, big_ideals (IC n None false done') = big_ideals (IC n None false done) ++ J :: Js.
Proof.
  induction Js as [|J' Js IH]; intros J fuel names0 done s G E K; (destruct fuel as [|fuel]; [cbn in K; lia|]); cbn [newmonos_readMore];
    inversion G as [|? ? G1 G2]; subst; unfold nm_texts in E; cbn [map concat] in E; rewrite last_names_cons.
  - destruct (nm_ideal (fst J) false done (snd J) names0 s []) as [ic [r [A [B C]]]]; [apply G1 | now apply good_fine | exact E|].
    rewrite A. cbn [rbind]. destruct (ended_big _ _ _ _ _ B) as [done' [-> D]].
    rewrite match_char_no by (rewrite C; discriminate). exists done', (eat r). split; [reflexivity|]. split; [now rewrite eat_idem|].
    intros n. rewrite D. now destruct J.
  - destruct (nm_ideal (fst J) false done (snd J) names0 s (nm_texts (J' :: Js))) as [ic [r [A [B C]]]]; [apply G1 | now apply good_fine | exact E|].
    rewrite A. cbn [rbind]. destruct (ended_big _ _ _ _ _ B) as [done' [-> D]].
    assert (exists s', nm_texts (J' :: Js) = "("%char :: s') as [s' Q] by (eexists; unfold nm_texts, nm_text; cbn [map concat]; lits; reflexivity).
    rewrite (match_char_yes "(" r s') by (rewrite C, Q; reflexivity).
    destruct (IH J' fuel (fst J) done' s' G2 (eq_sym Q)) as [done2 [r2 [X1 [X2 X3]]]]; [cbn in K; lia|].
    rewrite X1. exists done2, r2. repeat split; auto. intros n. rewrite X3, D, <- app_assoc. now destruct J.
Qed.
Lemma nm_iws : forall Js w, exists w', iw_ideals NewMonos w Js = Ok (w', nm_texts Js) /\
  (iw_firstIdeal w' = match Js with [] => iw_firstIdeal w | _ => false end) /\ (Js = [] -> w' = w).
Proof.
  induction Js as [|J Js IH]; intros w; cbn [iw_ideals].
  - exists w. auto.
  - destruct (nm_iw w (fst J) (snd J)) as [fg ->]. cbn [rbind]. destruct (IH (IW (fst J) false fg)) as [w' [-> [B _]]]. cbn [rbind].
    exists w'. split; [reflexivity|]. split; [|discriminate]. rewrite B. now destruct Js.
Qed.
Lemma list_start f names : exists fg, iw_run f iw_new [WBeginList; WRing names] = Ok (IW names true fg, []).
Proof.
  cbn [iw_run]. cbn [iw_step rbind]. cbn [iw_new iw_names iw_firstIdeal iw_firstGen]. destruct (list_eq_dec str_dec [] names) as [<-|]; cbn [rbind app]; eauto.
Qed.
Lemma nm_write names Js : write_ideals NewMonos names Js = Ok (match Js with [] => newmonos_writeRing names | _ => nm_texts Js end).
Proof.
  unfold write_ideals. destruct (list_start NewMonos names) as [fg ->]. cbn [rbind]. destruct (nm_iws Js (IW names true fg)) as [w' [-> [B D]]]. cbn [rbind iw_step].
  rewrite B. destruct Js as [|J Js].
  - rewrite D by auto. reflexivity.
  - cbn [rbind]. now rewrite app_nil_r.
Qed.
Lemma nm_texts_length Js : List.length Js <= List.length (nm_texts Js).
Proof. unfold nm_texts. induction Js; cbn [map concat List.length]; auto. rewrite app_length. unfold nm_text at 1. cbn [lit list_ascii_of_string app List.length]. lia. Qed.
Lemma nm_ideals m names Js : legal_names names -> Forall good_ideal Js ->
  exists file, write_ideals NewMonos names Js = Ok file /\ read_ideals m NewMonos file = Ok (last_names Js names, Js).
Proof.
  intros L G. eexists. split; [apply nm_write|]. unfold read_ideals, handler_readIdeals, newmonos_readIdeals. destruct Js as [|J Js].
  - unfold newmonos_writeRing. erewrite expect_char_yes; [|lits; reflexivity]. cbn [rbind].
    unfold peek_two. erewrite peek_char_yes; [|reflexivity]. rewrite (nm_ring names _ []) by (auto; rewrite eat_idem; reflexivity).
    reflexivity.
  - assert (exists s', nm_texts (J :: Js) = "("%char :: s' /\ exists s2, s' = "m"%char :: s2) as [s' [Q [s2 Q2]]]
      by (eexists; split; [unfold nm_texts, nm_text; cbn [map concat]; lits; reflexivity|]; eexists; reflexivity).
    rewrite Q. erewrite expect_char_yes; [|reflexivity]. cbn [rbind].
    assert (peek_two "l" "L" s' = (false, s')) as -> by (rewrite Q2; reflexivity).
    destruct (nm_more Js J (S (List.length s')) [] [] s' G (eq_sym Q)) as [done [r [A [B C]]]].
    + pose proof (nm_texts_length (J :: Js)) as X. rewrite Q in X. cbn [List.length] in *. lia.
    + unfold ic_new. rewrite A. cbn [rbind]. unfold expectEOF. rewrite B. cbn [rbind ic_names]. rewrite C. now rewrite !last_names_cons.
Qed.

(** ** Lists in the 4ti2 format *)
Definition f4_texts (Js : list (list str * list (list Z))) : text := concat (map (fun J => f4_text (fst J) (snd J)) Js).
Lemma nat_head n : exists c r, nat_str n = c :: r /\ isdigit c = true.
Proof. destruct (nat_str_digits n) as [A B]. destruct (nat_str n) as [|c r]; [congruence|]. inversion A; subst. eauto. Qed.
Lemma digit_facts c : isdigit c = true -> isalpha c = false /\ isspace c = false.
Proof.
  intros H. split.
  - destruct (isalpha c) eqn:A; auto. apply digit_iff in H. apply letter_iff in A. unfold digit, letter in *. lia.
  - now apply ident_not_space, digit_ident.
Qed.
Lemma f4_head names J rest : exists c r, f4_text names J ++ rest = c :: r /\ isdigit c = true.
Proof. unfold f4_text. rewrite app_rest. destruct (nat_head (List.length J)) as [c [r [-> H]]]. cbn [app]. eauto. Qed.
Lemma f4_texts_eat Js : eat (f4_texts Js) = f4_texts Js.
Proof.
  destruct Js as [|J Js]; auto. unfold f4_texts. cbn [map concat]. match goal with |- context [f4_text ?a ?b ++ ?z] => destruct (f4_head a b z) as [c [r [-> H]]] end.
  apply eat_nonspace. now apply digit_facts.
Qed.
Lemma f4_not_name Js : not_name (f4_texts Js).
Proof.
  unfold not_name. rewrite f4_texts_eat. destruct Js as [|J Js]; [exact I|]. unfold f4_texts. cbn [map concat].
  match goal with |- context [f4_text ?a ?b ++ ?z] => destruct (f4_head a b z) as [c [r [-> H]]] end. now apply digit_facts.
Qed.
Lemma f4_more m : forall Js fuel names0 done s, Forall (readable m Fourti2) Js -> eat s = f4_texts Js -> List.length Js < fuel ->
  exists done', fourti2_readMore m fuel (IC names0 None false done) s = Ok (IC (last_names Js names0) None false done', []) /\
    forall n, big_ideals (IC n None false done') = big_ideals (IC n None false done) ++ Js.
Proof.
  induction Js as [|J Js IH]; intros fuel names0 done s G E K; (destruct fuel as [|fuel]; [cbn in K; lia|]); cbn [fourti2_readMore].
  - unfold hasMoreInput. rewrite E. cbn. exists done. split; auto. intros. now rewrite app_nil_r.
  - inversion G as [|? ? [G1 [G3 G4]] G2]; subst. rewrite last_names_cons.
    assert (H : hasMoreInput s = (true, f4_texts (J :: Js))).
    { unfold hasMoreInput. rewrite E. unfold f4_texts. cbn [map concat]. match goal with |- context [f4_text ?a ?b ++ ?z] => destruct (f4_head a b z) as [c [r [-> _]]] end. reflexivity. }
    rewrite H. destruct (f4_ideal m (fst J) false done (snd J) names0 (f4_texts (J :: Js)) (f4_texts Js)) as [ic [r [A [B C]]]]; auto; [apply G1 | now apply good_fine | apply f4_not_name |].
    rewrite A. cbn [rbind]. destruct (ended_big _ _ _ _ _ B) as [done' [-> D]]. rewrite f4_texts_eat in C.
    destruct (IH fuel (fst J) done' r G2 C) as [done2 [X Y]]; [cbn in K; lia|]. exists done2. split; [exact X|]. intros n. rewrite Y, D, <- app_assoc. now destruct J.
Qed.
Lemma f4_iws : forall Js w, exists w', iw_ideals Fourti2 w Js = Ok (w', f4_texts Js) /\
  (iw_firstIdeal w' = match Js with [] => iw_firstIdeal w | _ => false end) /\ (Js = [] -> w' = w).
Proof.
  induction Js as [|J Js IH]; intros w; cbn [iw_ideals].
  - exists w. auto.
  - destruct (f4_iw w (fst J) (snd J)) as [fg ->]. cbn [rbind]. destruct (IH (IW (fst J) false fg)) as [w' [-> [B _]]]. cbn [rbind].
    exists w'. split; [reflexivity|]. split; [|discriminate]. rewrite B. now destruct Js.
Qed.
Lemma f4_write names Js : write_ideals Fourti2 names Js = Ok (match Js with [] => fourti2_writeRing names | _ => f4_texts Js end).
Proof.
  unfold write_ideals. destruct (list_start Fourti2 names) as [fg ->]. cbn [rbind]. destruct (f4_iws Js (IW names true fg)) as [w' [-> [B D]]]. cbn [rbind iw_step].
  rewrite B. destruct Js as [|J Js].
  - rewrite D by auto. reflexivity.
  - cbn [rbind]. now rewrite app_nil_r.
Qed.
Lemma f4_texts_length Js : List.length Js <= List.length (f4_texts Js).
Proof.
  unfold f4_texts. induction Js as [|J Js IH]; cbn [map concat List.length]; auto. rewrite app_length. destruct (f4_head (fst J) (snd J) []) as [c [r [X _]]].
  rewrite app_nil_r in X. rewrite X. cbn [List.length]. lia.
Qed.
Lemma f4_ring : forall names acc fuel s, Forall legal_name names -> NoDup (acc ++ names) -> names <> [] -> eat s = eat (sep_names (lit " ") names ++ [nl]) -> List.length names < fuel ->
  fourti2_readRing fuel acc s = Ok (acc ++ names, []).
Proof.
  induction names as [|x names IH]; intros acc fuel s F D N E K; [congruence|]. inversion F as [|? ? F1 F2]; subst.
  assert (U : ~ In x acc). { apply NoDup_remove_2 in D. intros X. apply D. apply in_or_app. now left. }
  destruct fuel as [|fuel]; [cbn in K; lia|]. cbn [fourti2_readRing]. rewrite (peekIdentifier_cong _ _ E), names_head by (auto; discriminate).
  destruct names as [|y names].
  - cbn [sep_names]. rewrite (ident_yes x (x ++ [nl]) [nl] F1) by (auto using eat_name; reflexivity). cbn [rbind]. rewrite addVarUnique_new by auto. cbn [rbind].
    destruct fuel as [|fuel]; [cbn in K; lia|]. reflexivity.
  - rewrite sep_names_cons, !app_rest in *. rewrite (ident_yes x _ (lit " " ++ sep_names (lit " ") (y :: names) ++ [nl]) F1) by (auto using eat_name; reflexivity).
    cbn [rbind]. rewrite addVarUnique_new by auto. cbn [rbind]. rewrite (IH (acc ++ [x]) fuel); auto; [now rewrite <- app_assoc | now rewrite <- app_assoc | discriminate | cbn in K |- *; lia].
Qed.
Lemma f4_ideals m names Js : (42 <= m)%Z -> legal_names names -> Forall (readable m Fourti2) Js ->
  exists file, write_ideals Fourti2 names Js = Ok file /\ read_ideals m Fourti2 file = Ok (last_names Js names, Js).
Proof.
  intros M [D L] G. eexists. split; [apply f4_write|]. unfold read_ideals, handler_readIdeals, fourti2_readIdeals. destruct Js as [|J Js].
  - unfold fourti2_writeRing. rewrite (size_yes m 42 _ (lit " ring" ++ nl :: fourti2_writeNames names)); [|exact M|reflexivity|reflexivity]. cbn [rbind Nat.eqb].
    rewrite (eq_refl : peekIdentifier (lit " ring" ++ nl :: fourti2_writeNames names) = (true, lit "ring" ++ nl :: fourti2_writeNames names)). cbv beta iota.
    rewrite (expect_str_yes (lit "ring") _ (nl :: fourti2_writeNames names)) by reflexivity. cbn [rbind].
    assert (fourti2_readRing (S (List.length (nl :: fourti2_writeNames names))) [] (nl :: fourti2_writeNames names) = Ok (names, [])) as ->.
    { destruct names as [|x names]; [reflexivity|].
      apply (f4_ring (x :: names) []); auto; [discriminate|]. cbn [fourti2_writeNames List.length]. rewrite app_length. pose proof (sep_length (lit " ") (x :: names) L). cbn [List.length] in *. lia. }
    reflexivity.
  - inversion G as [|? ? [G1 [G3 G4]] G2]; subst. unfold f4_texts. cbn [map concat]. fold (f4_texts Js).
    unfold f4_text. rewrite !app_rest. cbn [app]. rewrite !app_rest. cbn [app]. rewrite !app_rest.
    rewrite (size_yes m (List.length (snd J)) _ (" "%char :: nat_str (List.length (fst J)) ++ nl :: concat (map fourti2_writeTerm (snd J)) ++ f4_tail (fst J) ++ f4_texts Js)); auto.
    2:{ change (eat (" "%char :: nat_str (List.length (snd J)) ++ " "%char :: nat_str (List.length (fst J)) ++ nl :: concat (map fourti2_writeTerm (snd J)) ++ f4_tail (fst J) ++ f4_texts Js))
          with (eat (nat_str (List.length (snd J)) ++ " "%char :: nat_str (List.length (fst J)) ++ nl :: concat (map fourti2_writeTerm (snd J)) ++ f4_tail (fst J) ++ f4_texts Js)). apply eat_nat. }
    2:{ reflexivity. }
    cbn [rbind]. set (more := nl :: concat (map fourti2_writeTerm (snd J)) ++ f4_tail (fst J) ++ f4_texts Js).
    assert (EN : eat (" "%char :: nat_str (List.length (fst J)) ++ more) = nat_str (List.length (fst J)) ++ more) by exact (eat_nat (List.length (fst J)) more).
    assert (exists s', (if List.length (snd J) =? 42 then peekIdentifier (" "%char :: nat_str (List.length (fst J)) ++ more) else (false, " "%char :: nat_str (List.length (fst J)) ++ more)) = (false, s') /\
      eat s' = nat_str (List.length (fst J)) ++ more) as [s' [-> Q]].
    { destruct (List.length (snd J) =? 42); [|eauto]. unfold peekIdentifier. rewrite EN. destruct (nat_head (List.length (fst J))) as [c [r [-> H]]]. cbn [app].
      destruct (digit_facts c H) as [-> ?]. eexists. split; [reflexivity|]. now apply eat_nonspace. }
    cbv beta iota. rewrite (size_yes m (List.length (fst J)) s' more) by (auto; reflexivity). cbn [rbind].
    destruct (f4_body (fst J) false [] (snd J) [] more (f4_texts Js)) as [ic [r [A [B C]]]]; [apply G1 | now apply good_fine | apply f4_not_name | reflexivity |].
    unfold ic_new. rewrite A. cbn [rbind]. destruct (ended_big _ _ _ _ _ B) as [done' [-> E]]. rewrite f4_texts_eat in C.
    destruct (f4_more m Js (S (List.length r)) (fst J) done' r G2 C) as [done2 [X Y]].
    { pose proof (f4_texts_length Js). rewrite <- C in H. pose proof (eat_le r). lia. }
    rewrite X. cbn [rbind]. unfold expectEOF. cbn [eat rbind ic_names]. rewrite Y, E, last_names_cons. now destruct J.
Qed.

(** ** Every format *)
Lemma list_round m f names Js : (42 <= m)%Z -> legal_names names -> (f = CoCoA4 -> fits m (List.length names)) -> Forall (readable m f) Js ->
  exists file, write_ideals f names Js = Ok file /\ read_ideals m f file = Ok (last_names Js names, Js).
Proof.
  intros M L C G. destruct f; try (solve [apply common_ideals; unfold is_common; cbn [format_fits]; auto]).
  - apply nm_ideals; auto. rewrite Forall_forall in *. intros J H. now apply G.
  - now apply f4_ideals.
Qed.
(** ** Ideals that have to be square free *)
Definition zb (e : Z) : bool := negb (e =? 0)%Z.
Lemma sqf_round m f names B : legal_names names -> Forall (fun b => List.length b = List.length names) B -> format_fits m f names (map (map b2z) B) ->
  exists file, write_ideal f names (map (map b2z) B) = Ok file /\ read_square_free m f file = Ok (names, B).
Proof.
  intros L LB F. exists (itext f names (map (map b2z) B)). split; [apply write_ideal_text|]. unfold read_square_free.
  assert (FT : Forall (fine_term names true) (map (map b2z) B)).
  { rewrite Forall_forall in *. intros t Ht. apply in_map_iff in Ht as [b [<- Hb]]. split; [now rewrite map_length, LB|].
    split; [|intros _]; apply Forall_forall; intros e He; apply in_map_iff in He as [c [<- _]]; destruct c; cbn; lia. }
  destruct (single m f names _ true L FT F) as [ic [r [A [B1 C]]]]. unfold requireSquareFree, ic_new. cbn [ic_names ic_cur ic_ideals].
  rewrite A. cbn [rbind]. unfold expectEOF. rewrite C. cbn [rbind]. destruct B1 as [K [-> [E X]]]. destruct (X eq_refl) as [B' ->]. cbn [ic_ideals].
  do 2 f_equal. cbn [to_big] in E. change (map (map b2z) B' = rev (map (map b2z) B)) in E. rewrite <- map_rev in E.
  assert (INJ : forall a b : list bool, map b2z a = map b2z b -> a = b).
  { induction a as [|x a IH]; destruct b as [|y b]; intros H; try discriminate; auto. cbn in H. injection H as H1 H2. f_equal; auto. destruct x, y; auto; discriminate. }
  assert (B' = rev B) as ->.
  { revert E. clear - INJ. generalize (rev B). induction B' as [|x B' IH]; intros [|y l] H; try discriminate; auto. cbn in H. injection H as H1 H2. f_equal; auto. }
  apply rev_involutive.
Qed.
