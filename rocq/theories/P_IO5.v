(** What is written in the formats that share IOHandlerCommon is read back. *)
From Coq Require Import String Ascii.
From Coq Require Import List Arith Bool ZArith Lia.
Import ListNotations.
From Verif Require Import M_Term M_Api M_Names M_IO Spec_IO P_Names P_IO P_IO2 P_IO3 P_IO4.

(** ** What the writers write *)
Lemma w_term_common f names first t : is_common f -> w_term f names first t = Ok (w_sep first ++ tbody f names t).
Proof.
  intros [-> | [-> | [-> | ->]]]; cbn [w_term tbody]; auto. destruct (ring_name_ok names) as [-> _]. reflexivity.
Qed.
Lemma run_terms f names fi : is_common f -> forall J first,
  iw_run f (IW names fi first) (map WTerm J) = Ok (IW names fi (first && negb (nonempty J)), terms_text (tbody f names) first J).
Proof.
  intros C. induction J as [|t J IH]; intros first; cbn [map iw_run].
  - cbn. now rewrite andb_true_r.
  - cbn [iw_step iw_names iw_firstGen iw_firstIdeal]. rewrite w_term_common by auto. cbn [rbind]. rewrite IH. cbn [rbind]. cbn [terms_text nonempty negb andb]. rewrite andb_false_r.
    now rewrite app_rest.
Qed.
(** Is the ring printed before an ideal with these names? [fi] is the flag of the writer after consumeRing *)
Definition shown (f : format) (fi : bool) : bool := match f with M2 => fi | _ => true end.
Lemma header_common f names fi k : is_common f -> w_header f names fi k = Ok ((if shown f fi then ringt f names else []) ++ bare_head f).
Proof.
  intros [-> | [-> | [-> | ->]]]; cbn [w_header shown ringt bare_head]; auto. destruct fi; auto. unfold m2_writeRing. destruct (ring_name_ok names) as [-> _]. reflexivity.
Qed.
Lemma footer_common f names z : is_common f -> w_footer f names z = Ok (bare_foot f names z).
Proof.
  intros [-> | [-> | [-> | ->]]]; cbn [w_footer bare_foot]; auto. destruct z; auto. destruct (ring_name_ok names) as [-> _]. reflexivity.
Qed.
Lemma empty_common f names : is_common f -> w_emptyList f names = Ok (ringt f names).
Proof. intros [-> | [-> | [-> | ->]]]; cbn [w_emptyList ringt]; auto. unfold m2_writeRing. destruct (ring_name_ok names) as [-> _]. reflexivity. Qed.
(** The flag after consumeRing *)
Definition again (w : writer) (names : list str) : bool := if list_eq_dec str_dec (iw_names w) names then iw_firstIdeal w else true.
Lemma ring_step f w names : exists fg, iw_step f w (WRing names) = Ok (IW names (again w names) fg, []).
Proof. unfold again. cbn [iw_step]. destruct (list_eq_dec str_dec (iw_names w) names) as [<-|]; eauto. destruct w; cbn. eauto. Qed.
Lemma iw_ideal_common f w names J : is_common f -> exists fg,
  iw_ideal f w names J = Ok (IW names false fg, (if shown f (again w names) then ringt f names else []) ++ baret f names J).
Proof.
  intros C. unfold iw_ideal. destruct (ring_step f w names) as [fg ->]. cbn [rbind iw_names iw_firstIdeal].
  rewrite header_common by auto. cbn [rbind]. rewrite run_terms by auto. cbn [rbind iw_step iw_names iw_firstGen andb].
  rewrite footer_common by auto. cbn [rbind]. eexists. unfold baret. now rewrite !app_rest.
Qed.
Lemma write_ideal_common f names J : is_common f -> write_ideal f names J = Ok (ringt f names ++ baret f names J).
Proof.
  intros C. unfold write_ideal. destruct (iw_ideal_common f iw_new names J C) as [fg ->]. cbn [rbind]. unfold again, iw_new. cbn [iw_names iw_firstIdeal].
  destruct (list_eq_dec str_dec [] names), C as [-> | [-> | [-> | ->]]]; reflexivity.
Qed.
Fixpoint texts (f : format) (w : writer) (Js : list (list str * list (list Z))) : text :=
  match Js with
  | [] => []
  | J :: Js' => (if shown f (again w (fst J)) then ringt f (fst J) else []) ++ baret f (fst J) (snd J) ++ texts f (IW (fst J) false true) Js'
  end.
Lemma texts_gen f n fi a b Js : texts f (IW n fi a) Js = texts f (IW n fi b) Js.
Proof. destruct Js; reflexivity. Qed.
Lemma iw_ideals_common f : is_common f -> forall Js w, exists w', iw_ideals f w Js = Ok (w', texts f w Js) /\
  (iw_firstIdeal w' = match Js with [] => iw_firstIdeal w | _ => false end) /\ (Js = [] -> w' = w).
Proof.
  intros C. induction Js as [|J Js IH]; intros w; cbn [iw_ideals texts].
  - exists w. auto.
  - destruct (iw_ideal_common f w (fst J) (snd J) C) as [fg ->]. cbn [rbind]. destruct (IH (IW (fst J) false fg)) as [w' [-> [B _]]]. cbn [rbind].
    exists w'. rewrite (texts_gen _ _ _ fg true), app_rest. split; [reflexivity|]. split; [|discriminate]. rewrite B. now destruct Js.
Qed.
Lemma write_ideals_common f names Js : is_common f -> exists fg,
  write_ideals f names Js = Ok (match Js with [] => ringt f names | _ => texts f (IW names true fg) Js end).
Proof.
  intros C. unfold write_ideals. cbn [iw_run]. cbn [iw_step rbind]. cbn [iw_new iw_names iw_firstIdeal iw_firstGen].
  assert (exists fg, (if list_eq_dec str_dec [] names then Ok (IW [] true true, []) else Ok (IW names true true, [])) = Ok (IW names true fg, @nil ascii)) as [fg H].
  { destruct (list_eq_dec str_dec [] names) as [<-|]; eauto. }
  exists fg. rewrite H. cbn [rbind]. destruct (iw_ideals_common f C Js (IW names true fg)) as [w' [-> [B D]]]. cbn [rbind].
  destruct Js as [|J Js]; rewrite B.
  - rewrite D by auto. cbn [iw_firstIdeal iw_names]. rewrite empty_common by auto. reflexivity.
  - cbn [rbind]. now rewrite app_nil_r.
Qed.

(** ** Reading it back *)
Lemma ring_first f names rest : is_common f -> exists c r, ringt f names ++ rest = c :: r /\ isspace c = false /\
  forall s, eat s = c :: r -> fmt_peekRing f s = (true, c :: r).
Proof.
  intros [-> | [-> | [-> | ->]]]; cbn [ringt fmt_peekRing].
  - destruct (ring_name_ok names) as [_ [_ [[r0 ->] _]]]. eexists. eexists. split; [reflexivity|]. split; [reflexivity|].
    intros s E. unfold peek_two. rewrite (peek_char_yes "R" s _ E). now rewrite E.
  - eexists. eexists. split; [reflexivity|]. split; [reflexivity|]. intros s E. rewrite (peek_char_yes _ s _ E). now rewrite E.
  - unfold singular_writeRing. destruct names; (eexists; eexists; split; [reflexivity|]; split; [reflexivity|]; intros s E; unfold peek_two; rewrite (peek_char_yes _ s _ E); now rewrite E).
  - unfold cocoa_writeRing. destruct names; (eexists; eexists; split; [reflexivity|]; split; [reflexivity|]; intros s E; unfold peek_two; rewrite (peek_char_yes _ s _ E); now rewrite E).
Qed.
Lemma bare_first f names J rest : is_common f -> exists c r, baret f names J ++ rest = c :: r /\ isspace c = false /\
  forall s, eat s = c :: r -> fmt_peekRing f s = (false, c :: r).
Proof.
  assert (G : forall a b c r s, eat s = c :: r -> a <> c -> b <> c -> peek_two a b s = (false, c :: r)).
  { intros a b c r s E A B. unfold peek_two. rewrite peek_char_no by (rewrite E; cbn; congruence). rewrite peek_char_no by (rewrite eat_idem, E; cbn; congruence). now rewrite eat_idem, E. }
  intros [-> | [-> | [-> | ->]]]; unfold baret; cbn [bare_head fmt_peekRing]; (eexists; eexists; split; [reflexivity|]; split; [reflexivity|]); intros s E.
  - apply G; [exact E | discriminate | discriminate].
  - rewrite peek_char_no by (rewrite E; discriminate). now rewrite E.
  - apply G; [exact E | discriminate | discriminate].
  - apply G; [exact E | discriminate | discriminate].
Qed.
Definition readable (m : Z) (f : format) (J : list str * list (list Z)) : Prop := good_ideal J /\ format_fits m f (fst J) (snd J).
Lemma good_fine J : good_ideal J -> Forall (fine_term (fst J) false) (snd J).
Proof.
  intros [_ M]. unfold monomials in M. rewrite Forall_forall in *. intros t Ht. destruct (M t Ht). repeat split; auto. discriminate.
Qed.
Lemma fits_nil m f names J : is_common f -> format_fits m f names J -> format_fits m f names [].
Proof. intros [-> | [-> | [-> | ->]]]; auto. Qed.
Lemma big_ideals_ended names req done J ic : ended names req done J ic -> big_ideals ic = big_ideals (IC names None req done) ++ [(names, J)].
Proof. intros [K [-> [A _]]]. unfold big_ideals. cbn [ic_ideals map rev fst snd]. now rewrite A, rev_involutive. Qed.
Lemma ended_form names req done J ic : ended names req done J ic -> exists done', ic = IC names None req done'.
Proof. intros [K [-> _]]. eauto. Qed.

(** One ideal, after its ring *)
Lemma bare_step m f J done s rest : is_common f -> readable m f J -> eat s = eat (baret f (fst J) (snd J) ++ rest) ->
  exists done' r, fmt_readBareIdeal m f (IC (fst J) None false done) s = Ok (IC (fst J) None false done', r) /\
    big_ideals (IC (fst J) None false done') = big_ideals (IC (fst J) None false done) ++ [J] /\ eat r = eat rest.
Proof.
  intros C [G F] E. pose proof (good_fine J G) as FT. destruct G as [LN _].
  destruct (bare_read m (fst J) false done LN f (snd J) s rest C (fits_nil _ _ _ _ C F) FT E) as [ic' [r [A [B D]]]].
  destruct (ended_form _ _ _ _ _ B) as [done' ->]. exists done', r. split; [exact A|]. split; [|exact D].
  rewrite (big_ideals_ended _ _ _ _ _ B). now destruct J.
Qed.
Lemma more_read m f : is_common f -> forall Js w done s fuel, Forall (readable m f) Js -> iw_firstIdeal w = false -> eat s = eat (texts f w Js) -> List.length Js < fuel ->
  exists done', common_readMore m f fuel (IC (iw_names w) None false done) s = Ok (IC (last (map fst Js) (iw_names w)) None false done', []) /\
    forall n, big_ideals (IC n None false done') = big_ideals (IC n None false done) ++ Js.
Proof.
  intros C. induction Js as [|J Js IH]; intros w done s fuel F W E K; (destruct fuel as [|fuel]; [cbn in K; lia|]); cbn [common_readMore].
  - cbn [texts] in E. unfold hasMoreInput. rewrite E. cbn. exists done. split; auto. intros. now rewrite app_nil_r.
  - inversion F as [|? ? F1 F2]; subst. cbn [texts] in E. set (rest := texts f (IW (fst J) false true) Js) in *.
    assert (E2 : exists r, eat s = r /\ hasMoreInput s = (true, r) /\
       exists s', (match fmt_peekRing f r with
         | (true, s) => LET (names, s) := fmt_readRing m f s IN LET ic := consumeRing names (IC (iw_names w) None false done) IN Ok (ic, s)
         | (false, s) => Ok (IC (iw_names w) None false done, s)
         end) = Ok (IC (fst J) None false done, s') /\ eat s' = eat (baret f (fst J) (snd J) ++ rest)).
    { destruct (shown f (again w (fst J))) eqn:SH.
      - destruct (ring_first f (fst J) (baret f (fst J) (snd J) ++ rest) C) as [c [r [X1 [X2 X3]]]]. rewrite X1, eat_nonspace in E by auto.
        exists (c :: r). split; [exact E|]. split; [unfold hasMoreInput; now rewrite E|]. rewrite (X3 (c :: r)) by (now apply eat_nonspace).
        rewrite (ring_read m f (fst J) (c :: r) (baret f (fst J) (snd J) ++ rest)).
        + cbn [rbind consumeRing ic_cur]. eexists. split; [reflexivity|]. reflexivity.
        + exact C.
        + apply F1.
        + eapply fits_nil; [exact C | apply F1].
        + now rewrite X1.
      - cbn [app] in E. destruct (bare_first f (fst J) (snd J) rest C) as [c [r [X1 [X2 X3]]]]. rewrite X1, eat_nonspace in E by auto.
        exists (c :: r). split; [exact E|]. split; [unfold hasMoreInput; now rewrite E|]. rewrite (X3 (c :: r)) by (now apply eat_nonspace).
        exists (c :: r). rewrite X1. split; auto. do 2 f_equal.
        unfold again in SH. destruct (list_eq_dec str_dec (iw_names w) (fst J)) as [->|]; auto. destruct C as [-> | [-> | [-> | ->]]]; discriminate. }
    destruct E2 as [r [_ [-> [s' [-> Y]]]]]. cbn [rbind].
    destruct (bare_step m f J done s' rest C F1 Y) as [done' [r' [-> [B D]]]]. cbn [rbind].
    destruct (IH (IW (fst J) false true) done' r' fuel F2) as [done'' [Z1 Z2]]; auto; [cbn in K; lia|].
    cbn [iw_names] in Z1. exists done''. split.
    + rewrite Z1. do 3 f_equal. cbn [map]. destruct (map fst Js) as [|y l] eqn:EM; auto. cbn. clear. revert y. induction l; intros; auto. cbn in *. destruct l; auto.
    + intros n. rewrite Z2. specialize (B : big_ideals (IC (fst J) None false done') = _).
      change (big_ideals (IC n None false done')) with (big_ideals (IC (fst J) None false done')). rewrite B, <- app_assoc. reflexivity.
Qed.
Lemma texts_length f w Js : is_common f -> List.length Js <= List.length (texts f w Js).
Proof.
  intros C. revert w. induction Js as [|J Js IH]; intros w; cbn [texts List.length]; auto. rewrite !app_length. specialize (IH (IW (fst J) false true)).
  destruct (bare_first f (fst J) (snd J) [] C) as [c [r [X _]]]. rewrite app_nil_r in X. rewrite X. cbn [List.length]. lia.
Qed.

Lemma common_ideal m f names J : is_common f -> readable m f (names, J) ->
  exists file, write_ideal f names J = Ok file /\ read_ideal m f file = Ok (names, J).
Proof.
  intros C R. eexists. split; [now apply write_ideal_common|]. unfold read_ideal, handler_readIdeal.
  assert (exists done r, common_readIdeal m f ic_new (" "%char :: ringt f names ++ baret f names J) = Ok (IC names None false done, r) /\
     big_ideals (IC names None false done) = [(names, J)] /\ eat r = []) as [done [r [A [B D]]]].
  { unfold common_readIdeal. destruct R as [[G1 G2] R].
    rewrite (ring_read m f names (" "%char :: ringt f names ++ baret f names J) (baret f names J) C G1) by (eauto using fits_nil). cbn [rbind consumeRing ic_cur ic_new ic_require ic_ideals].
    destruct (bare_step m f (names, J) [] (nl :: baret f names J) [] C) as [done' [r [A [B D]]]]; [split; [split|]; auto| |].
    - cbn [fst snd]. now rewrite app_nil_r.
    - cbn [fst snd] in *. exists done', r. rewrite A. split; auto. }
  destruct C as [-> | [-> | [-> | ->]]]; rewrite A; cbn [rbind]; unfold expectEOF; rewrite D; cbn [rbind]; rewrite B; reflexivity.
Qed.
Lemma last_cons {A} (l : list A) : forall x d, last (x :: l) d = last l x.
Proof. induction l as [|y l IH]; intros x d; auto. change (last (x :: y :: l) d) with (last (y :: l) d). now rewrite !IH. Qed.
Lemma common_ideals m f names Js : is_common f -> legal_names names -> format_fits m f names [] -> Forall (readable m f) Js ->
  exists file, write_ideals f names Js = Ok file /\ read_ideals m f file = Ok (last (map fst Js) names, Js).
Proof.
  intros C L N R. destruct (write_ideals_common f names Js C) as [fg W]. eexists. split; [exact W|]. unfold read_ideals.
  assert (H : exists done, common_readIdeals m f ic_new (" "%char :: match Js with [] => ringt f names | _ => texts f (IW names true fg) Js end)
     = Ok (IC (last (map fst Js) names) None false done, []) /\ forall n, big_ideals (IC n None false done) = Js).
  { unfold common_readIdeals. destruct Js as [|J Js].
    - rewrite (ring_read m f names _ []) by (rewrite ?app_nil_r; auto). cbn. exists []. auto.
    - inversion R as [|? ? R1 R2]; subst. cbn [texts].
      assert (SH : shown f (again (IW names true fg) (fst J)) = true).
      { unfold again. cbn [iw_names iw_firstIdeal]. destruct (list_eq_dec str_dec names (fst J)); destruct C as [-> | [-> | [-> | ->]]]; reflexivity. }
      rewrite SH. set (rest := texts f (IW (fst J) false true) Js).
      rewrite (ring_read m f (fst J) _ (baret f (fst J) (snd J) ++ rest)); auto; [|apply R1|eapply fits_nil; [exact C|apply R1]].
      cbn [rbind consumeRing ic_cur ic_new ic_require ic_ideals].
      destruct (bare_first f (fst J) (snd J) rest C) as [c [r [X1 [X2 X3]]]].
      assert (hasMoreInput (nl :: baret f (fst J) (snd J) ++ rest) = (true, baret f (fst J) (snd J) ++ rest)) as ->.
      { unfold hasMoreInput. rewrite X1. change (eat (nl :: c :: r)) with (eat (c :: r)). now rewrite eat_nonspace. }
      destruct (bare_step m f J [] (baret f (fst J) (snd J) ++ rest) rest C R1 eq_refl) as [done' [r' [A [B D]]]]. rewrite A. cbn [rbind].
      destruct (more_read m f C Js (IW (fst J) false true) done' r' (S (List.length r')) R2) as [done'' [Z1 Z2]]; auto.
      + pose proof (texts_length f (IW (fst J) false true) Js C) as TL. fold rest in TL.
        assert (EL : List.length Js <= List.length (eat rest)).
        { unfold rest in *. destruct Js as [|J' Js']; [cbn; lia|].
          assert (eat (texts f (IW (fst J) false true) (J' :: Js')) = texts f (IW (fst J) false true) (J' :: Js')) as ->; auto.
          cbn [texts]. destruct (shown f (again (IW (fst J) false true) (fst J'))).
          - destruct (ring_first f (fst J') (baret f (fst J') (snd J') ++ texts f (IW (fst J') false true) Js') C) as [c' [q [Y1 [Y2 _]]]]. rewrite Y1. now apply eat_nonspace.
          - cbn [app]. destruct (bare_first f (fst J') (snd J') (texts f (IW (fst J') false true) Js') C) as [c' [q [Y1 [Y2 _]]]]. rewrite Y1. now apply eat_nonspace. }
        rewrite <- D in EL. pose proof (eat_le r'). lia.
      + exists done''. cbn [iw_names] in Z1. rewrite Z1. split.
        * cbn [map]. now rewrite last_cons.
        * intros n. rewrite Z2. change (big_ideals (IC n None false done')) with (big_ideals (IC (fst J) None false done')). now rewrite B. }
  destruct H as [done [A B]]. unfold handler_readIdeals. destruct C as [-> | [-> | [-> | ->]]]; rewrite A; cbn [rbind]; unfold expectEOF; cbn [eat rbind ic_names]; rewrite B; reflexivity.
Qed.
