(** Displaying text: proofs. *)
From Coq Require Import String Ascii.
From Coq Require Import List Arith Bool Lia.
Import ListNotations.
From Verif Require Import M_IO M_Display Spec_Display.
Local Notation length := List.length.

Lemma isspace_iff c : isspace c = true <-> space c.
Proof.
  unfold isspace, within, code, space. rewrite orb_true_iff, andb_true_iff, !Nat.leb_le, Nat.eqb_eq. tauto.
Qed.
Lemma isspace_false c : isspace c = false <-> ~ space c.
Proof. rewrite <- isspace_iff. destruct (isspace c); split; congruence. Qed.
Lemma newline_iff c : newline c = true <-> c = nl.
Proof. apply Ascii.eqb_eq. Qed.
Lemma newline_false c : newline c = false <-> c <> nl.
Proof. apply Ascii.eqb_neq. Qed.
Lemma nl_space : space nl.
Proof. right. cbn. lia. Qed.
Definition tail_ok (t : text) : Prop := t = [] \/ exists t', t = nl :: t'.
Lemma first_line (msg : text) : exists l t, msg = l ++ t /\ one_line l /\ tail_ok t.
Proof.
  induction msg as [|c msg (l & t & -> & H1 & H2)]; [exists [], []; split; [auto|split; [intros []|now left]]|].
  destruct (ascii_dec c nl) as [->|N]; [exists [], (nl :: l ++ t); split; [auto|split; [intros []|right; eauto]]|].
  exists (c :: l), t. split; auto. split; auto. intros [H|H]; auto.
Qed.
Lemma indentation l t : one_line l -> tail_ok t -> exists w l', l = w ++ l' /\ blank_text w /\ readIndentation (l ++ t) = (w, l' ++ t) /\ (l' = [] \/ exists c l'', l' = c :: l'' /\ ~ space c).
Proof.
  intros O T. induction l as [|c l IH].
  - exists [], []. split; auto. split; [split; [constructor|intros []]|]. split; auto. cbn [app]. destruct T as [->|[t' ->]]; reflexivity.
  - destruct (space_dec c) as [S|S].
    + destruct IH as (w & l' & -> & [W1 W2] & E & D); [intros H; apply O; now right|]. exists (c :: w), l'. split; auto.
      assert (N : c <> nl) by (intros ->; apply O; now left).
      split; [split; [constructor; auto|intros [H|H]; auto]|]. split; auto. cbn [app readIndentation].
      rewrite (proj2 (newline_false c) N), (proj2 (isspace_iff c) S), E. reflexivity.
    + exists [], (c :: l). split; auto. split; [split; [constructor|intros []]|]. split; [|right; eauto]. cbn [app readIndentation].
      rewrite (proj2 (isspace_false c) S), andb_false_r. reflexivity.
Qed.
Lemma first_word c l t : ~ space c -> one_line (c :: l) -> tail_ok t -> exists w l', c :: l = w ++ l' /\ a_word w /\ word_ends l' /\ readWord (c :: l ++ t) = (w, l' ++ t).
Proof.
  intros S O T. revert c S O. induction l as [|d l IH]; intros c S O.
  - exists [c], []. split; auto. split; [split; [discriminate|constructor; auto]|]. split; [exact Logic.I|]. cbn [app readWord].
    assert (N : c <> nl) by (intros ->; apply O; now left). rewrite (proj2 (newline_false c) N), (proj2 (isspace_false c) S). cbn [negb andb].
    destruct T as [->|[t' ->]]; reflexivity.
  - assert (N : c <> nl) by (intros ->; apply O; now left). destruct (space_dec d) as [D|D].
    + exists [c], (d :: l). split; auto. split; [split; [discriminate|constructor; auto]|]. split; [exact D|]. cbn [app readWord].
      rewrite (proj2 (newline_false c) N), (proj2 (isspace_false c) S), (proj2 (isspace_iff d) D). cbn [negb andb]. rewrite andb_false_r. reflexivity.
    + destruct (IH d D) as (w & l' & E & [W1 W2] & B & R); [intros H; apply O; now right|]. exists (c :: w), l'. split; [cbn [app]; now rewrite <- E|]. split; [split; [discriminate|constructor; auto]|].
      split; auto. cbn [app] in *. change (readWord (c :: d :: l ++ t)) with (if negb (newline c) && negb (isspace c) then let (w, rest) := readWord (d :: l ++ t) in (c :: w, rest) else ([], c :: d :: l ++ t)).
      rewrite (proj2 (newline_false c) N), (proj2 (isspace_false c) S), R. reflexivity.
Qed.
Lemma word_piece w : a_word w -> a_piece w.
Proof.
  intros [H1 H2]. split; [intros H; rewrite Forall_forall in H2; apply (H2 nl H), nl_space|].
  destruct w as [|c w]; [congruence|]. destruct (@exists_last _ (c :: w)) as (p'' & c' & E); [discriminate|]. exists c, w, c', p''. split; auto. split; auto.
  rewrite Forall_forall in H2. split; apply H2; [now left|]. rewrite E, in_app_iff. right. now left.
Qed.
Lemma piece_app p g w : a_piece p -> blank_text g -> a_word w -> a_piece (p ++ g ++ w).
Proof.
  intros [O (c & p' & c' & p'' & E1 & E2 & S1 & S2)] [G1 G2] W. pose proof (word_piece w W) as [O' (d & w' & d' & w'' & F1 & F2 & S3 & S4)].
  split; [unfold one_line in *; rewrite !in_app_iff; tauto|]. exists c, (p' ++ g ++ w), d', (p ++ g ++ w''). split; [now rewrite E1|]. split; [rewrite F2 at 1; now rewrite <- !app_assoc|]. auto.
Qed.
Lemma piece_not_nil p : a_piece p -> length p <> 0.
Proof. intros [_ (c & p' & _ & _ & -> & _)]. cbn. lia. Qed.

Section Line.
  Variables prefix indent : text.
  Let h := length prefix + length indent.
  Definition more (ps : list text) : text := concat (map (fun p => nl :: prefix ++ indent ++ p) ps).
  Lemma printLine_on fuel : forall p spaces l t, length l < fuel -> a_piece p -> has_room h p -> blank_text spaces -> one_line l -> tail_ok t -> (spaces = [] -> word_ends l) ->
    exists out q ps, printLine fuel prefix indent (h + length p) spaces (l ++ t) = Some (out, tl t) /\ broken h (p ++ spaces ++ l) (q :: ps) /\ p ++ out = q ++ more ps.
  Proof.
    induction fuel as [|fuel IH]; intros p spaces l t F P R B O T W; [lia|]. destruct l as [|c l].
    - exists [], p, []. rewrite !app_nil_r. split; [|split; [constructor; auto|reflexivity]]. destruct T as [->|[t' ->]]; reflexivity.
    - cbn [app printLine]. assert (N : c <> nl) by (intros ->; apply O; now left). rewrite (proj2 (newline_false c) N).
      assert (O' : one_line l) by (intros H; apply O; now right). cbn in F. destruct (space_dec c) as [S|S].
      + rewrite (proj2 (isspace_iff c) S). destruct (IH p (spaces ++ [c]) l t) as (out & q & ps & E & K & Q); auto; try lia.
        { destruct B as [B1 B2]. split; [apply Forall_app; split; auto|]. unfold one_line in *. rewrite in_app_iff. intros [H|[H|[]]]; auto. }
        { intros H. destruct spaces; discriminate. }
        exists out, q, ps. split; auto. split; auto. rewrite <- app_assoc in K. exact K.
      + rewrite (proj2 (isspace_false c) S). destruct (first_word c l t S O T) as (w & l' & E & Hw & We & Rw). rewrite Rw, E.
        assert (Ol : one_line l') by (intros H; apply O; rewrite E, in_app_iff; now right).
        assert (L : length l' < fuel). { apply (f_equal (@length _)) in E. rewrite app_length in E. cbn in E. destruct Hw as [Hw _]. destruct w; [congruence|]. cbn in E. lia. }
        assert (G : spaces <> []). { intros ->. specialize (W eq_refl). cbn in W. auto. }
        unfold printWord. pose proof (piece_not_nil p P) as Pl. destruct (Nat.eqb_spec (h + length p) 0); [lia|]. cbn [negb andb]. unfold consoleWidth.
        destruct (Nat.ltb_spec 79 (h + length p + (length w + length spaces))) as [X|X].
        * destruct (IH w [] l' t L (word_piece w Hw)) as (out & q & ps & E1 & K & Q); auto; [now right|split; [constructor|intros []]|].
          fold h. rewrite E1. eexists. exists p, (q :: ps). split; [reflexivity|]. split.
          -- cbn [app] in K. apply broken_on; auto. lia.
          -- unfold more. cbn [map concat]. fold (more ps). f_equal. cbn [app]. f_equal. rewrite <- !app_assoc. f_equal. f_equal. exact Q.
        * destruct (IH (p ++ spaces ++ w) [] l' t L (piece_app p spaces w P B Hw)) as (out & q & ps & E1 & K & Q); auto; [left; rewrite !app_length; lia|split; [constructor|intros []]|].
          rewrite !app_length in E1. replace (h + length p + length spaces + length w) with (h + (length p + (length spaces + length w))) by lia. rewrite E1.
          eexists. exists q, ps. split; [reflexivity|]. split; [cbn [app] in K; rewrite <- !app_assoc in K; exact K|]. rewrite <- Q, <- !app_assoc. reflexivity.
  Qed.
  (** From the first word *)
  Lemma printLine_first fuel c l t : length (c :: l) < fuel -> ~ space c -> one_line (c :: l) -> tail_ok t ->
    exists out w rest ps, printLine fuel prefix indent h [] (c :: l ++ t) = Some (out, tl t) /\ c :: l = w ++ rest /\ a_word w /\ word_ends rest /\ broken h (w ++ rest) ps /\
      (((h = 0 \/ h + length w <= 79) /\ exists q ps', ps = q :: ps' /\ out = q ++ more ps') \/ (h <> 0 /\ 79 < h + length w /\ out = more ps)).
  Proof.
    intros F S O T. destruct fuel as [|fuel]; [lia|]. cbn [printLine]. assert (N : c <> nl) by (intros ->; apply O; now left).
    rewrite (proj2 (newline_false c) N), (proj2 (isspace_false c) S). destruct (first_word c l t S O T) as (w & l' & E & Hw & We & Rw). rewrite Rw, E.
    assert (Ol : one_line l') by (intros H; apply O; rewrite E, in_app_iff; now right).
    assert (L : length l' < fuel). { apply (f_equal (@length _)) in E. rewrite app_length in E. cbn in E, F. destruct Hw as [Hw _]. destruct w; [congruence|]. cbn in E. lia. }
    destruct (printLine_on fuel w [] l' t L (word_piece w Hw)) as (out & q & ps & E1 & K & Q); auto; [now right|split; [constructor|intros []]|]. cbn [app] in K.
    unfold printWord. cbn [length]. rewrite Nat.add_0_r. unfold consoleWidth. destruct (negb (h =? 0) && (79 <? h + length w)) eqn:X.
    - fold h. rewrite E1. apply andb_true_iff in X. destruct X as [X1 X2]. apply negb_true_iff, Nat.eqb_neq in X1. apply Nat.ltb_lt in X2.
      eexists. exists w, l', (q :: ps). split; [reflexivity|]. split; auto. split; auto. split; auto. split; auto. right. split; auto. split; auto.
      unfold more. cbn [map concat app]. fold (more ps). f_equal. rewrite <- !app_assoc. f_equal. f_equal. exact Q.
    - rewrite Nat.add_0_r, E1. eexists. exists w, l', (q :: ps). split; [reflexivity|]. split; auto. split; auto. split; auto. split; auto. left. split.
      + apply andb_false_iff in X. destruct X as [X|X]; [apply negb_false_iff, Nat.eqb_eq in X; lia|apply Nat.ltb_ge in X; lia].
      + exists q, ps. split; auto.
  Qed.
End Line.
Lemma more_ended prefix indent q ps : prefix ++ indent ++ (q ++ more prefix indent ps) ++ [nl] = ended (map (app (prefix ++ indent)) (q :: ps)).
Proof.
  revert q. induction ps as [|x ps IH]; intros q; unfold ended; cbn [map concat].
  - unfold more. cbn. now rewrite !app_nil_r, <- !app_assoc.
  - specialize (IH x). unfold ended in IH. cbn [map concat] in IH. rewrite <- IH. unfold more. cbn [map concat]. rewrite <- !app_assoc. cbn [app]. rewrite <- !app_assoc. reflexivity.
Qed.
Lemma printer_displayed fuel : forall prefix msg, length msg < fuel -> exists out, printer fuel prefix msg = Some out /\ displayed prefix msg out.
Proof.
  induction fuel as [|fuel IH]; intros prefix msg F; [lia|]. destruct (first_line msg) as (l & t & -> & O & T).
  destruct (indentation l t O T) as (w & l' & -> & B & E & D).
  assert (X : w ++ l' ++ t = [] \/ w ++ l' ++ t <> []) by (destruct (w ++ l' ++ t); [now left|right; discriminate]).
  rewrite <- app_assoc in *. destruct X as [X|X]; [rewrite X; exists []; split; [reflexivity|constructor]|].
  cbn [printer]. destruct (w ++ l' ++ t) as [|m0 msg'] eqn:M; [congruence|]. rewrite E. rewrite <- M in *. clear M m0 msg'. destruct D as [->|(c & l'' & -> & NS)].
  - cbn [app] in *. rewrite app_nil_r in O. destruct T as [->|[t' ->]].
    + exists (prefix ++ w). split; auto. rewrite app_nil_r in *. apply displayed_space; auto.
    + rewrite (proj2 (newline_iff nl) eq_refl). destruct (IH prefix t') as (out & E1 & D1); [rewrite app_length in F; cbn in F; lia|]. rewrite E1. eexists. split; [reflexivity|].
      replace (prefix ++ w ++ nl :: out) with (ended [prefix ++ w] ++ out) by (unfold ended; cbn; rewrite <- !app_assoc; reflexivity). apply displayed_more; auto. now constructor.
  - cbn [app]. assert (O2 : one_line (c :: l'')) by (intros H; apply O; rewrite in_app_iff; now right).
    assert (N : c <> nl) by (intros ->; apply O2; now left). rewrite (proj2 (newline_false c) N).
    destruct (printLine_first prefix w (S (length (c :: l'' ++ t))) c l'' t) as (out & wd & rest & ps & E1 & Ew & Hw & We & K & Q); auto; [cbn; rewrite app_length; lia|].
    rewrite E1. destruct (IH prefix (tl t)) as (out' & E2 & D2). { rewrite !app_length in F. cbn in F. destruct t; cbn in *; lia. } rewrite E2. eexists. split; [reflexivity|].
    assert (HL : length (prefix ++ w) = length prefix + length w) by apply app_length.
    assert (LD : exists lines, line_displayed prefix (w ++ c :: l'') lines /\ prefix ++ w ++ out ++ [nl] = ended lines).
    { rewrite Ew. destruct Q as [[Q (q & ps' & -> & ->)]|(Q1 & Q2 & ->)].
      - exists (map (app (prefix ++ w)) (q :: ps')). split; [apply displayed_line; auto; rewrite HL; auto|apply more_ended].
        destruct Q as [Q|Q]; [left; apply length_zero_iff_nil; lia|now right].
      - exists ((prefix ++ w) :: map (app (prefix ++ w)) ps). split; [apply displayed_long; auto; rewrite ?HL; auto; intros H; apply Q1; rewrite <- HL, H; reflexivity|].
        rewrite <- (more_ended prefix w [] ps) || idtac. destruct ps as [|q ps']; [inversion K|]. unfold ended. cbn [map concat]. change (concat (map (fun l => l ++ [nl]) (map (app (prefix ++ w)) ps'))) with (ended (map (app (prefix ++ w)) ps')).
        pose proof (more_ended prefix w q ps') as ME. unfold ended in ME. cbn [map concat] in ME. unfold ended. rewrite <- ME. unfold more. cbn [map concat]. rewrite <- !app_assoc. cbn [app]. rewrite <- !app_assoc. reflexivity. }
    destruct LD as (lines & LD & EL).
    assert (NB : ~ blank_text (w ++ c :: l'')). { intros [H _]. apply Forall_app in H. destruct H as [_ H]. inversion H. auto. }
    destruct T as [->|[t' ->]].
    + cbn [tl] in *. cbn in E2. destruct fuel; [cbn in F; rewrite !app_length in F; cbn in F; lia|]. cbn in E2. injection E2 as <-. rewrite app_nil_r. rewrite EL. now apply displayed_last.
    + cbn [tl] in *. replace (prefix ++ w ++ out ++ nl :: out') with ((prefix ++ w ++ out ++ [nl]) ++ out') by (rewrite <- !app_assoc; reflexivity). rewrite EL.
      replace (w ++ c :: l'' ++ nl :: t') with ((w ++ c :: l'') ++ nl :: t') by (rewrite <- app_assoc; reflexivity). now apply displayed_more.
Qed.
Theorem p_display prefix msg : exists out, display prefix msg = Some out /\ displayed prefix msg out.
Proof. apply printer_displayed. lia. Qed.
