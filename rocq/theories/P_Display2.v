(** Displaying text: words, lengths of lines, and columns. *)
From Coq Require Import String Ascii.
From Coq Require Import List Arith Bool Lia.
Import ListNotations.
From Verif Require Import M_IO M_Display Spec_Display P_Display.
Local Notation length := List.length.

(** ** Words *)
Lemma words_space w p c t : space c -> words_after w (p ++ c :: t) = words_after w p ++ words_in t.
Proof.
  intros C. revert w. induction p as [|d p IH]; intros w; cbn [app words_after].
  - destruct (space_dec c); [|tauto]. destruct w; reflexivity.
  - destruct (space_dec d); [|apply IH]. destruct w; rewrite IH; reflexivity.
Qed.
Lemma words_blank w t : Forall space w -> words_in (w ++ t) = words_in t.
Proof.
  intros H. induction H as [|c w C _ IH]; auto. unfold words_in in *. cbn [app words_after]. destruct (space_dec c); [exact IH|tauto].
Qed.
Lemma words_none w : Forall space w -> words_in w = [].
Proof. intros H. rewrite <- (app_nil_r w). now rewrite words_blank. Qed.
Lemma words_end u t w : Forall space w -> words_after u (t ++ w) = words_after u t.
Proof.
  intros H. destruct w as [|c w]; [now rewrite app_nil_r|]. inversion H; subst. rewrite words_space by auto. rewrite words_none by auto. apply app_nil_r.
Qed.
Lemma words_gap p w t : Forall space w -> w <> [] -> words_in (p ++ w ++ t) = words_in p ++ words_in t.
Proof. intros H N. destruct w as [|c w]; [congruence|]. inversion H; subst. unfold words_in at 1. cbn [app]. rewrite words_space by auto. f_equal. now apply words_blank. Qed.
Lemma words_one u w : Forall (fun c => ~ space c) w -> u ++ w <> [] -> words_after u w = [u ++ w].
Proof.
  revert u. induction w as [|c w IH]; intros u H N; cbn [words_after].
  - rewrite app_nil_r in *. destruct u; congruence.
  - inversion H; subst. destruct (space_dec c); [tauto|]. rewrite IH; auto; rewrite <- app_assoc; auto.
Qed.
Lemma words_broken h t lines : broken h t lines -> concat (map words_in lines) = words_in t.
Proof.
  induction 1 as [p w P R [B _]|p w word rest lines P R N [B _] Hw We L K IH]; cbn [map concat].
  - rewrite app_nil_r. unfold words_in. now rewrite words_end.
  - rewrite IH. now rewrite words_gap.
Qed.
Lemma words_prefix u lines : Forall space u -> concat (map words_in (map (app u) lines)) = concat (map words_in lines).
Proof. intros H. rewrite map_map. f_equal. apply map_ext. intros l. now apply words_blank. Qed.
Lemma words_line prefix line lines : Forall space prefix -> line_displayed prefix line lines -> concat (map words_in lines) = words_in line.
Proof.
  intros S H. destruct H as [w [B _]|w word rest lines [B _] Hw We F K|w word rest lines [B _] Hw We N F K]; cbn [map concat];
    assert (SB : Forall space (prefix ++ w)) by (apply Forall_app; auto).
  - rewrite app_nil_r. now rewrite words_blank.
  - rewrite words_prefix, (words_broken _ _ _ K), (words_blank w); auto.
  - rewrite (words_none (prefix ++ w)), words_prefix, (words_broken _ _ _ K), (words_blank w); auto.
Qed.
Lemma words_ended lines t : words_in (ended lines ++ t) = concat (map words_in lines) ++ words_in t.
Proof.
  induction lines as [|l lines IH]; auto. unfold ended in *. cbn [map concat]. rewrite <- !app_assoc, <- IH. cbn [app]. unfold words_in at 1. rewrite words_space by exact nl_space. reflexivity.
Qed.
Lemma words_displayed prefix msg out : Forall space prefix -> displayed prefix msg out -> words_in out = words_in msg.
Proof.
  intros S. induction 1 as [|w N [B _]|line lines O NB D|line rest lines out O D K IH]; auto.
  - now rewrite words_blank.
  - pose proof (words_ended lines []) as E. rewrite app_nil_r in E. rewrite E, (words_line prefix line lines S D). apply app_nil_r.
  - rewrite words_ended, (words_line prefix line lines S D), IH. unfold words_in at 3. now rewrite words_space by exact nl_space.
Qed.
(** ** Lengths *)
Lemma lines_cons l t : one_line l -> lines_in (l ++ nl :: t) = l :: lines_in t.
Proof.
  induction l as [|c l IH]; intros H; cbn [app lines_in]; [destruct (ascii_dec nl nl); congruence|].
  destruct (ascii_dec c nl) as [->|N]; [exfalso; apply H; now left|]. rewrite IH by (intros X; apply H; now right). reflexivity.
Qed.
Lemma lines_one l : one_line l -> l <> [] -> lines_in l = [l].
Proof.
  induction l as [|c l IH]; intros H N; [congruence|]. cbn [lines_in]. destruct (ascii_dec c nl) as [->|M]; [exfalso; apply H; now left|].
  destruct l as [|d l]; [reflexivity|]. rewrite IH; [reflexivity|intros X; apply H; now right|discriminate].
Qed.
Lemma lines_ended lines t : Forall one_line lines -> lines_in (ended lines ++ t) = lines ++ lines_in t.
Proof.
  induction 1 as [|l lines O _ IH]; auto. unfold ended in *. cbn [map concat]. rewrite <- !app_assoc. cbn [app]. rewrite lines_cons by auto. now rewrite IH.
Qed.
Definition narrow (l : text) : Prop := length l <= 79 \/ length (words_in l) <= 1.
Lemma broken_narrow u t lines : Forall space u -> one_line u -> broken (length u) t lines -> Forall (fun l => one_line l /\ narrow l) (map (app u) lines).
Proof.
  intros S O H. assert (P : forall p, a_piece p -> has_room (length u) p -> one_line (u ++ p) /\ narrow (u ++ p)).
  { intros p [O2 _] [R|[R1 R2]]; (split; [unfold one_line in *; rewrite in_app_iff; tauto|]); [left; now rewrite app_length|]. right. rewrite words_blank by auto.
    unfold words_in. rewrite words_one; auto. }
  induction H; cbn [map]; constructor; auto.
Qed.
Lemma line_narrow prefix line lines : blank_text prefix -> line_displayed prefix line lines -> Forall (fun l => one_line l /\ narrow l) lines.
Proof.
  intros [S O] H. assert (B : forall w, blank_text w -> Forall space (prefix ++ w) /\ one_line (prefix ++ w)).
  { intros w [W1 W2]. split; [apply Forall_app; auto|]. unfold one_line in *. rewrite in_app_iff. tauto. }
  assert (Q : forall w, blank_text w -> one_line (prefix ++ w) /\ narrow (prefix ++ w)).
  { intros w W. destruct (B w W) as [B1 B2]. split; auto. right. rewrite words_none by auto. cbn. lia. }
  destruct H as [w W|w word rest lines W Hw We F K|w word rest lines W Hw We N F K]; destruct (B w W) as [B1 B2].
  - constructor; auto.
  - eapply broken_narrow; eauto.
  - constructor; auto. eapply broken_narrow; eauto.
Qed.
Lemma displayed_narrow prefix msg out : blank_text prefix -> displayed prefix msg out -> Forall narrow (lines_in out).
Proof.
  intros S. induction 1 as [|w N W|line lines O NB D|line rest lines out O D K IH]; [constructor| | |].
  - destruct S as [S1 S2], W as [W1 W2]. rewrite lines_one.
    + constructor; [|constructor]. right. rewrite words_none; [cbn; lia|]. apply Forall_app; auto.
    + unfold one_line in *. rewrite in_app_iff. tauto.
    + destruct prefix; [auto|discriminate].
  - pose proof (line_narrow _ _ _ S D) as L. pose proof (lines_ended lines []) as E. rewrite app_nil_r in E. rewrite E; [|eapply Forall_impl; [|exact L]; cbv beta; tauto].
    cbn [lines_in]. rewrite app_nil_r. eapply Forall_impl; [|exact L]. cbv beta. tauto.
  - pose proof (line_narrow _ _ _ S D) as L. rewrite lines_ended; [|eapply Forall_impl; [|exact L]; cbv beta; tauto]. apply Forall_app. split; auto.
    eapply Forall_impl; [|exact L]. cbv beta. tauto.
Qed.
Theorem p_words prefix msg out : Forall space prefix -> display prefix msg = Some out -> words_in out = words_in msg.
Proof. intros S E. destruct (p_display prefix msg) as (o & E1 & D). rewrite E in E1. injection E1 as <-. eapply words_displayed; eauto. Qed.
Theorem p_narrow prefix msg out l : blank_text prefix -> display prefix msg = Some out -> In l (lines_in out) -> length l <= 79 \/ length (words_in l) <= 1.
Proof.
  intros S E H. destruct (p_display prefix msg) as (o & E1 & D). rewrite E in E1. injection E1 as <-. apply displayed_narrow in D; auto. rewrite Forall_forall in D. now apply D.
Qed.
(** ** Lines that fit *)
Lemma line_unique l t l' t' : one_line l -> one_line l' -> l ++ nl :: t = l' ++ nl :: t' -> l = l' /\ t = t'.
Proof.
  revert l'. induction l as [|c l IH]; intros [|d l'] H H' E; cbn in E.
  - injection E as E. auto.
  - injection E as E1 E2. exfalso. apply H'. now left.
  - injection E as E1 E2. exfalso. apply H. now left.
  - injection E as E1 E2. subst d. destruct (IH l') as [-> ->]; auto; intros X; [apply H|apply H']; now right.
Qed.
Lemma app_last {A} (a b l : list A) x : a ++ b = l ++ [x] -> b <> [] -> exists b', b = b' ++ [x].
Proof.
  intros E N. destruct (exists_last N) as (b' & y & ->). rewrite app_assoc in E. apply app_inj_tail in E. destruct E as [_ <-]. eauto.
Qed.
Lemma broken_fits h t lines : broken h t lines -> h + length t <= 79 -> (exists l c, t = l ++ [c] /\ ~ space c) -> lines = [t].
Proof.
  intros H F (l & c & E & C). destruct H as [p w P R [B1 B2]|p w word rest lines P R N B Hw We L K].
  - f_equal. destruct w as [|d w]; [now rewrite app_nil_r|]. destruct (app_last p (d :: w) l c E) as (b' & X); [discriminate|]. rewrite X in B1. apply Forall_app in B1. destruct B1 as [_ B1]. inversion B1. tauto.
  - rewrite !app_length in F. lia.
Qed.
Lemma line_fits prefix line lines : line_displayed prefix line lines -> length prefix + length line <= 79 -> trimmed line -> lines = [prefix ++ line].
Proof.
  intros H F T. assert (N : forall w word rest, line = w ++ word ++ rest -> a_word word -> exists l c, word ++ rest = l ++ [c] /\ ~ space c).
  { intros w word rest -> [W1 W2]. destruct T as [[T _]|(O & c & l & T & C)].
    - apply Forall_app in T. destruct T as [_ T]. apply Forall_app in T. destruct T as [T _]. exfalso. destruct word; [auto|]. inversion T; inversion W2; subst; auto.
    - destruct (app_last w (word ++ rest) l c T) as (b' & X); [destruct word; [congruence|discriminate]|]. eauto. }
  destruct H as [w W|w word rest lines W Hw We G K|w word rest lines W Hw We M G K].
  - reflexivity.
  - rewrite (broken_fits _ _ _ K); [cbn; now rewrite <- app_assoc| |apply (N w); auto]. rewrite app_length. rewrite !app_length in F. rewrite app_length. lia.
  - rewrite !app_length in *. lia.
Qed.
Lemma displayed_fits prefix lines : Forall (fun l => length prefix + length l <= 79 /\ trimmed l) lines -> forall out, displayed prefix (ended lines) out -> out = ended (map (app prefix) lines).
Proof.
  induction 1 as [|l lines [F T] _ IH]; intros out D.
  - unfold ended in *. cbn [map concat] in *. inversion D as [E|w N W E|line ls O NB D1 E|line rest ls o O D1 K E]; subst; auto; [congruence|exfalso; apply NB; split; [constructor|intros []]|destruct line; discriminate].
  - assert (OL : one_line l) by (destruct T as [[_ T]|[T _]]; exact T).
    unfold ended in D. cbn [map concat] in D. rewrite <- app_assoc in D. cbn [app] in D. fold (ended lines) in D.
    remember (l ++ nl :: ended lines) as m eqn:M. destruct D as [|w N [_ W]|line ls O NB D1|line rest ls o O D1 K].
    + destruct l; discriminate.
    + exfalso. apply W. rewrite M, in_app_iff. right. now left.
    + exfalso. apply O. rewrite M, in_app_iff. right. now left.
    + apply line_unique in M; auto. destruct M as [-> ->]. rewrite (line_fits prefix l ls D1 F T). rewrite (IH o K). unfold ended. cbn [map concat]. now rewrite app_nil_r.
Qed.
Theorem p_fits prefix lines : Forall (fun l => length prefix + length l <= 79 /\ trimmed l) lines -> display prefix (ended lines) = Some (ended (map (app prefix) lines)).
Proof. intros H. destruct (p_display prefix (ended lines)) as (out & E & D). rewrite E. f_equal. now apply displayed_fits. Qed.
Theorem p_error_words msg out :
  (displayNote msg = Some out -> words_in out = lit "NOTE:" :: words_in msg) /\
  (displayError msg = Some out -> words_in out = lit "ERROR:" :: words_in msg) /\
  (displayInternalError msg = Some out -> words_in out = lit "INTERNAL" :: lit "ERROR:" :: words_in msg).
Proof.
  split; [|split]; intros E; apply p_words in E; try constructor; rewrite E.
  - change (lit "NOTE: " ++ msg ++ [nl]) with (lit "NOTE:" ++ [" "%char] ++ msg ++ [nl]). rewrite words_gap; [|repeat constructor; discriminate|discriminate].
    change (words_in (lit "NOTE:")) with [lit "NOTE:"]. cbn [app]. assert (Q : words_in (msg ++ [nl]) = words_in msg) by (unfold words_in; apply words_end; constructor; [exact nl_space|constructor]). now rewrite Q.
  - change (lit "ERROR: " ++ msg ++ [nl]) with (lit "ERROR:" ++ [" "%char] ++ msg ++ [nl]). rewrite words_gap; [|repeat constructor; discriminate|discriminate].
    change (words_in (lit "ERROR:")) with [lit "ERROR:"]. cbn [app]. assert (Q : words_in (msg ++ [nl]) = words_in msg) by (unfold words_in; apply words_end; constructor; [exact nl_space|constructor]). now rewrite Q.
  - change (lit "INTERNAL ERROR: " ++ msg ++ [nl]) with (lit "INTERNAL ERROR:" ++ [" "%char] ++ msg ++ [nl]). rewrite words_gap; [|repeat constructor; discriminate|discriminate].
    change (words_in (lit "INTERNAL ERROR:")) with [lit "INTERNAL"; lit "ERROR:"]. cbn [app]. assert (Q : words_in (msg ++ [nl]) = words_in msg) by (unfold words_in; apply words_end; constructor; [exact nl_space|constructor]). now rewrite Q.
Qed.
(** ** Columns *)
Lemma print_cell_spec s : fst (print_cell s) = hd [] (lines_in s) /\ lines_in (snd (print_cell s)) = tl (lines_in s).
Proof.
  induction s as [|c s [IH1 IH2]]; [auto|]. cbn [print_cell lines_in]. destruct (newline c) eqn:N.
  - apply newline_iff in N. subst c. destruct (ascii_dec nl nl); [auto|congruence].
  - apply newline_false in N. destruct (ascii_dec c nl); [congruence|]. destruct (print_cell s) as [out rest]. cbn [fst snd] in *. subst out. destruct (lines_in s) as [|l ls]; auto.
Qed.
Lemma width_spec s : getLineWidth s = length (hd [] (lines_in s)).
Proof.
  induction s as [|c s IH]; auto. cbn [getLineWidth lines_in]. destruct (newline c) eqn:N.
  - apply newline_iff in N. subst c. destruct (ascii_dec nl nl); [auto|congruence].
  - apply newline_false in N. destruct (ascii_dec c nl); [congruence|]. rewrite IH. destruct (lines_in s); auto.
Qed.
Lemma skip_spec s : match skipn (getLineWidth s) s with c :: s' => if newline c then s' else skipn (getLineWidth s) s | [] => [] end = snd (print_cell s).
Proof.
  induction s as [|c s IH]; auto. cbn [getLineWidth print_cell]. destruct (newline c) eqn:N.
  - cbn [skipn]. now rewrite N.
  - cbn [skipn]. destruct (print_cell s) as [out rest]. cbn [snd] in *. exact IH.
Qed.
Lemma cell_shorter s : s <> [] -> length (snd (print_cell s)) < length s.
Proof.
  induction s as [|c s IH]; intros N; [congruence|]. cbn [print_cell]. destruct (newline c); [cbn; lia|]. destruct s as [|d s].
  - cbn. lia.
  - assert (X : d :: s <> []) by discriminate. specialize (IH X). destruct (print_cell (d :: s)) as [out rest]. cbn [snd length] in *. lia.
Qed.
Lemma lines_length s : length (lines_in s) <= length s.
Proof. induction s as [|c s IH]; auto. cbn [lines_in length]. destruct (ascii_dec c nl); [cbn; lia|]. destruct (lines_in s); cbn in *; lia. Qed.
Lemma lines_nil s : lines_in s = [] -> s = [].
Proof. destruct s as [|c s]; auto. cbn [lines_in]. destruct (ascii_dec c nl); [discriminate|]. destruct (lines_in s); discriminate. Qed.
Lemma column_width_spec fuel : forall m s, length s < fuel -> column_width fuel m s = Some (Nat.max m (list_max (map (@length ascii) (lines_in s)))).
Proof.
  induction fuel as [|fuel IH]; intros m s F; [lia|]. cbn [column_width]. destruct s as [|c s]; [cbn; f_equal; lia|].
  assert (X : c :: s <> []) by discriminate. pose proof (cell_shorter _ X) as S. pose proof (print_cell_spec (c :: s)) as [_ P]. pose proof (skip_spec (c :: s)) as K.
  pose proof (width_spec (c :: s)) as W.
  set (t := c :: s) in *. clearbody t. assert (E : match skipn (getLineWidth t) t with c :: s' => if newline c then s' else skipn (getLineWidth t) t | [] => skipn (getLineWidth t) t end = snd (print_cell t)).
  { destruct (skipn (getLineWidth t) t); auto. }
  rewrite E, IH by lia. f_equal. rewrite P, W. destruct (lines_in t) as [|l ls] eqn:L; [now apply lines_nil in L|]. cbn [hd tl map list_max fold_right]. fold (list_max (map (@length ascii) ls)).
  destruct (Nat.ltb_spec m (length l)); lia.
Qed.
Lemma with_widths_spec cols : with_widths cols = Some (map (fun c => (c, width c, col_text c)) cols).
Proof. induction cols as [|c cols IH]; auto. cbn [with_widths map]. rewrite column_width_spec by lia. rewrite IH. reflexivity. Qed.
(** After [i] rows *)
Lemma tl_skipn (A : Type) i : forall c : list A, tl (skipn i c) = skipn (S i) c.
Proof. induction i as [|i IH]; intros [|x c]; auto. exact (IH c). Qed.
Lemma print_row_spec i l : Forall (fun x => snd (fst x) = width (fst (fst x)) /\ lines_in (snd x) = skipn i (cells (fst (fst x)))) l ->
  fst (print_row l) = concat (map (cell_text i) (map (fun x => fst (fst x)) l)) /\
  map (fun x => fst (fst x)) (snd (print_row l)) = map (fun x => fst (fst x)) l /\
  Forall (fun x => snd (fst x) = width (fst (fst x)) /\ lines_in (snd x) = skipn (S i) (cells (fst (fst x)))) (snd (print_row l)).
Proof.
  induction 1 as [|[[col w] s] l [H1 H2] _ (IH1 & IH2 & IH3)]; [repeat split; constructor|]. cbn [fst snd] in *. cbn [print_row].
  pose proof (print_cell_spec s) as [P1 P2]. pose proof (width_spec s) as W. destruct (print_cell s) as [cell rest]. destruct (print_row l) as [out l']. cbn [fst snd map concat] in *.
  assert (N : hd [] (lines_in s) = nth i (cells col) []). { rewrite H2. generalize (cells col). clear. induction i as [|i IH]; intros [|x c]; auto. apply IH. }
  split; [|split].
  - rewrite IH1. unfold cell_text, padding, printSpaces. rewrite W, P1, N, H1. destruct (flushLeft col); rewrite <- ?app_assoc; reflexivity.
  - now rewrite IH2.
  - constructor; auto. cbn [fst snd]. split; auto. rewrite P2, H2. apply tl_skipn.
Qed.
Lemma print_rows_spec fuel : forall i prefix l, Forall (fun x => snd (fst x) = width (fst (fst x)) /\ lines_in (snd x) = skipn i (cells (fst (fst x)))) l ->
  row_count (map (fun x => fst (fst x)) l) - i < fuel ->
  print_rows fuel prefix l = Some (ended (map (row_line prefix (map (fun x => fst (fst x)) l)) (seq i (row_count (map (fun x => fst (fst x)) l) - i)))).
Proof.
  induction fuel as [|fuel IH]; intros i prefix l H F; [lia|]. cbn [print_rows].
  assert (D : forallb (fun c : column * nat * text => match snd c with [] => true | _ => false end) l = true <-> row_count (map (fun x => fst (fst x)) l) <= i).
  { clear F IH. unfold row_count. induction H as [|[[col w] s] l [_ H2] _ IH]; [cbn; split; auto; lia|]. cbn [forallb map list_max fold_right snd fst] in *. fold (list_max (map (fun c => length (cells c)) (map (fun x : column * nat * text => fst (fst x)) l))).
    rewrite andb_true_iff, IH. assert (X : match s with [] => true | _ :: _ => false end = true <-> length (cells col) <= i).
    { destruct s as [|c s].
      - cbn in H2. symmetry in H2. split; auto. intros _. apply (f_equal (@length _)) in H2. rewrite skipn_length in H2. cbn in H2. lia.
      - split; [discriminate|]. intros L. rewrite skipn_all2 in H2 by exact L. now apply lines_nil in H2. }
    rewrite X. unfold list_max. lia. }
  destruct (forallb _ l).
  - rewrite (proj2 (Nat.sub_0_le _ _) (proj1 D eq_refl)). reflexivity.
  - assert (N : i < row_count (map (fun x => fst (fst x)) l)). { destruct (Nat.lt_ge_cases i (row_count (map (fun x => fst (fst x)) l))); auto. apply D in H0. discriminate. }
    destruct (print_row_spec i l H) as (R1 & R2 & R3). destruct (print_row l) as [row l']. cbn [fst snd] in *. rewrite (IH (S i) prefix l' R3); [|rewrite R2; lia]. rewrite R2.
    replace (row_count (map (fun x => fst (fst x)) l) - i) with (S (row_count (map (fun x => fst (fst x)) l) - S i)) by lia. cbn [seq map]. unfold ended at 2. cbn [map concat]. fold (ended (map (row_line prefix (map (fun x => fst (fst x)) l)) (seq (S i) (row_count (map (fun x => fst (fst x)) l) - S i)))).
    unfold row_line at 2. rewrite R1, <- !app_assoc. reflexivity.
Qed.
Lemma rows_bound cols : row_count cols <= length (concat (map col_text cols)).
Proof.
  unfold row_count. induction cols as [|c cols IH]; [auto|]. cbn [map list_max fold_right concat]. rewrite app_length. pose proof (lines_length (col_text c)) as L. unfold cells at 1. unfold list_max in IH. lia.
Qed.
Theorem p_columns prefix cols : print_columns prefix cols = Some (ended (map (row_line prefix cols) (seq 0 (row_count cols)))).
Proof.
  unfold print_columns. rewrite with_widths_spec. rewrite (print_rows_spec _ 0).
  - assert (E : map (fun x : column * nat * text => fst (fst x)) (map (fun c => (c, width c, col_text c)) cols) = cols) by (rewrite map_map; cbn; apply map_id). rewrite E, Nat.sub_0_r. reflexivity.
  - apply Forall_forall. intros x H. apply in_map_iff in H. destruct H as (c & <- & _). auto.
  - rewrite map_map. cbn [fst]. rewrite map_id. pose proof (rows_bound cols). lia.
Qed.
Lemma cell_width c i : length (cell_text i c) = length (col_prefix c) + width c + length (col_suffix c).
Proof.
  unfold cell_text, padding. set (cell := nth i (cells c) []). assert (L : length cell <= width c).
  { unfold cell, width. destruct (Nat.lt_ge_cases i (length (cells c))) as [H|H]; [|rewrite nth_overflow by exact H; cbn; lia].
    pose proof (list_max_le (map (@length ascii) (cells c)) (list_max (map (@length ascii) (cells c)))) as [K _]. specialize (K (le_n _)). rewrite Forall_forall in K.
    apply K, in_map_iff. exists (nth i (cells c) []). split; auto. now apply nth_In. }
  destruct (flushLeft c); rewrite !app_length, repeat_length; lia.
Qed.
Theorem p_aligned prefix cols i j : length (row_line prefix cols i) = length (row_line prefix cols j).
Proof.
  unfold row_line. rewrite !app_length. f_equal. induction cols as [|c cols IH]; auto. cbn [map concat]. rewrite !app_length, IH, !cell_width. reflexivity.
Qed.
