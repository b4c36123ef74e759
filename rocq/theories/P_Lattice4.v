(** The action latformat: reading and writing. *)
From Coq Require Import String Ascii.
From Coq Require Import List Arith Bool ZArith NArith Lia DecimalNat DecimalPos.
Import ListNotations.
From Verif Require Import M_Names M_IO Spec_IO Spec_Frob P_IO P_IO3 P_IO7 P_IO8 P_IOPoly P_IOPoly3 P_Frob2 P_Cli9 M_Lattice P_Lattice2.
From Verif Require Import Spec Spec_Lattice.
Local Notation length := List.length.

(** ** Writing *)
Lemma row_text_spaced row : row_text [] row = spaced row.
Proof.
  assert (G : forall row, row_text (lit " ") row = concat (map (fun z => " "%char :: z_str z) row)).
  { induction row0 as [|z row0 IH]; cbn [row_text map concat]; auto. rewrite IH. reflexivity. }
  destruct row as [|z row]; cbn [row_text spaced app]; auto. now rewrite G.
Qed.
Lemma nat_z n : nat_str n = z_str (Z.of_nat n).
Proof.
  assert (G : DecimalNat.Unsigned.to_lu n = DecimalPos.Unsigned.to_lu (N.of_nat n)).
  { induction n as [|m IH]; [reflexivity|]. rewrite DecimalNat.Unsigned.to_lu_succ, IH, Nat2N.inj_succ, DecimalPos.Unsigned.to_lu_succ. reflexivity. }
  unfold nat_str. rewrite DecimalNat.Unsigned.to_uint_alt, G. destruct n as [|m]; reflexivity.
Qed.
Lemma write_4ti2 n rows : fourti2_writeLattice (n, rows) = text_4ti2 n rows.
Proof.
  unfold fourti2_writeLattice, text_4ti2. cbn [fst snd spaced map concat]. rewrite !nat_z, !app_nil_r, <- !app_assoc. cbn [app]. f_equal. cbn [app lit String.list_ascii_of_string]. f_equal. f_equal. f_equal. f_equal.
  apply map_ext. intros row. now rewrite row_text_spaced.
Qed.
Lemma write_fplll n rows : fplll_writeLattice (n, rows) = text_fplll rows.
Proof.
  unfold fplll_writeLattice, text_fplll. cbn [fst snd]. rewrite (map_ext (fun row => lit " [" ++ row_text [] row ++ lit "]" ++ [nl]) (fun row => [" "; "["]%char ++ spaced row ++ ["]"%char; nl])); [reflexivity|].
  intros row. rewrite row_text_spaced. reflexivity.
Qed.

(** ** Reading *)
Lemma white_spaces w : white w -> spaces w.
Proof. apply Forall_impl. intros c H. unfold isspace, within. destruct H as [H|H]; [rewrite H; reflexivity|]. apply orb_true_iff. left. apply andb_true_iff. rewrite !Nat.leb_le. lia. Qed.

(** Texts of 4ti2 are sequences of numbers *)
Lemma number_cons z ns w t : blank w -> number_text ns t -> number_text (z :: ns) (z_str z ++ w ++ t).
Proof. intros B (bs & L & F & ->). exists (w :: bs). split; [cbn; congruence|]. split; [constructor; auto|]. cbn [combine map concat fst snd]. now rewrite <- app_assoc. Qed.
Definition after_white (ns : list Z) (t : text) : Prop := exists w t', white w /\ t = w ++ t' /\ number_text ns t'.
Lemma blank_nl w : white w -> blank (nl :: w).
Proof. intros W. split; [discriminate|]. constructor; [cbn; lia|exact W]. Qed.
Lemma spaced_number : forall row z rest t, after_white rest t -> number_text ((z :: row) ++ rest) (spaced (z :: row) ++ nl :: t).
Proof.
  induction row as [|y row IH]; intros z rest t A.
  - destruct A as (w & t' & W & -> & N). cbn [spaced map concat app]. rewrite app_nil_r. change (nl :: w ++ t') with ((nl :: w) ++ t'). apply number_cons; auto using blank_nl.
  - change (spaced (z :: y :: row)) with (z_str z ++ [" "%char] ++ spaced (y :: row)). rewrite <- !app_assoc. cbn [app]. change (" "%char :: spaced (y :: row) ++ nl :: t) with ([" "%char] ++ spaced (y :: row) ++ nl :: t).
    apply number_cons; [split; [discriminate|repeat constructor; cbn; lia]|]. apply IH. exact A.
Qed.
Lemma after_row row rest t : after_white rest t -> after_white (row ++ rest) (spaced row ++ [nl] ++ t).
Proof.
  intros A. destruct row as [|z row].
  - destruct A as (w & t' & W & -> & N). exists (nl :: w), t'. split; [apply blank_nl; auto|]. auto.
  - exists [], (spaced (z :: row) ++ [nl] ++ t). split; [constructor|]. split; [reflexivity|]. apply spaced_number. exact A.
Qed.
Lemma number_nil : number_text [] [].
Proof. exists []. auto. Qed.
Lemma text_numbers n rows : number_text (Z.of_nat (length rows) :: Z.of_nat n :: concat rows) (text_4ti2 n rows).
Proof.
  unfold text_4ti2. change (Z.of_nat (length rows) :: Z.of_nat n :: concat rows) with ([Z.of_nat (length rows); Z.of_nat n] ++ concat rows). apply spaced_number.
  induction rows as [|row rows IH]; cbn [map concat]; [exists [], []; split; [constructor|split; [reflexivity|exact number_nil]]|]. rewrite <- app_assoc. now apply after_row.
Qed.

(** fplll *)
Lemma z_not_bracket z r : hd_error (z_str z ++ r) <> Some "]"%char.
Proof.
  destruct (Z.ltb_spec z 0) as [L|L]; [rewrite z_str_neg by auto; discriminate|]. destruct (z_str_digits z L) as [D N]. destruct (z_str z) as [|c q]; [congruence|]. cbn [app hd_error].
  inversion D as [|? ? D1 _]; subst. intros X. injection X as ->. discriminate D1.
Qed.
Lemma z_nonempty z : 0 < length (z_str z).
Proof. destruct (Z.ltb_spec z 0) as [L|L]; [rewrite z_str_neg by auto; cbn; lia|]. destruct (z_str_digits z L) as [_ N]. destruct (z_str z); [congruence|cbn; lia]. Qed.
Lemma row_length row t : fplll_row row t -> length row < length t.
Proof. intros H. induction H as [w W|z row w t W H IH N]; rewrite ?app_length; cbn [length]; [lia|]. pose proof (z_nonempty z). lia. Qed.
Lemma row_stop row t rest : fplll_row row t -> no_digit_first t -> stop isdigit (t ++ rest).
Proof.
  intros H N. pose proof (row_length _ _ H). destruct t as [|c t]; [cbn in *; lia|]. cbn [app stop no_digit_first] in *. unfold isdigit, within.
  destruct (Nat.leb_spec 48 (code c)), (Nat.leb_spec (code c) 57); auto. exfalso. apply N. auto.
Qed.
Lemma read_row : forall row t, fplll_row row t -> forall fuel rest, length row < fuel -> fplll_readRow fuel (t ++ rest) = Ok (row, rest).
Proof.
  intros row t H. induction H as [w W|z row w t W H IH N]; intros fuel rest K; (destruct fuel as [|fuel]; [cbn in K; lia|]); cbn [fplll_readRow].
  - rewrite (match_char_yes _ _ rest); [reflexivity|]. rewrite <- app_assoc, eat_blank by (now apply white_spaces). reflexivity.
  - assert (E : eat ((w ++ z_str z ++ t) ++ rest) = z_str z ++ t ++ rest) by (rewrite <- !app_assoc, eat_blank by (now apply white_spaces); apply eat_zany).
    rewrite match_char_no by (rewrite E; apply z_not_bracket). rewrite E. rewrite (readInteger_any z _ (t ++ rest)) by (try apply eat_zany; eapply row_stop; eauto). cbn [rbind].
    rewrite IH by (cbn in K; lia). reflexivity.
Qed.
Lemma read_rows n : forall rows t, fplll_rows rows t -> forall tmp fuel, has_columns n (tmp ++ rows) -> length t < fuel -> exists w, white w /\ fplll_readRows fuel tmp t = Ok (tmp ++ rows, w).
Proof.
  intros rows t H. induction H as [w w' W W'|row rows w t t' W R H IH]; intros tmp fuel C K; (destruct fuel as [|fuel]; [lia|]); cbn [fplll_readRows].
  - exists w'. split; auto. rewrite (match_char_yes _ _ w') by (rewrite eat_blank by (now apply white_spaces); reflexivity). now rewrite app_nil_r.
  - assert (E : eat (w ++ ["["%char] ++ t ++ t') = "["%char :: t ++ t') by (rewrite eat_blank by (now apply white_spaces); reflexivity).
    rewrite match_char_no by (rewrite E; discriminate). rewrite E. rewrite (expect_char_yes _ _ (t ++ t')) by reflexivity. cbn [rbind].
    rewrite !app_length in K. cbn [length] in K. pose proof (row_length _ _ R). rewrite (read_row _ _ R) by lia. cbn [rbind]. cbv zeta.
    assert (C' : has_columns n ((tmp ++ [row]) ++ rows)) by (rewrite <- app_assoc; exact C).
    assert ((length (nth 0 (tmp ++ [row]) []) =? length row) = true) as ->.
    { apply Nat.eqb_eq. unfold has_columns in C'. rewrite Forall_forall in C'. transitivity n; [|symmetry]; apply C'; apply in_or_app; left; [apply nth_In; rewrite app_length; cbn; lia|apply in_or_app; right; left; reflexivity]. }
    destruct (IH (tmp ++ [row]) fuel C' ltac:(lia)) as (w2 & W2 & E2). exists w2. split; auto. rewrite E2. now rewrite <- app_assoc.
Qed.
Lemma white_rows w rows t : white w -> fplll_rows rows t -> fplll_rows rows (w ++ t).
Proof.
  intros W H. destruct H as [w1 w' W1 W'|row rows w1 t t' W1 R H]; rewrite app_assoc; constructor; auto; apply Forall_app; auto.
Qed.
Lemma white_row w row t : white w -> fplll_row row t -> fplll_row row (w ++ t).
Proof. intros W H. destruct H as [w1 W1|z row w1 t W1 R N]; rewrite app_assoc; constructor; auto; apply Forall_app; auto. Qed.
Lemma row_after : forall row z, fplll_row (z :: row) (spaced (z :: row) ++ ["]"%char]).
Proof.
  induction row as [|y row IH]; intros z.
  - change (spaced [z] ++ ["]"%char]) with ([] ++ (z_str z ++ []) ++ ["]"%char]). rewrite app_nil_r. constructor; [constructor| |cbn; lia]. apply (row_end []). constructor.
  - change (spaced (z :: y :: row) ++ ["]"%char]) with ([] ++ (z_str z ++ " "%char :: spaced (y :: row)) ++ ["]"%char]). rewrite <- app_assoc. constructor; [constructor| |cbn; lia].
    cbn [app]. change (" "%char :: spaced (y :: row) ++ ["]"%char]) with ([" "%char] ++ spaced (y :: row) ++ ["]"%char]). apply white_row; [repeat constructor|apply IH].
Qed.
Lemma row_spaced row : fplll_row row (spaced row ++ ["]"%char]).
Proof. destruct row as [|z row]; [apply (row_end []); constructor|apply row_after]. Qed.
Lemma text_fplll_file rows : fplll_file rows (text_fplll rows).
Proof.
  exists [], (nl :: concat (map (fun row => [" "; "["]%char ++ spaced row ++ ["]"%char; nl]) rows) ++ ["]"%char; nl]). split; [constructor|]. split; [|reflexivity].
  assert (Wn : white [nl]) by (repeat constructor; cbn; lia).
  induction rows as [|row rows IH]; cbn [map concat].
  - apply (rows_end [nl] [nl]); auto.
  - match goal with |- fplll_rows _ ?x => replace x with
      ([nl; " "%char] ++ ["["%char] ++ (spaced row ++ ["]"%char]) ++ (nl :: concat (map (fun row => [" "; "["]%char ++ spaced row ++ ["]"%char; nl]) rows) ++ ["]"%char; nl])) end.
    + constructor; auto using row_spaced. repeat constructor; cbn; lia.
    + cbn [app]. rewrite <- !app_assoc. reflexivity.
Qed.
Lemma p_text_file format n rows : lattice_file format n rows (lattice_text format n rows).
Proof. unfold lattice_file, lattice_text. destruct (str_dec format (lit "fplll")); [apply text_fplll_file|apply text_numbers]. Qed.

(** ** latformat *)
Definition named (name : str) : lattice_format := if str_dec name (lit "fplll") then Lfplll else L4ti2.
Lemma named_ok name : In name lattice_formats -> lattice_format_named name = Ok (named name).
Proof. intros [<-|[<-|[]]]; reflexivity. Qed.
Lemma named_bad name : ~ In name lattice_formats -> lattice_format_named name = OtherError.
Proof.
  intros H. unfold lattice_format_named. destruct (str_dec name (lit "4ti2")) as [->|_]; [destruct H; left; reflexivity|].
  destruct (str_dec name (lit "fplll")) as [->|_]; [destruct H; right; left; reflexivity|]. reflexivity.
Qed.
Lemma write_named name n rows : writeLattice (named name) (n, rows) = lattice_text name n rows.
Proof. unfold named, lattice_text. destruct (str_dec name (lit "fplll")); [apply write_fplll|apply write_4ti2]. Qed.
Lemma read_named max name n rows file : In name lattice_formats -> shape_known max name n rows -> lattice_file name n rows file ->
  exists r, readLattice max (named name) (" "%char :: file) = Ok ((n, rows), r) /\ eat r = [].
Proof.
  intros F (C & Sh) H. unfold named, lattice_file in *. destruct (str_dec name (lit "fplll")); cbn [readLattice].
  - destruct H as (w & t & W & R & ->). unfold fplll_readLattice. rewrite (expect_char_yes _ _ t).
    2:{ change (" "%char :: w ++ ["["%char] ++ t) with ((" "%char :: w) ++ ["["%char] ++ t). rewrite eat_blank; [reflexivity|]. constructor; [reflexivity|]. now apply white_spaces. }
    cbn [rbind]. destruct (read_rows n rows t R [] (S (length t)) C ltac:(lia)) as (w' & W' & E). rewrite E. cbn [rbind app]. exists w'. split.
    + do 3 f_equal. destruct rows as [|row rows]; [symmetry; auto|]. inversion C; auto.
    + pose proof (eat_blank w' [] (white_spaces _ W')) as X. rewrite app_nil_r in X. exact X.
  - apply file_nt in H. unfold fourti2_readLattice. destruct (nt_size max _ _ _ H) as (r1 & E1 & T1); [lia|]. rewrite E1. cbn [rbind]. rewrite Nat2Z.id.
    destruct (nt_size max _ _ _ T1) as (r2 & E2 & T2); [lia|]. rewrite E2. cbn [rbind]. rewrite Nat2Z.id. rewrite <- (app_nil_r (concat rows)) in T2.
    destruct (nt_rows n rows [] _ C T2) as (r3 & E3 & T3). rewrite E3. cbn [rbind]. exists r3. split; auto. inversion T3 as [w W|]; subst. pose proof (eat_blank r3 [] W) as X. rewrite app_nil_r in X. exact X.
Qed.
Lemma latformat_read max iformat oformat zero file n rows : In iformat lattice_formats -> In (output_lattice_format iformat oformat) lattice_formats ->
  shape_known max iformat n rows -> lattice_file iformat n rows file ->
  latformat_print max iformat oformat zero file = (LET rows' := (if zero then makeZeroes rows else Ok rows) IN Ok (lattice_text (output_lattice_format iformat oformat) n rows')).
Proof.
  intros Fi Fo S H. unfold latformat_print. cbv zeta. fold (output_lattice_format iformat oformat). rewrite (named_ok iformat) by auto. cbn [rbind]. rewrite (named_ok _ Fo). cbn [rbind].
  destruct (read_named max iformat n rows file Fi S H) as (r & E & E'). rewrite E. cbn [rbind]. unfold expectEOF. rewrite E'. cbn [rbind snd fst].
  destruct (if zero then makeZeroes rows else Ok rows); cbn [rbind]; auto. now rewrite write_named.
Qed.
Lemma p_latformat max iformat oformat file n rows : In iformat lattice_formats -> In (output_lattice_format iformat oformat) lattice_formats ->
  shape_known max iformat n rows -> lattice_file iformat n rows file ->
  latformat_print max iformat oformat false file = Ok (lattice_text (output_lattice_format iformat oformat) n rows).
Proof. intros. erewrite latformat_read by eauto. reflexivity. Qed.
Lemma p_latformat_unknown max iformat oformat zero file : ~ In iformat lattice_formats \/ ~ In (output_lattice_format iformat oformat) lattice_formats ->
  latformat_print max iformat oformat zero file = OtherError.
Proof.
  intros H. unfold latformat_print. cbv zeta. fold (output_lattice_format iformat oformat).
  destruct (in_dec str_dec iformat lattice_formats) as [A|A]; [|now rewrite named_bad].
  rewrite (named_ok _ A). cbn [rbind]. destruct H as [H|H]; [contradiction|]. now rewrite named_bad.
Qed.

(** ** Every file *)
Lemma row_gd : forall k s, gd (fun p => length (fst p) = k /\ length (snd p) <= length s) (readRow k s).
Proof.
  induction k as [|k IH]; intros s; cbn [readRow]; [split; auto|]. eapply gd_bind; [apply readInteger_gd|]. intros [z r] H. cbn [snd] in H.
  eapply gd_bind; [apply IH|]. intros [v r'] (A & B). cbn [gd fst snd length] in *. split; [congruence|lia].
Qed.
Lemma rows_gd n : forall k s, gd (fun p => has_columns n (fst p)) (readRows k n s).
Proof.
  induction k as [|k IH]; intros s; cbn [readRows]; [constructor|]. eapply gd_bind; [apply row_gd|]. intros [z r] (H & _).
  eapply gd_bind; [apply IH|]. intros [v r'] A. cbn [gd fst snd] in *. constructor; auto.
Qed.
Lemma fplll_row_gd : forall fuel s, length s < fuel -> gd (fun p => length (snd p) < length s) (fplll_readRow fuel s).
Proof.
  induction fuel as [|fuel IH]; intros s K; [lia|]. cbn [fplll_readRow]. destruct (match_char "]" s) as [[|] q] eqn:M; destruct (match_char_small _ _ _ _ M) as (A & B).
  - cbn [gd snd]. auto.
  - eapply gd_bind; [apply readInteger_gd|]. intros [z r] H. cbn [snd] in H. eapply gd_bind; [apply IH; lia|]. intros [v r'] H'. cbn [gd snd] in *. lia.
Qed.
Lemma fplll_rows_gd : forall fuel tmp s, length s < fuel -> has_columns (length (nth 0 tmp [])) tmp -> gd (fun p => has_columns (match fst p with [] => 0 | row :: _ => length row end) (fst p)) (fplll_readRows fuel tmp s).
Proof.
  induction fuel as [|fuel IH]; intros tmp s K C; [lia|]. cbn [fplll_readRows]. destruct (match_char "]" s) as [[|] q] eqn:M; destruct (match_char_small _ _ _ _ M) as (A & B).
  - cbn [gd fst]. destruct tmp; auto.
  - eapply gd_bind; [apply expect_char_gd|]. intros r H. cbv beta in H. eapply gd_bind; [apply fplll_row_gd; lia|]. intros [row r'] H'. cbn [fst snd] in *.
    destruct (Nat.eqb_spec (length (nth 0 (tmp ++ [row]) [])) (length row)) as [E|E]; [|exact I]. apply IH; [lia|]. destruct tmp as [|x tmp]; cbn [app nth] in *; [repeat constructor|].
    unfold has_columns in *. rewrite app_comm_cons. apply Forall_app. split; auto.
Qed.
(** The only error is a syntax error *)
Definition sy {A} (r : res A) : Prop := match r with InvalidArgument | OtherError => False | _ => True end.
Lemma sy_bind {A B} (r : res A) (k : A -> res B) : sy r -> (forall a, sy (k a)) -> sy (rbind r k).
Proof. destruct r; cbn; auto. Qed.
Lemma sy_int s : sy (readInteger s).
Proof. unfold readInteger, readIntegerString. match goal with |- context [let '(_, _) := ?m in _] => destruct m as [sg q] end. destruct (span isdigit q) as [[|d ds] s']; exact I. Qed.
Lemma sy_size m s : sy (readSizeT m s).
Proof. unfold readSizeT. apply sy_bind; [apply sy_int|]. intros [z r]. destruct (_ && _); exact I. Qed.
Lemma sy_char c s : sy (expect_char c s).
Proof. unfold expect_char. destruct (eat s) as [|x r]; [exact I|]. destruct (ascii_dec x c); exact I. Qed.
Lemma sy_row : forall k s, sy (readRow k s).
Proof. induction k as [|k IH]; intros s; [exact I|]. cbn [readRow]. apply sy_bind; [apply sy_int|]. intros [z r]. apply sy_bind; [apply IH|]. intros [v q]. exact I. Qed.
Lemma sy_rows n : forall k s, sy (readRows k n s).
Proof. induction k as [|k IH]; intros s; [exact I|]. cbn [readRows]. apply sy_bind; [apply sy_row|]. intros [z r]. apply sy_bind; [apply IH|]. intros [v q]. exact I. Qed.
Lemma sy_fplll_row : forall k s, sy (fplll_readRow k s).
Proof.
  induction k as [|k IH]; intros s; [exact I|]. cbn [fplll_readRow]. destruct (match_char "]" s) as [[|] q]; [exact I|]. apply sy_bind; [apply sy_int|]. intros [z r]. apply sy_bind; [apply IH|]. intros [v q']. exact I.
Qed.
Lemma sy_fplll_rows : forall k tmp s, sy (fplll_readRows k tmp s).
Proof.
  induction k as [|k IH]; intros tmp s; [exact I|]. cbn [fplll_readRows]. destruct (match_char "]" s) as [[|] q]; [exact I|]. apply sy_bind; [apply sy_char|]. intros r. apply sy_bind; [apply sy_fplll_row|].
  intros [row r']. cbv zeta. destruct (_ =? _); [apply IH|exact I].
Qed.
Lemma read_any max f s : (exists n rows r, has_columns n rows /\ readLattice max f s = Ok ((n, rows), r)) \/ readLattice max f s = SyntaxError.
Proof.
  assert (G : gd (fun p => has_columns (fst (fst p)) (snd (fst p))) (readLattice max f s)).
  { destruct f; cbn [readLattice].
    - unfold fourti2_readLattice. eapply gd_bind; [apply readSizeT_gd|]. intros [k r] _. eapply gd_bind; [apply readSizeT_gd|]. intros [n r'] _. eapply gd_bind; [apply rows_gd|]. intros [b q] H. exact H.
    - unfold fplll_readLattice. eapply gd_bind; [apply expect_char_gd|]. intros r _. eapply gd_bind; [apply fplll_rows_gd; [lia|constructor]|]. intros [b q] H. exact H. }
  assert (Y : sy (readLattice max f s)).
  { destruct f; cbn [readLattice].
    - unfold fourti2_readLattice. apply sy_bind; [apply sy_size|]. intros [k r]. apply sy_bind; [apply sy_size|]. intros [n r']. apply sy_bind; [apply sy_rows|]. intros [b q]. exact I.
    - unfold fplll_readLattice. apply sy_bind; [apply sy_char|]. intros r. apply sy_bind; [apply sy_fplll_rows|]. intros [b q]. exact I. }
  destruct (readLattice max f s) as [[[n rows] r]| | | | |]; cbn in G, Y; try contradiction; auto. left. exists n, rows, r. auto.
Qed.
Lemma p_latformat_any max iformat oformat file : In iformat lattice_formats -> In (output_lattice_format iformat oformat) lattice_formats ->
  latformat_print max iformat oformat false file = SyntaxError \/
  exists n rows, has_columns n rows /\ latformat_print max iformat oformat false file = Ok (lattice_text (output_lattice_format iformat oformat) n rows).
Proof.
  intros Fi Fo. unfold latformat_print. cbv zeta. fold (output_lattice_format iformat oformat). rewrite (named_ok iformat) by auto. cbn [rbind]. rewrite (named_ok _ Fo). cbn [rbind].
  destruct (read_any max (named iformat) (" "%char :: file)) as [(n & rows & r & C & E)|E]; rewrite E; cbn [rbind]; auto. unfold expectEOF. destruct (eat r); cbn [rbind fst snd]; auto.
  right. exists n, rows. split; auto. now rewrite write_named.
Qed.
