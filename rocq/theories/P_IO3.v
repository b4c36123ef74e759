(** The formats that share IOHandlerCommon: rings and ideals are read as they were written. *)
From Coq Require Import String Ascii.
From Coq Require Import List Arith Bool ZArith Lia.
Import ListNotations.
From Verif Require Import M_Term M_Api M_Names M_IO Spec_IO P_Names P_IO P_IO2.

Lemma ident_yes x s rest : legal_name x -> eat s = x ++ rest -> stop isident rest -> readIdentifier s = Ok (x, rest).
Proof. intros. now apply readIdentifier_yes. Qed.
Lemma size_yes m n s rest : fits m n -> eat s = nat_str n ++ rest -> stop isdigit rest -> readSizeT m s = Ok (n, rest).
Proof. intros. now apply readSizeT_yes. Qed.

(** ** The name of the ring in Macaulay 2 *)
Lemma nat_str_name n : legal_name ("R"%char :: nat_str n).
Proof.
  split; [left; cbn; lia|]. destruct (nat_str_digits n) as [A _]. eapply Forall_impl; [|exact A]. intros c H. right; left. now apply digit_iff.
Qed.
Lemma ringNumber_fuel : forall fuel i names, m2_ringNumber fuel i names = OutOfFuel -> forall j, j < fuel -> In ("R"%char :: nat_str (i + j)) names.
Proof.
  induction fuel as [|fuel IH]; intros i names H j K; [lia|]. cbn in H. destruct (in_dec str_dec _ names) as [I|]; [|discriminate].
  destruct j as [|j]; [now rewrite Nat.add_0_r|]. replace (i + S j) with (S i + j) by lia. apply IH; auto. lia.
Qed.
Lemma ringNumber_ok : forall fuel i names, m2_ringNumber fuel i names = OutOfFuel \/
  exists r, m2_ringNumber fuel i names = Ok r /\ legal_name r /\ hd_error r = Some "R"%char /\ ~ In r names.
Proof.
  induction fuel as [|fuel IH]; intros i names; [now left|]. cbn. destruct (in_dec str_dec _ names) as [I|I]; [apply IH|].
  right. eexists. split; [reflexivity|]. split; [apply nat_str_name|]. auto.
Qed.
Lemma ringName_ok names : exists r, m2_ringName names = Ok r /\ legal_name r /\ hd_error r = Some "R"%char /\ ~ In r names.
Proof.
  unfold m2_ringName. destruct (in_dec str_dec (lit "R") names) as [I|I].
  - destruct (ringNumber_ok (S (List.length names)) 1 names) as [X|X]; auto. exfalso.
    pose proof (ringNumber_fuel _ _ _ X) as Y.
    assert (Z : NoDup (map (fun j => "R"%char :: nat_str (1 + j)) (seq 0 (S (List.length names))))).
    { apply FinFun.Injective_map_NoDup; [|apply seq_NoDup]. intros a b E. injection E as E. apply nat_str_inj in E. lia. }
    pose proof (NoDup_incl_length (l' := names) Z) as W. rewrite map_length, seq_length in W.
    assert (S (List.length names) <= List.length names); [|lia]. apply W. intros x Hx. apply in_map_iff in Hx as [j [<- Hj]]. apply in_seq in Hj.
    apply Y. lia.
  - exists (lit "R"). split; [reflexivity|]. split; [split; [left; cbn; lia | constructor]|]. auto.
Qed.
Definition ring_name (names : list str) : str := match m2_ringName names with Ok r => r | _ => [] end.
Lemma ring_name_ok names : m2_ringName names = Ok (ring_name names) /\ legal_name (ring_name names) /\ (exists r, ring_name names = "R"%char :: r) /\ ~ In (ring_name names) names.
Proof.
  unfold ring_name. destruct (ringName_ok names) as [r [-> [B [C D]]]]. repeat split; auto. destruct r; [discriminate|]. cbn in C. injection C as ->. eauto.
Qed.

(** ** Texts *)
Definition ringt (f : format) (names : list str) : text :=
  match f with
  | M2 => ring_name names ++ lit " = QQ[" ++ sep_names (lit ", ") names ++ lit "];" ++ [nl]
  | Monos => monos_writeRing names
  | Singular => singular_writeRing names
  | CoCoA4 => cocoa_writeRing names
  | _ => []
  end.
Definition tbody (f : format) (names : list str) (t : list Z) : text :=
  match f with
  | M2 => writeTermProduct names t ++ (if is_identity t then "_"%char :: ring_name names else [])
  | CoCoA4 => cocoa_writeTermProduct t
  | _ => writeTermProduct names t
  end.
Definition bare_head (f : format) : text :=
  match f with M2 => lit "I = monomialIdeal(" | Monos => lit "[" | Singular => lit "ideal I =" | CoCoA4 => lit "I := Ideal(" | _ => [] end.
Definition bare_foot (f : format) (names : list str) (zero : bool) : text :=
  match f with
  | M2 => if zero then lit "0_" ++ ring_name names ++ lit ");" ++ [nl] else nl :: lit ");" ++ [nl]
  | Monos => nl :: lit "];" ++ [nl]
  | Singular => (if zero then nl :: lit " 0" else []) ++ lit ";" ++ [nl]
  | CoCoA4 => nl :: lit ");" ++ [nl]
  | _ => []
  end.
Definition nonempty {A} (l : list A) : bool := match l with [] => false | _ => true end.
Definition baret (f : format) (names : list str) (J : list (list Z)) : text :=
  bare_head f ++ terms_text (tbody f names) true J ++ bare_foot f names (negb (nonempty J)).
Definition is_common (f : format) : Prop := f = M2 \/ f = Monos \/ f = Singular \/ f = CoCoA4.

(** ** Rings *)
Lemma m2_ring_read names s rest : legal_names names -> eat s = eat (ringt M2 names ++ rest) ->
  m2_readRing s = Ok (names, nl :: rest).
Proof.
  intros [D F] E. destruct (ring_name_ok names) as [_ [L [[r R] _]]]. cbn [ringt] in E. rewrite !app_rest, eat_name in E by auto.
  unfold m2_readRing. rewrite (ident_yes _ _ _ L E) by reflexivity. cbn [rbind]. rewrite R.
  cbn [ascii_dec ascii_rect]. destruct (ascii_dec "R" "R") as [_|X]; [|congruence].
  erewrite (expect_char_yes "="); [|lits; reflexivity]. cbn [rbind].
  rewrite peek_char_no by discriminate. lits.
  erewrite (expect_str_yes ["Q"%char; "Q"%char]); [|reflexivity]. cbn [rbind].
  erewrite (expect_char_yes "["); [|reflexivity]. cbn [rbind].
  destruct names as [|x names].
  - cbn [sep_names app]. erewrite match_char_no by discriminate.
    cbn -[eat]. reflexivity.
  - set (ns := x :: names) in *. assert (N : ns <> []) by discriminate.
    destruct (sep_names_head (lit ", ") ns N F) as [c [r0 [H A]]].
    assert (EE : forall z, eat (sep_names (lit ", ") ns ++ z) = sep_names (lit ", ") ns ++ z) by (intros; now apply eat_sep).
    rewrite match_char_no; [|rewrite EE, H; cbn; intros X; injection X as X; subst c; discriminate].
    unfold peekIdentifier. rewrite eat_idem, EE, H. cbn [app]. rewrite A.
    erewrite (readNames_yes ns [] _ ("]"%char :: ";"%char :: nl :: rest)); auto.
    + change (c :: r0 ++ "]"%char :: ";"%char :: nl :: rest) with ((c :: r0) ++ "]"%char :: ";"%char :: nl :: rest). rewrite <- H. apply EE.
    + reflexivity.
    + discriminate.
    + pose proof (sep_length (lit ", ") ns F) as Q. rewrite H in Q. cbn [List.length] in *. rewrite app_length. lia.
Qed.
Lemma monos_ring_read names s rest : legal_names names -> eat s = eat (ringt Monos names ++ rest) ->
  monos_readRing s = Ok (names, nl :: rest).
Proof.
  intros [D F] E. unfold ringt, monos_writeRing in E. rewrite !app_rest in E.
  unfold monos_readRing. erewrite (expect_str_yes (lit "vars")); [|rewrite E; lits; reflexivity]. cbn [rbind].
  destruct names as [|x names].
  - cbn [sep_names app]. erewrite match_char_yes; [|lits; reflexivity]. reflexivity.
  - set (ns := x :: names) in *. assert (N : ns <> []) by discriminate.
    destruct (sep_names_head (lit ", ") ns N F) as [c [r0 [H A]]].
    assert (EE : forall z, eat (" "%char :: sep_names (lit ", ") ns ++ z) = sep_names (lit ", ") ns ++ z).
    { intros z. change (eat (" "%char :: sep_names (lit ", ") ns ++ z)) with (eat (sep_names (lit ", ") ns ++ z)). now apply eat_sep. }
    rewrite match_char_no; [|rewrite EE, H; cbn; intros X; injection X as X; subst c; discriminate]. rewrite EE.
    erewrite (readNames_yes ns [] _ (";"%char :: nl :: rest)); auto.
    + rewrite eat_sep by auto. reflexivity.
    + reflexivity.
    + discriminate.
    + pose proof (sep_length (lit ", ") ns F) as Q. rewrite app_length. lia.
Qed.
Lemma singular_ring_read names s rest : legal_names names -> eat s = eat (ringt Singular names ++ rest) ->
  singular_readRing s = Ok (names, nl :: rest).
Proof.
  intros [D F] E. cbn [ringt singular_writeRing] in E. unfold singular_writeRing in E.
  assert (X : exists ns, ns <> [] /\ Forall legal_name ns /\ NoDup ns /\
     eat s = lit "ring R = 0, (" ++ sep_names (lit ", ") ns ++ lit "), lp;" ++ nl :: lit "int noVars = " ++ (if nonempty names then "0"%char else "1"%char) :: lit ";" ++ nl :: rest /\
     if nonempty names then ns = names else ns = [lit "dummy"]).
  { destruct names as [|x names].
    - exists [lit "dummy"]. split; [discriminate|]. split; [|split; [|split; [|reflexivity]]].
      + constructor; [|constructor]. split; [right; cbn; lia|]. cbn [lit list_ascii_of_string].
        repeat (constructor; [left; right; cbn; lia|]). constructor.
      + constructor; [intros []|constructor].
      + rewrite E. reflexivity.
    - exists (x :: names). split; [discriminate|]. split; [auto|]. split; [auto|]. split; [|reflexivity].
      rewrite E. rewrite !app_rest. reflexivity. }
  clear E. destruct X as [ns [N [F' [D' [E Q]]]]].
  destruct (sep_names_head (lit ", ") ns N F') as [c [r0 [H A]]].
  unfold singular_readRing. erewrite (expect_str_yes (lit "ring")); [|rewrite E; lits; reflexivity]. cbn [rbind].
  do 5 (erewrite expect_char_yes; [|lits; reflexivity]; cbn [rbind]).
  erewrite (readNames_yes ns [] _ (lit "), lp;" ++ _)); auto.
  2:{ rewrite eat_sep by auto. reflexivity. }
  2:{ reflexivity. }
  2:{ discriminate. }
  2:{ pose proof (sep_length (lit ", ") ns F') as K. cbn [lit list_ascii_of_string] in K. rewrite app_length. lia. }
  cbn [rbind app]. rewrite expect_char_eat. do 2 (erewrite expect_char_yes; [|lits; reflexivity]; cbn [rbind]).
  erewrite (expect_str_yes (lit "lp")); [|lits; reflexivity]. cbn [rbind].
  erewrite expect_char_yes; [|lits; reflexivity]. cbn [rbind].
  erewrite (expect_str_yes (lit "int")); [|lits; reflexivity]. cbn [rbind].
  erewrite (expect_str_yes (lit "noVars")); [|lits; reflexivity]. cbn [rbind].
  erewrite (expect_str_yes (lit "=")); [|lits; reflexivity]. cbn [rbind].
  destruct names as [|x names]; cbn [nonempty] in *; subst ns.
  - erewrite match_char_yes; [|reflexivity]. cbv beta iota. destruct (str_dec (lit "dummy") (lit "dummy")) as [_|X]; [|exfalso; apply X; reflexivity]. cbn [rbind].
    erewrite expect_char_yes; [|lits; reflexivity]. reflexivity.
  - erewrite match_char_no; [|discriminate]. erewrite match_char_yes; [|reflexivity]. cbn [rbind].
    erewrite expect_char_yes; [|lits; reflexivity]. reflexivity.
Qed.
Lemma cocoa_names_read : forall names acc s rest, Forall legal_name names -> NoDup (acc ++ names) -> names <> [] ->
  eat s = lit """" ++ sep_names (lit """, """) names ++ lit """" ++ rest ->
  cocoa_readNames (List.length names) acc s = Ok (acc ++ names, rest).
Proof.
  induction names as [|x names IH]; intros acc s rest F D N E; [congruence|]. inversion F as [|? ? L F']; subst. cbn [List.length cocoa_readNames].
  assert (NI : ~ In x acc). { intros X. apply NoDup_remove_2 in D. apply D. apply in_or_app. now left. }
  destruct (legal_cons x L) as [c [r [HX [A FX]]]].
  assert (NW : forall z, peekWhite (x ++ z) = false). { intros z. subst x. cbn. now apply ident_not_space, alpha_ident. }
  destruct names as [|y names].
  - cbn [sep_names] in E. erewrite expect_char_yes; [|rewrite E; lits; reflexivity]. cbn [rbind]. rewrite NW.
    erewrite (ident_yes x); auto; [|rewrite eat_name by auto; reflexivity|reflexivity]. cbn [rbind]. rewrite addVarUnique_new by auto. cbn [rbind].
    cbn [peekWhite]. change (isspace """") with false. cbv iota. erewrite expect_char_yes; [|reflexivity]. reflexivity.
  - rewrite sep_names_cons, !app_rest in E. erewrite expect_char_yes; [|rewrite E; lits; reflexivity]. cbn [rbind]. rewrite NW.
    erewrite (ident_yes x); auto; [|rewrite eat_name by auto; reflexivity|reflexivity]. cbn [rbind]. rewrite addVarUnique_new by auto. cbn [rbind].
    cbn [peekWhite]. change (isspace """") with false. cbv iota. erewrite expect_char_yes; [|reflexivity]. cbn [rbind List.length Nat.ltb Nat.leb].
    erewrite expect_char_yes; [|reflexivity]. cbn [rbind].
    change (S (List.length names)) with (List.length (y :: names)). rewrite (IH (acc ++ [x]) _ rest); auto.
    + now rewrite <- app_assoc.
    + now rewrite <- app_assoc.
    + discriminate.
Qed.
Lemma cocoa_ring_read m names s rest : legal_names names -> fits m (List.length names) -> eat s = eat (ringt CoCoA4 names ++ rest) ->
  cocoa_readRing m s = Ok (names, nl :: rest).
Proof.
  intros [D F] FT E. cbn [ringt] in E. unfold cocoa_writeRing in E. unfold cocoa_readRing. destruct names as [|x names].
  - rewrite !app_rest in E. erewrite (expect_str_yes (lit "Use")); [|rewrite E; lits; reflexivity]. cbn [rbind].
    erewrite expect_char_yes; [|reflexivity]. cbn [rbind]. erewrite (expect_str_yes (lit "::=")); [|lits; reflexivity]. cbn [rbind].
    do 3 (erewrite expect_char_yes; [|reflexivity]; cbn [rbind]). erewrite match_char_no; [|discriminate]. cbn [rbind].
    do 2 (erewrite expect_char_yes; [|reflexivity]; cbn [rbind]).
    erewrite (expect_str_yes (lit "Names")); [|lits; reflexivity]. cbn [rbind]. erewrite (expect_str_yes (lit ":=")); [|lits; reflexivity]. cbn [rbind].
    erewrite expect_char_yes; [|reflexivity]. cbn [rbind cocoa_readNames].
    do 2 (erewrite expect_char_yes; [|reflexivity]; cbn [rbind]). reflexivity.
  - set (ns := x :: names) in *. rewrite !app_rest in E.
    erewrite (expect_str_yes (lit "Use")); [|rewrite E; lits; reflexivity]. cbn [rbind].
    erewrite expect_char_yes; [|reflexivity]. cbn [rbind]. erewrite (expect_str_yes (lit "::=")); [|lits; reflexivity]. cbn [rbind].
    do 3 (erewrite expect_char_yes; [|reflexivity]; cbn [rbind]). erewrite match_char_yes; [|reflexivity].
    erewrite expect_char_yes; [|reflexivity]. cbn [rbind]. erewrite (expect_str_yes (lit "..")); [|lits; reflexivity]. cbn [rbind].
    erewrite (size_yes m (List.length ns)); auto; [|rewrite eat_nat; reflexivity|reflexivity]. cbn [rbind].
    do 3 (erewrite expect_char_yes; [|reflexivity]; cbn [rbind]).
    erewrite (expect_str_yes (lit "Names")); [|lits; reflexivity]. cbn [rbind]. erewrite (expect_str_yes (lit ":=")); [|lits; reflexivity]. cbn [rbind].
    erewrite expect_char_yes; [|reflexivity]. cbn [rbind].
    rewrite (cocoa_names_read ns [] _ (lit "];" ++ nl :: rest)); [|exact F|exact D|discriminate|rewrite !app_rest; reflexivity]. cbn [rbind app].
    do 2 (erewrite expect_char_yes; [|reflexivity]; cbn [rbind]). reflexivity.
Qed.
Lemma ring_read m f names s rest : is_common f -> legal_names names -> format_fits m f names [] -> eat s = eat (ringt f names ++ rest) ->
  fmt_readRing m f s = Ok (names, nl :: rest).
Proof.
  intros [-> | [-> | [-> | ->]]] L F E; cbn [fmt_readRing].
  - now apply m2_ring_read. - now apply monos_ring_read. - now apply singular_ring_read. - now apply cocoa_ring_read.
Qed.
