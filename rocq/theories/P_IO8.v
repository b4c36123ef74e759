(** Reading any text ends with an ideal or one of the errors; an ideal that is read is well formed. *)
From Coq Require Import String Ascii.
From Coq Require Import List Arith Bool ZArith Lia Permutation.
Import ListNotations.
From Verif Require Import M_Term M_Api M_Names M_IO Spec_IO P_Names P_IO P_IO2 P_IO3 P_IO4 P_IO5 P_IO6 P_IO7.

(** A result that is [P] if there is one *)
Definition gd {A} (P : A -> Prop) (r : res A) : Prop := match r with Ok a => P a | OutOfFuel | Undefined => False | _ => True end.
Lemma gd_bind {A B} (Q : A -> Prop) (P : B -> Prop) r k : gd Q r -> (forall a, Q a -> gd P (k a)) -> gd P (rbind r k).
Proof. destruct r; cbn; auto; contradiction. Qed.
Lemma gd_imp {A} (Q P : A -> Prop) r : gd Q r -> (forall a, Q a -> P a) -> gd P r.
Proof. destruct r; cbn; auto. Qed.
Notation "# s" := (List.length s) (at level 0, s at level 0).

(** ** Scanner *)
Lemma eat_small s : # (eat s) <= # s.
Proof. apply eat_le. Qed.
Lemma match_char_small c s b s' : match_char c s = (b, s') -> # s' <= # s /\ (b = true -> # s' < # s).
Proof.
  unfold match_char. pose proof (eat_le s). destruct (eat s) as [|x r]; cbn in *; intros E; [|destruct (ascii_dec c x)]; inversion E; subst; cbn; split; try lia; discriminate.
Qed.
Lemma peek_char_small c s b s' : peek_char c s = (b, s') -> # s' <= # s.
Proof. unfold peek_char. pose proof (eat_le s). destruct (eat s) as [|x r]; cbn in *; intros E; inversion E; subst; cbn; lia. Qed.
Lemma peek_two_small c d s b s' : peek_two c d s = (b, s') -> # s' <= # s.
Proof.
  unfold peek_two. destruct (peek_char c s) as [b1 s1] eqn:E. apply peek_char_small in E. destruct b1; intros X; [inversion X; subst; auto|].
  apply peek_char_small in X. lia.
Qed.
Lemma peekIdentifier_small s b s' : peekIdentifier s = (b, s') -> # s' <= # s.
Proof. unfold peekIdentifier. pose proof (eat_le s). destruct (eat s) as [|x r]; cbn in *; intros E; inversion E; subst; cbn; lia. Qed.
Lemma hasMoreInput_small s b s' : hasMoreInput s = (b, s') -> # s' <= # s.
Proof. unfold hasMoreInput. pose proof (eat_le s). destruct (eat s) as [|x r]; cbn in *; intros E; inversion E; subst; cbn; lia. Qed.
Lemma expect_char_gd c s : gd (fun s' => # s' < # s) (expect_char c s).
Proof. unfold expect_char. pose proof (eat_le s). destruct (eat s) as [|x r]; cbn in *; auto. destruct (ascii_dec x c); cbn; auto. Qed.
Lemma expect_rest_gd : forall w s, gd (fun s' => # s' <= # s) (expect_rest w s).
Proof.
  induction w as [|c w IH]; intros s; cbn; [destruct s; cbn; lia|]. destruct s as [|x s]; cbn; auto. destruct (ascii_dec c x); cbn; auto.
  eapply gd_imp; [apply IH|]. cbn. lia.
Qed.
Lemma expect_str_gd w s : gd (fun s' => # s' <= # s) (expect_str w s).
Proof. unfold expect_str. eapply gd_imp; [apply expect_rest_gd|]. cbn. intros a. pose proof (eat_le s). lia. Qed.
Lemma span_parts f : forall s, Forall (fun c => f c = true) (fst (span f s)) /\ # (fst (span f s)) + # (snd (span f s)) = # s.
Proof.
  induction s as [|c s [IH1 IH2]]; [cbn; auto|]. cbn [span]. destruct (f c) eqn:E; cbn [fst snd List.length]; split; auto; lia.
Qed.
Lemma readIdentifier_gd s : gd (fun p => legal_name (fst p) /\ # (snd p) < # s) (readIdentifier s).
Proof.
  unfold readIdentifier. pose proof (eat_le s). destruct (eat s) as [|c r]; [exact I|]. cbn [List.length] in *. destruct (isalpha c) eqn:A; [|exact I]. cbn [gd].
  cbn [span]. rewrite (alpha_ident c A). cbn [fst snd]. destruct (span_parts isident r) as [P Q]. split; [|lia].
  cbn [legal_name]. split; [now apply letter_iff|]. eapply Forall_impl; [|exact P]. intros d. apply isident_iff.
Qed.
Lemma readIntegerString_gd s : gd (fun p => # (snd p) < # s) (readIntegerString s).
Proof.
  unfold readIntegerString. pose proof (eat_le s) as E.
  assert (G : forall c r, # r <= # s -> gd (fun p => # (snd p) < # s) (match span isdigit r with ([], _) => SyntaxError | ((a :: l) as ds, s') => Ok (c : ascii, ds, s') end)).
  { intros c r L. destruct (span_parts isdigit r) as [_ Q]. destruct (span isdigit r) as [[|d ds] s']; cbn in *; auto. lia. }
  destruct (eat s) as [|c r]; cbn in E; [apply G; cbn; lia|]. destruct (ascii_dec c "-"); [apply G; lia|]. destruct (ascii_dec c "+"); apply G; cbn; lia.
Qed.
Lemma readIntegerStringNoSign_gd s : gd (fun p => Forall (fun c => isdigit c = true) (fst p) /\ # (snd p) < # s) (readIntegerStringNoSign s).
Proof.
  unfold readIntegerStringNoSign. pose proof (eat_le s) as E. destruct (eat s) as [|c r]; [exact I|]. destruct (ascii_dec c "-"); [exact I|]. destruct (ascii_dec c "+"); [exact I|].
  destruct (span_parts isdigit (c :: r)) as [P Q]. destruct (span isdigit (c :: r)) as [[|d ds] s']; cbn in *; auto. split; auto. lia.
Qed.
Lemma readInteger_gd s : gd (fun p => # (snd p) < # s) (readInteger s).
Proof. unfold readInteger. eapply gd_bind; [apply readIntegerString_gd|]. intros [[sg ds] r] H. exact H. Qed.
Lemma mpz_acc_nonneg : forall base ds acc z, (0 <= base)%Z -> (0 <= acc)%Z -> mpz_acc base acc ds = Some z -> (0 <= z)%Z.
Proof.
  intros base. induction ds as [|c ds IH]; intros acc z B A E; cbn in E; [now injection E as <-|]. destruct (digit_value c <? base)%Z; [|discriminate].
  eapply IH; [exact B| |exact E]. unfold digit_value. lia.
Qed.
Lemma mpz_assign_gd ds : gd (fun z => 0 <= z)%Z (mpz_assign ds).
Proof.
  unfold mpz_assign. destruct ds as [|c ds]; [exact I|]. destruct (ascii_dec c "0").
  - destruct (mpz_acc 8 0 ds) eqn:E; cbn; auto. eapply mpz_acc_nonneg; [| |exact E]; lia.
  - destruct (mpz_acc 10 0 (c :: ds)) eqn:E; cbn [gd]; auto. eapply mpz_acc_nonneg; [| |exact E]; lia.
Qed.
Lemma readIntegerNoSign_gd s : gd (fun p => (0 <= fst p)%Z /\ # (snd p) < # s) (readIntegerNoSign s).
Proof.
  unfold readIntegerNoSign. eapply gd_bind; [apply readIntegerStringNoSign_gd|]. intros [ds r] [_ H]. eapply gd_bind; [apply mpz_assign_gd|]. intros z Hz. split; auto.
Qed.
Lemma readSizeT_gd m s : gd (fun p => # (snd p) < # s) (readSizeT m s).
Proof. unfold readSizeT. eapply gd_bind; [apply readInteger_gd|]. intros [z r] H. destruct (_ && _); cbn; auto. Qed.
Lemma expectEOF_gd s : gd (fun _ => True) (expectEOF s).
Proof. unfold expectEOF. destruct (eat s); cbn; auto. Qed.

(** One step of a chain *)
Ltac one :=
  cbv beta iota;
  match goal with
  | |- gd _ (rbind (expect_char _ _) _) => eapply gd_bind; [apply expect_char_gd|]; let s := fresh "s" in let H := fresh "H" in intros s H; cbv beta in H
  | |- gd _ (rbind (expect_str _ _) _) => eapply gd_bind; [apply expect_str_gd|]; let s := fresh "s" in let H := fresh "H" in intros s H; cbv beta in H
  | |- gd _ (rbind (readIdentifier _) _) => eapply gd_bind; [apply readIdentifier_gd|]; let x := fresh "x" in let s := fresh "s" in let H := fresh "H" in let K := fresh "K" in intros [x s] [K H]; cbn [fst snd] in K, H
  | |- gd _ (rbind (readSizeT _ _) _) => eapply gd_bind; [apply readSizeT_gd|]; let x := fresh "n" in let s := fresh "s" in let H := fresh "H" in intros [x s] H; cbn [fst snd] in H
  | |- gd _ (rbind (readIntegerStringNoSign _) _) => eapply gd_bind; [apply readIntegerStringNoSign_gd|]; let x := fresh "ds" in let s := fresh "s" in let H := fresh "H" in let K := fresh "K" in intros [x s] [K H]; cbn [fst snd] in K, H
  | |- context [match_char ?c ?s] => let E := fresh "E" in let b := fresh "b" in let r := fresh "s" in destruct (match_char c s) as [b r] eqn:E; apply match_char_small in E as [? ?]; destruct b
  | |- context [peek_char ?c ?s] => let E := fresh "E" in let b := fresh "b" in let r := fresh "s" in destruct (peek_char c s) as [b r] eqn:E; apply peek_char_small in E; destruct b
  | |- context [peek_two ?c ?d ?s] => let E := fresh "E" in let b := fresh "b" in let r := fresh "s" in destruct (peek_two c d s) as [b r] eqn:E; apply peek_two_small in E; destruct b
  | |- context [peekIdentifier ?s] => let E := fresh "E" in let b := fresh "b" in let r := fresh "s" in destruct (peekIdentifier s) as [b r] eqn:E; apply peekIdentifier_small in E; destruct b
  | |- context [hasMoreInput ?s] => let E := fresh "E" in let b := fresh "b" in let r := fresh "s" in destruct (hasMoreInput s) as [b r] eqn:E; apply hasMoreInput_small in E; destruct b
  end.
Ltac small := repeat match goal with H : true = true -> _ |- _ => specialize (H eq_refl) end; cbn [List.length fst snd gd] in *; try lia.

(** ** Names and rings *)
Lemma legal_nil : legal_names []. Proof. split; constructor. Qed.
Lemma addVarUnique_gd names x : legal_names names -> legal_name x -> gd (fun n => legal_names n /\ # n = S # names) (addVarUnique names x).
Proof.
  intros [D L] X. unfold addVarUnique. destruct (in_dec str_dec x names); [exact I|]. cbn. rewrite app_length. cbn. split; [|lia]. split.
  - apply (Permutation.Permutation_NoDup (l := x :: names)); [apply Permutation.Permutation_cons_append | now constructor].
  - apply Forall_app. auto.
Qed.
Definition ring_post (s : text) (p : list str * text) : Prop := legal_names (fst p) /\ # (snd p) <= # s.
Lemma readNames_gd : forall fuel names s, legal_names names -> # s < fuel -> gd (ring_post s) (readNames fuel names s).
Proof.
  induction fuel as [|fuel IH]; intros names s L K; [lia|]. cbn [readNames]. one. eapply gd_bind; [apply addVarUnique_gd; auto|]. intros n [N _].
  one.
  - eapply gd_imp; [apply IH; auto; small|]. intros p [P Q]. split; auto. small.
  - split; auto. small.
Qed.
Lemma m2_ring_gd s : gd (ring_post s) (m2_readRing s).
Proof.
  unfold m2_readRing. one. match goal with |- context [if ?b then _ else _] => destruct b end; [|exact I]. one.
  eapply gd_bind with (Q := fun r => # r <= # s).
  { one; (eapply gd_imp; [apply expect_str_gd|]); cbn; intros; lia. }
  intros r Hr. one. one.
  - eapply gd_bind with (Q := ring_post s).
    { one; [|split; [apply legal_nil | small]]. eapply gd_imp; [apply readNames_gd; [apply legal_nil|lia]|]. intros p [P Q]. split; auto. small. }
    intros [names r2] [P Q]. cbn [fst snd] in *. do 3 one. split; auto. small.
  - eapply gd_bind with (Q := ring_post s).
    { one; [|split; [apply legal_nil | small]]. eapply gd_imp; [apply readNames_gd; [apply legal_nil|lia]|]. intros p [P Q]. split; auto. small. }
    intros [names r2] [P Q]. cbn [fst snd rbind] in *. do 2 one. split; auto. small.
Qed.
Lemma monos_ring_gd s : gd (ring_post s) (monos_readRing s).
Proof.
  unfold monos_readRing. one. one; [split; [apply legal_nil | small]|].
  eapply gd_bind; [apply readNames_gd; [apply legal_nil|lia]|]. intros [names r] [P Q]. cbn [fst snd] in *. one. split; auto. small.
Qed.
Lemma singular_ring_gd s : gd (ring_post s) (singular_readRing s).
Proof.
  unfold singular_readRing. do 6 one. eapply gd_bind; [apply readNames_gd; [apply legal_nil|lia]|]. intros [names r] [P Q]. cbn [fst snd] in *. do 7 one.
  eapply gd_bind with (Q := ring_post s).
  { one.
    - destruct names as [|x [|y names]]; try exact I. destruct (str_dec x (lit "dummy")); [|exact I]. split; [apply legal_nil | small].
    - one; [|exact I]. split; auto. small. }
  intros [n2 r2] [P2 Q2]. cbn [fst snd] in *. one. split; auto. small.
Qed.
Lemma cocoa_names_gd : forall k names s, legal_names names -> gd (ring_post s) (cocoa_readNames k names s).
Proof.
  induction k as [|k IH]; intros names s L; cbn [cocoa_readNames]; [split; auto|]. one. destruct (peekWhite _); [exact I|]. one.
  eapply gd_bind; [apply addVarUnique_gd; auto|]. intros n [N _]. destruct (peekWhite _); [exact I|]. one.
  eapply gd_bind with (Q := fun r => # r <= # s).
  { destruct (0 <? k); [eapply gd_imp; [apply expect_char_gd|]; cbn; intros; lia | cbn; lia]. }
  intros r Hr. eapply gd_imp; [apply IH; auto|]. intros p [P Q]. split; auto. lia.
Qed.
Lemma cocoa_ring_gd m s : gd (ring_post s) (cocoa_readRing m s).
Proof.
  unfold cocoa_readRing. do 6 one. eapply gd_bind with (Q := fun p => # (snd p) <= # s).
  { one; [|small]. do 4 one. small. }
  intros [n r] Hr. cbn [snd] in Hr. do 5 one. eapply gd_bind; [apply cocoa_names_gd; apply legal_nil|]. intros [names r2] [P Q]. cbn [fst snd] in *. do 2 one. split; auto. small.
Qed.
Lemma nm_names_gd : forall fuel names s, legal_names names -> # s < fuel -> gd (ring_post s) (newmonos_readNames fuel names s).
Proof.
  induction fuel as [|fuel IH]; intros names s L K; [lia|]. cbn [newmonos_readNames]. one; [split; auto; small|]. one.
  eapply gd_bind; [apply addVarUnique_gd; auto|]. intros n [N _]. eapply gd_imp; [apply IH; auto; small|]. intros p [P Q]. split; auto. small.
Qed.
Lemma nm_ring_gd s : gd (ring_post s) (newmonos_readRing s).
Proof.
  unfold newmonos_readRing. one. eapply gd_imp; [apply nm_names_gd; [apply legal_nil|lia]|]. intros p [P Q]. split; auto. lia.
Qed.
Lemma f4_names_gd : forall k names s, legal_names names -> gd (fun p => legal_names (fst p) /\ # (fst p) = k + # names /\ # (snd p) <= # s) (fourti2_readNames k names s).
Proof.
  induction k as [|k IH]; intros names s L; cbn [fourti2_readNames]; [cbn; auto|]. one. eapply gd_bind; [apply addVarUnique_gd; auto|]. intros n [N E].
  eapply gd_imp; [apply IH; auto|]. intros p [P [Q R]]. repeat split; try apply P; lia.
Qed.
Lemma f4_ring_gd : forall fuel names s, legal_names names -> # s < fuel -> gd (ring_post s) (fourti2_readRing fuel names s).
Proof.
  induction fuel as [|fuel IH]; intros names s L K; [lia|]. cbn [fourti2_readRing]. one; [|split; auto]. one.
  eapply gd_bind; [apply addVarUnique_gd; auto|]. intros n [N _]. eapply gd_imp; [apply IH; auto; small|]. intros p [P Q]. split; auto. small.
Qed.
Lemma default_legal n : legal_names (defaultNames n).
Proof.
  split.
  - unfold defaultNames. apply FinFun.Injective_map_NoDup; [|apply seq_NoDup]. intros i j H. injection H as H. apply nat_str_inj in H. lia.
  - apply Forall_forall. intros x Hx. apply in_map_iff in Hx as [i [<- _]]. cbn [legal_name]. split; [right; cbn; lia|].
    destruct (nat_str_digits (i + 1)) as [A _]. eapply Forall_impl; [|exact A]. intros c Hc. right. left. now apply digit_iff.
Qed.
Lemma ring_gd m f s : is_common f -> gd (ring_post s) (fmt_readRing m f s).
Proof. intros [-> | [-> | [-> | ->]]]; cbn [fmt_readRing]; [apply m2_ring_gd | apply monos_ring_gd | apply singular_ring_gd | apply cocoa_ring_gd]. Qed.

(** ** The consumer *)
Definition okI (req : bool) (e : list str * in_ideal) : Prop :=
  legal_names (fst e) /\ monomials # (fst e) (to_big (snd e)) /\ (req = true -> exists B, snd e = Sqf B).
Definition outside (ic : consumer) : Prop := ic_cur ic = None /\ legal_names (ic_names ic) /\ Forall (okI (ic_require ic)) (ic_ideals ic).
Definition inside (ic : consumer) : Prop :=
  exists J, ic_cur ic = Some (ic_names ic, J) /\ okI (ic_require ic) (ic_names ic, J) /\ Forall (okI (ic_require ic)) (ic_ideals ic).
Definition in_term (ic : consumer) : Prop :=
  exists J t T, ic_cur ic = Some (ic_names ic, J) /\ okI (ic_require ic) (ic_names ic, J) /\ Forall (okI (ic_require ic)) (ic_ideals ic) /\ to_big J = t :: T.
Lemma in_term_inside ic : in_term ic -> inside ic.
Proof. intros [J [t [T [A [B [C _]]]]]]. exists J. auto. Qed.
Definition keeps (ic ic' : consumer) : Prop := ic_require ic' = ic_require ic /\ ic_ideals ic' = ic_ideals ic.
Definition frame (ic ic' : consumer) : Prop := ic_names ic' = ic_names ic /\ keeps ic ic'.
Lemma frame_refl ic : frame ic ic. Proof. repeat split; auto. Qed.
Lemma keeps_trans a b c : keeps a b -> keeps b c -> keeps a c.
Proof. intros [A B] [C D]. split; congruence. Qed.
Lemma frame_trans a b c : frame a b -> frame b c -> frame a c.
Proof. intros [A B] [C D]. split; [congruence | eapply keeps_trans; eauto]. Qed.
Ltac kk := repeat match goal with H : frame _ _ |- _ => destruct H | H : keeps _ _ |- _ => destruct H end; unfold frame, keeps; repeat split; cbn [fst snd ic_require ic_ideals ic_names] in *; congruence.
Ltac fin := split; [|split]; cbn [fst snd]; [first [assumption | now apply in_term_inside] | first [assumption | apply frame_refl | eapply frame_trans; eassumption | kk | split; auto] | small].
Lemma consumeRing_gd names ic : outside ic -> legal_names names -> gd (fun ic' => outside ic' /\ ic_names ic' = names /\ keeps ic ic') (consumeRing names ic).
Proof. intros [A [B C]] L. unfold consumeRing. rewrite A. cbn. repeat split; auto; apply L. Qed.
Lemma consumeRing_in_gd names ic : inside ic -> legal_names names -> # names = # (ic_names ic) -> gd (fun ic' => inside ic' /\ keeps ic ic') (consumeRing names ic).
Proof.
  intros [J [A [[B1 [B2 B3]] C]]] L E. unfold consumeRing. rewrite A, E, Nat.eqb_refl. cbn [gd ic_require]. split; [|split; auto]. exists J. repeat split; auto; try apply L.
  cbn [fst snd ic_names] in *. now rewrite E.
Qed.
Lemma beginIdeal_gd ic : outside ic -> gd (fun ic' => inside ic' /\ frame ic ic') (beginIdeal ic).
Proof.
  intros [A [B C]]. unfold beginIdeal. rewrite A. cbn. split; [|repeat split; auto]. exists (Sqf []). repeat split; cbn; auto; try apply B; eauto. constructor.
Qed.
Lemma endIdeal_gd ic : inside ic -> gd (fun ic' => outside ic' /\ ic_require ic' = ic_require ic /\ # (ic_ideals ic') = S # (ic_ideals ic)) (endIdeal ic).
Proof.
  intros [J [A [B C]]]. unfold endIdeal. rewrite A. cbn. repeat split; auto; try apply B; try discriminate. constructor; auto.
Qed.
Lemma monomials_zero (names : list str) n J : n = # names -> monomials n J -> monomials n (map (fun _ => 0%Z) names :: J).
Proof.
  intros -> M. constructor; auto. split; [apply map_length|]. apply Forall_forall. intros e He. apply in_map_iff in He as [? [<- _]]. lia.
Qed.
Lemma beginTerm_gd ic : inside ic -> gd (fun ic' => in_term ic' /\ frame ic ic') (beginTerm ic).
Proof.
  intros [J [A [[B1 [B2 B3]] C]]]. unfold beginTerm. rewrite A. cbn [gd]. split; [|repeat split; auto]. cbn [fst snd] in *. destruct J as [B|T].
  - eexists. eexists. eexists. split; [reflexivity|]. split; [|split; [exact C|cbn; rewrite map_map; reflexivity]].
    split; [exact B1|]. split; [|intros _; eexists; reflexivity]. cbn [ic_names fst snd to_big map] in *. rewrite map_map. exact (monomials_zero _ _ _ eq_refl B2).
  - eexists. eexists. eexists. split; [reflexivity|]. split; [|split; [exact C|reflexivity]].
    split; [exact B1|]. split; [|intros X; destruct (B3 X); discriminate]. cbn [ic_names fst snd to_big] in *. exact (monomials_zero _ _ _ eq_refl B2).
Qed.
Lemma monomials_set n t T var z : monomials n (t :: T) -> (0 <= z)%Z -> monomials n (list_set t var z :: T).
Proof.
  intros M Hz. inversion M as [|? ? [M1 M2] M3]; subst. constructor; auto. split; [now rewrite list_set_length|].
  apply Forall_forall. intros e He. apply In_nth_error in He as [i Hi]. rewrite list_set_nth in Hi. destruct (_ && _); [injection Hi as <-; auto|].
  rewrite Forall_forall in M2. apply M2. eapply nth_error_In; eauto.
Qed.
(** The consumer in a term, by the representation of the ideal *)
Lemma in_term_cases ic : in_term ic -> (exists b B, ic_cur ic = Some (ic_names ic, Sqf (b :: B)) /\ # b = # (ic_names ic) /\ okI (ic_require ic) (ic_names ic, Sqf (b :: B))) \/
  (exists t T, ic_cur ic = Some (ic_names ic, Big (t :: T)) /\ # t = # (ic_names ic) /\ okI (ic_require ic) (ic_names ic, Big (t :: T))).
Proof.
  intros [J [t [T [A [B [C D]]]]]]. destruct J as [[|b B']|[|t' T']]; cbn in D; try discriminate.
  - left. exists b, B'. repeat split; auto; try apply B. destruct B as [_ [B _]]. cbn in B. inversion B as [|? ? [X _] _]; subst. now rewrite map_length in X.
  - right. exists t', T'. repeat split; auto; try apply B. destruct B as [_ [B _]]. cbn in B. now inversion B as [|? ? [X _] _]; subst.
Qed.
Lemma in_term_rest ic : in_term ic -> Forall (okI (ic_require ic)) (ic_ideals ic).
Proof. intros [J [t [T [A [B [C D]]]]]]. exact C. Qed.
Lemma nth_some {A} (l : list A) i : i < # l -> exists x, nth_error l i = Some x.
Proof. intros H. destruct (nth_error l i) eqn:E; eauto. apply nth_error_None in E. lia. Qed.
Lemma set_sqf ic b B var : in_term ic -> okI (ic_require ic) (ic_names ic, Sqf (b :: B)) -> in_term (ic_set ic (ic_names ic) (Sqf (list_set b var true :: B))).
Proof.
  intros I [H1 [H2 H3]]. exists (Sqf (list_set b var true :: B)). eexists. eexists. split; [reflexivity|]. split; [|split; [exact (in_term_rest ic I) | reflexivity]].
  split; [exact H1|]. split; [|intros _; eexists; reflexivity]. cbn [ic_names ic_set fst snd to_big map] in *. rewrite (map_list_set (fun b0 : bool => if b0 then 1%Z else 0%Z)). apply monomials_set; auto. lia.
Qed.
Lemma set_big ic names0 J0 t T var z : in_term ic -> to_big J0 = t :: T -> okI (ic_require ic) (ic_names ic, J0) -> (ic_require ic = true -> False) -> (0 <= z)%Z -> names0 = ic_names ic ->
  in_term (ic_set ic names0 (Big (list_set t var z :: T))).
Proof.
  intros I E [H1 [H2 H3]] R Hz ->. exists (Big (list_set t var z :: T)). eexists. eexists. split; [reflexivity|]. split; [|split; [exact (in_term_rest ic I) | reflexivity]].
  split; [exact H1|]. split; [|intros X; destruct (R X)]. cbn [ic_names ic_set fst snd to_big] in *. rewrite E in H2. apply monomials_set; auto.
Qed.
Lemma big_no_req req names T : okI req (names, Big T) -> req = true -> False.
Proof. intros [_ [_ H]] X. destruct (H X). discriminate. Qed.
Lemma exp_one_gd var ic : in_term ic -> var < # (ic_names ic) -> gd (fun ic' => in_term ic' /\ frame ic ic') (consumeVarExponentOne var ic).
Proof.
  intros I V. unfold consumeVarExponentOne. destruct (in_term_cases ic I) as [[b [B [A [L O]]]]|[t [T [A [L O]]]]]; rewrite A.
  - destruct (nth_some b var) as [x ->]; [lia|]. destruct x; [exact Logic.I|]. cbn [gd]. split; [now apply set_sqf | repeat split; auto].
  - destruct (nth_some t var) as [x ->]; [lia|]. destruct (x =? 0)%Z; [|exact Logic.I]. cbn [gd]. split; [|repeat split; auto].
    apply (set_big ic _ (Big (t :: T))); [exact I | reflexivity | exact O | intros X; exact (big_no_req _ _ _ O X) | lia | reflexivity].
Qed.
Definition term_post (ic : consumer) (s : text) (p : consumer * text) : Prop := in_term (fst p) /\ frame ic (fst p) /\ # (snd p) < # s.
Lemma exp_gd var ic s : in_term ic -> var < # (ic_names ic) -> gd (term_post ic s) (consumeVarExponent var ic s).
Proof.
  intros I V. unfold consumeVarExponent. destruct (in_term_cases ic I) as [[b [B [A [L O]]]]|[t [T [A [L O]]]]]; rewrite A.
  - one. destruct (nth_some b var) as [x ->]; [lia|]. destruct x; [exact Logic.I|].
    destruct (str_dec ds ["1"%char]); [split; [now apply set_sqf | split; [repeat split|]; auto]|].
    destruct (str_dec ds ["0"%char]); [split; [exact I | split; [repeat split|]; auto]|].
    destruct (ic_require ic) eqn:R; [exact Logic.I|]. cbn [to_big map]. eapply gd_bind; [apply mpz_assign_gd|]. intros z Hz. cbn [gd]. split; [|split; [repeat split|]; auto].
    apply (set_big ic _ (Sqf (b :: B))); [exact I | reflexivity | now rewrite R | rewrite R; discriminate | exact Hz | reflexivity].
  - destruct (nth_some t var) as [x ->]; [lia|]. destruct (x =? 0)%Z; [|exact Logic.I].
    eapply gd_bind; [apply readIntegerNoSign_gd|]. intros [z r] [Hz Hr]. cbn [gd]. split; [|split; [repeat split|]; auto].
    cbn [fst]. apply (set_big ic _ (Big (t :: T))); [exact I | reflexivity | exact O | intros X; exact (big_no_req _ _ _ O X) | exact Hz | reflexivity].
Qed.
Lemma var_index_lt : forall names x i, var_index x names = Some i -> i < # names.
Proof.
  induction names as [|y names IH]; intros x i H; cbn in H; [discriminate|]. destruct (str_dec y x); [injection H as <-; cbn; lia|].
  destruct (var_index x names) eqn:E; [|discriminate]. injection H as <-. apply IH in E. cbn. lia.
Qed.
Lemma consumeVar_gd ic s : gd (fun p => fst p < # (ic_names ic) /\ # (snd p) < # s) (consumeVar ic s).
Proof. unfold consumeVar. one. destruct (var_index x (ic_names ic)) eqn:E; [|exact I]. apply var_index_lt in E. cbn. auto. Qed.
Lemma consumeVarNumber_gd m ic s : gd (fun p => fst p < # (ic_names ic) /\ # (snd p) < # s) (consumeVarNumber m ic s).
Proof.
  unfold consumeVarNumber. one. destruct (n =? 0) eqn:E; cbn [orb]; [exact I|]. destruct (_ <? _) eqn:E2; [exact I|]. apply Nat.eqb_neq in E. apply Nat.ltb_ge in E2. cbn. lia.
Qed.
Lemma product_gd : forall fuel ic s, in_term ic -> # s < fuel -> gd (term_post ic s) (consumeProduct fuel ic s).
Proof.
  induction fuel as [|fuel IH]; intros ic s I K; [lia|]. cbn [consumeProduct]. eapply gd_bind; [apply consumeVar_gd|]. intros [var r] [V Hr]. cbn [fst snd] in *.
  eapply gd_bind with (Q := term_post ic s).
  { one.
    - eapply gd_imp; [apply exp_gd; auto|]. intros p [P [Q R]]. fin.
    - eapply gd_bind; [apply exp_one_gd; auto|]. intros ic' [P Q]. fin. }
  intros [ic' r'] [P [Q R]]. cbn [fst snd] in *. one.
  - eapply gd_imp; [apply IH; auto; small|]. intros p [P2 [Q2 R2]]. fin.
  - fin.
Qed.
Lemma term_gd ic s : inside ic -> gd (term_post ic s) (consumeTermProductNotation ic s).
Proof.
  intros I. unfold consumeTermProductNotation. eapply gd_bind; [apply beginTerm_gd; auto|]. intros ic' [P Q]. one.
  - fin.
  - eapply gd_imp; [apply product_gd; auto|]. intros p [P2 [Q2 R2]]. fin.
Qed.
Lemma m2_term_gd ic s : inside ic -> gd (term_post ic s) (m2_readTerm ic s).
Proof.
  intros I. unfold m2_readTerm. eapply gd_bind; [apply term_gd; auto|]. intros [ic' r] [P [Q R]]. cbn [fst snd] in *. one.
  - one. fin.
  - fin.
Qed.
Lemma cocoa_powers_gd m : forall fuel ic s, in_term ic -> # s < fuel -> gd (term_post ic s) (cocoa_readPowers m fuel ic s).
Proof.
  induction fuel as [|fuel IH]; intros ic s I K; [lia|]. cbn [cocoa_readPowers]. do 2 one. eapply gd_bind; [apply consumeVarNumber_gd|]. intros [var r] [V Hr]. cbn [fst snd] in *. one.
  eapply gd_bind with (Q := term_post ic s).
  { one.
    - eapply gd_imp; [apply exp_gd; auto|]. intros p [P [Q R]]. fin.
    - eapply gd_bind; [apply exp_one_gd; auto|]. intros ic' [P Q]. fin. }
  intros [ic' r'] [P [Q R]]. cbn [fst snd] in *. one.
  - eapply gd_imp; [apply IH; auto; small|]. intros p [P2 [Q2 R2]]. fin.
  - fin.
Qed.
Lemma cocoa_term_gd m ic s : inside ic -> gd (term_post ic s) (cocoa_readTerm m ic s).
Proof.
  intros I. unfold cocoa_readTerm. eapply gd_bind; [apply beginTerm_gd; auto|]. intros ic' [P Q]. one.
  - fin.
  - eapply gd_imp; [apply cocoa_powers_gd; auto|]. intros p [P2 [Q2 R2]]. fin.
Qed.
Lemma terms_gd rt : (forall ic s, inside ic -> gd (term_post ic s) (rt ic s)) -> forall fuel ic s, inside ic -> # s < fuel -> gd (term_post ic s) (readTerms rt fuel ic s).
Proof.
  intros RT. induction fuel as [|fuel IH]; intros ic s I K; [lia|]. cbn [readTerms]. eapply gd_bind; [apply RT; auto|]. intros [ic' r] [P [Q R]]. cbn [fst snd] in *. one.
  - eapply gd_imp; [apply IH; [now apply in_term_inside | small]|]. intros p [P2 [Q2 R2]]. fin.
  - fin.
Qed.

(** ** Ideals *)
Definition mid_post (ic : consumer) (s : text) (p : consumer * text) : Prop := inside (fst p) /\ frame ic (fst p) /\ # (snd p) <= # s.
Definition ideal_post (ic : consumer) (s : text) (p : consumer * text) : Prop :=
  outside (fst p) /\ ic_require (fst p) = ic_require ic /\ # (ic_ideals (fst p)) = S # (ic_ideals ic) /\ # (snd p) < # s.
Lemma term_mid ic s s' p : term_post ic s' p -> # s' <= # s -> mid_post ic s p.
Proof. intros [P [Q R]] H. split; [|split]; auto; [now apply in_term_inside | lia]. Qed.
Lemma finish (ic0 ic : consumer) (s s' : text) : inside ic -> keeps ic0 ic -> # s' < # s ->
  gd (ideal_post ic0 s) (LET ic := endIdeal ic IN Ok (ic, s')).
Proof. intros I R L. eapply gd_bind; [apply endIdeal_gd; auto|]. intros ic' [P [Q N]]. destruct R as [R1 R2]. split; [|split; [|split]]; auto; cbn; congruence. Qed.
Ltac begin_i := eapply gd_bind; [apply beginIdeal_gd; auto|]; let ic := fresh "ic" in let P := fresh "P" in let Q := fresh "Q" in intros ic [P Q].
Lemma m2_bare_gd ic s : outside ic -> gd (ideal_post ic s) (m2_readBareIdeal ic s).
Proof.
  intros O. unfold m2_readBareIdeal. begin_i. do 4 one. eapply gd_bind with (Q := mid_post ic0 s).
  { one; [one; [one|]|].
    - fin.
    - fin.
    - eapply gd_imp; [apply terms_gd; auto using m2_term_gd|]. intros p X. eapply term_mid; [exact X|]. small. }
  intros [ic1 r] [P1 [[_ Q1] R1]]. cbn [fst snd] in *. do 2 one. apply finish; auto; [kk | small].
Qed.
Lemma monos_bare_gd ic s : outside ic -> gd (ideal_post ic s) (monos_readBareIdeal ic s).
Proof.
  intros O. unfold monos_readBareIdeal. begin_i. one. eapply gd_bind with (Q := mid_post ic0 s).
  { one.
    - fin.
    - eapply gd_bind; [apply terms_gd; auto using term_gd|]. intros [ic1 r] [P1 [Q1 R1]]. cbn [fst snd] in *. one; [|one; one].
      + fin.
      + fin.
      + fin. }
  intros [ic1 r] [P1 [[_ Q1] R1]]. cbn [fst snd] in *. one. apply finish; auto; [kk | small].
Qed.
Lemma singular_bare_gd ic s : outside ic -> gd (ideal_post ic s) (singular_readBareIdeal ic s).
Proof.
  intros O. unfold singular_readBareIdeal. begin_i. do 3 one. eapply gd_bind with (Q := mid_post ic0 s).
  { one.
    - fin.
    - eapply gd_imp; [apply terms_gd; auto using term_gd|]. intros p X. eapply term_mid; [exact X|]. small. }
  intros [ic1 r] [P1 [[_ Q1] R1]]. cbn [fst snd] in *. one. apply finish; auto; [kk | small].
Qed.
Lemma cocoa_bare_gd m ic s : outside ic -> gd (ideal_post ic s) (cocoa_readBareIdeal m ic s).
Proof.
  intros O. unfold cocoa_readBareIdeal. begin_i. do 4 one. eapply gd_bind with (Q := fun p => inside (fst p) /\ frame ic0 (fst p) /\ # (snd p) < # s).
  { one.
    - fin.
    - eapply gd_bind; [apply terms_gd; auto using cocoa_term_gd|]. intros [ic1 r] [P1 [Q1 R1]]. cbn [fst snd] in *. one. fin. }
  intros [ic1 r] [P1 [[_ Q1] R1]]. cbn [fst snd] in *.
  assert (# (snd (match_char ";" r)) <= # r) by (destruct (match_char ";" r) as [b r2] eqn:E; now apply match_char_small in E). cbv zeta.
  apply finish; auto; [kk | small].
Qed.
Lemma bare_gd m f ic s : is_common f -> outside ic -> gd (ideal_post ic s) (fmt_readBareIdeal m f ic s).
Proof. intros [-> | [-> | [-> | ->]]] O; cbn [fmt_readBareIdeal]; [apply m2_bare_gd | apply monos_bare_gd | apply singular_bare_gd | apply cocoa_bare_gd]; auto. Qed.
Lemma nm_terms_gd : forall fuel ic s, inside ic -> # s < fuel -> gd (mid_post ic s) (newmonos_readTerms fuel ic s).
Proof.
  induction fuel as [|fuel IH]; intros ic s I K; [lia|]. cbn [newmonos_readTerms]. one; [fin|].
  eapply gd_bind; [apply term_gd; auto|]. intros [ic' r] [P [Q R]]. cbn [fst snd] in *. eapply gd_imp; [apply IH; [now apply in_term_inside | small]|].
  intros p [P2 [Q2 R2]]. fin.
Qed.
Lemma nm_ideal_gd ic s : outside ic -> gd (ideal_post ic s) (newmonos_readIdeal ic s).
Proof.
  intros O. unfold newmonos_readIdeal. do 2 one. eapply gd_bind; [apply nm_ring_gd|]. intros [names r] [P Q]. cbn [fst snd] in *.
  eapply gd_bind; [apply consumeRing_gd; auto|]. intros ic1 [P1 [_ Q1]]. eapply gd_bind; [apply beginIdeal_gd; auto|]. intros ic2 [P2 [_ Q2]].
  eapply gd_bind; [apply nm_terms_gd; auto|]. intros [ic3 r3] [P3 [[_ Q3] R3]]. cbn [fst snd] in *. apply finish; auto; [kk | lia].
Qed.
Lemma f4_term_gd : forall k var ic s, in_term ic -> var + k <= # (ic_names ic) -> gd (fun p => in_term (fst p) /\ frame ic (fst p) /\ # (snd p) <= # s) (fourti2_readTerm k var ic s).
Proof.
  induction k as [|k IH]; intros var ic s I K; cbn [fourti2_readTerm]; [split; [|split]; auto; apply frame_refl|].
  eapply gd_bind with (Q := term_post ic s).
  { one.
    - one. fin.
    - eapply gd_imp; [apply exp_gd; auto; lia|]. intros p [P [Q R]]. fin. }
  intros [ic' r] [P [[Q Q'] R]]. cbn [fst snd] in *. eapply gd_imp; [apply IH; auto; rewrite Q; lia|]. intros p [P2 [Q2 R2]]. split; [|split]; auto; [eapply frame_trans; eauto; split; auto | lia].
Qed.
Lemma f4_terms_gd : forall gens vars ic s, inside ic -> vars = # (ic_names ic) -> gd (mid_post ic s) (fourti2_readTerms gens vars ic s).
Proof.
  induction gens as [|gens IH]; intros vars ic s I E; cbn [fourti2_readTerms]; [split; [|split]; auto; apply frame_refl|].
  eapply gd_bind; [apply beginTerm_gd; auto|]. intros ic1 [P1 [Q1 Q1']]. eapply gd_bind; [apply f4_term_gd; auto; cbn; rewrite Q1; lia|]. intros [ic2 r] [P2 [[Q2 Q2'] R2]]. cbn [fst snd] in *.
  eapply gd_imp; [apply IH; [now apply in_term_inside | congruence]|]. intros p [P3 [[Q3 Q3'] R3]]. split; [|split]; [auto | kk | lia].
Qed.
Lemma f4_body_gd gens vars ic s : outside ic -> gd (fun p => outside (fst p) /\ ic_require (fst p) = ic_require ic /\ # (ic_ideals (fst p)) = S # (ic_ideals ic) /\ # (snd p) <= # s) (fourti2_readBody ic gens vars s).
Proof.
  intros O. unfold fourti2_readBody. eapply gd_bind; [apply consumeRing_gd; auto using default_legal|]. intros ic1 [P1 [Q1 R1]]. begin_i. destruct Q as [Q Q'].
  eapply gd_bind; [apply f4_terms_gd; auto; rewrite Q, Q1; symmetry; apply default_length|]. intros [ic2 r] [P2 [[Q2 Q2'] R2]]. cbn [fst snd] in *.
  eapply gd_bind with (Q := fun p => inside (fst p) /\ keeps ic (fst p) /\ # (snd p) <= # s).
  { one.
    - eapply gd_bind; [apply f4_names_gd, legal_nil|]. intros [names r3] [P3 [Q3 R3]]. cbn [fst snd List.length] in *.
      eapply gd_bind; [apply consumeRing_in_gd; auto; rewrite Q3, Q2, Q, Q1, default_length; cbn; lia|]. intros ic3 [P4 Q4]. split; [|split]; auto; cbn; [kk | lia].
    - split; [|split]; auto; cbn; [kk | lia]. }
  intros [ic3 r3] [P3 [Q3 R3]]. cbn [fst snd] in *. eapply gd_bind; [apply endIdeal_gd; auto|]. intros ic4 [P4 [Q4 N]]. destruct Q3. split; [|split; [|split]]; auto; cbn; congruence.
Qed.
Lemma f4_ideal_gd m ic s : outside ic -> gd (ideal_post ic s) (fourti2_readIdeal m ic s).
Proof.
  intros O. unfold fourti2_readIdeal. do 2 one. eapply gd_imp; [apply f4_body_gd; auto|]. intros p [P [Q [R S]]]. split; [|split; [|split]]; auto. lia.
Qed.
Lemma ideal_gd m f ic s : outside ic -> gd (ideal_post ic s) (handler_readIdeal m f ic s).
Proof.
  intros O.
  assert (C : is_common f -> gd (ideal_post ic s) (common_readIdeal m f ic s)).
  { intros C. unfold common_readIdeal. eapply gd_bind; [apply ring_gd; auto|]. intros [names r] [P Q]. cbn [fst snd] in *.
    eapply gd_bind; [apply consumeRing_gd; auto|]. intros ic1 [P1 [_ Q1]]. eapply gd_imp; [apply bare_gd; auto|]. intros p [P2 [Q2 [R2 S2]]]. destruct Q1. split; [|split; [|split]]; auto; [congruence | congruence | lia]. }
  destruct f; cbn [handler_readIdeal]; try (apply C; unfold is_common; auto; fail).
  - one. eapply gd_imp; [apply nm_ideal_gd; auto|]. intros p [P2 [Q2 [R2 S2]]]. split; [|split; [|split]]; auto. lia.
  - now apply f4_ideal_gd.
Qed.

(** ** Lists of ideals *)
Definition list_post (ic : consumer) (p : consumer * text) : Prop := outside (fst p) /\ ic_require (fst p) = ic_require ic.
Lemma more_gd m f : is_common f -> forall fuel ic s, outside ic -> # s < fuel -> gd (list_post ic) (common_readMore m f fuel ic s).
Proof.
  intros C. induction fuel as [|fuel IH]; intros ic s O K; [lia|]. cbn [common_readMore]. one; [|split; auto].
  eapply gd_bind with (Q := fun p => outside (fst p) /\ ic_require (fst p) = ic_require ic /\ # (snd p) <= # s).
  { destruct (fmt_peekRing f s0) as [b r] eqn:X.
    assert (# r <= # s0). { destruct C as [-> | [-> | [-> | ->]]]; cbn [fmt_peekRing] in X; first [now apply peek_two_small in X | now apply peek_char_small in X]. }
    destruct b; [|split; [|split]; auto; cbn; lia].
    eapply gd_bind; [apply ring_gd; auto|]. intros [names r1] [P Q]. cbn [fst snd] in *. eapply gd_bind; [apply consumeRing_gd; auto|]. intros ic1 [P1 [_ [Q1 _]]]. split; [|split]; auto. cbn. lia. }
  intros [ic1 r1] [P1 [Q1 R1]]. cbn [fst snd] in *. eapply gd_bind; [apply bare_gd; auto|]. intros [ic2 r2] [P2 [Q2 [_ R2]]]. cbn [fst snd] in *.
  eapply gd_imp; [apply IH; auto; lia|]. intros p [P3 Q3]. split; auto. congruence.
Qed.
Lemma common_list_gd m f ic s : is_common f -> outside ic -> gd (list_post ic) (common_readIdeals m f ic s).
Proof.
  intros C O. unfold common_readIdeals. eapply gd_bind; [apply ring_gd; auto|]. intros [names r] [P Q]. eapply gd_bind; [apply consumeRing_gd; auto|]. intros ic1 [P1 [_ [Q1 _]]].
  one; [|split; auto]. eapply gd_bind; [apply bare_gd; auto|]. intros [ic2 r2] [P2 [Q2 _]]. cbn [fst snd] in *. eapply gd_imp; [apply more_gd; auto|]. intros p [P3 Q3]. split; auto. congruence.
Qed.
Lemma nm_more_gd : forall fuel ic s, outside ic -> # s < fuel -> gd (list_post ic) (newmonos_readMore fuel ic s).
Proof.
  induction fuel as [|fuel IH]; intros ic s O K; [lia|]. cbn [newmonos_readMore]. eapply gd_bind; [apply nm_ideal_gd; auto|]. intros [ic1 r1] [P1 [Q1 [_ R1]]]. cbn [fst snd] in *. one.
  - eapply gd_imp; [apply IH; auto; small|]. intros p [P3 Q3]. split; auto. congruence.
  - split; auto.
Qed.
Lemma nm_list_gd ic s : outside ic -> gd (list_post ic) (newmonos_readIdeals ic s).
Proof.
  intros O. unfold newmonos_readIdeals. one. one.
  - eapply gd_bind; [apply nm_ring_gd|]. intros [names r] [P Q]. eapply gd_bind; [apply consumeRing_gd; auto|]. intros ic1 [P1 [_ [Q1 _]]]. split; auto.
  - apply nm_more_gd; auto.
Qed.
Lemma f4_more_gd m : forall fuel ic s, outside ic -> # s < fuel -> gd (list_post ic) (fourti2_readMore m fuel ic s).
Proof.
  induction fuel as [|fuel IH]; intros ic s O K; [lia|]. cbn [fourti2_readMore]. one; [|split; auto]. eapply gd_bind; [apply f4_ideal_gd; auto|]. intros [ic1 r1] [P1 [Q1 [_ R1]]]. cbn [fst snd] in *.
  eapply gd_imp; [apply IH; auto; lia|]. intros p [P3 Q3]. split; auto. congruence.
Qed.
Lemma f4_list_gd m ic s : outside ic -> gd (list_post ic) (fourti2_readIdeals m ic s).
Proof.
  intros O. unfold fourti2_readIdeals. one.
  assert (R : forall s1, gd (list_post ic) (LET s2 := expect_str (lit "ring") s1 IN LET (names, s3) := fourti2_readRing (S # s2) [] s2 IN LET ic1 := consumeRing names ic IN LET _ := expectEOF s3 IN Ok (ic1, []))).
  { intros s1. one. eapply gd_bind; [apply f4_ring_gd; [apply legal_nil | lia]|]. intros [names r] [P Q]. eapply gd_bind; [apply consumeRing_gd; auto|]. intros ic1 [P1 [_ [Q1 _]]].
    eapply gd_bind; [apply expectEOF_gd|]. intros _ _. split; auto. }
  assert (B : forall s1, gd (list_post ic) (LET (vars, s2) := readSizeT m s1 IN LET (ic1, s3) := fourti2_readBody ic n vars s2 IN fourti2_readMore m (S # s3) ic1 s3)).
  { intros s1. one. eapply gd_bind; [apply f4_body_gd; auto|]. intros [ic1 r1] [P1 [Q1 [_ R1]]]. cbn [fst snd] in *. eapply gd_imp; [apply f4_more_gd; auto|]. intros p [P3 Q3]. split; auto. congruence. }
  destruct (n =? 42); [|apply B]. destruct (peekIdentifier s0) as [[|] r]; [apply R | apply B].
Qed.
Lemma list_gd m f ic s : outside ic -> gd (list_post ic) (handler_readIdeals m f ic s).
Proof.
  intros O. destruct f; cbn [handler_readIdeals]; try (apply common_list_gd; unfold is_common; auto; fail); [now apply nm_list_gd | now apply f4_list_gd].
Qed.

(** ** Whole files *)
Lemma ok_good req e : okI req e -> good_ideal (fst e, rev (to_big (snd e))).
Proof. intros [A [B _]]. split; auto. cbn [fst snd] in *. unfold monomials in *. now apply Forall_rev. Qed.
Lemma big_good ic : outside ic -> Forall good_ideal (big_ideals ic).
Proof.
  intros [_ [_ H]]. unfold big_ideals. apply Forall_rev. rewrite Forall_forall in *. intros e He. apply in_map_iff in He as [e' [<- He]]. eapply ok_good, H; eauto.
Qed.
Lemma start_outside : outside ic_new.
Proof. split; [reflexivity|]. split; [apply legal_nil | constructor]. Qed.
Lemma read_ideal_gd m f file : gd good_ideal (read_ideal m f file).
Proof.
  unfold read_ideal. eapply gd_bind; [apply ideal_gd, start_outside|]. intros [ic r] [P [_ [N _]]]. cbn [fst snd] in *. eapply gd_bind; [apply expectEOF_gd|]. intros _ _.
  pose proof (big_good ic P) as G. destruct (big_ideals ic) as [|J Js] eqn:E.
  - unfold big_ideals in E. destruct (ic_ideals ic); [discriminate|]. cbn in E. destruct (rev _); discriminate.
  - now inversion G.
Qed.
Lemma read_ideals_gd m f file : gd (fun p => legal_names (fst p) /\ Forall good_ideal (snd p)) (read_ideals m f file).
Proof.
  unfold read_ideals. eapply gd_bind; [apply list_gd, start_outside|]. intros [ic r] [P _]. cbn [fst snd] in *. eapply gd_bind; [apply expectEOF_gd|]. intros _ _.
  split; [apply P | now apply big_good].
Qed.
Lemma read_square_free_gd m f file : gd (fun p => legal_names (fst p) /\ Forall (fun b => # b = # (fst p)) (snd p)) (read_square_free m f file).
Proof.
  unfold read_square_free. eapply gd_bind; [apply (ideal_gd m f (requireSquareFree ic_new)); split; [reflexivity | split; [apply legal_nil | constructor]]|]. intros [ic r] [P [Q [N _]]]. cbn [fst snd] in *. eapply gd_bind; [apply expectEOF_gd|]. intros _ _.
  destruct P as [_ [_ P]]. destruct (ic_ideals ic) as [|[names J] l] eqn:E; [discriminate|]. inversion P as [|? ? [P1 [P2 P3]] _]; subst. cbn [fst snd] in *.
  destruct P3 as [B ->]; [exact Q|]. cbn [gd fst snd]. split; auto. apply Forall_rev. unfold monomials in P2. rewrite Forall_forall in *. cbn [to_big] in P2. intros b Hb.
  destruct (P2 _ (in_map _ _ _ Hb)) as [X _]. now rewrite map_length in X.
Qed.
