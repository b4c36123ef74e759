(** A text that can be read in a format is detected as that format. *)
From Coq Require Import String Ascii.
From Coq Require Import List Arith Bool ZArith Lia.
Import ListNotations.
From Verif Require Import M_Term M_Api M_Names M_IO M_IOPoly.

Definition first_is (P : ascii -> Prop) (s : text) : Prop := exists c r, eat s = c :: r /\ P c.
Lemma char_first c s r : expect_char c s = Ok r -> first_is (eq c) s.
Proof. unfold expect_char. destruct (eat s) as [|x s'] eqn:E; [discriminate|]. destruct (ascii_dec x c) as [->|]; [|discriminate]. intros _. exists c, s'. auto. Qed.
Lemma str_first c str s r : expect_str (c :: str) s = Ok r -> first_is (eq c) s.
Proof. unfold expect_str. destruct (eat s) as [|x s'] eqn:E; [discriminate|]. cbn [expect_rest]. destruct (ascii_dec c x) as [->|]; [|discriminate]. intros _. exists x, s'. auto. Qed.
Definition numeric (c : ascii) : Prop := isdigit c = true \/ c = "+"%char \/ c = "-"%char.
Lemma integer_first s r : readInteger s = Ok r -> first_is numeric s.
Proof.
  unfold readInteger, readIntegerString. destruct (eat s) as [|c s'] eqn:E; [discriminate|]. intros H. exists c, s'. split; auto. unfold numeric.
  destruct (ascii_dec c "-") as [->|N1]; [auto|]. destruct (ascii_dec c "+") as [->|N2]; [auto|]. left. cbn [span] in H. destruct (isdigit c); [auto|discriminate].
Qed.
Lemma size_first m s r : readSizeT m s = Ok r -> first_is numeric s.
Proof. unfold readSizeT. intros H. destruct (readInteger s) as [p| | | | |] eqn:E; try discriminate. eapply integer_first; eauto. Qed.
Lemma ident_first s name r : readIdentifier s = Ok (name, r) -> exists c a b, eat s = c :: a /\ name = c :: b.
Proof.
  unfold readIdentifier. destruct (eat s) as [|c s'] eqn:E; [discriminate|]. destruct (isalpha c) eqn:A; [|discriminate]. cbn [span]. assert (isident c = true) as -> by (unfold isident, isalnum; now rewrite A).
  intros H. injection H as <- <-. eauto.
Qed.
(** What a text in a format starts with *)
Definition opening (f : format) (c : ascii) : Prop :=
  match f with
  | M2 => c = "R"%char | CoCoA4 => c = "U"%char | Singular => c = "r"%char | Monos => c = "v"%char | NewMonos => c = "("%char | Fourti2 => numeric c
  end.
Lemma weaken (P Q : ascii -> Prop) s : first_is P s -> (forall c, P c -> Q c) -> first_is Q s.
Proof. intros [c [r [E H]]] K. exists c, r. auto. Qed.
Lemma detect_opening f file : first_is (opening f) (" "%char :: file) -> autoDetect file = f.
Proof.
  intros [c [r [E H]]]. change (eat (" "%char :: file)) with (eat file) in E. unfold autoDetect. rewrite E.
  destruct f; cbn [opening] in H; try (subst c; reflexivity). assert (X : In c (lit "0123456789+-")).
  { destruct H as [H|[->| ->]]; [|cbn; tauto|cbn; tauto]. destruct c as [[] [] [] [] [] [] [] []]; vm_compute in H; try discriminate H; cbn; tauto. }
  cbn in X. intuition (subst; reflexivity).
Qed.
Ltac from_char H := eapply weaken; [eapply char_first; exact H|]; intros c <-; reflexivity.
Ltac from_str H := eapply weaken; [eapply str_first; exact H|]; intros c <-; reflexivity.
Ltac head H := match type of H with context [rbind ?r _] => let E := fresh "E" in destruct r as [?| | | | |] eqn:E; try discriminate H end.
Lemma ring_first m f s r : fmt_readRing m f s = Ok r -> first_is (opening f) s.
Proof.
  destruct f; cbn [fmt_readRing]; try discriminate; intros H.
  - unfold m2_readRing in H. destruct (readIdentifier s) as [[name s']| | | | |] eqn:E; try discriminate H. cbn [rbind] in H. apply ident_first in E. destruct E as [c [a [b [E ->]]]].
    destruct (ascii_dec c "R") as [->|]; [|discriminate H]. exists "R"%char, a. split; auto. reflexivity.
  - unfold cocoa_readRing in H. destruct (expect_str (lit "Use") s) as [s'| | | | |] eqn:E; try discriminate H. from_str E.
  - unfold singular_readRing in H. destruct (expect_str (lit "ring") s) as [s'| | | | |] eqn:E; try discriminate H. from_str E.
  - unfold monos_readRing in H. destruct (expect_str (lit "vars") s) as [s'| | | | |] eqn:E; try discriminate H. from_str E.
Qed.
Lemma common_first m f ic s r : common_readIdeal m f ic s = Ok r -> first_is (opening f) s.
Proof. unfold common_readIdeal. intros H. destruct (fmt_readRing m f s) as [p| | | | |] eqn:E; try discriminate H. eapply ring_first; eauto. Qed.
Lemma commons_first m f ic s r : common_readIdeals m f ic s = Ok r -> first_is (opening f) s.
Proof. unfold common_readIdeals. intros H. destruct (fmt_readRing m f s) as [p| | | | |] eqn:E; try discriminate H. eapply ring_first; eauto. Qed.
Lemma ideal_first m f ic s r : handler_readIdeal m f ic s = Ok r -> first_is (opening f) s.
Proof.
  intros H. destruct f; cbn [handler_readIdeal] in H; try (apply common_first in H; exact H).
  - destruct (expect_char "(" s) as [s'| | | | |] eqn:E; try discriminate H. from_char E.
  - unfold fourti2_readIdeal in H. destruct (readSizeT m s) as [p| | | | |] eqn:E; try discriminate H. eapply size_first; eauto.
Qed.
Lemma ideals_first m f ic s r : handler_readIdeals m f ic s = Ok r -> first_is (opening f) s.
Proof.
  intros H. destruct f; cbn [handler_readIdeals] in H; try (apply commons_first in H; exact H).
  - unfold newmonos_readIdeals in H. destruct (expect_char "(" s) as [s'| | | | |] eqn:E; try discriminate H. from_char E.
  - unfold fourti2_readIdeals in H. destruct (readSizeT m s) as [p| | | | |] eqn:E; try discriminate H. eapply size_first; eauto.
Qed.
Lemma poly_first m f s r : handler_readPolynomial m f s = Ok r -> first_is (opening f) s.
Proof.
  unfold handler_readPolynomial. intros H. destruct (has_polynomials f) eqn:P; [|discriminate H]. destruct f; try discriminate P;
    try (unfold common_readPolynomial in H; match type of H with context [fmt_readRing m ?g s] => destruct (fmt_readRing m g s) as [p| | | | |] eqn:E; try discriminate H; eapply ring_first; eauto end).
  unfold fourti2_readPolynomial in H. destruct (readSizeT m s) as [p| | | | |] eqn:E; try discriminate H. eapply size_first; eauto.
Qed.
Lemma detect_readable m f file :
  ((exists J, read_ideal m f file = Ok J) \/ (exists B, read_square_free m f file = Ok B) \/ (exists Js, read_ideals m f file = Ok Js) \/ (exists p, read_polynomial m f file = Ok p)) ->
  autoDetect file = f.
Proof.
  intros H. apply detect_opening. destruct H as [[J H]|[[B H]|[[Js H]|[p H]]]].
  - unfold read_ideal in H. destruct (handler_readIdeal m f ic_new _) as [r| | | | |] eqn:E; try discriminate H. eapply ideal_first; eauto.
  - unfold read_square_free in H. destruct (handler_readIdeal m f (requireSquareFree ic_new) _) as [r| | | | |] eqn:E; try discriminate H. eapply ideal_first; eauto.
  - unfold read_ideals in H. destruct (handler_readIdeals m f ic_new _) as [r| | | | |] eqn:E; try discriminate H. eapply ideals_first; eauto.
  - unfold read_polynomial in H. destruct (handler_readPolynomial m f _) as [r| | | | |] eqn:E; try discriminate H. eapply poly_first; eauto.
Qed.
