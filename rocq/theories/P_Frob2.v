(** Reading Frobenius instances. *)
From Coq Require Import String Ascii.
From Coq Require Import List Arith Bool ZArith Lia Znumtheory.
Import ListNotations.
From Verif Require Import M_Names M_IO Spec_IO M_Frob Spec_Frob P_IO P_IO7 P_IO8 P_Frob.
Local Open Scope Z_scope.

Lemma gcd_fold : forall rest a, 0 <= a -> let g := fold_left Z.gcd rest a in 0 <= g /\ Forall (fun x => (g | x)) (a :: rest) /\ forall d, Forall (fun x => (d | x)) (a :: rest) -> (d | g).
Proof.
  induction rest as [|x rest IH]; intros a A; cbn [fold_left]; cbv zeta.
  - split; auto. split; [constructor; auto; apply Z.divide_refl|]. intros d F. now inversion F.
  - destruct (IH (Z.gcd a x) (Z.gcd_nonneg a x)) as [B [C D]]. cbv zeta in *. set (g := fold_left Z.gcd rest (Z.gcd a x)) in *. split; auto.
    inversion C as [|? ? C1 C2]; subst. split.
    + constructor; [exact (Z.divide_trans _ _ _ C1 (Z.gcd_divide_l a x))|]. constructor; auto. exact (Z.divide_trans _ _ _ C1 (Z.gcd_divide_r a x)).
    + intros d F. inversion F as [|? ? F1 F2]; inversion F2; subst. apply D. constructor; auto. now apply Z.gcd_greatest.
Qed.
Lemma gcd_coprime a rest : 0 < a -> fold_left Z.gcd rest a = 1 <-> coprime (a :: rest).
Proof.
  intros A. destruct (gcd_fold rest a ltac:(lia)) as [B [C D]]. cbv zeta in *. set (g := fold_left Z.gcd rest a) in *. split.
  - intros E d P F. apply D in F. rewrite E in F. apply Z.divide_1_r in F. lia.
  - intros H. now apply H.
Qed.

Lemma readNumbers_gd : forall fuel acc s, (List.length s < fuel)%nat -> Forall (fun a => 1 < a) acc ->
  gd (fun p => Forall (fun a => 1 < a) (fst p) /\ eat (snd p) = []) (readNumbers fuel acc s).
Proof.
  induction fuel as [|fuel IH]; intros acc s K F; [lia|]. cbn [readNumbers]. unfold hasMoreInput. pose proof (eat_le s) as EL. destruct (eat s) as [|c r] eqn:E.
  - cbn. auto.
  - eapply gd_bind; [apply readInteger_gd|]. intros [n s'] H. cbn [snd] in H. destruct (n <=? 1) eqn:N; [exact I|]. apply IH; [lia|].
    apply Forall_app. split; auto. constructor; auto. lia.
Qed.
Lemma readInstance_gd s : gd (fun p => Forall (fun a => 1 < a) (fst p) /\ coprime (fst p) /\ eat (snd p) = []) (readFrobeniusInstance s).
Proof.
  unfold readFrobeniusInstance. eapply gd_bind; [apply readNumbers_gd; auto; lia|]. intros [ns s'] [F E]. cbn [fst snd] in *. destruct ns as [|a rest]; [exact I|].
  destruct (fold_left Z.gcd rest a =? 1) eqn:G; [|exact I]. cbn. split; auto. split; auto. apply Z.eqb_eq in G. apply gcd_coprime; auto. inversion F; subst. lia.
Qed.
(** [res] other than Ok, from readers: which errors there are *)
Lemma readNumbers_err : forall fuel acc s, (List.length s < fuel)%nat -> (exists p, readNumbers fuel acc s = Ok p) \/ readNumbers fuel acc s = SyntaxError.
Proof.
  induction fuel as [|fuel IH]; intros acc s K; [lia|]. cbn [readNumbers]. unfold hasMoreInput. pose proof (eat_le s) as EL. destruct (eat s) as [|c r] eqn:E; [eauto|].
  pose proof (readInteger_gd (c :: r)) as G. unfold readInteger in *. unfold readIntegerString in *.
  match goal with |- context [let '(sign, s0) := ?m in _] => destruct m as [sg q] end.
  destruct (span isdigit q) as [[|d ds] s'] eqn:SP; cbn [rbind] in *; auto. destruct (parseInteger sg (d :: ds) <=? 1); auto. apply IH. cbn [gd snd] in G. lia.
Qed.

Lemma frobdyn_any max_int file :
  (forall fuel, frobdyn fuel max_int file = SyntaxError) \/
  exists ns, Forall (fun a => 1 < a) ns /\ coprime ns /\
    ((List.length ns <> 2%nat /\ Forall (fun a => max_int < a) ns) \/
     exists g, frobenius_number ns g /\ exists n, forall fuel, (n <= fuel)%nat -> frobdyn fuel max_int file = Ok (z_str g ++ [nl])).
Proof.
  pose proof (readInstance_gd (" "%char :: file)) as G. unfold frobdyn. destruct (readFrobeniusInstance (" "%char :: file)) as [[ns s]| | | | |] eqn:R; cbn [gd fst snd] in G; try contradiction.
  - right. destruct G as [F [C E]]. exists ns. split; auto. split; auto. cbn [rbind]. unfold expectEOF. rewrite E. cbn [rbind].
    destruct (Exists_dec (fun a => a <= max_int) ns (fun a => Z_le_dec a max_int)) as [X|X].
    + right. destruct (dynamic_frobenius max_int ns C F X) as [g [G1 [n G2]]]. exists g. split; auto. exists n. intros fuel K. now rewrite G2.
    + destruct (Nat.eq_dec (List.length ns) 2) as [L|L].
      * right. destruct ns as [|a [|b [|]]]; try discriminate. exists (a * b - a - b). inversion F as [|? ? F1 F2]; inversion F2; subst.
        split; [apply two_numbers; auto; lia|]. exists O. reflexivity.
      * left. split; auto. apply Forall_forall. intros a A. apply Z.nle_gt. intros Y. apply X. apply Exists_exists. eauto.
  - left. reflexivity.
  - exfalso. unfold readFrobeniusInstance in R. destruct (readNumbers_err (S (List.length (" "%char :: file))) [] (" "%char :: file) ltac:(lia)) as [[[ns q] H]|H]; rewrite H in R; cbn [rbind] in R; [|discriminate].
    destruct ns as [|a rest]; [discriminate|]. destruct (_ =? 1); discriminate.
  - exfalso. unfold readFrobeniusInstance in R. destruct (readNumbers_err (S (List.length (" "%char :: file))) [] (" "%char :: file) ltac:(lia)) as [[[ns q] H]|H]; rewrite H in R; cbn [rbind] in R; [|discriminate].
    destruct ns as [|a rest]; [discriminate|]. destruct (_ =? 1); discriminate.
Qed.

(** ** Texts of numbers *)
Definition ntext (ns : list Z) (ws : list text) : text := concat (map (fun p => z_str (fst p) ++ snd p) (combine ns ws)).
Lemma blank_space w : blank w -> Forall (fun c => isspace c = true) w /\ w <> [].
Proof.
  intros [N F]. split; auto. eapply Forall_impl; [|exact F]. intros c [H|H]; unfold isspace, within.
  - rewrite H. reflexivity.
  - apply orb_true_iff. left. apply andb_true_iff. rewrite !Nat.leb_le. lia.
Qed.
Lemma eat_blank : forall w rest, Forall (fun c => isspace c = true) w -> eat (w ++ rest) = eat rest.
Proof. induction w as [|c w IH]; intros rest F; auto. inversion F as [|? ? F1 F2]; subst. cbn [app eat]. rewrite F1. auto. Qed.
Lemma space_not_digit c : isspace c = true -> isdigit c = false.
Proof. intros H. destruct (isdigit c) eqn:D; auto. apply digit_facts in D as [_ D]. congruence. Qed.
Lemma readNumbers_yes : forall ns ws fuel acc s, Forall (fun a => 1 < a) ns -> Forall blank ws -> List.length ws = List.length ns -> eat s = eat (ntext ns ws) -> (List.length ns < fuel)%nat ->
  readNumbers fuel acc s = Ok (acc ++ ns, []).
Proof.
  induction ns as [|n ns IH]; intros [|w ws] fuel acc s F B L E K; try discriminate; (destruct fuel as [|fuel]; [cbn in K; lia|]); cbn [readNumbers]; unfold hasMoreInput.
  - rewrite E. cbn. now rewrite app_nil_r.
  - inversion F as [|? ? F1 F2]; inversion B as [|? ? B1 B2]; subst. destruct (blank_space w B1) as [W1 W2]. unfold ntext in E. cbn [combine map concat fst snd] in E. rewrite <- app_assoc in E.
    fold (ntext ns ws) in E. rewrite eat_z in E by lia. destruct (z_str_digits n ltac:(lia)) as [Z1 Z2]. rewrite E.
    destruct (z_str n ++ w ++ ntext ns ws) as [|c r] eqn:Q; [destruct (z_str n); [congruence | discriminate]|]. rewrite <- Q.
    assert (ST : stop isdigit (w ++ ntext ns ws)). { destruct w as [|d w]; [congruence|]. inversion W1; subst. cbn. now apply space_not_digit. }
    unfold readInteger. rewrite (readIntegerString_yes (z_str n) _ (w ++ ntext ns ws) Z1 Z2 ST) by (apply eat_z; lia).
    cbn [rbind]. rewrite parse_value by auto. cbv zeta. destruct (ascii_dec "+" "-") as [X|_]; [discriminate|].
    assert (V : fold_left (fun l c => 10 * l + digit_value c) (z_str n) 0 = n).
    { assert (Some (fold_left (fun l c => 10 * l + digit_value c) (z_str n) 0) = Some n) as H; [|congruence]. rewrite <- mpz_acc_fold by auto.
      destruct n as [|p|p]; try lia. cbn [z_str]. now rewrite mpz_acc_zero, DecimalPos.Unsigned.of_to. }
    rewrite V. assert (n <=? 1 = false) as -> by lia. rewrite (IH ws fuel (acc ++ [n])); auto.
    + now rewrite <- app_assoc.
    + now apply eat_blank.
    + cbn in K. lia.
Qed.
Lemma ntext_length : forall ns ws, Forall (fun a => 1 < a) ns -> List.length ws = List.length ns -> (List.length ns <= List.length (ntext ns ws))%nat.
Proof.
  induction ns as [|n ns IH]; intros [|w ws] F L; try discriminate; cbn; auto. rewrite !app_length. inversion F; subst. destruct (z_str_digits n ltac:(lia)) as [_ Z2].
  specialize (IH ws ltac:(auto) ltac:(cbn in L; congruence)). unfold ntext in IH. destruct (z_str n); [congruence|]. cbn. lia.
Qed.
Lemma frobdyn_text max_int ns ws : Forall (fun a => 1 < a) ns -> coprime ns -> List.length ws = List.length ns -> Forall blank ws -> Exists (fun a => a <= max_int) ns ->
  exists g, frobenius_number ns g /\ exists n, forall fuel, (n <= fuel)%nat ->
    frobdyn fuel max_int (concat (map (fun p => z_str (fst p) ++ snd p) (combine ns ws))) = Ok (z_str g ++ [nl]).
Proof.
  intros F C L B X. destruct (dynamic_frobenius max_int ns C F X) as [g [G [n H]]]. exists g. split; auto. exists n. intros fuel K. fold (ntext ns ws).
  unfold frobdyn, readFrobeniusInstance. rewrite (readNumbers_yes ns ws) by (auto; cbn [List.length]; pose proof (ntext_length ns ws F L); lia). cbn [rbind app].
  destruct ns as [|a rest]; [inversion X|]. assert (fold_left Z.gcd rest a =? 1 = true) as ->. { apply Z.eqb_eq. apply gcd_coprime; auto. inversion F; subst. lia. }
  cbn [rbind]. unfold expectEOF. cbn [eat rbind]. now rewrite H.
Qed.
(** Not coprime *)
Lemma frobdyn_reject fuel max_int ns ws : Forall (fun a => 1 < a) ns -> ~ coprime ns -> List.length ws = List.length ns -> Forall blank ws ->
  frobdyn fuel max_int (concat (map (fun p => z_str (fst p) ++ snd p) (combine ns ws))) = SyntaxError.
Proof.
  intros F C L B. fold (ntext ns ws). unfold frobdyn, readFrobeniusInstance. rewrite (readNumbers_yes ns ws) by (auto; cbn [List.length]; pose proof (ntext_length ns ws F L); lia). cbn [rbind app].
  destruct ns as [|a rest]; [reflexivity|]. assert (fold_left Z.gcd rest a =? 1 = false) as ->; [|reflexivity].
  apply Z.eqb_neq. intros E. apply C. apply gcd_coprime; auto. inversion F; subst. lia.
Qed.
Lemma one_refutes : exists (numbers : list Z) (g : Z),
  coprime numbers /\ Forall (fun a => 0 < a) numbers /\ dynamicFrobenius 10 2147483647 numbers = Ok g /\ representable numbers g.
Proof.
  exists [1; 2; 3], 0. split; [apply gcd_coprime; [lia | reflexivity]|]. split; [repeat constructor; lia|]. split; [vm_compute; reflexivity|].
  exists [0; 0; 0]. split; [reflexivity|]. split; [repeat constructor; lia | reflexivity].
Qed.
