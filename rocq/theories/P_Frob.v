(** Frobenius numbers. *)
From Coq Require Import String Ascii.
From Coq Require Import List Arith Bool ZArith Lia Znumtheory.
Import ListNotations.
From Verif Require Import M_Names M_IO Spec_IO M_Frob Spec_Frob P_IO P_IO8.
Local Open Scope Z_scope.

(** ** Representable numbers *)
Lemma inner_zero xs : inner (map (fun _ => 0) xs) xs = 0.
Proof. induction xs as [|x xs IH]; cbn [map inner]; auto. Qed.
Lemma rep_0 xs : representable xs 0.
Proof. exists (map (fun _ => 0) xs). split; [apply map_length|]. split; [|now rewrite inner_zero]. apply Forall_forall. intros c H. apply in_map_iff in H as [? [<- _]]. lia. Qed.
Lemma rep_add : forall xs m n, representable xs m -> representable xs n -> representable xs (m + n).
Proof.
  induction xs as [|x xs IH]; intros m n [cs [L1 [F1 ->]]] [ds [L2 [F2 ->]]].
  - destruct cs, ds; try discriminate. apply rep_0.
  - destruct cs as [|c cs], ds as [|d ds]; try discriminate. inversion F1; inversion F2; subst. cbn [inner].
    destruct (IH (inner cs xs) (inner ds xs)) as [es [L3 [F3 E]]].
    + exists cs. auto.
    + exists ds. auto.
    + exists ((c + d) :: es). cbn in *. split; [congruence|]. split; [constructor; auto; lia|]. rewrite <- E. lia.
Qed.
Lemma rep_in : forall xs a, In a xs -> representable xs a.
Proof.
  induction xs as [|x xs IH]; intros a H; [destruct H|]. destruct H as [<-|H].
  - exists (1 :: map (fun _ => 0) xs). cbn [inner List.length]. rewrite map_length, inner_zero. split; auto. split; [constructor; [lia|]|lia].
    apply Forall_forall. intros c H. apply in_map_iff in H as [? [<- _]]. lia.
  - destruct (IH a H) as [cs [L [F E]]]. exists (0 :: cs). cbn [inner List.length]. split; auto. split; [constructor; auto; lia|]. lia.
Qed.
Lemma rep_mul xs n k : 0 <= k -> representable xs n -> representable xs (k * n).
Proof.
  intros K R. pattern k. apply natlike_ind; [|intros x X IH|exact K].
  - replace (0 * n) with 0 by lia. apply rep_0.
  - replace (Z.succ x * n) with (x * n + n) by lia. now apply rep_add.
Qed.
Lemma rep_nonneg xs n : Forall (fun a => 0 < a) xs -> representable xs n -> 0 <= n.
Proof.
  intros F [cs [L [G ->]]]. revert cs L G. induction F as [|x xs X F IH]; intros [|c cs] L G; try discriminate. cbn [inner].
  inversion G; subst. specialize (IH cs ltac:(cbn in L; congruence) ltac:(auto)). nia.
Qed.
(** One step back *)
Lemma rep_step : forall xs n, Forall (fun a => 0 < a) xs -> representable xs n -> n <> 0 -> exists a, In a xs /\ representable xs (n - a).
Proof.
  induction xs as [|x xs IH]; intros n F [cs [L [G E]]] N; (destruct cs as [|c cs]; try discriminate).
  - cbn in E. congruence.
  - inversion F; inversion G; subst. cbn [inner] in *. destruct (Z.eq_dec c 0) as [->|C].
    + destruct (IH (inner cs xs)) as [a [A [ds [L2 [F2 E2]]]]]; auto.
      * exists cs. auto.
      * exists a. split; [now right|]. exists (0 :: ds). cbn in *. split; [congruence|]. split; [constructor; auto; lia|]. lia.
    + exists x. split; [now left|]. exists ((c - 1) :: cs). cbn [inner]. split; auto. split; [constructor; auto; lia|]. lia.
Qed.
Lemma rep_ge_min xs lo n : 0 < lo -> Forall (fun a => lo <= a) xs -> representable xs n -> n = 0 \/ lo <= n.
Proof.
  intros LO F R. destruct (Z.eq_dec n 0) as [E|E]; auto. right. assert (P : Forall (fun a => 0 < a) xs) by (eapply Forall_impl; [|exact F]; cbn; intros; lia).
  destruct (rep_step xs n P R E) as [a [A B]]. apply (rep_nonneg xs _ P) in B. rewrite Forall_forall in F. specialize (F a A). lia.
Qed.

(** ** All large numbers are representable *)
(** Integer combinations *)
Lemma bezout : forall xs, exists cs, length cs = length xs /\ (forall a, In a xs -> (inner cs xs | a)) /\ 0 <= inner cs xs.
Proof.
  induction xs as [|x xs [cs [L [D P]]]].
  - exists []. split; auto. split; [intros a []|]. cbn. lia.
  - set (g := inner cs xs) in *. destruct (Zgcd_is_gcd x g) as [G1 G2 G3].
    destruct (Zis_gcd_bezout x g (Z.gcd x g) (Zgcd_is_gcd x g)) as [u v UV].
    exists (u :: map (Z.mul v) cs). assert (E : forall cs xs, inner (map (Z.mul v) cs) xs = v * inner cs xs).
    { clear. induction cs as [|c cs IH]; intros [|x xs]; cbn; try lia. rewrite IH. lia. }
    cbn [inner length]. rewrite map_length, E. fold g. split; [congruence|]. assert (u * x + v * g = Z.gcd x g) as -> by lia.
    split; [|apply Z.gcd_nonneg]. intros a [<-|A]; auto. specialize (D a A). eapply Z.divide_trans; eauto.
Qed.
Lemma split_combo : forall cs xs, length cs = length xs -> exists p q, representable xs p /\ representable xs q /\ inner cs xs = p - q.
Proof.
  induction cs as [|c cs IH]; intros [|x xs] L; try discriminate.
  - exists 0, 0. split; [apply rep_0|]. split; [apply rep_0|]. reflexivity.
  - destruct (IH xs ltac:(cbn in L; congruence)) as [p [q [[ps [P1 [P2 P3]]] [[qs [Q1 [Q2 Q3]]] E]]]]. cbn [inner].
    exists (Z.max c 0 * x + p), (Z.max (- c) 0 * x + q). split; [|split].
    + exists (Z.max c 0 :: ps). cbn [inner List.length]. split; [congruence|]. split; [constructor; auto; lia|]. lia.
    + exists (Z.max (- c) 0 :: qs). cbn [inner List.length]. split; [congruence|]. split; [constructor; auto; lia|]. lia.
    + rewrite E. destruct (Z.le_gt_cases 0 c); [rewrite !Z.max_l, Z.max_r by lia | rewrite (Z.max_r c), Z.max_l by lia]; lia.
Qed.
Lemma all_large xs a : coprime xs -> Forall (fun a => 0 < a) xs -> In a xs -> exists N, forall n, N <= n -> representable xs n.
Proof.
  intros C F A. destruct (bezout xs) as [cs [L [D P]]].
  assert (E : inner cs xs = 1) by (apply C; auto; now apply Forall_forall). rewrite Forall_forall in F. specialize (F a A).
  destruct (split_combo cs xs L) as [p [q [RP [RQ S]]]]. exists ((a - 1) * q). intros n N.
  set (t := n - (a - 1) * q). pose proof (Z.div_mod t a ltac:(lia)) as DM. pose proof (Z.mod_pos_bound t a F) as MB. set (r := t mod a) in *. set (k := t / a) in *.
  assert (0 <= k) by (unfold k; apply Z.div_pos; lia).
  replace n with (k * a + (r * p + (a - 1 - r) * q)) by nia.
  apply rep_add; [apply rep_mul; auto; now apply rep_in|]. apply rep_add; apply rep_mul; auto; lia.
Qed.

(** ** Two numbers *)
Lemma two_numbers a b : 0 < a -> 0 < b -> coprime [a; b] -> frobenius_number [a; b] (a * b - a - b).
Proof.
  intros A B C. assert (G : Zis_gcd a b 1).
  { assert (Z.gcd a b = 1) as E; [|rewrite <- E; apply Zgcd_is_gcd]. apply C; [apply Z.gcd_nonneg|]. destruct (Zgcd_is_gcd a b). auto. }
  split.
  - intros [cs [L [F E]]]. destruct cs as [|x [|y [|]]]; try discriminate. inversion F as [|? ? X F2]; inversion F2 as [|? ? Y _]; subst. cbn [inner] in E.
    assert (D : (b | (x + 1))).
    { apply (Gauss b a (x + 1)); [exists (a - (y + 1)); lia|]. apply rel_prime_sym. exact G. }
    destruct D as [k K]. assert (1 <= k) by nia. nia.
  - intros n N. destruct (Zis_gcd_bezout a b 1 G) as [u v UV].
    set (x := (n * u) mod b). pose proof (Z.mod_pos_bound (n * u) b B) as MB. fold x in MB. pose proof (Z.div_mod (n * u) b ltac:(lia)) as DM. fold x in DM.
    set (k := n * u / b) in *. assert (E : n - x * a = (n * v + k * a) * b) by nia.
    assert (0 <= n * v + k * a). { apply Z.nlt_ge. intros Q. assert ((n * v + k * a) * b <= - b) by nia. nia. }
    exists [x; n * v + k * a]. split; auto. split; [repeat constructor; lia|]. cbn [inner]. lia.
Qed.

(** ** The loop *)
Section Loop.
  Context (max_int : Z) (xs : list Z) (lo : Z).
  Hypothesis (LO : 1 < lo) (MIN : Forall (fun a => lo <= a) xs) (MI : In lo xs) (MX : lo <= max_int).
  Lemma positive : Forall (fun a => 0 < a) xs.
  Proof using LO MIN. eapply Forall_impl; [|exact MIN]. cbn. intros; lia. Qed.
  Definition linv (repr : list Z) (mnr run number : Z) : Prop :=
    1 <= number /\ (forall k, In k repr <-> 0 <= k < number /\ representable xs k) /\ 0 <= mnr < number /\ run = number - 1 - mnr /\
    (forall k, mnr < k < number -> representable xs k) /\ (mnr = 0 \/ ~ representable xs mnr).
  Lemma found repr mnr run number : linv repr mnr run number -> representableBy xs repr number = true <-> representable xs number.
  Proof using LO MIN.
    intros [N [R _]]. unfold representableBy. rewrite existsb_exists. split.
    - intros [a [A X]]. destruct (in_dec Z.eq_dec (number - a) repr) as [Y|]; [|discriminate]. apply R in Y as [_ Y].
      replace number with (number - a + a) by lia. apply rep_add; auto. now apply rep_in.
    - intros X. destruct (rep_step xs number positive X ltac:(lia)) as [a [A Y]]. exists a. split; auto.
      destruct (in_dec Z.eq_dec (number - a) repr) as [Z0|Z0]; auto. exfalso. apply Z0. apply R. split; auto. pose proof (rep_nonneg xs _ positive Y).
      pose proof positive as P. rewrite Forall_forall in P. specialize (P a A). lia.
  Qed.
  Lemma up_from mnr : (forall k, mnr < k <= mnr + lo -> representable xs k) -> forall n, mnr < n -> representable xs n.
  Proof using LO MI.
    intros H n N. assert (X : forall j, 0 <= j -> forall k, mnr < k <= mnr + lo + j -> representable xs k).
    { intros j J. pattern j. apply natlike_ind; [|intros x X IH|exact J].
      - intros k K. apply H. lia.
      - intros k K. destruct (Z.le_gt_cases k (mnr + lo + x)); [apply IH; lia|].
        replace k with (k - lo + lo) by lia. apply rep_add; [apply IH; lia | now apply rep_in]. }
    apply (X (n - mnr)); lia.
  Qed.
  Lemma loop_ends N : (forall n, N <= n -> representable xs n) -> forall fuel repr mnr run number, linv repr mnr run number -> N + lo + 2 <= number + Z.of_nat fuel -> 
    exists g, frob_loop fuel max_int xs lo repr mnr run number = Ok g /\ frobenius_number xs g.
  Proof using All.
    intros BIG. induction fuel as [|fuel IH]; intros repr mnr run number I K; cbn [frob_loop].
    - destruct (run <? lo) eqn:E.
      + exfalso. apply Z.ltb_lt in E. destruct I as [I1 [I2 [I3 [I4 [I5 I6]]]]].
        assert (mnr < N \/ mnr = 0) as [X|X].
        { destruct I6 as [I6|I6]; auto. left. apply Z.nle_gt. intros X. apply I6, BIG. lia. }
        * lia.
        * destruct (Z.le_gt_cases N 0) as [Y|Y]; [|lia]. assert (R : representable xs 1) by (apply BIG; lia). apply (rep_ge_min xs lo) in R; auto; lia.
      + exists mnr. split; auto. apply Z.ltb_ge in E. destruct I as [I1 [I2 [I3 [I4 [I5 I6]]]]]. split.
        * destruct I6 as [->|]; auto. intros _. assert (R : representable xs 1) by (apply I5; lia). apply (rep_ge_min xs lo) in R; auto; lia.
        * apply up_from. intros k Hk. apply I5. lia.
    - destruct (run <? lo) eqn:E.
      + apply Z.ltb_lt in E. pose proof (found repr mnr run number I) as FD. destruct I as [I1 [I2 [I3 [I4 [I5 I6]]]]]. destruct (representableBy xs repr number) eqn:B.
        * assert (R : representable xs number) by (now apply FD). assert (run =? max_int = false) as -> by lia. apply IH; [|lia].
          split; [lia|]. split; [|split; [lia|split; [lia|split; [|exact I6]]]].
          -- intros k. split.
             ++ intros [<-|H]; [split; [lia | auto]|]. apply I2 in H as [H1 H2]. split; [lia | auto].
             ++ intros [H1 H2]. destruct (Z.eq_dec number k); [now left|]. right. apply I2. split; auto. lia.
          -- intros k Hk. destruct (Z.eq_dec k number) as [->|]; auto. apply I5. lia.
        * assert (R : ~ representable xs number) by (intros X; apply FD in X; congruence). apply IH; [|lia].
          split; [lia|]. split; [|split; [lia|split; [lia|split; [|now right]]]].
          -- intros k. split.
             ++ intros H. apply I2 in H as [H1 H2]. split; [lia | auto].
             ++ intros [H1 H2]. apply I2. split; auto. destruct (Z.eq_dec k number) as [->|]; [contradiction | lia].
          -- intros k Hk. lia.
      + exists mnr. split; auto. apply Z.ltb_ge in E. destruct I as [I1 [I2 [I3 [I4 [I5 I6]]]]]. split.
        * destruct I6 as [->|]; auto. intros _. assert (R : representable xs 1) by (apply I5; lia). apply (rep_ge_min xs lo) in R; auto; lia.
        * apply up_from. intros k Hk. apply I5. lia.
  Qed.
End Loop.
Lemma min_fold : forall xs a, let m := fold_left Z.min xs a in In m (a :: xs) /\ Forall (fun x => m <= x) (a :: xs).
Proof.
  induction xs as [|x xs IH]; intros a; cbn [fold_left].
  - split; [now left | constructor; auto; lia].
  - cbv zeta in *. destruct (IH (Z.min a x)) as [A B]. inversion B as [|? ? B1 B2]; subst. split.
    + destruct A as [A|A]; [|right; now right]. rewrite <- A. destruct (Z.min_spec a x) as [[_ ->]|[_ ->]]; [now left | right; now left].
    + constructor; [lia|]. constructor; auto. lia.
Qed.
Lemma dynamic_frobenius max_int xs : coprime xs -> Forall (fun a => 1 < a) xs -> Exists (fun a => a <= max_int) xs ->
  exists g, frobenius_number xs g /\ exists n, forall fuel, (n <= fuel)%nat -> dynamicFrobenius fuel max_int xs = Ok g.
Proof.
  intros C F MX. destruct xs as [|a rest].
  { inversion MX. }
  assert (G : forall lo, lo = fold_left Z.min rest a -> exists n g, frobenius_number (a :: rest) g /\ forall fuel, (n <= fuel)%nat -> frob_loop fuel max_int (a :: rest) lo [0] 0 0 1 = Ok g).
  { intros lo ->. destruct (min_fold rest a) as [MI MN]. set (lo := fold_left Z.min rest a) in *.
    assert (LO : 1 < lo) by (rewrite Forall_forall in F; now apply F).
    assert (ML : lo <= max_int). { apply Exists_exists in MX as [x [X1 X2]]. rewrite Forall_forall in MN. specialize (MN x X1). lia. }
    assert (POS : Forall (fun a => 0 < a) (a :: rest)) by (eapply Forall_impl; [|exact F]; cbn; intros; lia).
    destruct (all_large (a :: rest) lo C POS MI) as [N HN].
    assert (I0 : linv (a :: rest) [0] 0 0 1).
    { split; [lia|]. split; [|split; [lia|split; [lia|split; [|now left]]]].
      - intros k. split.
        + intros [<-|[]]. split; [lia | apply rep_0].
        + intros [H1 H2]. left. lia.
      - intros k Hk. lia. }
    assert (E : forall fuel, (Z.to_nat (N + lo + 2) <= fuel)%nat -> exists g, frob_loop fuel max_int (a :: rest) lo [0] 0 0 1 = Ok g /\ frobenius_number (a :: rest) g).
    { intros fuel K. apply (loop_ends max_int (a :: rest) lo LO MN MI ML N HN); auto. lia. }
    exists (Z.to_nat (N + lo + 2)). destruct (E _ (le_n _)) as [g [_ Gg]]. exists g. split; auto. intros fuel K. destruct (E fuel K) as [h [-> [H1 H2]]]. destruct Gg as [G1 G2]. f_equal.
    destruct (Z.lt_trichotomy g h) as [Q|[Q|Q]]; auto; [elim H1; now apply G2 | elim G1; now apply H2]. }
  destruct rest as [|b [|c rest]].
  - destruct (G _ eq_refl) as [n [g [A B]]]. exists g. split; auto. exists n. exact B.
  - exists (a * b - a - b). split; [|exists O; reflexivity]. inversion F as [|? ? F1 F2]; inversion F2; subst. apply two_numbers; auto; lia.
  - destruct (G _ eq_refl) as [n [g [A B]]]. exists g. split; auto. exists n. exact B.
Qed.
