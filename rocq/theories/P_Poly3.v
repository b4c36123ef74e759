(** Proofs about canonical output (C37). *)
From Coq Require Import List Arith Bool ZArith Lia Sorted Permutation.
Import ListNotations.
From Verif Require Import Spec Spec_Api Spec_Poly M_Term M_Ideal M_Slice M_Msm M_Api M_Poly P_Term P_Translator P_Api3 P_Poly.

(** ** Orders *)
Record order {A} (lt : A -> A -> bool) : Prop := mkOrder {
  o_asym : forall x y, lt x y = true -> lt y x = false;
  o_trans : forall x y z, lt y x = false -> lt z y = false -> lt z x = false;
  o_eq : forall x y, lt x y = false -> lt y x = false -> x = y }.

Fixpoint vless (a b : list Z) : bool :=
  match a, b with x :: a', y :: b' => if (x =? y)%Z then vless a' b' else (y <? x)%Z | _, _ => false end.
Lemma vless_iff a : forall b, vless a b = true <-> zlex b a.
Proof.
  induction a as [|x a IH]; intros [|y b]; cbn; try (split; [discriminate|tauto]).
  destruct (Z.eqb_spec x y) as [->|N]; [rewrite IH; split; [auto|intros [H|[_ H]]; [lia|auto]]|].
  rewrite Z.ltb_lt. split; [auto|]. intros [H|[H _]]; [auto|congruence].
Qed.
Section Fixed.
  Context (n : nat).
  Definition fvec := {a : list Z | length a = n}.
  Lemma vless_asym x : forall y, vless x y = true -> vless y x = false.
  Proof. induction x as [|a x IH]; intros [|b y]; cbn; try congruence. rewrite (Z.eqb_sym b a). destruct (Z.eqb_spec a b); [apply IH|lia]. Qed.
  Lemma vless_trans k : forall x y z, length x = k -> length y = k -> length z = k ->
    vless y x = false -> vless z y = false -> vless z x = false.
  Proof.
    induction k as [|k IH]; intros [|a x] [|b y] [|c z] A B C; try discriminate; cbn; auto.
    injection A as A. injection B as B. injection C as C.
    destruct (Z.eqb_spec b a), (Z.eqb_spec c b), (Z.eqb_spec c a); try lia; subst; try (eapply IH; eauto); lia.
  Qed.
  Lemma vless_eq k : forall x y, length x = k -> length y = k -> vless x y = false -> vless y x = false -> x = y.
  Proof.
    induction k as [|k IH]; intros [|a x] [|b y] A B; try discriminate; cbn; auto. injection A as A. injection B as B.
    rewrite (Z.eqb_sym b a). destruct (Z.eqb_spec a b) as [->|N]; [intros H1 H2; f_equal; eapply IH; eauto|lia].
  Qed.
End Fixed.

Fixpoint iless {A} (lt : A -> A -> bool) (a b : list A) : bool :=
  match a, b with
  | [], _ => false
  | _ :: _, [] => true
  | x :: a', y :: b' => if lt x y then true else if lt y x then false else iless lt a' b'
  end.
Section Less.
  Context {A : Type} (good : A -> Prop) (lt : A -> A -> bool).
  Hypothesis asym : forall x y, lt x y = true -> lt y x = false.
  Hypothesis trans : forall x y z, good x -> good y -> good z -> lt y x = false -> lt z y = false -> lt z x = false.
  Hypothesis leq : forall x y, good x -> good y -> lt x y = false -> lt y x = false -> x = y.
  Lemma iless_asym : forall x y, iless lt x y = true -> iless lt y x = false.
  Proof.
    induction x as [|a x IH]; intros [|b y]; cbn; try congruence. destruct (lt a b) eqn:E.
    - rewrite (asym _ _ E). reflexivity.
    - destruct (lt b a) eqn:E'; [congruence|]. apply IH.
  Qed.
  Lemma iless_eq : forall x y, Forall good x -> Forall good y -> iless lt x y = false -> iless lt y x = false -> x = y.
  Proof.
    induction x as [|a x IH]; intros [|b y] G1 G2; cbn; try congruence. inversion G1; inversion G2; subst.
    destruct (lt a b) eqn:E; [congruence|]. destruct (lt b a) eqn:E'; [congruence|]. intros X Y. f_equal; auto.
  Qed.
  Lemma iless_trans : forall x y z, Forall good x -> Forall good y -> Forall good z ->
    iless lt y x = false -> iless lt z y = false -> iless lt z x = false.
  Proof.
    induction x as [|a x IH]; intros [|b y] [|c z] G1 G2 G3; cbn; try congruence.
    inversion G1; inversion G2; inversion G3; subst.
    destruct (lt b a) eqn:E1; [congruence|]. destruct (lt c b) eqn:E2; [congruence|].
    rewrite (trans a b c) by auto.
    destruct (lt a b) eqn:E3; destruct (lt b c) eqn:E4.
    - assert (lt a c = true) as ->; [|reflexivity]. destruct (lt a c) eqn:E5; auto. exfalso.
      assert (X : lt a b = false). { apply (trans b c a); auto. } congruence.
    - assert (b = c) by (apply leq; auto). subst. rewrite E3. reflexivity.
    - assert (a = b) by (apply leq; auto). subst. rewrite E4. reflexivity.
    - assert (a = b) by (apply leq; auto). assert (b = c) by (apply leq; auto). subst. rewrite E3. intros X Y. apply (IH y z); auto.
  Qed.
End Less.

(** ** The value of a term *)
Definition vec (n : nat) (otr : option translator) (t : mono) : list Z :=
  map (fun v => match otr with None => Z.of_nat (t @ v) | Some tr => nth (t @ v) (nth v tr []) 0%Z end) (seq 0 n).
Lemma vec_length n otr t : length (vec n otr t) = n.
Proof. unfold vec. now rewrite map_length, seq_length. Qed.
Lemma canon_less_vec n otr a b : canon_less n otr a b = vless (vec n otr a) (vec n otr b).
Proof.
  unfold canon_less, vec. destruct otr as [tr|].
  - enough (H : forall k v, tr_less_from tr a b v k = vless (map (fun v => nth (a @ v) (nth v tr []) 0%Z) (seq v k))
      (map (fun v => nth (b @ v) (nth v tr []) 0%Z) (seq v k))) by apply H.
    induction k as [|k IH]; intros v; cbn [tr_less_from seq map vless]; auto. rewrite IH. reflexivity.
  - unfold t_revLexLess, t_lexCompare.
    enough (H : forall k v, (match lex_from a b v k with Gt => true | _ => false end) =
      vless (map (fun v => Z.of_nat (a @ v)) (seq v k)) (map (fun v => Z.of_nat (b @ v)) (seq v k))) by apply H.
    induction k as [|k IH]; intros v; cbn [lex_from seq map vless]; auto.
    destruct (Nat.eqb_spec (a @ v) (b @ v)) as [E|E].
    + rewrite E, Z.eqb_refl. apply IH.
    + destruct (Z.eqb_spec (Z.of_nat (a @ v)) (Z.of_nat (b @ v))); [lia|]. destruct (Nat.ltb_spec (a @ v) (b @ v)); lia.
Qed.
Lemma znat_vec n t : length t = n -> znat t = vec n None t.
Proof.
  intros <-. unfold vec, znat. rewrite <- (map_map (fun v => t @ v) Z.of_nat). f_equal. apply nth_ext with 0 (t @ 0).
  - now rewrite map_length, seq_length.
  - intros i Hi. rewrite (map_nth (fun v => t @ v)), seq_nth by auto. reflexivity.
Qed.
Lemma translate_vec tr t : forall k v r, translate_from tr t v k = Some r ->
  r = map (fun v => nth (t @ v) (nth v tr []) 0%Z) (seq v k) /\ forall w, v <= w < v + k -> t @ w < length (nth w tr []).
Proof.
  induction k as [|k IH]; intros v r; cbn [translate_from]; [intros [= <-]; split; [reflexivity|lia]|].
  unfold getExponent at 1. destruct (nth_error (nth v tr []) (t @ v)) as [e|] eqn:E; [|discriminate].
  destruct (translate_from tr t (S v) k) as [r'|] eqn:E'; [|discriminate]. intros [= <-]. destruct (IH _ _ E') as [-> H].
  cbn [seq map]. split; [f_equal; symmetry; now apply nth_error_nth|]. intros w Hw. destruct (Nat.eq_dec w v) as [->|N]; [|apply H; lia].
  apply nth_error_Some. congruence.
Qed.
Lemma written_vec n otr ts vs : Forall (fun t => length t = n) ts -> written n otr ts = Some vs ->
  vs = map (vec n otr) ts /\ canon_ok n otr ts = true.
Proof.
  intros L. unfold written, canon_ok. destruct otr as [tr|].
  - clear L. revert vs. induction ts as [|t ts IH]; intros vs; cbn [translate_all forallb map]; [intros [= <-]; auto|].
    destruct (translate n tr t) as [v|] eqn:E; [|discriminate]. destruct (translate_all n tr ts) as [r|] eqn:E'; [|discriminate].
    intros [= <-]. destruct (IH r eq_refl) as [-> H]. destruct (translate_vec _ _ _ _ _ E) as [-> H']. split; [reflexivity|].
    apply andb_true_iff. split; auto. apply forallb_forall. intros w Hw. apply in_seq in Hw. apply Nat.ltb_lt. apply H'. lia.
  - intros [= <-]. split; auto. apply map_ext_in. intros t Ht. rewrite Forall_forall in L. apply znat_vec. auto.
Qed.
Lemma written_perm n otr ts us vs : Forall (fun t => length t = n) ts -> Permutation us ts -> written n otr ts = Some vs ->
  written n otr us = Some (map (vec n otr) us).
Proof.
  intros L P W. destruct (written_vec n otr ts vs L W) as [_ O].
  assert (Lu : Forall (fun t => length t = n) us) by (apply (Permutation_Forall (Permutation_sym P)); exact L).
  unfold written, canon_ok in *. destruct otr as [tr|].
  - apply translate_all_spec. intros t Ht. apply translate_spec. intros v Hv. unfold getExponent.
    rewrite forallb_forall in O. specialize (O t (Permutation_in _ P Ht)). rewrite forallb_forall in O.
    assert (In v (seq 0 n)) by (apply in_seq; lia). specialize (O v H). apply Nat.ltb_lt in O. now apply nth_error_nth'.
  - f_equal. apply map_ext_in. intros t Ht. rewrite Forall_forall in Lu. apply znat_vec. auto.
Qed.

(** ** One ideal *)
Lemma sort_before {A} (lt : A -> A -> bool) (f : A -> list Z) k : (forall a b, lt a b = vless (f a) (f b)) -> (forall a, length (f a) = k) ->
  forall l, StronglySorted (fun a b => f a = f b \/ zlex (f b) (f a)) (std_sort lt l).
Proof.
  intros E L l. assert (S : StronglySorted (before lt) (std_sort lt l)).
  { apply std_sort_sorted; unfold before.
    - intros x y. rewrite !E. apply vless_asym.
    - intros x y z. rewrite !E. apply (vless_trans k); auto. }
  revert S. apply StronglySorted_impl. intros a b _ _. unfold before. rewrite E. intros H.
  destruct (vless (f a) (f b)) eqn:X; [right; now apply vless_iff|]. left. apply (vless_eq k); auto.
Qed.
Lemma canonicalize_spec n otr ts : let out := canonicalizeIdeal n otr ts in
  Permutation out ts /\ nonincreasing (map (vec n otr) out).
Proof.
  cbv zeta. unfold canonicalizeIdeal. split; [apply std_sort_perm|]. unfold nonincreasing.
  apply (StronglySorted_map (vec n otr) (fun a b => vec n otr a = vec n otr b \/ zlex (vec n otr b) (vec n otr a))); auto.
  apply (sort_before _ _ n); [intros; apply canon_less_vec|intros; apply vec_length].
Qed.
Lemma zlex_irr a : ~ zlex a a.
Proof. induction a as [|x a IH]; cbn; [tauto|]. intros [H|[_ H]]; [lia|auto]. Qed.
Lemma zlex_trans a : forall b c, zlex a b -> zlex b c -> zlex a c.
Proof. induction a as [|x a IH]; intros [|y b] [|z c]; cbn; try tauto. intros [H|[-> H]] [K|[-> K]]; try (left; lia). right. split; auto. eauto. Qed.
Lemma nonincreasing_unique vs ws : Permutation vs ws -> nonincreasing vs -> nonincreasing ws -> vs = ws.
Proof.
  apply sorted_perm_unique. intros a b [H|H] [K|K]; auto. exfalso. apply (zlex_irr a). eapply zlex_trans; eauto.
Qed.

(** ** The calls *)
Lemma run_consume n otr st ts : forall J rest calls, canon_run n otr (mkCanon st (J :: rest)) (map TConsume ts ++ calls) =
  canon_run n otr (mkCanon st ((J ++ ts) :: rest)) calls.
Proof.
  induction ts as [|t ts IH]; intros J rest calls; cbn [map app]; [now rewrite app_nil_r|].
  cbn [canon_run canon_step bind ca_ideals ca_storing fst snd]. rewrite IH, <- app_assoc. cbn [app].
  destruct (canon_run _ _ _ calls); reflexivity.
Qed.
Lemma run_ideal n otr ts calls : canon_ok n otr ts = true ->
  canon_run n otr (mkCanon false []) (ideal_calls ts ++ calls) =
  bind (canon_run n otr (mkCanon false []) calls) (fun out => Some (ideal_calls (canonicalizeIdeal n otr ts) ++ out)).
Proof.
  intros O. unfold ideal_calls. cbn [app canon_run canon_step bind ca_ideals ca_storing fst snd]. rewrite <- app_assoc, run_consume.
  cbn [app canon_run canon_step bind ca_ideals ca_storing fst snd]. rewrite O. cbn [bind fst snd].
  destruct (canon_run _ _ _ calls); reflexivity.
Qed.
Lemma run_ideals n otr : forall Is, Forall (fun ts => canon_ok n otr ts = true) Is ->
  canon_run n otr (mkCanon false []) (concat (map ideal_calls Is)) = Some (concat (map ideal_calls (map (canonicalizeIdeal n otr) Is))).
Proof.
  induction 1 as [|ts Is O H IH]; cbn [map concat]; auto. rewrite run_ideal by auto. rewrite IH. reflexivity.
Qed.
Lemma run_store n otr : forall Is Js calls, canon_run n otr (mkCanon true Js) (concat (map ideal_calls Is) ++ calls) =
  canon_run n otr (mkCanon true (rev Is ++ Js)) calls.
Proof.
  induction Is as [|ts Is IH]; intros Js calls; cbn [map concat]; auto. rewrite <- app_assoc. unfold ideal_calls at 1.
  cbn [app canon_run canon_step bind ca_ideals ca_storing fst snd]. rewrite <- app_assoc, run_consume.
  cbn [app canon_run canon_step bind ca_ideals ca_storing fst snd]. rewrite IH. cbn [rev]. rewrite <- app_assoc. cbn [app].
  destruct (canon_run _ _ _ calls); reflexivity.
Qed.
Lemma run_list n otr Is : Forall (fun ts => canon_ok n otr ts = true) Is ->
  canonical_consumer n otr (list_calls Is) = Some (list_calls
    (map (canonicalizeIdeal n otr) (std_sort (idealLess (canon_less n otr)) (map (canonicalizeIdeal n otr) (rev Is))))).
Proof.
  intros O. unfold canonical_consumer, list_calls. cbn [canon_run canon_step bind ca_ideals ca_storing fst snd]. rewrite run_store.
  cbn [canon_run canon_step bind ca_ideals ca_storing fst snd]. rewrite app_nil_r.
  assert (H : forallb (canon_ok n otr) (rev Is) = true).
  { apply forallb_forall. rewrite Forall_forall in O. intros x Hx. apply O. now apply in_rev. }
  unfold ideal, term, mono in *. rewrite H. cbn [bind fst snd app]. rewrite app_nil_r, map_map. reflexivity.
Qed.

Theorem p_canonical_ideal n otr ts vs : Forall (fun t => length t = n) ts -> written n otr ts = Some vs ->
  exists out ws, canonical_consumer n otr (ideal_calls ts) = Some (ideal_calls out) /\
    Permutation out ts /\ written n otr out = Some ws /\ Permutation ws vs /\ nonincreasing ws.
Proof.
  intros L W. destruct (written_vec n otr ts vs L W) as [-> O]. destruct (canonicalize_spec n otr ts) as [P N].
  exists (canonicalizeIdeal n otr ts), (map (vec n otr) (canonicalizeIdeal n otr ts)). split.
  - unfold canonical_consumer. rewrite <- (app_nil_r (ideal_calls ts)), run_ideal by auto. cbn. now rewrite app_nil_r.
  - split; auto. split; [eapply written_perm; eauto|]. split; auto. now apply Permutation_map.
Qed.
Theorem p_canonical_ideals n otr Is Vs : Forall (Forall (fun t => length t = n)) Is -> all_written n otr Is Vs ->
  exists Os Ws, canonical_consumer n otr (concat (map ideal_calls Is)) = Some (concat (map ideal_calls Os)) /\
    Forall2 (@Permutation mono) Os Is /\ all_written n otr Os Ws /\ Forall nonincreasing Ws.
Proof.
  intros L W. exists (map (canonicalizeIdeal n otr) Is), (map (fun ts => map (vec n otr) (canonicalizeIdeal n otr ts)) Is). split.
  - unfold canonical_consumer. apply run_ideals. revert L W. clear. unfold all_written. intros L W. induction W as [|ts vs Is Vs H W IH]; constructor.
    + inversion L; subst. apply (written_vec n otr ts vs); auto.
    + inversion L; subst. auto.
  - revert L W. clear. unfold all_written. intros L W. induction W as [|ts vs Is Vs H W IH]; cbn [map].
    + repeat split; constructor.
    + inversion L; subst. destruct (IH H3) as [A [B C]]. destruct (canonicalize_spec n otr ts) as [P N].
      split; [constructor; auto|]. split; [constructor; auto; eapply written_perm; eauto|constructor; auto].
Qed.

Lemma iless_map n otr : forall a b, idealLess (canon_less n otr) a b = iless vless (map (vec n otr) a) (map (vec n otr) b).
Proof.
  induction a as [|x a IH]; intros [|y b]; cbn [idealLess iless map]; auto. now rewrite !canon_less_vec, IH.
Qed.
Definition fixed_len (n : nat) (vs : list (list Z)) : Prop := Forall (fun v => length v = n) vs.
Lemma sorted_lists_unique n : forall Vs Ws, Permutation Vs Ws -> Forall (fixed_len n) Vs ->
  StronglySorted (before (iless vless)) Vs -> StronglySorted (before (iless vless)) Ws -> Vs = Ws.
Proof.
  intros Vs Ws P L S S'. assert (L' : Forall (fixed_len n) Ws) by (eapply Permutation_Forall; eauto).
  assert (SI : forall Xs, Forall (fixed_len n) Xs -> StronglySorted (before (iless vless)) Xs ->
     StronglySorted (fun a b => fixed_len n a /\ fixed_len n b /\ before (iless vless) a b) Xs).
  { intros Xs LX. apply StronglySorted_impl. rewrite Forall_forall in LX. auto. }
  apply (sorted_perm_unique (fun a b => fixed_len n a /\ fixed_len n b /\ before (iless vless) a b)); auto.
  intros a b [A [B H]] [_ [_ K]]. unfold before in *.
  apply (iless_eq (fun v => length v = n) vless); auto. intros; apply (vless_eq n); auto.
Qed.
Lemma canonicalize_twice n otr ts : map (vec n otr) (canonicalizeIdeal n otr (canonicalizeIdeal n otr ts)) = map (vec n otr) (canonicalizeIdeal n otr ts).
Proof.
  destruct (canonicalize_spec n otr ts) as [P N]. destruct (canonicalize_spec n otr (canonicalizeIdeal n otr ts)) as [P' N'].
  apply nonincreasing_unique; auto. now apply Permutation_map.
Qed.
Lemma sorted_list_calls n otr Is : StronglySorted (before (iless vless))
  (map (map (vec n otr)) (map (canonicalizeIdeal n otr) (std_sort (idealLess (canon_less n otr)) (map (canonicalizeIdeal n otr) Is)))).
Proof.
  set (l := std_sort _ _).
  assert (E : map (map (vec n otr)) (map (canonicalizeIdeal n otr) l) = map (map (vec n otr)) l).
  { rewrite map_map. apply map_ext_in. intros ts Ht. unfold l in Ht. apply (Permutation_in _ (std_sort_perm _ _)) in Ht.
    apply in_map_iff in Ht as [us [<- _]]. apply canonicalize_twice. }
  rewrite E. apply (StronglySorted_map (map (vec n otr)) (before (idealLess (canon_less n otr)))).
  - intros a b _ _. unfold before. rewrite iless_map. auto.
  - assert (F : forall x, Forall (fun v : list Z => length v = n) (map (vec n otr) x)).
    { intros x. apply Forall_forall. intros v Hv. apply in_map_iff in Hv as [t [<- _]]. apply vec_length. }
    apply std_sort_sorted; unfold before.
    + intros x y. rewrite !iless_map. apply iless_asym. intros; now apply vless_asym.
    + intros x y z. rewrite !iless_map. apply (iless_trans (fun v => length v = n)); auto.
      * intros u v w; apply (vless_trans n).
      * intros u v; apply (vless_eq n).
Qed.

Lemma all_written_ok n otr Is Vs : Forall (Forall (fun t => length t = n)) Is -> all_written n otr Is Vs ->
  Forall (fun ts => canon_ok n otr ts = true) Is /\ Vs = map (map (vec n otr)) Is.
Proof.
  unfold all_written. intros L W. induction W as [|ts vs Is Vs H W IH]; [auto|]. inversion L; subst.
  destruct (IH H3) as [A ->]. destruct (written_vec n otr ts vs H2 H) as [-> B]. auto.
Qed.
Lemma all_written_perm n otr : forall Os Ks, Forall2 (@Permutation mono) Os Ks -> Forall (Forall (fun t => length t = n)) Ks ->
  (exists Vs, all_written n otr Ks Vs) -> all_written n otr Os (map (map (vec n otr)) Os).
Proof.
  induction 1 as [|os ks Os Ks P F IH]; intros L [Vs W]; [constructor|]. inversion L; subst. inversion W; subst. cbn [map]. constructor.
  - eapply written_perm; eauto.
  - apply IH; auto. exists l'. auto.
Qed.
Definition out_lists n otr Is := map (canonicalizeIdeal n otr) (std_sort (idealLess (canon_less n otr)) (map (canonicalizeIdeal n otr) (rev Is))).
Lemma out_collection n otr Is : exists Ks, Permutation Is Ks /\ Forall2 (@Permutation mono) (out_lists n otr Is) Ks.
Proof.
  unfold out_lists. set (s := std_sort _ _). assert (P : Permutation s (map (canonicalizeIdeal n otr) (rev Is))) by apply std_sort_perm.
  destruct (Permutation_map_inv _ _ P) as [Ks [E P']]. exists Ks. split.
  - apply Permutation_trans with (rev Is); [apply Permutation_rev|exact P'].
  - rewrite E. clear. induction Ks as [|k Ks IH]; cbn [map]; constructor; auto.
    eapply Permutation_trans; [apply (proj1 (canonicalize_spec n otr _))|apply (proj1 (canonicalize_spec n otr _))].
Qed.

Theorem p_canonical_list n otr Is Vs : Forall (Forall (fun t => length t = n)) Is -> all_written n otr Is Vs ->
  exists Os Ws, canonical_consumer n otr (list_calls Is) = Some (list_calls Os) /\
    same_collection Is Os /\ all_written n otr Os Ws /\ same_collection Vs Ws /\ Forall nonincreasing Ws.
Proof.
  intros L W. destruct (all_written_ok n otr Is Vs L W) as [O EV]. exists (out_lists n otr Is), (map (map (vec n otr)) (out_lists n otr Is)).
  split; [apply run_list; auto|]. destruct (out_collection n otr Is) as [Ks [P F]].
  assert (LK : Forall (Forall (fun t => length t = n)) Ks) by (eapply Permutation_Forall; eauto).
  assert (F' : Forall2 (@Permutation mono) Ks (out_lists n otr Is)).
  { clear -F. induction F; constructor; auto using Permutation_sym. }
  split; [exists Ks; auto|]. split; [|split].
  - apply (all_written_perm n otr _ Ks); auto. exists (map (map (vec n otr)) Ks).
    assert (OK : Forall (fun ts => canon_ok n otr ts = true) Ks) by (eapply Permutation_Forall; eauto).
    assert (WI : Forall (fun ts => written n otr ts <> None) Is).
    { clear -W. unfold all_written in W. induction W; constructor; auto. congruence. }
    assert (WK : Forall (fun ts => written n otr ts <> None) Ks) by (eapply Permutation_Forall; eauto).
    clear -LK WK. unfold all_written. induction Ks as [|k Ks IH]; cbn [map]; constructor.
    + inversion LK; inversion WK; subst. destruct (written n otr k) as [vs|] eqn:E; [|congruence]. f_equal. apply (written_vec n otr k vs); auto.
    + inversion LK; inversion WK; subst. auto.
  - subst Vs. exists (map (map (vec n otr)) Ks). split; [now apply Permutation_map|]. clear -F'.
    induction F'; cbn [map]; constructor; auto. now apply Permutation_map.
  - unfold out_lists. apply Forall_forall. intros ws Hw. apply in_map_iff in Hw as [us [<- Hu]]. apply in_map_iff in Hu as [ts [<- _]].
    apply (canonicalize_spec n otr ts).
Qed.
Lemma same_collection_canon n otr Is Js : same_collection (map (map (vec n otr)) Is) (map (map (vec n otr)) Js) ->
  map (map (vec n otr)) (out_lists n otr Is) = map (map (vec n otr)) (out_lists n otr Js).
Proof.
  intros [Ks [P F]]. set (val := map (map (vec n otr))).
  assert (L : forall Xs, Forall (fixed_len n) (val Xs)).
  { intros Xs. apply Forall_forall. intros x Hx. unfold val in Hx. apply in_map_iff in Hx as [ts [<- _]]. apply Forall_forall.
    intros v Hv. apply in_map_iff in Hv as [t [<- _]]. apply vec_length. }
  apply (sorted_lists_unique n); auto; try apply sorted_list_calls.
  (* both are permutations of the lists of sorted vectors *)
  assert (Q : forall Xs, Permutation (val (out_lists n otr Xs)) (val (map (canonicalizeIdeal n otr) Xs))).
  { intros Xs. unfold out_lists, val. set (s := std_sort _ _).
    assert (PS : Permutation s (map (canonicalizeIdeal n otr) (rev Xs))) by apply std_sort_perm.
    apply Permutation_trans with (map (map (vec n otr)) (map (canonicalizeIdeal n otr) (map (canonicalizeIdeal n otr) (rev Xs)))).
    - now apply Permutation_map, Permutation_map.
    - rewrite !map_map. erewrite map_ext by (intros; apply canonicalize_twice). apply Permutation_map, Permutation_sym, Permutation_rev. }
  eapply Permutation_trans; [apply Q|]. apply Permutation_sym. eapply Permutation_trans; [apply Q|].
  (* sorting vectors is a function of their permutation class *)
  assert (G : forall Xs (Zs : list (list (list Z))), Forall2 (@Permutation (list Z)) Zs (val Xs) ->
     Forall2 (fun z w => Permutation z w /\ nonincreasing w) Zs (val (map (canonicalizeIdeal n otr) Xs))).
  { induction Xs as [|x Xs IH]; intros Zs H; inversion H; subst; cbn; constructor; [|apply IH; auto].
    destruct (canonicalize_spec n otr x) as [A B]. split; auto. eapply Permutation_trans; [eassumption|]. apply Permutation_map, Permutation_sym. exact A. }
  pose proof (G Js Ks F) as GJ.
  assert (GI : Forall2 (fun z w => Permutation z w /\ nonincreasing w) (val Is) (val (map (canonicalizeIdeal n otr) Is))).
  { apply G. unfold val. clear. induction Is; cbn; constructor; auto. }
  revert GI GJ. generalize (val (map (canonicalizeIdeal n otr) Is)), (val (map (canonicalizeIdeal n otr) Js)). fold val in P. revert P. generalize (val Is). clear.
  intros Zs P A B GI GJ.
  assert (H : exists A', Permutation A A' /\ Forall2 (fun z w => Permutation z w /\ nonincreasing w) Ks A').
  { clear GJ. revert A GI. induction P as [|z Zs Ks P IH|x y l|Xs Ys Zs P1 IH1 P2 IH2]; intros A GI.
    - exists A. auto.
    - inversion GI; subst. destruct (IH _ H3) as [A' [Q R]]. exists (y :: A'). auto.
    - inversion GI; subst. inversion H3; subst. exists (y1 :: y0 :: l'0). split; [constructor|]. constructor; auto.
    - destruct (IH1 _ GI) as [A1 [Q1 R1]]. destruct (IH2 _ R1) as [A2 [Q2 R2]]. exists A2. split; auto. eapply Permutation_trans; eauto. }
  destruct H as [A' [PA R]]. assert (A' = B); [|subst; now apply Permutation_sym].
  clear -R GJ. revert B GJ. induction R as [|z w Ks A' [P1 N1] R IH]; intros B GJ; inversion GJ; subst; auto. f_equal; auto.
  destruct H1 as [P2 N2]. apply nonincreasing_unique; auto. eapply Permutation_trans; [apply Permutation_sym; eauto|auto].
Qed.
Theorem p_canonical_function n otr Is Js Vs Us : Forall (Forall (fun t => length t = n)) Is -> Forall (Forall (fun t => length t = n)) Js ->
  all_written n otr Is Vs -> all_written n otr Js Us -> same_collection Vs Us ->
  exists Os Ps Ws, canonical_consumer n otr (list_calls Is) = Some (list_calls Os) /\
    canonical_consumer n otr (list_calls Js) = Some (list_calls Ps) /\ all_written n otr Os Ws /\ all_written n otr Ps Ws.
Proof.
  intros L M W X C. destruct (all_written_ok n otr Is Vs L W) as [O ->]. destruct (all_written_ok n otr Js Us M X) as [O' ->].
  destruct (p_canonical_list n otr Is _ L W) as [Os [Ws [A1 [_ [A3 _]]]]]. destruct (p_canonical_list n otr Js _ M X) as [Ps [Ys [B1 [_ [B3 _]]]]].
  pose proof (same_collection_canon n otr Is Js C) as E.
  pose proof (run_list n otr Is O) as R. pose proof (run_list n otr Js O') as R'. fold (out_lists n otr Is) in R. fold (out_lists n otr Js) in R'.
  assert (INJ : forall Xs Ys, list_calls Xs = list_calls Ys -> Xs = Ys).
  { clear. intros Xs Ys H. unfold list_calls in H. injection H as H. apply app_inj_tail in H as [H _].
    revert Ys H. induction Xs as [|x Xs IH]; intros [|y Ys] H; cbn [map concat] in H; auto; try discriminate.
    unfold ideal_calls at 1 3 in H. cbn [app] in H. injection H as H. rewrite <- !app_assoc in H.
    assert (EX : x = y /\ concat (map ideal_calls Xs) = concat (map ideal_calls Ys)).
    { revert y H. induction x as [|a x IHx]; intros [|b y] H; cbn in H; try discriminate.
      - injection H as H. auto.
      - injection H as -> H. destruct (IHx y H) as [-> Z]. auto. }
    destruct EX as [-> EX]. f_equal. auto. }
  assert (Os = out_lists n otr Is) by (apply INJ; congruence). assert (Ps = out_lists n otr Js) by (apply INJ; congruence). subst.
  exists (out_lists n otr Is), (out_lists n otr Js), Ws. split; auto. split; auto. split; auto.
  assert (LO : Forall (Forall (fun t => length t = n)) (out_lists n otr Is)).
  { destruct (out_collection n otr Is) as [Ks [P F]]. assert (LK : Forall (Forall (fun t => length t = n)) Ks) by (eapply Permutation_Forall; eauto).
    clear -F LK. induction F; constructor; inversion LK; subst; auto. eapply Permutation_Forall; [apply Permutation_sym|]; eauto. }
  assert (LO' : Forall (Forall (fun t => length t = n)) (out_lists n otr Js)).
  { destruct (out_collection n otr Js) as [Ks [P F]]. assert (LK : Forall (Forall (fun t => length t = n)) Ks) by (eapply Permutation_Forall; eauto).
    clear -F LK. induction F; constructor; inversion LK; subst; auto. eapply Permutation_Forall; [apply Permutation_sym|]; eauto. }
  destruct (all_written_ok n otr _ _ LO A3) as [_ ->]. destruct (all_written_ok n otr _ _ LO' B3) as [_ ->]. rewrite E. exact B3.
Qed.

(** ** Polynomials with big exponents *)
Lemma bigTerm_less_spec k : forall a b ca cb, length a = k -> length b = k ->
  (bigTerm_less ca cb a b = true <-> zlex b a \/ (a = b /\ (ca < cb)%Z)).
Proof.
  induction k as [|k IH]; intros [|x a] [|y b] ca cb A B; try discriminate; cbn.
  - rewrite Z.ltb_lt. tauto.
  - injection A as A. injection B as B. destruct (Z.eqb_spec x y) as [->|N].
    + rewrite IH by auto. split; [intros [H|[-> H]]; auto|]. intros [[H|[_ H]]|[H K]]; [lia|auto|]. injection H as ->. auto.
    + rewrite Z.ltb_lt. split; [auto|]. intros [[H|[H _]]|[H _]]; [auto|congruence|congruence].
Qed.
Lemma zlex_total k : forall a b, length a = k -> length b = k -> zlex a b \/ a = b \/ zlex b a.
Proof.
  induction k as [|k IH]; intros [|x a] [|y b] A B; try discriminate; cbn; auto. injection A as A. injection B as B.
  destruct (IH a b A B) as [H|[->|H]]; destruct (Z.lt_trichotomy x y) as [K|[->|K]]; auto.
Qed.
Lemma sort_sorted_on {A} (lt : A -> A -> bool) (good : A -> Prop) : (forall x y, lt x y = true -> lt y x = false) ->
  (forall x y z, good x -> good y -> good z -> lt y x = false -> lt z y = false -> lt z x = false) ->
  forall l, Forall good l -> StronglySorted (before lt) (std_sort lt l).
Proof.
  intros AS TR l G.
  assert (INS : forall s x, good x -> Forall good s -> StronglySorted (before lt) s -> StronglySorted (before lt) (sort_insert lt x s)).
  { induction s as [|y s IH]; intros x Gx Gs S; cbn [sort_insert]; [repeat constructor|].
    inversion Gs; subst. apply StronglySorted_inv in S as [S F]. destruct (lt y x) eqn:E.
    - constructor; [apply IH; auto|]. rewrite Forall_forall in *. intros z Hz.
      apply (Permutation_in (l' := x :: s)) in Hz.
      + destruct Hz as [<-|Hz]; [unfold before; auto|apply F; auto].
      + clear. induction s as [|w s IH]; cbn; auto. destruct (lt w x); auto. eapply perm_trans; [apply perm_skip, IH|]. constructor.
    - constructor; [constructor; auto|]. constructor; auto. rewrite Forall_forall in *. intros z Hz. unfold before in *. apply (TR x y z); auto. }
  assert (X : StronglySorted (before lt) (std_sort lt l) /\ Forall good (std_sort lt l)).
  { induction G as [|x l Gx G [IH1 IH2]]; cbn [std_sort fold_right]; [split; constructor|]. split; [apply INS; auto|].
    apply (Permutation_Forall (Permutation_sym (std_sort_perm lt (x :: l)))). constructor; auto. }
  apply X.
Qed.
Definition big_le (a b : Z * list Z) : Prop := zlex (snd b) (snd a) \/ (snd a = snd b /\ (fst a <= fst b)%Z).
Theorem p_bigPoly_sort n p : Forall (fun t => length (snd t) = n) p ->
  Permutation (bigPoly_sort p) p /\ StronglySorted (fun a b => zlex (snd b) (snd a) \/ (snd a = snd b /\ (fst a <= fst b)%Z)) (bigPoly_sort p).
Proof.
  intros L. unfold bigPoly_sort. split; [apply std_sort_perm|]. set (lt := fun a b : Z * list Z => bigTerm_less (fst a) (fst b) (snd a) (snd b)).
  assert (NL : forall x y : Z * list Z, length (snd x) = n -> length (snd y) = n -> (lt y x = false <-> big_le x y)).
  { intros [cx x] [cy y] Lx Ly. cbn [snd] in *. unfold lt, big_le; cbn [fst snd]. rewrite <- not_true_iff_false, (bigTerm_less_spec n) by auto. split.
    - intros H. destruct (zlex_total n x y Lx Ly) as [X|[->|X]]; [tauto| |auto]. right. split; auto. destruct (Z.le_gt_cases cx cy); auto. exfalso. apply H. auto with zarith.
    - intros [H|[-> H]] [K|[E K]].
      + apply (zlex_irr x). eapply zlex_trans; eauto.
      + subst. now apply (zlex_irr x).
      + now apply (zlex_irr y).
      + lia. }
  assert (S : StronglySorted (before lt) (std_sort lt p)).
  { apply (sort_sorted_on lt (fun t => length (snd t) = n)); auto.
    - intros [cx x] [cy y]. unfold lt; cbn [fst snd]. revert y. induction x as [|a x IH]; intros [|b y]; cbn; try lia.
      rewrite (Z.eqb_sym b a). destruct (Z.eqb_spec a b); [apply IH|lia].
    - intros x y z Lx Ly Lz. rewrite !NL by auto. unfold big_le. intros [H|[E H]] [K|[F K]].
      + left. eapply zlex_trans; eauto.
      + left. congruence.
      + left. congruence.
      + right. split; [congruence|lia]. }
  assert (LS : Forall (fun t : Z * list Z => length (snd t) = n) (std_sort lt p)) by (apply (Permutation_Forall (Permutation_sym (std_sort_perm lt p))); auto).
  revert S. apply StronglySorted_impl. rewrite Forall_forall in LS. intros a b Ia Ib H. apply NL; auto.
Qed.
Theorem p_bigPoly_function n p q : Forall (fun t => length (snd t) = n) p -> Permutation p q -> bigPoly_sort p = bigPoly_sort q.
Proof.
  intros L P. assert (L' : Forall (fun t : Z * list Z => length (snd t) = n) q) by (eapply Permutation_Forall; eauto).
  destruct (p_bigPoly_sort n p L) as [P1 S1]. destruct (p_bigPoly_sort n q L') as [P2 S2].
  apply (sorted_perm_unique big_le); auto.
  - intros [ca a] [cb b] [H|[E H]] [K|[F K]]; cbn [fst snd] in *.
    + exfalso. apply (zlex_irr a). eapply zlex_trans; eauto.
    + subst. exfalso. now apply (zlex_irr a).
    + subst. exfalso. now apply (zlex_irr b).
    + subst. f_equal. lia.
  - eapply Permutation_trans; [exact P1|]. eapply Permutation_trans; [exact P|]. now apply Permutation_sym.
Qed.
