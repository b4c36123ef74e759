(** Correctness of the two-non-maximal base case and of baseCase as a whole. *)
From Coq Require Import List Arith Bool Lia Permutation Sorted.
Import ListNotations.
From Verif Require Import M_Term M_Ideal M_Slice P_Term P_Ideal P_Msm1 P_Msm2 P_Msm3 P_Msm4.

Lemma isNonMax_iff : forall n l g, isNonMax n l g = true <-> forall v, v < n -> g @ v <> l @ v.
Proof.
  intros. unfold isNonMax. rewrite forallb_seq. split; intros H v Hv; specialize (H v Hv).
  - apply negb_true_iff, Nat.eqb_neq in H. auto.
  - apply negb_true_iff, Nat.eqb_neq. auto.
Qed.

Lemma not_nonMax : forall n l g, isNonMax n l g = false -> exists v, v < n /\ g @ v = l @ v.
Proof.
  intros n l g H. destruct (existsb (fun v => g @ v =? l @ v) (seq 0 n)) eqn:E.
  - apply existsb_seq in E. destruct E as [v [Hv E]]. apply Nat.eqb_eq in E. exists v; auto.
  - exfalso. apply not_true_false in H. apply H. apply isNonMax_iff. intros v Hv.
    pose proof (existsb_false_all _ _ E v ltac:(apply in_seq; lia)) as E'. apply Nat.eqb_neq in E'. auto.
Qed.

Lemma firstMaxVar_max : forall n l g, (exists v, v < n /\ g @ v = l @ v) ->
  firstMaxVar n l g < n /\ g @ (firstMaxVar n l g) = l @ (firstMaxVar n l g).
Proof.
  intros n l g [v [Hv E]]. unfold firstMaxVar.
  destruct (find_from_spec (fun v => g @ v =? l @ v) n 0) as [[H1 [H2 [H3 H4]]]|[H1 H2]].
  - split; auto. apply Nat.eqb_eq. apply H3.
  - exfalso. specialize (H2 v ltac:(lia)). cbv beta in H2. apply Nat.eqb_neq in H2. auto.
Qed.

Lemma size_full : forall n a, (t_sizeOfSupport n a <? n) = false <-> full n a.
Proof.
  intros n a. rewrite Nat.ltb_ge. split.
  - intros H v Hv. destruct (Nat.eq_dec (a @ v) 0) as [E|]; [|lia].
    assert (t_sizeOfSupport n a < n) by (apply t_sizeOfSupport_full; exists v; auto). lia.
  - intros H. destruct (Nat.lt_ge_cases (t_sizeOfSupport n a) n) as [Hlt|]; auto.
    apply t_sizeOfSupport_full in Hlt. destruct Hlt as [v [Hv E]]. specialize (H v Hv). lia.
Qed.

Section TwoNonMax.
Variables (n : nat) (I : ideal) (a b : term).
Let l := i_lcm n I.
Hypothesis Hwf : wf n I.
Hypothesis Hf : full n l.
Hypothesis Hd : ndl n I.
Hypothesis Hab : filter (isNonMax n l) I = [a; b].
Hypothesis Hnd : NoDup I.

Lemma ab_in : In a I /\ In b I /\ a <> b.
Proof.
  assert (Ha : In a (filter (isNonMax n l) I)) by (rewrite Hab; simpl; auto).
  assert (Hb : In b (filter (isNonMax n l) I)) by (rewrite Hab; simpl; auto).
  apply filter_In in Ha, Hb. split; [apply Ha|split; [apply Hb|]].
  assert (HN : NoDup (filter (isNonMax n l) I)) by (apply NoDup_filter; auto).
  rewrite Hab in HN. inversion HN; subst. intros ->. apply H1. left; auto.
Qed.

Lemma ab_lt : forall v, v < n -> a @ v < l @ v /\ b @ v < l @ v.
Proof.
  intros v Hv.
  assert (Ha : In a (filter (isNonMax n l) I)) by (rewrite Hab; simpl; auto).
  assert (Hb : In b (filter (isNonMax n l) I)) by (rewrite Hab; simpl; auto).
  apply filter_In in Ha, Hb. destruct Ha as [Ia Na], Hb as [Ib Nb].
  rewrite isNonMax_iff in Na, Nb. specialize (Na v Hv). specialize (Nb v Hv).
  pose proof (i_lcm_ge n I a v Hv Ia). pose proof (i_lcm_ge n I b v Hv Ib). fold l in H, H0. lia.
Qed.

Lemma ab_cases : forall g, In g I -> g = a \/ g = b \/ exists v, v < n /\ g @ v = l @ v.
Proof.
  intros g Hg. destruct (isNonMax n l g) eqn:E.
  - assert (Hx : In g (filter (isNonMax n l) I)) by (apply filter_In; auto). rewrite Hab in Hx.
    destruct Hx as [<-|[<-|[]]]; auto.
  - right; right. apply not_nonMax; auto.
Qed.

Lemma max_lt : forall g v w, In g I -> v < n -> g @ v = l @ v -> w < n -> w <> v -> g @ w < l @ w.
Proof. intros. apply (ndl_lt n I g v w); auto. Qed.

Definition flag_ok (v1 v2 w : nat) : Prop :=
  w = v1 \/ w = v2 \/ exists g, In g I /\ g @ v1 < a @ v1 /\ g @ v2 < b @ v2 /\ g @ w = l @ w.

Lemma flags_spec : forall v1 v2 w, v1 < n -> v2 < n -> w < n ->
  (0 < (twoNonMax_flags n l I a b v1 v2) @ w <-> flag_ok v1 v2 w).
Proof.
  intros v1 v2 w H1 H2 Hw. unfold twoNonMax_flags, flag_ok.
  assert (Hgen : forall J (tmp : term), incl J I ->
    (0 < (fold_left (fun tmp g =>
      if (a @ v1 <=? g @ v1) || (b @ v2 <=? g @ v2) then tmp
      else let v := firstMaxVar n l g in if v <? n then t_set n tmp v 1 else tmp) J tmp) @ w <->
     0 < tmp @ w \/ exists g, In g J /\ g @ v1 < a @ v1 /\ g @ v2 < b @ v2 /\ g @ w = l @ w)).
  { induction J as [|g J IH]; intros tmp Hi.
    - simpl. split; auto. intros [H|[g [[] _]]]; auto.
    - cbn [fold_left]. rewrite IH by (intros x Hx; apply Hi; right; auto). cbv zeta.
      destruct ((a @ v1 <=? g @ v1) || (b @ v2 <=? g @ v2)) eqn:Eg.
      + apply orb_true_iff in Eg. rewrite !Nat.leb_le in Eg. split.
        * intros [H|[x [Hx H]]]; auto. right. exists x. split; [right|]; auto.
        * intros [H|[x [[<-|Hx] H]]]; auto; [lia|]. right. exists x; auto.
      + apply orb_false_iff in Eg. rewrite !Nat.leb_gt in Eg.
        destruct (ab_cases g ltac:(apply Hi; left; auto)) as [->|[->|Hm]]; [lia|lia|].
        destruct (firstMaxVar_max n l g Hm) as [Hk Ek]. set (k := firstMaxVar n l g) in *.
        rewrite (proj2 (Nat.ltb_lt k n) Hk). rewrite t_set_nth by auto. split.
        * intros [H|[x [Hx H]]].
          -- destruct (Nat.eqb_spec w k) as [->|Hne]; auto. right. exists g. split; [left; auto|]. repeat split; auto; apply Eg.
          -- right. exists x. split; [right|]; auto.
        * destruct (Nat.eqb_spec w k) as [->|Hne]; [left; lia|].
          intros [H|[x [[<-|Hx] H]]]; auto.
          -- exfalso. apply Hne. destruct H as [_ [_ Ew]].
             apply (ndl_unique n I g w k); auto. apply Hi; left; auto.
          -- right. exists x; auto. }
  rewrite Hgen by (intros x Hx; auto). rewrite !t_set_nth, t_identity_nth by auto.
  destruct (Nat.eqb_spec w v2) as [->|N2]; [split; auto; left; lia|].
  destruct (Nat.eqb_spec w v1) as [->|N1]; [split; auto; left; lia|].
  split; [intros [H|H]; [lia|auto]|]. intros [H|[H|H]]; [contradiction|contradiction|auto].
Qed.

Let top := tabulate n (fun v => l @ v - 1).
Definition m1 v1 v2 := t_set n (t_set n top v1 (a @ v1 - 1)) v2 (b @ v2 - 1).
Definition mine v := if a @ v <? b @ v then a @ v else b @ v.
Definition m2 v := t_set n top v (mine v - 1).
Definition good1 v1 v2 := v1 < n /\ v2 < n /\ v1 <> v2 /\ b @ v1 < a @ v1 /\ a @ v2 < b @ v2 /\
  forall w, w < n -> flag_ok v1 v2 w.
Definition good2 v := v < n /\ 0 < a @ v /\ 0 < b @ v.

Lemma mine_spec : forall v, mine v = Nat.min (a @ v) (b @ v).
Proof. intros v. unfold mine. destruct (Nat.ltb_spec (a @ v) (b @ v)); lia. Qed.

Lemma m1_nth : forall v1 v2 w, w < n ->
  (m1 v1 v2) @ w = if w =? v2 then b @ v2 - 1 else if w =? v1 then a @ v1 - 1 else l @ w - 1.
Proof. intros. unfold m1. rewrite !t_set_nth by auto. unfold top. rewrite tabulate_nth by auto. auto. Qed.
Lemma m2_nth : forall v w, w < n -> (m2 v) @ w = if w =? v then Nat.min (a @ v) (b @ v) - 1 else l @ w - 1.
Proof. intros. unfold m2. rewrite mine_spec, !t_set_nth by auto. unfold top. rewrite tabulate_nth by auto. auto. Qed.

Lemma good1_msm : forall v1 v2, good1 v1 v2 -> msm n I (m1 v1 v2).
Proof.
  intros v1 v2 (H1 & H2 & Hne & G1 & G2 & Hfl).
  destruct ab_in as [Ia [Ib Nab]].
  apply msm_intro; [apply t_set_length| |].
  - intros [g [Hg Hle]]. destruct (ab_cases g Hg) as [->|[->|[w [Hw E]]]].
    + specialize (Hle v1 H1). rewrite m1_nth in Hle by auto. rewrite Nat.eqb_refl in Hle.
      destruct (Nat.eqb_spec v1 v2); [contradiction|lia].
    + specialize (Hle v2 H2). rewrite m1_nth in Hle by auto. rewrite Nat.eqb_refl in Hle. lia.
    + specialize (Hle w Hw). rewrite m1_nth in Hle by auto. specialize (Hf w Hw).
      destruct (ab_lt w Hw).
      destruct (Nat.eqb_spec w v2); [subst; lia|]. destruct (Nat.eqb_spec w v1); [subst; lia|lia].
  - intros v Hv. destruct (Nat.eq_dec v v1) as [->|N1].
    { exists a. split; auto. split.
      - rewrite m1_nth by auto. rewrite Nat.eqb_refl. destruct (Nat.eqb_spec v1 v2); [contradiction|lia].
      - intros w Hw Hnw. rewrite m1_nth by auto. destruct (Nat.eqb_spec w v2); [subst; lia|].
        destruct (Nat.eqb_spec w v1); [contradiction|]. destruct (ab_lt w Hw). lia. }
    destruct (Nat.eq_dec v v2) as [->|N2].
    { exists b. split; auto. split.
      - rewrite m1_nth by auto. rewrite Nat.eqb_refl. lia.
      - intros w Hw Hnw. rewrite m1_nth by auto. destruct (Nat.eqb_spec w v2); [contradiction|].
        destruct (Nat.eqb_spec w v1); [subst; lia|]. destruct (ab_lt w Hw). lia. }
    destruct (Hfl v Hv) as [E|[E|[g [Hg [L1 [L2 L3]]]]]]; [contradiction|contradiction|].
    exists g. split; auto. split.
    + rewrite m1_nth by auto. specialize (Hf v Hv). destruct (Nat.eqb_spec v v2); [contradiction|].
      destruct (Nat.eqb_spec v v1); [contradiction|lia].
    + intros w Hw Hnw. rewrite m1_nth by auto. pose proof (max_lt g v w Hg Hv L3 Hw Hnw).
      destruct (Nat.eqb_spec w v2); [subst; lia|]. destruct (Nat.eqb_spec w v1); [subst; lia|lia].
Qed.

Lemma good2_msm : forall v, SI n I -> good2 v -> msm n I (m2 v).
Proof.
  intros v Hs (Hv & Ga & Gb). destruct ab_in as [Ia [Ib Nab]].
  apply msm_intro; [apply t_set_length| |].
  - intros [g [Hg Hle]]. destruct (ab_cases g Hg) as [->|[->|[w [Hw E]]]].
    + specialize (Hle v Hv). rewrite m2_nth, Nat.eqb_refl in Hle by auto. lia.
    + specialize (Hle v Hv). rewrite m2_nth, Nat.eqb_refl in Hle by auto. lia.
    + specialize (Hle w Hw). rewrite m2_nth in Hle by auto. specialize (Hf w Hw). destruct (ab_lt w Hw).
      destruct (Nat.eqb_spec w v); [subst; lia|lia].
  - intros w Hw. destruct (Nat.eq_dec w v) as [->|Hne].
    + exists (if a @ v <? b @ v then a else b). split; [destruct (a @ v <? b @ v); auto|]. split.
      * rewrite m2_nth, Nat.eqb_refl by auto. destruct (Nat.ltb_spec (a @ v) (b @ v)); lia.
      * intros u Hu Hnu. rewrite m2_nth by auto. destruct (Nat.eqb_spec u v); [contradiction|].
        destruct (ab_lt u Hu). destruct (a @ v <? b @ v); lia.
    + destruct (Hs w Hw) as [_ Hz]. destruct (Hz v Hv ltac:(auto)) as [g [Hg [[C1 C2] E]]]. fold l in C2.
      destruct (ab_cases g Hg) as [->|[->|[u [Hu Eu]]]]; [lia|lia|].
      assert (u = w) by (destruct (Nat.eq_dec u w); auto; exfalso; apply (C2 u); auto). subst u.
      exists g. split; auto. split.
      * rewrite m2_nth by auto. specialize (Hf w Hw). destruct (Nat.eqb_spec w v); [contradiction|lia].
      * intros u Hu' Hnu. rewrite m2_nth by auto. destruct (Nat.eqb_spec u v); [subst; lia|].
        pose proof (max_lt g w u Hg Hw Eu Hu' Hnu). lia.
Qed.

(** a variable whose exponent is not the top one is labelled by a or b *)
Lemma low_label : forall m v, msm n I m -> v < n -> m @ v < l @ v - 1 -> lab n v m a \/ lab n v m b.
Proof.
  intros m v Hm Hv Hlt. destruct (msm_lab n I m v Hm Hv) as [g [Hg Hl]].
  destruct (ab_cases g Hg) as [->|[->|[w [Hw E]]]]; auto. exfalso. destruct Hl as [L1 L2].
  destruct (Nat.eq_dec w v) as [->|Hne]; [lia|]. specialize (L2 w Hw Hne).
  pose proof (msm_lt_lcm n I m w Hm Hw). fold l in H. lia.
Qed.

Lemma msm_good : forall m, msm n I m ->
  (exists v1 v2, good1 v1 v2 /\ m = m1 v1 v2) \/ (exists v, good2 v /\ m = m2 v).
Proof.
  intros m Hm. destruct ab_in as [Ia [Ib Nab]].
  assert (Hlt : forall v, v < n -> m @ v < l @ v) by (intros v Hv; apply (msm_lt_lcm n I m v Hm Hv)).
  assert (Hna : exists v, v < n /\ m @ v < a @ v).
  { destruct (existsb (fun v => m @ v <? a @ v) (seq 0 n)) eqn:E.
    - apply existsb_seq in E. destruct E as [v [Hv E]]. apply Nat.ltb_lt in E. exists v; auto.
    - exfalso. apply (proj1 (proj2 Hm)). exists a. split; auto. intros v Hv.
      pose proof (existsb_false_all _ _ E v ltac:(apply in_seq; lia)) as E'. apply Nat.ltb_ge in E'. auto. }
  assert (Hnb : exists v, v < n /\ m @ v < b @ v).
  { destruct (existsb (fun v => m @ v <? b @ v) (seq 0 n)) eqn:E.
    - apply existsb_seq in E. destruct E as [v [Hv E]]. apply Nat.ltb_lt in E. exists v; auto.
    - exfalso. apply (proj1 (proj2 Hm)). exists b. split; auto. intros v Hv.
      pose proof (existsb_false_all _ _ E v ltac:(apply in_seq; lia)) as E'. apply Nat.ltb_ge in E'. auto. }
  assert (Hlow : forall v, v < n -> m @ v < a @ v \/ m @ v < b @ v -> m @ v < l @ v - 1).
  { intros v Hv H. destruct (ab_lt v Hv). lia. }
  (* the case where both a and b label *)
  assert (Hboth : forall v1 v2, v1 < n -> v2 < n -> lab n v1 m a -> lab n v2 m b -> v1 <> v2 ->
    good1 v1 v2 /\ m = m1 v1 v2).
  { intros v1 v2 H1 H2 [A1 A2] [B1 B2] Hne.
    pose proof (A2 v2 H2 ltac:(auto)) as A3. pose proof (B2 v1 H1 ltac:(auto)) as B3.
    assert (Hoth : forall w, w < n -> w <> v1 -> w <> v2 -> m @ w = l @ w - 1).
    { intros w Hw N1 N2. pose proof (Hlt w Hw). destruct (Nat.eq_dec (m @ w) (l @ w - 1)); auto. exfalso.
      destruct (low_label m w Hm Hw ltac:(lia)) as [L|L].
      - apply N1. apply (lab_inj n w v1 m a); auto. split; auto.
      - apply N2. apply (lab_inj n w v2 m b); auto. split; auto. }
    split.
    - repeat split; auto; try lia. intros w Hw. unfold flag_ok.
      destruct (Nat.eq_dec w v1) as [->|N1]; auto. destruct (Nat.eq_dec w v2) as [->|N2]; auto.
      right; right. destruct (msm_lab n I m w Hm Hw) as [g [Hg [G1 G2]]]. exists g.
      pose proof (G2 v1 H1 ltac:(auto)). pose proof (G2 v2 H2 ltac:(auto)).
      split; auto. split; [lia|]. split; [lia|]. rewrite G1. rewrite Hoth by auto. specialize (Hf w Hw). lia.
    - apply term_ext with n; [apply Hm|apply t_set_length|]. intros w Hw. rewrite m1_nth by auto.
      destruct (Nat.eqb_spec w v2) as [->|N2]; [lia|]. destruct (Nat.eqb_spec w v1) as [->|N1]; [lia|]. auto. }
  (* the case of a single low variable *)
  assert (Hone : forall v, v < n -> (forall w, w < n -> w <> v -> m @ w = l @ w - 1) -> good2 v /\ m = m2 v).
  { intros v Hv Hoth.
    assert (Ea : m @ v < a @ v).
    { destruct Hna as [w [Hw Hw']]. destruct (Nat.eq_dec w v) as [->|Hne]; auto. exfalso.
      specialize (Hlow w Hw (or_introl Hw')). rewrite (Hoth w Hw Hne) in Hlow. lia. }
    assert (Eb : m @ v < b @ v).
    { destruct Hnb as [w [Hw Hw']]. destruct (Nat.eq_dec w v) as [->|Hne]; auto. exfalso.
      specialize (Hlow w Hw (or_intror Hw')). rewrite (Hoth w Hw Hne) in Hlow. lia. }
    split; [repeat split; auto; lia|].
    apply term_ext with n; [apply Hm|apply t_set_length|]. intros w Hw. rewrite m2_nth by auto.
    destruct (Nat.eqb_spec w v) as [->|Hne]; [|auto].
    destruct (low_label m v Hm Hv ltac:(apply Hlow; auto)) as [[L1 _]|[L1 _]]; lia. }
  destruct Hna as [va [Hva Hva']], Hnb as [vb [Hvb Hvb']].
  destruct (existsb (fun w => (m @ w <? l @ w - 1) && negb (w =? va)) (seq 0 n)) eqn:E.
  - apply existsb_seq in E. destruct E as [w [Hw E]]. apply andb_true_iff in E. destruct E as [E1 E2].
    apply Nat.ltb_lt in E1. apply negb_true_iff, Nat.eqb_neq in E2. left.
    destruct (low_label m va Hm Hva ltac:(apply Hlow; auto)) as [La|Lb].
    + destruct (low_label m w Hm Hw E1) as [La'|Lb'].
      * exfalso. apply E2. apply (lab_inj n w va m a); auto.
      * exists va, w. apply Hboth; auto.
    + destruct (low_label m w Hm Hw E1) as [La'|Lb'].
      * exists w, va. apply Hboth; auto.
      * exfalso. apply E2. apply (lab_inj n w va m b); auto.
  - right. exists va. apply Hone; auto. intros w Hw Hne.
    pose proof (existsb_false_all _ _ E w ltac:(apply in_seq; lia)) as E'. apply andb_false_iff in E'.
    rewrite Nat.ltb_ge, negb_false_iff, Nat.eqb_eq in E'. destruct E' as [E'|E']; [|contradiction].
    specialize (Hlt w Hw). lia.
Qed.

Lemma m1_inj : forall v1 v2 w1 w2, good1 v1 v2 -> good1 w1 w2 -> m1 v1 v2 = m1 w1 w2 -> v1 = w1 /\ v2 = w2.
Proof.
  intros v1 v2 w1 w2 (A1 & A2 & A3 & A4 & A5 & _) (B1 & B2 & B3 & B4 & B5 & _) E.
  assert (H : forall u, u < n -> (m1 v1 v2) @ u = (m1 w1 w2) @ u) by (intros; rewrite E; auto).
  pose proof (H v1 A1) as H1. pose proof (H v2 A2) as H2. clear H E. rewrite !m1_nth in * by auto.
  rewrite !Nat.eqb_refl in *. destruct (ab_lt v1 A1), (ab_lt v2 A2).
  destruct (Nat.eqb_spec v1 v2), (Nat.eqb_spec v1 w2), (Nat.eqb_spec v1 w1), (Nat.eqb_spec v2 w2), (Nat.eqb_spec v2 w1);
    subst; try lia; auto.
Qed.

Lemma m2_inj : forall v w, good2 v -> good2 w -> m2 v = m2 w -> v = w.
Proof.
  intros v w (A1 & A2 & A3) (B1 & B2 & B3) E.
  assert (H : (m2 v) @ v = (m2 w) @ v) by (rewrite E; auto). rewrite !m2_nth, Nat.eqb_refl in H by auto.
  destruct (Nat.eqb_spec v w); auto. destruct (ab_lt v A1). lia.
Qed.

Lemma m1_m2 : forall v1 v2 v, good1 v1 v2 -> good2 v -> m1 v1 v2 = m2 v -> False.
Proof.
  intros v1 v2 v (A1 & A2 & A3 & A4 & A5 & _) (B1 & B2 & B3) E.
  assert (H : forall u, u < n -> (m1 v1 v2) @ u = (m2 v) @ u) by (intros; rewrite E; auto).
  pose proof (H v1 A1) as H1. pose proof (H v2 A2) as H2. clear H E. rewrite !m1_nth, !m2_nth in * by auto.
  rewrite !Nat.eqb_refl in *. destruct (ab_lt v1 A1), (ab_lt v2 A2).
  destruct (Nat.eqb_spec v1 v2), (Nat.eqb_spec v1 v), (Nat.eqb_spec v2 v); subst; try lia.
Qed.

End TwoNonMax.

Lemma flat_if_in : forall {A} (x : A) c m, In m (if c : bool then [] else [x]) <-> c = false /\ m = x.
Proof. intros A x c m. destruct c; simpl; split; [intros []|intros [E _]; discriminate|intros [<-|[]]; auto|intros [_ ->]; auto]. Qed.

Lemma NoDup_if : forall {A} (x : A) (c : bool), NoDup (if c then [] else [x]).
Proof. intros A x c. destruct c; repeat constructor; auto. Qed.

Lemma twoNonMax_emits : forall s, slice_ok s -> s_lcm s = slcm s -> full (s_n s) (slcm s) -> sndl s ->
  SI (s_n s) (s_I s) -> forall out, twoNonMaxBaseCase s = Some out -> emits s out.
Proof.
  intros s Hok Hlcm Hf Hd Hs out H. unfold twoNonMaxBaseCase in H. cbv zeta in H. rewrite Hlcm in H.
  unfold slcm in *. set (n := s_n s) in *. set (I := s_I s) in *. set (l := i_lcm n I) in *.
  destruct (getTheOnlyTwoNonMax n l I) as [[a b]|] eqn:Eab; [|discriminate].
  unfold getTheOnlyTwoNonMax in Eab.
  assert (Hab : filter (isNonMax n l) I = [a; b]).
  { destruct (filter (isNonMax n l) I) as [|x [|y [|z r]]]; try discriminate. injection Eab as -> ->. auto. }
  clear Eab. injection H as <-.
  assert (Hnd : NoDup I) by (apply (ok_minI s Hok)).
  assert (Hwf : wf n I) by (apply (ok_wfI s Hok)).
  set (p1 := flat_map (fun var1 => if (a @ var1 =? 0) || (a @ var1 <=? b @ var1) then [] else _) (seq 0 n)).
  set (p2 := flat_map _ (seq 0 n)).
  (* membership in the two parts *)
  assert (Hin : forall v1 v2 m, v1 < n -> v2 < n -> 
    (In m (if (v1 =? v2) || (b @ v2 =? 0) || (b @ v2 <=? a @ v2) then []
       else if t_sizeOfSupport n (twoNonMax_flags n l I a b v1 v2) <? n then []
       else if i_contains n (s_S s) (m1 n I a b v1 v2) then [] else [t_product n (m1 n I a b v1 v2) (s_q s)]) <->
     v1 <> v2 /\ a @ v2 < b @ v2 /\ (forall w, w < n -> flag_ok n I a b v1 v2 w) /\
     ~ inI n (s_S s) (m1 n I a b v1 v2) /\ m = t_product n (m1 n I a b v1 v2) (s_q s))).
  { intros v1 v2 m H1 H2.
    destruct ((v1 =? v2) || (b @ v2 =? 0) || (b @ v2 <=? a @ v2)) eqn:E1.
    { rewrite !orb_true_iff, !Nat.eqb_eq, Nat.leb_le in E1. split; [intros []|]. intros (X1 & X2 & _). lia. }
    rewrite !orb_false_iff, !Nat.eqb_neq, Nat.leb_gt in E1. destruct E1 as [[E1 E2] E3].
    assert (Hfl : (t_sizeOfSupport n (twoNonMax_flags n l I a b v1 v2) <? n) = false <-> forall w, w < n -> flag_ok n I a b v1 v2 w).
    { rewrite size_full. split.
      - intros Hle w Hw. apply flags_spec; auto.
      - intros Hall w Hw. apply flags_spec; auto. }
    destruct (t_sizeOfSupport n (twoNonMax_flags n l I a b v1 v2) <? n).
    { split; [intros []|]. intros (_ & _ & X & _). apply Hfl in X. discriminate. }
    rewrite flat_if_in, not_true_false, i_contains_iff. split.
    - intros [X1 X2]. split; auto. split; auto. split; auto. apply Hfl; auto.
    - intros (X1 & X2 & X3 & X4 & X5); auto. }
  assert (Hp1 : forall m, In m p1 <-> exists v1 v2, good1 n I a b v1 v2 /\ ~ inI n (s_S s) (m1 n I a b v1 v2) /\
      m = t_product n (m1 n I a b v1 v2) (s_q s)).
  { intros m. unfold p1. rewrite in_flat_map. split.
    - intros [v1 [Hv1 Hm]]. apply in_seq in Hv1.
      destruct ((a @ v1 =? 0) || (a @ v1 <=? b @ v1)) eqn:E; [destruct Hm|].
      rewrite !orb_false_iff, !Nat.eqb_neq, Nat.leb_gt in E. apply in_flat_map in Hm. destruct Hm as [v2 [Hv2 Hm]].
      apply in_seq in Hv2. apply Hin in Hm; [|lia|lia]. destruct Hm as (X1 & X2 & X3 & X4 & X5).
      exists v1, v2. split; auto. repeat split; auto; lia.
    - intros (v1 & v2 & (G1 & G2 & G3 & G4 & G5 & G6) & X1 & X2). exists v1. split; [apply in_seq; lia|].
      destruct ((a @ v1 =? 0) || (a @ v1 <=? b @ v1)) eqn:E.
      { rewrite !orb_true_iff, !Nat.eqb_eq, Nat.leb_le in E. lia. }
      apply in_flat_map. exists v2. split; [apply in_seq; lia|]. apply Hin; auto. }
  assert (Hin2 : forall v m, v < n -> 
    (In m (let e := if a @ v <? b @ v then a @ v else b @ v in
          if e =? 0 then []
          else let m := t_set n (tabulate n (fun v => l @ v - 1)) v (e - 1) in
            if i_contains n (s_S s) m then [] else [t_product n m (s_q s)]) <->
     good2 n a b v /\ ~ inI n (s_S s) (m2 n I a b v) /\ m = t_product n (m2 n I a b v) (s_q s))).
  { intros v m Hv. cbv zeta. fold (mine a b v). fold l. change (t_set n (tabulate n (fun v0 => l @ v0 - 1)) v (mine a b v - 1)) with (m2 n I a b v).
    unfold good2. pose proof (mine_spec a b v) as Hme. destruct (Nat.eqb_spec (mine a b v) 0) as [E|E].
    - split; [intros []|]. intros ((X1 & X2 & X3) & _). lia.
    - rewrite flat_if_in, not_true_false, i_contains_iff. split.
      + intros [X1 X2]. split; auto. repeat split; auto; lia.
      + intros (_ & X1 & X2); auto. }
  assert (Hp2 : forall m, In m p2 <-> exists v, good2 n a b v /\ ~ inI n (s_S s) (m2 n I a b v) /\
      m = t_product n (m2 n I a b v) (s_q s)).
  { intros m. unfold p2. rewrite in_flat_map. split.
    - intros [v [Hv Hm]]. apply in_seq in Hv. apply Hin2 in Hm; [|lia]. exists v. auto.
    - intros [v [G X]]. exists v. split; [apply in_seq; destruct G; lia|]. apply Hin2; auto. apply G. }
  assert (L1 : forall v w, length (m1 n I a b v w) = n) by (intros; apply t_set_length).
  assert (L2 : forall v, length (m2 n I a b v) = n) by (intros; apply t_set_length).
  split.
  - apply NoDup_app_intro.
    + unfold p1. apply NoDup_flat_map; [apply seq_NoDup| |].
      * intros v1 Hv1. apply in_seq in Hv1. destruct ((a @ v1 =? 0) || (a @ v1 <=? b @ v1)) eqn:E; [constructor|].
        rewrite !orb_false_iff, !Nat.eqb_neq, Nat.leb_gt in E.
        apply NoDup_flat_map; [apply seq_NoDup| |].
        -- intros v2 Hv2. destruct ((v1 =? v2) || (b @ v2 =? 0) || (b @ v2 <=? a @ v2)); [constructor|].
           destruct (t_sizeOfSupport n (twoNonMax_flags n l I a b v1 v2) <? n); [constructor|]. apply NoDup_if.
        -- intros v2 w2 m Hv2 Hw2 X Y. apply in_seq in Hv2, Hw2. apply Hin in X; [|lia|lia]. apply Hin in Y; [|lia|lia].
           destruct X as (X1 & X2 & X3 & X4 & X5), Y as (Y1 & Y2 & Y3 & Y4 & Y5). rewrite X5 in Y5.
           apply product_inj in Y5; auto. apply (m1_inj n I a b Hab) in Y5; [tauto| |]; repeat split; auto; lia.
      * intros v1 w1 m Hv1 Hw1 X Y. apply in_seq in Hv1, Hw1.
        destruct ((a @ v1 =? 0) || (a @ v1 <=? b @ v1)) eqn:E; [destruct X|].
        destruct ((a @ w1 =? 0) || (a @ w1 <=? b @ w1)) eqn:E'; [destruct Y|].
        rewrite !orb_false_iff, !Nat.eqb_neq, Nat.leb_gt in E, E'.
        apply in_flat_map in X. destruct X as [v2 [Hv2 X]]. apply in_flat_map in Y. destruct Y as [w2 [Hw2 Y]].
        apply in_seq in Hv2, Hw2. apply Hin in X; [|lia|lia]. apply Hin in Y; [|lia|lia].
        destruct X as (X1 & X2 & X3 & X4 & X5), Y as (Y1 & Y2 & Y3 & Y4 & Y5). rewrite X5 in Y5.
        apply product_inj in Y5; auto. apply (m1_inj n I a b Hab) in Y5; [tauto| |]; repeat split; auto; lia.
    + unfold p2. apply NoDup_flat_map; [apply seq_NoDup| |].
      * intros v Hv. cbv zeta. destruct ((if a @ v <? b @ v then a @ v else b @ v) =? 0); [constructor|]. apply NoDup_if.
      * intros v w m Hv Hw X Y. apply in_seq in Hv, Hw. apply Hin2 in X; [|lia]. apply Hin2 in Y; [|lia].
        destruct X as (X1 & X2 & X3), Y as (Y1 & Y2 & Y3). rewrite X3 in Y3. apply product_inj in Y3; auto.
        eapply (m2_inj n I a b); eauto.
    + intros m X Y. apply Hp1 in X. apply Hp2 in Y. destruct X as (v1 & v2 & G & _ & E), Y as (v & G' & _ & E').
      rewrite E in E'. apply product_inj in E'; auto. eapply (m1_m2 n I a b); eauto.
  - intros m. rewrite in_app_iff, Hp1, Hp2. unfold con, sker, ker. fold n I. split.
    + intros [(v1 & v2 & G & X & E)|(v & G & X & E)].
      * exists (m1 n I a b v1 v2). split; auto. split; auto. eapply good1_msm; eauto.
      * exists (m2 n I a b v). split; auto. split; auto. eapply good2_msm; eauto.
    + intros [m' [[K1 K2] E]]. destruct (msm_good n I a b Hf Hab Hnd m' K1) as [(v1 & v2 & G & ->)|(v & G & ->)].
      * left. exists v1, v2. auto.
      * right. exists v. auto.
Qed.

(** ** baseCase *)
(** What the caller must guarantee for each value of the [simplified] argument. *)
Definition base_pre (simplified : bool) (s : slice) : Prop :=
  (s_n s = 0 -> s_S s = []) /\
  (s_n s = 1 -> forall g, In g (s_I s) -> g @ 0 <= 1) /\
  (simplified = true -> simplified_ideal (s_n s) (s_I s)).

(** What is known of a slice that is not a base case. *)
Record nonbase (simplified : bool) (s : slice) : Prop := mkNB {
  nb_n : 2 <= s_n s;
  nb_full : full (s_n s) (slcm s);
  nb_count : s_n s < length (s_I s);
  nb_big : exists v, v < s_n s /\ 2 <= (slcm s) @ v;
  nb_one : sB s (t_identity (s_n s));
  nb_SI : simplified = true -> SI (s_n s) (s_I s);
  nb_lcm : s_lcm s = slcm s;
}.

Lemma full_not_one : forall n I, minl n I -> wf n I -> 0 < n -> full n (i_lcm n I) -> ~ inI n I (t_identity n).
Proof.
  intros n I Hm Hw Hn Hf [g [Hg Hle]]. destruct (i_lcm_attained n I 0 Hn (Hf 0 Hn)) as [h [Hh E]].
  assert (g = h).
  { apply Hm; auto. intros v Hv. specialize (Hle v Hv). rewrite t_identity_nth in Hle. lia. }
  subst h. specialize (Hle 0 Hn). rewrite t_identity_nth in Hle. specialize (Hf 0 Hn). lia.
Qed.

Lemma one_sB : forall s, slice_ok s -> 0 < s_n s -> full (s_n s) (slcm s) -> sB s (t_identity (s_n s)).
Proof.
  intros s Hok Hn Hf. split; [apply t_identity_length|]. split; [|split].
  - intros v Hv. rewrite t_identity_nth. apply Hf; auto.
  - apply full_not_one; auto; apply Hok.
  - apply norm_no_one with (s_I s); [apply Hok|].
    destruct (i_lcm_attained (s_n s) (s_I s) 0 Hn (Hf 0 Hn)) as [h [Hh E]]. exists h, 0. split; auto. split; auto.
    specialize (Hf 0 Hn). unfold slcm in Hf. lia.
Qed.

Lemma isvars_length : forall n I, NoDup I -> isvars n I -> length I <= n.
Proof.
  intros n I Hnd [H _]. replace n with (length (map (fun v => var_pow n v 1) (seq 0 n))) by (rewrite map_length, seq_length; auto).
  apply NoDup_incl_length; auto. intros g Hg. destruct (H g Hg) as [v [Hv ->]]. apply in_map_iff. exists v.
  split; auto. apply in_seq; lia.
Qed.

Lemma con_touch : forall s m, con (sl_touch s) m <-> con s m.
Proof.
  intros s m. destruct (touch_facts s) as [A [B [C [D [E F]]]]]. unfold con, sker. rewrite A, B, C, D. reflexivity.
Qed.

Lemma emits_touch : forall s out, emits (sl_touch s) out -> emits s out.
Proof. intros s out [H1 H2]. split; auto. intros m. rewrite H2. apply con_touch. Qed.

Lemma one_var : forall s, slice_ok s -> s_n s = 1 -> full 1 (slcm s) ->
  (forall g, In g (s_I s) -> g @ 0 <= 1) -> isvars (s_n s) (s_I s).
Proof.
  intros s Hok Hn Hf H1. unfold slcm in Hf. rewrite Hn in *.
  pose proof (ok_minI s Hok) as Hm. pose proof (ok_wfI s Hok) as Hw. rewrite Hn in Hm, Hw.
  destruct (i_lcm_attained 1 (s_I s) 0 ltac:(lia) (Hf 0 ltac:(lia))) as [h [Hh E]].
  assert (Eh : h = var_pow 1 0 1).
  { apply term_ext with 1; auto. intros v Hv. assert (v = 0) by lia. subst v.
    rewrite var_pow_nth by lia. simpl. specialize (H1 h Hh). specialize (Hf 0 ltac:(lia)). lia. }
  split.
  - intros g Hg. exists 0. split; [lia|]. rewrite <- Eh. eapply minl_1_single; eauto.
  - intros v Hv. assert (v = 0) by lia. subst v. rewrite <- Eh. auto.
Qed.

Lemma baseCase_spec : forall s simplified s' r, slice_ok s -> sndl s -> base_pre simplified s ->
  msm_baseCase s simplified = (s', r) ->
  match r with
  | Base out => emits s out
  | BaseUB => False
  | NotBase => s' = sl_touch s /\ nonbase simplified s'
  end.
Proof.
  intros s simplified s' r Hok Hd [P0 [P1 P2]] H. unfold msm_baseCase in H. cbv zeta in H.
  destruct (Nat.ltb_spec (length (s_I s)) (s_n s)) as [Hlt|Hge].
  { injection H as <- <-. apply emits_nil. intros m [Hm _]. apply few_generators in Hm. lia. }
  destruct (touch_facts s) as [A [B [C [D [E F]]]]]. pose proof (touch_lcm s Hok) as L. fold (slcm s) in L.
  pose proof (touch_ok s Hok) as Hok'.
  assert (Hd' : sndl (sl_touch s)) by (unfold sndl; rewrite A, B; auto).
  assert (Hsl : slcm (sl_touch s) = slcm s) by (unfold slcm; rewrite A, B; auto).
  set (n := s_n s) in *.
  destruct (t_sizeOfSupport n (s_lcm (sl_touch s)) <? n) eqn:Hfull.
  { injection H as <- <-. apply emits_nil. intros m [Hm _]. apply Nat.ltb_lt in Hfull.
    apply t_sizeOfSupport_full in Hfull. rewrite L in Hfull. destruct Hfull as [v [Hv Hz]].
    eapply not_full_no_msm; [exact Hv|exact Hz|exact Hm]. }
  assert (Hf : full n (slcm s)).
  { apply size_full. rewrite L in Hfull. auto. }
  assert (Hlc : s_lcm (sl_touch s) = slcm (sl_touch s)) by congruence.
  assert (Hf' : full (s_n (sl_touch s)) (slcm (sl_touch s))) by (rewrite A, Hsl; auto).
  destruct (Nat.eqb_spec n 0) as [E0|N0].
  { injection H as <- <-. rewrite B, D. destruct (s_I s) as [|g I] eqn:EI.
    - split; [repeat constructor; auto|]. intros m. unfold con, sker, ker. fold n. rewrite EI, (P0 E0). split.
      + intros [<-|[]]. exists []. split.
        * split; [|apply inI_nil]. rewrite E0. split; auto. split; [apply inI_nil|]. intros v Hv; lia.
        * pose proof (ok_q s Hok) as Hq. fold n in Hq. rewrite E0 in *. destruct (s_q s); [auto|discriminate].
      + intros [m' [_ ->]]. left. pose proof (ok_q s Hok) as Hq. fold n in Hq. rewrite E0 in *.
        destruct (s_q s); [auto|discriminate].
    - apply emits_nil. intros m [[_ [Hm _]] _]. apply Hm. exists g. fold n. rewrite EI. split; [left; auto|].
      intros v Hv. fold n in Hv. lia. }
  destruct (Nat.eqb_spec n 1) as [E1|N1].
  { injection H as <- <-. rewrite D. apply isvars_emits; auto; [fold n; lia|]. apply one_var; auto.
    rewrite <- E1. auto. }
  destruct (negb simplified) eqn:Es.
  { destruct (t_isSquareFree n (s_lcm (sl_touch s))) eqn:Esf.
    { injection H as <- <-. rewrite D. apply isvars_emits; auto; [fold n; lia|].
      rewrite L in Esf. rewrite t_isSquareFree_iff in Esf.
      apply squarefree_isvars; auto; try (fold n; lia); apply Hok. }
    destruct (Nat.eqb_spec (length (s_I (sl_touch s))) n) as [En|En].
    - rewrite B in En. rewrite C in H.
      assert (Hker : forall m, msm n (s_I s) m <-> m = t_decrement n (slcm s)).
      { intros m. apply count_n_ker; auto. }
      destruct (s_S s) as [|x S] eqn:ES.
      + injection H as <- <-. rewrite D, L. split; [repeat constructor; auto|]. intros m. unfold con, sker, ker. fold n.
        rewrite ES. split.
        * intros [<-|[]]. exists (t_decrement n (slcm s)). split.
          -- split; [apply Hker; auto|apply inI_nil].
          -- apply term_ext with n; auto using t_product_length. intros v Hv. rewrite !t_product_nth by auto. lia.
        * intros [m' [[K1 _] ->]]. apply Hker in K1. subst m'. left.
          apply term_ext with n; auto using t_product_length. intros v Hv. rewrite !t_product_nth by auto. lia.
      + rewrite <- ES in *. rewrite L in H.
        destruct (msm_innerSlice (sl_touch s) (t_decrement n (slcm s))) as [s1 ch] eqn:Ei.
        assert (Hlp : length (t_decrement n (slcm s)) = s_n (sl_touch s)) by (rewrite A; apply t_decrement_length).
        destruct (msm_innerSlice_spec _ _ _ _ Hok' Hd' Hlp Ei) as [I1 [I2 [I3 I4]]].
        assert (Hcon : forall m, con s m <-> con s1 m).
        { intros m. rewrite <- (con_touch s m).
          assert (Hsm : same_con (sl_touch s) s1).
          { apply (inner_same (sl_touch s) (t_decrement n (slcm s))); auto. { exact (ok_q _ Hok'). }
            intros m' [K _]. rewrite A, B in *. apply Hker in K. subst m'. apply le_n_refl. }
          symmetry. apply Hsm. }
        assert (En1 : s_n s1 = n) by (rewrite (in_n _ _ _ I3); auto).
        destruct (Nat.ltb_spec (length (s_I s1)) n) as [Hlt|Hge1]; injection H as <- <-.
        * split; [constructor|]. intros m. rewrite Hcon. split; [intros []|]. intros [m' [[K _] _]].
          apply few_generators in K. rewrite En1 in K. lia.
        * assert (Hv1 : isvars (s_n s1) (s_I s1)).
          { assert (Hsub : forall g, In g (s_I s1) -> exists v, v < n /\ g = var_pow n v 1).
            { intros g Hg. apply (in_I _ _ _ I3) in Hg. rewrite A, B in Hg. destruct Hg as [h [Hh ->]].
              destruct (count_n_max n (s_I s) Hf Hd En h Hh) as [v [Hv Ev]]. exists v. split; auto.
              apply pure_of; auto; [apply t_colon_length| |].
              - rewrite t_colon_nth, t_decrement_nth by auto. specialize (Hf v Hv). unfold slcm in Hf |- *. fold n in Hf |- *. lia.
              - intros w Hw Hne. rewrite t_colon_nth, t_decrement_nth by auto.
                pose proof (ndl_lt n (s_I s) h v w Hf Hd Hh Hv Hw Hne Ev). unfold slcm. fold n. lia. }
            rewrite En1. split; auto.
            assert (Hinc : incl (map (fun v => var_pow n v 1) (seq 0 n)) (s_I s1)).
            { apply NoDup_length_incl.
              - apply (proj1 (ok_minI s1 I1)).
              - rewrite map_length, seq_length. auto.
              - intros g Hg. destruct (Hsub g Hg) as [v [Hv ->]]. apply in_map_iff. exists v. split; auto. apply in_seq; lia. }
            intros v Hv. apply Hinc. apply in_map_iff. exists v. split; auto. apply in_seq; lia. }
          destruct (isvars_emits s1 I1 ltac:(lia) Hv1) as [N M]. split; auto. intros m. rewrite Hcon. apply M.
    - injection H as <- <-. split; auto. constructor; auto; try (rewrite ?A, ?B in *; lia).
      + rewrite A, Hsl. rewrite L in Esf. rewrite not_true_false, t_isSquareFree_iff in Esf. fold n.
        destruct (existsb (fun v => 2 <=? (slcm s) @ v) (seq 0 n)) eqn:Ex.
        * apply existsb_seq in Ex. destruct Ex as [v [Hv Ev]]. apply Nat.leb_le in Ev. exists v; auto.
        * exfalso. apply Esf. intros v Hv.
          pose proof (existsb_false_all _ _ Ex v ltac:(apply in_seq; lia)) as Ev. apply Nat.leb_gt in Ev. lia.
      + apply one_sB; auto. rewrite A. lia.
      + intros ->. discriminate. }
  apply negb_false_iff in Es. destruct (P2 Es) as [Hsi _]. specialize (Hsi ltac:(lia)).
  assert (HSI : SI n (s_I s)).
  { destruct Hsi as [Hnil|]; auto. rewrite Hnil in Hge. simpl in Hge. lia. }
  destruct (Nat.eqb_spec n 2) as [E2|N2].
  { injection H as <- <-. apply emits_touch. apply twoVar_emits; auto. rewrite A. auto. }
  rewrite B in H.
  destruct (Nat.ltb_spec n (length (s_I s))) as [Hgt|Hle].
  - destruct (Nat.eqb_spec (length (s_I s)) (n + 1)) as [En|En].
    + injection H as <- <-.
      destruct (oneMore_emits (sl_touch s)) as [out [Eo Em]]; auto; try (rewrite A; fold n; lia).
      * rewrite A, B. auto.
      * rewrite A, B. auto.
      * rewrite Eo. apply emits_touch. auto.
    + destruct (twoNonMaxBaseCase (sl_touch s)) as [out|] eqn:Et; injection H as <- <-.
      * apply emits_touch. eapply twoNonMax_emits; eauto. rewrite A, B. auto.
      * split; auto. constructor; auto; try (rewrite A; fold n; lia).
        -- rewrite A, B. auto.
        -- rewrite A, Hsl. fold n.
           destruct (existsb (fun v => 2 <=? (slcm s) @ v) (seq 0 n)) eqn:Ex.
           ++ apply existsb_seq in Ex. destruct Ex as [v [Hv Ev]]. apply Nat.leb_le in Ev. exists v; auto.
           ++ exfalso. assert (isvars n (s_I s)).
              { apply squarefree_isvars; auto; try (apply Hok; fail); [lia|]. intros v Hv.
                pose proof (existsb_false_all _ _ Ex v ltac:(apply in_seq; lia)) as Ev. apply Nat.leb_gt in Ev.
                unfold slcm in Ev. fold n in Ev. lia. }
              apply isvars_length in H; [lia|]. apply (ok_minI s Hok).
        -- apply one_sB; auto. rewrite A. fold n. lia.
        -- intros _. rewrite A, B. auto.
  - injection H as <- <-. rewrite D. apply isvars_emits; auto; [fold n; lia|].
    apply simp_count_n; auto; try (fold n; lia); try (apply Hok; fail).
Qed.
