(** The maximal independent set algorithm and the dimension. *)
From Coq Require Import List Arith Bool ZArith Lia Permutation.
Import ListNotations.
From Verif Require Import Spec Spec_Dim Spec_Api M_Term M_Ideal M_Api M_Dim P_Term P_Ideal P_Bridge.

(** ** States *)
Lemma st_set_length : forall st v x, length (st_set st v x) = length st.
Proof. induction st as [|y st IH]; intros [|v] x; simpl; auto. Qed.
Lemma st_get_set_eq : forall st v x, v < length st -> st_get (st_set st v x) v = x.
Proof. unfold st_get. induction st as [|y st IH]; intros [|v] x H; simpl in *; try lia; auto. apply IH; lia. Qed.
Lemma st_get_set_ne : forall st v w x, v <> w -> st_get (st_set st v x) w = st_get st w.
Proof. unfold st_get. induction st as [|y st IH]; intros [|v] [|w] x H; simpl; auto; try lia. Qed.
Lemma st_set_set : forall st v x y, st_set (st_set st v x) v y = st_set st v y.
Proof. induction st as [|z st IH]; intros [|v] x y; simpl; auto. f_equal; auto. Qed.
Lemma st_set_same : forall st v, v < length st -> st_set st v (st_get st v) = st.
Proof. unfold st_get. induction st as [|z st IH]; intros [|v] H; simpl in *; auto; try lia. f_equal. apply IH. lia. Qed.

(** ** Sets of excluded variables *)
Section Indep.
Variable n : nat.
Definition cnt (E : nat -> bool) : nat := length (filter E (seq 0 n)).
Definition nots (st : list var_state) (v : nat) : bool := match st_get st v with IsNotInSet => true | _ => false end.
Definition consistent (st : list var_state) (E : nat -> bool) : Prop :=
  forall v, v < n -> (st_get st v = IsNotInSet -> E v = true) /\ (st_get st v = IsInSet -> E v = false).
Definition covers (E : nat -> bool) (es : list (list nat)) : Prop := forall e, In e es -> exists v, In v e /\ E v = true.
Definition edges_ok (es : list (list nat)) : Prop := forall e, In e es -> NoDup e /\ forall v, In v e -> v < n.

Lemma filter_le : forall (f g : nat -> bool) l, (forall v, In v l -> f v = true -> g v = true) -> length (filter f l) <= length (filter g l).
Proof.
  induction l as [|x l IH]; intros H; simpl; auto. assert (IH' := IH ltac:(intros; apply H; [right|]; auto)).
  destruct (f x) eqn:F.
  - rewrite (H x (or_introl eq_refl) F). simpl. lia.
  - destruct (g x); simpl; lia.
Qed.
Lemma cnt_le : forall f g, (forall v, v < n -> f v = true -> g v = true) -> cnt f <= cnt g.
Proof. intros f g H. apply filter_le. intros v Hv. apply H. apply in_seq in Hv. lia. Qed.
Lemma cnt_ext : forall f g, (forall v, v < n -> f v = g v) -> cnt f = cnt g.
Proof. intros f g H. apply Nat.le_antisymm; apply cnt_le; intros v Hv; rewrite H; auto. Qed.
Lemma cnt_add : forall (f : nat -> bool) v, v < n -> f v = false -> cnt (fun w => (w =? v) || f w) = S (cnt f).
Proof.
  intros f v Hv Hf. unfold cnt.
  assert (G : forall l, NoDup l -> length (filter (fun w => (w =? v) || f w) l) = (if in_dec Nat.eq_dec v l then 1 else 0) + length (filter f l)).
  { induction l as [|x l IH]; intros Hn; auto. inversion Hn; subst. cbn [filter].
    destruct (Nat.eqb_spec x v) as [->|Ne]; simpl.
    - rewrite Hf, IH by auto. destruct (in_dec Nat.eq_dec v l); [contradiction|]. destruct (Nat.eq_dec v v); [lia|contradiction].
    - destruct (Nat.eq_dec x v); [contradiction|]. destruct (f x); simpl; rewrite IH by auto;
        destruct (in_dec Nat.eq_dec v l); lia. }
  rewrite G by apply seq_NoDup. destruct (in_dec Nat.eq_dec v (seq 0 n)) as [_|N]; auto. exfalso. apply N. apply in_seq. lia.
Qed.
Lemma nots_min : forall st E, consistent st E -> cnt (nots st) <= cnt E.
Proof.
  intros st E H. apply cnt_le. intros v Hv. unfold nots. destruct (st_get st v) eqn:Q; try discriminate. intros _. apply H; auto.
Qed.
Lemma nots_consistent : forall st, consistent st (nots st).
Proof. intros st v Hv. unfold nots. split; intros ->; auto. Qed.
Lemma nots_set : forall st v, length st = n -> v < n -> st_get st v = IsMaybeInSet -> cnt (nots (st_set st v IsNotInSet)) = S (cnt (nots st)).
Proof.
  intros st v Hl Hv Hs. rewrite <- (cnt_add (nots st) v Hv).
  - apply cnt_ext. intros w Hw. unfold nots. destruct (Nat.eqb_spec w v) as [->|Ne].
    + rewrite st_get_set_eq by lia. auto.
    + rewrite st_get_set_ne by auto. auto.
  - unfold nots. rewrite Hs. auto.
Qed.
Lemma nots_set_in : forall st v, length st = n -> v < n -> st_get st v = IsMaybeInSet -> cnt (nots (st_set st v IsInSet)) = cnt (nots st).
Proof.
  intros st v Hl Hv Hs. apply cnt_ext. intros w Hw. unfold nots. destruct (Nat.eq_dec w v) as [->|Ne].
  - rewrite st_get_set_eq by lia. rewrite Hs. auto.
  - rewrite st_get_set_ne by auto. auto.
Qed.
Lemma consistent_set : forall st v x E, length st = n -> v < n -> st_get st v = IsMaybeInSet ->
  (consistent (st_set st v x) E <-> consistent st E /\ (x = IsNotInSet -> E v = true) /\ (x = IsInSet -> E v = false)).
Proof.
  intros st v x E Hl Hv Hs. split.
  - intros H. split; [|split].
    + intros w Hw. destruct (Nat.eq_dec w v) as [->|Ne]; [rewrite Hs; split; discriminate|].
      destruct (H w Hw) as [A B]. rewrite st_get_set_ne in A, B by auto. auto.
    + intros ->. destruct (H v Hv) as [A _]. rewrite st_get_set_eq in A by lia. auto.
    + intros ->. destruct (H v Hv) as [_ A]. rewrite st_get_set_eq in A by lia. auto.
  - intros [H [A B]] w Hw. destruct (Nat.eq_dec w v) as [->|Ne].
    + rewrite st_get_set_eq by lia. auto.
    + rewrite st_get_set_ne by auto. auto.
Qed.

(** ** The encoding *)
Definition enc (es : list (list nat)) : list nat := flat_map (fun e => length e :: e) es.
Lemma enc_cons : forall e es, enc (e :: es) = length e :: e ++ enc es.
Proof. reflexivity. Qed.
Lemma enc_first : forall e es, firstn (length e) (e ++ enc es) = e.
Proof. intros. rewrite firstn_app, Nat.sub_diag, firstn_all. simpl. apply app_nil_r. Qed.
Lemma enc_rest : forall e es, skipn (length e) (e ++ enc es) = enc es.
Proof. intros. rewrite skipn_app, Nat.sub_diag, skipn_all. reflexivity. Qed.

Lemma indepMaybe_spec : forall fuel es st, length (enc es) < fuel ->
  exists b, mi_indepMaybe fuel (enc es) st = Some b /\ (b = true <-> covers (nots st) es).
Proof.
  induction fuel as [|fuel IH]; intros es st Hf; [lia|]. destruct es as [|e es].
  - exists true. split; auto. split; auto. intros _ e [].
  - rewrite enc_cons in *. cbn [mi_indepMaybe]. rewrite enc_first, enc_rest. fold (nots st).
    cbn [length] in Hf. rewrite app_length in Hf.
    change (existsb (fun v => match st_get st v with IsNotInSet => true | _ => false end) e) with (existsb (nots st) e).
    destruct (existsb (nots st) e) eqn:Ex.
    + destruct (IH es st ltac:(lia)) as [b [E B]]. exists b. split; auto. rewrite B. split.
      * intros H e' [<-|He]; [|apply H; auto]. apply existsb_exists in Ex. auto.
      * intros H e' He. apply H. right; auto.
    + exists false. split; auto. split; [discriminate|]. intros H. destruct (H e ltac:(left; auto)) as [v [A B]].
      assert (existsb (nots st) e = true) by (apply existsb_exists; eauto). congruence.
Qed.

Lemma couldBe_None : forall e st, mi_couldBe e st = None -> exists v, In v e /\ st_get st v = IsNotInSet.
Proof.
  induction e as [|v e IH]; intros st; cbn [mi_couldBe]; [discriminate|]. destruct (st_get st v) eqn:Q.
  - destruct (mi_couldBe e st) eqn:C; [discriminate|]. intros _. destruct (IH st C) as [w [A B]]. exists w. split; auto. right; auto.
  - intros _. exists v. split; auto. left; auto.
  - intros C. destruct (IH st C) as [w [A B]]. exists w. split; auto. right; auto.
Qed.
Lemma couldBe_Some : forall e st k, mi_couldBe e st = Some k -> forall v, In v e -> st_get st v <> IsNotInSet.
Proof.
  induction e as [|v e IH]; intros st k; cbn [mi_couldBe]; [intros _ v []|]. intros H w [<-|Hw].
  - intros Q. rewrite Q in H. discriminate.
  - destruct (st_get st v); [|discriminate|]; [destruct (mi_couldBe e st) eqn:C; [|discriminate]|]; eapply IH; eauto.
Qed.
Lemma couldBe_0 : forall e st, mi_couldBe e st = Some 0 -> forall v, In v e -> st_get st v = IsInSet.
Proof.
  induction e as [|v e IH]; intros st; cbn [mi_couldBe]; [intros _ v []|]. intros H w [<-|Hw].
  - destruct (st_get st v); auto; [|discriminate]. destruct (mi_couldBe e st); discriminate.
  - destruct (st_get st v); [destruct (mi_couldBe e st); discriminate|discriminate|]. apply IH; auto.
Qed.
Lemma couldBe_set : forall e st v x, ~ In v e -> mi_couldBe e (st_set st v x) = mi_couldBe e st.
Proof.
  induction e as [|w e IH]; intros st v x H; auto. cbn [mi_couldBe]. simpl in H. assert (v <> w) by (intros ->; tauto). rewrite st_get_set_ne by auto. rewrite IH by tauto. auto.
Qed.

Definition good (es : list (list nat)) (Q : (nat -> bool) -> Prop) (st : list var_state) (minEx m : nat) : Prop :=
  m <= minEx /\ (forall E, consistent st E -> covers E es -> Q E -> m <= cnt E) /\
  (m = minEx \/ exists E, consistent st E /\ covers E es /\ Q E /\ cnt E = m).
Definition any : (nat -> bool) -> Prop := fun _ => True.
Definition hits (vs : list nat) : (nat -> bool) -> Prop := fun E => exists v, In v vs /\ E v = true.

Lemma loop_spec : forall rec es excl st0,
  (forall st minEx, length st = n -> excl = cnt (nots st) ->
     exists m, rec st minEx = Some (st, m) /\ good es any st minEx m) ->
  forall vs st minEx mc undo, length st = n -> NoDup vs -> (forall v, In v vs -> v < n) ->
  excl = S (cnt (nots st)) -> mi_undo undo st = st0 -> mi_couldBe vs st = Some mc -> 0 < mc ->
  exists m, mi_loop rec vs st minEx mc undo = Some (st0, m) /\ good es (hits vs) st minEx m.
Proof.
  intros rec es excl st0 Hrec. induction vs as [|v vs IH]; intros st minEx mc undo Hl HN Hv He Hu Hc Hmc.
  - cbn [mi_couldBe] in Hc. injection Hc as <-. lia.
  - cbn [mi_loop]. inversion HN as [|? ? N1 N2]; subst. cbn [mi_couldBe] in Hc.
    assert (Hvn : v < n) by (apply Hv; left; auto).
    destruct (st_get st v) eqn:Q; [|discriminate|].
    + destruct (mi_couldBe vs st) as [k|] eqn:Ck; [|discriminate]. injection Hc as <-.
      destruct (Hrec (st_set st v IsNotInSet) minEx) as [m [E [G1 [G2 G3]]]].
      { rewrite st_set_length; auto. } { rewrite nots_set; auto. }
      rewrite E. rewrite !st_set_set.
      destruct (Nat.eqb_spec (S k) 1) as [K|K].
      * exists m. split.
        { do 2 f_equal. f_equal. rewrite <- Q. apply st_set_same. lia. }
        split; auto. split.
        -- intros E0 C0 CV [w [Hw Ew]]. assert (k = 0) by lia. subst k. destruct Hw as [<-|Hw].
           ++ apply G2; auto; [|exact Logic.I]. apply consistent_set; auto. split; auto. split; auto. discriminate.
           ++ destruct (C0 w (Hv w ltac:(right; auto))) as [_ B]. rewrite (B (couldBe_0 vs st Ck w Hw)) in Ew. discriminate.
        -- destruct G3 as [G3|[E0 [C0 [CV [_ Ec]]]]]; auto. right. exists E0. apply consistent_set in C0; auto. destruct C0 as [C0 [A _]].
           split; auto. split; auto. split; auto. exists v. split; [left|]; auto.
      * destruct (IH (st_set st v IsInSet) m (S k - 1) (v :: undo)) as [m' [E' [H1 [H2 H3]]]]; auto.
        { rewrite st_set_length; auto. } { intros w Hw. apply Hv. right; auto. }
        { rewrite nots_set_in; auto. }
        { unfold mi_undo. cbn [fold_left]. rewrite st_set_set. replace (st_set st v IsMaybeInSet) with st; auto.
          rewrite <- Q. symmetry. apply st_set_same. lia. }
        { rewrite couldBe_set by auto. rewrite Ck. f_equal. lia. } { lia. }
        exists m'. split; auto. split; [lia|]. split.
        -- intros E0 C0 CV [w [Hw Ew]]. destruct (E0 v) eqn:Ev.
           ++ apply Nat.le_trans with m; auto. apply G2; auto; [|exact Logic.I]. apply consistent_set; auto. split; auto. split; auto; discriminate.
           ++ apply H2; auto.
              ** apply consistent_set; auto. split; auto. split; auto. discriminate.
              ** exists w. split; auto. destruct Hw as [<-|Hw]; auto. congruence.
        -- destruct H3 as [H3|[E0 [C0 [CV [[w [Hw Ew]] Ec]]]]].
           ++ subst m'. destruct G3 as [G3|[E0 [C0 [CV [_ Ec]]]]]; auto. right. exists E0. apply consistent_set in C0; auto. destruct C0 as [C0 [A _]].
              split; auto. split; auto. split; auto. exists v. split; [left|]; auto.
           ++ right. exists E0. apply consistent_set in C0; auto. split; [tauto|]. split; auto. split; auto. exists w. split; auto. right; auto.
    + destruct (IH st minEx mc undo) as [m' [E' [H1 [H2 H3]]]]; auto.
      { intros w Hw. apply Hv. right; auto. }
      exists m'. split; auto. split; auto. split.
      * intros E0 C0 CV [w [Hw Ew]]. apply H2; auto. exists w. split; auto. destruct Hw as [<-|Hw]; auto.
        destruct (C0 v Hvn) as [_ B]. rewrite B in Ew by auto. discriminate.
      * destruct H3 as [H3|[E0 [C0 [CV [[w [Hw Ew]] Ec]]]]]; auto. right. exists E0. split; auto. split; auto. split; auto. exists w. split; auto. right; auto.
Qed.

Lemma recurse_spec : forall fuel entry es st excl minEx, length (enc es) < fuel -> edges_ok es -> length st = n ->
  excl = cnt (nots st) -> (entry = false -> excl < minEx) ->
  exists m, mi_recurse fuel entry (enc es) st excl minEx = Some (st, m) /\ good es any st minEx m.
Proof.
  induction fuel as [|fuel IH]; intros entry es st excl minEx Hf Hok Hl He Hlt; [lia|].
  cbn [mi_recurse].
  destruct (entry && (minEx <=? excl)) eqn:E1.
  { apply andb_true_iff in E1. destruct E1 as [_ E1]. apply Nat.leb_le in E1. exists minEx. split; auto. split; auto. split; auto.
    intros E C _ _. pose proof (nots_min st E C). lia. }
  assert (Hlt' : excl < minEx).
  { destruct entry; [|apply Hlt; auto]. simpl in E1. apply Nat.leb_gt in E1. auto. }
  destruct (entry && (excl + 1 =? minEx)) eqn:E2.
  { apply andb_true_iff in E2. destruct E2 as [_ E2]. apply Nat.eqb_eq in E2.
    destruct (indepMaybe_spec (S fuel) es st Hf) as [b [Eb Hb]]. rewrite Eb. destruct b.
    - exists excl. split; auto. split; [lia|]. split.
      + intros E C _ _. pose proof (nots_min st E C). lia.
      + right. exists (nots st). split; [apply nots_consistent|]. split; [apply Hb; auto|]. split; [exact Logic.I|auto].
    - exists minEx. split; auto. split; auto. split; auto. intros E C CV _. pose proof (nots_min st E C).
      destruct (le_lt_dec minEx (cnt E)) as [|L]; auto. exfalso. assert (Q : cnt E = cnt (nots st)) by lia.
      assert (S : forall v, v < n -> E v = true -> nots st v = true).
      { intros v Hv Ev. destruct (nots st v) eqn:Nv; auto. exfalso.
        assert (S (cnt (nots st)) <= cnt E); [|lia]. rewrite <- (cnt_add (nots st) v Hv Nv). apply cnt_le.
        intros w Hw. destruct (Nat.eqb_spec w v) as [->|]; auto. simpl. unfold nots. destruct (st_get st w) eqn:Qw; try discriminate.
        intros _. apply C; auto. }
      assert (covers (nots st) es); [|apply Hb in H0; discriminate]. intros e Hin. destruct (CV e Hin) as [v [A B]]. exists v. split; auto.
      apply S; auto. apply (Hok e Hin); auto. }
  destruct es as [|e es].
  { cbn [enc flat_map]. exists excl. split; auto. split; [lia|]. split.
    - intros E C _ _. pose proof (nots_min st E C). lia.
    - right. exists (nots st). split; [apply nots_consistent|]. split; [intros e []|]. split; [exact Logic.I|auto]. }
  rewrite enc_cons in *. cbn [length] in Hf. rewrite app_length in Hf. rewrite enc_first, enc_rest.
  assert (Hok' : edges_ok es) by (intros e' He'; apply Hok; right; auto).
  destruct (Hok e ltac:(left; auto)) as [Ne Ve].
  destruct (mi_couldBe e st) as [mc|] eqn:Cb.
  - destruct (Nat.eqb_spec mc 0) as [->|Hmc].
    + exists minEx. split; auto. split; auto. split; auto. intros E C CV _. exfalso. destruct (CV e ltac:(left; auto)) as [v [A B]].
      destruct (C v (Ve v A)) as [_ D]. rewrite (D (couldBe_0 e st Cb v A)) in B. discriminate.
    + destruct (loop_spec (fun st m => mi_recurse fuel true (enc es) st (excl + 1) m) es (excl + 1) st) with (vs := e) (st := st) (minEx := minEx) (mc := mc) (undo := @nil nat)
        as [m [E [G1 [G2 G3]]]]; auto; try lia.
      { intros st' min' Hl' He'. apply IH; auto; [lia|discriminate]. }
      exists m. split; auto. split; auto. split.
      * intros E0 C CV _. apply G2; auto; [intros e' He'; apply CV; right; auto|]. apply (CV e). left; auto.
      * destruct G3 as [G3|[E0 [C0 [CV [H Ec]]]]]; auto. right. exists E0. split; auto. split; [|split; [exact Logic.I|auto]].
        intros e' [<-|He']; auto.
  - destruct (IH false es st excl minEx) as [m [E [G1 [G2 G3]]]]; auto; try lia. exists m. split; auto.
    assert (HC : forall E0, consistent st E0 -> exists v, In v e /\ E0 v = true).
    { intros E0 C. destruct (couldBe_None e st Cb) as [v [A B]]. exists v. split; auto. apply C; auto. }
    split; auto. split.
    + intros E0 C CV _. apply G2; auto. intros e' He'. apply CV. right; auto. exact Logic.I.
    + destruct G3 as [G3|[E0 [C0 [CV [_ Ec]]]]]; auto. right. exists E0. split; auto. split; [|split; [exact Logic.I|auto]].
      intros e' [<-|He']; auto.
Qed.
End Indep.

(** ** From ideals to edges *)
Definition supp (n : nat) (g : term) : list nat := filter (fun v => negb (g @ v =? 0)) (seq 0 n).
Lemma supp_in : forall n g v, In v (supp n g) <-> v < n /\ 0 < g @ v.
Proof.
  intros. unfold supp. rewrite filter_In, in_seq, negb_true_iff, Nat.eqb_neq. lia.
Qed.
Lemma edges_enc : forall n I, mi_edges n I = enc (map (supp n) I).
Proof. intros n I. unfold mi_edges, enc. induction I as [|g I IH]; auto. cbn [flat_map map]. rewrite IH. reflexivity. Qed.
Lemma edges_ok_supp : forall n I, edges_ok n (map (supp n) I).
Proof.
  intros n I e He. apply in_map_iff in He. destruct He as [g [<- _]]. split.
  - apply NoDup_filter, seq_NoDup.
  - intros v Hv. apply supp_in in Hv. tauto.
Qed.

Definition cover (n : nat) (I : ideal) (E : nat -> bool) : Prop := forall g, In g I -> exists v, v < n /\ 0 < g @ v /\ E v = true.
Lemma covers_supp : forall n I E, covers E (map (supp n) I) <-> cover n I E.
Proof.
  intros n I E. split.
  - intros H g Hg. destruct (H (supp n g)) as [v [A B]]; [apply in_map; auto|]. apply supp_in in A. exists v. tauto.
  - intros H e He. apply in_map_iff in He. destruct He as [g [<- Hg]]. destruct (H g Hg) as [v [A [B C]]]. exists v. rewrite supp_in. tauto.
Qed.

Lemma cnt_all : forall n, cnt n (fun _ => true) = n.
Proof. intros n. unfold cnt. rewrite (proj2 (forallb_filter_id _ _)) || idtac. generalize 0. induction n; intros s; simpl; auto. Qed.

Lemma mi_size_spec : forall n I, minl n I -> exists d, mi_size n I = Some d /\
  ((exists g, In g I /\ forall v, v < n -> g @ v = 0) -> d = (-1)%Z) /\
  ((forall g, In g I -> exists v, v < n /\ 0 < g @ v) ->
     exists k, d = (Z.of_nat n - Z.of_nat k)%Z /\ (exists E, cover n I E /\ cnt n E = k) /\ forall E, cover n I E -> k <= cnt n E).
Proof.
  intros n I Hm. unfold mi_size.
  destruct ((length I =? 1) && i_containsIdentity n I) eqn:E1.
  - apply andb_true_iff in E1. destruct E1 as [_ E1]. apply i_containsIdentity_iff in E1. destruct E1 as [g [Hg Hz]].
    exists (-1)%Z. split; auto. split; auto. intros H. destruct (H g Hg) as [v [A B]]. rewrite Hz in B by auto. lia.
  - set (J := i_sortReverseLex n I). assert (P : Permutation J I) by apply std_sort_perm.
    rewrite edges_enc.
    destruct (recurse_spec n (S (length (enc (map (supp n) J)))) true (map (supp n) J) (repeat IsMaybeInSet n) 0 n) as [m [E [G1 [G2 G3]]]].
    + lia.
    + apply edges_ok_supp.
    + apply repeat_length.
    + unfold cnt, nots. assert (Q : forall v, st_get (repeat IsMaybeInSet n) v = IsMaybeInSet).
      { intros v. unfold st_get. generalize n. intros k. revert v. induction k; intros [|v]; simpl; auto. }
      induction (seq 0 n); simpl; auto. rewrite Q. auto.
    + discriminate.
    + rewrite E. exists (Z.of_nat n - Z.of_nat m)%Z. split; auto.
      assert (HC : forall E0, cover n I E0 <-> covers E0 (map (supp n) J)).
      { intros E0. rewrite covers_supp. split; intros H g Hg; apply H; [apply (Permutation_in g P)|apply (Permutation_in g (Permutation_sym P))]; auto. }
      assert (HS : forall E0, consistent n (repeat IsMaybeInSet n) E0).
      { intros E0 v Hv. assert (Q : st_get (repeat IsMaybeInSet n) v = IsMaybeInSet).
        { unfold st_get. clear. revert v. induction n; intros [|v]; simpl; auto. }
        rewrite Q. split; discriminate. }
      split.
      * intros [g [Hg Hz]]. exfalso. apply andb_false_iff in E1. destruct E1 as [E1|E1].
        -- apply Nat.eqb_neq in E1. apply E1. destruct Hm as [N M].
           assert (Hall : forall h, In h I -> g = h).
           { intros h Hh. apply M; auto. intros v Hv. rewrite Hz by auto. lia. }
           destruct I as [|a [|b I]]; auto; [destruct Hg|]. exfalso. inversion N; subst. apply H1.
           rewrite <- (Hall a ltac:(left; auto)), (Hall b ltac:(right; left; auto)). left; auto.
        -- assert (i_containsIdentity n I = true); [|congruence]. apply i_containsIdentity_iff. eauto.
      * intros Hp. exists m. split; auto.
        assert (Hfull : cover n I (fun _ => true)).
        { intros g Hg. destruct (Hp g Hg) as [v [A B]]. exists v. auto. }
        split.
        -- destruct G3 as [->|[E0 [_ [CV [_ Ec]]]]].
           ++ exists (fun _ => true). split; auto. apply cnt_all.
           ++ exists E0. split; auto. apply HC; auto.
        -- intros E0 HE. apply G2; auto; [apply HC; auto|exact Logic.I].
Qed.

Definition radical_of (n : nat) (I : ideal) : ideal := map (fun g => tabulate n (fun v => if g @ v =? 0 then 0 else 1)) I.
Lemma radical_cover : forall n I L E, min_of n (radical_of n I) L -> (cover n L E <-> cover n I E).
Proof.
  intros n I L E [_ [Hi Hc]].
  assert (R : forall g v, v < n -> (0 < (tabulate n (fun v => if g @ v =? 0 then 0 else 1)) @ v <-> 0 < g @ v)).
  { intros g v Hv. rewrite tabulate_nth by auto. destruct (Nat.eqb_spec (g @ v) 0); lia. }
  split.
  - intros H g Hg. destruct (Hc (tabulate n (fun v => if g @ v =? 0 then 0 else 1))) as [h [Hh Hle]]; [unfold radical_of; apply in_map_iff; eauto|].
    destruct (H h Hh) as [v [A [B C]]]. exists v. split; auto. split; auto. specialize (Hle v A). apply R; auto. lia.
  - intros H h Hh. pose proof (Hi h Hh) as Hr. unfold radical_of in Hr. apply in_map_iff in Hr. destruct Hr as [g [<- Hg]].
    destruct (H g Hg) as [v [A [B C]]]. exists v. split; auto. split; auto. apply R; auto.
Qed.

(** The dimension of any list of generators, as long as the list given to the algorithm is minimal. *)
Lemma dimension_spec : forall n I (sqf : bool), (sqf = true -> minl n (radical_of n I)) -> exists d, computeDimension n I sqf = Some d /\
  ((exists g, In g I /\ forall v, v < n -> g @ v = 0) -> d = (-1)%Z) /\
  ((forall g, In g I -> exists v, v < n /\ 0 < g @ v) ->
     exists k, d = (Z.of_nat n - Z.of_nat k)%Z /\ (exists E, cover n I E /\ cnt n E = k) /\ forall E, cover n I E -> k <= cnt n E).
Proof.
  intros n I sqf Hs. unfold computeDimension. fold (radical_of n I).
  assert (HM : min_of n (radical_of n I) (if sqf then radical_of n I else i_minimize n (radical_of n I))).
  { destruct sqf; [|apply i_minimize_spec]. split; [apply Hs; auto|]. split; [apply incl_refl|]. intros x Hx. exists x. split; auto. apply le_n_refl. }
  set (L := if sqf then radical_of n I else i_minimize n (radical_of n I)) in *.
  destruct (mi_size_spec n L (proj1 HM)) as [d [E [H1 H2]]]. exists d. split; auto. split.
  - intros [g [Hg Hz]]. apply H1. destruct HM as [_ [Hi Hc]].
    destruct (Hc (tabulate n (fun v => if g @ v =? 0 then 0 else 1))) as [h [Hh Hle]]; [unfold radical_of; apply in_map_iff; eauto|].
    exists h. split; auto. intros v Hv. specialize (Hle v Hv). rewrite tabulate_nth in Hle by auto. rewrite Hz in Hle by auto. simpl in Hle. lia.
  - intros Hp. destruct H2 as [k [K1 [[E0 [K2 K3]] K4]]].
    + intros h Hh. destruct HM as [_ [Hi Hc]]. pose proof (Hi h Hh) as Hr. unfold radical_of in Hr. apply in_map_iff in Hr. destruct Hr as [g [<- Hg]].
      destruct (Hp g Hg) as [v [A B]]. exists v. split; auto. rewrite tabulate_nth by auto. destruct (Nat.eqb_spec (g @ v) 0); lia.
    + exists k. split; auto. split.
      * exists E0. split; auto. apply (radical_cover n I L E0 HM); auto.
      * intros E1 HE. apply K4. apply (radical_cover n I L E1 HM); auto.
Qed.

(** ** In terms of independent sets *)
Definition inb (V : list nat) (v : nat) : bool := if in_dec Nat.eq_dec v V then true else false.
Lemma cnt_compl : forall n E, cnt n E + length (filter (fun v => negb (E v)) (seq 0 n)) = n.
Proof.
  intros n E. unfold cnt. rewrite <- (seq_length n 0) at 3. induction (seq 0 n) as [|x l IH]; simpl; auto. destruct (E x); simpl; lia.
Qed.
Lemma indep_cover : forall n I V, independent_set n I V -> cover n I (fun v => negb (inb V v)) /\ cnt n (fun v => negb (inb V v)) + length V = n.
Proof.
  intros n I V [A [B C]]. split.
  - intros g Hg. destruct (C g Hg) as [v [X [Y Z]]]. exists v. split; auto. split; auto. unfold inb. destruct (in_dec Nat.eq_dec v V); auto.
  - pose proof (cnt_compl n (fun v => negb (inb V v))) as H.
    assert (L : length (filter (fun v => negb (negb (inb V v))) (seq 0 n)) = length V); [|lia].
    apply Permutation_length. apply NoDup_Permutation; auto; [apply NoDup_filter, seq_NoDup|]. intros v. rewrite filter_In, in_seq, negb_involutive.
    unfold inb. destruct (in_dec Nat.eq_dec v V); intuition (try discriminate; auto with arith).
Qed.
Lemma cover_indep : forall n I E, cover n I E -> exists V, independent_set n I V /\ cnt n E + length V = n.
Proof.
  intros n I E H. exists (filter (fun v => negb (E v)) (seq 0 n)). split; [|apply cnt_compl]. split; [apply NoDup_filter, seq_NoDup|]. split.
  - intros v Hv. apply filter_In in Hv. destruct Hv as [Hv _]. apply in_seq in Hv. lia.
  - intros g Hg. destruct (H g Hg) as [v [X [Y Z]]]. exists v. split; auto. split; auto. rewrite filter_In, Z. simpl. intuition discriminate.
Qed.

Lemma one_in : forall n I, in_ring n I -> (in_ideal I (repeat 0 n) <-> exists g, In g I /\ forall v, v < n -> g @ v = 0).
Proof.
  intros n I Hr. apply in_ring_wf in Hr. rewrite (in_ideal_iff n) by (auto using repeat_length).
  split; intros [g [Hg H]]; exists g; split; auto; intros v Hv; specialize (H v Hv); rewrite nth_repeat in *; lia.
Qed.

Lemma p_dimension : forall n I, in_ring n I -> exists d, api_dimension n I = Some d /\ is_dimension n I d.
Proof.
  intros n I Hr. destruct (dimension_spec n I false ltac:(discriminate)) as [d [E [H1 H2]]]. exists d. split; auto. split.
  - intros H. apply H1. apply one_in; auto.
  - intros H. rewrite one_in in H by auto. destruct H2 as [k [K1 [[E0 [K2 K3]] K4]]].
    + intros g Hg. destruct (existsb (fun v => 0 <? g @ v) (seq 0 n)) eqn:X.
      * apply existsb_exists in X. destruct X as [v [A B]]. apply in_seq in A. apply Nat.ltb_lt in B. exists v. split; auto; lia.
      * exfalso. apply H. exists g. split; auto. intros v Hv. destruct (Nat.eq_dec (g @ v) 0); auto. exfalso.
        assert (existsb (fun v => 0 <? g @ v) (seq 0 n) = true); [|congruence]. apply existsb_exists. exists v.
        split; [apply in_seq; lia|apply Nat.ltb_lt; lia].
    + split.
      * destruct (cover_indep n I E0 K2) as [V [A B]]. exists V. split; auto. lia.
      * intros V HV. destruct (indep_cover n I V HV) as [A B]. specialize (K4 _ A). lia.
Qed.
Lemma p_codimension : forall n I, in_ring n I -> exists d,
  api_dimension n I = Some d /\ is_dimension n I d /\ api_codimension n I = Some (Z.of_nat n - d)%Z.
Proof.
  intros n I Hr. destruct (p_dimension n I Hr) as [d [A B]]. exists d. split; auto. split; auto. unfold api_codimension. rewrite A. auto.
Qed.
Lemma dimension_unique : forall n I d d', is_dimension n I d -> is_dimension n I d' -> in_ring n I -> d = d'.
Proof.
  intros n I d d' [A B] [A' B'] Hr. 
  assert (D : in_ideal I (repeat 0 n) \/ ~ in_ideal I (repeat 0 n)).
  { rewrite one_in by auto. destruct (i_containsIdentity n I) eqn:X; [left; apply i_containsIdentity_iff; auto|].
    right. intros H. apply i_containsIdentity_iff in H. congruence. }
  destruct D as [D|D]; [rewrite A, A'; auto|]. destruct (B D) as [[V [V1 ->]] V2], (B' D) as [[W [W1 ->]] W2].
  specialize (V2 W W1). specialize (W2 V V1). lia.
Qed.
Lemma p_codimension_one : forall n I, in_ring n I -> in_ideal I (repeat 0 n) -> api_codimension n I = Some (Z.of_nat n + 1)%Z.
Proof.
  intros n I Hr H1. destruct (p_codimension n I Hr) as [d [_ [[A _] B]]]. rewrite B, (A H1). f_equal.
Qed.
