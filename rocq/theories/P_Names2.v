(** Proofs about the sorting of variables (C50). *)
From Coq Require Import List Arith Bool ZArith Ascii Lia Sorted Permutation.
Import ListNotations.
From Verif Require Import Spec_Names M_Term M_Ideal M_Slice M_Msm M_Api M_Names P_Term P_Names.

(** ** The permutation *)
Definition ix (l : list str) (i : nat) : str := nth i l [].
Lemma sorter_perm l : Permutation (sorter l) (seq 0 (length l)).
Proof. apply std_sort_perm. Qed.
Lemma sorter_nodup l : NoDup (sorter l).
Proof. apply (Permutation_NoDup (Permutation_sym (sorter_perm l))). apply seq_NoDup. Qed.
Lemma sorter_range l : Forall (fun p => p < length l) (sorter l).
Proof. rewrite Forall_forall. intros x H. apply (Permutation_in _ (sorter_perm l)) in H. apply in_seq in H. lia. Qed.
Lemma sorter_length l : length (sorter l) = length l.
Proof. rewrite (Permutation_length (sorter_perm l)). apply seq_length. Qed.
Lemma map_nth_seq {A} (d : A) : forall l, map (fun i => nth i l d) (seq 0 (length l)) = l.
Proof.
  intros l. apply nth_error_ext. intros i. destruct (Nat.lt_ge_cases i (length l)) as [C|C].
  - erewrite map_nth_error with (d := i).
    + symmetry. now apply nth_error_nth'.
    + rewrite (nth_error_nth' (seq 0 (length l)) 0) by now rewrite seq_length. now rewrite seq_nth.
  - assert (X : nth_error l i = None) by now apply nth_error_None. rewrite X. apply nth_error_None. now rewrite map_length, seq_length.
Qed.
Lemma sorted_names_perm l : Permutation (map (ix l) (sorter l)) l.
Proof. transitivity (map (ix l) (seq 0 (length l))); [apply Permutation_map, sorter_perm|]. unfold ix. rewrite map_nth_seq. apply Permutation_refl. Qed.
Lemma sorted_names_asc l : NoDup l -> ascending (map (ix l) (sorter l)).
Proof.
  intros N. assert (D : NoDup (map (ix l) (sorter l))) by (apply (Permutation_NoDup (Permutation_sym (sorted_names_perm l))); auto).
  assert (S : StronglySorted (before (fun a b => str_less (nth a l []) (nth b l []))) (sorter l)).
  { apply std_sort_sorted; unfold before.
    - intros x y H. apply str_less_iff in H. destruct (str_less (nth y l []) (nth x l [])) eqn:E; auto. apply str_less_iff in E.
      exfalso. eapply str_lt_irr. eapply str_lt_trans; eauto.
    - intros x y z H K. destruct (str_less (nth z l []) (nth x l [])) eqn:E; auto. apply str_less_iff in E.
      assert (H' : ~ str_lt (nth y l []) (nth x l [])) by (intros X; apply str_less_iff in X; congruence).
      assert (K' : ~ str_lt (nth z l []) (nth y l [])) by (intros X; apply str_less_iff in X; congruence).
      destruct (str_lt_total (nth y l []) (nth x l [])) as [X|[X|X]]; [tauto|rewrite X in *; tauto|]. exfalso. apply K'. eapply str_lt_trans; eauto. }
  unfold ascending. induction S as [|a s S IH F]; cbn [map]; constructor.
  - apply IH. cbn [map] in D. now inversion D.
  - cbn [map] in D. inversion D as [|x y Dn Dr]; subst. rewrite Forall_forall in *. intros b Hb. apply in_map_iff in Hb as [j [<- Hj]].
    specialize (F j Hj). unfold before in F. destruct (str_lt_total (ix l a) (ix l j)) as [H|[H|H]]; auto.
    + exfalso. apply Dn. rewrite H. apply in_map. auto.
    + apply str_less_iff in H. unfold ix in H. congruence.
Qed.
Lemma ascending_unique : forall a b, ascending a -> ascending b -> Permutation a b -> a = b.
Proof.
  unfold ascending. induction a as [|x a IH]; intros b A B P; [apply Permutation_nil in P; congruence|].
  destruct b as [|y b]; [apply Permutation_sym, Permutation_nil in P; discriminate|].
  apply StronglySorted_inv in A as [A Fa]. apply StronglySorted_inv in B as [B Fb]. rewrite Forall_forall in Fa, Fb.
  assert (E : x = y).
  { assert (X : In x (y :: b)) by (apply (Permutation_in _ P); left; auto). assert (Y : In y (x :: a)) by (apply (Permutation_in _ (Permutation_sym P)); left; auto).
    destruct X as [X|X]; auto. destruct Y as [Y|Y]; auto. exfalso. apply (str_lt_irr x). eapply str_lt_trans; eauto. }
  subst. f_equal. apply IH; auto. eapply Permutation_cons_inv; eauto.
Qed.

(** ** Exponents follow their names *)
Lemma exponent_map {A} (d : A) (l : list str) (t : list A) perm s : NoDup l -> Permutation perm (seq 0 (length l)) ->
  exponent_of d (map (ix l) perm) (map (fun i => nth i t d) perm) s = exponent_of d l t s.
Proof.
  intros N P. assert (PL : Permutation (map (ix l) perm) l).
  { transitivity (map (ix l) (seq 0 (length l))); [now apply Permutation_map|]. unfold ix. rewrite map_nth_seq. apply Permutation_refl. }
  assert (N' : NoDup (map (ix l) perm)) by (apply (Permutation_NoDup (Permutation_sym PL)); auto).
  unfold exponent_of. destruct (index_of s (map (ix l) perm)) as [j|] eqn:E.
  - apply index_of_nth in E; auto. rewrite nth_error_map in E. destruct (nth_error perm j) as [i|] eqn:F; [|discriminate]. cbn in E. injection E as E.
    assert (Hi : i < length l). { apply nth_error_In in F. apply (Permutation_in _ P) in F. apply in_seq in F. lia. }
    assert (X : index_of s l = Some i). { apply index_of_nth; auto. rewrite <- E. now apply nth_error_nth'. }
    rewrite X. apply nth_error_nth. now rewrite nth_error_map, F.
  - apply index_of_none in E. destruct (index_of s l) as [i|] eqn:F; auto. apply index_of_nth in F; auto. exfalso. apply E.
    apply (Permutation_in _ (Permutation_sym PL)). eapply nth_error_In; eauto.
Qed.
Lemma exponent_ext {A} (d : A) l t t' : NoDup l -> length t = length l -> length t' = length l ->
  (forall s, exponent_of d l t s = exponent_of d l t' s) -> t = t'.
Proof.
  intros N L L' H. apply nth_error_ext. intros i. destruct (Nat.lt_ge_cases i (length l)) as [C|C].
  - rewrite !(nth_error_nth' _ d) by lia. f_equal. specialize (H (nth i l [])). unfold exponent_of in H.
    assert (X : index_of (nth i l []) l = Some i) by (apply index_of_nth; auto; now apply nth_error_nth'). now rewrite X in H.
  - transitivity (@None A); [|symmetry]; apply nth_error_None; lia.
Qed.

(** ** Names in the new order *)
Lemma ordered_names_spec invalid v l : inv v l -> forall perm w m, inv w m -> Forall (fun p => p < length l) perm ->
  NoDup (m ++ map (ix l) perm) -> length m + length perm < invalid ->
  exists w', ordered_names invalid v perm w = Some w' /\ inv w' (m ++ map (ix l) perm).
Proof.
  intros I. induction perm as [|p perm IH]; intros w m W F N L; cbn [ordered_names map].
  - exists w. rewrite app_nil_r. auto.
  - inversion F as [|x y Fp Fr]; subst. rewrite (inv_getName v l p I), (nth_error_nth' l [] Fp). cbn [bind]. cbn [map] in N.
    destruct (addVar_new invalid w m (nth p l []) W) as [w' [A B]].
    + intros X. apply NoDup_remove_2 in N. apply N. apply in_or_app. auto.
    + cbn in L. lia.
    + rewrite A. cbn [bind fst]. destruct (IH w' (m ++ [nth p l []]) B Fr) as [w'' [C D]].
      * rewrite <- app_assoc. exact N.
      * rewrite app_length. cbn in *. lia.
      * exists w''. split; auto. rewrite <- app_assoc in D. exact D.
Qed.

(** ** The loop of permute *)
Lemma permute_loop_spec {A} : forall perm i (term tmp : list A), NoDup perm -> Forall (fun p => p < length tmp) perm -> i + length perm <= length term ->
  exists term' tmp', permute_loop perm i term tmp = Some (term', tmp') /\ length term' = length term /\ length tmp' = length tmp /\
    forall j, nth_error term' j = if (i <=? j) && (j <? i + length perm) then nth_error tmp (nth (j - i) perm 0) else nth_error term j.
Proof.
  induction perm as [|p perm IH]; intros i term tmp N F L; cbn [permute_loop].
  - exists term, tmp. split; auto. split; auto. split; auto. intros j. cbn [length]. destruct (Nat.leb_spec i j), (Nat.ltb_spec j (i + 0)); try reflexivity. lia.
  - inversion N as [|x y Np Nr]; subst. inversion F as [|x y Fp Fr]; subst. cbn [length] in *.
    destruct (nth_error term i) as [x|] eqn:E; [|apply nth_error_None in E; lia]. destruct (nth_error tmp p) as [y|] eqn:G; [|apply nth_error_None in G; lia].
    destruct (IH (S i) (list_set term i y) (list_set tmp p x) Nr) as [term' [tmp' [H1 [H2 [H3 H4]]]]].
    + now rewrite list_set_length.
    + rewrite list_set_length. lia.
    + exists term', tmp'. rewrite list_set_length in *. split; auto. split; [lia|]. split; [lia|]. intros j. rewrite H4.
      destruct (Nat.leb_spec i j) as [C|C]; cbn [andb].
      * destruct (Nat.leb_spec (S i) j) as [C'|C']; cbn [andb].
        -- replace (j <? i + S (length perm)) with (j <? S i + length perm) by (f_equal; lia). destruct (Nat.ltb_spec j (S i + length perm)) as [B|B].
           ++ replace (j - i) with (S (j - S i)) by lia. cbn [nth]. rewrite list_set_nth.
              assert (X : In (nth (j - S i) perm 0) perm) by (apply nth_In; lia).
              destruct (Nat.eqb_spec (nth (j - S i) perm 0) p) as [Q|Q]; [rewrite Q in X; tauto|]. rewrite andb_false_r. reflexivity.
           ++ rewrite list_set_nth. destruct (Nat.eqb_spec j i); [lia|]. now rewrite andb_false_r.
        -- assert (j = i) by lia. subst j. destruct (Nat.ltb_spec i (i + S (length perm))); [|lia]. rewrite Nat.sub_diag. cbn [nth].
           rewrite list_set_nth, Nat.eqb_refl. destruct (Nat.ltb_spec i (length term)); [|lia]. cbn. congruence.
      * destruct (Nat.leb_spec (S i) j) as [C'|C']; [lia|]. cbn [andb]. rewrite list_set_nth. destruct (Nat.eqb_spec j i); [lia|]. now rewrite andb_false_r.
Qed.
Lemma permute_loop_map {A} (d : A) perm term tmp : NoDup perm -> Forall (fun p => p < length tmp) perm -> length perm = length term ->
  exists tmp', permute_loop perm 0 term tmp = Some (map (fun i => nth i tmp d) perm, tmp') /\ length tmp' = length tmp.
Proof.
  intros N F L. destruct (permute_loop_spec perm 0 term tmp N F) as [term' [tmp' [H1 [H2 [H3 H4]]]]]; [lia|].
  exists tmp'. split; auto. rewrite H1. f_equal. f_equal. apply nth_error_ext. intros j. rewrite H4. cbn [Nat.leb Nat.add andb].
  destruct (Nat.ltb_spec j (length perm)) as [C|C].
  - rewrite nth_error_map, (nth_error_nth' perm 0 C). cbn [option_map]. rewrite Nat.sub_0_r. apply nth_error_nth'.
    rewrite Forall_forall in F. apply F. now apply nth_In.
  - transitivity (@None A); [|symmetry]; apply nth_error_None; [lia|rewrite map_length; lia].
Qed.
Lemma permute_exponents_spec {A} (d : A) l t : length t = length l -> permute_exponents (sorter l) t = Some (map (fun i => nth i t d) (sorter l)).
Proof.
  intros L. unfold permute_exponents. destruct (permute_loop_map d (sorter l) t t) as [tmp' [E _]].
  - apply sorter_nodup.
  - rewrite L. apply sorter_range.
  - rewrite sorter_length. auto.
  - rewrite E. reflexivity.
Qed.
Lemma big_permute_all_spec l : forall J old, length old = length l -> Forall (fun t => length t = length l) J ->
  big_permute_all (sorter l) old J = Some (map (fun t => map (fun i => nth i t 0%Z) (sorter l)) J).
Proof.
  induction J as [|t J IH]; intros old O F; cbn [big_permute_all map]; auto. inversion F as [|x y Ft Fr]; subst. unfold permute_big.
  destruct (permute_loop_map 0%Z (sorter l) old t) as [tmp' [E L]].
  - apply sorter_nodup.
  - rewrite Ft. apply sorter_range.
  - rewrite sorter_length. auto.
  - rewrite E. cbn [bind fst snd]. rewrite IH; auto. now rewrite L.
Qed.

(** ** The cycles *)
Section Cycles.
  Context {T X : Type} (swap : nat -> nat -> T -> option T) (R : T -> list X -> Prop) (n : nat).
  Context (Hswap : forall t A a b, R t A -> length A = n -> a < n -> b < n -> a <> b -> exists t' A', swap a b t = Some t' /\ R t' A' /\ length A' = n /\
    forall i, nth_error A' i = if i =? a then nth_error A b else if i =? b then nth_error A a else nth_error A i).
  Context (perm : list nat) (Pp : Permutation perm (seq 0 n)) (A0 : list X) (L0 : length A0 = n).
  Definition pm (u : nat) : nat := nth u perm 0.
  Lemma perm_len : length perm = n.
  Proof. rewrite (Permutation_length Pp). apply seq_length. Qed.
  Lemma pm_lt u : u < n -> pm u < n.
  Proof. intros H. assert (X1 : In (pm u) perm) by (apply nth_In; rewrite perm_len; auto). apply (Permutation_in _ Pp) in X1. apply in_seq in X1. lia. Qed.
  Lemma pm_inj u w : u < n -> w < n -> pm u = pm w -> u = w.
  Proof.
    intros U W E. assert (N : NoDup perm) by (apply (Permutation_NoDup (Permutation_sym Pp)), seq_NoDup).
    rewrite NoDup_nth with (d := 0) in N. apply N; rewrite ?perm_len; auto.
  Qed.
  Lemma perm_nth u : u < n -> nth_error perm u = Some (pm u).
  Proof. intros U. apply nth_error_nth'. now rewrite perm_len. Qed.
  Definition isdone (done : list bool) (u : nat) : Prop := nth_error done u = Some true.
  Definition outer (done : list bool) (t : T) : Prop := length done = n /\ exists A, R t A /\ length A = n /\
    (forall u, u < n -> isdone done u -> nth_error A u = nth_error A0 (pm u)) /\
    (forall u, u < n -> ~ isdone done u -> nth_error A u = nth_error A0 u) /\
    (forall u, u < n -> isdone done (pm u) -> isdone done u).
  Definition count (done : list bool) : nat := length (filter negb done).
  Lemma count_set : forall done v, nth_error done v = Some false -> S (count (list_set done v true)) = count done.
  Proof.
    unfold count, list_set. induction done as [|b done IH]; intros [|v] E; cbn in *; try discriminate.
    - injection E as ->. reflexivity.
    - specialize (IH v E). destruct (skipn v done) eqn:S0.
      + assert (nth_error done v = None). { apply nth_error_None. rewrite <- (firstn_skipn v done), S0, app_nil_r, firstn_length. lia. } congruence.
      + cbn [filter]. destruct b; cbn [negb length]; lia.
  Qed.
  Lemma isdone_set done v u : v < length done -> (isdone (list_set done v true) u <-> u = v \/ isdone done u).
  Proof.
    intros L. unfold isdone. rewrite list_set_nth. destruct (Nat.ltb_spec v (length done)); [|lia]. destruct (Nat.eqb_spec u v); cbn; tauto.
  Qed.
  Lemma isdone_dec done u : isdone done u \/ ~ isdone done u.
  Proof. unfold isdone. destruct (nth_error done u) as [[|]|]; auto; right; discriminate. Qed.
  Lemma cycle_spec var : var < n -> forall fuel v done t A, count done <= fuel -> length done = n -> R t A -> length A = n ->
    v < n -> nth_error done v = Some false ->
    (forall u, u < n -> isdone done u -> nth_error A u = nth_error A0 (pm u)) ->
    nth_error A v = nth_error A0 var ->
    (forall u, u < n -> ~ isdone done u -> u <> v -> nth_error A u = nth_error A0 u) ->
    (forall u, u < n -> isdone done (pm u) -> isdone done u \/ pm u = var) ->
    (v = var \/ isdone done var /\ exists u, u < n /\ isdone done u /\ pm u = v) ->
    exists done' t', permute_cycle swap perm fuel v done t = Some (done', t') /\ outer done' t' /\ isdone done' var /\
      (forall u, isdone done u -> isdone done' u).
  Proof.
    intros Hvar. induction fuel as [|fuel IH]; intros v done t A C Ld Rt LA Hv Dv P2 P3 P4 P5 P6; pose proof (count_set done v Dv) as Cs; [lia|].
    cbn [permute_cycle]. rewrite (perm_nth v Hv). cbn [bind]. set (done' := list_set done v true) in *.
    assert (Ld' : length done' = n) by (unfold done'; now rewrite list_set_length).
    assert (Dn : forall u, isdone done' u <-> u = v \/ isdone done u) by (intros u; apply isdone_set; lia).
    assert (Nv : ~ isdone done v) by (unfold isdone; congruence).
    assert (Hvd : isdone done' var) by (apply Dn; destruct P6 as [<-|[D _]]; auto).
    pose proof (pm_lt v Hv) as Hn.
    destruct (nth_error done' (pm v)) as [[|]|] eqn:E; [| |apply nth_error_None in E; lia]; cbn [bind].
    - exists done', t. split; auto. assert (Q : pm v = var).
      { assert (E' : isdone done' (pm v)) by exact E. apply Dn in E' as [E'|E'].
        - destruct P6 as [<-|[_ [u [Hu [Du Pu]]]]]; auto. exfalso. assert (Q : u = v) by (apply pm_inj; auto; congruence). rewrite Q in Du. tauto.
        - destruct (P5 v Hv E'); tauto. }
      split; [|split; auto].
      + split; auto. exists A. split; auto. split; auto. split; [|split].
        * intros u Hu Du. apply Dn in Du as [->|Du]; [now rewrite Q|now apply P2].
        * intros u Hu Du. apply P4; auto; intros Z; apply Du, Dn; auto.
        * intros u Hu Du. apply Dn. apply Dn in Du as [Du|Du].
          -- destruct P6 as [->|[_ [w [Hw [Dw Pw]]]]].
             ++ left. apply pm_inj; auto. congruence.
             ++ right. assert (u = w) by (apply pm_inj; auto; congruence). now subst.
          -- destruct (P5 u Hu Du) as [H|H]; auto. left. apply pm_inj; auto. congruence.
      + intros u Du. apply Dn. auto.
    - assert (E' : ~ isdone done' (pm v)) by (unfold isdone; congruence). assert (Ne : pm v <> v) by (intros Z; apply E', Dn; auto).
      assert (Nn : ~ isdone done (pm v)) by (intros Z; apply E', Dn; auto).
      destruct (Hswap t A v (pm v) Rt LA Hv Hn) as [t' [A' [S1 [S2 [S3 S4]]]]]; [congruence|]. rewrite S1. cbn [bind].
      destruct (IH (pm v) done' t' A') as [done'' [t'' [Q1 [Q2 [Q3 Q4]]]]]; auto.
      + lia.
      + intros u Hu Du. rewrite S4. destruct (Nat.eqb_spec u v) as [->|Nu]; [now apply P4|]. destruct (Nat.eqb_spec u (pm v)) as [->|Nu']; [tauto|].
        apply Dn in Du as [Du|Du]; [tauto|]. now apply P2.
      + rewrite S4. destruct (Nat.eqb_spec (pm v) v) as [Z|_]; [congruence|]. now rewrite Nat.eqb_refl.
      + intros u Hu Du Nu. rewrite S4. destruct (Nat.eqb_spec u v) as [->|Nu']; [exfalso; apply Du, Dn; auto|]. destruct (Nat.eqb_spec u (pm v)); [tauto|].
        apply P4; auto. intros Z. apply Du, Dn. auto.
      + intros u Hu Du. apply Dn in Du as [Du|Du].
        * destruct P6 as [->|[_ [w [Hw [Dw Pw]]]]]; auto. left. apply Dn. right. assert (u = w) by (apply pm_inj; auto; congruence). now subst.
        * destruct (P5 u Hu Du) as [H|H]; auto. left. apply Dn. auto.
      + right. split; auto. exists v. split; auto. split; auto. apply Dn. auto.
      + exists done'', t''. split; auto. split; auto. split; auto. intros u Du. apply Q4, Dn. auto.
  Qed.
  Lemma count_le done : count done <= length done.
  Proof. unfold count. induction done as [|[|] d IH]; cbn; lia. Qed.
  Lemma cycles_spec : forall k var done t, var + k = n -> outer done t -> (forall u, u < var -> isdone done u) ->
    exists t' A', permute_cycles swap perm var k done t = Some t' /\ R t' A' /\ length A' = n /\ forall u, u < n -> nth_error A' u = nth_error A0 (pm u).
  Proof.
    induction k as [|k IH]; intros var done t V O D; cbn [permute_cycles].
    - destruct O as [Ld [A [RA [LA [P2 _]]]]]. exists t, A. split; auto. split; auto. split; auto. intros u Hu. apply P2; auto. apply D. lia.
    - destruct (nth_error done var) as [d|] eqn:E; [|destruct O as [Ld _]; apply nth_error_None in E; lia]. cbn [bind]. destruct d.
      + apply IH; auto; [lia|]. intros u Hu. destruct (Nat.eq_dec u var) as [->|]; auto. apply D. lia.
      + destruct O as [Ld [A [RA [LA [P2 [P4 P5]]]]]].
        assert (Nd : ~ isdone done var) by (unfold isdone; congruence).
        destruct (cycle_spec var ltac:(lia) (length perm) var done t A) as [done' [t' [Q1 [Q2 [Q3 Q4]]]]]; auto; try lia.
        * rewrite perm_len, <- Ld. apply count_le.
        * apply P4; auto. lia.
        * rewrite Q1. cbn [bind fst snd]. apply IH; auto; [lia|]. intros u Hu. destruct (Nat.eq_dec u var) as [->|]; auto. apply Q4, D. lia.
  Qed.
  Lemma cycles_all t : R t A0 -> exists t' A', permute_cycles swap perm 0 (length perm) (map (fun _ => false) perm) t = Some t' /\ R t' A' /\ length A' = n /\
    forall u, u < n -> nth_error A' u = nth_error A0 (pm u).
  Proof.
    intros RA. rewrite perm_len. apply cycles_spec; [lia| |intros; lia].
    assert (F : forall u, ~ isdone (map (fun _ : nat => false) perm) u).
    { intros u. unfold isdone. rewrite nth_error_map. destruct (nth_error perm u); cbn; discriminate. }
    split; [rewrite map_length; apply perm_len|]. exists A0. split; auto. split; auto. split; [|split]; intros u Hu H; auto; exfalso; eapply F; eauto.
  Qed.
End Cycles.

(** ** Translators *)
Definition trel (tr : translator * varNames) (A : list (list Z * str)) : Prop := fst tr = map fst A /\ inv (snd tr) (map snd A).
Lemma tr_swap_spec n : forall t A a b, trel t A -> length A = n -> a < n -> b < n -> a <> b -> exists t' A', tr_swapVariables a b t = Some t' /\ trel t' A' /\ length A' = n /\
    forall i, nth_error A' i = if i =? a then nth_error A b else if i =? b then nth_error A a else nth_error A i.
Proof.
  intros [tr v] A a b [E I] L Ha Hb D. cbn [fst snd] in *. unfold tr_swapVariables. cbn [fst snd]. destruct (Nat.eqb_spec a b); [congruence|].
  destruct (nth_error A a) as [[xa sa]|] eqn:Ea; [|apply nth_error_None in Ea; lia]. destruct (nth_error A b) as [[xb sb]|] eqn:Eb; [|apply nth_error_None in Eb; lia].
  subst tr. rewrite !nth_error_map, Ea, Eb. cbn [option_map fst].
  destruct (swap_spec v (map snd A) a b I) as [v' [S1 S2]]; [rewrite map_length; lia|rewrite map_length; lia|]. rewrite S1. cbn [bind].
  set (A' := list_set (list_set A a (xb, sb)) b (xa, sa)).
  assert (G : forall i, nth_error A' i = if i =? a then Some (xb, sb) else if i =? b then Some (xa, sa) else nth_error A i).
  { intros i. unfold A'. rewrite !list_set_nth, list_set_length. destruct (Nat.ltb_spec a (length A)); [|lia]. destruct (Nat.ltb_spec b (length A)); [|lia]. cbn [andb].
    destruct (Nat.eqb_spec i b) as [X|X]; destruct (Nat.eqb_spec i a) as [Y|Y]; auto; congruence. }
  eexists. exists A'. split; [reflexivity|]. split; [|split; [unfold A'; rewrite !list_set_length; auto|exact G]].
  split; cbn [fst snd].
  - apply nth_error_ext. intros i. rewrite nth_error_map, G, !list_set_nth, list_set_length, nth_error_map, map_length.
    destruct (Nat.ltb_spec a (length A)); [|lia]. destruct (Nat.ltb_spec b (length A)); [|lia]. cbn [andb].
    destruct (Nat.eqb_spec i b) as [X|X]; destruct (Nat.eqb_spec i a) as [Y|Y]; auto; congruence.
  - replace (map snd A') with (swap_at a b (map snd A)); auto. apply nth_error_ext. intros i. rewrite swap_at_nth by (rewrite map_length; lia).
    rewrite !nth_error_map, G, Ea, Eb. destruct (Nat.eqb_spec i a); auto. destruct (Nat.eqb_spec i b); auto.
Qed.
Lemma combine_fst {A B} : forall (a : list A) (b : list B), length a = length b -> map fst (combine a b) = a.
Proof. induction a as [|x a IH]; intros [|y b] L; cbn in *; try discriminate; auto. f_equal. apply IH. lia. Qed.
Lemma combine_snd {A B} : forall (a : list A) (b : list B), length a = length b -> map snd (combine a b) = b.
Proof. induction a as [|x a IH]; intros [|y b] L; cbn in *; try discriminate; auto. f_equal. apply IH. lia. Qed.
Lemma permute_translator_spec tr v l : inv v l -> length tr = length l ->
  exists v', permute_translator (sorter l) (tr, v) = Some (map (fun i => nth i tr []) (sorter l), v') /\ inv v' (map (ix l) (sorter l)).
Proof.
  intros I L. assert (LC : length (combine tr l) = length l) by (rewrite combine_length; lia).
  destruct (cycles_all tr_swapVariables trel (length l) (tr_swap_spec (length l)) (sorter l) (sorter_perm l) (combine tr l) LC (tr, v)) as [[tr' v'] [A' [Q1 [[Q2 Q2'] [Q3 Q4]]]]].
  - split; cbn [fst snd]; [now rewrite combine_fst|now rewrite combine_snd].
  - cbn [fst snd] in *. exists v'.
    assert (G : forall u, u < length l -> nth_error A' u = Some (nth (nth u (sorter l) 0) tr [], ix l (nth u (sorter l) 0))).
    { intros u Hu. rewrite Q4 by auto. unfold pm. assert (X : nth u (sorter l) 0 < length l) by (pose proof (sorter_range l) as Y; rewrite Forall_forall in Y; apply Y, nth_In; now rewrite sorter_length).
      unfold ix. rewrite (nth_error_nth' _ ([], [])) by lia. f_equal. apply combine_nth. auto. }
    assert (Z1 : tr' = map (fun i => nth i tr []) (sorter l)).
    { subst tr'. apply nth_error_ext. intros u. rewrite !nth_error_map. destruct (Nat.lt_ge_cases u (length l)) as [C|C].
      - rewrite G by auto. rewrite (nth_error_nth' (sorter l) 0) by now rewrite sorter_length. reflexivity.
      - assert (X1 : nth_error A' u = None) by (apply nth_error_None; lia). assert (X2 : nth_error (sorter l) u = None) by (apply nth_error_None; rewrite sorter_length; lia).
        now rewrite X1, X2. }
    assert (Z2 : map snd A' = map (ix l) (sorter l)).
    { apply nth_error_ext. intros u. rewrite !nth_error_map. destruct (Nat.lt_ge_cases u (length l)) as [C|C].
      - rewrite G by auto. rewrite (nth_error_nth' (sorter l) 0) by now rewrite sorter_length. reflexivity.
      - assert (X1 : nth_error A' u = None) by (apply nth_error_None; lia). assert (X2 : nth_error (sorter l) u = None) by (apply nth_error_None; rewrite sorter_length; lia).
        now rewrite X1, X2. }
    subst tr'. rewrite Z1 in Q1. rewrite <- Z2. unfold permute_translator. auto.
Qed.

(** ** The theorems *)
Lemma mapO_some {A B} (f : A -> option B) (g : A -> B) : forall l, Forall (fun x => f x = Some (g x)) l -> mapO f l = Some (map g l).
Proof. induction l as [|x l IH]; intros F; cbn [mapO map]; auto. inversion F as [|a b Fx Fr]; subst. rewrite Fx. cbn [bind]. now rewrite IH. Qed.
Lemma Forall2_map_r {A B} (P : A -> B -> Prop) (g : A -> B) l : Forall (fun x => P x (g x)) l -> Forall2 P l (map g l).
Proof. induction 1; cbn; constructor; auto. Qed.
Theorem p_big invalid v l J : 0 < invalid -> reached invalid v l -> Forall (fun t => length t = length l) J ->
  exists v' l' J', big_sortVariables invalid v J = Some (v', J') /\ shows invalid v' l' /\ ascending l' /\ Permutation l' l /\
    Forall2 (same_term 0%Z l l') J J'.
Proof.
  intros P Rv F. destruct (reached_inv invalid v l P Rv) as [I L]. pose proof (inv_nodup v l I) as N.
  unfold big_sortVariables. rewrite (deref_spec v l I). cbn [bind].
  destruct (ordered_names_spec invalid v l I (sorter l) vn_empty [] inv_empty (sorter_range l)) as [w [A B]].
  - cbn [app]. apply (Permutation_NoDup (Permutation_sym (sorted_names_perm l))). auto.
  - cbn [length]. now rewrite sorter_length.
  - rewrite A. cbn [bind]. rewrite big_permute_all_spec; [|now rewrite map_length|auto]. cbn [bind]. cbn [app] in B.
    exists w, (map (ix l) (sorter l)). eexists. split; [reflexivity|]. split; [|split; [|split]].
    + apply inv_shows; auto. now rewrite map_length, sorter_length.
    + now apply sorted_names_asc.
    + apply sorted_names_perm.
    + apply Forall2_map_r. rewrite Forall_forall in *. intros t Ht. split; [now rewrite !map_length|]. intros s. apply exponent_map; auto. apply sorter_perm.
Qed.
Theorem p_translator invalid tr v l J : 0 < invalid -> reached invalid v l -> length tr = length l -> Forall (fun t : list nat => length t = length l) J ->
  exists tr' v' l' J', sort_variables tr v J = Some (tr', v', J') /\ shows invalid v' l' /\ ascending l' /\ Permutation l' l /\
    same_term [] l l' tr tr' /\ Forall2 (same_term 0 l l') J J'.
Proof.
  intros P Rv Ltr F. destruct (reached_inv invalid v l P Rv) as [I L]. pose proof (inv_nodup v l I) as N.
  unfold sort_variables. rewrite (deref_spec v l I). cbn [bind]. destruct (permute_translator_spec tr v l I Ltr) as [v' [A B]].
  unfold translator in *. rewrite A. cbn [bind]. rewrite (mapO_some _ (fun t => map (fun i => nth i t 0) (sorter l))).
  - cbn [bind fst snd]. eexists. exists v', (map (ix l) (sorter l)). eexists. split; [reflexivity|]. split; [|split; [|split; [|split]]].
    + apply inv_shows; auto. now rewrite map_length, sorter_length.
    + now apply sorted_names_asc.
    + apply sorted_names_perm.
    + split; [now rewrite !map_length|]. intros s. apply exponent_map; auto. apply sorter_perm.
    + apply Forall2_map_r. rewrite Forall_forall in *. intros t Ht. split; [now rewrite !map_length|]. intros s. apply exponent_map; auto. apply sorter_perm.
  - rewrite Forall_forall in *. intros t Ht. apply permute_exponents_spec. now apply F.
Qed.
Lemma shows_list invalid v l l' : shows invalid v l -> shows invalid v l' -> l = l'.
Proof. intros [_ [A _]] [_ [B _]]. apply nth_error_ext. intros i. now rewrite <- A, <- B. Qed.
Theorem p_canonical invalid v1 l1 J1 v2 l2 J2 : 0 < invalid -> reached invalid v1 l1 -> reached invalid v2 l2 -> Permutation l1 l2 ->
  Forall (fun t => length t = length l1) J1 -> Forall2 (same_term 0%Z l1 l2) J1 J2 ->
  exists w1 w2 l J, big_sortVariables invalid v1 J1 = Some (w1, J) /\ big_sortVariables invalid v2 J2 = Some (w2, J) /\
    shows invalid w1 l /\ shows invalid w2 l.
Proof.
  intros P R1 R2 PL F1 F2. assert (F1' : Forall (fun t => length t = length l2) J2) by (clear -F2; induction F2 as [|x y a b [H _]]; constructor; auto).
  destruct (p_big invalid v1 l1 J1 P R1 F1) as [w1 [m1 [K1 [A1 [B1 [C1 [D1 E1]]]]]]].
  destruct (p_big invalid v2 l2 J2 P R2 F1') as [w2 [m2 [K2 [A2 [B2 [C2 [D2 E2]]]]]]].
  assert (m1 = m2). { apply ascending_unique; auto. rewrite D1, D2. auto. } subst m2.
  assert (N : NoDup m1). { destruct (reached_inv invalid v1 l1 P R1) as [I _]. apply (Permutation_NoDup (Permutation_sym D1)). eapply inv_nodup; eauto. }
  assert (K1 = K2).
  { clear A1 A2 F1 F1'. revert K1 K2 E1 E2. induction F2 as [|x y a b [Hl H] F2 IH]; intros K1 K2 E1 E2; inversion E1 as [|? k1 ? r1 [La Ha] Fr1]; inversion E2 as [|? k2 ? r2 [Lb Hb] Fr2]; subst; auto.
    f_equal; [|now apply IH]. apply (exponent_ext 0%Z m1); auto. intros s. rewrite Ha, Hb. symmetry. apply H. }
  subst K2. exists w1, w2, m1, K1. auto.
Qed.
