(** Operations on square free ideals: partition, minimization, colon. *)
From Coq Require Import List Arith Bool ZArith Lia Permutation.
Import ListNotations.
From Verif Require Import M_Euler Spec_Euler P_Euler1.

(** ** Antichains *)
Definition inc (a b : eterm) : Prop := e_divides a b = false /\ e_divides b a = false.
Definition antichain (G : list eterm) : Prop := ForallOrdPairs inc G.
Definition lens (n : nat) (G : list eterm) : Prop := forall g, In g G -> length g = n.
Lemma inc_sym a b : inc a b -> inc b a. Proof. unfold inc. tauto. Qed.
Lemma antichain_cons g G : antichain (g :: G) <-> (forall h, In h G -> inc g h) /\ antichain G.
Proof.
  split.
  - intros H. inversion H; subst. split; auto. now apply Forall_forall.
  - intros [A B]. constructor; auto. now apply Forall_forall.
Qed.
Lemma antichain_perm G G' : Permutation G G' -> antichain G -> antichain G'.
Proof.
  induction 1; auto.
  - rewrite !antichain_cons. intros [A B]. split; auto. intros h I. apply A. eapply Permutation_in; [apply Permutation_sym; eauto|auto].
  - rewrite !antichain_cons. intros [A [B C]]. refine (conj _ (conj _ C)).
    + intros ? [<-|I]; [apply inc_sym, A; now left|now apply B].
    + intros ? I. apply A. now right.
Qed.
Lemma antichain_app G H : antichain (G ++ H) <-> antichain G /\ antichain H /\ forall g h, In g G -> In h H -> inc g h.
Proof.
  induction G as [|g G IH]; cbn [app].
  - split; [intros A; refine (conj _ (conj A _)); [constructor|intros ? ? []]|tauto].
  - rewrite !antichain_cons, IH. split.
    + intros [A [B [C D]]]. refine (conj (conj _ B) (conj C _)).
      * intros h I. apply A, in_app_iff. auto.
      * intros x h [<-|I] J; auto. apply A, in_app_iff. auto.
    + intros [[A B] [C D]]. refine (conj _ (conj B (conj C _))).
      * intros h I. apply in_app_iff in I as [I|I]; auto. apply D; auto. now left.
      * intros x h I J. apply D; auto. now right.
Qed.
Lemma antichain_filter f G : antichain G -> antichain (filter f G).
Proof.
  induction G as [|g G IH]; auto. rewrite antichain_cons. intros [A B]. cbn. destruct (f g); auto.
  apply antichain_cons. split; auto. intros h I. apply filter_In in I. now apply A.
Qed.
Lemma antichain_in G g h : antichain G -> In g G -> In h G -> g <> h -> inc g h.
Proof.
  induction G as [|x G IH]; [intros _ []|]. rewrite antichain_cons. intros [A B] [<-|I] [<-|J] N; auto; try congruence.
  now apply inc_sym, A.
Qed.
Lemma lens_perm n G G' : Permutation G G' -> lens n G -> lens n G'.
Proof. intros P L g I. apply L. eapply Permutation_in; [apply Permutation_sym; eauto|auto]. Qed.
Lemma lens_app n G H : lens n (G ++ H) <-> lens n G /\ lens n H.
Proof.
  unfold lens. split; [intros L; split; intros g I; apply L, in_app_iff; auto|].
  intros [A B] g I. apply in_app_iff in I as [I|I]; auto.
Qed.
Lemma lens_cons n g G : lens n (g :: G) <-> length g = n /\ lens n G.
Proof. unfold lens. split; [intros L; split; intros; apply L; [now left|now right]|intros [A B] h [<-|I]; auto]. Qed.
Lemma divides_refl a : e_divides a a = true.
Proof. apply divides_iff; auto. Qed.
Lemma divides_trans n a b c : length a = n -> length b = n -> length c = n ->
  e_divides a b = true -> e_divides b c = true -> e_divides a c = true.
Proof. intros A B C. rewrite !divides_iff by lia. auto. Qed.
Lemma divides_antisym n a b : length a = n -> length b = n -> e_divides a b = true -> e_divides b a = true -> a = b.
Proof.
  intros A B. rewrite !divides_iff by lia. intros H K. apply get_ext; [lia|]. intros v _. specialize (H v). specialize (K v).
  destruct (e_get a v), (e_get b v); auto. symmetry; auto.
Qed.
Lemma antichain_nodup G : antichain G -> NoDup G.
Proof.
  induction G as [|g G IH]; [constructor|]. rewrite antichain_cons. intros [A B]. constructor; auto. intros I.
  destruct (A g I) as [C _]. now rewrite divides_refl in C.
Qed.

(** ** Partition *)
Lemma split_last_some pred l : forall a y b, split_last pred l = Some (a, y, b) -> l = a ++ y :: b /\ pred y = true /\ Forall (fun x => pred x = false) b.
Proof.
  induction l as [|x r IH]; cbn; intros a y b H; [discriminate|].
  destruct (split_last pred r) as [[[a' y'] b']|] eqn:S.
  - injection H as <- <- <-. destruct (IH a' y' b' eq_refl) as [-> [P F]]. auto.
  - destruct (pred x) eqn:P; [|discriminate]. injection H as <- <- <-. repeat split; auto.
    clear IH. induction r as [|z r IH]; auto. cbn in S. destruct (split_last pred r) as [[[? ?] ?]|]; [discriminate|].
    destruct (pred z) eqn:Z; [discriminate|]. constructor; auto.
Qed.
Lemma split_last_none pred l : split_last pred l = None -> Forall (fun x => pred x = false) l.
Proof.
  induction l as [|x r IH]; cbn; auto. destruct (split_last pred r) as [[[? ?] ?]|]; [discriminate|].
  destruct (pred x) eqn:P; [discriminate|]. constructor; auto.
Qed.
Lemma partition_spec pred k : forall l a b, length l <= k -> rsf_partition pred k l = (a, b) ->
  Permutation l (a ++ b) /\ Forall (fun x => pred x = true) a /\ Forall (fun x => pred x = false) b.
Proof.
  induction k as [|k IH]; intros l a b L H; cbn in H.
  - destruct l; [|cbn in L; lia]. injection H as <- <-. auto.
  - destruct l as [|x r]; [injection H as <- <-; auto|]. cbn in L. destruct (pred x) eqn:P.
    + destruct (rsf_partition pred k r) as [a' b'] eqn:R. injection H as <- <-.
      destruct (IH r a' b' ltac:(lia) R) as [Q [A B]]. cbn. repeat split; auto.
    + destruct (split_last pred r) as [[[m y] e]|] eqn:S.
      * destruct (rsf_partition pred k m) as [a' b'] eqn:R. injection H as <- <-.
        apply split_last_some in S as [-> [Y E]]. rewrite app_length in L. cbn in L.
        destruct (IH m a' b' ltac:(lia) R) as [Q [A B]]. split; [|split].
        -- cbn. transitivity (x :: y :: m ++ e); [constructor; symmetry; apply Permutation_middle|].
           rewrite perm_swap. constructor. rewrite app_assoc. rewrite <- Permutation_middle. constructor.
           now apply Permutation_app_tail.
        -- constructor; auto.
        -- apply Forall_app. split; auto.
      * injection H as <- <-. apply split_last_none in S. cbn. auto.
Qed.

Lemma move_last_perm l : Permutation l (move_last l).
Proof.
  destruct l as [|x l]; [constructor|]. unfold move_last. 
  rewrite (app_removelast_last x (l := x :: l)) at 1 by discriminate.
  rewrite <- Permutation_cons_append. reflexivity.
Qed.

(** ** Minimization *)
Lemma minimize_loop n k : forall done rest, length rest = k -> lens n (done ++ rest) -> antichain done ->
  (forall x y, In x done -> In y rest -> e_divides y x = false) ->
  let M := rsf_minimize k done rest in
  (exists R, Permutation (done ++ rest) (M ++ R)) /\ antichain M /\
  (forall y, In y (done ++ rest) -> exists m, In m M /\ e_divides m y = true).
Proof.
  induction k as [|k IH]; intros done rest L N A U; cbn.
  - destruct rest; [|discriminate]. repeat split; auto; [exists []; rewrite !app_nil_r; reflexivity|].
    intros y I. rewrite app_nil_r in I. exists y. split; auto. apply divides_refl.
  - destruct rest as [|x r]; [discriminate|]. injection L as L.
    assert (Lx : length x = n) by (apply N, in_app_iff; right; now left).
    assert (Nr : lens n (done ++ r)).
    { intros g I. apply N. apply in_app_iff. apply in_app_iff in I as [I|I]; auto. right. now right. }
    destruct (existsb (fun d => e_divides d x) (done ++ r)) eqn:X.
    + apply existsb_exists in X as [d [Id D]].
      assert (Pm := move_last_perm r).
      assert (Pd : Permutation (done ++ r) (done ++ move_last r)) by now apply Permutation_app_head.
      destruct (IH done (move_last r)) as [[R PR] [Am C]].
      * rewrite <- (Permutation_length Pm). auto.
      * now apply (lens_perm n _ _ Pd).
      * auto.
      * intros a b Ia Ib. apply U; auto. right. eapply Permutation_in; [apply Permutation_sym, Pm|auto].
      * repeat split; auto.
        -- exists (x :: R). rewrite <- Permutation_middle. rewrite <- (Permutation_middle _ R). constructor. now rewrite Pd.
        -- assert (C' : forall y, In y (done ++ r) -> exists m, In m (rsf_minimize k done (move_last r)) /\ e_divides m y = true).
           { intros y I. apply C. eapply Permutation_in; eauto. }
           intros y I. apply in_app_iff in I as [I|[<-|I]]; [apply C', in_app_iff; now left| |apply C', in_app_iff; now right].
           destruct (C' d Id) as [m [Im Dm]]. exists m. split; auto.
           apply (divides_trans n m d x); auto. apply Nr. eapply Permutation_in; [apply Permutation_sym; rewrite Pd; exact PR|].
           apply in_app_iff; auto.
    + assert (X' : forall d, In d (done ++ r) -> e_divides d x = false).
      { intros d I. destruct (e_divides d x) eqn:D; auto. assert (existsb (fun d => e_divides d x) (done ++ r) = true); [|congruence].
        apply existsb_exists. eauto. }
      destruct (IH (done ++ [x]) r) as [[R PR] [Am C]]; auto.
      * now rewrite <- app_assoc.
      * apply antichain_app. refine (conj A (conj _ _)); [repeat constructor|].
        intros g h Ig [<-|[]]. split; [|apply U; auto; now left].
        apply X'. apply in_app_iff; auto.
      * intros a b Ia Ib. apply in_app_iff in Ia as [Ia|[<-|[]]]; [apply U; auto; now right|]. apply X', in_app_iff; auto.
      * rewrite <- app_assoc in PR, C. split; [|split]; auto. exists R. exact PR.
Qed.

Lemma minimize_spec n G : lens n G -> let M := e_minimize G in
  (exists R, Permutation G (M ++ R)) /\ antichain M /\ (forall y, In y G -> exists m, In m M /\ e_divides m y = true).
Proof.
  intros L. apply (minimize_loop n (length G) [] G); auto; [constructor|]. intros ? ? [].
Qed.
Lemma minimize_lens n G : lens n G -> lens n (e_minimize G).
Proof.
  intros L. destruct (minimize_spec n G L) as [[R P] _]. apply (lens_perm _ _ _ P) in L. now apply lens_app in L.
Qed.
Lemma perm_lens_sub n G M R : Permutation G (M ++ R) -> lens n G -> lens n M /\ lens n R.
Proof. intros P L. apply (lens_perm _ _ _ P) in L. now apply lens_app in L. Qed.

(** ** Colon *)
Definition covers (M G : list eterm) : Prop := forall y, In y G -> exists m, In m M /\ e_divides m y = true.
(** M is what is left of G after minimization. *)
Definition reduced (G M : list eterm) : Prop := (exists R, Permutation G (M ++ R)) /\ antichain M /\ covers M G.
Lemma reduced_in G M m : reduced G M -> In m M -> In m G.
Proof. intros [[R P] _] I. eapply Permutation_in; [apply Permutation_sym, P|]. apply in_app_iff; auto. Qed.
Lemma reduced_lens n G M : reduced G M -> lens n G -> lens n M.
Proof. intros R L m I. apply L. eapply reduced_in; eauto. Qed.
Lemma reduced_le G M : reduced G M -> length M <= length G.
Proof. intros [[R P] _]. rewrite (Permutation_length P), app_length. lia. Qed.
Lemma reduced_same G M : reduced G M -> length M = length G -> Permutation G M.
Proof.
  intros [[R P] _] L. pose proof (Permutation_length P) as Q. rewrite app_length in Q.
  destruct R; [now rewrite app_nil_r in P|cbn in Q; lia].
Qed.
Lemma reduced_E n G M v : lens n G -> length v = n -> reduced G M -> E G v = E M v.
Proof.
  intros L Lv R. pose proof (reduced_lens _ _ _ R L) as LM. destruct R as [[R P] [_ C]].
  apply E_same; try (intros; rewrite Lv; auto).
  - intros g I. destruct (C g I) as [m [Im D]]. exists m. split; auto. intros u _. rewrite divides_iff in D by (transitivity n; [|symmetry]; auto). auto.
  - intros g I. exists g. split; auto. eapply Permutation_in; [apply Permutation_sym, P|]. apply in_app_iff; auto.
Qed.

Lemma colon_prime n a b : length a = n -> length b = n -> e_prime b a = true -> e_colon a b = a.
Proof.
  intros A B P. rewrite prime_iff in P by lia. apply get_ext; [apply colon_length; lia|]. intros u _. rewrite get_colon by lia.
  destruct (e_get b u) eqn:X; [now rewrite (P u X)|]. now rewrite andb_true_r.
Qed.
Lemma colon_reduced n p G : length p = n -> lens n G -> antichain G ->
  reduced (map (fun g => e_colon g p) G) (e_colonReminimize p G).
Proof.
  intros Lp L A. unfold e_colonReminimize.
  destruct (rsf_partition _ _ G) as [front back] eqn:Q. apply partition_spec in Q as [P [F B]]; auto.
  rewrite Forall_forall in F, B.
  assert (LL := L). apply (lens_perm _ _ _ P), lens_app in LL as [Lf Lb].
  destruct (proj1 (antichain_app front back) (antichain_perm _ _ P A)) as [Af [Ab Afb]].
  assert (Bk : map (fun g => e_colon g p) back = back).
  { transitivity (map (fun g => g) back); [|apply map_id]. apply map_ext_in. intros g I. apply (colon_prime n); auto.
    apply negb_false_iff. auto. }
  assert (P' : Permutation (map (fun g => e_colon g p) G) (map (fun g => e_colon g p) front ++ back)).
  { rewrite <- Bk, <- map_app. now apply Permutation_map. }
  assert (Lf' : lens n (map (fun g => e_colon g p) front)).
  { intros g I. apply in_map_iff in I as [x [<- I]]. rewrite colon_length; auto. rewrite Lf; auto. }
  destruct front as [|f0 front0].
  - cbn in P'. repeat split.
    + exists []. now rewrite app_nil_r.
    + auto.
    + intros y I. exists y. split; [eapply Permutation_in; eauto|apply divides_refl].
  - set (front := f0 :: front0) in *. set (f' := map (fun g => e_colon g p) front) in *.
    destruct (minimize_spec n f' Lf') as [[R PR] [Am C]]. set (m := e_minimize f') in *.
    set (keep := fun x => negb (existsb (fun d => e_divides d x) m)).
    destruct (perm_lens_sub _ _ _ _ PR Lf') as [Lm _].
    repeat split.
    + exists (R ++ filter (fun x => negb (keep x)) back). rewrite P', PR.
      assert (PF : Permutation back (filter keep back ++ filter (fun x => negb (keep x)) back)).
      { clear. induction back as [|x l IH]; cbn; auto. destruct (keep x); cbn.
        - now constructor.
        - now rewrite <- Permutation_middle, <- IH. }
      rewrite PF at 1. rewrite <- !app_assoc. apply Permutation_app_head. rewrite !app_assoc. apply Permutation_app_tail.
      apply Permutation_app_comm.
    + apply antichain_app. refine (conj Am (conj _ _)); [now apply antichain_filter|].
      intros x b Ix Ib. apply filter_In in Ib as [Ib K]. unfold keep in K. apply negb_true_iff in K. split.
      * destruct (e_divides x b) eqn:D; auto. assert (existsb (fun d => e_divides d b) m = true); [|congruence].
        apply existsb_exists. eauto.
      * destruct (e_divides b x) eqn:D; auto.
        assert (Ix' : In x f'). { eapply Permutation_in; [apply Permutation_sym, PR|]. apply in_app_iff; auto. }
        apply in_map_iff in Ix' as [f [<- If]]. destruct (Afb f b If Ib) as [_ N].
        rewrite <- N. symmetry. apply divides_iff; [transitivity n; [|symmetry]; auto|]. intros u U.
        rewrite divides_iff in D by (rewrite colon_length; (transitivity n; [auto|symmetry; auto])).
        specialize (D u U). rewrite get_colon in D by (transitivity n; [auto|symmetry; auto]). now apply andb_true_iff in D.
    + intros y I. apply (Permutation_in _ P') in I. apply in_app_iff in I as [I|I].
      * destruct (C y I) as [d [Id D]]. exists d. split; auto. apply in_app_iff; auto.
      * destruct (keep y) eqn:K.
        -- exists y. split; [apply in_app_iff; right; now apply filter_In|apply divides_refl].
        -- unfold keep in K. apply negb_false_iff, existsb_exists in K as [d [Id D]]. exists d. split; auto. apply in_app_iff; auto.
Qed.

Lemma back_loop front k : forall done rest, length rest = k -> let M := reminimize_back front k done rest in
  exists K R, M = done ++ K /\ Permutation rest (K ++ R) /\
  (forall x, In x K -> existsb (fun d => e_divides d x) front = false) /\
  (forall x, In x R -> existsb (fun d => e_divides d x) front = true).
Proof.
  induction k as [|k IH]; intros done rest L; cbn.
  - destruct rest; [|discriminate]. exists [], []. repeat split; try (intros ? []); auto. now rewrite app_nil_r.
  - destruct rest as [|x r]; [discriminate|]. injection L as L.
    destruct (existsb (fun d => e_divides d x) front) eqn:X.
    + destruct (IH done (move_last r)) as [K [R [E [P [A B]]]]].
      { rewrite <- (Permutation_length (move_last_perm r)). auto. }
      exists K, (x :: R). repeat split; auto.
      * rewrite <- Permutation_middle. constructor. now rewrite (move_last_perm r).
      * intros y [<-|I]; auto.
    + destruct (IH (done ++ [x]) r L) as [K [R [E [P [A B]]]]].
      exists (x :: K), R. repeat split; auto.
      * rewrite E, <- app_assoc. reflexivity.
      * cbn. now constructor.
      * intros y [<-|I]; auto.
Qed.
Lemma divides_set n v a b : length a = n -> length b = n -> e_get a v = true -> e_get b v = true ->
  e_divides (e_set a v false) (e_set b v false) = e_divides a b.
Proof.
  intros A B X Y. apply eq_true_iff_eq. rewrite !divides_iff by (rewrite ?set_length; lia). split; intros H u.
  - specialize (H u). rewrite !get_set_false in H. destruct (Nat.eqb_spec u v); [subst; auto|auto].
  - rewrite !get_set_false. destruct (Nat.eqb_spec u v); auto.
Qed.
Lemma antichain_set n v G : lens n G -> antichain G -> (forall g, In g G -> e_get g v = true) -> antichain (e_colonVar v G).
Proof.
  unfold e_colonVar. induction G as [|g G IH]; [constructor|]. rewrite lens_cons. intros [Lg L]. cbn [map]. rewrite !antichain_cons.
  intros [A B] H. split; [|apply IH; auto; intros; apply H; now right].
  intros h I. apply in_map_iff in I as [x [<- I]]. destruct (A x I) as [C D].
  split; rewrite (divides_set n); auto; apply H; auto; (now left) || now right.
Qed.
Lemma colonVar_reduced n v G : lens n G -> antichain G -> reduced (e_colonVar v G) (e_colonReminimizeVar v G).
Proof.
  intros L A. unfold e_colonReminimizeVar.
  destruct (rsf_partition _ _ G) as [front back] eqn:Q. apply partition_spec in Q as [P [F B]]; auto.
  rewrite Forall_forall in F, B.
  assert (LL := L). apply (lens_perm _ _ _ P), lens_app in LL as [Lf Lb].
  destruct (proj1 (antichain_app front back) (antichain_perm _ _ P A)) as [Af [Ab Afb]].
  assert (Bk : e_colonVar v back = back).
  { transitivity (map (fun g => g) back); [|apply map_id]. apply map_ext_in. intros g I.
    apply get_ext; [apply set_length|]. intros u _. rewrite get_set_false. destruct (Nat.eqb_spec u v); auto. subst. symmetry. now apply B. }
  assert (P' : Permutation (e_colonVar v G) (e_colonVar v front ++ back)).
  { rewrite <- Bk. unfold e_colonVar. rewrite <- map_app. now apply Permutation_map. }
  assert (Af' := antichain_set n v front Lf Af F). fold (e_colonVar v front).
  destruct front as [|f0 front0].
  - cbn in P'. split; [|split]; auto.
    + exists []. now rewrite app_nil_r.
    + intros y I. exists y. split; [eapply Permutation_in; eauto|apply divides_refl].
  - set (front := f0 :: front0) in *. set (f' := e_colonVar v front) in *.
    destruct back as [|b0 back0].
    { rewrite app_nil_r in P'. split; [|split]; auto.
      + exists []. now rewrite app_nil_r.
      + intros y I. exists y. split; [eapply Permutation_in; eauto|apply divides_refl]. }
    set (back := b0 :: back0) in *.
    destruct (back_loop f' (length back) [] back eq_refl) as [K [R [E [PK [HK HR]]]]]. cbn [app] in E. rewrite E.
    split; [|split].
    + exists R. rewrite P', PK. now rewrite app_assoc.
    + apply antichain_app. refine (conj Af' (conj _ _)).
      * assert (AK := antichain_perm _ _ PK Ab). now apply antichain_app in AK.
      * intros x b Ix Ib. assert (Ib' : In b back). { eapply Permutation_in; [apply Permutation_sym, PK|]. apply in_app_iff; auto. }
        split.
        -- destruct (e_divides x b) eqn:D; auto. rewrite <- (HK b Ib). symmetry. apply existsb_exists. eauto.
        -- destruct (e_divides b x) eqn:D; auto. apply in_map_iff in Ix as [f [<- If]]. destruct (Afb f b If Ib') as [_ N].
           rewrite <- N. symmetry. apply divides_iff; [transitivity n; [|symmetry]; auto|]. intros u U.
           rewrite divides_iff in D by (rewrite set_length; transitivity n; [auto|symmetry; auto]).
           specialize (D u U). rewrite get_set_false in D. destruct (u =? v); [discriminate|auto].
    + intros y I. apply (Permutation_in _ P') in I. apply in_app_iff in I as [I|I].
      * exists y. split; [apply in_app_iff; auto|apply divides_refl].
      * apply (Permutation_in _ PK) in I. apply in_app_iff in I as [I|I].
        -- exists y. split; [apply in_app_iff; auto|apply divides_refl].
        -- apply HR, existsb_exists in I as [d [Id D]]. exists d. split; auto. apply in_app_iff; auto.
Qed.

(** ** Removal of a generator *)
Lemma remove_spec G i g : nth_error G i = Some g -> exists G', e_removeGenerator G i = Some G' /\ Permutation G (g :: G').
Proof.
  intros H. unfold e_removeGenerator. destruct (nth_error_split _ _ H) as [a [b [-> La]]]. subst i.
  rewrite skipn_app, skipn_all, Nat.sub_diag. cbn. rewrite firstn_app, firstn_all, Nat.sub_diag. cbn. rewrite app_nil_r.
  eexists. split; [reflexivity|]. rewrite <- Permutation_middle. constructor. apply Permutation_app_head, move_last_perm.
Qed.
Lemma multiple_spec v G : (exists g, In g G /\ e_get g v = true) ->
  exists g, nth_error G (e_getMultiple v G) = Some g /\ e_get g v = true.
Proof.
  induction G as [|g G IH]; [intros [? [[] _]]|]. intros [h [I H]]. cbn. destruct (e_get g v) eqn:X; [cbn; eauto|].
  apply IH. destruct I as [<-|I]; [congruence|eauto].
Qed.
Lemma nonMultiple_spec v G : (exists g, In g G /\ e_get g v = false) ->
  exists g, nth_error G (e_getNonMultiple v G) = Some g /\ e_get g v = false.
Proof.
  induction G as [|g G IH]; [intros [? [[] _]]|]. intros [h [I H]]. cbn. destruct (e_get g v) eqn:X; [|cbn; eauto].
  apply IH. destruct I as [<-|I]; [congruence|eauto].
Qed.
