(** Freeing. *)
From Coq Require Import List Arith Bool ZArith Lia.
Import ListNotations.
From Verif Require Import M_Arena Spec_Arena P_Arena P_Arena2.
Local Open Scope Z_scope.

Lemma read_old a live lc b l old : inv a live lc ((b, l) :: old) -> bprev (cur a) = bend b /\ readBlock a (bend b) = Done b.
Proof.
  intros I. pose proof (i_chain _ _ _ _ I) as C. cbn [map fst] in C. inversion C as [E1 E2|b' l' C1 C2 C3 C4 C5 E1 E2]; subst b' l'. split; [congruence|].
  unfold readBlock. assert (accessible a (bend b) = true) as ->.
  - apply existsb_exists. exists (buffer b). split; [eapply old_buffer; eauto; cbn; auto|]. unfold buffer, sizeofBlock. cbn [fst snd].
    pose proof (i_old _ _ _ _ I) as F. inversion F as [|? ? [[_ [U _]] _] _]; subst. cbn [fst] in U. apply andb_true_iff. lia.
  - rewrite C1, C2, C3, C4. now destruct b.
Qed.
Lemma cur_nonnull a live lc o old : inv a live lc (o :: old) -> isNull (cur a) = false.
Proof. intros I. destruct (isNull (cur a)) eqn:N; auto. destruct (i_null _ _ _ _ I N) as [_ [X _]]. discriminate. Qed.
Lemma filter_other (b : Z) : forall hs : list (Z * Z), Forall (fun h => fst h <> b) hs -> filter (fun h => negb (fst h =? b)) hs = hs.
Proof. induction 1 as [|h hs F G IH]; cbn; auto. destruct (fst h =? b) eqn:E; [lia|]. cbn. now rewrite IH. Qed.

Lemma discard_inv a live lc b l old : inv a live lc ((b, l) :: old) ->
  exists a', discardPreviousBlock a = Done a' /\ inv a' (lc ++ concat (map snd old)) lc old /\ mem a' = mem a /\
    bbegin (cur a') = bbegin (cur a) /\ (length (heap a') < length (heap a))%nat.
Proof.
  intros I. destruct (read_old _ _ _ _ _ _ I) as [P R]. unfold discardPreviousBlock. rewrite P, R. cbn [obind]. pose proof (cur_nonnull _ _ _ _ _ I) as N. pose proof (i_heap _ _ _ _ I) as HP. rewrite N in HP. cbn [map fst app] in HP.
  pose proof (i_old _ _ _ _ I) as F. inversion F as [|? ? [O W] F2]; subst. cbn [fst snd] in *. pose proof (i_sep _ _ _ _ I) as S. rewrite HP in S.
  assert (D : delete a (bbegin b) = Done (mkArena (cur a) (buffer (cur a) :: map buffer (map fst old)) (mem a) (ticks a))).
  { unfold delete. destruct O as [O1 [O2 _]]. assert (bbegin b =? 0 = false) as -> by lia. rewrite HP. cbn [existsb buffer fst]. rewrite Z.eqb_refl, orb_true_r. do 2 f_equal. cbn [filter buffer fst].
    inversion S as [|? ? S1 S2]; subst. inversion S2 as [|? ? S3 S4]; subst. inversion S1 as [|? ? S5 S6]; subst. destruct (i_cur _ _ _ _ I N) as [_ [U _]].
    unfold separate, buffer, sizeofBlock in S5. cbn [fst snd] in S5. assert (bbegin (cur a) =? bbegin b = false) as -> by lia. rewrite Z.eqb_refl. cbn [negb]. f_equal.
    apply filter_other. apply Forall_forall. intros h H. rewrite Forall_forall in S3. specialize (S3 _ H). apply in_map_iff in H as [c [<- H]]. apply in_map_iff in H as [[c' l'] [E H]]. cbn in E. subst c'.
    rewrite Forall_forall in F2. destruct (F2 _ H) as [[_ [V _]] _]. cbn [fst] in V. unfold separate, buffer, sizeofBlock in *. cbn [fst snd] in *. lia. }
  rewrite D. cbn [obind]. eexists. split; [reflexivity|]. split; [|cbn [mem setPrev cur bbegin heap]; split; [auto|split; [auto|rewrite HP; cbn; lia]]].
  constructor; cbn [setPrev cur bbegin bfree bend bprev heap mem]; auto; try apply I.
  - pose proof (i_chain _ _ _ _ I) as C. cbn [map fst] in C. inversion C as [E1 E2|b' l' C1 C2 C3 C4 C5 E1 E2]; subst b' l'. auto.
  - unfold isNull in *. cbn [bbegin]. rewrite N. reflexivity.
  - unfold isNull in *. cbn [bbegin]. rewrite N. discriminate.
  - change (ForallOrdPairs separate ([buffer (cur a)] ++ map buffer (map fst old))). apply FOP_skip with (l2 := [buffer b]). exact S.
Qed.
(** Setting where the free part of the previous block begins *)
Definition putFree (a : arena) (ptr : Z) : arena := mkArena (cur a) (heap a) (writeWord (mem a) (bprev (cur a) + 8) ptr) (ticks a).
Lemma putFree_inv a live lc b l old ptr l' : inv a live lc ((b, l) :: old) -> within b l' ->
  inv (putFree a ptr) (lc ++ l' ++ concat (map snd old)) lc ((mkBlock (bbegin b) ptr (bend b) (bprev b), l') :: old) /\ keeps live a (putFree a ptr).
Proof.
  intros I W. destruct (read_old _ _ _ _ _ _ I) as [P _]. pose proof (i_old _ _ _ _ I) as F. inversion F as [|? ? [O _] F2]; subst. cbn [fst snd] in O. pose proof (cur_nonnull _ _ _ _ _ I) as N. split.
  - constructor; cbn [putFree cur heap mem map fst snd concat]; auto; try apply I.
    + rewrite P. pose proof (i_chain _ _ _ _ I) as C. cbn [map fst] in C. inversion C as [E1 E2|b' l2 C1 C2 C3 C4 C5 E1 E2]; subst b' l2.
      apply (ch_cons _ (mkBlock (bbegin b) ptr (bend b) (bprev b))); cbn [bbegin bfree bend bprev]; rewrite ?writeWord_same; auto; try (rewrite writeWord_other by lia; assumption).
      eapply chain_frame; [exact C5|]. intros c q B Q. apply writeWord_other. pose proof (i_sep _ _ _ _ I) as S. rewrite (i_heap _ _ _ _ I), N in S. cbn [app map fst] in S. inversion S as [|? ? S1 S2]; subst. inversion S2 as [|? ? S3 S4]; subst.
      rewrite Forall_forall in S3. specialize (S3 (buffer c) ltac:(now apply in_map)). apply in_map_iff in B as [[c' l2] [E B]]. cbn in E. subst c'. rewrite Forall_forall in F2. destruct (F2 _ B) as [[_ [V _]] _]. cbn [fst] in V.
      destruct O as [_ [O2 _]]. unfold separate, buffer, sizeofBlock in S3. cbn [fst snd] in S3. lia.
    + intros X. congruence.
  - intros p sz q L Q. unfold putFree. cbn [mem]. rewrite P. apply writeWord_other. pose proof (header_apart a live lc _ b (p, sz) q I ltac:(eapply old_buffer; eauto; cbn; auto) L Q) as H. lia.
Qed.
Lemma freeInPrevious_eq a live lc b l old ptr : inv a live lc ((b, l) :: old) ->
  freeInPrevious a ptr = if bbegin b =? ptr then discardPreviousBlock (putFree a ptr) else Done (putFree a ptr).
Proof. intros I. destruct (read_old _ _ _ _ _ _ I) as [P R]. unfold freeInPrevious. rewrite P at 1. rewrite R. reflexivity. Qed.
Lemma keeps_sub live live' a a' : keeps live a a' -> incl live' live -> keeps live' a a'.
Proof. intros K H p sz q L. apply K. auto. Qed.
Lemma keeps_mem live a a' a2 : keeps live a a' -> mem a2 = mem a' -> keeps live a a2.
Proof. intros K E p sz q L Q. rewrite E. eapply K; eauto. Qed.

Lemma freePrev_in a live lc b l1 p n l2 old : inv a live lc ((b, l1 ++ (p, n) :: l2) :: old) ->
  exists a' old', freeInPrevious a p = Done a' /\ inv a' (lc ++ l2 ++ concat (map snd old)) lc old' /\ keeps live a a'.
Proof.
  intros I. rewrite (freeInPrevious_eq _ _ _ _ _ _ p I). pose proof (i_old _ _ _ _ I) as F. inversion F as [|? ? [O W] F2]; subst. cbn [fst snd] in *.
  destruct W as [t [T S]]. destruct (stacked_drop _ _ _ _ _ _ S) as [S2 PT]. assert (W2 : within b l2) by (exists p; split; [lia | auto]).
  destruct (putFree_inv a live lc b _ old p l2 I W2) as [I2 K]. destruct (bbegin b =? p) eqn:E.
  - assert (bbegin b = p) as E2 by lia. rewrite E2 in S2. apply stacked_nil in S2. subst l2. destruct (discard_inv _ _ _ _ _ _ I2) as [a' [D [I3 [M _]]]]. exists a', old. split; auto. split; auto. eapply keeps_mem; eauto.
  - eauto.
Qed.
Lemma pop_old : forall old p n rest, Forall (fun o => block_ok (fst o) /\ within (fst o) (snd o)) old -> concat (map snd old) = (p, n) :: rest ->
  exists old', map fst old' = map fst old /\ concat (map snd old') = rest /\ Forall (fun o => block_ok (fst o) /\ within (fst o) (snd o)) old' /\ exists b l, In (b, l) old /\ In (p, n) l.
Proof.
  induction old as [|[b l] old IH]; intros p n rest F E; [discriminate|]. inversion F as [|? ? [O W] F2]; subst. cbn [map concat fst snd] in *. destruct l as [|x l].
  - destruct (IH _ _ _ F2 E) as [old' [A [B [C [c [k [D1 D2]]]]]]]. exists ((b, []) :: old'). cbn [map fst snd concat]. split; [congruence|]. split; auto. split; [constructor; auto|]. exists c, k. split; cbn; auto.
  - cbn [app] in E. injection E as -> E. exists ((b, l) :: old). cbn [map fst snd concat]. split; auto. split; auto. split; [|exists b, ((p, n) :: l); cbn; auto].
    constructor; auto. cbn [fst snd]. split; auto. destruct W as [t [T S]]. destruct (stacked_drop _ [] _ _ _ _ S) as [S2 PT]. exists p. split; [lia | auto].
Qed.
Lemma freeTop_inv a live lc old p n rest : inv a live lc old -> live = (p, n) :: rest ->
  exists a' lc' old', freeTop a p = Done a' /\ inv a' rest lc' old' /\ keeps rest a a'.
Proof.
  intros I ->. unfold freeTop, blockIsEmpty. pose proof (i_stack _ _ _ _ I) as S. pose proof (i_live _ _ _ _ I) as L. destruct (bbegin (cur a) =? bfree (cur a)) eqn:E; cbn [negb].
  - assert (bbegin (cur a) = bfree (cur a)) as E2 by lia. rewrite <- E2 in S. pose proof S as S'. apply stacked_nil in S'. subst lc. cbn [app] in L.
    destruct old as [|[b l] old]; [discriminate|]. unfold freeTopFromOldBlock. destruct l as [|[q m] l].
    + cbn [map concat snd app] in L. pose proof (i_old _ _ _ _ I) as F. inversion F as [|? ? [O W] F2]; subst. cbn [fst snd] in *. destruct (pop_old old p n rest F2 ltac:(auto)) as [old' [A [B [C [c [k [D1 D2]]]]]]].
      assert (I2 : inv a rest [] ((b, []) :: old')).
      { constructor; cbn [map fst snd concat app]; auto; try apply I; try (rewrite A; apply I). intros N. rewrite (cur_nonnull _ _ _ _ _ I) in N. discriminate. }
      rewrite (freeInPrevious_eq _ _ _ _ _ _ p I2). destruct (putFree_inv a rest [] b [] old' p [] I2 W) as [I3 K].
      assert (bbegin b =? p = false) as ->.
      { rewrite Forall_forall in F2. destruct (F2 _ D1) as [OC WC]. cbn [fst snd] in *. pose proof (within_in _ _ _ WC D2) as R. cbn [fst snd] in R. destruct (width_facts n ltac:(lia)) as [_ [W8 _]].
        pose proof (i_sep _ _ _ _ I) as SP. rewrite (i_heap _ _ _ _ I), (cur_nonnull _ _ _ _ _ I) in SP. cbn [app map fst] in SP. inversion SP as [|? ? S1 S2]; subst. inversion S2 as [|? ? S3 S4]; subst.
        rewrite Forall_forall in S3. specialize (S3 (buffer c) ltac:(apply in_map, in_map_iff; exists (c, k); auto)). destruct O as [_ [O2 _]]. unfold separate, buffer, sizeofBlock in S3. cbn [fst snd] in S3. lia. }
      cbn [app] in I3. rewrite B in I3. eexists _, _, _. split; [reflexivity|]. split; eassumption.
    + cbn [map concat snd app] in L. injection L as <- <- L. destruct (freePrev_in a _ [] b [] p n l old I) as [a' [old' [A [B C]]]]. cbn [app] in B. rewrite <- L in B. exists a', [], old'. split; auto. split; auto. eapply keeps_sub; eauto. intros x; cbn; auto.
  - destruct lc as [|[q m] lc]; [inversion S; lia|]. cbn [app] in L. injection L as <- <- L. exists (setFree a p), lc, old. split; auto. split; [|red; auto].
    inversion S as [|? ? ? M S2]; subst. pose proof (i_free _ _ _ _ I). destruct (width_facts n M) as [_ [W8 _]].
    constructor; cbn [setFree cur heap mem bbegin bfree bend bprev]; auto; try apply I; try lia.
    + intros X. exfalso. destruct (i_null _ _ _ _ I X) as [_ [_ Y]]. discriminate.
Qed.

(** ** Freeing an allocation and all later ones *)
Lemma inBlock b p : block_ok b -> 0 <= p < 2 ^ 64 -> isInBlock b p = (bbegin b <=? p) && (p <? bend b).
Proof.
  intros [O1 [O2 [O3 _]]] P. unfold sizeofBlock in O3. unfold isInBlock, getSize. rewrite (Z.mod_small (bend b - bbegin b)) by (unfold word; lia). destruct (Z.le_gt_cases (bbegin b) p).
  - rewrite Z.mod_small by (unfold word; lia). destruct (p - bbegin b <? bend b - bbegin b) eqn:E; symmetry; [apply andb_true_iff; lia | apply andb_false_iff; lia].
  - rewrite <- (Z_mod_plus_full _ 1). rewrite Z.mod_small by (unfold word; lia). assert (bbegin b <=? p = false) as -> by lia. cbn [andb]. unfold word. lia.
Qed.
Lemma in_own b l p n : block_ok b -> within b l -> In (p, n) l -> isInBlock b p = true /\ 0 <= p < 2 ^ 64.
Proof.
  intros O W I. pose proof (within_in _ _ _ W I) as R. cbn [fst snd] in R. destruct (width_facts n ltac:(lia)) as [_ [W8 _]]. pose proof O as [O1 [O2 [O3 _]]]. unfold sizeofBlock in O3. assert (0 <= p < 2 ^ 64) by lia. split; auto. rewrite inBlock by auto. apply andb_true_iff. lia.
Qed.
Lemma in_other b b' l p n : block_ok b -> block_ok b' -> within b' l -> In (p, n) l -> separate (buffer b) (buffer b') -> isInBlock b p = false.
Proof.
  intros O O' W I S. destruct (in_own b' l p n O' W I) as [_ P]. rewrite inBlock by auto. pose proof (within_in _ _ _ W I) as R. cbn [fst snd] in R. destruct (width_facts n ltac:(lia)) as [_ [W8 _]].
  unfold separate, buffer, sizeofBlock in S. cbn [fst snd] in S. destruct O as [_ [O2 _]]. apply andb_false_iff. lia.
Qed.
Lemma split_app {A} : forall (l1 l2 k1 : list A) x k2, l1 ++ l2 = k1 ++ x :: k2 -> (exists m, l1 = k1 ++ x :: m /\ k2 = m ++ l2) \/ (exists m, k1 = l1 ++ m /\ l2 = m ++ x :: k2).
Proof.
  induction l1 as [|y l1 IH]; intros l2 k1 x k2 E; cbn in E; [right; exists k1; auto|]. destruct k1 as [|z k1]; cbn in E; injection E as -> E.
  - left. exists l1. auto.
  - destruct (IH _ _ _ _ E) as [[m [-> ->]]|[m [-> ->]]]; [left|right]; exists m; auto.
Qed.
Lemma old_in (old : list (block * list (Z * Z))) later p n rest : concat (map snd old) = later ++ (p, n) :: rest -> exists b l, In (b, l) old /\ In (p, n) l.
Proof.
  intros E. assert (H : In (p, n) (concat (map snd old))) by (rewrite E; apply in_elt). apply in_concat in H as [l [L X]]. apply in_map_iff in L as [[b l'] [Q L]]. cbn in Q. subst l'. eauto.
Qed.
Lemma discardUntil_inv p n rest : forall old fuel a later, inv a (concat (map snd old)) [] old -> concat (map snd old) = later ++ (p, n) :: rest -> (length old <= fuel)%nat ->
  exists a' b l1 l2 old', discardUntil fuel a p = Done a' /\ inv a' (concat (map snd ((b, l1 ++ (p, n) :: l2) :: old'))) [] ((b, l1 ++ (p, n) :: l2) :: old') /\
    rest = l2 ++ concat (map snd old') /\ mem a' = mem a.
Proof.
  induction old as [|[b l] old IH]; intros fuel a later I E K; [destruct later; discriminate|]. destruct fuel as [|fuel]; [cbn in K; lia|].
  destruct (read_old _ _ _ _ _ _ I) as [P R]. cbn [discardUntil]. rewrite P, R. cbn [obind]. pose proof (i_old _ _ _ _ I) as F. inversion F as [|? ? [O W] F2]; subst. cbn [fst snd map concat] in *.
  apply split_app in E as [[m [-> ->]]|[m [-> E]]].
  - destruct (in_own b _ p n O W ltac:(apply in_elt)) as [-> _]. exists a, b, later, m, old. auto.
  - destruct (old_in _ _ _ _ _ E) as [c [k [C1 C2]]]. rewrite Forall_forall in F2. destruct (F2 _ C1) as [OC WC]. cbn [fst snd] in *.
    rewrite (in_other b c k p n) by (auto; pose proof (i_sep _ _ _ _ I) as SP; rewrite (i_heap _ _ _ _ I), (cur_nonnull _ _ _ _ _ I) in SP; cbn [app map fst] in SP; inversion SP as [|? ? S1 S2]; subst; inversion S2 as [|? ? S3 S4]; subst;
      rewrite Forall_forall in S3; apply S3; apply in_map, in_map_iff; exists (c, k); auto).
    destruct (discard_inv _ _ _ _ _ _ I) as [a' [D [I2 [M _]]]]. rewrite D. cbn [obind]. cbn [app] in I2. destruct (IH fuel a' m I2 E ltac:(cbn in K; lia)) as [a2 [b2 [l1 [l2 [old' [A1 [A2 [A3 A4]]]]]]]]. exists a2, b2, l1, l2, old'. split; auto. split; auto. split; auto. congruence.
Qed.
Lemma freeAfter_inv a live lc old later p n rest : inv a live lc old -> live = later ++ (p, n) :: rest ->
  exists a' lc' old', freeAndAllAfter a p = Done a' /\ inv a' rest lc' old' /\ keeps rest a a'.
Proof.
  intros I E. pose proof (i_live _ _ _ _ I) as L. rewrite E in L. symmetry in L. assert (N : isNull (cur a) = false).
  { destruct (isNull (cur a)) eqn:N; auto. destruct (i_null _ _ _ _ I N) as [_ [-> ->]]. destruct later; discriminate. }
  unfold freeAndAllAfter. pose proof (i_cur _ _ _ _ I N) as O. pose proof (cur_within _ _ _ _ I) as W. apply split_app in L as [[m [-> ->]]|[m [-> L]]].
  - destruct (in_own _ _ p n O W ltac:(apply in_elt)) as [-> _]. exists (setFree a p), m, old. split; auto. split; [|red; auto]. destruct (stacked_drop _ _ _ _ _ _ (i_stack _ _ _ _ I)) as [S PT]. pose proof (i_free _ _ _ _ I).
    constructor; cbn [setFree cur heap mem bbegin bfree bend bprev]; auto; try apply I; try lia. intros X. change (isNull (cur a) = true) in X. congruence.
  - destruct (old_in _ _ _ _ _ L) as [c [k [C1 C2]]]. pose proof (i_old _ _ _ _ I) as F. rewrite Forall_forall in F. destruct (F _ C1) as [OC WC]. cbn [fst snd] in *.
    rewrite (in_other (cur a) c k p n) by (auto; pose proof (i_sep _ _ _ _ I) as SP; rewrite (i_heap _ _ _ _ I), N in SP; cbn [app] in SP; inversion SP as [|? ? S1 S2]; subst; rewrite Forall_forall in S1; apply S1; apply in_map, in_map_iff; exists (c, k); auto).
    unfold freeAndAllAfterFromOldBlock. assert (I0 : inv (setFree a (bbegin (cur a))) (concat (map snd old)) [] old).
    { constructor; cbn [setFree cur heap mem bbegin bfree bend bprev]; auto; try apply I; try (intros X; change (isNull (cur a) = true) in X; congruence); [apply st_nil | exact N]. }
    destruct (discardUntil_inv p n rest old (length (heap a)) _ m I0 L) as [a1 [b [l1 [l2 [old' [D [I1 [R M]]]]]]]].
    { rewrite (i_heap _ _ _ _ I), app_length, !map_length. lia. }
    rewrite D. cbn [obind]. destruct (freePrev_in _ _ _ _ _ _ _ _ _ I1) as [a2 [old2 [D2 [I2 K]]]]. cbn [app] in I2. rewrite <- R in I2. exists a2, [], old2. split; auto. split; auto.
    intros q sz r Q1 Q2. rewrite (K q sz r); auto; [now rewrite M|]. cbn [map concat snd]. rewrite <- app_assoc. apply in_app_iff. right. cbn [app]. right. rewrite R in Q1. exact Q1.
Qed.
Lemma discardAll_inv : forall old fuel a live lc, inv a live lc old -> (length old <= fuel)%nat ->
  exists a', discardAll fuel a = Done a' /\ inv a' lc lc [] /\ mem a' = mem a.
Proof.
  induction old as [|[b l] old IH]; intros fuel a live lc I K.
  - pose proof (i_chain _ _ _ _ I) as C. inversion C as [E|]. exists a. assert (discardAll fuel a = Done a) as -> by (destruct fuel; cbn [discardAll]; unfold hasPreviousBlock; rewrite <- E; reflexivity). split; auto. split; auto.
    pose proof (i_live _ _ _ _ I) as L. cbn in L. rewrite app_nil_r in L. now rewrite L in I.
  - destruct fuel as [|fuel]; [cbn in K; lia|]. destruct (read_old _ _ _ _ _ _ I) as [P _]. pose proof (i_old _ _ _ _ I) as F. inversion F as [|? ? [[O1 [O2 _]] _] _]; subst. cbn [fst] in *.
    cbn [discardAll]. unfold hasPreviousBlock. rewrite P. assert (bend b =? 0 = false) as -> by lia. cbn [negb]. destruct (discard_inv _ _ _ _ _ _ I) as [a' [D [I2 [M _]]]]. rewrite D. cbn [obind].
    destruct (IH fuel a' _ _ I2 ltac:(cbn in K; lia)) as [a2 [D2 [I3 M2]]]. exists a2. split; auto. split; auto. congruence.
Qed.
Lemma destroy_inv a live lc old : inv a live lc old -> exists a', destroy a = Done a' /\ heap a' = [].
Proof.
  intros I. unfold destroy. destruct (discardAll_inv old (length (heap a)) a live lc I) as [a' [D [I2 _]]]. { rewrite (i_heap _ _ _ _ I), app_length, !map_length. lia. }
  rewrite D. cbn [obind]. pose proof (i_heap _ _ _ _ I2) as HP. unfold delete. unfold isNull in HP. destruct (bbegin (cur a') =? 0); cbn [app map] in HP; [exists a'; auto|].
  rewrite HP. cbn [existsb buffer fst]. rewrite Z.eqb_refl. cbn [orb]. eexists. split; [reflexivity|]. cbn [heap filter buffer fst]. rewrite Z.eqb_refl. reflexivity.
Qed.
Lemma empty_inv a live lc old : inv a live lc old -> isEmpty a = true -> live = [].
Proof.
  intros I E. unfold isEmpty, hasPreviousBlock, blockIsEmpty in E. apply andb_true_iff in E as [E1 E2]. rewrite negb_involutive in E1. destruct old as [|[b l] old].
  - rewrite (i_live _ _ _ _ I). cbn. rewrite app_nil_r. pose proof (i_stack _ _ _ _ I) as S. assert (bbegin (cur a) = bfree (cur a)) as Q by lia. rewrite <- Q in S. now apply stacked_nil in S.
  - exfalso. destruct (read_old _ _ _ _ _ _ I) as [P _]. pose proof (i_old _ _ _ _ I) as F. inversion F as [|? ? [[O1 [O2 _]] _] _]; subst. cbn [fst] in *. lia.
Qed.

Lemma history_inv new : good_new new -> forall a live, history new a live -> exists lc old, inv a live lc old.
Proof.
  intros GN. induction 1 as [m|a live size p a' H [lc [old I]] S A|a p size live a' H [lc [old I]] A|a later p size live a' H [lc [old I]] A|a live p size q v H [lc [old I]] L Q].
  - exists [], []. constructor; cbn; auto; try constructor; try discriminate; try lia; auto.
  - pose proof (alloc_inv new GN a live lc old size I S) as H2. rewrite A in H2. apply H2.
  - destruct (freeTop_inv _ _ _ _ _ _ _ I eq_refl) as [a2 [lc' [old' [A2 [I2 _]]]]]. assert (a2 = a') by congruence. subst. eauto.
  - destruct (freeAfter_inv _ _ _ _ _ _ _ _ I eq_refl) as [a2 [lc' [old' [A2 [I2 _]]]]]. assert (a2 = a') by congruence. subst. eauto.
  - exists lc, old. eapply write_inv; eauto.
Qed.
