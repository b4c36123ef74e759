(** Proofs about saturated binomial ideals *)
From Coq Require Import List Arith Bool ZArith Lia.
Import ListNotations.
From Verif Require Import M_SatBinom Spec_SatBinom.
Local Open Scope Z_scope.
Local Notation length := List.length.

Lemma entry_map_seq f n i : (i < n)%nat -> entry (map f (seq 0 n)) i = f i.
Proof.
  intros Hi. unfold entry. rewrite (nth_indep _ 0 (f 0%nat)) by (rewrite map_length, seq_length; exact Hi).
  rewrite map_nth, seq_nth by exact Hi. reflexivity.
Qed.
Lemma isDominating_iff n gens v :
  isDominating n gens v = true <-> exists g, In g gens /\ forall i, (i < n)%nat -> entry g i <= entry v i.
Proof.
  unfold isDominating. rewrite existsb_exists. split; intros (g & Hg & H); exists g; (split; [exact Hg |]).
  - intros i Hi. rewrite forallb_forall in H. specialize (H i ltac:(apply in_seq; lia)).
    apply negb_true_iff, Z.ltb_ge in H. exact H.
  - apply forallb_forall. intros i Hi. apply in_seq in Hi. apply negb_true_iff, Z.ltb_ge, H. lia.
Qed.
Lemma negb_iff (b : bool) (P Q : Prop) : (b = true <-> P) -> (Q <-> ~ P) -> (negb b = true <-> Q).
Proof. intros H1 H2. rewrite H2, <- H1. destruct b; cbn; intuition congruence. Qed.

Lemma point_free_iff n gens a b : isPointFreeBody n gens a b = true <-> point_free n gens [a; b].
Proof.
  unfold isPointFreeBody. eapply negb_iff; [apply isDominating_iff |]. unfold point_free. split.
  - intros H (g & Hg & K). apply (H g Hg). intros i Hi. specialize (K i Hi). rewrite entry_map_seq in K by exact Hi. cbv zeta in K. unfold entry in K.
    destruct (Z.ltb_spec (nth i b 0) (nth i a 0)).
    + destruct (Z.ltb_spec (nth i a 0) 0); [left; lia | right; exists a; split; [left; reflexivity | lia]].
    + destruct (Z.ltb_spec (nth i b 0) 0); [left; lia | right; exists b; split; [right; left; reflexivity | lia]].
  - intros H g Hg K. apply H. exists g. split; [exact Hg |]. intros i Hi. rewrite entry_map_seq by exact Hi. cbv zeta. unfold entry.
    specialize (K i Hi).
    destruct (Z.ltb_spec (nth i b 0) (nth i a 0)); [destruct (Z.ltb_spec (nth i a 0) 0) | destruct (Z.ltb_spec (nth i b 0) 0)];
      destruct K as [K | (p & [<- | [<- | []]] & K)]; lia.
Qed.
Lemma point_free3_iff n gens a b c : isPointFreeBody3 n gens a b c = true <-> point_free n gens [a; b; c].
Proof.
  unfold isPointFreeBody3. eapply negb_iff; [apply isDominating_iff |]. unfold point_free. split.
  - intros H (g & Hg & K). apply (H g Hg). intros i Hi. specialize (K i Hi). rewrite entry_map_seq in K by exact Hi. cbv zeta in K. unfold entry in K.
    assert (U : nth i g 0 < 0 \/ nth i g 0 < nth i a 0 \/ nth i g 0 < nth i b 0 \/ nth i g 0 < nth i c 0).
    { destruct (Z.ltb_spec (nth i b 0) (nth i a 0)).
      - destruct (Z.ltb_spec (nth i c 0) (nth i a 0)).
        + destruct (Z.ltb_spec (nth i a 0) 0); lia.
        + destruct (Z.ltb_spec (nth i c 0) 0); lia.
      - destruct (Z.ltb_spec (nth i c 0) (nth i b 0)).
        + destruct (Z.ltb_spec (nth i b 0) 0); lia.
        + destruct (Z.ltb_spec (nth i c 0) 0); lia. }
    destruct U as [U | [U | [U | U]]]; [left; exact U | right; exists a | right; exists b | right; exists c]; (split; [cbn; tauto | exact U]).
  - intros H g Hg K. apply H. exists g. split; [exact Hg |]. intros i Hi. rewrite entry_map_seq by exact Hi. cbv zeta. unfold entry.
    specialize (K i Hi).
    assert (U : nth i g 0 < 0 \/ nth i g 0 < nth i a 0 \/ nth i g 0 < nth i b 0 \/ nth i g 0 < nth i c 0)
      by (destruct K as [K | (p & [<- | [<- | [<- | []]]] & K)]; tauto).
    destruct (Z.ltb_spec (nth i b 0) (nth i a 0)).
    + destruct (Z.ltb_spec (nth i c 0) (nth i a 0)).
      * destruct (Z.ltb_spec (nth i a 0) 0); lia.
      * destruct (Z.ltb_spec (nth i c 0) 0); lia.
    + destruct (Z.ltb_spec (nth i c 0) (nth i b 0)).
      * destruct (Z.ltb_spec (nth i b 0) 0); lia.
      * destruct (Z.ltb_spec (nth i c 0) 0); lia.
Qed.
Lemma interior_iff n gens a b : length a = n -> (isInterior n gens a b = true <-> interior n gens a b).
Proof.
  intros La. unfold isInterior, interior. rewrite <- point_free_iff.
  destruct (isPointFreeBody n gens a b); cbn [negb]; [| intuition congruence].
  rewrite forallb_forall. split.
  - intros H. split; [reflexivity |]. intros i Hi. specialize (H i ltac:(apply in_seq; lia)).
    apply negb_true_iff, andb_false_iff in H. unfold entry in H. rewrite !Z.leb_gt in H. exact H.
  - intros [_ H] i Hi. apply in_seq in Hi. apply negb_true_iff, andb_false_iff. unfold entry. rewrite !Z.leb_gt. apply H. lia.
Qed.
Lemma v_sum_is n a b : length a = n -> is_sum n a b (v_sum a b).
Proof.
  intros La. unfold v_sum. split; [rewrite map_length, seq_length; exact La |]. intros i Hi. rewrite <- La in Hi.
  exact (entry_map_seq (fun var => entry a var + entry b var) _ i Hi).
Qed.
Lemma is_sum_unique n a b s t : is_sum n a b s -> is_sum n a b t -> s = t.
Proof.
  intros [L1 H1] [L2 H2]. apply (nth_ext _ _ 0 0); [congruence |]. intros i Hi. rewrite H1, H2 by lia. reflexivity.
Qed.
Lemma vectors_nth n gens k : vectors n gens -> (k < length gens)%nat -> length (nth k gens []) = n.
Proof. intros V Hk. unfold vectors in V. rewrite Forall_forall in V. apply V, nth_In, Hk. Qed.
Lemma nth_error_nth_some {A} (l : list A) k d : (k < length l)%nat -> nth_error l k = Some (nth k l d).
Proof. intros H. apply nth_error_nth'. exact H. Qed.
Lemma interior_edge_iff n gens from to : vectors n gens -> (from < length gens)%nat -> (to < length gens)%nat ->
  (isInteriorEdge n gens from to = true <-> interior_edge n gens from to).
Proof.
  intros V Hf Ht. unfold isInteriorEdge.
  pose proof (vectors_nth n gens from V Hf) as La. pose proof (vectors_nth n gens to V Ht) as Lb.
  pose proof (nth_error_nth_some gens from [] Hf) as Ea. pose proof (nth_error_nth_some gens to [] Ht) as Eb.
  set (a := nth from gens []) in *. set (b := nth to gens []) in *.
  pose proof (interior_iff n gens a a La) as Ia. pose proof (interior_iff n gens b b Lb) as Ib.
  pose proof (interior_iff n gens b (v_sum a b) Lb) as Is.
  unfold interior_edge. split.
  - intros H. exists a, b, (v_sum a b).
    destruct (isInterior n gens a a); [discriminate |]. destruct (isInterior n gens b b); [discriminate |].
    repeat split; try assumption.
    + exact (proj1 (v_sum_is n a b La)).
    + exact (proj2 (v_sum_is n a b La)).
    + intros K. apply Ia in K. discriminate.
    + intros K. apply Ib in K. discriminate.
    + exact (proj1 (proj1 Is H)).
    + exact (proj2 (proj1 Is H)).
  - intros (a' & b' & s & E1 & E2 & Hs & H1 & H2 & H3).
    rewrite Ea in E1. rewrite Eb in E2. inversion E1; subst a'. inversion E2; subst b'.
    rewrite (is_sum_unique n a b s (v_sum a b) Hs (v_sum_is n a b La)) in H3.
    destruct (isInterior n gens a a); [destruct (H1 (proj1 Ia eq_refl)) |].
    destruct (isInterior n gens b b); [destruct (H2 (proj1 Ib eq_refl)) |]. apply Is, H3.
Qed.
Lemma terminating_edge_iff n gens from to : vectors n gens -> (from < length gens)%nat -> (to < length gens)%nat ->
  (isTerminatingEdge n gens from to = true <-> terminating_edge n gens from to).
Proof.
  intros V Hf Ht. unfold isTerminatingEdge, terminating_edge. rewrite <- interior_edge_iff by assumption.
  destruct (isInteriorEdge n gens from to); cbn [negb]; [| intuition congruence]. cbv zeta. rewrite point_free_iff.
  pose proof (nth_error_nth_some gens from [] Hf) as Ea. pose proof (nth_error_nth_some gens to [] Ht) as Eb.
  pose proof (v_sum_is n (nth from gens []) (nth to gens []) (vectors_nth n gens from V Hf)) as Hs. split.
  - intros H. split; [reflexivity |]. intros a b s E1 E2 E3. rewrite Ea in E1. rewrite Eb in E2. inversion E1; subst a. inversion E2; subst b.
    rewrite (is_sum_unique _ _ _ _ _ E3 Hs). exact H.
  - intros [_ H]. exact (H _ _ _ Ea Eb Hs).
Qed.
Lemma zero_entry_iff n gens : hasZeroEntry n gens = true <-> zero_entry n gens.
Proof.
  unfold hasZeroEntry, zero_entry. rewrite existsb_exists. split.
  - intros (g & Hg & H). apply existsb_exists in H. destruct H as (i & Hi & H). apply in_seq in Hi. exists g, i. repeat split; [exact Hg | lia |].
    apply Z.eqb_eq in H. exact H.
  - intros (g & i & Hg & Hi & H). exists g. split; [exact Hg |]. apply existsb_exists. exists i. split; [apply in_seq; lia |]. apply Z.eqb_eq, H.
Qed.

(** The search for cycles *)
Section Search.
Variable edge : nat -> nat -> bool.
Variable count : nat.
Definition R (x y : nat) : Prop := (x < count)%nat /\ (y < count)%nat /\ edge x y = true.
Definition col (color : list nat) (x : nat) : nat := nth x color 0%nat.
Definition whites (color : list nat) : nat := length (filter (fun c => (c =? 0)%nat) color).

Lemma paint_length color g c : (g < length color)%nat -> length (paint color g c) = length color.
Proof. intros H. unfold paint. rewrite app_length, firstn_length. cbn [length]. rewrite skipn_length. lia. Qed.
Lemma paint_same color g c : (g < length color)%nat -> col (paint color g c) g = c.
Proof.
  intros H. unfold col, paint. rewrite app_nth2 by (rewrite firstn_length; lia). rewrite firstn_length.
  replace (g - Nat.min g (length color))%nat with 0%nat by lia. reflexivity.
Qed.
Lemma paint_other color g c x : (g < length color)%nat -> x <> g -> col (paint color g c) x = col color x.
Proof.
  intros H N. unfold col, paint.
  assert (E : color = firstn g color ++ nth g color 0%nat :: skipn (S g) color).
  { clear N. revert g H. induction color as [| y l IH]; intros g H; [cbn in H; lia |]. destruct g as [| g]; [reflexivity |].
    cbn [firstn app nth skipn]. f_equal. apply IH. cbn in H. lia. }
  rewrite E at 3. destruct (lt_dec x g) as [Lt | Ge].
  - rewrite !app_nth1 by (rewrite firstn_length; lia). reflexivity.
  - rewrite !app_nth2 by (rewrite firstn_length; lia). rewrite firstn_length.
    replace (x - Nat.min g (length color))%nat with (S (x - g - 1)) by lia. reflexivity.
Qed.
Lemma whites_split color g c : (g < length color)%nat -> (whites (paint color g c) + (if (col color g =? 0)%nat then 1 else 0) = whites color + (if (c =? 0)%nat then 1 else 0))%nat.
Proof.
  intros H. unfold whites, paint, col. revert g H. induction color as [| y l IH]; intros g H; [cbn in H; lia |]. destruct g as [| g].
  - cbn [firstn app skipn nth filter]. destruct (c =? 0)%nat, (y =? 0)%nat; cbn [length]; lia.
  - cbn [firstn app nth filter]. change (skipn (S (S g)) (y :: l)) with (skipn (S g) l). specialize (IH g ltac:(cbn in H; lia)).
    destruct (y =? 0)%nat; cbn [length]; lia.
Qed.

Lemma reaches_app x y z : reaches R x y -> reaches R y z -> reaches R x z.
Proof. intros H. induction H; intros K; [exact (reach_more R _ _ _ H K) | exact (reach_more R _ _ _ H (IHreaches K))]. Qed.
Lemma reaches_lt x y : reaches R x y -> (x < count)%nat.
Proof. intros H. destruct H as [x y [H _] | x y z [H _] _]; exact H. Qed.

Definition blackOk (color : list nat) : Prop :=
  (forall x y, col color x = 2%nat -> R x y -> col color y = 2%nat) /\ (forall x, col color x = 2%nat -> ~ reaches R x x).
Definition fine (color : list nat) : Prop := length color = count /\ blackOk color.
Definition kept (color color' : list nat) : Prop :=
  (forall x, col color' x = 1%nat <-> col color x = 1%nat) /\ (forall x, col color x = 2%nat -> col color' x = 2%nat) /\ (whites color' <= whites color)%nat.
Lemma kept_trans a b c : kept a b -> kept b c -> kept a c.
Proof. intros (H1 & H2 & H3) (K1 & K2 & K3). split; [intros x; rewrite K1; apply H1 |]. split; [intros x H; apply K2, H2, H | lia]. Qed.
Lemma kept_refl a : kept a a.
Proof. split; [tauto |]. split; [tauto | lia]. Qed.
Lemma black_reach color x y : blackOk color -> col color x = 2%nat -> reaches R x y -> col color y = 2%nat.
Proof. intros [H _] E K. induction K as [x y K | x y z K K' IH]; [exact (H x y E K) | apply IH; exact (H x y E K)]. Qed.

Definition result (gen : nat) (color : list nat) (r : option (bool * list nat)) : Prop :=
  exists b color', r = Some (b, color') /\
    if b then cyclic R else fine color' /\ kept color color' /\ col color' gen = 2%nat.

Lemma search_right fuel : forall gen color, (gen < count)%nat -> fine color -> (whites color < fuel)%nat ->
  (forall x, col color x = 1%nat -> reaches R x gen) -> (forall x, (x < count)%nat -> (col color x <= 2)%nat) ->
  result gen color (hasCycle fuel edge count gen color) /\
  (forall b color', hasCycle fuel edge count gen color = Some (b, color') -> b = false -> forall x, (x < count)%nat -> (col color' x <= 2)%nat).
Proof.
  induction fuel as [| fuel IH]; intros gen color Hg [L B] W G T; [lia |]. cbn [hasCycle].
  fold (col color gen). destruct (Nat.eqb_spec (col color gen) 1) as [E1 | N1].
  { split; [| intros b color' H; inversion H; congruence]. exists true, color. split; [reflexivity |]. exists gen. exact (G gen E1). }
  destruct (Nat.eqb_spec (col color gen) 2) as [E2 | N2].
  { split; [| intros b color' H _; inversion H; subst; exact T]. exists false, color. split; [reflexivity |]. split; [split; assumption |]. split; [apply kept_refl | exact E2]. }
  assert (E0 : col color gen = 0%nat) by (specialize (T gen Hg); lia).
  pose proof (whites_split color gen 1 ltac:(lia)) as WS. rewrite E0 in WS. cbn [Nat.eqb] in WS.
  set (c0 := paint color gen 1) in *.
  assert (Lc0 : length c0 = count) by (unfold c0; rewrite paint_length; lia).
  assert (S0 : col c0 gen = 1%nat) by (apply paint_same; lia).
  assert (O0 : forall x, x <> gen -> col c0 x = col color x) by (intros x Hx; apply paint_other; [lia | exact Hx]).
  assert (B0 : blackOk c0).
  { destruct B as [Bc Ba]. split.
    - intros x y Hx Hr. assert (x <> gen) by congruence. rewrite O0 in Hx by assumption. pose proof (Bc x y Hx Hr) as Hy.
      assert (y <> gen) by congruence. rewrite O0; assumption.
    - intros x Hx. assert (x <> gen) by congruence. rewrite O0 in Hx by assumption. exact (Ba x Hx). }
  assert (T0 : forall x, (x < count)%nat -> (col c0 x <= 2)%nat).
  { intros x Hx. destruct (Nat.eq_dec x gen) as [-> | N]; [lia | rewrite O0 by exact N; exact (T x Hx)]. }
  set (loop := fix loop (gs : list nat) (color : list nat) {struct gs} : option (bool * list nat) :=
        match gs with
        | [] => Some (false, paint color gen 2)
        | g :: gs' =>
            if edge gen g then
              match hasCycle fuel edge count g color with
              | None => None
              | Some (true, color) => Some (true, color)
              | Some (false, color) => loop gs' color
              end
            else loop gs' color
        end).
  assert (Loop : forall gs c, Forall (fun g => (g < count)%nat) gs -> fine c -> kept c0 c -> (forall x, (x < count)%nat -> (col c x <= 2)%nat) ->
     (forall y, R gen y -> ~ In y gs -> col c y = 2%nat) ->
     result gen color (loop gs c) /\ (forall b color', loop gs c = Some (b, color') -> b = false -> forall x, (x < count)%nat -> (col color' x <= 2)%nat)).
  { induction gs as [| g gs IHg]; intros c Hgs [Lc Bc] Kc Tc Done.
    - cbn [loop]. destruct Kc as (Kg & Kb & Kw). pose proof (proj2 (Kg gen) S0) as Sg.
      assert (Sg2 : col (paint c gen 2) gen = 2%nat) by (apply paint_same; lia).
      assert (Og2 : forall x, x <> gen -> col (paint c gen 2) x = col c x) by (intros x Hx; apply paint_other; [lia | exact Hx]).
      split.
      + exists false, (paint c gen 2). split; [reflexivity |]. split; [split; [rewrite paint_length; lia |] |].
        * destruct Bc as [Bc1 Bc2]. split.
          -- intros x y Hx Hr.
             assert (Hy : col c y = 2%nat).
             { destruct (Nat.eq_dec x gen) as [-> | N]; [apply Done; [exact Hr | intros []] | rewrite Og2 in Hx by exact N; exact (Bc1 x y Hx Hr)]. }
             assert (y <> gen) by congruence. rewrite Og2; assumption.
          -- intros x Hx Hr. destruct (Nat.eq_dec x gen) as [-> | N].
             ++ inversion Hr as [x' y' Hr1 | x' y' z' Hr1 Hr2]; subst.
                ** pose proof (Done gen Hr1 (fun f => f)) as D. congruence.
                ** pose proof (Done y' Hr1 (fun f => f)) as D.
                   pose proof (black_reach c y' gen (conj Bc1 Bc2) D Hr2) as D2. congruence.
             ++ rewrite Og2 in Hx by exact N. exact (Bc2 x Hx Hr).
        * split; [| exact Sg2]. split; [| split].
          -- intros x. destruct (Nat.eq_dec x gen) as [-> | N]; [rewrite Sg2, E0; split; discriminate |].
             rewrite Og2 by exact N. rewrite Kg. rewrite O0 by exact N. tauto.
          -- intros x Hx. assert (x <> gen) by congruence. rewrite Og2 by assumption. apply Kb. rewrite O0 by assumption. exact Hx.
          -- pose proof (whites_split c gen 2 ltac:(lia)) as WS2. rewrite Sg in WS2. cbn [Nat.eqb] in WS2. lia.
      + intros b color' H _ x Hx. inversion H. destruct (Nat.eq_dec x gen) as [-> | N]; [lia | rewrite Og2 by exact N; exact (Tc x Hx)].
    - inversion Hgs as [| g' gs' Hg1 Hgs1]; subst g' gs'. cbn [loop]. destruct (edge gen g) eqn:Ee.
      + assert (Rg : R gen g) by (split; [exact Hg | split; [exact Hg1 | exact Ee]]).
        destruct (IH g c Hg1 (conj Lc Bc) ltac:(destruct Kc as (_ & _ & Kw); lia)) as [(b & c' & E & Hr) T1].
        { intros x Hx. destruct Kc as (Kg & _). apply Kg in Hx. destruct (Nat.eq_dec x gen) as [-> | N]; [apply reach_step, Rg |].
          rewrite O0 in Hx by exact N. exact (reaches_app _ _ _ (G x Hx) (reach_step R _ _ Rg)). }
        { exact Tc. }
        rewrite E. destruct b.
        * split; [exists true, c'; split; [reflexivity | exact Hr] | intros b color' H; inversion H; congruence].
        * destruct Hr as (F & K & Hc). apply IHg; [exact Hgs1 | exact F | exact (kept_trans _ _ _ Kc K) | exact (T1 _ _ E eq_refl) |].
          intros y Hy Nin. destruct (Nat.eq_dec y g) as [-> | N]; [exact Hc |]. apply (proj1 (proj2 K)), Done; [exact Hy |].
          intros [<- | Hin]; [congruence | exact (Nin Hin)].
      + apply IHg; [exact Hgs1 | split; assumption | exact Kc | exact Tc |]. intros y Hy Nin. apply Done; [exact Hy |].
        intros [<- | Hin]; [destruct Hy as (_ & _ & Hy); congruence | exact (Nin Hin)]. }
  apply Loop; [| split; assumption | apply kept_refl | exact T0 |].
  - apply Forall_forall. intros x Hx. apply in_seq in Hx. lia.
  - intros y (_ & Hy & _) Nin. destruct Nin. apply in_seq. lia.
Qed.

Lemma whites_le color : (whites color <= length color)%nat.
Proof. unfold whites. induction color as [| y l IH]; [cbn; lia |]. cbn [filter]. destruct (y =? 0)%nat; cbn [length]; lia. Qed.
Lemma cycle_loop_right gs : forall color, Forall (fun g => (g < count)%nat) gs -> fine color -> (forall x, (x < count)%nat -> (col color x <= 2)%nat) ->
  (forall x, col color x <> 1%nat) -> (forall x, (x < count)%nat -> ~ In x gs -> col color x = 2%nat) ->
  exists b, cycle_loop (S count) edge count gs color = Some b /\ (b = true <-> cyclic R).
Proof.
  induction gs as [| g gs IH]; intros color Hgs F T G D.
  - exists false. split; [reflexivity |]. split; [discriminate |]. intros (x & Hx). destruct F as [L [_ B]].
    destruct (B x (D x (reaches_lt x x Hx) (fun f => f)) Hx).
  - inversion Hgs as [| g' gs' Hg Hgs']; subst. cbn [cycle_loop].
    destruct (search_right (S count) g color Hg F) as [(b & c & E & Hr) T1].
    + destruct F as [L _]. pose proof (whites_le color). lia.
    + intros x Hx. destruct (G x Hx).
    + exact T.
    + rewrite E. destruct b; [exists true; split; [reflexivity | split; auto] |].
      destruct Hr as (F' & (K1 & K2 & K3) & Hc). apply IH; [exact Hgs' | exact F' | exact (T1 _ _ E eq_refl) | |].
      * intros x Hx. apply K1 in Hx. exact (G x Hx).
      * intros x Hx Nin. destruct (Nat.eq_dec x g) as [-> | N]; [exact Hc |]. apply K2, D; [exact Hx |]. intros [<- | Hin]; [congruence | exact (Nin Hin)].
Qed.
Lemma repeat0 k x : col (repeat 0%nat k) x = 0%nat.
Proof. unfold col. revert x. induction k as [| k IH]; intros [| x]; cbn; auto. Qed.
Lemma cycles_found : exists b, cycle_loop (S count) edge count (seq 0 count) (repeat 0%nat count) = Some b /\ (b = true <-> cyclic R).
Proof.
  apply cycle_loop_right.
  - apply Forall_forall. intros x Hx. apply in_seq in Hx. lia.
  - split; [apply repeat_length |]. split; intros x; rewrite repeat0; discriminate.
  - intros x _. rewrite repeat0. lia.
  - intros x. rewrite repeat0. discriminate.
  - intros x Hx Nin. destruct Nin. apply in_seq. lia.
Qed.
End Search.
