(** The task engine runs each task once, last in first out, and computes what the recursion computes. *)
From Coq Require Import List Arith Bool Lia Permutation.
Import ListNotations.
From Verif Require Import Spec Spec_Slice Spec_Run M_Term M_Ideal M_Slice M_Partition M_Msm M_Tasks P_Term P_Ideal P_Msm1 P_Msm2 P_Msm3 P_Process P_Run.

(** ** The generic engine *)
Section EngineProofs.
Variables T St : Type.
Variable run : T -> St -> option (St * list T).

Lemma added_app : forall a b, added_ids (a ++ b) = added_ids a ++ added_ids b.
Proof. intros; apply flat_map_app. Qed.
Lemma ran_app : forall a b, ran_ids (a ++ b) = ran_ids a ++ ran_ids b.
Proof. intros; apply flat_map_app. Qed.
Lemma added_map : forall l, added_ids (map Added l) = l.
Proof. induction l; simpl; auto. f_equal; auto. Qed.
Lemma ran_map : forall l, ran_ids (map Added l) = [].
Proof. induction l; simpl; auto. Qed.
Lemma in_added : forall i log, In i (added_ids log) <-> In (Added i) log.
Proof.
  intros i log. unfold added_ids. rewrite in_flat_map. split.
  - intros [[j|j] [H1 H2]]; simpl in H2; [destruct H2 as [->|[]]; auto|contradiction].
  - intros H. exists (Added i). split; auto. left; auto.
Qed.
Lemma in_ran : forall i log, In i (ran_ids log) <-> In (Ran i) log.
Proof.
  intros i log. unfold ran_ids. rewrite in_flat_map. split.
  - intros [[j|j] [H1 H2]]; simpl in H2; [contradiction|destruct H2 as [->|[]]; auto].
  - intros H. exists (Ran i). split; auto. left; auto.
Qed.

Lemma add_tasks_ids : forall ts (stack : list (nat * T)) next,
  map fst (add_tasks stack next ts) = rev (seq next (length ts)) ++ map fst stack.
Proof.
  induction ts as [|t ts IH]; intros stack next; auto. simpl. rewrite IH. simpl. rewrite <- app_assoc. auto.
Qed.

(** Invariant: the stack is strictly descending, and what was added is what ran plus the stack. *)
Record einv (stack : list nat) (next : nat) (log : list event) : Prop := {
  ei_added : added_ids log = seq 0 next;
  ei_perm : Permutation (seq 0 next) (ran_ids log ++ stack);
  ei_desc : forall a b c, stack = a ++ b :: c -> forall j, In j c -> j < b;
  ei_lifo : lifo log
}.

Lemma desc_rev_seq : forall k next stack, (forall j, In j stack -> j < next) ->
  (forall a b c, stack = a ++ b :: c -> forall j, In j c -> j < b) ->
  forall a b c, rev (seq next k) ++ stack = a ++ b :: c -> forall j, In j c -> j < b.
Proof.
  induction k as [|k IH]; intros next stack H1 H2 a b c E j Hj.
  - simpl in E. eapply H2; eauto.
  - change (S k) with (1 + k) in E. change (1 + k) with (S k) in E. rewrite seq_S in E.
    rewrite rev_app_distr in E. simpl in E. destruct a as [|a0 a]; simpl in E; injection E as E1 E2.
    + subst b c. apply in_app_or in Hj. destruct Hj as [Hj|Hj].
      * apply in_rev in Hj. apply in_seq in Hj. lia.
      * apply H1 in Hj. lia.
    + eapply IH; eauto.
Qed.

Lemma einv_step : forall id stack next log k, einv (id :: stack) next log ->
  einv (rev (seq next k) ++ stack) (next + k) (log ++ Ran id :: map Added (seq next k)).
Proof.
  intros id stack next log k [A P D L].
  assert (Hin : forall j, In j (id :: stack) -> j < next).
  { intros j Hj. assert (In j (seq 0 next)); [|apply in_seq in H; lia].
    eapply Permutation_in; [apply Permutation_sym; exact P|]. apply in_or_app. right; auto. }
  constructor.
  - rewrite added_app. cbn. fold (added_ids (map Added (seq next k))). rewrite added_map, A. symmetry. apply seq_app.
  - rewrite ran_app. cbn. fold (ran_ids (map Added (seq next k))). rewrite ran_map.
    rewrite seq_app. rewrite <- app_assoc. simpl.
    apply Permutation_trans with (seq next k ++ ran_ids log ++ id :: stack).
    + eapply Permutation_trans; [apply Permutation_app_comm|]. apply Permutation_app_head. auto.
    + apply Permutation_trans with (rev (seq next k) ++ ran_ids log ++ id :: stack).
      * apply Permutation_app_tail. apply Permutation_rev.
      * rewrite !app_assoc. eapply Permutation_trans; [apply Permutation_app_tail; apply Permutation_app_comm|].
        rewrite <- !app_assoc. apply Permutation_app_head. simpl. apply Permutation_sym, Permutation_middle.
  - apply desc_rev_seq.
    + intros j Hj. apply Hin. right; auto.
    + intros a b c E. apply (D (id :: a) b c). simpl. f_equal. auto.
  - intros l i l' E.
    assert (Hcase : (exists m, log = l ++ Ran i :: m) \/ (l = log /\ i = id)).
    { destruct (Nat.lt_trichotomy (length l) (length log)) as [Hl|[Hl|Hl]].
      - left. assert (E' : firstn (length log) (log ++ Ran id :: map Added (seq next k)) = firstn (length log) (l ++ Ran i :: l')) by (rewrite E; auto).
        rewrite firstn_app, Nat.sub_diag, firstn_all, firstn_O, app_nil_r in E'.
        rewrite firstn_app in E'. rewrite firstn_all2 in E' by lia.
        destruct (length log - length l) as [|d] eqn:Ed; [lia|]. simpl in E'. eexists. exact E'.
      - right. assert (E1 : forall (x y : list event) a b c d, x ++ a :: b = y ++ c :: d -> length x = length y -> x = y /\ a = c).
        { clear. induction x as [|x0 x IH]; intros [|y0 y] a b c d E HL; simpl in *; try lia.
          - injection E; auto.
          - injection E as -> E. destruct (IH y a b c d E) as [-> ->]; auto. }
        destruct (E1 _ _ _ _ _ _ E) as [E2 E3]; auto. injection E3; auto.
      - exfalso. assert (H : In (Ran i) (map Added (seq next k))).
        { assert (E' : skipn (S (length log)) (log ++ Ran id :: map Added (seq next k)) = skipn (S (length log)) (l ++ Ran i :: l')) by (rewrite E; auto).
          set (R := skipn (S (length log)) (l ++ Ran i :: l')) in *.
          rewrite skipn_app in E'. rewrite skipn_all2 in E' by lia.
          replace (S (length log) - length log) with 1 in E' by lia. simpl in E'. rewrite E'. unfold R.
          rewrite skipn_app. replace (S (length log) - length l) with 0 by lia. apply in_or_app. right. left; auto. }
        apply in_map_iff in H. destruct H as [x [Hx _]]. discriminate. }
    destruct Hcase as [[m Hm]|[-> ->]].
    + eapply L; eauto.
    + assert (Hnd : NoDup (ran_ids log ++ id :: stack)).
      { eapply Permutation_NoDup; [exact P|]. apply seq_NoDup. }
      split; [|split].
      * apply in_added. rewrite A. apply in_seq. specialize (Hin id (or_introl eq_refl)). lia.
      * intros H. apply in_ran in H. apply NoDup_remove_2 in Hnd. apply Hnd. apply in_or_app. auto.
      * intros j H1 H2. apply in_added in H1. rewrite A in H1.
        assert (H3 : In j (ran_ids log ++ id :: stack)) by (eapply Permutation_in; eauto).
        apply in_app_or in H3. destruct H3 as [H3|[->|H3]]; [exfalso; apply H2; apply in_ran; auto|auto|].
        apply Nat.lt_le_incl. eapply (D [] id stack); eauto.
Qed.

Lemma engine_inv : forall fuel st stack next log st' next' log',
  engine run fuel st stack next log = Some (st', next', log') ->
  einv (map fst stack) next log ->
  einv [] next' log'.
Proof.
  induction fuel as [|fuel IH]; intros st stack next log st' next' log' E Hi.
  - destruct stack as [|[id t] stack]; simpl in E; [|discriminate]. injection E as -> -> ->. exact Hi.
  - destruct stack as [|[id t] stack]; simpl in E.
    + injection E as -> -> ->. exact Hi.
    + destruct (run t st) as [[st1 ts]|]; [|discriminate]. eapply IH; [exact E|].
      rewrite add_tasks_ids. apply einv_step. exact Hi.
Qed.

Lemma engine_once : forall fuel st ts st' total log,
  run_engine run fuel st ts = Some (st', total, log) ->
  added_ids log = seq 0 total /\ Permutation (ran_ids log) (seq 0 total) /\ lifo log.
Proof.
  intros fuel st ts st' total log E. unfold run_engine in E.
  assert (Hi : einv (map fst (add_tasks (@nil (nat * T)) 0 ts)) (length ts) (map Added (seq 0 (length ts)))).
  { rewrite add_tasks_ids. simpl. rewrite app_nil_r. constructor.
    - apply added_map.
    - rewrite ran_map. simpl. apply Permutation_rev.
    - intros a b c E1. rewrite <- (app_nil_r (rev _)) in E1. eapply desc_rev_seq; [| |exact E1].
      + intros j [].
      + intros a' b' c' E2. destruct a'; discriminate.
    - intros l i l' E1. exfalso. assert (H : In (Ran i) (map Added (seq 0 (length ts)))) by (rewrite E1; apply in_or_app; right; left; auto).
      apply in_map_iff in H. destruct H as [x [Hx _]]. discriminate. }
  destruct (engine_inv _ _ _ _ _ _ _ _ E Hi) as [A P _ L]. split; auto. split; auto.
  rewrite app_nil_r in P. apply Permutation_sym. auto.
Qed.

Lemma engine_more : forall fuel fuel' st stack next log r, fuel <= fuel' ->
  engine run fuel st stack next log = Some r -> engine run fuel' st stack next log = Some r.
Proof.
  induction fuel as [|fuel IH]; intros fuel' st stack next log r Hle E.
  - destruct stack as [|[id t] stack]; simpl in E; [|discriminate]. destruct fuel'; auto.
  - destruct stack as [|[id t] stack].
    + simpl in E. destruct fuel'; auto.
    + destruct fuel' as [|fuel']; [lia|]. simpl in *. destruct (run t st) as [[st1 ts]|]; [|discriminate].
      apply IH; auto. lia.
Qed.
End EngineProofs.

(** ** Heap *)
Lemma h_set_length : forall h id o, length (h_set h id o) = length h.
Proof. induction h as [|x h IH]; intros [|id] o; simpl; auto. Qed.
Lemma h_set_app : forall h g id o, id < length h -> h_set (h ++ g) id o = h_set h id o ++ g.
Proof.
  induction h as [|x h IH]; intros g [|id] o H; simpl in *; try lia; auto. f_equal. apply IH. lia.
Qed.
Lemma h_get_app : forall h g id, id < length h -> h_get (h ++ g) id = h_get h id.
Proof. intros h g id H. unfold h_get. rewrite nth_error_app1; auto. Qed.
Lemma h_get_lt : forall h id o, h_get h id = Some o -> id < length h.
Proof.
  intros h id o H. unfold h_get in H. destruct (nth_error h id) eqn:E; [|discriminate].
  apply nth_error_Some. congruence.
Qed.
Lemma h_get_set : forall h id o id', h_get h id <> None ->
  h_get (h_set h id (Some o)) id' = if id' =? id then Some o else h_get h id'.
Proof.
  intros h id o id' H. unfold h_get in *. revert h id' H. induction id as [|id IH]; intros [|x h] [|id'] H; simpl in *; try congruence; auto.
Qed.
Lemma h_set_set : forall h id a b, h_set (h_set h id a) id b = h_set h id b.
Proof. induction h as [|x h IH]; intros [|id] a b; simpl; auto. f_equal; auto. Qed.
Lemma h_get_last : forall h o, h_get (h ++ [Some o]) (length h) = Some o.
Proof. intros h o. unfold h_get. rewrite nth_error_app2, Nat.sub_diag; auto. Qed.
Lemma h_set_last : forall h x o, h_set (h ++ [x]) (length h) o = h ++ [o].
Proof. induction h as [|y h IH]; intros x o; simpl; auto. f_equal; auto. Qed.

(** Consumer [c] only involves live objects below [b], each created after its own parent. *)
Inductive chain (h : heap) : nat -> consumer -> Prop :=
| ch_root : forall b, chain h b CRoot
| ch_right : forall b id o, id < b -> h_get h id = Some o -> chain h b (CRight id)
| ch_left : forall b id o, id < b -> h_get h id = Some o -> chain h id (so_parent o) -> chain h b (CLeft id).

(** Same objects alive, same parents. *)
Definition same_shape (h h' : heap) : Prop :=
  length h' = length h /\
  forall id, match h_get h id, h_get h' id with
             | Some o, Some o' => so_parent o' = so_parent o
             | None, None => True
             | _, _ => False
             end.

Lemma shape_refl : forall h, same_shape h h.
Proof. intros h. split; auto. intros id. destruct (h_get h id); auto. Qed.
Lemma shape_trans : forall a b c, same_shape a b -> same_shape b c -> same_shape a c.
Proof.
  intros a b c [L1 H1] [L2 H2]. split; [congruence|]. intros id. specialize (H1 id). specialize (H2 id).
  destruct (h_get a id), (h_get b id), (h_get c id); try tauto. congruence.
Qed.
Lemma shape_set : forall h id o o', h_get h id = Some o -> so_parent o' = so_parent o ->
  same_shape h (h_set h id (Some o')).
Proof.
  intros h id o o' H E. split; [apply h_set_length|]. intros id'. rewrite h_get_set by congruence.
  destruct (Nat.eqb_spec id' id) as [->|]; [rewrite H; auto|]. destruct (h_get h id'); auto.
Qed.
Lemma chain_shape : forall h h' b c, same_shape h h' -> chain h b c -> chain h' b c.
Proof.
  intros h h' b c Hs H. induction H.
  - constructor.
  - destruct Hs as [_ Hs]. specialize (Hs id). rewrite H0 in Hs. destruct (h_get h' id) eqn:E; [|contradiction].
    econstructor; eauto.
  - pose proof (proj2 Hs id) as Hs'. rewrite H0 in Hs'. destruct (h_get h' id) eqn:E; [|contradiction].
    econstructor; eauto. rewrite Hs'. auto.
Qed.
Lemma chain_le : forall h b b' c, b <= b' -> chain h b c -> chain h b' c.
Proof. intros h b b' c Hb H. inversion H; subst; econstructor; eauto; lia. Qed.
Lemma chain_app : forall h g b c, chain h b c -> chain (h ++ g) b c.
Proof.
  intros h g b c H. induction H.
  - constructor.
  - econstructor; eauto. rewrite h_get_app; eauto. eapply h_get_lt; eauto.
  - econstructor; eauto. rewrite h_get_app; eauto. eapply h_get_lt; eauto.
Qed.

(** Consuming a term: succeeds, keeps the shape, touches nothing at or above [b], and does not
    look at what was allocated later. *)
Definition cons_ok (b : nat) (emit : heap -> list term -> term -> option (heap * list term))
  (h : heap) (out : list term) (t : term) (h' : heap) (out' : list term) : Prop :=
  same_shape h h' /\ (forall id, b <= id -> h_get h' id = h_get h id) /\
  forall g, emit (h ++ g) out t = Some (h' ++ g, out').

Lemma right_loop_ok : forall id par f ys h out o,
  h_get h id = Some o -> so_parent o = par ->
  (forall h2 out t, same_shape h h2 -> exists h' out',
     same_shape h2 h' /\ (forall i, id <= i -> h_get h' i = h_get h2 i) /\
     forall g, consume f par (h2 ++ g) out t = Some (h' ++ g, out')) ->
  exists h' out', same_shape h h' /\ (forall i, id < i -> h_get h' i = h_get h i) /\
    forall g, right_loop (consume f par) id ys (h ++ g) out = Some (h' ++ g, out').
Proof.
  intros id par f. induction ys as [|y ys IH]; intros h out o Ho Hp He.
  - exists h, out. split; [apply shape_refl|]. split; auto.
  - cbn [right_loop]. set (tmp := proj_inverse (so_n o) (so_right o) (so_tmp o) y).
    set (o1 := so_setTmp o tmp). set (h1 := h_set h id (Some o1)).
    assert (S1 : same_shape h h1) by (apply shape_set with o; auto).
    destruct (He h1 out tmp S1) as [h2 [out2 [S2 [K2 E2]]]].
    assert (Ho1 : h_get h1 id = Some o1) by (unfold h1; rewrite h_get_set by congruence; rewrite Nat.eqb_refl; auto).
    destruct (IH h2 out2 o1) as [h3 [out3 [S3 [K3 E3]]]].
    + rewrite K2 by lia. auto.
    + auto.
    + intros h4 out4 t S4. apply He. eapply shape_trans; [exact S1|]. eapply shape_trans; eauto.
    + exists h3, out3. split; [eapply shape_trans; [exact S1|eapply shape_trans; eauto]|]. split.
      * intros i Hi. rewrite K3 by auto. rewrite K2 by lia. unfold h1. rewrite h_get_set by congruence.
        destruct (Nat.eqb_spec i id); [lia|auto].
      * intros g. rewrite h_get_app by (eapply h_get_lt; eauto). rewrite Ho.
        rewrite h_set_app by (eapply h_get_lt; eauto). fold tmp. fold o1. fold h1. rewrite E2. apply E3.
Qed.

Lemma consume_ok : forall b c h out t, chain h b c ->
  exists h' out', same_shape h h' /\ (forall id, b <= id -> h_get h' id = h_get h id) /\
    forall f g, b < f -> consume f c (h ++ g) out t = Some (h' ++ g, out').
Proof.
  induction b as [b IH] using lt_wf_ind. intros c h out t Hc. inversion Hc; subst.
  - exists h, (out ++ [t]). split; [apply shape_refl|]. split; auto. intros f g Hf. destruct f; [lia|auto].
  - exists (h_set h id (Some (so_addDecom o t))), out. split; [apply shape_set with o; auto|]. split.
    + intros i Hi. rewrite h_get_set by congruence. destruct (Nat.eqb_spec i id); [lia|auto].
    + intros f g Hf. destruct f; [lia|]. simpl. rewrite h_get_app by (eapply h_get_lt; eauto). rewrite H0.
      rewrite h_set_app by (eapply h_get_lt; eauto). auto.
  - set (o1 := so_setTmp o (proj_inverse (so_n o) (so_left o) (so_tmp o) t)).
    set (h1 := h_set h id (Some o1)).
    assert (S1 : same_shape h h1) by (apply shape_set with o; auto).
    assert (Ho1 : h_get h1 id = Some o1) by (unfold h1; rewrite h_get_set by congruence; rewrite Nat.eqb_refl; auto).
    assert (Hone : forall f, id < f -> exists h' out', same_shape h1 h' /\ (forall i, id < i -> h_get h' i = h_get h1 i) /\
      forall g, right_loop (consume f (so_parent o)) id (so_decom o) (h1 ++ g) out = Some (h' ++ g, out')).
    { intros f Hf. apply right_loop_ok with (o := o1); auto. intros h2 out2 t2 S2.
      destruct (IH id H (so_parent o) h2 out2 t2) as [h' [out' [A [B C]]]].
      - apply chain_shape with h; auto. eapply shape_trans; eauto.
      - exists h', out'. split; auto. }
    (* the result does not depend on the fuel *)
    assert (Hind : forall f f' ys hh oo, id < f -> id < f' -> chain hh id (so_parent o) -> id < length hh ->
        right_loop (consume f (so_parent o)) id ys hh oo = right_loop (consume f' (so_parent o)) id ys hh oo).
    { intros f f' ys. induction ys as [|y ys IHy]; intros hh oo Hf Hf' Hch Hl; auto. cbn [right_loop].
      destruct (h_get hh id) as [ox|] eqn:Eg; auto. set (tmp := proj_inverse _ _ _ _).
      set (hx := h_set hh id _).
      assert (Hchx : chain hx id (so_parent o)).
      { apply chain_shape with hh; auto. apply shape_set with ox; auto. }
      destruct (IH id H (so_parent o) hx oo tmp Hchx) as [h' [out' [A [B C]]]].
      pose proof (C f [] Hf) as C1. pose proof (C f' [] Hf') as C2. rewrite !app_nil_r in C1, C2. rewrite C1, C2.
      apply IHy; auto.
      - apply chain_shape with hx; auto.
      - destruct A as [A _]. rewrite A. unfold hx. rewrite h_set_length. auto. }
    destruct (Hone (S id) (Nat.lt_succ_diag_r id)) as [h' [out' [A [B C]]]].
    exists h', out'. split; [eapply shape_trans; eauto|]. split.
    + intros i Hi. rewrite B by lia. unfold h1. rewrite h_get_set by congruence. destruct (Nat.eqb_spec i id); [lia|auto].
    + intros f g Hf. destruct f; [lia|]. simpl. rewrite h_get_app by (eapply h_get_lt; eauto). rewrite H0.
      rewrite h_set_app by (eapply h_get_lt; eauto). fold o1. fold h1.
      rewrite (Hind f (S id)); [apply C|lia|lia| |].
      * apply chain_app. apply chain_shape with h; auto.
      * rewrite app_length. unfold h1. rewrite h_set_length. apply h_get_lt in H0. lia.
Qed.

Lemma consume_all_ok : forall c ts h out, chain h (length h) c ->
  exists h' out', same_shape h h' /\ forall g, consume_all c (h ++ g) out ts = Some (h' ++ g, out').
Proof.
  intros c. induction ts as [|t ts IH]; intros h out Hc.
  - exists h, out. split; [apply shape_refl|auto].
  - destruct (consume_ok (length h) c h out t Hc) as [h1 [out1 [S1 [K1 E1]]]].
    destruct (IH h1 out1) as [h2 [out2 [S2 E2]]].
    { rewrite (proj1 S1). apply chain_shape with h; auto. }
    exists h2, out2. split; [eapply shape_trans; eauto|]. intros g. cbn [consume_all].
    rewrite E1 by (rewrite app_length; lia). apply E2.
Qed.

Lemma consume_all_app : forall c ts us h out, consume_all c h out (ts ++ us) =
  match consume_all c h out ts with Some (h', out') => consume_all c h' out' us | None => None end.
Proof.
  intros c. induction ts as [|t ts IH]; intros us h out; auto. cbn [consume_all app].
  destruct (consume (S (S (length h))) c h out t) as [[h1 out1]|]; auto.
Qed.

(** The right consumer collects. *)
Lemma consume_right : forall ys h out n l r tmp d par,
  consume_all (CRight (length h)) (h ++ [Some (mkSplit n l r tmp d par)]) out ys =
  Some (h ++ [Some (mkSplit n l r tmp (d ++ ys) par)], out).
Proof.
  induction ys as [|y ys IH]; intros h out n l r tmp d par; cbn [consume_all].
  - rewrite app_nil_r. auto.
  - cbn [consume]. rewrite h_get_last, h_set_last. unfold so_addDecom. cbn [so_n so_left so_right so_tmp so_decom so_parent].
    rewrite IH. rewrite <- app_assoc. auto.
Qed.

(** The left consumer forwards the products. *)
Lemma right_loop_combine : forall par ys h out n l r tmp d,
  chain h (length h) par ->
  forall f, length h < f ->
  right_loop (consume f par) (length h) ys (h ++ [Some (mkSplit n l r tmp d par)]) out =
  let (ts, tmp') := combine_right n r tmp ys in
  match consume_all par h out ts with
  | Some (h', out') => Some (h' ++ [Some (mkSplit n l r tmp' d par)], out')
  | None => None
  end.
Proof.
  intros par. induction ys as [|y ys IH]; intros h out n l r tmp d Hc f Hf; cbn [right_loop combine_right]; auto.
  rewrite h_get_last. cbn [so_n so_right so_tmp]. set (tmp1 := proj_inverse n r tmp y).
  rewrite h_set_last. unfold so_setTmp. cbn [so_n so_left so_right so_decom so_parent].
  destruct (consume_ok (length h) par h out tmp1 Hc) as [h1 [out1 [S1 [K1 E1]]]].
  rewrite (E1 f) by auto. destruct (combine_right n r tmp1 ys) as [ts tmp2] eqn:Ec. cbn [consume_all].
  pose proof (E1 (S (S (length h))) [] ltac:(lia)) as E2. rewrite !app_nil_r in E2. rewrite E2.
  rewrite <- (proj1 S1). rewrite IH.
  - rewrite Ec. auto.
  - rewrite (proj1 S1). apply chain_shape with h; auto.
  - rewrite (proj1 S1). auto.
Qed.

Lemma consume_left : forall xs h out n l r tmp ys par,
  chain h (length h) par ->
  exists tmp', 
  consume_all (CLeft (length h)) (h ++ [Some (mkSplit n l r tmp ys par)]) out xs =
  match consume_all par h out (combine_left n l r tmp xs ys) with
  | Some (h', out') => Some (h' ++ [Some (mkSplit n l r tmp' ys par)], out')
  | None => None
  end.
Proof.
  induction xs as [|x xs IH]; intros h out n l r tmp ys par Hc; cbn [consume_all combine_left].
  - exists tmp. auto.
  - remember (S (length (h ++ [Some (mkSplit n l r tmp ys par)]))) as f eqn:Ef. cbn [consume].
    rewrite h_get_last. cbn [so_n so_left so_tmp so_parent so_decom]. rewrite h_set_last. unfold so_setTmp.
    cbn [so_n so_left so_right so_decom so_parent].
    rewrite right_loop_combine by (auto; rewrite Ef, app_length; simpl; lia).
    set (tmp1 := proj_inverse n l tmp x). destruct (combine_right n r tmp1 ys) as [ts tmp2] eqn:Ec.
    destruct (consume_all_ok par ts h out Hc) as [h1 [out1 [S1 E1]]].
    pose proof (E1 []) as E2. rewrite !app_nil_r in E2.
    destruct (IH h1 out1 n l r tmp2 ys par) as [tmp' E3].
    { rewrite (proj1 S1). apply chain_shape with h; auto. }
    exists tmp'. rewrite E2. rewrite (proj1 S1) in E3. rewrite E3. rewrite consume_all_app, E2. auto.
Qed.

(** ** Refinement *)
Definition dead (g : heap) : Prop := Forall (fun x => x = None) g.

Lemma run_slice : forall c rnd fuel k s out k', process fuel c rnd k s = Some (out, k') ->
  forall h o con, chain h (length h) con ->
  exists h' o' g steps, consume_all con h o out = Some (h', o') /\ same_shape h h' /\ dead g /\
  forall rest id next log, exists next' log',
  forall f,
    engine (task_run c rnd) (steps + f) (h, k, o) ((id, TSlice s con) :: rest) next log =
    engine (task_run c rnd) f (h' ++ g, k', o') rest next' log'.
Proof.
  intros c rnd. induction fuel as [|fuel IH]; intros k s out k' E h o con Hc; [discriminate|].
  cbn [process] in E. destruct (msm_baseCase s (c_simp c)) as [s1 [|ts|]] eqn:Eb; [| |discriminate].
  2:{ injection E as -> ->. destruct (consume_all_ok con out h o Hc) as [h' [o' [S1 E1]]].
      pose proof (E1 []) as E2. rewrite !app_nil_r in E2.
      exists h', o', [], 1. split; auto. split; auto. split; [constructor|]. intros rest id next log.
      eexists _, _. intros f. cbn [Nat.add engine task_run]. rewrite Eb, E2, app_nil_r. cbn [add_tasks length]. reflexivity. }
  destruct (if c_indep c then indep_analyze s1 else Some None) as [[[big rst]|]|] eqn:Ei; [| |discriminate].
  - (* independence split *)
    destruct (process fuel c rnd k (sl_setToProjOf s1 rst)) as [[ys k1]|] eqn:E1; [|discriminate].
    destruct (process fuel c rnd k1 (sl_setToProjOf s1 big)) as [[xs k2]|] eqn:E2; [|discriminate].
    injection E as E3 E4. subst out k'.
    set (n := s_n s1) in *.
    set (ob := mkSplit n big rst (t_identity n) [] con).
    set (h1 := h ++ [Some ob]).
    assert (L1 : length h1 = S (length h)) by (unfold h1; rewrite app_length; simpl; lia).
    assert (C1 : chain h1 (length h1) (CRight (length h))).
    { apply ch_right with ob; [lia|]. apply h_get_last. }
    destruct (IH _ _ _ _ E1 h1 o _ C1) as [hr [or_ [g1 [st1 [R1 [R2 [R3 R4]]]]]]].
    unfold h1, ob in R1. rewrite consume_right in R1. injection R1 as <- <-. cbn [app] in *.
    set (ob2 := mkSplit n big rst (t_identity n) ys con) in *.
    set (h2 := h ++ [Some ob2]) in *.
    assert (C2 : chain (h2 ++ g1) (length (h2 ++ g1)) (CLeft (length h))).
    { apply ch_left with ob2.
      - unfold h2. rewrite !app_length. simpl. lia.
      - rewrite h_get_app by (unfold h2; rewrite app_length; simpl; lia). apply h_get_last.
      - cbn. unfold h2. apply chain_app. apply chain_app. auto. }
    destruct (IH _ _ _ _ E2 (h2 ++ g1) o _ C2) as [hl [ol [g2 [st2 [Q1 [Q2 [Q3 Q4]]]]]]].
    destruct (consume_left xs h o n big rst (t_identity n) ys con Hc) as [tmp' El].
    destruct (consume_all_ok con (combine_left n big rst (t_identity n) xs ys) h o Hc) as [h3 [o3 [S3 E3]]].
    pose proof (E3 []) as E3'. rewrite !app_nil_r in E3'. rewrite E3' in El.
    fold ob2 in El. fold h2 in El.
    assert (Q1' : hl = (h3 ++ [Some (mkSplit n big rst tmp' ys con)]) ++ g1 /\ ol = o3).
    { assert (C3 : chain h2 (length h2) (CLeft (length h))).
      { apply ch_left with ob2; [unfold h2; rewrite app_length; simpl; lia|apply h_get_last|]. cbn. unfold h2. apply chain_app. auto. }
      destruct (consume_all_ok (CLeft (length h)) xs h2 o C3) as [hz [oz [Sz Ez]]].
      pose proof (Ez []) as Ez'. rewrite !app_nil_r in Ez'. rewrite El in Ez'. injection Ez' as <- <-.
      rewrite (Ez g1) in Q1. injection Q1 as <- <-. auto. }
    destruct Q1' as [-> ->].
    exists h3, o3, ([None] ++ g1 ++ g2), (1 + (st1 + (st2 + 1))). split; auto. split; auto. split.
    { unfold dead. constructor; auto. apply Forall_app. auto. }
    intros rest id next log.
    set (log1 := log ++ Ran id :: map Added (seq next 3)).
    destruct (R4 ((S next, TSlice (sl_setToProjOf s1 big) (CLeft (length h))) :: (next, TDispose (length h)) :: rest)
      (S (S next)) (next + 3) log1) as [nx1 [lg1 R5]].
    destruct (Q4 ((next, TDispose (length h)) :: rest) (S next) nx1 lg1) as [nx2 [lg2 Q5]].
    eexists _, _. intros f. cbn [Nat.add engine task_run]. rewrite Eb, Ei. cbn [add_tasks length].
    fold n. fold ob. fold h1. fold log1. rewrite <- !Nat.add_assoc, R5, Q5.
    cbn [Nat.add engine task_run].
    assert (Hl : length h = length h3) by (symmetry; apply S3). rewrite Hl.
    rewrite <- (app_assoc _ g1 g2). rewrite h_get_app by (rewrite app_length; simpl; lia).
    rewrite h_get_last. rewrite h_set_app by (rewrite app_length; simpl; lia). rewrite h_set_last.
    rewrite <- app_assoc. cbn [add_tasks length app]. reflexivity.
  - destruct (c_split c) as [pr|lr] eqn:Es.
    + (* pivot split *)
      destruct (pr rnd k s1) as [[[s2 p] k0]|] eqn:Ep; [|discriminate].
      destruct (st_simplify c (fst (msm_innerSlice s2 p))) as [inner|] eqn:Ein; [|discriminate].
      destruct (st_simplify c (msm_outerSlice s2 p)) as [outer|] eqn:Eou; [|discriminate].
      destruct (if length (s_I inner) <? length (s_I outer) then (inner, outer) else (outer, inner)) as [first second] eqn:Ef.
      destruct (process fuel c rnd k0 first) as [[out1 k1]|] eqn:E1; [|discriminate].
      destruct (process fuel c rnd k1 second) as [[out2 k2]|] eqn:E2; [|discriminate].
      injection E as <- <-.
      destruct (IH _ _ _ _ E1 h o con Hc) as [h1 [o1 [g1 [st1 [A1 [A2 [A3 A4]]]]]]].
      assert (C2 : chain (h1 ++ g1) (length (h1 ++ g1)) con).
      { apply chain_app. apply chain_le with (length h); [rewrite app_length, (proj1 A2); lia|]. apply chain_shape with h; auto. }
      destruct (IH _ _ _ _ E2 (h1 ++ g1) o1 con C2) as [h2 [o2 [g2 [st2 [B1 [B2 [B3 B4]]]]]]].
      assert (C3 : chain h1 (length h1) con) by (rewrite (proj1 A2); apply chain_shape with h; auto).
      destruct (consume_all_ok con out2 h1 o1 C3) as [h3 [o3 [S3 E3]]].
      pose proof (E3 []) as E3'. rewrite !app_nil_r in E3'. rewrite E3 in B1. injection B1 as <- <-.
      exists h3, o3, (g1 ++ g2), (1 + (st1 + st2)). split.
      { rewrite consume_all_app, A1. auto. }
      split; [eapply shape_trans; eauto|]. split; [apply Forall_app; auto|].
      intros rest id next log. set (log1 := log ++ Ran id :: map Added (seq next 2)).
      destruct (A4 ((next, TSlice second con) :: rest) (S next) (next + 2) log1) as [nx1 [lg1 A5]].
      destruct (B4 rest next nx1 lg1) as [nx2 [lg2 B5]].
      eexists _, _. intros f. cbn [Nat.add engine task_run]. rewrite Eb, Ei, Es, Ep, Ein, Eou, Ef. cbn [add_tasks length].
      fold log1. rewrite <- !Nat.add_assoc, A5, B5. rewrite <- app_assoc. reflexivity.
    + (* label split *)
      destruct (lr s1) as [var|] eqn:Ev; [|discriminate].
      destruct (labelSlices s1 var) as [hasLabel rst] eqn:El.
      destruct (st_simplify c rst) as [r|] eqn:Er; [|discriminate].
      destruct hasLabel as [hl|].
      * destruct (st_simplify c hl) as [hl'|] eqn:Eh; [|discriminate].
        destruct (process fuel c rnd k r) as [[out1 k1]|] eqn:E1; [|discriminate].
        destruct (process fuel c rnd k1 hl') as [[out2 k2]|] eqn:E2; [|discriminate].
        injection E as <- <-.
        destruct (IH _ _ _ _ E1 h o con Hc) as [h1 [o1 [g1 [st1 [A1 [A2 [A3 A4]]]]]]].
        assert (C2 : chain (h1 ++ g1) (length (h1 ++ g1)) con).
        { apply chain_app. apply chain_le with (length h); [rewrite app_length, (proj1 A2); lia|]. apply chain_shape with h; auto. }
        destruct (IH _ _ _ _ E2 (h1 ++ g1) o1 con C2) as [h2 [o2 [g2 [st2 [B1 [B2 [B3 B4]]]]]]].
        assert (C3 : chain h1 (length h1) con) by (rewrite (proj1 A2); apply chain_shape with h; auto).
        destruct (consume_all_ok con out2 h1 o1 C3) as [h3 [o3 [S3 E3]]].
        pose proof (E3 []) as E3'. rewrite !app_nil_r in E3'. rewrite E3 in B1. injection B1 as <- <-.
        exists h3, o3, (g1 ++ g2), (1 + (st1 + st2)). split.
        { rewrite consume_all_app, A1. auto. }
        split; [eapply shape_trans; eauto|]. split; [apply Forall_app; auto|].
        intros rest id next log. set (log1 := log ++ Ran id :: map Added (seq next 2)).
        destruct (A4 ((next, TSlice hl' con) :: rest) (S next) (next + 2) log1) as [nx1 [lg1 A5]].
        destruct (B4 rest next nx1 lg1) as [nx2 [lg2 B5]].
        eexists _, _. intros f. cbn [Nat.add engine task_run]. rewrite Eb, Ei, Es, Ev, El, Er, Eh. cbn [add_tasks length].
        fold log1. rewrite <- !Nat.add_assoc, A5, B5. rewrite <- app_assoc. reflexivity.
      * destruct (IH _ _ _ _ E h o con Hc) as [h1 [o1 [g1 [st1 [A1 [A2 [A3 A4]]]]]]].
        exists h1, o1, g1, (1 + st1). split; auto. split; auto. split; auto.
        intros rest id next log. set (log1 := log ++ Ran id :: map Added (seq next 1)).
        destruct (A4 rest next (next + 1) log1) as [nx1 [lg1 A5]].
        eexists _, _. intros f. cbn [Nat.add engine task_run]. rewrite Eb, Ei, Es, Ev, El, Er. cbn [add_tasks length].
        fold log1. rewrite A5. reflexivity.
Qed.

Lemma consume_all_root : forall ts h o, consume_all CRoot h o ts = Some (h, o ++ ts).
Proof.
  induction ts as [|t ts IH]; intros h o; cbn [consume_all]; [rewrite app_nil_r; auto|].
  cbn [consume]. rewrite IH, <- app_assoc. auto.
Qed.

Lemma machine_refines : forall c rnd n I out, msm_run c rnd n I = Some out ->
  exists steps k hp total log, (forall fuel, steps <= fuel ->
    machine_run fuel c rnd n I = Some ((hp, k, out), total, log)) /\ dead hp /\
    added_ids log = seq 0 total /\ Permutation (ran_ids log) (seq 0 total) /\ lifo log.
Proof.
  intros c rnd n I out E. unfold msm_run in E. unfold machine_run.
  destruct (st_simplify c (msm_initial n I)) as [s|]; [|discriminate].
  destruct (process (run_fuel n I) c rnd 0 s) as [[out' k]|] eqn:Ep; [|discriminate]. injection E as ->.
  destruct (run_slice c rnd _ _ _ _ _ Ep [] [] CRoot (ch_root _ _)) as [h' [o' [g [steps [A [B [C D]]]]]]].
  rewrite consume_all_root in A. injection A as <- <-. cbn [app] in D.
  destruct (D [] 0 1 [Added 0]) as [nx [lg D1]].
  assert (Hr : forall fuel, steps <= fuel -> run_engine (task_run c rnd) fuel ([], 0, []) [TSlice s CRoot] = Some ((g, k, out), nx, lg)).
  { intros fuel Hf. unfold run_engine. cbn [add_tasks length seq map]. replace fuel with (steps + (fuel - steps)) by lia.
    rewrite D1. destruct (fuel - steps); reflexivity. }
  exists steps, k, g, nx, lg. split; auto. split; auto.
  eapply engine_once. apply (Hr steps). auto.
Qed.
