(** The theorems about the arena put together, and counterexamples. *)
From Coq Require Import List Arith Bool ZArith Lia.
Import ListNotations.
From Verif Require Import M_Arena Spec_Arena P_Arena P_Arena2 P_Arena3.
Local Open Scope Z_scope.

Lemma arena_safe new : good_new new -> forall a live, history new a live ->
  ForallOrdPairs apart live /\
  Forall (fun x => 0 < fst x /\ (8 | fst x) /\ exists h, In h (heap a) /\ fst h <= fst x /\ fst x + snd x <= fst h + snd h) live /\
  (forall size, 0 <= size < 2 ^ 64 -> match alloc new a size with Done (_, a') => keeps live a a' | Throws a' => keeps live a a' | Undef => False end) /\
  (forall p n rest, live = (p, n) :: rest -> exists a', freeTop a p = Done a' /\ keeps rest a a') /\
  (forall later p n rest, live = later ++ (p, n) :: rest -> exists a', freeAndAllAfter a p = Done a' /\ keeps rest a a') /\
  (exists a', destroy a = Done a' /\ heap a' = []).
Proof.
  intros GN a live H. destruct (history_inv new GN a live H) as [lc [old I]]. split; [eapply inv_apart; eauto|]. split; [eapply inv_live; eauto|]. split; [|split; [|split]].
  - intros size S. pose proof (alloc_inv new GN a live lc old size I S) as A. destruct (alloc new a size) as [[p a']|a'|]; tauto.
  - intros p n rest E. destruct (freeTop_inv _ _ _ _ _ _ _ I E) as [a' [_ [_ [A [_ K]]]]]. eauto.
  - intros later p n rest E. destruct (freeAfter_inv _ _ _ _ _ _ _ _ I E) as [a' [_ [_ [A [_ K]]]]]. eauto.
  - eapply destroy_inv; eauto.
Qed.
Lemma array_alloc new a count size : 0 <= count < 2 ^ 64 -> 1 <= size ->
  match allocArrayNoCon new a count size with
  | Done (p, q, a') => 0 <= count * size < 2 ^ 64 /\ alloc new a (count * size) = Done (p, a') /\ q = p + count * size
  | Throws a' => (2 ^ 64 <= count * size /\ a' = a) \/ alloc new a (count * size) = Throws a'
  | Undef => alloc new a (count * size) = Undef
  end.
Proof.
  intros C S. unfold allocArrayNoCon. pose proof (Z.div_mod (word - 1) size ltac:(lia)) as DM. pose proof (Z.mod_pos_bound (word - 1) size ltac:(lia)) as MB. destruct (count >? (word - 1) / size) eqn:E.
  - left. split; auto. rewrite Z.gtb_ltb in E. assert (count >= (word - 1) / size + 1) by lia. unfold word in *. nia.
  - rewrite Z.gtb_ltb in E. assert (0 <= count * size <= word - 1) by nia. unfold word in H. destruct (alloc new a (count * size)) as [[p a']|a'|]; cbn [obind fst snd]; auto. split; [lia | auto].
Qed.
Lemma empty_sound new : good_new new -> forall a live, history new a live -> isEmpty a = true -> live = [].
Proof. intros GN a live H. destruct (history_inv new GN a live H) as [lc [old I]]. eapply empty_inv; eauto. Qed.

(** An operator new that works *)
Definition bump (limit time : nat) (used : list (Z * Z)) (size : Z) : option Z :=
  let p := 2 ^ 32 * (Z.of_nat time + 1) in
  if (time <? limit)%nat && (p + size <? 2 ^ 64) && forallb (fun h => (p + size <=? fst h) || (fst h + snd h <=? p)) used then Some p else None.
Lemma bump_good limit : good_new (bump limit).
Proof.
  intros time used size p H. unfold bump in H. destruct (_ && _ && _) eqn:E; [|discriminate]. assert (Q : 2 ^ 32 * (Z.of_nat time + 1) = p) by congruence. rewrite <- Q. clear p Q H. apply andb_true_iff in E as [E E3]. apply andb_true_iff in E as [E1 E2]. apply Z.ltb_lt in E2. split; [apply Z.mul_pos_pos; [reflexivity | lia]|]. split; [exact E2|]. split.
  - exists (2 ^ 29 * (Z.of_nat time + 1)). change (2 ^ 32) with (2 ^ 29 * 8). ring.
  - rewrite forallb_forall in E3. apply Forall_forall. intros h I. specialize (E3 _ I). cbv zeta in E3. apply orb_true_iff in E3. rewrite !Z.leb_le in E3. exact E3.
Qed.
(** a state after an allocation or a call of freeTop *)
Definition afterAlloc (new : nat -> list (Z * Z) -> Z -> option Z) (a : arena) (size : Z) : Z * arena := match alloc new a size with Done x => x | _ => (0, a) end.
Definition afterFree (a : arena) (p : Z) : arena := match freeTop a p with Done x => x | _ => a end.
Definition fresh : arena := newArena (fun _ => 0).
Definition e1 : Z * arena := afterAlloc (bump 5) fresh 10.
Definition e2 : arena := afterFree (snd e1) (fst e1).
Definition e3 : Z * arena := afterAlloc (bump 5) e2 100000.
Definition e4 : arena := afterFree (snd e3) (fst e3).
(** The memory of these states is a function, which is not to be compared: only which outcome it is gets computed *)
Definition code {A} (r : outcome A) : nat := match r with Done _ => 0 | Throws _ => 1 | Undef => 2 end.
Lemma after_alloc new a size : code (alloc new a size) = 0%nat -> alloc new a size = Done (fst (afterAlloc new a size), snd (afterAlloc new a size)).
Proof. unfold afterAlloc. destruct (alloc new a size) as [[p a']|a'|]; intros H; try discriminate. reflexivity. Qed.
Lemma after_free a p : code (freeTop a p) = 0%nat -> freeTop a p = Done (afterFree a p).
Proof. unfold afterFree. destruct (freeTop a p); intros H; try discriminate. reflexivity. Qed.
Lemma is_undef {A} (r : outcome A) : code r = 2%nat -> r = Undef.
Proof. destruct r; intros H; try discriminate. reflexivity. Qed.
Lemma e2_history : history (bump 5) e2 [].
Proof.
  apply (h_freeTop _ (snd e1) (fst e1) 10 [] e2); [|apply after_free; vm_compute; reflexivity]. apply (h_alloc _ fresh [] 10 (fst e1) (snd e1)); [|lia|apply after_alloc; vm_compute; reflexivity]. exact (h_new _ (fun _ => 0)).
Qed.
Lemma e4_history : history (bump 5) e4 [].
Proof.
  apply (h_freeTop _ (snd e3) (fst e3) 100000 [] e4); [|apply after_free; vm_compute; reflexivity]. apply (h_alloc _ e2 [] 100000 (fst e3) (snd e3)); [|lia|apply after_alloc; vm_compute; reflexivity]. exact e2_history.
Qed.
Lemma empty_refuted : exists new a, good_new new /\ history new a [] /\ isEmpty a = false.
Proof. exists (bump 5), e4. split; [apply bump_good|]. split; [exact e4_history | vm_compute; reflexivity]. Qed.
Definition g1 : Z * arena := afterAlloc (bump 1) fresh 10.
Definition g2 : arena := match alloc (bump 1) (snd g1) 100000 with Throws a => a | _ => fresh end.
Lemma bad_alloc_refuted : exists new a live size a', good_new new /\ history new a live /\ 0 <= size < 2 ^ 64 /\ alloc new a size = Throws a' /\ destroy a' = Undef.
Proof.
  exists (bump 1), (snd g1), [(fst g1, 10)], 100000, g2. split; [apply bump_good|].
  split; [apply (h_alloc _ fresh [] 10 (fst g1) (snd g1)); [exact (h_new _ (fun _ => 0))|lia|apply after_alloc; vm_compute; reflexivity]|]. split; [lia|]. split; [|apply is_undef; vm_compute; reflexivity].
  assert (H : code (alloc (bump 1) (snd g1) 100000) = 1%nat) by (vm_compute; reflexivity). unfold g2. destruct (alloc (bump 1) (snd g1) 100000); try discriminate. reflexivity.
Qed.
Lemma bad_alloc_sound new : good_new new -> forall a live size a', history new a live -> 0 <= size < 2 ^ 64 -> alloc new a size = Throws a' ->
  heap a' = heap a /\ keeps live a a' /\ (bbegin (cur a) = 0 -> mem a' = mem a /\ cur a' = cur a).
Proof.
  intros GN a live size a' H S E. destruct (history_inv new GN a live H) as [lc [old I]]. pose proof (alloc_inv new GN a live lc old size I S) as A. rewrite E in A. destruct A as [A1 [A2 A3]]. split; auto. split; auto. intros B. apply A3. unfold isNull. lia.
Qed.
