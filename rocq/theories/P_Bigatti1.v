(** The loops that enumerate faces, and the values of the states of the algorithm by Bigatti et al. *)
From Coq Require Import List Arith Bool ZArith Lia Permutation.
Import ListNotations.
From Verif Require Import Spec Spec_Hilbert M_Term M_Ideal M_Slice M_Msm M_Api M_Hilbert M_Poly M_Tasks M_Scarf M_Bigatti
  P_Term P_Ideal P_Msm2 P_Msm3 P_Hil1 P_Hil6 P_Scarf1.
Local Open Scope nat_scope.

(** ** The loop of enumerateScarfComplex *)
Definition bad_of (n : nat) (allFaces : bool) (I : ideal) (t : term) : bool := negb (allFaces || negb (i_strictlyContains n I t)).
Definition shift_out (n : nat) (q : term) (l : list (bool * term)) : list (bool * term) :=
  map (fun x => (fst x, t_product n (snd x) q)) l.
Definition bouts (l : list (bool * term)) : list bout := map (fun x => BOut (fst x) (snd x)) l.
Lemma bouts_app : forall a b, bouts (a ++ b) = bouts a ++ bouts b.
Proof. intros. apply map_app. Qed.
Lemma shift_app : forall n q a b, shift_out n q (a ++ b) = shift_out n q a ++ shift_out n q b.
Proof. intros. apply map_app. Qed.

Definition fout (n : nat) (allFaces : bool) (s : bstate) (f : fstate) : list bout :=
  bouts (shift_out n (bs_q s) (faces n (bad_of n allFaces (bs_I s)) (fs_plus f) (fs_term f) (fs_rest f))).
Fixpoint fstack_ok (size : nat) (stack : list fstate) : Prop :=
  match stack with [] => True | f :: st => length stack + length (fs_rest f) <= size /\ fstack_ok size st end.
Definition cost (r : nat) : nat := 2 ^ S r - 1.
Lemma cost_S : forall r, cost (S r) = S (cost r + cost r).
Proof. intros r. unfold cost. change (2 ^ S (S r)) with (2 * 2 ^ S r). pose proof (Nat.pow_nonzero 2 (S r)). lia. Qed.
Lemma cost_pos : forall r, 0 < cost r.
Proof. intros r. unfold cost. pose proof (Nat.pow_nonzero 2 r). simpl. lia. Qed.
Lemma cost_mono : forall a b, a <= b -> cost a <= cost b.
Proof. intros a b H. induction H; auto. rewrite cost_S. lia. Qed.
Definition fcost (stack : list fstate) : nat := list_sum (map (fun f => cost (length (fs_rest f))) stack).

Lemma face_loop_spec : forall fuel n size allFaces s stack out, fstack_ok size stack -> fcost stack <= fuel ->
  face_loop fuel n size allFaces s stack out = Some (out ++ concat (map (fout n allFaces s) stack)).
Proof.
  induction fuel as [|fuel IH]; intros n size allFaces s stack out Hok Hc.
  - destruct stack as [|f stack]; [cbn; rewrite app_nil_r; auto|]. unfold fcost in Hc. cbn [map list_sum fold_right] in Hc.
    pose proof (cost_pos (length (fs_rest f))). lia.
  - destruct stack as [|f stack]; [cbn; rewrite app_nil_r; auto|]. destruct Hok as [Hs Hok]. cbn [face_loop].
    unfold fcost in Hc. cbn [map list_sum fold_right] in Hc. fold (list_sum (map (fun f => cost (length (fs_rest f))) stack)) in Hc. fold (fcost stack) in Hc.
    rewrite (proj2 (Nat.leb_le _ _)) by lia. destruct f as [plus t rest]. cbn [fs_plus fs_term fs_rest] in *.
    destruct rest as [|g rest].
    + rewrite IH; auto.
      * cbn [map concat]. unfold fout at 2. cbn [fs_plus fs_term fs_rest faces shift_out bouts map fst snd]. rewrite <- app_assoc. auto.
      * pose proof (cost_pos 0). cbn [length] in Hc. lia.
    + cbn [length] in *. rewrite (proj2 (Nat.ltb_lt _ _)) by lia. rewrite cost_S in Hc. cbv zeta.
      destruct (allFaces || negb (i_strictlyContains n (bs_I s) (t_lcm n t g))) eqn:E.
      * rewrite IH.
        -- f_equal. f_equal. cbn [map concat]. unfold fout at 1 2 4. cbn [fs_plus fs_term fs_rest faces]. unfold bad_of at 3. rewrite E.
           cbn [negb]. rewrite shift_app, bouts_app, <- app_assoc. auto.
        -- cbn [fstack_ok length fs_rest]. repeat split; auto; lia.
        -- unfold fcost. cbn [map list_sum fold_right fs_rest]. fold (list_sum (map (fun f => cost (length (fs_rest f))) stack)). fold (fcost stack). lia.
      * rewrite IH.
        -- f_equal. f_equal. cbn [map concat]. unfold fout at 1 3. cbn [fs_plus fs_term fs_rest faces]. unfold bad_of at 2. rewrite E.
           cbn [negb app]. auto.
        -- cbn [fstack_ok length fs_rest]. repeat split; auto; lia.
        -- unfold fcost. cbn [map list_sum fold_right fs_rest]. fold (list_sum (map (fun f => cost (length (fs_rest f))) stack)). fold (fcost stack). lia.
Qed.
Lemma enumerate_spec : forall fuel n allFaces s, cost (length (bs_I s)) <= fuel ->
  face_loop fuel n (length (bs_I s) + 1) allFaces s [mkFS true (t_identity n) (bs_I s)] [] =
  Some (bouts (shift_out n (bs_q s) (faces n (bad_of n allFaces (bs_I s)) true (t_identity n) (bs_I s)))).
Proof.
  intros fuel n allFaces s H. rewrite face_loop_spec.
  - cbn [map concat app]. rewrite app_nil_r. auto.
  - cbn. split; auto. lia.
  - unfold fcost. cbn [map list_sum fold_right fs_rest]. lia.
Qed.

(** ** The sum over the faces, shifted *)
Lemma fsum_shift : forall n q h l, fsum h (shift_out n q l) = fsum (fun x => h (t_product n x q)) l.
Proof. intros. unfold fsum, shift_out. rewrite map_map. auto. Qed.
Lemma fsum_ext : forall h h' l, (forall b t, In (b, t) l -> h t = h' t) -> fsum h l = fsum h' l.
Proof. intros h h' l H. unfold fsum. apply zsum_ext. intros [b t] Hi. cbn [fst snd]. rewrite (H b t); auto. Qed.
Definition base_sum (n : nat) (s : bstate) (o : list (bool * term)) : Prop :=
  forall h, fsum h o = taylor n (fun x => h (t_product n x (bs_q s))) (t_identity n) (bs_I s).
Lemma enumerate_sum : forall n allFaces s,
  base_sum n s (shift_out n (bs_q s) (faces n (bad_of n allFaces (bs_I s)) true (t_identity n) (bs_I s))).
Proof.
  intros n allFaces s h. rewrite fsum_shift. destruct allFaces.
  - apply all_sum.
  - rewrite <- (scarf_sum n (bs_I s) (bs_I s) (fun x => h (t_product n x (bs_q s)))) by apply incl_refl.
    unfold bad_of, i_strictlyContains. cbn [orb].
    assert (E : forall L plus t, faces n (fun t => negb (negb (existsb (fun g => t_strictlyDivides n g t) (bs_I s)))) plus t L =
       faces n (fun t => existsb (fun g => t_strictlyDivides n g t) (bs_I s)) plus t L).
    { induction L as [|g L IH]; intros plus t; cbn [faces]; auto. rewrite negb_involutive, !IH. auto. }
    rewrite E. auto.
Qed.

Lemma taylor_shift : forall n q h L t, length t = n -> Forall (fun g => length g = n) L ->
  taylor n (fun x => h (t_product n x q)) t L = taylor n h (t_product n t q) (i_product n L q).
Proof.
  intros n q h L. induction L as [|g L IH]; intros t Ht HL; cbn [taylor i_product map]; auto. inversion HL; subst.
  rewrite IH by auto. f_equal. rewrite IH by auto using t_lcm_length. f_equal.
  apply term_ext with (length t); auto using t_product_length, t_lcm_length. intros v Hv. rewrite t_product_nth, !t_lcm_nth, !t_product_nth by auto. lia.
Qed.

(** the value of a state at a monomial: 1 if it is multiply times a monomial outside of the ideal *)
Definition sval (n : nat) (s : bstate) (m : term) : Z := (dvd n (bs_q s) m * (1 - ind n (i_product n (bs_I s) (bs_q s)) m))%Z.
Lemma base_series : forall n s o m, length (bs_q s) = n -> wf n (bs_I s) -> base_sum n s o -> fsum (fun x => dvd n x m) o = sval n s m.
Proof.
  intros n s o m Hq Hw H. rewrite H. rewrite (taylor_shift n (bs_q s) (fun x => dvd n x m)); auto using t_identity_length.
  - rewrite taylor_series. unfold sval. f_equal. f_equal. apply term_ext with n; auto using t_product_length.
    intros v Hv. rewrite t_product_nth, t_identity_nth by auto. lia.
  - apply Forall_forall. auto.
Qed.

Lemma dvd_1 : forall n a m, le_n n a m -> dvd n a m = 1%Z.
Proof. intros n a m H. unfold dvd. rewrite (proj2 (t_dominates_iff n m a)); auto. Qed.
Lemma dvd_0 : forall n a m, ~ le_n n a m -> dvd n a m = 0%Z.
Proof. intros n a m H. unfold dvd. destruct (t_dominates n m a) eqn:E; auto. apply t_dominates_iff in E. contradiction. Qed.
Lemma le_n_dec : forall n a m, le_n n a m \/ ~ le_n n a m.
Proof. intros n a m. destruct (t_dominates n m a) eqn:E; [left|right]; rewrite <- t_dominates_iff; congruence. Qed.
Lemma product_inI : forall n I q m, le_n n q m -> inI n (i_product n I q) m <-> inI n I (t_colon n m q).
Proof.
  intros n I q m Hq. split; intros [g [Hg H]].
  - apply in_map_iff in Hg. destruct Hg as [h [<- Hh]]. exists h. split; auto. intros v Hv. specialize (H v Hv). rewrite t_product_nth in H by auto.
    rewrite t_colon_nth by auto. lia.
  - exists (t_product n g q). split; [apply in_map_iff; eauto|]. intros v Hv. specialize (H v Hv). specialize (Hq v Hv).
    rewrite t_colon_nth in H by auto. rewrite t_product_nth by auto. lia.
Qed.
Lemma sval_1 : forall n s m, le_n n (bs_q s) m -> ~ inI n (bs_I s) (t_colon n m (bs_q s)) -> sval n s m = 1%Z.
Proof. intros n s m A B. unfold sval. rewrite dvd_1 by auto. rewrite ind_0; auto. rewrite product_inI; auto. Qed.
Lemma sval_0 : forall n s m, (le_n n (bs_q s) m -> inI n (bs_I s) (t_colon n m (bs_q s))) -> sval n s m = 0%Z.
Proof.
  intros n s m A. unfold sval. destruct (le_n_dec n (bs_q s) m) as [H|H]; [|rewrite dvd_0 by auto; lia].
  rewrite ind_1; [lia|]. apply product_inI; auto.
Qed.

(** ** Splitting *)
Lemma insert_inI : forall n I p m, wf n I -> minl n I -> length p = n -> inI n (i_insertReminimize n I p) m <-> inI n I m \/ le_n n p m.
Proof. intros n I p m Hw Hm Hp. apply (insertReminimize_spec n I p Hw Hm Hp). Qed.
Lemma insert_minl : forall n I p, wf n I -> minl n I -> length p = n -> wf n (i_insertReminimize n I p) /\ minl n (i_insertReminimize n I p) /\
  (forall x, In x (i_insertReminimize n I p) -> In x I \/ x = p).
Proof. intros n I p Hw Hm Hp. destruct (insertReminimize_spec n I p Hw Hm Hp) as (A & B & C & _). auto. Qed.
Lemma colon_inI : forall n I p m, wf n I -> minl n I -> length p = n -> inI n (fst (i_colonReminimize n I p)) m <-> inI n I (t_product n m p).
Proof. intros n I p m Hw Hm Hp. apply is_colon_inI. apply minimizer_colonTerm_spec; auto. Qed.

Lemma inI_ext : forall n I a b, (forall v, v < n -> a @ v = b @ v) -> inI n I a <-> inI n I b.
Proof. intros n I a b H. split; intros [g [Hg L]]; exists g; split; auto; intros v Hv; specialize (L v Hv); specialize (H v Hv); lia. Qed.
Lemma split_value : forall n s p m, wf n (bs_I s) -> minl n (bs_I s) -> length p = n ->
  sval n s m = (sval n (bs_colon n s p) m + sval n (bs_add n s p) m)%Z.
Proof.
  intros n s p m Hw Hm Hp. set (x := t_colon n m (bs_q s)).
  destruct (le_n_dec n (bs_q s) m) as [Hq|Hq].
  - assert (Hpq : le_n n (t_product n (bs_q s) p) m <-> le_n n p x).
    { unfold x. split; intros H v Hv; specialize (H v Hv); specialize (Hq v Hv); [rewrite t_colon_nth by auto; rewrite t_product_nth in H by auto|
        rewrite t_colon_nth in H by auto; rewrite t_product_nth by auto]; lia. }
    destruct (le_n_dec n p x) as [Hx|Hx].
    + rewrite (sval_0 n (bs_add n s p)); [|intros _; cbn [bs_add bs_I bs_q]; apply insert_inI; auto].
      assert (E : inI n (bs_I (bs_colon n s p)) (t_colon n m (bs_q (bs_colon n s p))) <-> inI n (bs_I s) x).
      { cbn [bs_colon bs_I bs_q]. rewrite colon_inI by auto. apply inI_ext. unfold x. intros v Hv. specialize (Hx v Hv). unfold x in Hx.
        rewrite t_colon_nth in Hx by auto. rewrite t_product_nth, !t_colon_nth, t_product_nth by auto. lia. }
      destruct (i_contains_dec n (bs_I s) x) as [D|D].
      * rewrite (sval_0 n s), (sval_0 n (bs_colon n s p)); auto. intros _. apply E; auto.
      * rewrite (sval_1 n s), (sval_1 n (bs_colon n s p)); auto; [apply Hpq; auto|rewrite E; auto].
    + rewrite (sval_0 n (bs_colon n s p)); [|intros H; exfalso; apply Hx, Hpq; auto].
      assert (E : inI n (bs_I (bs_add n s p)) (t_colon n m (bs_q s)) <-> inI n (bs_I s) x).
      { cbn [bs_add bs_I]. fold x. rewrite insert_inI by auto. tauto. }
      destruct (i_contains_dec n (bs_I s) x) as [D|D].
      * rewrite (sval_0 n s), (sval_0 n (bs_add n s p)); auto. intros _. apply E; auto.
      * rewrite (sval_1 n s), (sval_1 n (bs_add n s p)); auto. cbn [bs_add bs_q]. rewrite E. auto.
  - rewrite (sval_0 n s), (sval_0 n (bs_colon n s p)), (sval_0 n (bs_add n s p)); auto; intros H; exfalso; apply Hq; auto.
    intros v Hv. specialize (H v Hv). cbn [bs_colon bs_q] in H. rewrite t_product_nth in H by auto. lia.
Qed.

(** taking out a common divisor *)
Lemma simplify_value : forall n s p m, wf n (bs_I s) -> minl n (bs_I s) -> length p = n -> (forall g, In g (bs_I s) -> le_n n p g) ->
  sval n s m = (dvd n (bs_q s) m - dvd n (bs_q (bs_colon n s p)) m + sval n (bs_colon n s p) m)%Z.
Proof.
  intros n s p m Hw Hm Hp Hd. rewrite (split_value n s p m Hw Hm Hp).
  assert (E : sval n (bs_add n s p) m = (dvd n (bs_q s) m - dvd n (bs_q (bs_colon n s p)) m)%Z); [|lia].
  cbn [bs_colon bs_q].
  assert (A : forall x, inI n (bs_I (bs_add n s p)) x <-> le_n n p x).
  { intros x. cbn [bs_add bs_I]. rewrite insert_inI by auto. split; auto. intros [[g [Hg H]]|H]; auto. eapply le_n_trans; eauto. }
  destruct (le_n_dec n (bs_q s) m) as [Hq|Hq].
  - rewrite (dvd_1 n (bs_q s)) by auto. destruct (le_n_dec n (t_product n (bs_q s) p) m) as [Hqp|Hqp].
    + rewrite dvd_1 by auto. rewrite sval_0; auto. intros _. apply A. cbn [bs_add bs_q]. intros v Hv. specialize (Hqp v Hv).
      rewrite t_product_nth in Hqp by auto. rewrite t_colon_nth by auto. lia.
    + rewrite (dvd_0 n (t_product n (bs_q s) p)) by auto. rewrite sval_1; auto. rewrite A. intros H. apply Hqp. intros v Hv. specialize (H v Hv). specialize (Hq v Hv).
      cbn [bs_add bs_q] in H. rewrite t_colon_nth in H by auto. rewrite t_product_nth by auto. lia.
  - rewrite (dvd_0 n (bs_q s)) by auto. rewrite (dvd_0 n (t_product n (bs_q s) p)).
    + apply sval_0. intros H. contradiction.
    + intros H. apply Hq. intros v Hv. specialize (H v Hv). rewrite t_product_nth in H by auto. lia.
Qed.
