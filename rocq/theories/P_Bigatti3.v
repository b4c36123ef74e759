(** The base cases of the algorithm by Bigatti et al., continued, and the tasks. *)
From Coq Require Import List Arith Bool ZArith Lia Permutation.
Import ListNotations.
From Verif Require Import Spec Spec_Hilbert M_Term M_Ideal M_Slice M_Msm M_Api M_Hilbert M_Poly M_Tasks M_Scarf M_Bigatti
  P_Term P_Ideal P_Msm2 P_Msm3 P_Hil1 P_Hil6 P_Scarf1 P_Bigatti1 P_Bigatti2.
Local Open Scope nat_scope.

Definition shares (n : nat) (I : ideal) : Prop := exists a b v, In a I /\ In b I /\ a <> b /\ v < n /\ 0 < a @ v /\ 0 < b @ v.

Lemma one_positive_zero : forall v l a, one_positive v true l = true -> In a l -> a @ v = 0.
Proof.
  intros v l a. induction l as [|b l IH]; intros H Hi; [destruct Hi|]. cbn [one_positive negb andb] in H.
  destruct (0 <? b @ v) eqn:E; [discriminate|]. apply Nat.ltb_ge in E. destruct Hi as [->|Hi]; auto. lia.
Qed.
Lemma one_positive_eq : forall v l a b, one_positive v false l = true -> In a l -> In b l -> 0 < a @ v -> 0 < b @ v -> a = b.
Proof.
  intros v l a b. induction l as [|c l IH]; intros H Ha Hb Pa Pb; [destruct Ha|]. cbn [one_positive negb andb] in H.
  destruct (0 <? c @ v) eqn:E.
  - assert (Z0 : forall x, In x l -> x @ v = 0) by (intros; eapply one_positive_zero; eauto).
    destruct Ha as [->|Ha]; [|specialize (Z0 _ Ha); lia]. destruct Hb as [->|Hb]; [|specialize (Z0 _ Hb); lia]. auto.
  - apply Nat.ltb_ge in E. destruct Ha as [->|Ha]; [lia|]. destruct Hb as [->|Hb]; [lia|]. auto.
Qed.
Lemma one_positive_false : forall v l, NoDup l -> one_positive v false l = false -> exists a b, In a l /\ In b l /\ a <> b /\ 0 < a @ v /\ 0 < b @ v.
Proof.
  intros v l. induction l as [|c l IH]; intros N H; [discriminate|]. inversion N as [|? ? Nc Nl]; subst. cbn [one_positive negb andb] in H.
  destruct (0 <? c @ v) eqn:E.
  - apply Nat.ltb_lt in E.
    assert (X : exists b, In b l /\ 0 < b @ v).
    { clear - H. induction l as [|b l IH]; [discriminate|]. cbn [one_positive negb andb] in H. destruct (0 <? b @ v) eqn:E.
      - apply Nat.ltb_lt in E. exists b. simpl; auto.
      - destruct (IH H) as [x [A B]]. exists x. simpl; auto. }
    destruct X as [b [A B]]. exists c, b. repeat split; simpl; auto. intros ->. auto.
  - destruct (IH Nl H) as (a & b & A & B & C & D & F). exists a, b. repeat split; simpl; auto.
Qed.
Lemma disjoint_false : forall n I, NoDup I -> i_disjointSupport n I = false -> shares n I.
Proof.
  intros n I N H. unfold i_disjointSupport in H.
  assert (X : exists v, In v (seq 0 n) /\ one_positive v false I = false).
  { revert H. generalize (seq 0 n). induction l as [|v l IH]; [discriminate|]. cbn [forallb]. destruct (one_positive v false I) eqn:E; cbn [andb]; intros H.
    - destruct (IH H) as [w [A B]]. exists w. simpl; auto.
    - exists v. simpl; auto. }
  destruct X as [v [Hv Hf]]. apply in_seq in Hv. destruct (one_positive_false v I N Hf) as (a & b & A & B & C & D & E). exists a, b, v. repeat split; auto. lia.
Qed.

Lemma filter_length_bound : forall (A : Type) (f : A -> bool) l, length (filter f l) <= length l.
Proof. intros A f l. induction l as [|a l IH]; cbn [filter length]; auto. destruct (f a); cbn [length]; lia. Qed.
Lemma exclusive_disjoint : forall n lcm l seen, (forall g, In g l -> exists v, v < n /\ 0 < g @ v) ->
  (forall v, v < n -> one_positive v (existsb (Nat.eqb v) seen) l = true) ->
  (forall g v, In g l -> v < n -> 0 < g @ v -> lcm @ v = g @ v) -> exclusive_max n lcm seen l = true.
Proof.
  intros n lcm l. induction l as [|g l IH]; intros seen H1 H2 H3; cbn [exclusive_max]; auto. cbv zeta.
  set (vs := filter _ _).
  assert (V : forall v, In v vs <-> v < n /\ 0 < g @ v).
  { intros v. unfold vs. rewrite filter_In, in_seq, andb_true_iff, Nat.eqb_eq, Nat.ltb_lt. split; [intros [A [B C]]; lia|].
    intros [A B]. rewrite (H3 g v); simpl; auto. lia. }
  rewrite !andb_true_iff. repeat split.
  - destruct (H1 g (or_introl eq_refl)) as [v Hv]. apply V in Hv. destruct vs; [destruct Hv|auto].
  - apply forallb_forall. intros v Hv. apply V in Hv. destruct Hv as [A B]. specialize (H2 v A). cbn [one_positive] in H2.
    rewrite (proj2 (Nat.ltb_lt _ _)) in H2 by auto. apply andb_true_iff in H2. tauto.
  - apply IH.
    + intros; apply H1; simpl; auto.
    + intros v Hv. specialize (H2 v Hv). cbn [one_positive] in H2. rewrite existsb_app.
      destruct (existsb (Nat.eqb v) vs) eqn:E; cbn [orb].
      * apply existsb_exists in E. destruct E as [x [Hx Ex]]. apply Nat.eqb_eq in Ex. subst x. apply V in Hx.
        rewrite (proj2 (Nat.ltb_lt _ _)) in H2 by tauto. apply andb_true_iff in H2. tauto.
      * destruct (0 <? g @ v) eqn:G; auto. apply Nat.ltb_lt in G. exfalso.
        assert (Hx : existsb (Nat.eqb v) vs = true); [|congruence]. apply existsb_exists. exists v. split; [apply V; auto|apply Nat.eqb_refl].
    + intros; apply H3; simpl; auto.
Qed.
Lemma NoDup_map_on : forall (A B : Type) (f : A -> B) l, NoDup l -> (forall a b, In a l -> In b l -> f a = f b -> a = b) -> NoDup (map f l).
Proof.
  intros A B f l. induction l as [|a l IH]; intros N H; cbn [map]; constructor; inversion N; subst.
  - intros Hi. apply in_map_iff in Hi. destruct Hi as [b [E Hb]]. rewrite (H b a) in Hb; simpl; auto.
  - apply IH; auto. intros; apply H; simpl; auto.
Qed.
Definition some_var (n : nat) (g : term) : nat := match filter (fun v => 0 <? g @ v) (seq 0 n) with v :: _ => v | [] => 0 end.
Lemma some_var_spec : forall n g, (exists v, v < n /\ 0 < g @ v) -> some_var n g < n /\ 0 < g @ some_var n g.
Proof.
  intros n g [v [A B]]. unfold some_var. destruct (filter _ _) as [|w l] eqn:E.
  - assert (X : In v (filter (fun v => 0 <? g @ v) (seq 0 n))) by (apply filter_In; split; [apply in_seq; lia|apply Nat.ltb_lt; auto]). rewrite E in X. destruct X.
  - assert (X : In w (filter (fun v => 0 <? g @ v) (seq 0 n))) by (rewrite E; simpl; auto). apply filter_In in X. rewrite in_seq, Nat.ltb_lt in X. lia.
Qed.
Lemma disjoint_few : forall n I, NoDup I -> (forall g, In g I -> exists v, v < n /\ 0 < g @ v) -> i_disjointSupport n I = true ->
  length I <= n /\ length I <= t_sizeOfSupport n (i_lcm n I) /\ exclusive_max n (i_lcm n I) [] I = true.
Proof.
  intros n I N H D. unfold i_disjointSupport in D. rewrite forallb_forall in D.
  assert (D' : forall v, v < n -> one_positive v false I = true) by (intros v Hv; apply D, in_seq; lia).
  assert (M : NoDup (map (some_var n) I)).
  { apply NoDup_map_on; auto. intros a b Ha Hb E. destruct (some_var_spec n a (H a Ha)) as [A1 A2]. destruct (some_var_spec n b (H b Hb)) as [B1 B2].
    rewrite <- E in B2. apply (one_positive_eq (some_var n a) I); auto. }
  assert (L : length I <= t_sizeOfSupport n (i_lcm n I)).
  { unfold t_sizeOfSupport. transitivity (length (map (some_var n) I)); [rewrite map_length; auto|]. apply NoDup_incl_length; auto. intros v Hv. apply in_map_iff in Hv.
    destruct Hv as [g [<- Hg]]. destruct (some_var_spec n g (H g Hg)) as [A B]. apply filter_In. split; [apply in_seq; lia|].
    pose proof (i_lcm_ge n I g _ A Hg). (apply negb_true_iff, Nat.eqb_neq || apply Nat.ltb_lt); lia. }
  split; [|split]; auto.
  - etransitivity; [exact L|]. unfold t_sizeOfSupport. pose proof (filter_length_bound _ (fun i => negb (i_lcm n I @ i =? 0)) (seq 0 n)) as F. rewrite seq_length in F. exact F.
  - apply exclusive_disjoint; auto. intros g v Hg Hv Hp.
    pose proof (i_lcm_ge n I g v Hv Hg). destruct (i_lcm_attained n I v Hv ltac:(lia)) as [h [Hh E]].
    assert (h = g) by (apply (one_positive_eq v I); auto; lia). congruence.
Qed.

(** ** The base cases *)
Lemma product_comm : forall n a b, t_product n a b = t_product n b a.
Proof. intros. apply term_ext with n; auto using t_product_length. intros v Hv. rewrite !t_product_nth by auto. lia. Qed.
Lemma product_id : forall n a, length a = n -> t_product n (t_identity n) a = a.
Proof. intros. apply term_ext with n; auto using t_product_length. intros v Hv. rewrite !t_product_nth, t_identity_nth by auto. lia. Qed.
Lemma lcm_id : forall n a, length a = n -> t_lcm n (t_identity n) a = a.
Proof. intros. apply term_ext with n; auto using t_lcm_length. intros v Hv. rewrite !t_lcm_nth, t_identity_nth by auto. lia. Qed.

Lemma minl_nonzero : forall n I g, minl n I -> In g I -> 2 <= length I -> exists v, v < n /\ 0 < g @ v.
Proof.
  intros n I g [N H] Hg L. destruct (forallb (fun v => g @ v =? 0) (seq 0 n)) eqn:E.
  - exfalso. rewrite forallb_forall in E. assert (A : forall h, In h I -> g = h).
    { intros h Hh. apply H; auto. intros v Hv. specialize (E v ltac:(apply in_seq; lia)). apply Nat.eqb_eq in E. lia. }
    destruct I as [|a [|b I]]; cbn in L; try lia. assert (a = b) by (rewrite <- (A a), <- (A b); simpl; auto). subst.
    inversion N as [|? ? X]; subst. apply X. simpl; auto.
  - assert (X : exists v, In v (seq 0 n) /\ (g @ v =? 0) = false).
    { revert E. generalize (seq 0 n). induction l as [|v l IH]; [discriminate|]. cbn [forallb]. destruct (g @ v =? 0) eqn:E; cbn [andb]; intros X.
      - destruct (IH X) as [w [A B]]. exists w. simpl; auto.
      - exists v. simpl; auto. }
    destruct X as [v [A B]]. apply in_seq in A. apply Nat.eqb_neq in B. exists v. lia.
Qed.

Section Run.
Variables (n : nat) (tr : translator) (K : nat -> nat) (phi : nat -> nat -> nat).
Hypothesis Htr : forall t, okt n K t -> tr_degree n tr t = Some (tdeg n phi t).
Hypothesis phi_mono : forall v i j, v < n -> i <= j -> j < K v -> phi v i <= phi v j.

Lemma okt_product : forall s g, sok n K s -> In g (bs_I s) -> okt n K (t_product n (bs_q s) g).
Proof. intros s g Hs Hg. split; auto using t_product_length. intros v Hv. rewrite t_product_nth by auto. pose proof (sok_K _ _ _ Hs g v Hg Hv). lia. Qed.
Lemma okt_q : forall s, sok n K s -> okt n K (bs_q s).
Proof. intros s [? ? ? ?]. split; auto. Qed.

Lemma simple_spec : forall uni s, sok n K s ->
  match simpleBaseCase n s with
  | Some out => exists o, rep n K phi uni out o /\ base_sum n s o
  | None => 2 < length (bs_I s)
  end.
Proof.
  intros uni s Hs. pose proof (okt_q s Hs) as Q. pose proof (okt_product s) as P. unfold simpleBaseCase.
  destruct (bs_I s) as [|a [|b [|c I]]] eqn:E; cbn [length].
  - exists [(true, bs_q s)]. split; [apply (rep_bouts n K phi uni [(true, bs_q s)]); auto|]. intros h. rewrite E. cbn [taylor]. unfold fsum. cbn [map fst snd sign].
    rewrite product_id by apply Q. change (zsum [?x]) with (x + 0)%Z. lia.
  - exists [(true, bs_q s); (false, t_product n (bs_q s) a)]. split.
    + apply (rep_bouts n K phi uni [(true, bs_q s); (false, t_product n (bs_q s) a)]). repeat constructor; try apply Q; apply P; auto; simpl; auto.
    + intros h. rewrite E. cbn [taylor]. unfold fsum. cbn [map fst snd sign].
      assert (La : length a = n) by (apply (sok_wf _ _ _ Hs); rewrite E; simpl; auto).
      rewrite product_id by apply Q. rewrite lcm_id by auto. rewrite (product_comm n a). change (zsum [?x; ?y]) with (x + (y + 0))%Z. lia.
  - exists [(true, bs_q s); (false, t_product n (bs_q s) a); (false, t_product n (bs_q s) b); (true, t_product n (t_lcm n a b) (bs_q s))]. split.
    + apply (rep_bouts n K phi uni [(true, bs_q s); (false, t_product n (bs_q s) a); (false, t_product n (bs_q s) b); (true, t_product n (t_lcm n a b) (bs_q s))]).
      assert (Ia : In a (bs_I s)) by (rewrite E; simpl; auto). assert (Ib : In b (bs_I s)) by (rewrite E; simpl; auto).
      repeat apply Forall_cons; cbn [snd]; auto; try (apply P; auto; rewrite <- E; auto).
      split; auto using t_product_length. intros v Hv. rewrite t_product_nth, t_lcm_nth by auto.
      pose proof (sok_K _ _ _ Hs a v Ia Hv). pose proof (sok_K _ _ _ Hs b v Ib Hv). lia.
    + intros h. rewrite E. cbn [taylor]. unfold fsum. cbn [map fst snd sign].
      assert (La : length a = n) by (apply (sok_wf _ _ _ Hs); rewrite E; simpl; auto).
      assert (Lb : length b = n) by (apply (sok_wf _ _ _ Hs); rewrite E; simpl; auto).
      rewrite product_id by apply Q. rewrite !lcm_id by auto. rewrite (product_comm n a), (product_comm n b).
      change (zsum [?x; ?y; ?z; ?w]) with (x + (y + (z + (w + 0))))%Z. lia.
  - lia.
Qed.
Lemma b_scarf_spec : forall fuel uni s allFaces, sok n K s -> cost (length (bs_I s)) <= fuel ->
  exists out o, b_scarf fuel n uni tr s allFaces = Some out /\ rep n K phi uni out o /\ base_sum n s o.
Proof.
  intros fuel uni s allFaces Hs Hf. unfold b_scarf. rewrite enumerate_spec by auto.
  assert (G : exists o, rep n K phi uni (bouts (shift_out n (bs_q s) (faces n (bad_of n allFaces (bs_I s)) true (t_identity n) (bs_I s)))) o /\ base_sum n s o).
  { eexists. split; [apply rep_bouts, shift_okt; auto|apply enumerate_sum]. }
  destruct (allFaces && uni) eqn:E.
  - apply andb_true_iff in E. destruct E as [-> ->]. destruct (uni_all_spec n tr K phi Htr phi_mono s Hs) as [->|[out [-> R]]].
    + destruct G as [o [A B]]. eauto.
    + eexists. eexists. split; [reflexivity|]. split; [exact R|apply enumerate_sum].
  - destruct G as [o [A B]]. eauto.
Qed.
Lemma base_spec : forall fuel (generic : bool) uni s, sok n K s -> cost (length (bs_I s)) <= fuel ->
  ((if generic then genericBaseCase else baseCase) fuel n uni tr s = Some None /\ shares n (bs_I s)) \/
  exists out o, (if generic then genericBaseCase else baseCase) fuel n uni tr s = Some (Some out) /\ rep n K phi uni out o /\ base_sum n s o.
Proof.
  intros fuel generic uni s Hs Hf.
  assert (B : (baseCase fuel n uni tr s = Some None /\ shares n (bs_I s)) \/
    exists out o, baseCase fuel n uni tr s = Some (Some out) /\ rep n K phi uni out o /\ base_sum n s o).
  { unfold baseCase. pose proof (simple_spec uni s Hs) as S. destruct (simpleBaseCase n s) as [out|].
    - right. destruct S as [o [A B]]. eauto.
    - cbv zeta. pose proof (sok_minl _ _ _ Hs) as M.
      assert (D : i_disjointSupport n (bs_I s) = true \/ shares n (bs_I s)).
      { destruct (i_disjointSupport n (bs_I s)) eqn:D; auto. right. apply disjoint_false; auto. apply M. }
      assert (X : shares n (bs_I s) \/ ((n <? length (bs_I s)) = false /\ (t_sizeOfSupport n (i_lcm n (bs_I s)) <? length (bs_I s)) = false /\
         exclusive_max n (i_lcm n (bs_I s)) [] (bs_I s) = true)).
      { destruct D as [D|D]; auto. right.
        destruct (disjoint_few n (bs_I s) (proj1 M) ltac:(intros g Hg; apply (minl_nonzero n (bs_I s)); auto; lia) D) as (L1 & L2 & L3).
        rewrite !(proj2 (Nat.ltb_ge _ _)) by auto. auto. }
      destruct (b_scarf_spec fuel uni s true Hs Hf) as (out & o & A & C & F). rewrite A. cbn [bind].
      destruct X as [X|(-> & -> & ->)]; [|right; eauto].
      destruct (n <? length (bs_I s)); auto. destruct (t_sizeOfSupport n (i_lcm n (bs_I s)) <? length (bs_I s)); auto.
      destruct (exclusive_max n (i_lcm n (bs_I s)) [] (bs_I s)); auto. right; eauto. }
  destruct generic; auto. unfold genericBaseCase. destruct B as [[-> B]|(out & o & -> & R & S)]; cbn [bind]; [|right; eauto].
  destruct (i_isWeaklyGeneric n (bs_I s)); [right|left; auto].
  destruct (b_scarf_spec fuel uni s false Hs Hf) as (out & o & A & C & F). rewrite A. cbn [bind]. eauto.
Qed.

(** ** The steps *)
Lemma gcd_fold : forall l g, length g = n -> length (fold_left (t_gcd n) l g) = n /\
  le_n n (fold_left (t_gcd n) l g) g /\ (forall h, In h l -> le_n n (fold_left (t_gcd n) l g) h) /\
  (forall d, le_n n d g -> (forall h, In h l -> le_n n d h) -> le_n n d (fold_left (t_gcd n) l g)).
Proof.
  induction l as [|b l IH]; intros g Hg; cbn [fold_left].
  - repeat split; auto. apply le_n_refl. intros h [].
  - destruct (IH (t_gcd n g b) (t_gcd_length n g b)) as (A & B & C & D).
    assert (L1 : le_n n (t_gcd n g b) g) by (intros v Hv; rewrite t_gcd_nth by auto; lia).
    assert (L2 : le_n n (t_gcd n g b) b) by (intros v Hv; rewrite t_gcd_nth by auto; lia).
    repeat split; auto.
    + eapply le_n_trans; eauto.
    + intros h [<-|Hh]; auto. eapply le_n_trans; eauto.
    + intros d H1 H2. apply D; [|intros; apply H2; simpl; auto]. intros v Hv. rewrite t_gcd_nth by auto. specialize (H1 v Hv). specialize (H2 b (or_introl eq_refl) v Hv). lia.
Qed.
Lemma gcd_of_spec : forall l, wf n l -> length (gcd_of n l) = n /\ (forall h, In h l -> le_n n (gcd_of n l) h) /\
  (l <> [] -> forall d, (forall h, In h l -> le_n n d h) -> le_n n d (gcd_of n l)).
Proof.
  intros [|g l] Hw; cbn [gcd_of].
  - split; [apply t_identity_length|]. split; [intros h []|congruence].
  - destruct (gcd_fold l g (Hw g (or_introl eq_refl))) as (A & B & C & D). repeat split; auto.
    + intros h [<-|Hh]; auto.
    + intros _ d H. apply D; intros; apply H; simpl; auto.
Qed.
Lemma i_gcd_eq : forall I, i_gcd n I = gcd_of n I.
Proof. intros [|g I]; auto. Qed.

Lemma colon_sok : forall s p g0, sok n K s -> length p = n -> In g0 (bs_I s) -> le_n n p g0 -> sok n K (bs_colon n s p).
Proof.
  intros s p g0 Hs Hp Hg0 Hle. pose proof Hs as [Hw Hm Hq HqK HK]. pose proof (minimizer_colonTerm_spec n (bs_I s) p Hw Hm Hp) as X. destruct X as [(A & B & C & D) _].
  constructor; cbn [bs_colon bs_I bs_q]; auto using t_product_length.
  - intros v Hv. rewrite t_product_nth by auto. specialize (HK g0 v Hg0 Hv). specialize (Hle v Hv). lia.
  - intros k v Hk Hv. destruct (C k Hk) as [g [Hg ->]]. rewrite t_product_nth, t_colon_nth by auto.
    pose proof (HK g0 v Hg0 Hv). pose proof (HK g v Hg Hv). specialize (Hle v Hv). lia.
Qed.
Lemma add_sok : forall s p g0, sok n K s -> length p = n -> In g0 (bs_I s) -> le_n n p g0 -> sok n K (bs_add n s p).
Proof.
  intros s p g0 Hs Hp Hg0 Hle. pose proof Hs as [Hw Hm Hq HqK HK]. destruct (insert_minl n (bs_I s) p Hw Hm Hp) as (A & B & C).
  constructor; cbn [bs_add bs_I bs_q]; auto.
  intros k v Hk Hv. destruct (C k Hk) as [Hk'| ->]; auto. pose proof (HK g0 v Hg0 Hv). specialize (Hle v Hv). lia.
Qed.
Lemma sval_nonneg : forall s m, (0 <= sval n s m)%Z.
Proof.
  intros s m. destruct (le_n_dec n (bs_q s) m) as [A|A].
  - destruct (i_contains_dec n (bs_I s) (t_colon n m (bs_q s))) as [B|B]; [rewrite sval_0; auto; lia|rewrite sval_1; auto; lia].
  - rewrite sval_0; [lia|]. intros; contradiction.
Qed.
Definition Kbox : list term := box (tabulate n K).
Lemma okt_box : forall t, okt n K t <-> In t Kbox.
Proof.
  intros t. unfold Kbox. rewrite box_in, tabulate_length. unfold okt. split; intros [A B]; split; auto; intros v Hv; specialize (B v Hv);
    rewrite tabulate_nth in * by auto; auto.
Qed.
Definition vol (s : bstate) : Z := zsum (map (sval n s) Kbox).
Lemma zsum_nonneg : forall (A : Type) (f : A -> Z) l, (forall x, In x l -> (0 <= f x)%Z) -> (0 <= zsum (map f l))%Z.
Proof. intros A f l H. transitivity (zsum (map (fun _ : A => 0%Z) l)); [rewrite zsum_zero; auto; lia|]. apply zsum_le; auto. Qed.
Lemma vol_nonneg : forall s, (0 <= vol s)%Z.
Proof. intros s. apply zsum_nonneg. intros; apply sval_nonneg. Qed.
Lemma zsum_ge : forall (A : Type) (f : A -> Z) l x, (forall x, In x l -> (0 <= f x)%Z) -> In x l -> (f x <= zsum (map f l))%Z.
Proof.
  intros A f l x. induction l as [|a l IH]; intros H Hi; [destruct Hi|]. cbn [map]. change (zsum (?a :: ?l)) with (a + zsum l)%Z. destruct Hi as [->|Hi].
  - pose proof (zsum_nonneg A f l ltac:(intros; apply H; simpl; auto)). lia.
  - specialize (IH ltac:(intros; apply H; simpl; auto) Hi). specialize (H a (or_introl eq_refl)). lia.
Qed.
Lemma vol_pos : forall s, sok n K s -> ~ inI n (bs_I s) (t_identity n) -> (1 <= vol s)%Z.
Proof.
  intros s Hs H. rewrite <- (sval_1 n s (bs_q s)).
  - apply zsum_ge; [intros; apply sval_nonneg|]. apply okt_box, okt_q; auto.
  - apply le_n_refl.
  - intros X. apply H. apply inI_ext with (t_colon n (bs_q s) (bs_q s)); auto. intros v Hv. rewrite t_colon_nth, t_identity_nth by auto. lia.
Qed.
Lemma gens_bound : forall s, sok n K s -> length (bs_I s) <= length Kbox.
Proof.
  intros s Hs. apply NoDup_incl_length; [apply (sok_minl _ _ _ Hs)|]. intros g Hg. apply okt_box. split; [apply (sok_wf _ _ _ Hs); auto|].
  intros v Hv. pose proof (sok_K _ _ _ Hs g v Hg Hv). lia.
Qed.
End Run.
