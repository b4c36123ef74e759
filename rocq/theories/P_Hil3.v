(** Correctness of HilbertBasecase. *)
From Coq Require Import List Arith Bool ZArith Lia Permutation.
Import ListNotations.
From Verif Require Import Spec M_Term M_Ideal M_Slice M_Partition M_Msm M_Api M_Hilbert P_Term P_Ideal P_Bridge P_Msm1 P_Msm2 P_Split P_Hil1 P_Hil2.
Local Open Scope nat_scope.

Record hinv (n : nat) (A : ideal) (V : list nat) : Prop := mkHinv {
  hi_wf : wf n A;
  hi_min : minl n A;
  hi_sqf : forall g v, In g A -> v < n -> g @ v <= 1;
  hi_one : forall g, In g A -> exists v, v < n /\ 0 < g @ v;
  hi_nd : NoDup V;
  hi_lt : forall v, In v V -> v < n;
  hi_sup : forall g v, In g A -> v < n -> 0 < g @ v -> In v V }.

Lemma hinv_perm : forall n A V W, Permutation V W -> hinv n A V -> hinv n A W.
Proof.
  intros n A V W HP [H1 H2 H3 H4 H5 H6 H7]. constructor; auto.
  - eapply Permutation_NoDup; eauto.
  - intros v Hv. apply H6. apply (Permutation_in v (Permutation_sym HP)); auto.
  - intros g v Hg Hv Hp. apply (Permutation_in v HP). eauto.
Qed.

Lemma hinv_filter : forall n A V x f, hinv n A (x :: V) -> (forall g, In g A -> f g = true -> g @ x = 0) ->
  hinv n (filter f A) V.
Proof.
  intros n A V x f [H1 H2 H3 H4 H5 H6 H7] Hf. inversion H5; subst. constructor; auto.
  - intros g Hg. apply filter_In in Hg. apply H1; tauto.
  - apply minl_filter; auto.
  - intros g v Hg. apply filter_In in Hg. apply H3; tauto.
  - intros g Hg. apply filter_In in Hg. apply H4; tauto.
  - intros v Hv. apply H6; simpl; auto.
  - intros g v Hg Hv Hp. apply filter_In in Hg. destruct Hg as [Hg E]. destruct (H7 g v Hg Hv Hp) as [<-|]; auto.
    rewrite (Hf g Hg E) in Hp. lia.
Qed.

Lemma colon_x_nth : forall n g x v, v < n -> g @ x <= 1 ->
  (t_colon n g (var_pow n x 1)) @ v = if v =? x then 0 else g @ v.
Proof.
  intros n g x v Hv Hs. rewrite t_colon_nth, var_pow_nth by auto. destruct (Nat.eqb_spec v x); subst; lia.
Qed.

Lemma hinv_colon : forall n A V x J, hinv n A (x :: V) -> x < n -> is_colon n A (var_pow n x 1) J ->
  (forall g, In g A -> 0 < g @ x -> exists w, w < n /\ w <> x /\ 0 < g @ w) -> hinv n J V.
Proof.
  intros n A V x J [H1 H2 H3 H4 H5 H6 H7] Hx [M [W [C1 C2]]] Hne. inversion H5; subst. constructor; auto.
  - intros k v Hk Hv. destruct (C1 k Hk) as [g [Hg ->]]. rewrite colon_x_nth by auto.
    destruct (v =? x); auto.
  - intros k Hk. destruct (C1 k Hk) as [g [Hg ->]]. destruct (Nat.eq_dec (g @ x) 0) as [E0|E0].
    + destruct (H4 g Hg) as [v [Hv Hp]]. exists v. split; auto. rewrite colon_x_nth by auto.
      destruct (Nat.eqb_spec v x); [subst; lia|auto].
    + destruct (Hne g Hg ltac:(lia)) as [w [Hw [Hwx Hp]]]. exists w. split; auto. rewrite colon_x_nth by auto.
      destruct (Nat.eqb_spec w x); [contradiction|auto].
  - intros v Hv. apply H6; simpl; auto.
  - intros k v Hk Hv Hp. destruct (C1 k Hk) as [g [Hg ->]]. rewrite colon_x_nth in Hp by auto.
    destruct (Nat.eqb_spec v x); [lia|]. destruct (H7 g v Hg Hv Hp); [congruence|auto].
Qed.

(** ** Counts *)
Definition cnt (A : ideal) (v : nat) : nat := length (filter (fun g => 0 <? g @ v) A).
Lemma counts_nth : forall n A v, v < n -> (i_supportCounts n A) @ v = cnt A v.
Proof. intros. unfold i_supportCounts. rewrite tabulate_nth; auto. Qed.

Lemma cnt_0 : forall A v, cnt A v = 0 <-> forall g, In g A -> g @ v = 0.
Proof.
  intros A v. unfold cnt. split.
  - intros H g Hg. apply length_zero_iff_nil in H. destruct (Nat.eq_dec (g @ v) 0); auto. exfalso.
    assert (In g (filter (fun g => 0 <? g @ v) A)) by (apply filter_In; split; auto; apply Nat.ltb_lt; lia).
    rewrite H in H0. destruct H0.
  - intros H. apply length_zero_iff_nil. induction A as [|g A IH]; simpl; auto. rewrite (H g) by (simpl; auto).
    simpl. apply IH. intros; apply H; simpl; auto.
Qed.

Lemma cnt_1 : forall A v, NoDup A -> cnt A v = 1 -> exists g, In g A /\ 0 < g @ v /\ forall h, In h A -> 0 < h @ v -> h = g.
Proof.
  intros A v Hnd H. apply filter_length_1 in H; auto. destruct H as [g [Hg [Hp Hu]]]. exists g. split; auto.
  split; [apply Nat.ltb_lt; auto|]. intros h Hh Hph. apply Hu; auto. apply Nat.ltb_lt; auto.
Qed.

(** a variable in two generators is no generator *)
Lemma two_gens : forall n A V x, hinv n A V -> x < n -> 2 <= cnt A x ->
  forall g, In g A -> 0 < g @ x -> exists w, w < n /\ w <> x /\ 0 < g @ w.
Proof.
  intros n A V x HI Hx Hc g Hg Hp.
  destruct (existsb (fun w => negb (w =? x) && (0 <? g @ w)) (seq 0 n)) eqn:Ee.
  - apply existsb_seq in Ee. destruct Ee as [w [Hw Ee]]. apply andb_true_iff in Ee. destruct Ee as [E1 E2].
    apply negb_true_iff, Nat.eqb_neq in E1. apply Nat.ltb_lt in E2. exists w; auto.
  - exfalso. assert (Hz : forall w, w < n -> w <> x -> g @ w = 0).
    { intros w Hw Hne. pose proof (existsb_false_all _ _ Ee w ltac:(apply in_seq; lia)) as E. cbv beta in E.
      destruct (Nat.eqb_spec w x); [contradiction|]. simpl in E. apply Nat.ltb_ge in E. lia. }
    assert (Hall : forall h, In h A -> 0 < h @ x -> h = g).
    { intros h Hh Hph. symmetry. apply (proj2 (hi_min _ _ _ HI)); auto. intros w Hw.
      destruct (Nat.eq_dec w x) as [->|Hne]; [|rewrite Hz; auto; lia].
      pose proof (hi_sqf _ _ _ HI g x Hg Hx). lia. }
    unfold cnt in Hc. assert (E1 : length (filter (fun g0 => 0 <? g0 @ x) A) = 1); [|lia].
    apply filter_length_1; [apply (hi_min _ _ _ HI)|]. exists g. split; auto. split; [apply Nat.ltb_lt; auto|].
    intros y Hy Ey. apply Nat.ltb_lt in Ey. auto.
Qed.

(** ** Eliminating a generator with private variables *)
Definition inb (v : nat) (l : list nat) : bool := existsb (Nat.eqb v) l.
Lemma inb_iff : forall v l, inb v l = true <-> In v l.
Proof.
  intros. unfold inb. rewrite existsb_exists. split.
  - intros [x [Hx E]]. apply Nat.eqb_eq in E. subst; auto.
  - intros H. exists v. split; auto. apply Nat.eqb_refl.
Qed.

Lemma colon_all_spec : forall n var vars A V g, hinv n A V -> In g A -> var < n -> 0 < g @ var ->
  (forall h, In h A -> 0 < h @ var -> h = g) -> NoDup vars -> ~ In var vars ->
  (forall v, In v vars -> v < n /\ 0 < g @ v) ->
  exists J V' g', colon_all n A vars = Some J /\ hinv n J V' /\ Permutation V (vars ++ V') /\
    F n A V = F n J V' /\ In g' J /\ (forall v, v < n -> g' @ v = if inb v vars then 0 else g @ v) /\
    (forall h, In h J -> exists h0, In h0 A /\ forall v, v < n -> h @ v = if inb v vars then 0 else h0 @ v).
Proof.
  intros n var. induction vars as [|x vars IH]; intros A V g HI Hg Hvar Hgv Hpriv Hnd Hnv Hvars.
  - exists A, V, g. simpl. repeat (split; auto). intros h Hh. exists h. auto.
  - inversion Hnd as [|? ? Hx Hnd']; subst. destruct (Hvars x (or_introl eq_refl)) as [Hxn Hgx].
    assert (Hxv : x <> var) by (intros ->; apply Hnv; simpl; auto).
    assert (HxV : In x V) by (eapply (hi_sup _ _ _ HI); eauto).
    destruct (split_perm x V HxV (hi_nd _ _ _ HI)) as [V1 [HP [Hnd1 Hn1]]].
    pose proof (hinv_perm _ _ _ _ HP HI) as HI1.
    destruct (minimizer_colonVar_spec n A x 1 (hi_wf _ _ _ HI) (hi_min _ _ _ HI) Hxn) as [HJ [Hch _]].
    cbn [colon_all]. unfold i_colonReminimizeVar. destruct (minimizer_colonVar n A x 1) as [J1 ch]. cbn [fst snd] in *.
    assert (Ech : ch = true).
    { apply Hch. exists g. split; auto. pose proof (hi_sqf _ _ _ HI g x Hg Hxn). lia. }
    subst ch.
    assert (Hne : forall h, In h A -> 0 < h @ x -> exists w, w < n /\ w <> x /\ 0 < h @ w).
    { intros h Hh Hhx. 
      destruct (existsb (fun w => negb (w =? x) && (0 <? h @ w)) (seq 0 n)) eqn:Ee.
      - apply existsb_seq in Ee. destruct Ee as [w [Hw Ee]]. apply andb_true_iff in Ee. destruct Ee as [E1 E2].
        apply negb_true_iff, Nat.eqb_neq in E1. apply Nat.ltb_lt in E2. exists w; auto.
      - assert (Hz : forall w, w < n -> w <> x -> h @ w = 0).
        { intros w Hw Hne. pose proof (existsb_false_all _ _ Ee w ltac:(apply in_seq; lia)) as E. cbv beta in E.
          destruct (Nat.eqb_spec w x); [contradiction|]. simpl in E. apply Nat.ltb_ge in E. lia. }
        assert (h = g).
        { apply (proj2 (hi_min _ _ _ HI)); auto. intros w Hw. destruct (Nat.eq_dec w x) as [->|Hne].
          - pose proof (hi_sqf _ _ _ HI h x Hh Hxn). lia.
          - rewrite Hz; auto. lia. }
        subst h. exists var. auto. }
    pose proof (hinv_colon n A V1 x J1 HI1 Hxn HJ Hne) as HIJ.
    set (g1 := t_colon n g (var_pow n x 1)).
    assert (Hsq : forall h, In h A -> h @ x <= 1) by (intros h Hh; apply (hi_sqf _ _ _ HI); auto).
    assert (Hg1 : In g1 J1).
    { destruct HJ as [_ [_ [C1 C2]]]. destruct (C2 g Hg) as [k [Hk Hle]]. destruct (C1 k Hk) as [h [Hh ->]].
      assert (h = g); [|subst; auto]. apply (proj2 (hi_min _ _ _ HI)); auto. intros w Hw.
      specialize (Hle w Hw). rewrite !colon_x_nth in Hle by auto. specialize (Hsq h Hh).
      destruct (Nat.eqb_spec w x); [subst; lia|auto]. }
    assert (Hg1n : forall v, v < n -> g1 @ v = if v =? x then 0 else g @ v) by (intros; apply colon_x_nth; auto).
    destruct (IH J1 V1 g1 HIJ Hg1 Hvar) as [J [V' [g' [P1 [P2 [P3 [P4 [P5 [P6 P7]]]]]]]]].
    + rewrite Hg1n by auto. destruct (Nat.eqb_spec var x); [congruence|auto].
    + intros h Hh Hhv. destruct HJ as [_ [_ [C1 _]]]. destruct (C1 h Hh) as [h0 [Hh0 ->]].
      rewrite colon_x_nth in Hhv by auto. destruct (Nat.eqb_spec var x); [congruence|].
      rewrite (Hpriv h0 Hh0 Hhv). reflexivity.
    + auto.
    + intros H. apply Hnv. simpl; auto.
    + intros v Hv. destruct (Hvars v (or_intror Hv)) as [Hvn Hgv']. split; auto. rewrite Hg1n by auto.
      destruct (Nat.eqb_spec v x); [subst; contradiction|auto].
    + exists J, V', g'. split; [exact P1|]. split; auto. split.
      { simpl. rewrite HP. constructor. auto. }
      split.
      { rewrite (F_perm _ _ _ _ HP). rewrite <- P4. apply (F_simp n A x var J1 V1); auto.
        - constructor; auto.
        - pose proof (hi_sup _ _ _ HI1 g var Hg Hvar Hgv) as [E|E]; [congruence|auto].
        - intros h Hh Hhv. rewrite (Hpriv h Hh Hhv). auto. }
      split; auto. split.
      * intros v Hv. rewrite P6 by auto. cbn [inb existsb]. rewrite Hg1n by auto.
        destruct (Nat.eqb_spec v x); cbn [orb]; fold (inb v vars); destruct (inb v vars); auto.
      * intros h Hh. destruct (P7 h Hh) as [h1 [Hh1 E1]]. destruct HJ as [_ [_ [C1 _]]].
        destruct (C1 h1 Hh1) as [h0 [Hh0 ->]]. exists h0. split; auto. intros v Hv. rewrite E1 by auto.
        cbn [inb existsb]. rewrite colon_x_nth by auto.
        destruct (Nat.eqb_spec v x); cbn [orb]; fold (inb v vars); destruct (inb v vars); auto.
Qed.

Lemma removeMultiple_spec : forall J var, NoDup J ->
  (forall g h, In g J -> In h J -> 0 < g @ var -> 0 < h @ var -> g = h) ->
  forall g, In g J -> 0 < g @ var ->
  (forall h, In h (i_removeMultiple J var) <-> In h J /\ h <> g) /\ NoDup (i_removeMultiple J var) /\
  i_getMultiple J var = Some g.
Proof.
  induction J as [|a J IH]; intros var Hnd Hu g Hg Hp; [destruct Hg|]. inversion Hnd; subst. simpl.
  unfold i_getMultiple. simpl. destruct (Nat.ltb_spec 0 (a @ var)) as [Ha|Ha].
  - assert (g = a) by (apply Hu; simpl; auto). subst a. split; [|split; auto].
    intros h. split; [intros Hh; split; auto; intros ->; contradiction|intros [[<-|Hh] Hne]; [congruence|auto]].
  - destruct Hg as [->|Hg]; [lia|]. destruct (IH var H2) with (g := g) as [P1 [P2 P3]]; auto.
    { intros; apply Hu; simpl; auto. }
    split; [|split].
    + intros h. simpl. rewrite P1. split.
      * intros [->|[Hh Hne]]; auto. split; auto. intros ->. lia.
      * intros [[->|Hh] Hne]; auto.
    + constructor; auto. rewrite P1. tauto.
    + exact P3.
Qed.

Lemma perm_sub : forall (V G : list nat), NoDup V -> NoDup G -> incl G V ->
  Permutation V (G ++ filter (fun v => negb (inb v G)) V).
Proof.
  intros V G HV HG Hi. apply NoDup_Permutation; auto.
  - apply NoDup_app_intro; auto. apply NoDup_filter; auto. intros x Hx Hf. apply filter_In in Hf.
    apply inb_iff in Hx. rewrite Hx in Hf. simpl in Hf. destruct Hf; discriminate.
  - intros x. rewrite in_app_iff, filter_In. split.
    + intros Hx. destruct (inb x G) eqn:Ei; [left; apply inb_iff; auto|right; auto].
    + intros [Hx|[Hx _]]; auto.
Qed.

Lemma F_remove : forall n J V g R, hinv n J V -> In g J ->
  (forall h, In h R <-> In h J /\ h <> g) -> NoDup R ->
  (forall h v, In h J -> h <> g -> v < n -> 0 < g @ v -> h @ v = 0) ->
  exists V', Permutation V (filter (fun v => 0 <? g @ v) (seq 0 n) ++ V') /\ hinv n R V' /\ F n J V = (- F n R V')%Z.
Proof.
  intros n J V g R HI Hg HR HndR Hpriv. set (G := filter (fun v => 0 <? g @ v) (seq 0 n)).
  assert (HGin : forall v, In v G <-> v < n /\ 0 < g @ v).
  { intros v. unfold G. rewrite filter_In, in_seq, Nat.ltb_lt. lia. }
  assert (HGV : incl G V). { intros v Hv. apply HGin in Hv. apply (hi_sup _ _ _ HI g v); tauto. }
  assert (HGnd : NoDup G) by (apply NoDup_filter; apply seq_NoDup).
  pose proof (perm_sub V G (hi_nd _ _ _ HI) HGnd HGV) as HP. set (V' := filter (fun v => negb (inb v G)) V) in *.
  assert (HV' : forall v, In v V' <-> In v V /\ ~ In v G).
  { intros v. unfold V'. rewrite filter_In. rewrite <- (inb_iff v G). destruct (inb v G); simpl; intuition congruence. }
  exists V'. split; auto. split.
  - destruct HI as [H1 H2 H3 H4 H5 H6 H7]. constructor.
    + intros h Hh. apply HR in Hh. apply H1; tauto.
    + split; auto. intros a b Ha Hb. apply HR in Ha, Hb. apply (proj2 H2); tauto.
    + intros h v Hh. apply HR in Hh. apply H3; tauto.
    + intros h Hh. apply HR in Hh. apply H4; tauto.
    + apply NoDup_filter; auto.
    + intros v Hv. apply HV' in Hv. apply H6; tauto.
    + intros h v Hh Hv Hp. apply HR in Hh. apply HV'. split; [apply (H7 h v); tauto|].
      intros Hin. apply HGin in Hin. assert (h @ v = 0) by (apply Hpriv; tauto). lia.
  - rewrite (F_perm _ _ _ _ HP). unfold F.
    rewrite (dif_ext _ _ (fun m => ((1 - dv n g m) * (1 - ind n R m))%Z)).
    + rewrite dif_product.
      * fold (F n R V').
        assert (E1 : dif G (fun x => (1 - dv n g x)%Z) (t_identity n) = (-1)%Z).
        { rewrite (dif_sub G (fun _ => 1%Z) (dv n g)).
          rewrite dif_const; [|].
          - rewrite dif_dv; auto.
            + rewrite (proj2 (forallb_forall _ G)); [lia|]. intros v Hv. apply HGin in Hv. apply Nat.ltb_lt; tauto.
            + intros v Hv. apply HGin in Hv; tauto.
            + intros v Hv. apply (hi_sqf _ _ _ HI); auto.
            + intros v Hv Hp. apply HGin; auto.
          - destruct (hi_one _ _ _ HI g Hg) as [v [Hv Hp]]. intros E0.
            assert (In v G) by (apply HGin; auto). rewrite E0 in H. destruct H. }
        rewrite E1. lia.
      * intros x v Hv. f_equal. apply HGin in Hv. apply ind_iff.
        split; intros [h [Hh Hle]]; exists h; split; auto; apply (le_tv n h x v); auto;
        apply HR in Hh; rewrite (Hpriv h v); try tauto; lia.
      * intros x w Hw. f_equal. apply HV' in Hw. unfold dv.
        assert (E0 : g @ w = 0).
        { destruct (Nat.eq_dec (g @ w) 0); auto. exfalso. apply Hw. apply HGin. split; [|lia]. apply (hi_lt _ _ _ HI); tauto. }
        assert (Hb : t_divides n g (tv x w) = t_divides n g x).
        { apply eq_true_iff_eq. rewrite !t_divides_iff. apply le_tv. lia. }
        rewrite Hb. auto.
    + intros x _. unfold dv. destruct (t_divides n g x) eqn:Ed.
      * apply t_divides_iff in Ed. rewrite ind_1; [lia|]. exists g; auto.
      * rewrite (ind_iff n J R x x); [lia|]. split.
        -- intros [h [Hh Hle]]. exists h. split; auto. apply HR. split; auto. intros ->.
           apply t_divides_iff in Hle. congruence.
        -- intros [h [Hh Hle]]. exists h. split; auto. apply HR in Hh. tauto.
Qed.

(** ** Counting by columns *)
Fixpoint E2 (k : nat) (cols : list (bool * list bool)) : Z :=
  match k with
  | 0 => if forallb fst cols then 1%Z else 0%Z
  | S k' => Z.sub (E2 k' (map (fun c => (fst c, tl (snd c))) cols))
                  (E2 k' (map (fun c => (fst c || hd false (snd c), tl (snd c))) cols))
  end.

Lemma E_E2 : forall V A u, E V A u = E2 (length A) (map (fun v => (u v, map (fun g => 0 <? g @ v) A)) V).
Proof.
  intros V A. induction A as [|g A IH]; intros u; cbn [E E2 length].
  - match goal with |- _ = (if forallb fst ?l then _ else _) => assert (Hf : forallb fst l = forallb u V) end.
    { clear. induction V as [|v V IHV]; simpl; auto. f_equal. apply IHV. }
    rewrite Hf. auto.
  - rewrite !IH. rewrite !map_map. cbn [fst snd map tl hd]. reflexivity.
Qed.

Definition codes : list (list bool) :=
  [[true;true;false;false];[true;false;true;false];[true;false;false;true];
   [false;true;true;false];[false;true;false;true];[false;false;true;true]].
Definition beq (a b : list bool) : bool := if list_eq_dec bool_dec a b then true else false.
Lemma four_check : forallb (fun a => forallb (fun b => forallb (fun c => forallb (fun d =>
  beq a b || beq a c || beq a d || beq b c || beq b d || beq c d ||
  (E2 4 [(false, a); (false, b); (false, c); (false, d)] =? -1)%Z) codes) codes) codes) codes = true.
Proof. vm_compute. reflexivity. Qed.

Lemma four_E2 : forall a b c d, In a codes -> In b codes -> In c codes -> In d codes ->
  a <> b -> a <> c -> a <> d -> b <> c -> b <> d -> c <> d ->
  E2 4 [(false, a); (false, b); (false, c); (false, d)] = (-1)%Z.
Proof.
  intros a b c d Ha Hb Hc Hd N1 N2 N3 N4 N5 N6. pose proof four_check as H.
  rewrite forallb_forall in H. specialize (H a Ha). rewrite forallb_forall in H. specialize (H b Hb).
  rewrite forallb_forall in H. specialize (H c Hc). rewrite forallb_forall in H. specialize (H d Hd).
  assert (Hb' : forall x y, x <> y -> beq x y = false).
  { intros x y Hn. unfold beq. destruct (list_eq_dec bool_dec x y); [contradiction|auto]. }
  rewrite !Hb' in H by auto. cbn [orb] in H. apply Z.eqb_eq in H. auto.
Qed.

Lemma code_of_four : forall (f : term -> bool) (a b c d : term),
  length (filter f [a;b;c;d]) = 2 -> In (map f [a;b;c;d]) codes.
Proof.
  intros f a b c d H. simpl in *. destruct (f a), (f b), (f c), (f d); simpl in *; try lia; auto 10.
Qed.

Lemma E2_three : forall V A, length A = 3 -> (forall v, In v V -> 2 <= cnt A v) ->
  (forall g, In g A -> exists v, In v V /\ g @ v = 0) -> V <> [] -> E V A (fun _ => false) = 2%Z.
Proof.
  intros V A HA Hc Hn HV. destruct A as [|a [|b [|c [|? ?]]]]; try discriminate. clear HA.
  assert (H0 : forall u, (exists v, In v V /\ u v = false) -> (if forallb u V then 1%Z else 0%Z) = 0%Z).
  { intros u [v [Hv E0]]. destruct (forallb u V) eqn:Ef; auto. rewrite forallb_forall in Ef. rewrite (Ef v Hv) in E0. discriminate. }
  assert (H1 : forall u, (forall v, In v V -> u v = true) -> (if forallb u V then 1%Z else 0%Z) = 1%Z).
  { intros u Hu. rewrite (proj2 (forallb_forall u V)); auto. }
  assert (H2 : forall v, In v V -> 2 <= (if 0 <? a @ v then 1 else 0) + ((if 0 <? b @ v then 1 else 0) + (if 0 <? c @ v then 1 else 0))).
  { intros v Hv. specialize (Hc v Hv). unfold cnt in Hc. simpl in Hc.
    destruct (0 <? a @ v), (0 <? b @ v), (0 <? c @ v); simpl in *; lia. }
  destruct V as [|v0 V0] eqn:EV; [contradiction|]. rewrite <- EV in *. assert (Hv0 : In v0 V) by (rewrite EV; simpl; auto). clear EV HV.
  cbn [E].
  rewrite (H0 (fun _ => false)) by (exists v0; auto).
  rewrite (H0 (fun v => false || (0 <? c @ v))).
  2:{ destruct (Hn c ltac:(simpl; auto)) as [v [Hv E0]]. exists v. rewrite E0. auto. }
  rewrite (H0 (fun v => false || (0 <? b @ v))).
  2:{ destruct (Hn b ltac:(simpl; auto)) as [v [Hv E0]]. exists v. rewrite E0. auto. }
  rewrite (H0 (fun v => false || (0 <? a @ v))).
  2:{ destruct (Hn a ltac:(simpl; auto)) as [v [Hv E0]]. exists v. rewrite E0. auto. }
  rewrite !H1; [reflexivity| | | |]; intros v Hv; specialize (H2 v Hv);
    destruct (0 <? a @ v), (0 <? b @ v), (0 <? c @ v); simpl in *; auto; lia.
Qed.

Lemma E_two : forall V a b, (exists v, In v V /\ 0 < a @ v /\ b @ v = 0) -> (exists v, In v V /\ a @ v = 0 /\ 0 < b @ v) ->
  (forall v, In v V -> 0 < a @ v \/ 0 < b @ v) -> E V [a; b] (fun _ => false) = 1%Z.
Proof.
  intros V a b [v [Hv [Hv1 Hv2]]] [w [Hw [Hw1 Hw2]]] Hc.
  assert (H0 : forall u, (exists v, In v V /\ u v = false) -> (if forallb u V then 1%Z else 0%Z) = 0%Z).
  { intros u [v' [Hv' E0]]. destruct (forallb u V) eqn:Ef; auto. rewrite forallb_forall in Ef. rewrite (Ef v' Hv') in E0. discriminate. }
  cbn [E]. rewrite (H0 (fun _ => false)) by (exists v; auto).
  rewrite (H0 (fun v => false || (0 <? b @ v))) by (exists v; rewrite Hv2; auto).
  rewrite (H0 (fun v => false || (0 <? a @ v))) by (exists w; rewrite Hw1; auto).
  rewrite (proj2 (forallb_forall _ V)); [reflexivity|].
  intros x Hx. destruct (Hc x Hx) as [H|H]; apply Nat.ltb_lt in H; rewrite H; rewrite ?orb_true_r; auto.
Qed.

Lemma E_disjoint : forall V A u, (forall v, In v V -> cnt A v <= 1) ->
  (forall g, In g A -> exists v, In v V /\ 0 < g @ v /\ u v = false) ->
  (forall v, In v V -> u v = true \/ exists g, In g A /\ 0 < g @ v) ->
  (forall g v, In g A -> In v V -> 0 < g @ v -> u v = false) ->
  E V A u = if length A mod 2 =? 1 then (-1)%Z else 1%Z.
Proof.
  intros V A. induction A as [|g A IH]; intros u H1 H2 H3 H4.
  - rewrite E_covered; auto. intros v Hv. destruct (H3 v Hv) as [|[g [[] _]]]; auto.
  - assert (Hdis : forall v h, In v V -> 0 < g @ v -> In h A -> h @ v = 0).
    { intros v h Hv Hp Hh. specialize (H1 v Hv). unfold cnt in H1. simpl in H1.
      destruct (Nat.ltb_spec 0 (g @ v)); [|lia]. simpl in H1.
      assert (cnt A v = 0) by (unfold cnt; lia). apply (proj1 (cnt_0 A v)); auto. }
    cbn [E]. destruct (H2 g (or_introl eq_refl)) as [v0 [Hv0 [Hp0 Hu0]]].
    rewrite (E_absent V A u v0); auto.
    rewrite (IH (fun v => u v || (0 <? g @ v))).
    + cbn [length]. destruct (Nat.eqb_spec (length A mod 2) 1) as [Em|Em]; destruct (Nat.eqb_spec (S (length A) mod 2) 1) as [Em'|Em']; auto; exfalso.
      * rewrite <- Nat.add_1_r in Em'. rewrite Nat.add_mod in Em' by lia. rewrite Em in Em'. simpl in Em'. discriminate.
      * pose proof (Nat.mod_upper_bound (length A) 2 ltac:(lia)). assert (E0 : length A mod 2 = 0) by lia.
        apply Em'. rewrite <- Nat.add_1_r. rewrite Nat.add_mod by lia. rewrite E0. reflexivity.
    + intros v Hv. specialize (H1 v Hv). unfold cnt in *. simpl in H1. destruct (0 <? g @ v); simpl in H1; lia.
    + intros h Hh. destruct (H2 h (or_intror Hh)) as [v [Hv [Hp Hu]]]. exists v. split; auto. split; auto.
      rewrite Hu. simpl. apply Nat.ltb_ge. destruct (Nat.eq_dec (g @ v) 0); [lia|]. rewrite (Hdis v h) in Hp; auto; lia.
    + intros v Hv. destruct (Nat.ltb_spec 0 (g @ v)) as [Hp|Hp].
      * left. rewrite orb_true_r. auto.
      * destruct (H3 v Hv) as [Hu|[h [[<-|Hh] Hph]]]; [left; rewrite Hu; auto|lia|right; exists h; auto].
    + intros h v Hh Hv Hp. rewrite (H4 h v); simpl; auto. apply Nat.ltb_ge.
      destruct (Nat.eq_dec (g @ v) 0); [lia|]. rewrite (Hdis v h) in Hp; auto; lia.
Qed.

(** ** The recursion *)
Lemma filter_part_len : forall (p q : nat -> bool) l, (forall v, In v l -> q v = true -> p v = true) ->
  length (filter p l) = length (filter q l) + length (filter (fun v => p v && negb (q v)) l).
Proof.
  intros p q. induction l as [|v l IH]; intros H; simpl; auto.
  specialize (IH ltac:(intros; apply H; simpl; auto)). specialize (H v (or_introl eq_refl)).
  destruct (q v) eqn:Eq, (p v) eqn:Ep; simpl; try lia; specialize (H eq_refl); discriminate.
Qed.

Lemma elim_spec : forall n A V, hinv n A V -> exists J r flip,
  eliminate1Counts n A (i_supportCounts n A) = Some (J, r, flip) /\
  ((r <> 0 /\ exists V', hinv n J V' /\ length V = r + length V' /\ F n A V = signed flip (F n J V')) \/
   (r = 0 /\ J = A /\ flip = false /\ (forall v, v < n -> cnt A v <> 1) /\
    (forall v, v < n -> canSimplify n v A (i_supportCounts n A) = false))).
Proof.
  intros n A V HI. unfold eliminate1Counts. set (counts := i_supportCounts n A).
  destruct (find_from_spec (fun v => counts @ v =? 1) n 0) as [[Hlt [_ [Hf _]]]|[Hge Hno]].
  - set (var := find_from (fun v => counts @ v =? 1) 0 n) in *. clearbody var. simpl in Hlt.
    destruct (Nat.ltb_spec var n); [|lia]. apply Nat.eqb_eq in Hf. unfold counts in Hf. rewrite counts_nth in Hf by auto.
    pose proof (hi_min _ _ _ HI) as [Hnd Hm].
    destruct (cnt_1 A var Hnd Hf) as [g [Hg [Hgv Hpriv]]].
    destruct (removeMultiple_spec A var Hnd) with (g := g) as [_ [_ Eg]]; auto.
    { intros a b Ha Hb Pa Pb. rewrite (Hpriv a), (Hpriv b); auto. }
    rewrite Eg. set (counts' := tabulate n _). set (vars := filter (fun other => 0 <? counts' @ other) (seq 0 n)).
    assert (Hvars : forall v, In v vars <-> v < n /\ 0 < g @ v /\ cnt A v <> 1).
    { intros v. unfold vars. rewrite filter_In, in_seq, Nat.ltb_lt. split.
      - intros [Hv Hc]. assert (Hv' : v < n) by lia. unfold counts' in Hc. rewrite tabulate_nth in Hc by auto.
        destruct (Nat.ltb_spec 0 (g @ v)); [|lia]. unfold counts in Hc. rewrite counts_nth in Hc by auto.
        destruct (Nat.eqb_spec (cnt A v) 1); [lia|]. auto.
      - intros [Hv [Hp Hc]]. split; [lia|]. unfold counts'. rewrite tabulate_nth by auto.
        destruct (Nat.ltb_spec 0 (g @ v)); [|lia]. unfold counts. rewrite counts_nth by auto.
        destruct (Nat.eqb_spec (cnt A v) 1); [contradiction|]. 
        destruct (Nat.eq_dec (cnt A v) 0) as [E0|E0]; [|lia]. pose proof (proj1 (cnt_0 A v) E0 g Hg). lia. }
    destruct (colon_all_spec n var vars A V g HI Hg Hlt Hgv Hpriv) as [J [V1 [g' [P1 [P2 [P3 [P4 [P5 [P6 P7]]]]]]]]].
    { apply NoDup_filter, seq_NoDup. }
    { intros Hin. apply Hvars in Hin. tauto. }
    { intros v Hv. apply Hvars in Hv. tauto. }
    rewrite P1.
    assert (Hvn : inb var vars = false).
    { destruct (inb var vars) eqn:Ei; auto. apply inb_iff, Hvars in Ei. tauto. }
    assert (Hg'v : 0 < g' @ var) by (rewrite P6, Hvn by auto; auto).
    assert (Hext : forall v h0, v < n -> In h0 A -> cnt A v = 1 -> 0 < g @ v -> 0 < h0 @ v -> h0 = g).
    { intros v h0 Hv Hh0 Hc Hgp Hhp. destruct (cnt_1 A v Hnd Hc) as [k [Hk [Hkp Hku]]].
      rewrite (Hku h0), (Hku g); auto. }
    assert (Hg'eq : forall h v, In h J -> v < n -> 0 < g' @ v -> 0 < h @ v -> h = g').
    { intros h v Hh Hv Hp Hhp. destruct (P7 h Hh) as [h0 [Hh0 E0]]. rewrite P6 in Hp by auto. rewrite E0 in Hhp by auto.
      destruct (inb v vars) eqn:Ei; [lia|].
      assert (Hc1 : cnt A v = 1).
      { destruct (Nat.eq_dec (cnt A v) 1); auto. exfalso. assert (Hin : In v vars) by (apply Hvars; auto).
        apply inb_iff in Hin. congruence. }
      assert (h0 = g) by (apply (Hext v); auto). subst h0.
      apply (proj2 (hi_min _ _ _ P2)); auto. intros w Hw. rewrite E0, P6 by auto. lia. }
    pose proof (hi_min _ _ _ P2) as [HndJ _].
    destruct (removeMultiple_spec J var HndJ) with (g := g') as [R1 [R2 R3]]; auto.
    { intros a b Ha Hb Pa Pb. rewrite (Hg'eq a var), (Hg'eq b var); auto. }
    rewrite R3.
    destruct (F_remove n J V1 g' (i_removeMultiple J var) P2 P5 R1 R2) as [V' [Q1 [Q2 Q3]]].
    { intros h v Hh Hne Hv Hp. destruct (Nat.eq_dec (h @ v) 0); auto. exfalso. apply Hne. apply (Hg'eq h v); auto. lia. }
    eexists _, _, _. split; [reflexivity|]. left.
    assert (Hlen : length (filter (fun other => 0 <? g @ other) (seq 0 n)) =
       length vars + length (filter (fun v => 0 <? g' @ v) (seq 0 n))).
    { rewrite (filter_part_len (fun other => 0 <? g @ other) (fun v => inb v vars)).
      - f_equal.
        + unfold vars at 1. f_equal. apply filter_ext_in. intros v Hv. apply eq_true_iff_eq. rewrite inb_iff.
          unfold vars. rewrite filter_In. split; [tauto|intros Hx; split; auto].
        + f_equal. apply filter_ext_in. intros v Hv. apply in_seq in Hv. rewrite P6 by lia.
          destruct (inb v vars); simpl; rewrite ?andb_false_r, ?andb_true_r; auto.
      - intros v _ Hv. apply inb_iff, Hvars in Hv. apply Nat.ltb_lt. tauto. }
    split.
    + intros E0. apply length_zero_iff_nil in E0. assert (Hin : In var (filter (fun other => 0 <? g @ other) (seq 0 n))).
      { apply filter_In. split; [apply in_seq; lia|apply Nat.ltb_lt; auto]. } rewrite E0 in Hin. destruct Hin.
    + exists V'. split; auto. split.
      * apply Permutation_length in P3, Q1. rewrite app_length in P3, Q1. rewrite Hlen. lia.
      * cbn [signed]. rewrite P4. exact Q3.
  - rewrite Hge. simpl (0 + n). rewrite Nat.ltb_irrefl.
    assert (Hc1 : forall v, v < n -> cnt A v <> 1).
    { intros v Hv. specialize (Hno v ltac:(lia)). cbv beta in Hno. unfold counts in Hno. rewrite counts_nth in Hno by auto.
      apply Nat.eqb_neq in Hno. auto. }
    clear Hge Hno.
    destruct (find_from_spec (fun v => canSimplify n v A counts) n 0) as [[Hlt [_ [Hf _]]]|[Hge Hno]].
    + set (var := find_from (fun v => canSimplify n v A counts) 0 n) in *. clearbody var. simpl in Hlt.
      destruct (Nat.ltb_spec var n); [|lia]. unfold canSimplify in Hf. apply andb_true_iff in Hf. destruct Hf as [Hc Hf].
      apply negb_true_iff, Nat.eqb_neq in Hc. unfold counts in Hc. rewrite counts_nth in Hc by auto.
      apply existsb_exists in Hf. destruct Hf as [other [Ho Hf]]. apply in_seq in Ho.
      apply andb_true_iff in Hf. destruct Hf as [Hf1 Hf2]. apply negb_true_iff, orb_false_iff in Hf1.
      destruct Hf1 as [Hne Hoc]. apply Nat.eqb_neq in Hne, Hoc. unfold counts in Hoc. rewrite counts_nth in Hoc by lia.
      apply negb_true_iff in Hf2.
      assert (Hov : forall g, In g A -> 0 < g @ other -> 0 < g @ var).
      { intros g Hg Hp. pose proof (existsb_false_all _ _ Hf2 g Hg) as Ee. cbv beta in Ee.
        destruct (Nat.eqb_spec (g @ var) 0); [|lia]. apply Nat.ltb_lt in Hp. rewrite Hp in Ee. discriminate. }
      assert (Hex : forall v, cnt A v <> 0 -> exists g, In g A /\ 0 < g @ v).
      { intros v Hv. unfold cnt in Hv. destruct (filter (fun g => 0 <? g @ v) A) as [|g l] eqn:Ef; [simpl in Hv; lia|].
        assert (In g (filter (fun g => 0 <? g @ v) A)) by (rewrite Ef; simpl; auto). apply filter_In in H0.
        exists g. rewrite <- Nat.ltb_lt. auto. }
      destruct (Hex var Hc) as [g [Hg Hgv]]. destruct (Hex other Hoc) as [h [Hh Hho]].
      destruct (minimizer_colonVar_spec n A var 1 (hi_wf _ _ _ HI) (hi_min _ _ _ HI) Hlt) as [HJ [Hch _]].
      unfold i_colonReminimizeVar. destruct (minimizer_colonVar n A var 1) as [J ch]. cbn [fst snd] in *.
      assert (Ech : ch = true).
      { apply Hch. exists g. split; auto. pose proof (hi_sqf _ _ _ HI g var Hg Hlt). lia. }
      subst ch. eexists _, _, _. split; [reflexivity|]. left. split; [discriminate|].
      assert (HxV : In var V) by (eapply (hi_sup _ _ _ HI); eauto).
      destruct (split_perm var V HxV (hi_nd _ _ _ HI)) as [V1 [HP [Hnd1 Hn1]]].
      pose proof (hinv_perm _ _ _ _ HP HI) as HI1. exists V1.
      split; [|split].
      * apply (hinv_colon n A V1 var J); auto. apply (two_gens n A V var HI Hlt).
        specialize (Hc1 var Hlt). lia.
      * apply Permutation_length in HP. simpl in HP. auto.
      * cbn [signed]. rewrite (F_perm _ _ _ _ HP). apply (F_simp n A var other J V1); auto; try lia.
        -- constructor; auto.
        -- assert (Ho' : other < n) by lia. destruct (hi_sup _ _ _ HI1 h other Hh Ho' Hho); [congruence|auto].
    + rewrite Hge. simpl (0 + n). rewrite Nat.ltb_irrefl. exists A, 0, false. split; auto. right.
      repeat (split; auto). intros v Hv. apply Hno. lia.
Qed.

Lemma signed_negb : forall b k, signed (negb b) k = (- signed b k)%Z.
Proof. intros [] k; simpl; lia. Qed.

Lemma list_4 : forall (A : Type) (l : list A), length l = 4 -> exists a b c d, l = [a; b; c; d].
Proof. intros A [|a [|b [|c [|d [|? ?]]]]] H; try discriminate. exists a, b, c, d. auto. Qed.

Theorem hb_entry_spec : forall fuel n A V extra neg, hinv n A V -> length V + extra = n -> length V < fuel ->
  hb_entry fuel n A extra neg = Some (signed neg (F n A V)).
Proof.
  induction fuel as [|fuel IH]; intros n A V extra neg HI Hlen Hfuel; [lia|]. cbn [hb_entry].
  set (counts := i_supportCounts n A).
  assert (Hcn : forall v, v < n -> counts @ v = cnt A v) by (intros; apply counts_nth; auto).
  pose proof (hi_nd _ _ _ HI) as HndV. pose proof (hi_lt _ _ _ HI) as HltV. pose proof (hi_min _ _ _ HI) as [HndA HmA].
  set (S0 := filter (fun v => negb (counts @ v =? 0)) (seq 0 n)).
  assert (HS : forall v, In v S0 <-> v < n /\ cnt A v <> 0).
  { intros v. unfold S0. rewrite filter_In, in_seq, negb_true_iff, Nat.eqb_neq. split.
    - intros [H1 H2]. rewrite Hcn in H2 by lia. split; [lia|auto].
    - intros [H1 H2]. rewrite Hcn by lia. split; [lia|auto]. }
  assert (HSnd : NoDup S0) by (apply NoDup_filter, seq_NoDup).
  assert (HSV : incl S0 V).
  { intros v Hv. apply HS in Hv. destruct Hv as [Hv Hc]. unfold cnt in Hc.
    destruct (filter (fun g => 0 <? g @ v) A) as [|g l] eqn:Ef; [simpl in Hc; lia|].
    assert (Hin : In g (filter (fun g => 0 <? g @ v) A)) by (rewrite Ef; simpl; auto). apply filter_In in Hin.
    apply (hi_sup _ _ _ HI g v); try tauto. apply Nat.ltb_lt; tauto. }
  assert (HSl : length S0 <= length V) by (apply NoDup_incl_length; auto).
  unfold t_sizeOfSupport at 1. fold S0.
  destruct (Nat.eqb_spec (length S0 + extra) n) as [Es|Es]; cbn [negb].
  2:{ (* some variable is missing *)
    f_equal. destruct (existsb (fun v => negb (inb v S0)) V) eqn:Ee.
    - apply existsb_exists in Ee. destruct Ee as [v [Hv Ee]]. rewrite (F_absent n A V v); auto.
      + destruct neg; reflexivity.
      + apply cnt_0. destruct (Nat.eq_dec (cnt A v) 0); auto. exfalso.
        assert (Hin : In v S0) by (apply HS; auto). apply inb_iff in Hin. rewrite Hin in Ee. discriminate.
    - exfalso. assert (incl V S0).
      { intros v Hv. pose proof (existsb_false_all _ _ Ee v Hv) as Eb. cbv beta in Eb. apply negb_false_iff in Eb.
        apply inb_iff; auto. }
      pose proof (NoDup_incl_length HndV H). lia. }
  assert (HVS : incl V S0) by (apply NoDup_length_incl; auto; lia).
  assert (Hc0 : forall v, In v V -> cnt A v <> 0) by (intros v Hv; apply HVS, HS in Hv; tauto).
  assert (Hex : forall v, In v V -> exists g, In g A /\ 0 < g @ v).
  { intros v Hv. specialize (Hc0 v Hv). unfold cnt in Hc0.
    destruct (filter (fun g => 0 <? g @ v) A) as [|g l] eqn:Ef; [simpl in Hc0; lia|].
    assert (Hin : In g (filter (fun g => 0 <? g @ v) A)) by (rewrite Ef; simpl; auto). apply filter_In in Hin.
    exists g. rewrite <- Nat.ltb_lt. auto. }
  pose proof (F_E n A V HndV HltV (hi_sqf _ _ _ HI) (hi_sup _ _ _ HI)) as HE.
  destruct (t_isSquareFree n counts) eqn:Esq.
  { f_equal. rewrite HE. rewrite E_disjoint.
    - destruct (length A mod 2 =? 1), neg; reflexivity.
    - intros v Hv. unfold t_isSquareFree in Esq. rewrite forallb_forall in Esq.
      specialize (HltV v Hv). specialize (Esq v ltac:(apply in_seq; lia)). apply negb_true_iff, Nat.leb_gt in Esq.
      rewrite Hcn in Esq by auto. lia.
    - intros g Hg. destruct (hi_one _ _ _ HI g Hg) as [v [Hv Hp]]. exists v. split; auto. apply (hi_sup _ _ _ HI g v); auto.
    - intros v Hv. right. apply Hex; auto.
    - auto. }
  destruct (Nat.eqb_spec (length A) 2) as [E2'|E2'].
  { f_equal. rewrite HE. destruct A as [|a [|b [|? ?]]]; try discriminate.
    assert (Hnl : forall p q, In p [a;b] -> In q [a;b] -> p <> q -> exists v, In v V /\ 0 < p @ v /\ q @ v = 0).
    { intros p q Hp Hq Hne. destruct (existsb (fun v => (0 <? p @ v) && (q @ v =? 0)) (seq 0 n)) eqn:Ee.
      - apply existsb_seq in Ee. destruct Ee as [v [Hv Ee]]. apply andb_true_iff in Ee. destruct Ee as [Ea Eb].
        apply Nat.ltb_lt in Ea. apply Nat.eqb_eq in Eb. exists v. split; auto. apply (hi_sup _ _ _ HI p v); auto.
      - exfalso. apply Hne. apply HmA; auto. intros v Hv.
        pose proof (existsb_false_all _ _ Ee v ltac:(apply in_seq; lia)) as Eb. cbv beta in Eb.
        pose proof (hi_sqf _ _ _ HI p v Hp Hv). destruct (Nat.ltb_spec 0 (p @ v)); [|lia]. simpl in Eb.
        apply Nat.eqb_neq in Eb. lia. }
    inversion HndA; subst. assert (a <> b) by (intros ->; simpl in *; tauto).
    rewrite E_two; auto.
    - apply Hnl; simpl; auto.
    - destruct (Hnl b a) as [v [Hv1 [Hv2 Hv3]]]; simpl; auto. exists v; auto.
    - intros v Hv. destruct (Hex v Hv) as [g [[<-|[<-|[]]] Hp]]; auto. }
  destruct (elim_spec n A V HI) as [J [r [flip [Ee Hcase]]]]. fold counts in Ee. rewrite Ee. cbv zeta.
  destruct Hcase as [[Hr [V' [HI' [Hl' HF]]]]|[-> [-> [-> [Hc1 Hns]]]]].
  { destruct (Nat.eqb_spec r 0); [contradiction|]. cbn [negb].
    rewrite (IH n J V'); auto; try lia. f_equal. rewrite HF. destruct flip, neg; simpl; lia. }
  cbn [Nat.eqb negb].
  assert (Hc2 : forall v, In v V -> 2 <= cnt A v).
  { intros v Hv. specialize (Hc0 v Hv). specialize (Hc1 v (HltV v Hv)). lia. }
  (* not squarefree: V is not empty *)
  assert (HVne : exists v0, In v0 V).
  { unfold t_isSquareFree in Esq. destruct (existsb (fun v => 2 <=? counts @ v) (seq 0 n)) eqn:Ex.
    - apply existsb_seq in Ex. destruct Ex as [v [Hv Ex]]. apply Nat.leb_le in Ex. exists v. apply HSV, HS. rewrite <- Hcn by auto. lia.
    - exfalso. assert (forallb (fun v => negb (2 <=? counts @ v)) (seq 0 n) = true); [|congruence].
      apply forallb_forall. intros v Hv. rewrite (existsb_false_all _ _ Ex v Hv). auto. }
  destruct HVne as [v0 Hv0].
  assert (Hn0 : 0 < n) by (specialize (HltV v0 Hv0); lia).
  destruct (Nat.eqb_spec (length A) 3) as [E3|E3].
  { f_equal. rewrite HE, E2_three; auto.
    - intros g Hg. destruct (existsb (fun v => g @ v =? 0) V) eqn:Ex.
      + apply existsb_exists in Ex. destruct Ex as [v [Hv Ex]]. apply Nat.eqb_eq in Ex. exists v; auto.
      + exfalso. assert (Hall : forall h, In h A -> h = g).
        { intros h Hh. apply HmA; auto. intros v Hv. pose proof (hi_sqf _ _ _ HI h v Hh Hv).
          destruct (Nat.eq_dec (h @ v) 0); [lia|]. 
          assert (Hin : In v V) by (apply (hi_sup _ _ _ HI h v); auto; lia).
          pose proof (existsb_false_all _ _ Ex v Hin) as Eb. cbv beta in Eb. apply Nat.eqb_neq in Eb. lia. }
        destruct A as [|a [|b l]]; try discriminate. inversion HndA; subst. apply H1.
        rewrite (Hall a), (Hall b); simpl; auto.
    - intros ->. destruct Hv0. }
  destruct (firstMax_spec n counts Hn0) as [Hfm Hmax].
  set (x := t_firstMax n counts) in *.
  unfold t_sizeOfSupport. fold S0.
  destruct ((length A =? 4) && (counts @ x =? 2) && (length S0 =? 4)) eqn:E4.
  { apply andb_true_iff in E4. destruct E4 as [E4 E4c]. apply andb_true_iff in E4. destruct E4 as [E4a E4b].
    apply Nat.eqb_eq in E4a, E4b, E4c. f_equal. rewrite HE, E_E2, E4a.
    assert (HV4 : length V = 4) by lia.
    assert (Hcnt : forall v, In v V -> cnt A v = 2).
    { intros v Hv. specialize (Hc2 v Hv). specialize (HltV v Hv). specialize (Hmax v HltV). rewrite Hcn in Hmax by auto. lia. }
    set (col := fun v => map (fun g => 0 <? g @ v) A).
    assert (Hcode : forall v, In v V -> In (col v) codes).
    { intros v Hv. destruct (list_4 _ A E4a) as [a [b [c [d EA]]]]. unfold col. rewrite EA. apply code_of_four.
      specialize (Hcnt v Hv). unfold cnt in Hcnt. rewrite EA in Hcnt. exact Hcnt. }
    assert (Hdist : forall v w, In v V -> In w V -> v <> w -> col v <> col w).
    { intros v w Hv Hw Hne Hcol. specialize (Hns v (HltV v Hv)). unfold canSimplify in Hns. fold counts in Hns.
      rewrite Hcn in Hns by auto. destruct (Nat.eqb_spec (cnt A v) 0); [apply (Hc0 v); auto|]. cbn [negb andb] in Hns.
      assert (Hw' : w < n) by auto.
      pose proof (existsb_false_all _ _ Hns w ltac:(apply in_seq; lia)) as Eb. cbv beta in Eb.
      rewrite Hcn in Eb by auto. destruct (Nat.eqb_spec w v); [congruence|].
      destruct (Nat.eqb_spec (cnt A w) 0); [apply (Hc0 w); auto|]. cbn [orb negb andb] in Eb.
      apply negb_false_iff, existsb_exists in Eb. destruct Eb as [g [Hg Eb]]. apply andb_true_iff in Eb.
      destruct Eb as [Eb1 Eb2]. apply Nat.eqb_eq in Eb1.
      assert (Hcc : (0 <? g @ v) = (0 <? g @ w)) by (apply (ext_in_map Hcol g Hg)).
      rewrite Eb1, Eb2 in Hcc. discriminate. }
    destruct (list_4 _ V HV4) as [v1 [v2 [v3 [v4 EV]]]].
    assert (Hvs : In v1 V /\ In v2 V /\ In v3 V /\ In v4 V) by (rewrite EV; simpl; tauto).
    destruct Hvs as [I1 [I2 [I3 I4]]].
    assert (HndV' := HndV). rewrite EV in HndV'.
    inversion HndV' as [|? ? N1 HndV1]; subst. inversion HndV1 as [|? ? N2 HndV2]; subst. inversion HndV2 as [|? ? N3 HndV3]; subst.
    simpl in N1, N2, N3.
    change (map (fun v => (false, map (fun g => 0 <? g @ v) A)) [v1;v2;v3;v4])
      with [(false, col v1); (false, col v2); (false, col v3); (false, col v4)].
    rewrite four_E2; [destruct neg; reflexivity|auto|auto|auto|auto| | | | | | ]; apply Hdist; auto; intros ->; tauto. }
  (* split *)
  assert (HxV : In x V).
  { apply HSV, HS. split; auto. rewrite <- Hcn by auto. specialize (Hmax v0 (HltV v0 Hv0)).
    rewrite Hcn in Hmax by auto. specialize (Hc2 v0 Hv0). lia. }
  destruct (split_perm x V HxV HndV) as [V1 [HP [Hnd1 Hn1]]].
  pose proof (hinv_perm _ _ _ _ HP HI) as HI1.
  destruct (minimizer_colonVar_spec n A x 1 (hi_wf _ _ _ HI) (hi_min _ _ _ HI) Hfm) as [HJ _].
  apply Permutation_length in HP as HPl. simpl in HPl.
  rewrite (IH n (filter (fun g => g @ x <? 1) A) V1); try lia.
  2:{ apply (hinv_filter n A V1 x); auto. intros g Hg Ex. apply Nat.ltb_lt in Ex. lia. }
  unfold i_colonReminimizeVar. rewrite (IH n (fst (minimizer_colonVar n A x 1)) V1); try lia.
  2:{ apply (hinv_colon n A V1 x); auto. apply (two_gens n A V x HI Hfm). auto. }
  f_equal. rewrite (F_perm _ _ _ _ HP). rewrite (F_split n A x _ V1 Hn1 Hfm HJ).
  rewrite signed_negb. unfold nox. destruct neg; simpl; lia.
Qed.

Theorem hb_coefficient_spec : forall n A, wf n A -> minl n A -> (forall g v, In g A -> v < n -> g @ v <= 1) ->
  (forall g, In g A -> exists v, v < n /\ 0 < g @ v) ->
  hb_coefficient n A = Some (F n A (seq 0 n)).
Proof.
  intros n A H1 H2 H3 H4. unfold hb_coefficient. rewrite (hb_entry_spec (S n) n A (seq 0 n)).
  - reflexivity.
  - constructor; auto.
    + apply seq_NoDup.
    + intros v Hv. apply in_seq in Hv. lia.
    + intros g v Hg Hv _. apply in_seq. lia.
  - rewrite seq_length. lia.
  - rewrite seq_length. lia.
Qed.
