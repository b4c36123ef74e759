(** Lemmas about ideals: minimization and colon. *)
From Coq Require Import List Arith Bool Lia Permutation Sorted.
Import ListNotations.
From Verif Require Import Spec M_Term M_Ideal P_Term.

Definition wf (n : nat) (I : ideal) : Prop := forall g, In g I -> length g = n.
Definition inI (n : nat) (I : ideal) (m : term) : Prop := exists g, In g I /\ le_n n g m.
(** minimally generated *)
Definition minl (n : nat) (I : ideal) : Prop :=
  NoDup I /\ forall g h, In g I -> In h I -> le_n n g h -> g = h.
Definition eqI (n : nat) (I J : ideal) : Prop := forall m, inI n I m <-> inI n J m.

Lemma in_ring_wf : forall n I, in_ring n I <-> wf n I.
Proof. intros. unfold in_ring, wf. apply Forall_forall. Qed.

Lemma in_ideal_iff : forall n I m, wf n I -> length m = n -> (in_ideal I m <-> inI n I m).
Proof.
  intros n I m Hw Hm. unfold in_ideal, inI. split; intros [g [Hg H]]; exists g; split; auto.
  - apply divs_iff; auto.
  - apply divs_iff with n; auto.
Qed.

Lemma inI_mono : forall n I m m', inI n I m -> le_n n m m' -> inI n I m'.
Proof. intros n I m m' [g [Hg H]] H'. exists g. split; auto. eapply le_n_trans; eauto. Qed.

Lemma inI_incl : forall n I J m, incl I J -> inI n I m -> inI n J m.
Proof. intros n I J m H [g [Hg Hd]]. exists g. split; auto. Qed.

Lemma inI_app : forall n I J m, inI n (I ++ J) m <-> inI n I m \/ inI n J m.
Proof.
  intros. unfold inI. split.
  - intros [g [Hg H]]. apply in_app_or in Hg. destruct Hg; [left|right]; eauto.
  - intros [[g [Hg H]]|[g [Hg H]]]; exists g; split; auto; apply in_or_app; auto.
Qed.

Lemma inI_self : forall n I g, In g I -> inI n I g.
Proof. intros. exists g. split; auto using le_n_refl. Qed.

Lemma i_contains_iff : forall n I m, i_contains n I m = true <-> inI n I m.
Proof.
  intros. unfold i_contains, inI. rewrite existsb_exists. split; intros [g [Hg H]]; exists g; split; auto;
  apply t_dominates_iff; auto.
Qed.

Lemma i_contains_dec : forall n I m, inI n I m \/ ~ inI n I m.
Proof.
  intros. destruct (i_contains n I m) eqn:E.
  - left. apply i_contains_iff; auto.
  - right. intros H. apply i_contains_iff in H. congruence.
Qed.

Lemma i_containsIdentity_iff : forall n I,
  i_containsIdentity n I = true <-> exists g, In g I /\ forall v, v < n -> g @ v = 0.
Proof.
  intros. unfold i_containsIdentity. rewrite existsb_exists. split; intros [g [Hg H]]; exists g; split; auto;
  apply t_isIdentity_iff; auto.
Qed.

(** ** lcm *)
Lemma fold_lcm_length : forall n I l, length l = n ->
  length (fold_left (fun l g => t_lcm n l g) I l) = n.
Proof. induction I; intros; simpl; auto. apply IHI. apply t_lcm_length. Qed.

Lemma fold_lcm_ge : forall n I l v, v < n ->
  l @ v <= (fold_left (fun l g => t_lcm n l g) I l) @ v /\
  forall g, In g I -> g @ v <= (fold_left (fun l g => t_lcm n l g) I l) @ v.
Proof.
  induction I as [|a I IH]; intros l v Hv; simpl.
  - split; [lia|intros g []].
  - destruct (IH (t_lcm n l a) v Hv) as [H1 H2]. rewrite t_lcm_nth in H1 by auto. split; [lia|].
    intros g [->|Hg]; [lia|auto].
Qed.

Lemma fold_lcm_attained : forall n I l v, v < n ->
  (fold_left (fun l g => t_lcm n l g) I l) @ v = l @ v \/
  exists g, In g I /\ g @ v = (fold_left (fun l g => t_lcm n l g) I l) @ v.
Proof.
  induction I as [|a I IH]; intros l v Hv; simpl; auto.
  destruct (IH (t_lcm n l a) v Hv) as [H|[g [Hg H]]].
  - rewrite H. rewrite t_lcm_nth by auto.
    destruct (Nat.max_spec (l @ v) (a @ v)) as [[? ->]|[? ->]]; auto.
    right. exists a. auto.
  - right. exists g. auto.
Qed.

Lemma i_lcm_length : forall n I, length (i_lcm n I) = n.
Proof. intros. apply fold_lcm_length. apply t_identity_length. Qed.
Lemma i_lcm_ge : forall n I g v, v < n -> In g I -> g @ v <= (i_lcm n I) @ v.
Proof. intros. apply (fold_lcm_ge n I (t_identity n) v); auto. Qed.
Lemma i_lcm_attained : forall n I v, v < n -> 0 < (i_lcm n I) @ v ->
  exists g, In g I /\ g @ v = (i_lcm n I) @ v.
Proof.
  intros n I v Hv H. destruct (fold_lcm_attained n I (t_identity n) v Hv) as [H'|H']; auto.
  rewrite t_identity_nth in H'. unfold i_lcm in H. lia.
Qed.
Lemma i_lcm_lub : forall n I b v, v < n -> (forall g, In g I -> g @ v <= b) -> (i_lcm n I) @ v <= b.
Proof.
  intros n I b v Hv H. destruct (Nat.eq_dec ((i_lcm n I) @ v) 0); [lia|].
  destruct (i_lcm_attained n I v Hv ltac:(lia)) as [g [Hg E]]. rewrite <- E. auto.
Qed.

(** ** min_scan *)
Lemma minl_snoc : forall n L d, minl n L ->
  (forall k, In k L -> ~ le_n n k d) -> (forall k, In k L -> ~ le_n n d k) -> minl n (L ++ [d]).
Proof.
  intros n L d [Hnd Hm] H1 H2. split.
  - apply NoDup_app_remove_l with (l := [] : ideal) in Hnd || idtac.
    apply Permutation_NoDup with (d :: L).
    + apply Permutation_cons_append.
    + constructor; auto. intros Hd. apply (H1 d Hd). apply le_n_refl.
  - intros g h Hg Hh Hle. apply in_app_or in Hg, Hh. simpl in *.
    destruct Hg as [Hg|[<-|[]]], Hh as [Hh|[<-|[]]]; auto.
    + exfalso. apply (H1 g); auto.
    + exfalso. apply (H2 h); auto.
Qed.

Lemma min_scan_spec : forall n todo kept,
  minl n kept ->
  (forall k t, In k kept -> In t todo -> t_lexCompare n k t <> Gt) ->
  StronglySorted (before (t_lexLess n)) todo ->
  minl n (min_scan n kept todo) /\
  (forall x, In x (min_scan n kept todo) -> In x (kept ++ todo)) /\
  (forall x, In x (kept ++ todo) -> inI n (min_scan n kept todo) x).
Proof.
  induction todo as [|d todo IH]; intros kept Hm Hb Hs; simpl.
  - rewrite app_nil_r. repeat split; auto; try apply Hm. intros x Hx. apply inI_self; auto.
  - inversion Hs as [|? ? Hs' Hf]; subst. rewrite Forall_forall in Hf.
    destruct (existsb (fun g => t_divides n g d) kept) eqn:E.
    + apply existsb_exists in E. destruct E as [k [Hk Hd]]. apply t_divides_iff in Hd.
      destruct (IH kept) as [A [B C]]; auto.
      { intros; apply Hb; simpl; auto. }
      repeat split; try apply A.
      * intros x Hx. apply B in Hx. apply in_app_or in Hx. apply in_or_app. simpl. tauto.
      * intros x Hx. apply in_app_or in Hx. simpl in Hx. destruct Hx as [Hx|[<-|Hx]].
        -- apply C. apply in_or_app; auto.
        -- apply inI_mono with k; auto. apply C. apply in_or_app; auto.
        -- apply C. apply in_or_app; auto.
    + assert (Hno : forall k, In k kept -> ~ le_n n k d).
      { intros k Hk Hle. apply not_true_false in E. apply E. apply existsb_exists. exists k.
        split; auto. apply t_divides_iff; auto. }
      destruct (IH (kept ++ [d])) as [A [B C]]; auto.
      { apply minl_snoc; auto. intros k Hk Hle.
        assert (H1 : t_lexCompare n k d <> Gt) by (apply Hb; simpl; auto).
        assert (H2 : t_lexCompare n d k <> Gt).
        { unfold t_lexCompare. apply lex_from_div. intros w Hw. apply Hle. lia. }
        assert (E1 : t_lexCompare n k d = Eq).
        { unfold t_lexCompare in *. rewrite lex_from_antisym in H2.
          destruct (lex_from k d 0 n); simpl in *; congruence. }
        unfold t_lexCompare in E1. rewrite lex_from_eq in E1.
        apply (Hno k Hk). intros v Hv. rewrite E1 by lia. lia. }
      { intros k t Hk Ht. apply in_app_or in Hk. destruct Hk as [Hk|[<-|[]]].
        - apply Hb; simpl; auto.
        - specialize (Hf t Ht). unfold before in Hf. rewrite t_lexLess_false in Hf. auto. }
      repeat split; try apply A.
      * intros x Hx. apply B in Hx. rewrite <- app_assoc in Hx. simpl in Hx. exact Hx.
      * intros x Hx. apply C. rewrite <- app_assoc. simpl. exact Hx.
Qed.

(** What a minimization function must achieve. *)
Definition min_of (n : nat) (I L : ideal) : Prop :=
  minl n L /\ incl L I /\ forall x, In x I -> inI n L x.

Lemma min_of_eqI : forall n I L, min_of n I L -> eqI n L I.
Proof.
  intros n I L [_ [Hi Hc]] m. split.
  - apply inI_incl; auto.
  - intros [g [Hg H]]. apply inI_mono with g; auto.
Qed.

Lemma min_of_nil : forall n I, (forall x : term, In x I -> False) -> min_of n I [].
Proof.
  intros n I H. split; [|split].
  - split; [constructor|]. intros g h Hg. destruct Hg.
  - intros x Hx. destruct Hx.
  - intros x Hx. destruct (H x Hx).
Qed.

Lemma simpleMinimize_spec : forall n I, min_of n I (simpleMinimize n I).
Proof.
  intros n I. unfold simpleMinimize. pose proof (std_sort_lex_sorted n I) as Hs.
  pose proof (std_sort_in (t_lexLess n) I) as Hin.
  destruct (std_sort (t_lexLess n) I) as [|g rest].
  - apply min_of_nil. intros x Hx. exact (proj2 (Hin x) Hx).
  - inversion Hs as [|? ? Hs' Hf]; subst. rewrite Forall_forall in Hf.
    destruct (min_scan_spec n rest [g]) as [A [B C]]; auto.
    + split; [repeat constructor; auto|]. intros a b [<-|[]] [<-|[]]; auto.
    + intros k t [<-|[]] Ht. specialize (Hf t Ht). unfold before in Hf. rewrite t_lexLess_false in Hf. auto.
    + repeat split; try apply A.
      * intros x Hx. apply Hin. apply B in Hx. exact Hx.
      * intros x Hx. apply Hin in Hx. apply C. exact Hx.
Qed.

Lemma lexCompare_2 : forall a b, t_lexLess 2 a b = false ->
  b @ 0 < a @ 0 \/ (b @ 0 = a @ 0 /\ b @ 1 <= a @ 1).
Proof.
  intros a b. unfold t_lexLess, t_lexCompare. simpl.
  destruct (Nat.eqb_spec (a @ 0) (b @ 0)); [|destruct (Nat.ltb_spec (a @ 0) (b @ 0)); [congruence|intros; lia]].
  destruct (Nat.eqb_spec (a @ 1) (b @ 1)); [intros; lia|].
  destruct (Nat.ltb_spec (a @ 1) (b @ 1)); [congruence|intros; lia].
Qed.

Lemma twoVar_scan_spec : forall todo last,
  StronglySorted (before (t_lexLess 2)) (last :: todo) ->
  min_of 2 (last :: todo) (twoVar_scan last todo) /\
  (forall x, In x (twoVar_scan last todo) -> x = last \/ (x @ 1 < last @ 1 /\ last @ 0 < x @ 0)).
Proof.
  induction todo as [|d todo IH]; intros last Hs; simpl.
  - split; [|intros x [->|[]]; auto]. repeat split.
    + repeat constructor; auto.
    + intros g h [<-|[]] [<-|[]]; auto.
    + intros x Hx; exact Hx.
    + intros x [<-|[]]. apply inI_self. left; auto.
  - inversion Hs as [|? ? Hs' Hf]; subst. rewrite Forall_forall in Hf.
    inversion Hs' as [|? ? Hs'' Hf']; subst.
    assert (Hld : last @ 0 < d @ 0 \/ (last @ 0 = d @ 0 /\ last @ 1 <= d @ 1)).
    { apply lexCompare_2. apply Hf. left; auto. }
    destruct (Nat.ltb_spec (d @ 1) (last @ 1)) as [Hlt|Hge].
    + destruct (IH d Hs') as [[[Hnd Hm] [Hi Hc]] Hl].
      assert (Hstep : forall x, In x (twoVar_scan d todo) -> x @ 1 < last @ 1 /\ last @ 0 < x @ 0).
      { intros x Hx. destruct (Hl x Hx) as [->|[H1 H2]]; lia. }
      split.
      * repeat split.
        -- constructor; auto. intros H. apply Hstep in H. lia.
        -- intros g h [<-|Hg] [<-|Hh] Hle; auto.
           ++ exfalso. apply Hstep in Hh. specialize (Hle 1 ltac:(lia)). lia.
           ++ exfalso. apply Hstep in Hg. specialize (Hle 0 ltac:(lia)). lia.
        -- intros x [<-|Hx]; [left; auto|]. right. apply Hi in Hx. exact Hx.
        -- intros x [<-|Hx]; [apply inI_self; left; auto|].
           apply inI_incl with (twoVar_scan d todo); auto. intros y Hy; right; auto.
      * intros x [<-|Hx]; auto.
    + assert (Hs2 : StronglySorted (before (t_lexLess 2)) (last :: todo)).
      { constructor; auto. rewrite Forall_forall. intros; apply Hf; right; auto. }
      destruct (IH last Hs2) as [[[Hnd Hm] [Hi Hc]] Hl]. split; auto.
      repeat split; auto.
      * intros x Hx. apply Hi in Hx. simpl in *. tauto.
      * intros x Hx. destruct Hx as [Hx|[<-|Hx]].
        -- apply Hc. left; auto.
        -- apply inI_mono with last; [apply Hc; left; auto|].
           intros v Hv. destruct v as [|[|v]]; lia.
        -- apply Hc. right; auto.
Qed.

Lemma twoVarMinimize_spec : forall I, min_of 2 I (twoVarMinimize I).
Proof.
  intros I. unfold twoVarMinimize. pose proof (std_sort_lex_sorted 2 I) as Hs.
  pose proof (std_sort_in (t_lexLess 2) I) as Hin.
  destruct (std_sort (t_lexLess 2) I) as [|g rest].
  - apply min_of_nil. intros x Hx. exact (proj2 (Hin x) Hx).
  - destruct (twoVar_scan_spec rest g Hs) as [[A [B C]] _].
    repeat split; try apply A.
    + intros x Hx. apply Hin. apply B. auto.
    + intros x Hx. apply C. apply Hin. auto.
Qed.

(** ** tree *)
Definition tree_ok (n : nat) (t : mtree) (I : ideal) : Prop :=
  (forall m, tree_isRedundant n t m = true <-> inI n I m) /\ min_of n I (tree_collect n t).

Lemma leaf_ok : forall n I, tree_ok n (MLeaf (simpleMinimize n I)) I.
Proof.
  intros. pose proof (simpleMinimize_spec n I) as H. split; simpl; auto.
  intros m. rewrite <- (min_of_eqI n I _ H m). unfold inI. rewrite existsb_exists.
  split; intros [g [Hg Hd]]; exists g; split; auto; apply t_dominates_iff; auto.
Qed.

Lemma max_var_lt : forall n l, 0 < n -> max_var n l < n.
Proof.
  intros n l Hn. unfold max_var.
  assert (H : forall ws mx, mx < n -> (forall w, In w ws -> w < n) ->
    fold_left (fun mx v => if l @ mx <? l @ v then v else mx) ws mx < n).
  { induction ws as [|w ws IH]; intros mx Hmx Hws; simpl; auto. apply IH.
    - destruct (l @ mx <? l @ w); auto. apply Hws; left; auto.
    - intros; apply Hws; right; auto. }
  apply H; auto. intros w Hw. apply in_seq in Hw. lia.
Qed.

Lemma tree_choose_spec : forall fuel n lcm I var pivot,
  (forall v, v < n -> lcm @ v = 0 \/ lcm @ v = (i_lcm n I) @ v) -> length lcm = n ->
  tree_choose fuel n lcm I = Some (var, pivot) ->
  var < n /\ (exists g, In g I /\ g @ var <= pivot) /\ (exists g, In g I /\ pivot < g @ var).
Proof.
  induction fuel as [|fuel IH]; intros n lcm I var pivot Hl Hlen H; cbn [tree_choose] in H; cbv zeta in H; [congruence|].
  destruct (Nat.eqb_spec (lcm @ (max_var n lcm)) 0) as [|Hnz]; [congruence|].
  assert (Hvn : max_var n lcm < n).
  { destruct (Nat.lt_ge_cases (max_var n lcm) n) as [|Hge]; auto.
    exfalso. apply Hnz. apply nth_out. lia. }
  destruct (existsb (fun g => g @ (max_var n lcm) <=? lcm @ (max_var n lcm) / 4) I) eqn:E.
  - assert (Hv' : var = max_var n lcm) by congruence.
    assert (Hp' : pivot = lcm @ max_var n lcm / 4) by congruence. subst var pivot. split; auto. split.
    + apply existsb_exists in E. destruct E as [g [Hg E]]. exists g. split; auto. apply Nat.leb_le; auto.
    + destruct (Hl _ Hvn) as [|Heq]; [lia|].
      destruct (i_lcm_attained n I (max_var n lcm) Hvn) as [g [Hg Hge]]; [rewrite <- Heq; lia|].
      exists g. split; auto. rewrite Hge, <- Heq.
      apply Nat.div_lt; [destruct (lcm @ (max_var n lcm)); [congruence|apply Nat.lt_0_succ]|repeat constructor].
  - apply IH in H; auto.
    + intros v Hv. rewrite t_set_nth by auto. destruct (v =? max_var n lcm); auto.
    + apply t_set_length.
Qed.

Lemma filter_length_lt : forall {A} (f : A -> bool) l x, In x l -> f x = false ->
  length (filter f l) < length l.
Proof.
  induction l as [|a l IH]; intros x Hx Hf; [destruct Hx|]. simpl.
  destruct Hx as [->|Hx].
  - rewrite Hf. simpl. pose proof (filter_length_le f l). lia.
  - specialize (IH x Hx Hf). destruct (f a); simpl; lia.
Qed.

Lemma makeTree_total : forall fuel n I, length I < fuel ->
  exists t, makeTree fuel n I = Some t /\ tree_ok n t I.
Proof.
  induction fuel as [|fuel IH]; intros n I Hf; [lia|]. cbn [makeTree].
  destruct (20 <? length I) eqn:E20; [|eexists; split; [reflexivity|apply leaf_ok]].
  destruct (tree_choose (S n) n (i_lcm n I) I) as [[var pivot]|] eqn:Ec;
    [|eexists; split; [reflexivity|apply leaf_ok]].
  pose proof (tree_choose_spec _ _ _ _ _ _ (fun v _ => or_intror eq_refl) (i_lcm_length n I) Ec) as Hc.
  destruct Hc as [Hvn [[g1 [Hg1 H1]] [g2 [Hg2 H2]]]].
  set (Il := filter (fun g => g @ var <=? pivot) I).
  set (Ig := filter (fun g => pivot <? g @ var) I).
  destruct (IH n Il) as [tl [-> [Rl [Ml [Sl Cl]]]]].
  { apply Nat.lt_le_trans with (length I); [|apply Nat.lt_succ_r; exact Hf]. apply filter_length_lt with g2; auto.
    apply Nat.leb_gt; exact H2. }
  destruct (IH n Ig) as [tg [-> [Rg [Mg [Sg Cg]]]]].
  { apply Nat.lt_le_trans with (length I); [|apply Nat.lt_succ_r; exact Hf]. apply filter_length_lt with g1; auto.
    apply Nat.ltb_ge; exact H1. }
  assert (Hsplit : forall x, In x I <-> In x Il \/ In x Ig).
  { intros x. unfold Il, Ig. rewrite !filter_In.
    destruct (Nat.leb_spec (x @ var) pivot), (Nat.ltb_spec pivot (x @ var)); try lia; intuition congruence. }
  eexists. split; [reflexivity|]. split; simpl.
  - intros m. rewrite orb_true_iff, andb_true_iff, Rl, Rg. unfold inI. split.
    + intros [[_ [g [Hg H]]]|[g [Hg H]]]; exists g; split; auto; apply Hsplit; auto.
    + intros [g [Hg H]]. apply Hsplit in Hg. destruct Hg as [Hg|Hg]; [right; eauto|].
      left. split; [|eauto]. assert (Hg' := Hg). apply filter_In in Hg'. destruct Hg' as [_ Hp].
      apply Nat.ltb_lt in Hp. specialize (H var Hvn). apply Nat.ltb_lt. lia.
  - assert (Hfl : forall x, In x (filter (fun m => negb (tree_isRedundant n tl m)) (tree_collect n tg)) ->
       In x (tree_collect n tg) /\ ~ inI n Il x).
    { intros x Hx. apply filter_In in Hx. destruct Hx as [Hx Hr]. split; auto.
      intros Hi. apply Rl in Hi. rewrite Hi in Hr. simpl in Hr. congruence. }
    assert (Hgl : forall x y, In x (tree_collect n tg) -> In y (tree_collect n tl) -> ~ le_n n x y).
    { intros x y Hx Hy Hle. apply Sg in Hx. apply Sl in Hy. unfold Il, Ig in *.
      apply filter_In in Hx, Hy. destruct Hx as [_ Hx], Hy as [_ Hy].
      apply Nat.ltb_lt in Hx. apply Nat.leb_le in Hy. specialize (Hle var Hvn). lia. }
    repeat split.
    + assert (N1 := proj1 Ml). assert (N2 : NoDup (filter (fun m => negb (tree_isRedundant n tl m)) (tree_collect n tg))).
      { apply NoDup_filter. apply Mg. }
      revert N2 Hfl. generalize (filter (fun m => negb (tree_isRedundant n tl m)) (tree_collect n tg)).
      intros F N2 Hfl. induction F as [|x F IHF]; simpl; auto. inversion N2; subst. constructor.
      * intros Hin. apply in_app_or in Hin. destruct Hin as [|Hin]; [contradiction|].
        apply (Hgl x x); [apply Hfl; left; auto|auto|apply le_n_refl].
      * apply IHF; auto. intros; apply Hfl; right; auto.
    + intros g h Hg Hh Hle. apply in_app_or in Hg, Hh.
      destruct Hg as [Hg|Hg], Hh as [Hh|Hh].
      * apply Mg; auto; apply Hfl; auto.
      * exfalso. apply (Hgl g h); auto. apply Hfl; auto.
      * exfalso. apply Hfl in Hh. destruct Hh as [_ Hh]. apply Hh. exists g. split; auto.
      * apply Ml; auto.
    + intros x Hx. apply Hsplit. apply in_app_or in Hx. destruct Hx as [Hx|Hx].
      * right. apply Sg. apply Hfl; auto.
      * left. apply Sl; auto.
    + intros x Hx. apply inI_app. apply Hsplit in Hx. destruct Hx as [Hx|Hx]; [right; auto|].
      destruct (Cg x Hx) as [g [Hg Hle]].
      destruct (tree_isRedundant n tl g) eqn:Er.
      * right. apply Rl in Er. apply inI_mono with g; auto.
        apply (min_of_eqI n Il (tree_collect n tl)); auto. repeat split; auto; apply Ml.
      * left. exists g. split; auto. apply filter_In. rewrite Er. auto.
Qed.

Lemma minimizer_minimize_spec : forall n I, min_of n I (minimizer_minimize n I).
Proof.
  intros n I. unfold minimizer_minimize.
  destruct (Nat.eqb_spec n 2) as [->|_]; [apply twoVarMinimize_spec|].
  destruct ((length I <? 1000) || (n =? 0)); [apply simpleMinimize_spec|].
  destruct (makeTree_total (S (length I)) n I ltac:(lia)) as [t [-> [_ H]]]. exact H.
Qed.

Lemma i_minimize_spec : forall n I, min_of n I (i_minimize n I).
Proof.
  intros n [|g I]; [|apply minimizer_minimize_spec].
  simpl. apply min_of_nil. intros x Hx; destruct Hx.
Qed.

Lemma min_of_wf : forall n I L, wf n I -> min_of n I L -> wf n L.
Proof. intros n I L Hw [_ [Hi _]] g Hg. apply Hw. auto. Qed.

(** characterisation of the minimal generators *)
Lemma min_of_in : forall n I L, wf n I -> min_of n I L ->
  forall g, In g L <-> In g I /\ forall h, In h I -> le_n n h g -> h = g.
Proof.
  intros n I L Hw [[Hnd Hm] [Hi Hc]] g. split.
  - intros Hg. split; auto. intros h Hh Hle. destruct (Hc h Hh) as [k [Hk Hkh]].
    assert (k = g) by (apply Hm; auto; eapply le_n_trans; eauto). subst.
    apply le_n_antisym with n; auto.
  - intros [Hg Hu]. destruct (Hc g Hg) as [k [Hk Hkg]].
    assert (k = g) by (apply Hu; auto). subst. auto.
Qed.

Lemma minl_lists_minimal : forall n I L, wf n I -> wf n L -> minl n L -> eqI n L I ->
  lists_minimal_generators n I L.
Proof.
  intros n I L HI HL [Hnd Hm] He. split; auto. intros g. unfold minimal_generator. split.
  - intros Hg. assert (Hlg : length g = n) by auto. split; auto. split.
    + apply in_ideal_iff with n; auto. apply He. apply inI_self; auto.
    + intros h Hh Hd. assert (Hlh : length h = n) by (apply divs_length in Hd; lia).
      apply divs_iff with (n := n) in Hd; auto.
      apply in_ideal_iff with (n := n) in Hh; auto. apply He in Hh.
      destruct Hh as [k [Hk Hkh]].
      assert (k = g) by (apply Hm; auto; eapply le_n_trans; eauto). subst k.
      apply le_n_antisym with n; auto.
  - intros [Hlg [Hin Hu]]. apply in_ideal_iff with (n := n) in Hin; auto. apply He in Hin.
    destruct Hin as [k [Hk Hkg]].
    assert (k = g).
    { apply Hu; [|apply divs_iff with n; auto]. apply in_ideal_iff with n; auto.
      apply He. apply inI_self; auto. }
    subst k; auto.
Qed.

(** ** colon by a variable power *)
Definition shift_n (n : nat) (m p : term) : term := t_product n m p.

Lemma colon_scan_spec : forall n var todo done prev cur block,
  var < n ->
  minl n (done ++ todo) ->
  (forall k, In k prev -> exists t, In t done /\ block < t @ var /\ k = t_set n t var 0) ->
  (forall k, In k cur -> exists t, In t done /\ t @ var = block /\ k = t_set n t var 0) ->
  (forall t, In t done -> block <= t @ var) ->
  (forall t, In t done -> block < t @ var -> inI n prev (t_set n t var 0)) ->
  (forall t, In t done -> inI n (prev ++ cur) (t_set n t var 0)) ->
  minl n (prev ++ cur) ->
  (forall t, In t todo -> t @ var <= block) ->
  StronglySorted (fun a b => b @ var <= a @ var) todo ->
  minl n (colon_scan n var prev cur block todo) /\
  (forall k, In k (colon_scan n var prev cur block todo) ->
      exists t, In t (done ++ todo) /\ k = t_set n t var 0) /\
  (forall t, In t (done ++ todo) -> inI n (colon_scan n var prev cur block todo) (t_set n t var 0)).
Proof.
  intros n var todo. induction todo as [|t todo IH];
    intros done prev cur block Hv Hall Hp Hc Hge Hdp Hd Hm Hle Hs.
  - simpl. repeat split; try apply Hm.
    + intros k Hk. apply in_app_or in Hk. rewrite app_nil_r.
      destruct Hk as [Hk|Hk]; [destruct (Hp k Hk) as [t [A [_ B]]]|destruct (Hc k Hk) as [t [A [_ B]]]]; eauto.
    + rewrite app_nil_r. auto.
  - inversion Hs as [|? ? Hs' Hf]; subst. rewrite Forall_forall in Hf.
    assert (Hall' : minl n ((done ++ [t]) ++ todo)) by (rewrite <- app_assoc; exact Hall).
    assert (Htb : t @ var <= block) by (apply Hle; left; auto).
    (* facts after the block switch *)
    set (prev1 := if t @ var =? block then prev else prev ++ cur).
    set (cur1 := if t @ var =? block then cur else []).
    assert (Epc : prev1 ++ cur1 = prev ++ cur).
    { unfold prev1, cur1. destruct (t @ var =? block); auto. rewrite app_nil_r; auto. }
    assert (Hp1 : forall k, In k prev1 -> exists u, In u done /\ t @ var < u @ var /\ k = t_set n u var 0).
    { intros k Hk. unfold prev1 in Hk. destruct (Nat.eqb_spec (t @ var) block) as [E|E].
      - destruct (Hp k Hk) as [u [A [B C]]]. exists u. repeat split; auto. lia.
      - apply in_app_or in Hk. destruct Hk as [Hk|Hk].
        + destruct (Hp k Hk) as [u [A [B C]]]. exists u. repeat split; auto. lia.
        + destruct (Hc k Hk) as [u [A [B C]]]. exists u. repeat split; auto. lia. }
    assert (Hc1 : forall k, In k cur1 -> exists u, In u done /\ u @ var = t @ var /\ k = t_set n u var 0).
    { intros k Hk. unfold cur1 in Hk. destruct (Nat.eqb_spec (t @ var) block) as [E|E]; [|destruct Hk].
      destruct (Hc k Hk) as [u [A [B C]]]. exists u. repeat split; auto. lia. }
    assert (Hdp1 : forall u, In u done -> t @ var < u @ var -> inI n prev1 (t_set n u var 0)).
    { intros u Hu Hlt. unfold prev1. destruct (Nat.eqb_spec (t @ var) block) as [E|E].
      - apply Hdp; auto. lia.
      - apply Hd; auto. }
    assert (Hm1 : minl n (prev1 ++ cur1)) by (rewrite Epc; auto).
    assert (Hd1 : forall u, In u done -> inI n (prev1 ++ cur1) (t_set n u var 0)) by (rewrite Epc; auto).
    assert (Hgoal : forall cur2,
      (cur2 = cur1 /\ inI n prev1 (t_set n t var 0)) \/
      (cur2 = cur1 ++ [t_set n t var 0] /\ ~ inI n prev1 (t_set n t var 0)) ->
      minl n (colon_scan n var prev1 cur2 (t @ var) todo) /\
      (forall k, In k (colon_scan n var prev1 cur2 (t @ var) todo) ->
         exists t0, In t0 (done ++ t :: todo) /\ k = t_set n t0 var 0) /\
      (forall t0, In t0 (done ++ t :: todo) ->
         inI n (colon_scan n var prev1 cur2 (t @ var) todo) (t_set n t0 var 0))).
    { intros cur2 Hcase.
      replace (done ++ t :: todo) with ((done ++ [t]) ++ todo) by (rewrite <- app_assoc; auto).
      apply IH; auto.
      - intros k Hk. destruct (Hp1 k Hk) as [u [A [B C]]]. exists u. repeat split; auto.
        apply in_or_app; auto.
      - intros k Hk. destruct Hcase as [[-> _]|[-> _]].
        + destruct (Hc1 k Hk) as [u [A [B C]]]. exists u. repeat split; auto. apply in_or_app; auto.
        + apply in_app_or in Hk. destruct Hk as [Hk|[<-|[]]].
          * destruct (Hc1 k Hk) as [u [A [B C]]]. exists u. repeat split; auto. apply in_or_app; auto.
          * exists t. repeat split; auto. apply in_or_app; simpl; auto.
      - intros u Hu. apply in_app_or in Hu. destruct Hu as [Hu|[<-|[]]]; auto. specialize (Hge u Hu). lia.
      - intros u Hu Hlt. apply in_app_or in Hu. destruct Hu as [Hu|[<-|[]]]; [auto|lia].
      - intros u Hu. apply in_app_or in Hu. destruct Hu as [Hu|[<-|[]]].
        + specialize (Hd1 u Hu). destruct Hcase as [[-> _]|[-> _]]; auto.
          rewrite app_assoc. apply inI_app. left; auto.
        + destruct Hcase as [[-> Hin]|[-> _]].
          * apply inI_app. left; auto.
          * apply inI_self. apply in_or_app. right. apply in_or_app. right. left; auto.
      - destruct Hcase as [[-> _]|[-> Hnin]]; auto.
        rewrite app_assoc. apply minl_snoc; auto.
        + intros k Hk Hkd. apply in_app_or in Hk. destruct Hk as [Hk|Hk].
          * apply Hnin. exists k; auto.
          * destruct (Hc1 k Hk) as [u [A [B C]]]. subst k.
            assert (u = t).
            { apply (proj2 Hall).
              - apply in_or_app; auto.
              - apply in_or_app; right; left; auto.
              - intros w Hw. specialize (Hkd w Hw). rewrite !t_set_nth in Hkd by auto.
                destruct (Nat.eqb_spec w var); [subst; lia|auto]. }
            subst. destruct Hall as [Hnd _]. apply NoDup_remove_2 in Hnd. apply Hnd. apply in_or_app; auto.
        + intros k Hk Hkd.
          assert (Hku : exists u, In u done /\ t @ var <= u @ var /\ k = t_set n u var 0).
          { apply in_app_or in Hk. destruct Hk as [Hk|Hk].
            - destruct (Hp1 k Hk) as [u [A [B C]]]. exists u. repeat split; auto. lia.
            - destruct (Hc1 k Hk) as [u [A [B C]]]. exists u. repeat split; auto. lia. }
          destruct Hku as [u [A [B ->]]].
          assert (t = u).
          { apply (proj2 Hall).
            - apply in_or_app; right; left; auto.
            - apply in_or_app; auto.
            - intros w Hw. specialize (Hkd w Hw). rewrite !t_set_nth in Hkd by auto.
              destruct (Nat.eqb_spec w var); [subst; lia|auto]. }
          subst. destruct Hall as [Hnd _]. apply NoDup_remove_2 in Hnd. apply Hnd. apply in_or_app; auto. }
    assert (Eq : colon_scan n var prev cur block (t :: todo) =
      if existsb (fun d => t_divides n d (t_set n t var 0)) prev1
      then colon_scan n var prev1 cur1 (t @ var) todo
      else colon_scan n var prev1 (cur1 ++ [t_set n t var 0]) (t @ var) todo).
    { unfold prev1, cur1. cbn [colon_scan]. destruct (Nat.eqb_spec (t @ var) block) as [E|E]; [rewrite E|]; reflexivity. }
    rewrite Eq. destruct (existsb (fun d => t_divides n d (t_set n t var 0)) prev1) eqn:E.
    + apply Hgoal. left. split; auto. apply existsb_exists in E. destruct E as [d [Hdd E]].
      exists d. split; auto. apply t_divides_iff; auto.
    + apply Hgoal. right. split; auto. intros [d [Hdd Hl]]. apply not_true_false in E. apply E.
      apply existsb_exists. exists d. split; auto. apply t_divides_iff; auto.
Qed.

(** The colon of an ideal by a term: I : p *)
Definition is_colon (n : nat) (I : ideal) (p : term) (J : ideal) : Prop :=
  minl n J /\ wf n J /\
  (forall k, In k J -> exists g, In g I /\ k = t_colon n g p) /\
  (forall g, In g I -> inI n J (t_colon n g p)).

Lemma le_colon : forall n g p m, le_n n (t_colon n g p) m <-> le_n n g (t_product n m p).
Proof.
  intros. unfold le_n. split; intros H v Hv; specialize (H v Hv).
  - rewrite t_colon_nth in H by auto. rewrite t_product_nth by auto. lia.
  - rewrite t_colon_nth by auto. rewrite t_product_nth in H by auto. lia.
Qed.

Lemma is_colon_inI : forall n I p J, is_colon n I p J ->
  forall m, inI n J m <-> inI n I (t_product n m p).
Proof.
  intros n I p J [_ [_ [H1 H2]]] m. split.
  - intros [k [Hk Hle]]. destruct (H1 k Hk) as [g [Hg ->]]. exists g. split; auto.
    apply le_colon; auto.
  - intros [g [Hg Hle]]. apply inI_mono with (t_colon n g p); auto. apply le_colon; auto.
Qed.

Lemma NoDup_app_intro : forall {A} (l1 l2 : list A), NoDup l1 -> NoDup l2 ->
  (forall x, In x l1 -> ~ In x l2) -> NoDup (l1 ++ l2).
Proof.
  induction l1 as [|a l1 IH]; intros l2 H1 H2 H; simpl; auto. inversion H1; subst. constructor.
  - intros Hin. apply in_app_or in Hin. destruct Hin; [contradiction|].
    apply (H a); simpl; auto.
  - apply IH; auto. intros x Hx. apply H. right; auto.
Qed.

Lemma minl_app : forall n L1 L2, minl n L1 -> minl n L2 ->
  (forall x y, In x L1 -> In y L2 -> ~ le_n n x y) ->
  (forall x y, In x L1 -> In y L2 -> ~ le_n n y x) -> minl n (L1 ++ L2).
Proof.
  intros n L1 L2 [N1 M1] [N2 M2] H1 H2. split.
  - apply NoDup_app_intro; auto. intros x Hx Hx'. apply (H1 x x); auto using le_n_refl.
  - intros g h Hg Hh Hle. apply in_app_or in Hg, Hh. destruct Hg, Hh; auto.
    + exfalso; eapply H1; eauto.
    + exfalso; eapply H2; eauto.
Qed.

Lemma minl_incl_map : forall n (f : term -> term) L I, minl n I -> incl L I -> NoDup L ->
  (forall g h, In g L -> In h L -> le_n n (f g) (f h) -> le_n n g h) -> minl n (map f L).
Proof.
  intros n f L I [Nd M] Hi Hnd Hf. split.
  - assert (Hinj : forall g h, In g L -> In h L -> f g = f h -> g = h).
    { intros. apply M; auto. apply Hf; auto. rewrite H1. apply le_n_refl. }
    clear Hf Hi. induction L as [|a L IH]; simpl; [constructor|]. inversion Hnd; subst. constructor.
    + intros Hin. apply in_map_iff in Hin. destruct Hin as [b [E Hb]].
      assert (b = a) by (apply Hinj; simpl; auto). subst. contradiction.
    + apply IH; auto. intros; apply Hinj; simpl; auto.
  - intros x y Hx Hy Hle. apply in_map_iff in Hx, Hy. destruct Hx as [g [<- Hg]], Hy as [h [<- Hh]].
    f_equal. apply M; auto.
Qed.

Lemma minl_sub : forall n I L, minl n I -> incl L I -> NoDup L -> minl n L.
Proof. intros n I L [_ M] Hi Hnd. split; auto. Qed.

Lemma minl_filter : forall n I f, minl n I -> minl n (filter f I).
Proof.
  intros. apply minl_sub with I; auto.
  - intros x Hx. apply filter_In in Hx. tauto.
  - apply NoDup_filter. apply H.
Qed.

Lemma minl_perm : forall n I J, Permutation I J -> minl n I -> minl n J.
Proof.
  intros n I J HP [Hnd Hm]. split.
  - eapply Permutation_NoDup; eauto.
  - intros g h Hg Hh. apply Permutation_sym in HP. apply Hm; eapply Permutation_in; eauto.
Qed.

Lemma StronglySorted_app : forall {A} (R : A -> A -> Prop) l1 l2,
  StronglySorted R l1 -> StronglySorted R l2 ->
  (forall x y, In x l1 -> In y l2 -> R x y) -> StronglySorted R (l1 ++ l2).
Proof.
  induction l1 as [|a l1 IH]; intros l2 H1 H2 H; simpl; auto.
  inversion H1; subst. constructor.
  - apply IH; auto. intros; apply H; simpl; auto.
  - rewrite Forall_forall in *. intros x Hx. apply in_app_or in Hx. destruct Hx; auto.
    apply H; simpl; auto.
Qed.

(** x_var^e as a term *)
Definition var_pow (n var e : nat) : term := t_set n (t_identity n) var e.

Lemma var_pow_nth : forall n var e v, v < n -> (var_pow n var e) @ v = if v =? var then e else 0.
Proof.
  intros. unfold var_pow. rewrite t_set_nth by auto. rewrite t_identity_nth. reflexivity.
Qed.

Lemma t_colon_var : forall n g var e, length g = n ->
  t_colon n g (var_pow n var e) = t_set n g var (g @ var - e).
Proof.
  intros. apply term_ext with n; auto using t_colon_length, t_set_length.
  intros v Hv. rewrite t_colon_nth, var_pow_nth, t_set_nth by auto.
  destruct (Nat.eqb_spec v var); subst; lia.
Qed.

Lemma minimizer_colonVar_spec : forall n I var e, wf n I -> minl n I -> var < n ->
  is_colon n I (var_pow n var e) (fst (minimizer_colonVar n I var e)) /\
  (snd (minimizer_colonVar n I var e) = true <-> exists g, In g I /\ 0 < g @ var <= e) /\
  (snd (minimizer_colonVar n I var e) = false ->
     length (fst (minimizer_colonVar n I var e)) = length I).
Proof.
  intros n I var e Hw Hm Hv. unfold minimizer_colonVar.
  set (strict := map (fun g => t_set n g var (g @ var - e)) (filter (fun g => e <? g @ var) I)).
  set (zero := filter (fun g => negb (e <? g @ var) && (g @ var =? 0)) I).
  set (mid := filter (fun g => negb (e <? g @ var) && negb (g @ var =? 0)) I).
  assert (Hstrict : forall k, In k strict -> exists g, In g I /\ e < g @ var /\ k = t_set n g var (g @ var - e)).
  { intros k Hk. apply in_map_iff in Hk. destruct Hk as [g [<- Hg]]. apply filter_In in Hg.
    exists g. repeat split; try tauto. apply Nat.ltb_lt; tauto. }
  assert (Hzero : forall g, In g zero <-> In g I /\ g @ var = 0).
  { intros g. unfold zero. rewrite filter_In.
    destruct (Nat.ltb_spec e (g @ var)), (Nat.eqb_spec (g @ var) 0); simpl; intuition (try congruence; lia). }
  assert (Hmid : forall g, In g mid <-> In g I /\ 0 < g @ var <= e).
  { intros g. unfold mid. rewrite filter_In.
    destruct (Nat.ltb_spec e (g @ var)), (Nat.eqb_spec (g @ var) 0); simpl; intuition (try congruence; lia). }
  assert (Hstr : forall g, In g I -> e < g @ var -> In (t_set n g var (g @ var - e)) strict).
  { intros g Hg Hlt. unfold strict. apply in_map_iff. exists g. split; auto. apply filter_In.
    split; auto. apply Nat.ltb_lt; auto. }
  assert (Mstrict : minl n strict).
  { apply minl_incl_map with I; auto.
    - intros x Hx. apply filter_In in Hx. tauto.
    - apply NoDup_filter. apply Hm.
    - intros g h Hg Hh Hle w Hw'. specialize (Hle w Hw'). rewrite !t_set_nth in Hle by auto.
      apply filter_In in Hg, Hh. destruct Hg as [_ Hg], Hh as [_ Hh]. apply Nat.ltb_lt in Hg, Hh.
      destruct (Nat.eqb_spec w var); subst; lia. }
  assert (Wstrict : wf n strict).
  { intros k Hk. destruct (Hstrict k Hk) as [g [_ [_ ->]]]. apply t_set_length. }
  assert (Hset0 : forall g, In g I -> g @ var = 0 -> t_set n g var 0 = g).
  { intros g Hg H0. apply term_ext with n; auto using t_set_length.
    intros v Hv'. rewrite t_set_nth by auto. destruct (Nat.eqb_spec v var); subst; auto. }
  (* the two results *)
  assert (Hcase0 : mid = [] -> is_colon n I (var_pow n var e) (strict ++ zero) /\
            length (strict ++ zero) = length I).
  { intros Emid. assert (Hcov : forall g, In g I -> e < g @ var \/ g @ var = 0).
    { intros g Hg. destruct (Nat.lt_ge_cases e (g @ var)); auto. right.
      destruct (Nat.eq_dec (g @ var) 0); auto. exfalso.
      assert (In g mid) by (apply Hmid; split; auto; lia). rewrite Emid in H0. destruct H0. }
    split; [split; [|split; [|split]]|].
    - apply minl_app; auto.
      + apply minl_filter; auto.
      + intros x y Hx Hy Hle. destruct (Hstrict x Hx) as [g [Hg [Hlt ->]]]. apply Hzero in Hy.
        specialize (Hle var Hv). rewrite t_set_nth_eq in Hle by auto. lia.
      + intros x y Hx Hy Hle. destruct (Hstrict x Hx) as [g [Hg [Hlt ->]]]. apply Hzero in Hy.
        assert (y = g).
        { apply (proj2 Hm); try tauto. intros w Hw'. specialize (Hle w Hw').
          rewrite t_set_nth in Hle by auto. destruct (Nat.eqb_spec w var); subst; lia. }
        subst. lia.
    - intros k Hk. apply in_app_or in Hk. destruct Hk as [Hk|Hk]; auto. apply Hw. apply Hzero; auto.
    - intros k Hk. apply in_app_or in Hk. destruct Hk as [Hk|Hk].
      + destruct (Hstrict k Hk) as [g [Hg [_ ->]]]. exists g. split; auto. rewrite t_colon_var; auto.
      + apply Hzero in Hk. exists k. split; [tauto|]. rewrite t_colon_var by (apply Hw; tauto).
        replace (k @ var - e) with 0 by lia. symmetry. apply Hset0; tauto.
    - intros g Hg. rewrite t_colon_var by auto. apply inI_app. destruct (Hcov g Hg) as [H|H].
      + left. apply inI_self. auto.
      + right. replace (g @ var - e) with 0 by lia. rewrite Hset0 by auto. apply inI_self. apply Hzero; auto.
    - unfold strict, zero. rewrite app_length, map_length.
      clear - Hcov. induction I as [|g I IH]; simpl; auto.
      assert (IH' := IH (fun g0 H => Hcov g0 (or_intror H))).
      destruct (Hcov g (or_introl eq_refl)) as [H|H].
      + destruct (Nat.ltb_spec e (g @ var)); [|lia]. simpl. lia.
      + destruct (Nat.ltb_spec e (g @ var)); [lia|]. rewrite H. simpl. lia. }
  destruct mid as [|m0 mid'] eqn:Emid.
  - simpl. destruct (Hcase0 eq_refl) as [A B]. split; auto. split; auto. split; [congruence|].
    intros [g [Hg Hr]]. assert (In g []) by (apply Hmid; auto). destruct H.
  - rewrite <- Emid in *. clear Hcase0.
    pose proof (std_sort_perm (t_revSingleDegreeLess var) mid) as HP.
    pose proof (std_sort_revdeg_sorted var mid) as HS.
    destruct (std_sort (t_revSingleDegreeLess var) mid) as [|h sorted] eqn:Es.
    { apply Permutation_length in HP. rewrite Emid in HP. simpl in HP. lia. }
    cbn [fst snd].
    assert (Hin : forall g, In g (h :: sorted) <-> In g mid).
    { intros g. split; apply Permutation_in; auto using Permutation_sym. }
    assert (Hex : exists g, In g I /\ 0 < g @ var <= e).
    { exists m0. apply Hmid. rewrite Emid. left; auto. }
    assert (Hall : minl n (h :: sorted ++ zero)).
    { change (h :: sorted ++ zero) with ((h :: sorted) ++ zero). split.
      - apply NoDup_app_intro.
        + eapply Permutation_NoDup; [apply Permutation_sym; exact HP|]. apply NoDup_filter. apply Hm.
        + apply NoDup_filter. apply Hm.
        + intros x Hx Hx'. apply Hin, Hmid in Hx. apply Hzero in Hx'. lia.
      - intros a b Ha Hb. apply (proj2 Hm); apply in_app_or in Ha, Hb.
        + destruct Ha as [Ha|Ha]; [apply Hin, Hmid in Ha|apply Hzero in Ha]; tauto.
        + destruct Hb as [Hb|Hb]; [apply Hin, Hmid in Hb|apply Hzero in Hb]; tauto. }
    destruct (colon_scan_spec n var ((h :: sorted) ++ zero) [] [] [] (h @ var)) as [A [B C]]; auto.
    { intros k []. } { intros k []. } { intros t []. } { intros t []. } { intros t []. }
    { split; [constructor|]. intros g ? []. }
    { intros t Ht. apply in_app_or in Ht. destruct Ht as [Ht|Ht].
      - destruct Ht as [<-|Ht]; auto. inversion HS; subst. rewrite Forall_forall in H2. auto.
      - apply Hzero in Ht. lia. }
    { apply StronglySorted_app; auto.
      - clear - Hzero. induction I as [|g I IH]; [constructor|].
        assert (forall z, In z zero -> z @ var = 0) by (intros; apply Hzero; auto).
        revert H. generalize zero. induction zero0; intros; constructor.
        + apply IHzero0. intros; apply H; right; auto.
        + rewrite Forall_forall. intros x Hx. rewrite (H x) by (right; auto). lia.
      - intros x y Hx Hy. apply Hzero in Hy. lia. }
    simpl app in *.
    assert (HinI : forall t, In t (h :: sorted ++ zero) -> In t I /\ t @ var <= e).
    { intros t Ht. change (h :: sorted ++ zero) with ((h :: sorted) ++ zero) in Ht.
      apply in_app_or in Ht. destruct Ht as [Ht|Ht]; [apply Hin, Hmid in Ht|apply Hzero in Ht]; split; try tauto; lia. }
    split; [|split].
    + split; [|split; [|split]].
      * apply minl_app; auto.
        -- intros x y Hx Hy Hle. destruct (Hstrict x Hx) as [g [Hg [Hlt ->]]].
           destruct (B y Hy) as [t [Ht ->]]. specialize (Hle var Hv).
           rewrite !t_set_nth_eq in Hle by auto. lia.
        -- intros x y Hx Hy Hle. destruct (Hstrict x Hx) as [g [Hg [Hlt ->]]].
           destruct (B y Hy) as [t [Ht ->]]. apply HinI in Ht.
           assert (t = g).
           { apply (proj2 Hm); try tauto. intros w Hw'. specialize (Hle w Hw').
             rewrite !t_set_nth in Hle by auto. destruct (Nat.eqb_spec w var); subst; lia. }
           subst. lia.
      * intros k Hk. apply in_app_or in Hk. destruct Hk as [Hk|Hk]; auto.
        destruct (B k Hk) as [t [_ ->]]. apply t_set_length.
      * intros k Hk. apply in_app_or in Hk. destruct Hk as [Hk|Hk].
        -- destruct (Hstrict k Hk) as [g [Hg [_ ->]]]. exists g. split; auto. rewrite t_colon_var; auto.
        -- destruct (B k Hk) as [t [Ht ->]]. apply HinI in Ht. exists t. split; [tauto|].
           rewrite t_colon_var by (apply Hw; tauto). f_equal. lia.
      * intros g Hg. rewrite t_colon_var by auto. apply inI_app.
        destruct (Nat.lt_ge_cases e (g @ var)) as [Hlt|Hle].
        -- left. apply inI_self; auto.
        -- right. replace (g @ var - e) with 0 by lia. apply C.
           change (h :: sorted ++ zero) with ((h :: sorted) ++ zero). apply in_or_app.
           destruct (Nat.eq_dec (g @ var) 0).
           ++ right. apply Hzero; auto.
           ++ left. apply Hin, Hmid. split; auto. lia.
    + split; auto.
    + congruence.
Qed.

(** ** colon by a general term *)
Lemma colon_strict_iff : forall n p g,
  colon_strict n p g = true <-> forall v, v < n -> p @ v = 0 \/ p @ v < g @ v.
Proof.
  intros. unfold colon_strict. rewrite forallb_seq. split; intros H v Hv; specialize (H v Hv);
  destruct (Nat.leb_spec (g @ v) (p @ v)), (Nat.ltb_spec 0 (p @ v)); simpl in *; try congruence; lia.
Qed.
Lemma colon_block_iff : forall n p g,
  colon_block n p g = true <-> forall v, v < n -> g @ v = 0 \/ p @ v < g @ v.
Proof.
  intros. unfold colon_block. rewrite forallb_seq. split; intros H v Hv; specialize (H v Hv);
  destruct (Nat.leb_spec (g @ v) (p @ v)), (Nat.ltb_spec 0 (g @ v)); simpl in *; try congruence; lia.
Qed.

Lemma colon_blocks_spec : forall n mins todo kept,
  minl n (kept ++ todo) ->
  (forall k, In k kept -> ~ inI n mins k) ->
  let R := colon_blocks n mins kept todo in
  minl n R /\ (forall k, In k R -> (In k kept \/ In k todo) /\ ~ inI n mins k) /\
  (forall k, In k kept -> In k R) /\
  (forall t, In t todo -> inI n (mins ++ R) t).
Proof.
  intros n mins todo. induction todo as [|t todo IH]; intros kept Hm Hk; simpl.
  - rewrite app_nil_r in Hm. repeat split; auto; try apply Hm. intros t [].
  - destruct (existsb (fun g => t_dominates n t g) (mins ++ kept)) eqn:E.
    + assert (Hm' : minl n (kept ++ todo)).
      { apply minl_sub with (kept ++ t :: todo); auto.
        - intros x Hx. apply in_app_or in Hx. apply in_or_app. simpl. tauto.
        - apply NoDup_remove_1 with t. apply Hm. }
      destruct (IH kept Hm' Hk) as [A [B [C D]]].
      split; [exact A|]. split; [|split]; auto.
      * intros k Hkk. destruct (B k Hkk). split; auto. tauto.
      * intros u [<-|Hu]; auto. apply existsb_exists in E. destruct E as [g [Hg Hd]].
        apply t_dominates_iff in Hd. exists g. split; auto. apply in_app_or in Hg. apply in_or_app.
        destruct Hg; auto.
    + assert (Hni : ~ inI n mins t).
      { intros [g [Hg Hle]]. apply not_true_false in E. apply E. apply existsb_exists. exists g.
        split; [apply in_or_app; auto|apply t_dominates_iff; auto]. }
      destruct (IH (kept ++ [t])) as [A [B [C D]]].
      { rewrite <- app_assoc. exact Hm. }
      { intros k Hkk. apply in_app_or in Hkk. destruct Hkk as [|[<-|[]]]; auto. }
      split; [exact A|]. split; [|split]; auto.
      * intros k Hkk. destruct (B k Hkk) as [[Hin|Hin] Hn]; split; auto. apply in_app_or in Hin.
        destruct Hin as [|[<-|[]]]; auto.
      * intros k Hkk. apply C. apply in_or_app; auto.
      * intros u [<-|Hu]; auto. apply inI_self. apply in_or_app. right. apply C. apply in_or_app; simpl; auto.
Qed.

Lemma minimizer_colonTerm_spec : forall n I p, wf n I -> minl n I -> length p = n ->
  is_colon n I p (fst (minimizer_colonTerm n I p)) /\
  (snd (minimizer_colonTerm n I p) = true <->
     exists g v, In g I /\ v < n /\ 0 < g @ v <= p @ v) /\
  (snd (minimizer_colonTerm n I p) = false ->
     length (fst (minimizer_colonTerm n I p)) = length I).
Proof.
  intros n I p Hw Hm Hp. unfold minimizer_colonTerm.
  destruct (Nat.eqb_spec (t_sizeOfSupport n p) 1) as [E1|E1].
  - apply t_sizeOfSupport_1 in E1. destruct E1 as [u [Hu [Hpu Hz]]].
    assert (Ef : t_firstNonZero n p = u).
    { destruct (t_firstNonZero_spec n p) as [[A [B C]]|[A B]].
      - destruct (Nat.eq_dec (t_firstNonZero n p) u); auto. rewrite Hz in B by auto. lia.
      - rewrite B in Hpu by auto. lia. }
    rewrite Ef. assert (Epow : p = var_pow n u (p @ u)).
    { apply term_ext with n; auto. apply t_set_length. intros v Hv. rewrite var_pow_nth by auto.
      destruct (Nat.eqb_spec v u); subst; auto. }
    destruct (minimizer_colonVar_spec n I u (p @ u) Hw Hm Hu) as [A [B C]].
    rewrite <- Epow in A. split; auto. split; auto. rewrite B. split.
    + intros [g [Hg H]]. exists g, u. auto.
    + intros [g [v [Hg [Hv H]]]]. exists g. split; auto.
      destruct (Nat.eq_dec v u); [subst; auto|]. rewrite Hz in H by auto. lia.
  - set (strict := map (fun g => t_colon n g p) (filter (colon_strict n p) I)).
    set (rest := filter (fun g => negb (colon_strict n p g)) I).
    set (block := map (fun g => t_colon n g p) (filter (colon_block n p) rest)).
    set (other := map (fun g => t_colon n g p) (filter (fun g => negb (colon_block n p g)) rest)).
    assert (Hstrict : forall k, In k strict <-> exists g, In g I /\ k = t_colon n g p /\
               forall v, v < n -> p @ v = 0 \/ p @ v < g @ v).
    { intros k. unfold strict. rewrite in_map_iff. split.
      - intros [g [<- Hg]]. apply filter_In in Hg. exists g. repeat split; try tauto.
        apply colon_strict_iff; tauto.
      - intros [g [Hg [-> H]]]. exists g. split; auto. apply filter_In. split; auto. apply colon_strict_iff; auto. }
    assert (Hrest : forall g, In g rest <-> In g I /\ exists v, v < n /\ 0 < p @ v /\ g @ v <= p @ v).
    { intros g. unfold rest. rewrite filter_In, negb_true_iff. split; intros [Hg H]; split; auto.
      - destruct (existsb (fun v => (g @ v <=? p @ v) && (0 <? p @ v)) (seq 0 n)) eqn:E.
        + apply existsb_seq in E. destruct E as [v [Hv E]]. apply andb_true_iff in E. destruct E as [Ea Eb].
          apply Nat.leb_le in Ea. apply Nat.ltb_lt in Eb. exists v; auto.
        + exfalso. assert (colon_strict n p g = true); [|congruence]. apply colon_strict_iff. intros v Hv.
          apply not_true_false in E. destruct (Nat.eq_dec (p @ v) 0); auto. right.
          destruct (Nat.lt_ge_cases (p @ v) (g @ v)); auto. exfalso. apply E. apply existsb_seq.
          exists v. split; auto. apply andb_true_iff. rewrite Nat.leb_le, Nat.ltb_lt. lia.
      - destruct H as [v [Hv H]]. apply not_true_false. intros Hc.
        rewrite colon_strict_iff in Hc. specialize (Hc v Hv). lia. }
    assert (Hblock : forall k, In k block <-> exists g, In g I /\ k = t_colon n g p /\
               (exists v, v < n /\ 0 < p @ v /\ g @ v <= p @ v) /\
               forall v, v < n -> g @ v = 0 \/ p @ v < g @ v).
    { intros k. unfold block. rewrite in_map_iff. split.
      - intros [g [<- Hg]]. apply filter_In in Hg. destruct Hg as [Hg Hb]. apply Hrest in Hg.
        exists g. repeat split; try tauto. apply colon_block_iff; tauto.
      - intros [g [Hg [-> [He H]]]]. exists g. split; auto. apply filter_In. split; [apply Hrest; auto|].
        apply colon_block_iff; auto. }
    assert (Hother : forall k, In k other <-> exists g, In g I /\ k = t_colon n g p /\
               exists v, v < n /\ 0 < g @ v <= p @ v).
    { intros k. unfold other. rewrite in_map_iff. split.
      - intros [g [<- Hg]]. apply filter_In in Hg. destruct Hg as [Hg Hb]. apply Hrest in Hg.
        exists g. repeat split; try tauto.
        destruct (existsb (fun v => (g @ v <=? p @ v) && (0 <? g @ v)) (seq 0 n)) eqn:E.
        + apply existsb_seq in E. destruct E as [v [Hv E]]. apply andb_true_iff in E. destruct E as [Ea Eb].
          apply Nat.leb_le in Ea. apply Nat.ltb_lt in Eb. exists v; auto.
        + exfalso. assert (colon_block n p g = true).
          { apply colon_block_iff. intros v Hv.
            apply not_true_false in E. destruct (Nat.eq_dec (g @ v) 0); auto. right.
            destruct (Nat.lt_ge_cases (p @ v) (g @ v)); auto. exfalso. apply E. apply existsb_seq.
            exists v. split; auto. apply andb_true_iff. rewrite Nat.leb_le, Nat.ltb_lt. lia. }
          rewrite H in Hb. simpl in Hb. congruence.
      - intros [g [Hg [-> [v [Hv H]]]]]. exists g. split; auto. apply filter_In. split.
        + apply Hrest. split; auto. exists v. repeat split; auto; lia.
        + apply negb_true_iff. apply not_true_false. intros Hc. rewrite colon_block_iff in Hc.
          specialize (Hc v Hv). lia. }
    assert (Hcov : forall g, In g I -> In (t_colon n g p) strict \/ In (t_colon n g p) block \/ In (t_colon n g p) other).
    { intros g Hg. destruct (colon_strict n p g) eqn:Es.
      - left. apply (in_map (fun g => t_colon n g p)). apply filter_In; auto.
      - assert (In g rest) by (apply filter_In; rewrite Es; auto).
        destruct (colon_block n p g) eqn:Eb.
        + right; left. apply (in_map (fun g => t_colon n g p)). apply filter_In; auto.
        + right; right. apply (in_map (fun g => t_colon n g p)). apply filter_In; rewrite Eb; auto. }
    assert (Mstrict : minl n strict).
    { apply minl_incl_map with I; auto.
      - intros x Hx. apply filter_In in Hx. tauto.
      - apply NoDup_filter. apply Hm.
      - intros g h Hg Hh Hle w Hw'. specialize (Hle w Hw'). rewrite !t_colon_nth in Hle by auto.
        apply filter_In in Hg, Hh. destruct Hg as [_ Hg], Hh as [_ Hh].
        rewrite colon_strict_iff in Hg, Hh. specialize (Hg w Hw'). specialize (Hh w Hw'). lia. }
    assert (Nrest : NoDup rest) by (apply NoDup_filter; apply Hm).
    assert (Mblock : minl n block).
    { apply minl_incl_map with I; auto.
      - intros x Hx. apply filter_In in Hx. destruct Hx as [Hx _]. apply Hrest in Hx. tauto.
      - apply NoDup_filter. auto.
      - intros g h Hg Hh Hle w Hw'. specialize (Hle w Hw'). rewrite !t_colon_nth in Hle by auto.
        apply filter_In in Hg, Hh. destruct Hg as [_ Hg], Hh as [_ Hh].
        rewrite colon_block_iff in Hg, Hh. specialize (Hg w Hw'). specialize (Hh w Hw'). lia. }
    (* strict never divides / is divided by the others *)
    assert (Hsb : forall x g, In x strict -> In g I ->
               (exists v, v < n /\ 0 < p @ v /\ g @ v <= p @ v) ->
               ~ le_n n x (t_colon n g p) /\ ~ le_n n (t_colon n g p) x).
    { intros x g Hx Hg [v [Hv [H0 H1]]]. apply Hstrict in Hx. destruct Hx as [s [Hs [-> Hst]]]. split.
      - intros Hle. specialize (Hle v Hv). rewrite !t_colon_nth in Hle by auto. specialize (Hst v Hv). lia.
      - intros Hle. assert (g = s).
        { apply (proj2 Hm); auto. intros w Hw'. specialize (Hle w Hw').
          rewrite !t_colon_nth in Hle by auto. specialize (Hst w Hw'). lia. }
        subst. specialize (Hst v Hv). lia. }
    assert (Hsb' : forall x y, In x strict -> In y block -> ~ le_n n x y /\ ~ le_n n y x).
    { intros x y Hx Hy. apply Hblock in Hy. destruct Hy as [g [Hg [-> [He _]]]]. apply Hsb; auto. }
    assert (Hso : forall x y, In x strict -> In y other -> ~ le_n n x y /\ ~ le_n n y x).
    { intros x y Hx Hy. apply Hother in Hy. destruct Hy as [g [Hg [-> [v [Hv H]]]]]. apply Hsb; auto.
      exists v. repeat split; auto; lia. }
    assert (Hbo : forall x y, In x block -> In y other -> ~ le_n n x y).
    { intros x y Hx Hy Hle. apply Hblock in Hx. apply Hother in Hy.
      destruct Hx as [g [Hg [-> [_ Hb]]]], Hy as [h [Hh [-> [v [Hv H]]]]].
      assert (g = h).
      { apply (proj2 Hm); auto. intros w Hw'. specialize (Hle w Hw').
        rewrite !t_colon_nth in Hle by auto. specialize (Hb w Hw'). lia. }
      subst. specialize (Hb v Hv). lia. }
    assert (Wc : forall k, In k strict \/ In k block \/ In k other -> length k = n /\ exists g, In g I /\ k = t_colon n g p).
    { intros k [H|[H|H]]; [apply Hstrict in H|apply Hblock in H|apply Hother in H];
        destruct H as [g [Hg [-> _]]]; split; eauto using t_colon_length. }
    destruct other as [|o0 other'] eqn:Eo.
    + simpl. split; [|split].
      * split; [|split; [|split]].
        -- apply minl_app; auto; intros x y Hx Hy; destruct (Hsb' x y Hx Hy); auto.
        -- intros k Hk. apply in_app_or in Hk. apply Wc. tauto.
        -- intros k Hk. apply in_app_or in Hk. apply Wc. tauto.
        -- intros g Hg. apply inI_self. apply in_or_app. destruct (Hcov g Hg) as [|[|[]]]; auto.
      * split; [congruence|]. intros [g [v [Hg [Hv H]]]].
        assert (In (t_colon n g p) []) by (apply Hother; exists g; repeat split; auto; exists v; auto). destruct H0.
      * intros _. unfold strict, block. rewrite app_length, !map_length.
        assert (Hall : forall g, In g rest -> colon_block n p g = true).
        { intros g Hg. destruct (colon_block n p g) eqn:E; auto. exfalso.
          assert (In (t_colon n g p) []).
          { rewrite <- Eo. apply (in_map (fun g => t_colon n g p)). apply filter_In. rewrite E. auto. }
          destruct H. }
        rewrite (proj2 (filter_length_all _ _) Hall). unfold rest. clear.
        induction I as [|g I IH]; simpl; auto. destruct (colon_strict n p g); simpl; lia.
    + rewrite <- Eo in *. cbn [fst snd].
      pose proof (minimizer_minimize_spec n other) as [Mmin [Imin Cmin]].
      set (mins := minimizer_minimize n other) in *.
      destruct (colon_blocks_spec n mins block [] Mblock (fun k (H : In k []) => False_ind _ H)) as [A [B [_ D]]].
      split; [|split].
      * split; [|split; [|split]].
        -- apply minl_app; auto.
           ++ apply minl_app; auto.
              ** intros x y Hx Hy Hle. destruct (B y Hy) as [_ Hn]. apply Hn. exists x. auto.
              ** intros x y Hx Hy Hle. destruct (B y Hy) as [[[]|Hyb] _]. apply (Hbo y x); auto.
           ++ intros x y Hx Hy. apply in_app_or in Hy. destruct Hy as [Hy|Hy].
              ** destruct (Hso x y Hx (Imin y Hy)); auto.
              ** destruct (B y Hy) as [[[]|Hyb] _]. destruct (Hsb' x y Hx Hyb); auto.
           ++ intros x y Hx Hy. apply in_app_or in Hy. destruct Hy as [Hy|Hy].
              ** destruct (Hso x y Hx (Imin y Hy)); auto.
              ** destruct (B y Hy) as [[[]|Hyb] _]. destruct (Hsb' x y Hx Hyb); auto.
        -- intros k Hk. apply in_app_or in Hk. destruct Hk as [Hk|Hk]; [apply Wc; auto|].
           apply in_app_or in Hk. destruct Hk as [Hk|Hk]; [apply Wc; auto|].
           destruct (B k Hk) as [[[]|Hkb] _]. apply Wc; auto.
        -- intros k Hk. apply in_app_or in Hk. destruct Hk as [Hk|Hk]; [apply Wc; auto|].
           apply in_app_or in Hk. destruct Hk as [Hk|Hk]; [apply Wc; auto|].
           destruct (B k Hk) as [[[]|Hkb] _]. apply Wc; auto.
        -- intros g Hg. apply inI_app. destruct (Hcov g Hg) as [H|[H|H]].
           ++ left. apply inI_self; auto.
           ++ right. apply D; auto.
           ++ right. apply inI_app. left. apply Cmin; auto.
      * split; auto. intros _. assert (Ho : In o0 other) by (rewrite Eo; left; auto).
        apply Hother in Ho. destruct Ho as [g [Hg [_ [v [Hv H]]]]]. exists g, v. auto.
      * congruence.
Qed.
