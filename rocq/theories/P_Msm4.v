(** Correctness of the base cases of MsmSlice. *)
From Coq Require Import List Arith Bool Lia Permutation Sorted.
Import ListNotations.
From Verif Require Import M_Term M_Ideal M_Slice P_Term P_Ideal P_Msm1 P_Msm2 P_Msm3.

Definition emits (s : slice) (out : list term) : Prop :=
  NoDup out /\ forall m, In m out <-> con s m.

Lemma emits_nil : forall s, (forall m, ~ sker s m) -> emits s [].
Proof.
  intros s H. split; [constructor|]. intros m. split; [intros []|]. intros [m' [Hm _]]. eapply H; eauto.
Qed.

Lemma choice_n : forall {A} (d : A) (R : nat -> A -> Prop) n, (forall v, v < n -> exists a, R v a) ->
  exists L, length L = n /\ forall v, v < n -> R v (nth v L d).
Proof.
  intros A d R n. induction n as [|n IH]; intros H.
  - exists []. split; auto. intros; lia.
  - destruct IH as [L [HL HR]]. { intros; apply H; lia. }
    destruct (H n ltac:(lia)) as [a Ha]. exists (L ++ [a]). split; [rewrite app_length; simpl; lia|].
    intros v Hv. destruct (Nat.eq_dec v n) as [->|Hne].
    + rewrite app_nth2 by lia. rewrite HL, Nat.sub_diag. auto.
    + rewrite app_nth1 by lia. apply HR; lia.
Qed.

Lemma choice_incl : forall {A} (d : A) (I L : list A) n, length L = n -> (forall v, v < n -> In (nth v L d) I) -> incl L I.
Proof. intros A d I L n Hl H x Hx. apply (In_nth L x d) in Hx. destruct Hx as [v [Hv <-]]. apply H; lia. Qed.

Lemma lab_inj : forall n v w m g, v < n -> w < n -> lab n v m g -> lab n w m g -> v = w.
Proof.
  intros n v w m g Hv Hw [A1 A2] [B1 B2]. destruct (Nat.eq_dec v w); auto.
  specialize (A2 w Hw ltac:(auto)). lia.
Qed.

Lemma few_generators : forall n I m, msm n I m -> n <= length I.
Proof.
  intros n I m Hm.
  destruct (choice_n ([] : term) (fun v g => In g I /\ lab n v m g) n) as [L [HL HR]].
  { intros v Hv. apply msm_lab; auto. }
  rewrite <- HL. apply NoDup_incl_length.
  - apply (NoDup_nth L ([] : term)). intros i j Hi Hj E. rewrite HL in Hi, Hj.
    destruct (HR i Hi) as [_ R1], (HR j Hj) as [_ R2]. rewrite <- E in R2. eapply lab_inj; eauto.
  - apply choice_incl with (d := []) (n := n); auto. intros v Hv. apply HR; auto.
Qed.

(** ** All variables *)
Definition isvars (n : nat) (I : ideal) : Prop :=
  (forall g, In g I -> exists v, v < n /\ g = var_pow n v 1) /\
  (forall v, v < n -> In (var_pow n v 1) I).

Lemma msm_isvars : forall n I m, isvars n I -> (msm n I m <-> m = t_identity n).
Proof.
  intros n I m [H1 H2]. split.
  - intros Hm. apply term_ext with n; [apply Hm|apply t_identity_length|]. intros v Hv. rewrite t_identity_nth.
    destruct (Nat.eq_dec (m @ v) 0); auto. exfalso. apply (proj1 (proj2 Hm)). exists (var_pow n v 1). split; auto.
    intros w Hw. rewrite var_pow_nth by auto. destruct (Nat.eqb_spec w v); subst; lia.
  - intros ->. apply msm_intro; [apply t_identity_length| |].
    + intros [g [Hg Hle]]. destruct (H1 g Hg) as [v [Hv ->]]. specialize (Hle v Hv).
      rewrite var_pow_nth, Nat.eqb_refl, t_identity_nth in Hle by auto. lia.
    + intros v Hv. exists (var_pow n v 1). split; auto. split.
      * rewrite var_pow_nth, Nat.eqb_refl, t_identity_nth by auto. auto.
      * intros w Hw Hne. rewrite var_pow_nth, t_identity_nth by auto.
        destruct (Nat.eqb_spec w v); [contradiction|auto].
Qed.

Lemma product_identity : forall n q, length q = n -> t_product n (t_identity n) q = q.
Proof.
  intros n q Hq. apply term_ext with n; auto using t_product_length. intros v Hv.
  rewrite t_product_nth, t_identity_nth by auto. lia.
Qed.

Lemma norm_no_one : forall n S I, normalized n S I -> (exists g v, In g I /\ v < n /\ g @ v <> 0) ->
  ~ inI n S (t_identity n).
Proof.
  intros n S I Hn [g [v [Hg [Hv Hx]]]] [x [Hx1 Hle]]. apply (Hn x g Hx1 Hg). split.
  - intros w Hw. left. specialize (Hle w Hw). rewrite t_identity_nth in Hle. lia.
  - exists v; auto.
Qed.

Lemma isvars_emits : forall s, slice_ok s -> 0 < s_n s -> isvars (s_n s) (s_I s) -> emits s [s_q s].
Proof.
  intros s Hok Hn Hv. split.
  - constructor; [intros []|constructor].
  - assert (H1 : ~ inI (s_n s) (s_S s) (t_identity (s_n s))).
    { apply norm_no_one with (s_I s); [apply Hok|]. exists (var_pow (s_n s) 0 1), 0.
      split; [apply Hv; auto|]. split; auto. rewrite var_pow_nth by auto. simpl. lia. }
    intros m. simpl. unfold con, sker, ker. split.
    + intros [<-|[]]. exists (t_identity (s_n s)). split.
      * split; auto. apply msm_isvars; auto.
      * symmetry. apply product_identity. exact (ok_q s Hok).
    + intros [m' [[Hm' _] ->]]. left. apply msm_isvars in Hm'; auto. subst m'. symmetry. apply product_identity. exact (ok_q s Hok).
Qed.

(** ** Generators that reach the lcm *)
Lemma ndl_unique : forall n I g v w, full n (i_lcm n I) -> ndl n I -> In g I -> v < n -> w < n ->
  g @ v = (i_lcm n I) @ v -> g @ w = (i_lcm n I) @ w -> v = w.
Proof.
  intros n I g v w Hf Hd Hg Hv Hw E1 E2. destruct (Nat.eq_dec v w); auto. exfalso.
  specialize (Hd Hf g Hg). apply not_true_false in Hd. apply Hd. apply doubleLcm_iff. exists v, w. auto.
Qed.

Lemma ndl_lt : forall n I g v w, full n (i_lcm n I) -> ndl n I -> In g I -> v < n -> w < n -> w <> v ->
  g @ v = (i_lcm n I) @ v -> g @ w < (i_lcm n I) @ w.
Proof.
  intros n I g v w Hf Hd Hg Hv Hw Hne E. pose proof (i_lcm_ge n I g w Hw Hg).
  destruct (Nat.eq_dec (g @ w) ((i_lcm n I) @ w)) as [E2|]; [|lia].
  exfalso. apply Hne. eapply ndl_unique; eauto.
Qed.

Lemma max_gens : forall n I, full n (i_lcm n I) -> ndl n I ->
  exists L : list term, length L = n /\ NoDup L /\ incl L I /\
    forall v, v < n -> (nth v L []) @ v = (i_lcm n I) @ v.
Proof.
  intros n I Hf Hd.
  destruct (choice_n ([] : term) (fun v g => In g I /\ g @ v = (i_lcm n I) @ v) n) as [L [HL HR]].
  { intros v Hv. apply i_lcm_attained; auto. }
  exists L. split; auto. split; [|split].
  - apply (NoDup_nth L ([] : term)). intros i j Hi Hj E. rewrite HL in Hi, Hj.
    destruct (HR i Hi) as [I1 R1], (HR j Hj) as [_ R2]. rewrite <- E in R2.
    apply (ndl_unique n I (nth i L [])); auto.
  - apply choice_incl with (d := []) (n := n); auto. intros v Hv. apply HR; auto.
  - intros v Hv. apply HR; auto.
Qed.

(** exactly n generators: each reaches the lcm somewhere *)
Lemma count_n_max : forall n I, full n (i_lcm n I) -> ndl n I -> length I = n ->
  forall g, In g I -> exists v, v < n /\ g @ v = (i_lcm n I) @ v.
Proof.
  intros n I Hf Hd Hl g Hg. destruct (max_gens n I Hf Hd) as [L [HL [Hnd [Hi HR]]]].
  assert (Hi2 : incl I L). { apply NoDup_length_incl; auto. lia. }
  apply Hi2 in Hg. apply (In_nth L g []) in Hg. destruct Hg as [v [Hv <-]]. exists v. split; [lia|]. apply HR; lia.
Qed.

(** a square-free lcm without double lcm: the ideal is generated by the variables *)
Lemma squarefree_isvars : forall n I, wf n I -> minl n I -> 0 < n -> full n (i_lcm n I) -> ndl n I ->
  (forall v, v < n -> (i_lcm n I) @ v <= 1) -> isvars n I.
Proof.
  intros n I Hw Hm Hn Hf Hd Hs.
  assert (H1 : forall v, v < n -> (i_lcm n I) @ v = 1) by (intros v Hv; specialize (Hs v Hv); specialize (Hf v Hv); lia).
  assert (Hmax : forall g v, In g I -> v < n -> g @ v = 1 -> g = var_pow n v 1).
  { intros g v Hg Hv E. apply term_ext with n; auto. { apply t_set_length. }
    intros w Hw'. rewrite var_pow_nth by auto. destruct (Nat.eqb_spec w v) as [->|Hne]; auto.
    pose proof (ndl_lt n I g v w Hf Hd Hg Hv Hw' Hne ltac:(rewrite H1; auto)). rewrite H1 in H by auto. lia. }
  assert (Hv : forall v, v < n -> In (var_pow n v 1) I).
  { intros v Hv. destruct (i_lcm_attained n I v Hv (Hf v Hv)) as [g [Hg E]]. rewrite H1 in E by auto.
    rewrite <- (Hmax g v); auto. }
  split; auto. intros g Hg. destruct (Nat.eq_dec (exp_sum n g) 0) as [E|E].
  - exfalso. assert (g = var_pow n 0 1).
    { apply Hm; auto. intros v Hv'. destruct (Nat.eq_dec (g @ v) 0) as [->|]; [lia|].
      pose proof (exp_sum_pos n g v Hv' ltac:(lia)). lia. }
    subst g. pose proof (exp_sum_pos n (var_pow n 0 1) 0 Hn). rewrite var_pow_nth in H by auto. simpl in H. lia.
  - assert (Hex : exists v, v < n /\ 0 < g @ v).
    { apply t_isIdentity_false. apply not_true_false. intros Hid. rewrite t_isIdentity_iff in Hid. apply E.
      unfold exp_sum. clear -Hid. assert (forall l, (forall v, In v l -> v < n) -> list_sum (map (fun v => g @ v) l) = 0).
      { induction l as [|a l IH]; intros Hl; auto. cbn [map list_sum fold_right]. rewrite Hid by (apply Hl; left; auto).
        unfold list_sum in IH. rewrite IH; auto. intros; apply Hl; right; auto. }
      apply H. intros v Hv. apply in_seq in Hv. lia. }
    destruct Hex as [v [Hv' Hp]]. exists v. split; auto. apply Hmax; auto.
    pose proof (i_lcm_ge n I g v Hv' Hg). rewrite H1 in H by auto. lia.
Qed.

(** ** n generators, not simplified *)
Lemma count_n_ker : forall n I m, full n (i_lcm n I) -> ndl n I -> length I = n ->
  (msm n I m <-> m = t_decrement n (i_lcm n I)).
Proof.
  intros n I m Hf Hd Hl. pose proof (count_n_max n I Hf Hd Hl) as Hmax. split.
  - intros Hm. apply term_ext with n; [apply Hm|apply t_decrement_length|]. intros v Hv. rewrite t_decrement_nth by auto.
    destruct (msm_lab n I m v Hm Hv) as [g [Hg Hlab]]. destruct (Hmax g Hg) as [w [Hw E]].
    destruct Hlab as [L1 L2]. destruct (Nat.eq_dec w v) as [->|Hne]; [lia|].
    specialize (L2 w Hw Hne). pose proof (msm_lt_lcm n I m w Hm Hw). lia.
  - intros ->. apply msm_intro; [apply t_decrement_length| |].
    + intros [g [Hg Hle]]. destruct (Hmax g Hg) as [w [Hw E]]. specialize (Hle w Hw).
      rewrite t_decrement_nth in Hle by auto. specialize (Hf w Hw). lia.
    + intros v Hv. destruct (i_lcm_attained n I v Hv (Hf v Hv)) as [g [Hg E]]. exists g. split; auto. split.
      * rewrite t_decrement_nth by auto. specialize (Hf v Hv). lia.
      * intros w Hw Hne. rewrite t_decrement_nth by auto.
        pose proof (ndl_lt n I g v w Hf Hd Hg Hv Hw Hne E). lia.
Qed.

(** ** Two variables *)
Lemma twoVar_sorted : forall I, wf 2 I -> minl 2 I ->
  StronglySorted (fun a b => a @ 0 < b @ 0 /\ b @ 1 < a @ 1) (i_singleDegreeSort I 0).
Proof.
  intros I Hw Hm. unfold i_singleDegreeSort.
  pose proof (std_sort_deg_sorted 0 I) as Hs. pose proof (std_sort_perm (t_singleDegreeLess 0) I) as Hp.
  assert (Hm2 : minl 2 (std_sort (t_singleDegreeLess 0) I)).
  { apply minl_perm with I; auto. apply Permutation_sym; auto. }
  clear Hp. induction Hs as [|a l Hs IH Hf]; constructor.
  - apply IH. destruct Hm2 as [Hnd H]. inversion Hnd; subst. split; auto. intros g h Hg Hh. apply H; right; auto.
  - rewrite Forall_forall in *. intros b Hb. specialize (Hf b Hb). destruct Hm2 as [Hnd H].
    assert (Hne : a <> b) by (intros ->; inversion Hnd; contradiction).
    assert (Hlt : b @ 1 < a @ 1).
    { destruct (Nat.lt_ge_cases (b @ 1) (a @ 1)); auto. exfalso. apply Hne. apply H; [left|right|]; auto.
      intros v Hv. destruct v as [|[|v]]; [auto|auto|lia]. }
    split; auto. destruct (Nat.eq_dec (a @ 0) (b @ 0)) as [E|]; [|lia]. exfalso. apply Hne. symmetry.
    apply H; [right|left|]; auto. intros v Hv. destruct v as [|[|v]]; [lia|lia|lia].
Qed.

Lemma twoVar_emit_spec : forall S q l, length q = 2 ->
  StronglySorted (fun a b => a @ 0 < b @ 0 /\ b @ 1 < a @ 1) l ->
  (NoDup (twoVar_emit S q l)) /\
  (forall m, In m (twoVar_emit S q l) <-> exists m', ker 2 l S m' /\ m = t_product 2 m' q) /\
  (forall m, In m (twoVar_emit S q l) -> match l with [] => True | a :: _ => a @ 0 + q @ 0 <= m @ 0 end).
Proof.
  intros S q l Hq. induction l as [|a l IH]; intros Hs.
  - simpl. split; [constructor|]. split; [|intros m Hm; destruct Hm].
    intros m. split; [intros H; destruct H|]. intros [m' [[H _] _]]. exact (msm_nil 2 m' ltac:(lia) H).
  - inversion Hs as [|? ? Hs' Hf]; subst. rewrite Forall_forall in Hf. specialize (IH Hs'). destruct IH as [N [E B]].
    destruct l as [|b l].
    + simpl. split; [constructor|]. split; [|intros m Hm; destruct Hm].
      intros m. split; [intros H; destruct H|]. intros [m' [[H _] _]].
      apply few_generators in H. simpl in H. lia.
    + assert (Hab : a @ 0 < b @ 0 /\ b @ 1 < a @ 1) by (apply Hf; left; auto).
      set (c := [b @ 0 - 1; a @ 1 - 1]).
      assert (Hc : msm 2 (a :: b :: l) c).
      { apply msm_intro; auto.
        - intros [g [Hg Hle]]. pose proof (Hle 0 ltac:(lia)) as L0. pose proof (Hle 1 ltac:(lia)) as L1.
          simpl in L0, L1. destruct Hg as [<-|Hg]; [lia|].
          assert (b @ 0 <= g @ 0).
          { destruct Hg as [<-|Hg]; auto. inversion Hs' as [|? ? _ Hf']; subst. rewrite Forall_forall in Hf'.
            specialize (Hf' g Hg). lia. }
          lia.
        - intros v Hv. destruct v as [|[|v]]; [| |lia].
          + exists b. split; [simpl; auto|]. split; [simpl; lia|]. intros w Hw Hne.
            destruct w as [|[|w]]; [lia|simpl; lia|lia].
          + exists a. split; [simpl; auto|]. split; [simpl; lia|]. intros w Hw Hne.
            destruct w as [|[|w]]; [simpl; lia|lia|lia]. }
      assert (Hsplit : forall m', msm 2 (a :: b :: l) m' <-> m' = c \/ msm 2 (b :: l) m').
      { intros m'. split.
        - intros Hm. pose proof (proj1 Hm) as Hlen.
          destruct (msm_lab 2 _ m' 0 Hm ltac:(lia)) as [g [Hg [G1 G2]]].
          destruct (msm_lab 2 _ m' 1 Hm ltac:(lia)) as [h [Hh [H1 H2]]].
          specialize (G2 1 ltac:(lia) ltac:(lia)). specialize (H2 0 ltac:(lia) ltac:(lia)).
          assert (Hnb : ~ le_n 2 b m').
          { intros Hle. apply (proj1 (proj2 Hm)). exists b. simpl; auto. }
          assert (Hnb2 : b @ 0 <= m' @ 0 -> b @ 1 <= m' @ 1 -> False).
          { intros. apply Hnb. intros v Hv. destruct v as [|[|v]]; [auto|auto|lia]. }
          destruct Hg as [<-|Hg].
          { destruct Hh as [<-|Hh]; [lia|]. specialize (Hf h Hh). lia. }
          assert (Hbg : b @ 0 <= g @ 0 /\ g @ 1 <= b @ 1).
          { destruct Hg as [<-|Hg]; auto. inversion Hs' as [|? ? _ Hf']; subst. rewrite Forall_forall in Hf'.
            specialize (Hf' g Hg). lia. }
          destruct Hh as [<-|Hh].
          + left. apply term_ext with 2; auto. intros v Hv. destruct v as [|[|v]]; [| |lia]; simpl.
            * destruct (Nat.eq_dec (b @ 0) (g @ 0)); [lia|]. exfalso. apply Hnb2; lia.
            * lia.
          + right. apply msm_intro; auto.
            * intros Hin. apply (proj1 (proj2 Hm)). eapply inI_incl; [|exact Hin]. intros x Hx; right; auto.
            * intros v Hv. destruct v as [|[|v]]; [| |lia].
              -- exists g. split; auto. split; auto. intros w Hw Hne. destruct w as [|[|w]]; [lia|auto|lia].
              -- exists h. split; auto. split; auto. intros w Hw Hne. destruct w as [|[|w]]; [auto|lia|lia].
        - intros [->|Hm]; auto. apply msm_intro; [apply Hm| |].
          + intros [x [[<-|Hx] Hle]].
            * destruct (msm_lab 2 _ m' 1 Hm ltac:(lia)) as [h [Hh [H1 H2]]].
              specialize (Hle 1 ltac:(lia)). specialize (Hf h Hh). lia.
            * apply (proj1 (proj2 Hm)). exists x; auto.
          + intros v Hv. destruct (msm_lab 2 _ m' v Hm Hv) as [g [Hg G]]. exists g. split; [right; auto|auto]. }
      assert (Hbnd : forall m, In m (twoVar_emit S q (b :: l)) -> b @ 0 + q @ 0 <= m @ 0) by exact B.
      change (twoVar_emit S q (a :: b :: l)) with
        (if i_contains 2 S c then twoVar_emit S q (b :: l)
         else [c @ 0 + q @ 0; c @ 1 + q @ 1] :: twoVar_emit S q (b :: l)).
      assert (Hcq : [c @ 0 + q @ 0; c @ 1 + q @ 1] = t_product 2 c q) by reflexivity.
      destruct (i_contains 2 S c) eqn:Ec.
      * apply i_contains_iff in Ec. split; auto. split.
        -- intros m. rewrite E. split; intros [m' [[K1 K2] Em]]; exists m'; split; auto; split; auto.
           ++ apply Hsplit. auto.
           ++ apply Hsplit in K1. destruct K1 as [->|K1]; [contradiction|auto].
        -- intros m Hm. specialize (Hbnd m Hm). lia.
      * assert (Ec' : ~ inI 2 S c) by (rewrite <- i_contains_iff; congruence). rewrite Hcq. split; [|split].
        -- constructor; auto. intros Hin. specialize (Hbnd _ Hin). rewrite <- Hcq in Hbnd. simpl in Hbnd. lia.
        -- intros m. split.
           ++ intros [<-|Hin].
              ** exists c. split; auto. split; auto.
              ** apply E in Hin. destruct Hin as [m' [[K1 K2] Em]]. exists m'. split; auto. split; auto. apply Hsplit; auto.
           ++ intros [m' [[K1 K2] Em]]. apply Hsplit in K1. destruct K1 as [->|K1]; [left; auto|right].
              apply E. exists m'. split; auto. split; auto.
        -- intros m [<-|Hm]; [rewrite <- Hcq; simpl; lia|]. specialize (Hbnd m Hm). lia.
Qed.

Lemma twoVar_emits : forall s, slice_ok s -> s_n s = 2 -> emits s (twoVarBaseCase s).
Proof.
  intros s Hok Hn. unfold twoVarBaseCase.
  assert (Hs := twoVar_sorted (s_I s) ltac:(rewrite <- Hn; apply Hok) ltac:(rewrite <- Hn; apply Hok)).
  assert (Hq : length (s_q s) = 2) by (rewrite (ok_q s Hok); auto).
  destruct (twoVar_emit_spec (s_S s) (s_q s) _ Hq Hs) as [N [E _]]. split; auto.
  intros m. rewrite E. unfold con, sker. rewrite Hn.
  assert (HP : forall x, In x (i_singleDegreeSort (s_I s) 0) <-> In x (s_I s)) by (intros; apply std_sort_in).
  assert (He : eqI 2 (i_singleDegreeSort (s_I s) 0) (s_I s)).
  { intros x. split; intros [g [Hg Hle]]; exists g; split; auto; apply HP; auto. }
  split; intros [m' [[K1 K2] Em]]; exists m'; split; auto; split; auto; eapply msm_eqI; eauto.
  intros x. symmetry. apply He.
Qed.

(** ** Simplified, n generators *)
Lemma simp_count_n : forall n I, wf n I -> minl n I -> 0 < n -> full n (i_lcm n I) -> ndl n I -> SI n I ->
  length I = n -> isvars n I.
Proof.
  intros n I Hw Hm Hn Hf Hd Hs Hl. apply squarefree_isvars; auto.
  intros v Hv. destruct (Hs v Hv) as [[g [Hg [[C1 C2] E]]] _].
  destruct (count_n_max n I Hf Hd Hl g Hg) as [w [Hw' Ew]].
  destruct (Nat.eq_dec w v) as [->|Hne]; [lia|]. exfalso. apply (C2 w); auto.
Qed.

(** ** Simplified, n+1 generators *)
Lemma cand_max_or_non : forall n I v g, full n (i_lcm n I) -> ndl n I -> In g I -> v < n ->
  (g @ v = (i_lcm n I) @ v -> cand n (i_lcm n I) v g).
Proof.
  intros n I v g Hf Hd Hg Hv E. split.
  - specialize (Hf v Hv). lia.
  - intros w Hw Hne. pose proof (ndl_lt n I g v w Hf Hd Hg Hv Hw Hne E). lia.
Qed.

Lemma pure_of : forall n g v e, length g = n -> v < n -> g @ v = e ->
  (forall w, w < n -> w <> v -> g @ w = 0) -> g = var_pow n v e.
Proof.
  intros n g v e Hl Hv E H. apply term_ext with n; auto. { apply t_set_length. }
  intros w Hw. rewrite var_pow_nth by auto. destruct (Nat.eqb_spec w v); subst; auto.
Qed.

Lemma one_more_structure : forall n I, wf n I -> minl n I -> 2 <= n -> full n (i_lcm n I) -> ndl n I -> SI n I ->
  length I = n + 1 ->
  exists h, In h I /\
    (forall g, In g I -> g <> h -> exists v, v < n /\ g = var_pow n v ((i_lcm n I) @ v)) /\
    (forall v, v < n -> In (var_pow n v ((i_lcm n I) @ v)) I /\ var_pow n v ((i_lcm n I) @ v) <> h) /\
    (forall v, v < n -> (h @ v = 1 /\ 2 <= (i_lcm n I) @ v) \/ (h @ v = 0 /\ (i_lcm n I) @ v = 1)).
Proof.
  intros n I Hw Hm Hn Hf Hd Hs Hl. set (l := i_lcm n I) in *.
  destruct (max_gens n I Hf Hd) as [L [HL [Hnd [Hi HR]]]]. fold l in HR.
  (* the extra generator *)
  assert (Hex : exists h, In h I /\ ~ In h L).
  { assert (Hx : ~ incl I L).
    { intros Hincl. apply NoDup_incl_length in Hincl; [|apply Hm]. unfold ideal, term in *. lia. }
    clear -Hx. induction I as [|a I IH]. { exfalso. apply Hx. intros x Hx'. destruct Hx'. }
    destruct (in_dec (list_eq_dec Nat.eq_dec) a L) as [Ha|Ha].
    - destruct IH as [h [Hh Hn]]. { intros Hi. apply Hx. intros x [<-|Hx']; auto. }
      exists h. split; [right|]; auto.
    - exists a. split; [left|]; auto. }
  destruct Hex as [h [Hh HhL]].
  assert (Hcov : forall g, In g I -> g = h \/ exists v, v < n /\ g = nth v L []).
  { intros g Hg. assert (Hi2 : incl I (h :: L)).
    { apply NoDup_length_incl.
      - constructor; auto.
      - simpl. unfold ideal, term in *. lia.
      - intros x [<-|Hx]; auto. }
    destruct (Hi2 g Hg) as [<-|Hg']; auto. right. apply (In_nth L g []) in Hg'. destruct Hg' as [v [Hv E]].
    exists v. split; [lia|auto]. }
  set (M := fun v => nth v L ([] : term)) in *.
  assert (HM : forall v, v < n -> In (M v) I) by (intros v Hv; apply Hi; apply nth_In; lia).
  assert (HMR : forall v, v < n -> (M v) @ v = l @ v) by exact HR.
  assert (HMlt : forall v w, v < n -> w < n -> w <> v -> (M v) @ w < l @ w).
  { intros v w Hv Hw' Hne. apply (ndl_lt n I (M v) v w); auto. }
  (* candidates *)
  assert (Hcand : forall v g, v < n -> In g I -> cand n l v g -> g = h \/ g = M v).
  { intros v g Hv Hg [C1 C2]. destruct (Hcov g Hg) as [->|[w [Hw' ->]]]; auto. right.
    destruct (Nat.eq_dec w v) as [->|Hne]; auto. exfalso. apply (C2 w Hw' Hne). apply HMR; auto. }
  (* h reaches the lcm nowhere *)
  assert (Hh_non : forall v, v < n -> h @ v < l @ v).
  { intros v0 Hv0. pose proof (i_lcm_ge n I h v0 Hv0 Hh) as Hge. fold l in Hge.
    destruct (Nat.eq_dec (h @ v0) (l @ v0)) as [E0|]; [|lia]. exfalso.
    assert (Hone : forall w, w < n -> w <> v0 -> l @ w = 1).
    { intros w Hw' Hne. destruct (Hs w Hw') as [[g [Hg [Hc E]]] _]. fold l in Hc.
      destruct (Hcand w g Hw' Hg Hc) as [->| ->].
      - exfalso. destruct Hc as [_ C2]. apply (C2 v0); auto.
      - rewrite HMR in E; auto. }
    assert (Hl0 : l @ v0 = 1).
    { destruct (Hs v0 Hv0) as [[g [Hg [Hc E]]] _]. fold l in Hc.
      destruct (Hcand v0 g Hv0 Hg Hc) as [->| ->]; [congruence|rewrite HMR in E; auto]. }
    assert (h = M v0).
    { apply term_ext with n; auto. intros w Hw'. destruct (Nat.eq_dec w v0) as [->|Hne].
      - rewrite HMR by auto. auto.
      - pose proof (HMlt v0 w Hv0 Hw' Hne). pose proof (ndl_lt n I h v0 w Hf Hd Hh Hv0 Hw' Hne E0).
        fold l in H0. rewrite (Hone w Hw' Hne) in *. lia. }
    subst h. apply HhL. apply nth_In. lia. }
  (* the others are pure powers *)
  assert (Hpure : forall v, v < n -> M v = var_pow n v (l @ v)).
  { intros v Hv. apply pure_of; auto. intros w Hw' Hne.
    destruct (Nat.eq_dec ((M v) @ w) 0) as [|Hnz]; auto. exfalso.
    destruct (Hs v Hv) as [_ Hz]. destruct (Hz w Hw' Hne) as [g [Hg [Hc E]]]. fold l in Hc.
    destruct (Hcand v g Hv Hg Hc) as [->| ->]; [|lia].
    assert (Hcw : forall g, In g I -> cand n l w g -> g = M w).
    { intros g Hg' Hc'. destruct (Hcand w g Hw' Hg' Hc') as [->| ->]; auto. destruct Hc' as [C1 _]. lia. }
    assert (M w = var_pow n w 1).
    { destruct (Hs w Hw') as [[g [Hg' [Hc' E']]] Hz']. fold l in Hc'. apply Hcw in Hc'; auto. subst g.
      apply pure_of; auto. intros u Hu Hnu. destruct (Hz' u Hu Hnu) as [k [Hk [Hck Ek]]]. fold l in Hck.
      apply Hcw in Hck; auto. subst k. auto. }
    assert (M w = M v).
    { apply Hm; auto. intros u Hu. rewrite H. rewrite var_pow_nth by auto. destruct (Nat.eqb_spec u w); subst; lia. }
    pose proof (HMlt v w Hv Hw' Hne). rewrite <- H0 in H1. rewrite HMR in H1 by auto. lia. }
  exists h. split; auto. split; [|split].
  - intros g Hg Hne. destruct (Hcov g Hg) as [->|[v [Hv ->]]]; [contradiction|]. exists v. split; auto. apply Hpure; auto.
  - intros v Hv. rewrite <- Hpure by auto. split; auto. intros <-. apply HhL. apply nth_In. lia.
  - intros v Hv. specialize (Hh_non v Hv). destruct (Hs v Hv) as [[g [Hg [Hc E]]] _]. fold l in Hc.
    destruct (Hcand v g Hv Hg Hc) as [->| ->].
    + left. split; auto. lia.
    + rewrite HMR in E by auto. right. lia.
Qed.

Lemma oneMore_emits : forall s, slice_ok s -> 2 <= s_n s -> s_lcm s = slcm s -> full (s_n s) (slcm s) -> sndl s ->
  SI (s_n s) (s_I s) -> length (s_I s) = s_n s + 1 ->
  exists out, oneMoreGeneratorBaseCase s = Some out /\ emits s out.
Proof.
  intros s Hok Hn Hlcm Hf Hd Hs Hl. unfold slcm in *. set (n := s_n s) in *. set (l := i_lcm n (s_I s)) in *.
  destruct (one_more_structure n (s_I s)) as [h [Hh [Hoth [Hpure Hhv]]]]; auto; try (apply Hok; fail).
  fold l in Hoth, Hpure, Hhv.
  assert (Hfind : find (fun g => negb (t_sizeOfSupport n g =? 1)) (s_I s) = Some h).
  { assert (Hsize1 : forall g, In g (s_I s) -> g <> h -> t_sizeOfSupport n g = 1).
    { intros g Hg Hne. destruct (Hoth g Hg Hne) as [v [Hv ->]]. apply t_sizeOfSupport_1. exists v. split; auto.
      split; [rewrite var_pow_nth, Nat.eqb_refl by auto; apply Hf; auto|].
      intros w Hw Hnw. rewrite var_pow_nth by auto. destruct (Nat.eqb_spec w v); [contradiction|auto]. }
    assert (Hsize : t_sizeOfSupport n h <> 1).
    { intros E. apply t_sizeOfSupport_1 in E. destruct E as [v [Hv [Hp Hz]]].
      destruct (Hpure v Hv) as [P1 P2]. apply P2. symmetry. apply (proj2 (ok_minI s Hok)); auto. fold n.
      intros w Hw. rewrite var_pow_nth by auto. destruct (Nat.eqb_spec w v) as [->|Hnw]; [|rewrite Hz; auto].
      destruct (Hhv v Hv); lia. }
    assert (Hgen : forall J, In h J -> (forall g, In g J -> g <> h -> t_sizeOfSupport n g = 1) ->
      find (fun g => negb (t_sizeOfSupport n g =? 1)) J = Some h).
    { induction J as [|a J IH]; intros Hin HJ; [destruct Hin|]. simpl.
      destruct (Nat.eqb_spec (t_sizeOfSupport n a) 1) as [E|E]; simpl.
      - destruct Hin as [->|Hin]; [contradiction|]. apply IH; auto. intros; apply HJ; auto. right; auto.
      - f_equal. destruct (list_eq_dec Nat.eq_dec a h); auto. exfalso. apply E. apply HJ; auto. left; auto. }
    apply Hgen; auto. }
  unfold oneMoreGeneratorBaseCase. cbv zeta. fold n. rewrite Hfind. eexists. split; [reflexivity|].
  rewrite Hlcm.
  set (msmt := tabulate n (fun v => l @ v - 1)).
  set (mm := fun v => t_set n msmt v 0).
  assert (Hmm : forall v w, w < n -> (mm v) @ w = if w =? v then 0 else l @ w - 1).
  { intros v w Hw. unfold mm. rewrite t_set_nth by auto. unfold msmt. rewrite tabulate_nth by auto. auto. }
  assert (Hlen : forall v, length (mm v) = n) by (intros; apply t_set_length).
  assert (Hmsm : forall m, msm n (s_I s) m <-> exists v, v < n /\ h @ v = 1 /\ m = mm v).
  { intros m. split.
    - intros Hm. assert (Hnh : ~ le_n n h m).
      { intros Hle. apply (proj1 (proj2 Hm)). exists h; auto. }
      assert (Hv0 : exists v, v < n /\ m @ v < h @ v).
      { destruct (t_dominates n m h) eqn:E. { apply t_dominates_iff in E. contradiction. }
        unfold t_dominates in E. apply not_true_false in E.
        destruct (existsb (fun v => m @ v <? h @ v) (seq 0 n)) eqn:Ex.
        - apply existsb_seq in Ex. destruct Ex as [v [Hv Hlt]]. apply Nat.ltb_lt in Hlt. exists v; auto.
        - exfalso. apply E. apply forallb_seq. intros v Hv.
          rewrite (existsb_false_all _ _ Ex v); auto. apply in_seq; lia. }
      destruct Hv0 as [v [Hv Hlt]]. assert (E1 : h @ v = 1) by (destruct (Hhv v Hv); lia).
      exists v. split; auto. split; auto. apply term_ext with n; auto; [apply Hm|].
      intros w Hw. rewrite Hmm by auto. destruct (Nat.eqb_spec w v) as [->|Hne]; [lia|].
      destruct (msm_lab n _ m w Hm Hw) as [g [Hg [L1 L2]]].
      destruct (list_eq_dec Nat.eq_dec g h) as [->|Hgh].
      + specialize (L2 v Hv ltac:(auto)). lia.
      + destruct (Hoth g Hg Hgh) as [u [Hu ->]]. rewrite var_pow_nth in L1 by auto.
        destruct (Nat.eqb_spec w u) as [->|Hwu]; [|lia]. lia.
    - intros [v [Hv [E1 ->]]]. assert (Hlv : 2 <= l @ v) by (destruct (Hhv v Hv); lia).
      apply msm_intro; auto.
      + intros [g [Hg Hle]]. destruct (list_eq_dec Nat.eq_dec g h) as [->|Hgh].
        * specialize (Hle v Hv). rewrite Hmm, Nat.eqb_refl in Hle by auto. lia.
        * destruct (Hoth g Hg Hgh) as [u [Hu ->]]. specialize (Hle u Hu).
          rewrite var_pow_nth, Nat.eqb_refl, Hmm in Hle by auto. specialize (Hf u Hu). fold l in Hf.
          destruct (Nat.eqb_spec u v); lia.
      + intros w Hw. destruct (Nat.eq_dec w v) as [->|Hne].
        * exists h. split; auto. split; [rewrite Hmm, Nat.eqb_refl by auto; lia|].
          intros u Hu Hnu. rewrite Hmm by auto. destruct (Nat.eqb_spec u v); [contradiction|].
          destruct (Hhv u Hu); lia.
        * destruct (Hpure w Hw) as [P1 P2]. exists (var_pow n w (l @ w)). split; auto. split.
          -- rewrite var_pow_nth, Nat.eqb_refl, Hmm by auto. specialize (Hf w Hw). fold l in Hf.
             destruct (Nat.eqb_spec w v); [contradiction|lia].
          -- intros u Hu Hnu. rewrite var_pow_nth by auto. destruct (Nat.eqb_spec u w); [contradiction|lia]. }
  assert (Hout : forall v, v < n ->
    t_set n (tabulate n (fun v => s_q s @ v + msmt @ v)) v
      ((tabulate n (fun v => s_q s @ v + msmt @ v)) @ v - (l @ v - 1)) = t_product n (mm v) (s_q s)).
  { intros v Hv. apply term_ext with n; auto using t_set_length, t_product_length. intros w Hw.
    rewrite t_product_nth, t_set_nth, Hmm by auto. rewrite !tabulate_nth by auto. unfold msmt. rewrite !tabulate_nth by auto.
    destruct (Nat.eqb_spec w v); subst; lia. }
  assert (Hel : forall v m, v < n ->
    (In m (if h @ v =? 1 then if i_contains n (s_S s) (t_set n msmt v 0) then []
       else [t_set n (tabulate n (fun v => s_q s @ v + msmt @ v)) v
              ((tabulate n (fun v => s_q s @ v + msmt @ v)) @ v - (l @ v - 1))] else []) <->
     h @ v = 1 /\ ~ inI n (s_S s) (mm v) /\ m = t_product n (mm v) (s_q s))).
  { intros v m Hv. rewrite Hout by auto. fold (mm v). destruct (Nat.eqb_spec (h @ v) 1) as [E|E].
    - destruct (i_contains n (s_S s) (mm v)) eqn:Ec.
      + apply i_contains_iff in Ec. split; [intros []|tauto].
      + assert (~ inI n (s_S s) (mm v)) by (rewrite <- i_contains_iff; congruence).
        split; [intros [<-|[]]; auto|]. intros [_ [_ ->]]. left; auto.
    - split; [intros []|tauto]. }
  split.
  - apply NoDup_flat_map; [apply seq_NoDup| |].
    + intros v Hv. destruct (h @ v =? 1); [destruct (i_contains n (s_S s) (t_set n msmt v 0))|];
      repeat constructor; auto.
    + intros v w m Hv Hw H1 H2. apply in_seq in Hv, Hw. apply Hel in H1, H2; try lia.
      destruct H1 as [E1 [_ ->]], H2 as [E2 [_ E]]. apply product_inj in E; auto.
      assert (E' : (mm v) @ v = (mm w) @ v) by congruence. rewrite !Hmm, Nat.eqb_refl in E' by lia.
      destruct (Nat.eqb_spec v w); auto. destruct (Hhv v ltac:(lia)); lia.
  - intros m. rewrite in_flat_map. unfold con, sker, ker. fold n. split.
    + intros [v [Hv Hm]]. apply in_seq in Hv. apply Hel in Hm; [|lia]. destruct Hm as [E [Hs' ->]].
      exists (mm v). split; auto. split; auto. apply Hmsm. exists v. split; [lia|auto].
    + intros [m' [[K1 K2] ->]]. apply Hmsm in K1. destruct K1 as [v [Hv [E ->]]]. exists v.
      split; [apply in_seq; lia|]. apply Hel; auto.
Qed.
