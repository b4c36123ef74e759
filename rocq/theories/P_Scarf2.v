(** The enumeration of the faces of the Scarf complex. *)
From Coq Require Import List Arith Bool ZArith Lia Permutation Sorted.
Import ListNotations.
From Verif Require Import M_Term M_Ideal M_Api M_Scarf P_Term P_Ideal P_Tree P_Scarf1 P_Bigatti1 P_Bigatti3.
Local Open Scope nat_scope.

Section Enum.
Variables (n : nat) (L : ideal) (tree : itree).
Hypothesis Hw : wf n L.
Hypothesis HN : NoDup L.
Hypothesis WG : forall a b w, In a L -> In b L -> a <> b -> w < n -> a @ w = b @ w -> 0 < a @ w -> exists g, In g L /\ sdiv_n n g (t_lcm n a b).
Hypothesis N1 : forall a, In a L -> exists w, w < n /\ 0 < a @ w.
Hypothesis HT : Permutation (tree_range tree) L.

Definition bad (x : term) : bool := existsb (fun g => t_strictlyDivides n g x) L.
Lemma bad_iff : forall x, bad x = true <-> exists g, In g L /\ sdiv_n n g x.
Proof. intros x. unfold bad. rewrite existsb_exists. split; intros [g [Hg H]]; exists g; split; auto; apply t_strictlyDivides_iff; auto. Qed.
Lemma bad_tree : forall x, tree_strictlyContains n tree x = bad x.
Proof. intros x. rewrite (tree_contains n tree L) by auto. reflexivity. Qed.

Definition attains (t a : term) : nat := match find (fun w => (a @ w =? t @ w) && (0 <? a @ w)) (seq 0 n) with Some w => w | None => 0 end.
Lemma attains_spec : forall t a, bad t = false -> In a L -> le_n n a t -> attains t a < n /\ a @ (attains t a) = t @ (attains t a) /\ 0 < a @ (attains t a).
Proof.
  intros t a B Ha Hle. unfold attains. destruct (find _ (seq 0 n)) as [w|] eqn:F.
  - apply find_some in F. destruct F as [F1 F2]. apply in_seq in F1. apply andb_true_iff in F2. destruct F2 as [F2 F3]. apply Nat.eqb_eq in F2. apply Nat.ltb_lt in F3. split; [lia|]. auto.
  - exfalso. assert (X : bad t = true); [|congruence]. apply bad_iff. exists a. split; auto. split.
    + intros w Hw'. pose proof (find_none _ _ F w ltac:(apply in_seq; lia)) as Q. specialize (Hle w Hw'). apply andb_false_iff in Q. rewrite Nat.eqb_neq, Nat.ltb_ge in Q. lia.
    + destruct (N1 a Ha) as [w [Hw' P]]. exists w. split; auto. specialize (Hle w Hw'). lia.
Qed.
Lemma face_bound : forall F t, NoDup F -> incl F L -> (forall a, In a F -> le_n n a t) -> bad t = false -> length F <= n.
Proof.
  intros F t ND Hi Hle B. assert (M : NoDup (map (attains t) F)).
  { apply NoDup_map_on; auto. intros a b Ha Hb E. destruct (attains_spec t a B (Hi a Ha) (Hle a Ha)) as (A1 & A2 & A3). destruct (attains_spec t b B (Hi b Hb) (Hle b Hb)) as (B1 & B2 & B3).
    rewrite <- E in *. destruct (list_eq_dec Nat.eq_dec a b) as [|D]; auto. exfalso.
    destruct (WG a b (attains t a) (Hi a Ha) (Hi b Hb) D A1 ltac:(lia) A3) as [g [Hg G]].
    assert (X : bad t = true); [|congruence]. apply bad_iff. exists g. split; auto. destruct G as [G1 [w [Hw' G2]]]. split.
    - intros u Hu. specialize (G1 u Hu). rewrite t_lcm_nth in G1 by auto. pose proof (Hle a Ha u Hu). pose proof (Hle b Hb u Hu). lia.
    - exists w. split; auto. rewrite t_lcm_nth in G2 by auto. pose proof (Hle a Ha w Hw'). pose proof (Hle b Hb w Hw'). lia. }
  pose proof (NoDup_incl_length M (l' := seq 0 n)) as Q. rewrite map_length, seq_length in Q. apply Q. intros w Hw'. apply in_map_iff in Hw'. destruct Hw' as [a [<- Ha]].
  apply in_seq. destruct (attains_spec t a B (Hi a Ha) (Hle a Ha)). lia.
Qed.

Record enum_ok (t : term) (face rest : list term) : Prop := mk_eok {
  eo_nd : NoDup (face ++ rest); eo_face : incl face L; eo_rest : incl rest L; eo_le : forall a, In a face -> le_n n a t; eo_bad : bad t = false }.
Lemma full_face : forall plus t face rest, enum_ok t face rest -> length face = n -> faces n bad plus t rest = [(plus, t)].
Proof.
  intros plus t face rest H E. assert (G : forall g, In g rest -> bad (t_lcm n t g) = true).
  { intros g Hg. destruct (bad (t_lcm n t g)) eqn:B; auto. exfalso. destruct H as [H1 H2 H3 H4 H5].
    assert (X : length (g :: face) <= n); [|simpl in X; lia]. apply (face_bound (g :: face) (t_lcm n t g)); auto.
    - assert (Y : NoDup face /\ ~ In g face).
      { clear -H1 Hg. induction face as [|x face IH]; [split; [constructor|intros []]|]. cbn [app] in H1. inversion H1 as [|? ? Q1 Q2]; subst. destruct (IH Q2) as [Z1 Z2]. split.
        - constructor; auto. intros Y. apply Q1. apply in_or_app; auto.
        - intros [->|Y]; auto. apply Q1. apply in_or_app; auto. }
      constructor; tauto.
    - intros x [<-|Hx]; auto.
    - intros a [<-|Ha] w Hw'; rewrite t_lcm_nth by auto; [lia|]. specialize (H4 a Ha w Hw'). lia. }
  clear H E. induction rest as [|g rest IH]; cbn [faces]; auto. rewrite G by (simpl; auto). rewrite IH by (intros; apply G; simpl; auto). auto.
Qed.
Lemma nodup_move : forall (face rest : list term) g, NoDup (face ++ g :: rest) -> NoDup ((face ++ [g]) ++ rest) /\ NoDup (face ++ rest).
Proof. intros face rest g H. split; [rewrite <- app_assoc; auto|]. apply NoDup_remove_1 in H. auto. Qed.
Lemma step_spec : forall rest plus t face, enum_ok t face rest ->
  match enumerationStep n tree plus t face rest with
  | (s', None) => faces n bad plus t rest = [(ss_plus s', ss_term s')]
  | (s', Some s2) => exists k, length rest = S k /\ length (ss_rest s') <= k /\ length (ss_rest s2) <= k /\
       enum_ok (ss_term s') (ss_face s') (ss_rest s') /\ enum_ok (ss_term s2) (ss_face s2) (ss_rest s2) /\
       faces n bad plus t rest = faces n bad (ss_plus s2) (ss_term s2) (ss_rest s2) ++ faces n bad (ss_plus s') (ss_term s') (ss_rest s')
  end.
Proof.
  induction rest as [|g rest IH]; intros plus t face H; cbn [enumerationStep].
  - destruct (length face =? n); reflexivity.
  - destruct (Nat.eqb_spec (length face) n) as [E|E]; [cbn [ss_plus ss_term]; apply (full_face plus t face); auto|].
    destruct H as [H1 H2 H3 H4 H5]. destruct (nodup_move face rest g H1) as [M1 M2].
    assert (R : incl rest L) by (intros x Hx; apply H3; simpl; auto). assert (Hg : In g L) by (apply H3; simpl; auto).
    assert (Skip : bad (t_lcm n t g) = true -> match enumerationStep n tree plus t face rest with
      | (s', None) => faces n bad plus t (g :: rest) = [(ss_plus s', ss_term s')]
      | (s', Some s2) => exists k, length (g :: rest) = S k /\ length (ss_rest s') <= k /\ length (ss_rest s2) <= k /\
           enum_ok (ss_term s') (ss_face s') (ss_rest s') /\ enum_ok (ss_term s2) (ss_face s2) (ss_rest s2) /\
           faces n bad plus t (g :: rest) = faces n bad (ss_plus s2) (ss_term s2) (ss_rest s2) ++ faces n bad (ss_plus s') (ss_term s') (ss_rest s')
      end).
    { intros B. specialize (IH plus t face ltac:(constructor; auto)). cbn [faces]. rewrite B. cbn [app].
      destruct (enumerationStep n tree plus t face rest) as [s' [s2|]]; auto. destruct IH as (k & K1 & K2 & K3 & K4). exists (S k). cbn [length]. split; [lia|]. split; [lia|]. split; [lia|]. auto. }
    destruct (existsb (fun f => t_strictlyDivides n f (t_lcm n t g)) face) eqn:C1.
    + apply Skip. apply existsb_exists in C1. destruct C1 as [f [Hf C1]]. apply existsb_exists. exists f. auto.
    + rewrite bad_tree. destruct (bad (t_lcm n t g)) eqn:B; [apply Skip; auto|]. exists (length rest). cbn [ss_plus ss_term ss_face ss_rest length].
      split; [auto|]. split; [auto|]. split; [auto|]. split; [constructor; auto|]. split.
      * constructor; auto.
        -- intros x Hx. apply in_app_or in Hx. destruct Hx as [Hx|[<-|[]]]; auto.
        -- intros a Ha w Hw'. rewrite t_lcm_nth by auto. apply in_app_or in Ha. destruct Ha as [Ha|[<-|[]]]; [|lia]. specialize (H4 a Ha w Hw'). lia.
      * cbn [faces]. rewrite B. auto.
Qed.

Definition sok (s : sstate) : Prop := enum_ok (ss_term s) (ss_face s) (ss_rest s).
Fixpoint sstack_ok (size : nat) (stack : list sstate) : Prop :=
  match stack with [] => True | f :: st => sok f /\ length stack + length (ss_rest f) < size /\ sstack_ok size st end.
Definition scost (stack : list sstate) : nat := list_sum (map (fun f => cost (length (ss_rest f))) stack).
Lemma scost_cons : forall s st, scost (s :: st) = cost (length (ss_rest s)) + scost st.
Proof. reflexivity. Qed.
Definition sfaces (s : sstate) : list (bool * term) := faces n bad (ss_plus s) (ss_term s) (ss_rest s).
Lemma enumeration_spec : forall fuel size stack out, sstack_ok size stack -> scost stack <= fuel ->
  enumeration fuel n size tree stack out = Some (out ++ concat (map sfaces stack)).
Proof.
  induction fuel as [|fuel IH]; intros size stack out Hok Hc.
  - destruct stack as [|f stack]; [cbn; rewrite app_nil_r; auto|]. rewrite scost_cons in Hc. pose proof (cost_pos (length (ss_rest f))). lia.
  - destruct stack as [|f stack]; [cbn; rewrite app_nil_r; auto|]. destruct Hok as (Hf & Hs & Hok). cbn [enumeration]. rewrite scost_cons in Hc.
    rewrite (proj2 (Nat.ltb_lt _ _)) by lia. destruct f as [plus t face rest]. cbn [ss_plus ss_term ss_face ss_rest] in *.
    pose proof (step_spec rest plus t face Hf) as S. destruct (enumerationStep n tree plus t face rest) as [s' [s2|]].
    + destruct S as (k & K1 & K2 & K3 & K4 & K5 & K6). rewrite IH.
      * f_equal. f_equal. cbn [map concat]. unfold sfaces at 1 2 4. cbn [ss_plus ss_term ss_face ss_rest]. rewrite K6, <- app_assoc. auto.
      * cbn [sstack_ok length] in *. split; auto. split; [lia|]. split; auto. split; [lia|auto].
      * rewrite !scost_cons. pose proof (cost_mono _ _ K2). pose proof (cost_mono _ _ K3). rewrite K1, cost_S in Hc. lia.
    + rewrite IH; auto; [|pose proof (cost_pos (length rest)); lia]. f_equal. cbn [map concat]. unfold sfaces at 2. cbn [ss_plus ss_term ss_rest]. rewrite S, <- app_assoc. auto.
Qed.
End Enum.

Lemma identity_dec : forall n L, i_containsIdentity n L = true <-> exists g, In g L /\ forall w, w < n -> g @ w = 0.
Proof.
  intros n L. unfold i_containsIdentity. rewrite existsb_exists. split; intros [g [Hg H]]; exists g; split; auto.
  - unfold t_isIdentity in H. rewrite forallb_forall in H. intros w Hw. apply Nat.eqb_eq. apply H. apply in_seq. lia.
  - unfold t_isIdentity. apply forallb_forall. intros w Hw. apply in_seq in Hw. apply Nat.eqb_eq. apply H. lia.
Qed.
(** ** The enumeration gives the signed sum over all subsets *)
Lemma scarfComplex_spec : forall fuel n L, wf n L -> NoDup L ->
  (forall a b w, In a L -> In b L -> a <> b -> w < n -> a @ w = b @ w -> 0 < a @ w -> exists g, In g L /\ sdiv_n n g (t_lcm n a b)) ->
  length L <= fuel -> cost (length L) <= fuel ->
  exists o, scarfComplex fuel n L = Some o /\ ((i_containsIdentity n L = true /\ o = []) \/ (i_containsIdentity n L = false /\ o = faces n (bad n L) true (t_identity n) L)).
Proof.
  intros fuel n L Hw HN WG F1 F2. unfold scarfComplex, idealTree. destruct (makeTree_spec maxLeafSize n fuel L) as (t & T1 & T2); auto; [unfold maxLeafSize; lia|].
  rewrite T1. cbn [bind]. destruct (i_containsIdentity n L) eqn:E; [exists []; auto|]. exists (faces n (bad n L) true (t_identity n) L). split; auto.
  rewrite (enumeration_spec n L t); auto.
  - cbn [map concat app]. rewrite app_nil_r. reflexivity.
  - intros a Ha. destruct (existsb (fun w => negb (a @ w =? 0)) (seq 0 n)) eqn:X.
    + apply existsb_exists in X. destruct X as [w [Hw' X]]. apply in_seq in Hw'. apply negb_true_iff, Nat.eqb_neq in X. exists w. lia.
    + exfalso. assert (Y : i_containsIdentity n L = true); [|congruence]. apply identity_dec. exists a. split; auto. intros w Hw'.
      destruct (Nat.eq_dec (a @ w) 0) as [|Z]; auto. assert (existsb (fun w => negb (a @ w =? 0)) (seq 0 n) = true); [|congruence]. apply existsb_exists. exists w. split; [apply in_seq; lia|].
      apply negb_true_iff, Nat.eqb_neq. auto.
  - cbn [sstack_ok length ss_rest]. split; [|split; [lia|auto]]. constructor; cbn [ss_term ss_face ss_rest app]; auto.
    + intros x [].
    + apply incl_refl.
    + intros a [].
    + apply strictly_identity.
  - rewrite scost_cons. cbn [ss_rest]. unfold scost. cbn [map list_sum fold_right]. lia.
Qed.
