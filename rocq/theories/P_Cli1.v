(** Reading an ideal for the computations, with or without canonical output. *)
From Coq Require Import String Ascii.
From Coq Require Import List Arith Bool ZArith Lia Sorted Permutation.
Import ListNotations.
From Verif Require Import M_Term M_Ideal M_Slice M_Msm M_Api M_Names M_IO M_Cli Spec_IO Spec_Names.
From Verif Require Import Spec Spec_Api Spec_Cli P_Term P_Ideal P_Bridge P_Corner P_Decomp P_Translator P_Internal P_Api P_Names P_Names2 P_Bigatti6.
Local Notation length := List.length.

Lemma vn_of_inv names : NoDup names -> inv (vn_of names) names.
Proof.
  intros N. split; [reflexivity|]. unfold vn_of. cbn [vn_map].
  assert (H : forall l k s i, NoDup l -> map_find s (combine l (seq k (length l))) = Some i <-> k <= i /\ nth_error l (i - k) = Some s).
  { induction l as [|x l IH]; intros k s i D; cbn [length seq combine map_find].
    - split; [discriminate|]. intros [_ H]. destruct (i - k); discriminate.
    - inversion D as [|? ? D1 D2]; subst. destruct (str_dec x s) as [->|X].
      + split.
        * intros E. injection E as <-. rewrite Nat.sub_diag. auto.
        * intros [L E]. f_equal. destruct (i - k) as [|j] eqn:F; [lia|]. cbn in E. apply nth_error_In in E. contradiction.
      + rewrite IH by auto. split.
        * intros [L E]. split; [lia|]. replace (i - k) with (S (i - S k)) by lia. exact E.
        * intros [L E]. destruct (i - k) as [|j] eqn:F; [cbn in E; congruence|]. split; [lia|]. replace (i - S k) with j by lia. exact E. }
  intros s i. rewrite H by auto. rewrite Nat.sub_0_r. intuition lia.
Qed.

(** ** Permuting the variables *)
Section Perm.
  Variables (n : nat) (p : list nat).
  Hypothesis P : Permutation p (seq 0 n).
  Definition rp (t : list nat) : list nat := map (fun i => nth i t 0) p.
  Lemma p_len : length p = n.
  Proof. rewrite (Permutation_length P). apply seq_length. Qed.
  Lemma p_in v : In v p <-> v < n.
  Proof. split; intros H; [apply (Permutation_in _ P) in H; apply in_seq in H; lia | apply (Permutation_in _ (Permutation_sym P)), in_seq; lia]. Qed.
  Lemma p_nth v : v < n -> nth v p 0 < n.
  Proof. intros H. apply p_in, nth_In. now rewrite p_len. Qed.
  Lemma p_inv w : w < n -> exists v, v < n /\ nth v p 0 = w.
  Proof. intros H. apply p_in in H. apply (In_nth p w 0) in H as [v [H1 H2]]. rewrite p_len in H1. eauto. Qed.
  Lemma rp_len t : length (rp t) = n.
  Proof. unfold rp. rewrite map_length. apply p_len. Qed.
  Lemma rp_nth t v : v < n -> rp t @ v = t @ (nth v p 0).
  Proof. intros H. unfold rp. rewrite (nth_indep _ 0 ((fun i => nth i t 0) 0)) by (rewrite map_length, p_len; lia). exact (map_nth (fun i => nth i t 0) p 0 v). Qed.
  Lemma rp_onto m : length m = n -> exists m0, length m0 = n /\ rp m0 = m.
  Proof.
    intros L. assert (Q : exists f : nat -> nat, forall w, w < n -> f w < n /\ nth (f w) p 0 = w).
    { exists (fun w => match find (fun v => nth v p 0 =? w) (seq 0 n) with Some v => v | None => 0 end). intros w H.
      destruct (find (fun v => nth v p 0 =? w) (seq 0 n)) as [v|] eqn:E.
      - apply find_some in E as [E1 E2]. apply in_seq in E1. apply Nat.eqb_eq in E2. split; [lia|auto].
      - destruct (p_inv w H) as [v [H1 H2]]. pose proof (find_none _ _ E v ltac:(apply in_seq; lia)) as X. cbv beta in X. apply Nat.eqb_neq in X. congruence. }
    destruct Q as [f F]. exists (map (fun w => m @ (f w)) (seq 0 n)). split; [now rewrite map_length, seq_length|].
    apply (nth_ext _ _ 0 0); [rewrite rp_len; congruence|]. intros v Hv. rewrite rp_len in Hv.
    change (rp (map (fun w => m @ (f w)) (seq 0 n)) @ v = m @ v). rewrite rp_nth by auto. pose proof (p_nth v Hv) as Hp.
    rewrite (nth_indep _ 0 ((fun w => m @ (f w)) 0)) by (rewrite map_length, seq_length; auto).
    rewrite (map_nth (fun w => m @ (f w)) (seq 0 n) 0). rewrite seq_nth by auto. cbn [Nat.add].
    destruct (F _ Hp) as [F1 F2]. f_equal. eapply NoDup_nth; [exact (Permutation_NoDup (Permutation_sym P) (seq_NoDup n 0)) | rewrite p_len; auto | rewrite p_len; auto |]. exact F2.
  Qed.
  Lemma rp_le s t : length s = n -> length t = n -> (le_n n (rp s) (rp t) <-> le_n n s t).
  Proof.
    intros A B. unfold le_n. split; intros H v Hv.
    - destruct (p_inv v Hv) as [w [H1 H2]]. specialize (H w H1). rewrite !rp_nth, H2 in H by auto. exact H.
    - rewrite !rp_nth by auto. apply H. now apply p_nth.
  Qed.
  Lemma rp_inj s t : length s = n -> length t = n -> rp s = rp t -> s = t.
  Proof.
    intros A B E. apply (nth_ext _ _ 0 0); [congruence|]. rewrite A. intros v Hv. destruct (p_inv v Hv) as [w [H1 H2]].
    pose proof (rp_nth s w H1) as X. rewrite E, rp_nth, H2 in X by auto. symmetry. exact X.
  Qed.
  Lemma rp_ideal (G : list (list nat)) m : wf n G -> length m = n -> (in_ideal (map rp G) (rp m) <-> in_ideal G m).
  Proof.
    intros W L. assert (W' : wf n (map rp G)). { intros g H. apply in_map_iff in H as [h [<- _]]. apply rp_len. }
    rewrite (in_ideal_iff n) by (auto using rp_len). rewrite (in_ideal_iff n) by auto. unfold inI. split.
    - intros [g [H1 H2]]. apply in_map_iff in H1 as [h [<- H3]]. exists h. split; auto. apply (proj1 (rp_le h m (W h H3) L)). exact H2.
    - intros [g [H1 H2]]. exists (rp g). split; [now apply in_map|]. apply rp_le; auto.
  Qed.
  Lemma rp_U (G : list (list nat)) v : v < n -> U (map rp G) v = U G (nth v p 0).
  Proof.
    intros H. unfold U. rewrite map_map. do 4 f_equal. apply map_ext. intros t. now apply rp_nth.
  Qed.
  Lemma rp_tables (G : list (list nat)) : tr_initialize n (map rp G) = map (fun i => nth i (tr_initialize n G) []) p.
  Proof.
    unfold tr_initialize at 1. transitivity (map (fun i => extractExponents G (nth i p 0)) (seq 0 n)).
    - apply map_ext_in. intros v Hv. apply in_seq in Hv. rewrite !table_eq, rp_U by lia. reflexivity.
    - rewrite <- p_len. rewrite <- (map_map (fun i => nth i p 0) (extractExponents G)). rewrite map_nth_seq. apply map_ext_in.
      intros v Hv. apply p_in in Hv. now rewrite p_len, tr_nth.
  Qed.
  Lemma rp_internal (G J : list (list nat)) : wf n G -> internal n G J -> internal n (map rp G) (map rp J).
  Proof.
    intros WG [W [N M] B E]. assert (KV : forall v, v < n -> K (map rp G) v = K G (nth v p 0)) by (intros v Hv; unfold K; now rewrite rp_U).
    assert (PV : forall v i, v < n -> phi (map rp G) v i = phi G (nth v p 0) i) by (intros v i Hv; unfold phi; now rewrite rp_U).
    constructor.
    - intros g H. apply in_map_iff in H as [h [<- _]]. apply rp_len.
    - split.
      + clear - N W P. assert (X : forall l, incl l J -> NoDup l -> NoDup (map rp l)).
        { induction l as [|x l IH]; intros I D; cbn; constructor; inversion D; subst.
          - intros H. apply in_map_iff in H as [y [E H]]. apply rp_inj in E; [subst; contradiction | apply W, I; now right | apply W, I; now left].
          - apply IH; auto. intros y Hy. apply I. now right. }
        apply X; auto. apply incl_refl.
      + intros g h Hg Hh L. apply in_map_iff in Hg as [g0 [<- Hg]]. apply in_map_iff in Hh as [h0 [<- Hh]]. f_equal. apply M; auto. apply (proj1 (rp_le g0 h0 (W _ Hg) (W _ Hh))). exact L.
    - intros g v Hg Hv. apply in_map_iff in Hg as [g0 [<- Hg]]. rewrite KV, rp_nth by auto. apply B; auto. now apply p_nth.
    - intros m L. destruct (rp_onto m L) as [m0 [L0 <-]]. rewrite rp_ideal by auto. rewrite E by auto. split; intros [g [H1 H2]].
      + exists (rp g). split; [now apply in_map|]. intros v Hv. rewrite PV, !rp_nth by auto. apply H2. now apply p_nth.
      + apply in_map_iff in H1 as [h [<- H1]]. exists h. split; auto. intros v Hv. destruct (p_inv v Hv) as [w [H3 H4]].
        specialize (H2 w H3). rewrite PV, !rp_nth, H4 in H2 by auto. exact H2.
  Qed.
End Perm.

Lemma sorter_rp names t : rp (sorter names) t = map (fun i => nth i t 0) (sorter names).
Proof. reflexivity. Qed.
Lemma deref_names v l : inv v l -> vn_deref v (vn_names v) = Some l.
Proof. exact (deref_spec v l). Qed.
Lemma cli_set minimal canon names G : NoDup names -> in_ring (length names) G ->
  (minimal = true -> lists_minimal_generators (length names) G G) ->
  exists names' G' J, cli_setIdeal minimal canon names G = Some (names', co_of (length names') G' J) /\ in_ring (length names') G' /\
    internal (length names') G' J /\ output_ring canon names G names' G'.
Proof.
  intros N R M. destruct (set_internal minimal (length names) G R M) as [J [E HJ]]. unfold cli_setIdeal. rewrite E. cbv zeta.
  destruct canon; [|exists names, G, J; split; [reflexivity|]; split; [exact R|]; split; [exact HJ|]; split; reflexivity].
  set (p := sorter names). set (n := length names) in *. assert (P : Permutation p (seq 0 n)) by apply sorter_perm.
  cbn [co_tr co_ideal]. pose proof (vn_of_inv names N) as IV.
  assert (LT : length (tr_initialize n G) = length names) by (unfold tr_initialize; now rewrite map_length, seq_length).
  destruct (permute_translator_spec (tr_initialize n G) (vn_of names) names IV LT) as [v' [E1 IV']].
  assert (E2 : mapO (permute_exponents p) J = Some (map (rp p) J)).
  { apply mapO_some. apply Forall_forall. intros t Ht. apply permute_exponents_spec. apply (int_wf _ _ _ HJ). exact Ht. }
  unfold sort_variables. rewrite (deref_names _ _ IV). cbn [bind]. cbv zeta. change p with (sorter names) in E2. match goal with |- context [permute_translator ?a ?b] => rewrite (E1 : permute_translator a b = _) end. cbn [bind fst snd]. match goal with |- context [mapO ?a ?b] => rewrite (E2 : mapO a b = _) end. cbn [bind].
  rewrite (deref_names _ _ IV'). cbn [bind]. fold p. set (names' := map (ix names) p).
  assert (LN : length names' = n) by (unfold names'; rewrite map_length; exact (p_len n p P)).
  exists names', (map (rp p) G), (map (rp p) J). split; [|split; [|split]].
  - unfold co_of. rewrite LN, (rp_tables n p P). reflexivity.
  - apply in_ring_wf. rewrite LN. intros g H. apply in_map_iff in H as [h [<- _]]. exact (rp_len n p P h).
  - rewrite LN. apply (rp_internal n p P); auto. now apply in_ring_wf.
  - cbn [output_ring]. split; [apply Permutation_sym; exact (sorted_names_perm names)|]. split; [exact (sorted_names_asc names N)|].
    apply Forall2_map_r. apply Forall_forall. intros t Ht. split.
    + fold n in LN. rewrite (rp_len n p P). now symmetry.
    + intros s. exact (exponent_map 0 names t p s N P).
Qed.
