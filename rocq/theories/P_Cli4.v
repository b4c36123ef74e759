(** What the algorithms give to the consumers. *)
From Coq Require Import List Arith Bool ZArith Lia Sorted Permutation.
Import ListNotations.
From Verif Require Import Spec Spec_Slice Spec_Run Spec_Api M_Term M_Ideal M_Slice M_Msm M_Api P_Term P_Ideal P_Bridge P_Msm1 P_Process P_Run P_Valid P_Corner P_Decomp P_Translator P_Internal P_Api P_Api2 P_Api3 P_Api4 P_Api5.
From Verif Require Import M_Names M_IO M_Intersect M_Transform M_Actions M_Cli P_Cli3.
From Verif Require Import Spec.
Local Notation length := List.length.

Lemma emit_values n tr ts L : emit n tr ts = Some (block n L) -> translate_all n tr ts = Some (map znat L).
Proof.
  unfold emit. destruct (translate_all n tr ts) as [vs|]; [|discriminate]. intros E. f_equal. unfold block in E. injection E as E. revert L E.
  induction vs as [|v vs IH]; intros [|m L] E; cbn [map app] in *; try discriminate; auto. injection E as -> E. f_equal. now apply IH.
Qed.
Lemma tr_length n I : length (tr_initialize n I) = n.
Proof. unfold tr_initialize. now rewrite map_length, seq_length. Qed.
Lemma tr_zero_first n I : zero_first (tr_initialize n I).
Proof.
  apply Forall_forall. intros tb H. apply in_map_iff in H. destruct H as [v [<- _]]. pose proof (table_nth I v 0) as E. destruct (Nat.ltb_spec 0 (K I v)) as [L|L].
  - rewrite (nth_error_nth _ _ _ E). now rewrite phi_0.
  - pose proof (K_bounds I v). lia.
Qed.
Lemma encoded_length c rnd n I J d : legal_config c -> in_ring n I -> internal n I J -> encodedIrrDecom c rnd (co_of n I J) = Some d -> Forall (fun t => length t = n) d.
Proof.
  intros Hc Hr HJ E. apply in_ring_wf in Hr. destruct (encoded_spec c rnd n I J Hc Hr HJ) as [out [A [_ [C _]]]]. rewrite E in A. injection A as ->.
  apply Forall_forall. intros t Ht. apply C in Ht. apply Ht.
Qed.
Lemma told_irr c rnd n I J : legal_config c -> in_ring n I -> internal n I J -> exists ts D,
  encodedIrrDecom c rnd (co_of n I J) = Some ts /\ valued n (tr_initialize n I) ts D /\ irreducible_decomposition n I D.
Proof.
  intros Hc Hr HJ. destruct (g_irr c rnd n I J Hc Hr HJ) as [D [E F]]. unfold computeIrreducibleDecomposition in E.
  destruct (encodedIrrDecom c rnd (co_of n I J)) as [ts|] eqn:X; [|discriminate]. cbn [bind co_of co_n co_tr] in E. exists ts, D. split; auto. split; auto.
  apply valued_intro; [apply tr_length|eapply encoded_length; eauto|now apply emit_values].
Qed.
Lemma msm_length c rnd n I J out : legal_config c -> in_ring n I -> internal n I J -> msm_run c rnd n J = Some out -> Forall (fun t => length t = n) out.
Proof.
  intros Hc Hr HJ E. pose proof Hr as Hw. apply in_ring_wf in Hw. pose proof HJ as [Jw Jm Jb Ji].
  assert (Hu : uncompressed_ok c n J).
  { destruct (Nat.eq_dec n 1) as [->|]; [|left; auto]. right. right. right. intros g Hg. apply int_one with I J; auto. }
  destruct (msm_run_spec c rnd n J (legal_conf_ok c Hc) Jw Jm Hu) as [out' [A [B C]]]. rewrite E in A. injection A as <-.
  apply Forall_forall. intros t Ht. apply C in Ht. destruct Ht as [m [[H _] ->]]. now rewrite map_length.
Qed.
Lemma decrement_value n tr t : length tr = n -> length t = n -> translate n (tr_decrement tr) t <> None ->
  translate n tr t <> None /\ t_value (tr_decrement tr) t = map (fun e => e - 1)%Z (t_value tr t).
Proof.
  intros A B T. assert (N : forall i, nth i (tr_decrement tr) [] = map (fun e => e - 1)%Z (nth i tr [])) by (intros i; unfold tr_decrement; exact (map_nth (map (fun e => e - 1)%Z) tr [] i)).
  assert (TB : forall i, 0 <= i < 0 + n -> nth i t 0 < length (nth i tr [])) by (intros i Hi; pose proof (translate_from_below _ _ _ _ T i Hi) as Q; rewrite N, map_length in Q; exact Q).
  split; [now apply translate_from_some|]. unfold t_value, tr_decrement. rewrite map_map.
  clear T N. subst n. revert t B TB. induction tr as [|tb tr IH]; intros [|e t] B TB; try discriminate; auto. cbn [map combine fst snd]. f_equal.
  - pose proof (TB 0) as Q. cbn [nth] in Q. rewrite nth_indep with (d' := (0 - 1)%Z) by (rewrite map_length; apply Q; cbn; lia). exact (map_nth (fun e => e - 1)%Z tb 0%Z e).
  - apply IH; [cbn in B; lia|]. intros i Hi. apply (TB (S i)). cbn. lia.
Qed.
Lemma told_msm (increment : bool) c rnd n I J : legal_config c -> in_ring n I -> internal n I J -> exists ts L,
  msm_run c rnd n J = Some ts /\ valued n (if increment then tr_initialize n I else tr_decrement (tr_initialize n I)) ts (if increment then map (map S) L else L) /\
  NoDup L /\ forall m, In m L <-> max_standard n I m.
Proof.
  intros Hc Hr HJ. destruct (g_msm c rnd n I J Hc Hr HJ) as [L [E F]]. unfold computeMaximalStandardMonomials in E. cbn [co_of co_n co_ideal co_tr] in E.
  destruct (msm_run c rnd n J) as [ts|] eqn:X; [|discriminate]. cbn [bind] in E. exists ts, L. split; auto. split; auto.
  assert (V : valued n (tr_decrement (tr_initialize n I)) ts L).
  { apply valued_intro; [unfold tr_decrement; rewrite map_length; apply tr_length|eapply msm_length; eauto|now apply emit_values]. }
  destruct increment; auto. destruct V as [A [B C]]. split; [apply tr_length|]. clear -B C. revert L C. induction ts as [|t ts IH]; intros [|m L] C; try discriminate; [split; auto|].
  cbn [map] in *. injection C as C1 C2. inversion B as [|? ? [B1 B2] B3]; subst. destruct (IH B3 L C2) as [D1 D2].
  destruct (decrement_value (length t) _ t (tr_length _ I) eq_refl B2) as [E1 E2]. split; [constructor; auto|]. cbn [map]. f_equal; auto.
  rewrite C1 in E2. clear -E2. revert E2. generalize (t_value (tr_initialize (length t) I) t) as v. unfold znat. induction m as [|x m IH]; intros [|y v] E; try discriminate; auto. cbn [map] in *. injection E as E1 E2. f_equal; [lia|]. now apply IH.
Qed.
Lemma told_dual_ok c rnd n I J a names : legal_config c -> in_ring n I -> internal n I J -> length a = n -> above_minimal_generators n I a -> exists ts L,
  told_dual c rnd names (co_of n I J) (znat a) = Some (Some (tr_dualize (tr_initialize n I) (znat a), told names ts)) /\
  valued n (tr_dualize (tr_initialize n I) (znat a)) ts L /\ dual_result n I a L.
Proof.
  intros Hc Hr HJ Ha HA. destruct (g_dual c rnd n I J a Hc Hr HJ Ha HA) as [L [E F]]. unfold computeAlexanderDual in E. unfold told_dual.
  destruct (getLcmOfIdeal (co_of n I J)) as [l|]; [|discriminate]. cbn [bind] in *. destruct (existsb _ _); [discriminate|].
  destruct (encodedIrrDecom c rnd (co_of n I J)) as [ts|] eqn:X; [|discriminate]. cbn [bind co_of co_n co_tr] in *. 
  destruct (emit n (tr_dualize (tr_initialize n I) (znat a)) ts) as [evs|] eqn:Y; [|discriminate]. cbn [bind] in E. injection E as ->.
  exists ts, L. split; auto. split; auto. apply valued_intro; [|eapply encoded_length; eauto|now apply emit_values].
  unfold tr_dualize. transitivity (length (tr_initialize n I)); [|apply tr_length]. generalize 0. clear. induction (tr_initialize n I); intros k; cbn [dualize_from length]; auto.
Qed.
Lemma told_dual_error c rnd n I J point names : in_ring n I -> internal n I J -> length point = n -> ~ (exists a, point = znat a /\ above_minimal_generators n I a) ->
  told_dual c rnd names (co_of n I J) point = Some None.
Proof.
  intros Hr HJ Hl Hn. pose proof (g_dual_reject c rnd n I J point Hr HJ Hl Hn) as E. unfold computeAlexanderDual in E. unfold told_dual.
  destruct (getLcmOfIdeal (co_of n I J)) as [l|]; [|discriminate]. cbn [bind] in *. destruct (existsb _ _); auto.
  destruct (encodedIrrDecom c rnd (co_of n I J)) as [ts|] eqn:X; [|discriminate]. cbn [bind co_of co_n co_tr] in *. 
  destruct (emit n (tr_dualize (tr_initialize n I) point) ts); discriminate.
Qed.
Lemma told_ass c rnd n I J names : legal_config c -> in_ring n I -> internal n I J -> exists ts Ss,
  told_primes c rnd names (co_of n I J) = Some (tr_zeroOne n, told names ts) /\ valued n (tr_zeroOne n) ts Ss /\ NoDup Ss /\ forall s, In s Ss <-> associated_prime n I s.
Proof.
  intros Hc Hr HJ. destruct (g_ass c rnd n I J Hc Hr HJ) as [Ss [E F]]. unfold computeAssociatedPrimes in E. unfold told_primes. cbv zeta in E.
  destruct (encodedIrrDecom c rnd (co_of n I J)) as [d|] eqn:X; [|discriminate]. cbn [bind co_of co_n co_tr] in *.
  destruct (supports_of n (tr_initialize n I) d) as [rad|] eqn:Y; [|discriminate]. cbn [bind] in *.
  assert (W : wf n rad).
  { clear -Y. revert rad Y. induction d as [|t d IH]; intros rad Y; cbn [supports_of] in Y; [injection Y as <-; intros g []|]. unfold support_of in Y.
    destruct (translate n (tr_initialize n I) t) as [v|] eqn:T; [|discriminate]. cbn [bind] in Y. destruct (supports_of n (tr_initialize n I) d) as [r|]; [|discriminate]. cbn [bind] in Y. injection Y as <-.
    intros g [<-|Hg]; [|now apply (IH r)]. rewrite map_length. apply (translate_from_value _ _ _ _ _ T). }
  exists (i_removeDuplicates n rad), Ss. split; auto. split; auto. apply valued_intro; [apply tr_length| |now apply emit_values].
  apply Forall_forall. intros t Ht. apply W. now apply (removeDuplicates_spec n rad W).
Qed.

(** ** Primary decomposition *)
Definition zblock (n : nat) (vs : list (list Z)) : list iev := IdealBegin n :: map Consume vs ++ [IdealEnd].
Lemma emit_zblock n tr ts evs : emit n tr ts = Some evs -> exists vs, translate_all n tr ts = Some vs /\ evs = zblock n vs.
Proof. unfold emit. destruct (translate_all n tr ts) as [vs|]; [|discriminate]. intros E. injection E as <-. eauto. Qed.
Lemma zblock_inj n vs L r r' : zblock n vs ++ r = block n L ++ r' -> vs = map znat L /\ r = r'.
Proof.
  unfold zblock, block. cbn [app]. intros E. injection E as E. revert L E. induction vs as [|v vs IH]; intros [|m L] E; cbn [map app] in E; try discriminate.
  - injection E as E. auto.
  - injection E as -> E. destruct (IH L E) as [-> ->]. auto.
Qed.
Lemma parts_loop n tr lcm : length tr = n -> forall fuel c rnd k l Bs, primary_loop fuel c rnd k n tr lcm l = Some (concat (map (block n) Bs)) ->
  exists parts, primary_parts fuel c rnd k n tr lcm l = Some parts /\ Forall2 (valued n tr) parts Bs.
Proof.
  intros LT. induction fuel as [|fuel IH]; intros c rnd k l Bs E.
  - destruct l; [|discriminate]. cbn [primary_loop] in E. destruct Bs as [|B Bs]; [|discriminate]. exists []. split; auto.
  - destruct l as [|t l]; cbn [primary_loop primary_parts] in *; [destruct Bs as [|B Bs]; [|discriminate]; exists []; split; auto|].
    destruct (take_group n t l) as [group rest]. cbv zeta in *. destruct (msm_run _ _ _ _) as [comp|]; [|discriminate]. cbn [bind] in *.
    destruct (emit n tr _) as [evs|] eqn:EM; [|discriminate]. cbn [bind] in E. destruct (primary_loop fuel c rnd (S k) n tr lcm rest) as [evs'|] eqn:EL; [|discriminate]. cbn [bind] in E.
    destruct (emit_zblock _ _ _ _ EM) as [vs [TA ->]]. destruct Bs as [|B Bs]; [discriminate|]. cbn [map concat] in E.
    assert (E2 : zblock n vs ++ evs' = block n B ++ concat (map (block n) Bs)) by congruence. apply zblock_inj in E2. destruct E2 as [-> ->].
    destruct (IH c rnd (S k) rest Bs EL) as [parts [-> F]]. cbn [bind]. eexists. split; [reflexivity|]. constructor; auto. apply valued_intro; auto.
    apply Forall_forall. intros u Hu. apply in_map_iff in Hu. destruct Hu as [w [<- _]]. apply tabulate_length.
Qed.
Lemma told_primary_ok c rnd n I J names : legal_config c -> in_ring n I -> internal n I J -> exists parts D Gs Bs,
  told_primary c rnd names (co_of n I J) = Some (tr_initialize n I, told_list names parts) /\ Forall2 (valued n (tr_initialize n I)) parts Bs /\
  irreducible_decomposition n I D /\ StronglySorted (fun a b => lex_lt b a) D /\ support_runs n D Gs /\
  Forall2 (same_support_intersection n) Gs Bs /\ (forall m, length m = n -> (in_ideal I m <-> forall B, In B Bs -> in_ideal B m)).
Proof.
  intros Hc Hr HJ. destruct (g_primary c rnd n I J Hc Hr HJ) as [D [Gs [Bs [E [F1 [F2 [F3 [F4 F5]]]]]]]]. unfold computePrimaryDecomposition in E. unfold told_primary. cbv zeta in *.
  destruct (encodedIrrDecom c (rnd 0) (co_of n I J)) as [d|] eqn:X; [|discriminate]. cbn [bind co_of co_n co_tr] in *.
  destruct (parts_loop n (tr_initialize n I) _ (tr_length n I) _ _ _ _ _ _ E) as [parts [-> F]]. cbn [bind]. exists parts, D, Gs, Bs. split; [reflexivity|]. split; [exact F|]. split; auto.
Qed.
