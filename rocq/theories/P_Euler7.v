(** Pivots and splits. *)
From Coq Require Import List Arith Bool ZArith Lia Permutation.
Import ListNotations.
From Verif Require Import M_SqFree M_Euler Spec_Euler P_Euler1 P_Euler2 P_Euler3 P_Euler4 P_Euler5 P_Euler6.

Definition multiples (t : eterm) (G : list eterm) : list eterm := filter (e_divides t) G.
(** The pivots that the algorithm may split on *)
Definition legal (s : estate) (p : pivot) : Prop :=
  match p with
  | PVar v => v < es_n s /\ e_get (es_elim s) v = false
  | PTerm t => length t = es_n s /\ (exists v, e_get t v = true) /\ exists g, In g (es_gens s) /\ e_divides t g = true
  | PGen i => i < length (es_gens s)
  end.
(** Those that make both new states smaller *)
Definition shrinks (s : estate) (p : pivot) : Prop :=
  match p with PTerm t => 2 <= length (multiples t (es_gens s)) | _ => True end.

Lemma two_gens cf s : ready cf s -> exists g h, In g (es_gens s) /\ In h (es_gens s) /\ inc g h.
Proof.
  intros R. pose proof (rd_three _ _ R) as L. pose proof (ok_anti _ (rd_ok _ _ R)) as A.
  destruct (es_gens s) as [|g [|h G]]; cbn [length] in L; try lia. apply antichain_cons in A as [A _]. exists g, h.
  split; [now left|]. split; [right; now left|]. apply A. now left.
Qed.
Lemma other_gen cf s g : ready cf s -> In g (es_gens s) -> exists h, In h (es_gens s) /\ inc g h.
Proof.
  intros R I. pose proof (rd_three _ _ R) as L. pose proof (ok_anti _ (rd_ok _ _ R)) as A.
  apply in_split in I as [a [b E0]]. pose proof (antichain_perm _ _ (Permutation_sym (Permutation_middle a b g))) as P. rewrite E0 in *.
  apply P, antichain_cons in A as [A _]. rewrite app_length in L. cbn [length] in L.
  destruct (a ++ b) as [|h r] eqn:Q.
  - apply (f_equal (@length _)) in Q. rewrite app_length in Q. cbn in Q. lia.
  - exists h. assert (Ih : In h (h :: r)) by now left. split; [|now apply A].
    rewrite <- Q in Ih. apply in_app_or in Ih. apply in_or_app. destruct Ih; auto. right. now right.
Qed.
Lemma nonElim_lt s e' v : st_ok s -> length e' = es_n s -> (forall u, e_get (es_elim s) u = true -> e_get e' u = true) ->
  e_get e' v = true -> e_get (es_elim s) v = false -> es_n s - e_size e' < es_nonElim s.
Proof.
  intros K L H V NE. unfold es_nonElim. pose proof (ok_elim s K).
  assert (e_size (es_elim s) < e_size e') by (apply size_lt; [lia|auto|eauto]). pose proof (size_le e'). lia.
Qed.
Lemma val_sum_var s v : st_ok s -> v < es_n s -> e_get (es_elim s) v = false ->
  val (makeSumVar s v) = (- (es_sign s * E (nm v (es_gens s)) (e_set (tgt s) v false)))%Z.
Proof. intros K V NE. unfold val. unfold tgt at 1. cbn [makeSumVar es_sign es_gens es_elim]. rewrite tgt_set by auto. ring. Qed.
Lemma filter_le {A} (f : A -> bool) l : length (filter f l) <= length l.
Proof. induction l as [|x l IH]; auto. cbn. destruct (f x); cbn; lia. Qed.
Lemma multiples_split t G : Permutation G (multiples t G ++ filter (fun g => negb (e_divides t g)) G).
Proof.
  unfold multiples. induction G as [|g G IH]; [constructor|]. cbn [filter]. destruct (e_divides t g); cbn [negb app].
  - now constructor.
  - rewrite IH at 1. apply Permutation_middle.
Qed.
Lemma multiples_total n t G : length t = n -> lens n G -> length (multiples t G) * e_size t <= total (multiples t G).
Proof.
  intros Lt. unfold multiples. induction G as [|g G IH]; intros L; auto. apply lens_cons in L as [Lg L]. specialize (IH L). cbn [filter].
  destruct (e_divides t g) eqn:D; auto. cbn [length]. rewrite total_cons. assert (e_size t <= e_size g); [|lia].
  apply size_mono; [lia|]. apply divides_iff; auto. lia.
Qed.

Lemma split_spec cf s p : ready cf s -> legal s p -> exists this sub, es_split s p = Some (this, sub) /\
  st_ok this /\ live this /\ st_ok sub /\ live sub /\ (val this + val sub = val s)%Z /\
  es_n this = es_n s /\ es_n sub = es_n s /\ length (es_gens this) <= length (es_gens s) /\ length (es_gens sub) <= length (es_gens s) /\
  (shrinks s p -> es_weight this < es_weight s /\ es_weight sub < es_weight s).
Proof.
  intros R Lg. pose proof (rd_ok _ _ R) as K. pose proof (ok_elim s K) as Le. pose proof (ok_lens s K) as Ll.
  destruct p as [v|t|i]; cbn [legal es_split] in *.
  - destruct Lg as [V NE]. destruct (colonVar_state s v K V NE) as [s' [-> CB]]. exists s', (makeSumVar s v). split; [reflexivity|].
    destruct (two_gens cf s R) as [g [h [Ig [Ih I]]]].
    destruct (inc_witness (es_n s) g h) as [x [X1 X2]]; auto. destruct (inc_witness (es_n s) h g) as [y [Y1 Y2]]; auto using inc_sym.
    assert (Z : exists z, z <> v /\ e_get (tgt s) z = true).
    { destruct (Nat.eq_dec x v) as [Q|N]; [exists y|exists x]; split; try congruence; [apply (gens_tgt s h)|apply (gens_tgt s g)]; auto. }
    destruct Z as [z [Zv Zt]].
    assert (Lv : forall s2, st_ok s2 -> es_elim s2 = e_set (es_elim s) v true -> live s2).
    { intros s2 K2 E2. exists z. unfold tgt. rewrite E2, tgt_set by auto. rewrite get_set_false. destruct (Nat.eqb_spec z v); congruence. }
    assert (Ks : st_ok (makeSumVar s v)).
    { split; cbn.
      - now rewrite set_length.
      - now apply nm_lens.
      - apply antichain_filter, K.
      - intros k u I0 U. apply nm_in in I0 as [I1 I2]. rewrite get_set by lia. destruct (Nat.eqb_spec u v); [congruence|]. now apply (ok_disj s K k). }
    split; [apply CB|]. split; [apply Lv; apply CB|]. split; auto. split; [now apply Lv|].
    split; [rewrite (cb_val _ _ _ CB), val_sum_var, (val_var s v) by auto; ring|].
    split; [apply CB|]. split; auto. split; [apply CB|]. split; [cbn; apply filter_le|].
    intros _. split; [apply CB|]. unfold es_weight at 1, es_nonElim at 1. cbn [makeSumVar es_n es_gens es_elim].
    fold (total (nm v (es_gens s))). pose proof (total_filter (fun g => negb (e_get g v)) (es_gens s)).
    pose proof (filter_le (fun g => negb (e_get g v)) (es_gens s)).
    assert (es_n s - e_size (e_set (es_elim s) v true) < es_nonElim s).
    { apply (nonElim_lt s _ v); auto; [now rewrite set_length| |rewrite get_set, Nat.eqb_refl by lia; auto].
      intros u U. rewrite get_set by lia. destruct (u =? v); auto. }
    unfold es_weight. fold (total (es_gens s)). lia.
  - destruct Lg as [Lt [[v V] [g [Ig Dg]]]]. destruct (colonTerm_state s t K Lt) as [s' [-> CT]]. cbn [snd].
    exists s', (makeSumTerm s t). split; [reflexivity|].
    assert (Tg : forall u, e_get t u = true -> e_get g u = true) by (apply divides_iff; [rewrite (Ll g Ig); auto|auto]).
    destruct (other_gen cf s g R Ig) as [h [Ih I]]. destruct (inc_witness (es_n s) h g) as [y [Y1 Y2]]; auto using inc_sym.
    assert (Ty : e_get (tgt s) y = true) by (eapply gens_tgt; eauto).
    pose proof (tgt_length s K) as LT.
    pose proof (multiples_split t (es_gens s)) as PM.
    assert (Mp : 1 <= length (multiples t (es_gens s))).
    { assert (X : In g (multiples t (es_gens s))) by (apply filter_In; auto). destruct (multiples _ _); [destruct X|cbn; lia]. }
    pose proof (Permutation_length PM) as LM. rewrite app_length in LM.
    assert (Ks : st_ok (makeSumTerm s t)).
    { split; cbn [makeSumTerm es_n es_gens es_elim]; auto.
      - apply lens_app. split; [intros x X; apply filter_In in X; now apply Ll|]. intros x [<-|[]]. auto.
      - apply antichain_app. split; [apply antichain_filter, K|]. split; [repeat constructor|].
        intros x y0 Ix [<-|[]]. apply filter_In in Ix as [Ix Nx]. apply negb_true_iff in Nx. split; auto.
        destruct (e_divides x t) eqn:D; auto. exfalso.
        assert (x = g). { destruct (list_eq_dec bool_dec x g) as [|NQ]; auto. exfalso.
          destruct (antichain_in _ _ _ (ok_anti s K) Ix Ig NQ) as [Q _]. rewrite (divides_trans (es_n s) x t g) in Q; auto. discriminate. }
        subst x. congruence.
      - intros x u X U. apply in_app_or in X as [X|[<-|[]]].
        + apply filter_In in X as [X _]. now apply (ok_disj s K x).
        + apply (ok_disj s K g); auto. }
    split; [apply CT|]. split; [|split; [auto|split; [|split]]].
    + exists y. unfold tgt. rewrite (ct_elim _ _ _ CT), invert_lcm by lia. fold (tgt s). rewrite get_colon by lia. rewrite Ty.
      destruct (e_get t y) eqn:X; auto. rewrite (Tg y X) in Y2. discriminate.
    + exists y. exact Ty.
    + rewrite (ct_val _ _ _ CT). unfold val. change (tgt (makeSumTerm s t)) with (tgt s). cbn [makeSumTerm es_sign es_gens].
      assert (X : E (t :: es_gens s) (tgt s) = E (filter (fun g => negb (e_divides t g)) (es_gens s) ++ [t]) (tgt s)).
      { apply E_same.
        - intros x [<-|X]; [lia|]. now apply lens_tgt.
        - intros x X. apply in_app_or in X as [X|[<-|[]]]; [|lia]. apply filter_In in X. now apply lens_tgt.
        - intros x [<-|X]; [exists t; split; [apply in_or_app; right; now left|auto]|].
          destruct (e_divides t x) eqn:D.
          + exists t. split; [apply in_or_app; right; now left|]. intros u _. apply divides_iff; auto. rewrite (Ll x X); auto.
          + exists x. split; auto. apply in_or_app. left. apply filter_In. now rewrite D.
        - intros x X. exists x. split; auto. apply in_app_or in X as [X|[<-|[]]]; [|now left]. apply filter_In in X. right. tauto. }
      rewrite <- X, E_cons by lia. ring.
    + split; [apply CT|]. split; auto. split; [apply CT|]. split.
      { cbn [makeSumTerm es_gens]. rewrite app_length. cbn [length]. lia. }
      cbn [shrinks]. intros Sh. pose proof (multiples_total (es_n s) t (es_gens s) Lt Ll) as MT.
      pose proof (total_perm _ _ PM) as TP. rewrite total_app in TP. split.
      * unfold es_weight. fold (total (es_gens s')) (total (es_gens s)).
        assert (es_nonElim s' < es_nonElim s).
        { unfold es_nonElim at 1. rewrite (ct_n _ _ _ CT), (ct_elim _ _ _ CT). apply (nonElim_lt s _ v); auto.
          - rewrite lcm_length; lia.
          - intros u U. rewrite get_lcm, U by lia. auto.
          - rewrite get_lcm, V by lia. apply orb_true_r.
          - apply (ok_disj s K g); auto. }
        destruct CT. lia.
      * unfold es_weight. change (es_nonElim (makeSumTerm s t)) with (es_nonElim s). cbn [makeSumTerm es_gens].
        fold (total (filter (fun g => negb (e_divides t g)) (es_gens s) ++ [t])) (total (es_gens s)).
        rewrite app_length, total_app. cbn [length]. rewrite total_cons. change (total []) with 0.
        assert (2 * e_size t <= length (multiples t (es_gens s)) * e_size t) by (apply Nat.mul_le_mono_r; lia). lia.
  - destruct (nth_error (es_gens s) i) as [g|] eqn:N; [|apply nth_error_None in N; lia].
    destruct (remove_spec _ _ _ N) as [G' [RG PG]]. rewrite RG.
    set (s' := ES (es_n s) G' (es_elim s) (es_sign s)).
    assert (Ig : In g (es_gens s)) by now apply nth_error_In in N.
    assert (K' : st_ok s').
    { split; cbn; auto.
      - pose proof (lens_perm _ _ _ PG Ll) as Q. now apply lens_cons in Q.
      - pose proof (antichain_perm _ _ PG (ok_anti s K)) as Q. now apply antichain_cons in Q.
      - intros x u I. apply (ok_disj s K). apply (Permutation_in _ (Permutation_sym PG)). now right. }
    destruct (colonTerm_state s' g K' (Ll g Ig)) as [s1 [T1 CT]].
    destruct (other_gen cf s g R Ig) as [h [Ih I]]. destruct (inc_witness (es_n s) h g) as [y [Y1 Y2]]; auto using inc_sym.
    destruct (inc_witness (es_n s) g h) as [x [X1 X2]]; auto.
    assert (Ty : e_get (tgt s) y = true) by (eapply gens_tgt; eauto).
    pose proof (tgt_length s K) as LT.
    exists s', (ES (es_n s1) (es_gens s1) (es_elim s1) (- es_sign s1)%Z). split; [now rewrite T1|]. split; auto.
    split; [exists y; exact Ty|]. split; [destruct (ct_ok _ _ _ CT); split; auto|]. split.
    { exists y. unfold tgt. cbn [es_elim]. rewrite (ct_elim _ _ _ CT). cbn [es_elim s']. rewrite invert_lcm by (rewrite (Ll g Ig); auto).
      fold (tgt s). rewrite get_colon by (rewrite (Ll g Ig); auto). now rewrite Ty, Y2. }
    pose proof (Permutation_length PG) as LP. cbn [length] in LP. pose proof (total_perm _ _ PG) as TP. rewrite total_cons in TP.
    split; [|split; [auto|split; [|split; [|split]]]].
    + assert (Q : val (ES (es_n s1) (es_gens s1) (es_elim s1) (- es_sign s1)) = (- val s1)%Z) by (unfold val, tgt; cbn [es_sign es_gens es_elim]; ring).
      rewrite Q, (ct_val _ _ _ CT). unfold val. change (tgt s') with (tgt s). cbn [es_gens es_sign s'].
      rewrite (E_perm (es_gens s) (g :: G')) by auto. rewrite E_cons by (rewrite (Ll g Ig); auto). ring.
    + apply CT.
    + cbn [es_gens s']. lia.
    + cbn [es_gens]. pose proof (ct_len _ _ _ CT). cbn [es_gens s'] in *. lia.
    + intros _. split.
      * unfold es_weight. change (es_nonElim s') with (es_nonElim s). cbn [es_gens s']. fold (total G') (total (es_gens s)). lia.
      * unfold es_weight. change (es_nonElim (ES (es_n s1) (es_gens s1) (es_elim s1) (- es_sign s1))) with (es_nonElim s1). cbn [es_gens].
        fold (total (es_gens s1)) (total (es_gens s)). destruct CT. change (es_nonElim s') with (es_nonElim s) in *. cbn [es_gens s'] in *. lia.
Qed.
