(** The base cases and the simplifications. *)
From Coq Require Import List Arith Bool ZArith Lia Permutation.
Import ListNotations.
From Verif Require Import M_SqFree M_Euler Spec_Euler P_Euler1 P_Euler2 P_Euler3.

Lemma tgt_length s : st_ok s -> length (tgt s) = es_n s.
Proof. intros K. unfold tgt. rewrite invert_length. apply K. Qed.
Lemma get_tgt s v : st_ok s -> (e_get (tgt s) v = true <-> v < es_n s /\ e_get (es_elim s) v = false).
Proof. intros K. unfold tgt. rewrite get_invert_true, (ok_elim s K). tauto. Qed.
Lemma gens_tgt s g v : st_ok s -> In g (es_gens s) -> e_get g v = true -> e_get (tgt s) v = true.
Proof.
  intros K I V. apply get_tgt; auto. split; [|now apply (ok_disj s K g v I)].
  rewrite <- (ok_lens s K g I). now apply get_lt.
Qed.
Lemma lens_tgt s : st_ok s -> forall g, In g (es_gens s) -> length g = length (tgt s).
Proof. intros K g I. rewrite tgt_length by auto. now apply K. Qed.

Lemma inc_witness n a b : length a = n -> length b = n -> inc a b -> exists v, e_get a v = true /\ e_get b v = false.
Proof.
  intros La Lb [D _]. destruct (existsb (fun v => e_get a v && negb (e_get b v)) (seq 0 n)) eqn:X.
  - apply existsb_exists in X as [v [_ X]]. apply andb_true_iff in X as [A B]. apply negb_true_iff in B. eauto.
  - exfalso. assert (e_divides a b = true); [|congruence]. apply divides_iff; [lia|]. intros v V.
    destruct (e_get b v) eqn:B; auto. rewrite <- X. apply existsb_exists. exists v. split.
    + apply in_seq. apply get_lt in V. lia.
    + now rewrite V, B.
Qed.
Lemma size_pos t v : e_get t v = true -> 0 < e_size t.
Proof. intros V. destruct (e_size t) eqn:Z; [|lia]. rewrite size_zero in Z. rewrite Z in V. discriminate. Qed.
Lemma E_nil_pos t v : e_get t v = true -> E [] t = 0%Z.
Proof. intros V. rewrite E_nil. apply size_pos in V. destruct (Nat.eqb_spec (e_size t) 0); auto; lia. Qed.
Lemma E_nil_empty t : (forall v, e_get t v = false) -> E [] t = 1%Z.
Proof. intros V. rewrite E_nil. apply size_zero in V. now rewrite V. Qed.

(** ** The base cases *)
Lemma lcm_fold n G : forall a, length a = n -> lens n G -> length (fold_left e_lcm G a) = n /\
  forall v, e_get (fold_left e_lcm G a) v = true <-> e_get a v = true \/ exists g, In g G /\ e_get g v = true.
Proof.
  induction G as [|g G IH]; intros a La L; cbn [fold_left].
  - split; auto. intros v. split; auto. intros [H|[g [[] _]]]; auto.
  - apply lens_cons in L as [Lg L]. destruct (IH (e_lcm a g)) as [A B]; auto; [rewrite lcm_length; lia|]. split; auto.
    intros v. rewrite B, get_lcm by lia. rewrite orb_true_iff. split.
    + intros [[H|H]|[h [I H]]]; auto; right; [exists g|exists h]; split; auto; [now left|now right].
    + intros [H|[h [[<-|I] H]]]; auto. right. eauto.
Qed.
Definition supported (s : estate) : Prop := forall v, e_get (tgt s) v = true -> exists g, In g (es_gens s) /\ e_get g v = true.
Lemma full_supported s : st_ok s -> (e_hasFullSupport (es_gens s) (es_elim s) = true <-> supported s).
Proof.
  intros K. unfold e_hasFullSupport. destruct (lcm_fold (es_n s) (es_gens s) (es_elim s)) as [L H]; try apply K.
  rewrite full_iff, L. unfold supported. split.
  - intros F v V. apply get_tgt in V as [A B]; auto. apply F, H in A as [A|A]; auto. congruence.
  - intros F v V. apply H. destruct (e_get (es_elim s) v) eqn:X; auto. right. apply F, get_tgt; auto.
Qed.
Lemma unsupported_val s : st_ok s -> ~ supported s -> val s = 0%Z.
Proof.
  intros K N. unfold val. destruct (existsb (fun v => e_get (tgt s) v && negb (existsb (fun g => e_get g v) (es_gens s))) (seq 0 (es_n s))) eqn:X.
  - apply existsb_exists in X as [v [_ X]]. apply andb_true_iff in X as [A B]. apply negb_true_iff in B.
    rewrite (E_unsupported _ v); try lia; auto; [now apply lens_tgt|].
    intros g I. destruct (e_get g v) eqn:V; auto. rewrite <- B. symmetry. apply existsb_exists. eauto.
  - exfalso. apply N. intros v V. destruct (existsb (fun g => e_get g v) (es_gens s)) eqn:Y.
    + now apply existsb_exists in Y.
    + exfalso. rewrite <- not_true_iff_false in X. apply X. apply existsb_exists. exists v. split.
      * apply in_seq. apply get_tgt in V; auto. lia.
      * now rewrite V, Y.
Qed.
Lemma base1_spec acc s a : st_ok s -> baseCaseSimple1 acc s = Some a -> a = (acc + val s)%Z.
Proof.
  intros K. unfold baseCaseSimple1. pose proof (full_supported s K) as FS.
  destruct (e_hasFullSupport _ _) eqn:F; cbn [negb].
  2: { intros [= <-]. rewrite unsupported_val; auto; [lia|]. rewrite <- FS. discriminate. }
  apply proj1 in FS. specialize (FS eq_refl). clear F.
  pose proof (lens_tgt s K) as LT. pose proof (ok_anti s K) as KA. pose proof (fun g v => gens_tgt s g v K) as GT.
  unfold val. unfold supported in FS. destruct (es_gens s) as [|g [|h [|k G]]] eqn:EG; [| | |discriminate]; intros [= <-].
  - rewrite E_nil_empty; [lia|]. intros v. destruct (e_get (tgt s) v) eqn:V; auto. destruct (FS v V) as [g [[] _]].
  - assert (Lg : length g = length (tgt s)) by (apply LT; now left). rewrite E_cons by auto.
    rewrite (E_nil_empty (e_colon (tgt s) g)).
    2: { intros v. rewrite get_colon by auto. destruct (e_get (tgt s) v) eqn:V; auto. destruct (FS v V) as [x [[<-|[]] X]]. now rewrite X. }
    destruct (e_full (es_elim s)) eqn:X.
    + rewrite E_nil_empty; [lia|]. rewrite full_iff in X. intros v. destruct (e_get (tgt s) v) eqn:V; auto.
      apply get_tgt in V as [A B]; auto. rewrite X in B; [discriminate|]. now rewrite (ok_elim s K).
    + assert (Y : exists v, e_get (tgt s) v = true).
      { destruct (e_size (tgt s)) eqn:Z.
        - exfalso. rewrite <- not_true_iff_false in X. apply X. apply full_iff. intros v V. rewrite size_zero in Z. specialize (Z v).
          destruct (e_get (es_elim s) v) eqn:Q; auto. exfalso. assert (e_get (tgt s) v = true); [|congruence].
          apply get_tgt; auto. now rewrite <- (ok_elim s K).
        - apply live_iff; auto. unfold es_nonElim. rewrite <- (ok_elim s K), <- size_invert. fold (tgt s). lia. }
      destruct Y as [v V]. rewrite (E_nil_pos _ v) by auto. lia.
  - assert (Lg : length g = length (tgt s)) by (apply LT; now left).
    assert (Lh : length h = length (tgt s)) by (apply LT; right; now left).
    apply antichain_cons in KA as [KA _]. specialize (KA h (or_introl eq_refl)).
    destruct (inc_witness (length (tgt s)) g h Lg Lh KA) as [v [V1 V2]].
    destruct (inc_witness (length (tgt s)) h g Lh Lg (inc_sym _ _ KA)) as [u [U1 U2]].
    assert (Tv : e_get (tgt s) v = true) by (apply (GT g); auto; now left).
    assert (Tu : e_get (tgt s) u = true) by (apply (GT h); auto; right; now left).
    rewrite !E_cons by (rewrite ?colon_length; lia).
    rewrite (E_nil_pos (tgt s) v) by auto.
    rewrite (E_nil_pos (e_colon (tgt s) h) v) by (rewrite get_colon, Tv, V2 by auto; auto).
    rewrite (E_nil_pos (e_colon (tgt s) g) u) by (rewrite get_colon, Tu, U2 by auto; auto).
    rewrite E_nil_empty; [lia|]. intros x. rewrite !get_colon by (rewrite ?colon_length; lia).
    destruct (e_get (tgt s) x) eqn:V; auto. destruct (FS x V) as [y [[<-|[<-|[]]] Y]]; rewrite Y; auto. now destruct (e_get g x).
Qed.
Lemma base1_none acc s : st_ok s -> baseCaseSimple1 acc s = None -> supported s /\ 3 <= length (es_gens s).
Proof.
  intros K. unfold baseCaseSimple1. destruct (e_hasFullSupport _ _) eqn:F; [|discriminate]. cbn [negb].
  intros H. split; [now apply full_supported|]. destruct (es_gens s) as [|? [|? [|? ?]]]; try discriminate. cbn. lia.
Qed.

(** ** Counts *)
Definition cnt (v : nat) (G : list eterm) : nat := length (filter (fun g => e_get g v) G).
Lemma counts_length n G : length (e_counts n G) = n. Proof. unfold e_counts. now rewrite map_length, seq_length. Qed.
Lemma nth_counts n G v : v < n -> nth v (e_counts n G) 0 = cnt v G.
Proof.
  intros H. unfold e_counts. rewrite nth_indep with (d' := cnt 0 G) by now rewrite map_length, seq_length.
  rewrite (map_nth (fun v => cnt v G)). now rewrite seq_nth.
Qed.
Lemma nth_counts_any n G v : lens n G -> nth v (e_counts n G) 0 = cnt v G.
Proof.
  intros L. destruct (Nat.lt_ge_cases v n); [now apply nth_counts|]. rewrite nth_overflow by now rewrite counts_length.
  unfold cnt. replace (filter (fun g => e_get g v) G) with (@nil eterm); auto. symmetry.
  induction G as [|g G IH]; auto. apply lens_cons in L as [Lg L]. cbn. rewrite get_out by lia. auto.
Qed.
Lemma cnt_perm v G G' : Permutation G G' -> cnt v G = cnt v G'.
Proof. intros P. unfold cnt. induction P; cbn; repeat match goal with |- context [if e_get ?a ?b then _ else _] => destruct (e_get a b) end; cbn in *; lia. Qed.
Lemma cnt_pos v G : 0 < cnt v G <-> exists g, In g G /\ e_get g v = true.
Proof.
  unfold cnt. split.
  - intros H. destruct (filter _ G) as [|g l] eqn:F; [cbn in H; lia|]. exists g. apply (filter_In (fun g => e_get g v)). rewrite F. now left.
  - intros [g I]. apply (filter_In (fun g => e_get g v)) in I. destruct (filter _ G); [destruct I|cbn; lia].
Qed.
Lemma cnt_le v G : cnt v G <= length G.
Proof. unfold cnt. induction G as [|g G IH]; auto. cbn. destruct (e_get g v); cbn; lia. Qed.
Lemma cnt_split v G : cnt v G + length (filter (fun g => negb (e_get g v)) G) = length G.
Proof. unfold cnt. induction G as [|g G IH]; auto. cbn. destruct (e_get g v); cbn; lia. Qed.
Lemma counts_ext n (l : list nat) G : length l = n -> (forall v, v < n -> nth v l 0 = cnt v G) -> l = e_counts n G.
Proof. intros L H. apply (nth_ext _ _ 0 0); [now rewrite counts_length|]. intros v V. rewrite nth_counts by lia. apply H. lia. Qed.
Lemma set_nth_length l : forall i x, length (set_nth l i x) = length l.
Proof. induction l as [|y l IH]; intros [|i] x; cbn; auto. Qed.
Lemma nth_set_nth l : forall i x v, nth v (set_nth l i x) 0 = if (v =? i) && (i <? length l) then x else nth v l 0.
Proof.
  induction l as [|y l IH]; intros i x v.
  - cbn. destruct v; cbn; rewrite andb_false_r; auto.
  - destruct i as [|i], v as [|v]; cbn [set_nth nth]; auto. rewrite IH. cbn [length]. 
    replace (S i <? S (length l)) with (i <? length l) by (destruct (Nat.ltb_spec i (length l)), (Nat.ltb_spec (S i) (S (length l))); auto; lia).
    reflexivity.
Qed.

(** ** Colon by a variable *)
(** [s'] is [s] after variable v was eliminated *)
Record colon_by (v : nat) (s s' : estate) : Prop := {
  cb_ok : st_ok s'; cb_n : es_n s' = es_n s; cb_sign : es_sign s' = es_sign s;
  cb_elim : es_elim s' = e_set (es_elim s) v true;
  cb_val : val s' = (es_sign s * E (es_gens s) (e_set (tgt s) v false))%Z;
  cb_len : length (es_gens s') <= length (es_gens s);
  cb_weight : es_weight s' < es_weight s;
  cb_same : length (es_gens s') = length (es_gens s) -> Permutation (e_colonVar v (es_gens s)) (es_gens s') }.
Lemma tgt_set s v : v < es_n s -> st_ok s -> e_invert (e_set (es_elim s) v true) = e_set (tgt s) v false.
Proof.
  intros V K. pose proof (ok_elim s K). apply get_ext.
  - now rewrite invert_length, !set_length, tgt_length.
  - intros u U. rewrite invert_length, set_length in U. rewrite get_invert by now rewrite set_length.
    rewrite get_set by lia. rewrite get_set_false. unfold tgt. rewrite get_invert by lia. now destruct (u =? v).
Qed.
Lemma size_set_true t v : v < length t -> e_get t v = false -> e_size (e_set t v true) = S (e_size t).
Proof.
  revert v. induction t as [|x t IH]; intros [|v] L H; cbn [length] in L; try lia; cbn [e_set]; rewrite !size_cons.
  - cbn in H. subst x. reflexivity.
  - rewrite IH by (try lia; auto). destruct x; lia.
Qed.
Lemma colon_set_lens n v G : lens n G -> lens n (e_colonVar v G).
Proof. intros L g I. apply in_map_iff in I as [x [<- I]]. rewrite set_length. now apply L. Qed.
Lemma size_set_false t v : e_size (e_set t v false) <= e_size t.
Proof. apply size_mono; [apply set_length|]. intros u. rewrite get_set_false. destruct (u =? v); auto. discriminate. Qed.
Lemma colon_state s v G' : st_ok s -> v < es_n s -> e_get (es_elim s) v = false -> reduced (e_colonVar v (es_gens s)) G' ->
  colon_by v s (ES (es_n s) G' (e_set (es_elim s) v true) (es_sign s)).
Proof.
  intros K V NE R. pose proof (ok_elim s K) as Le. pose proof (colon_set_lens (es_n s) v (es_gens s) (ok_lens s K)) as Lc.
  pose proof (reduced_le _ _ R) as Rl. unfold e_colonVar in Rl at 1. rewrite map_length in Rl.
  split; cbn [es_n es_gens es_elim es_sign]; auto.
  - split; cbn [es_n es_gens es_elim es_sign].
    + now rewrite set_length.
    + now apply (reduced_lens _ _ _ R).
    + apply R.
    + intros g u I U. apply (reduced_in _ _ _ R) in I. apply in_map_iff in I as [x [<- I]]. rewrite get_set_false in U.
      rewrite get_set by lia. destruct (u =? v); [discriminate|]. now apply (ok_disj s K x).
  - unfold val, tgt. cbn [es_sign es_gens es_elim]. rewrite tgt_set by auto. f_equal.
    rewrite <- (reduced_E (es_n s) _ _ _ Lc) by (auto; now rewrite set_length, tgt_length).
    unfold e_colonVar. apply E_map.
    + intros. rewrite set_length. now apply lens_tgt.
    + intros. rewrite !set_length. now apply lens_tgt.
    + intros g u _ U. rewrite get_set_false in U |- *. destruct (u =? v); auto. discriminate.
  - unfold es_weight, es_nonElim. cbn [es_n es_gens es_elim]. rewrite size_set_true by (auto; lia). fold (total G') (total (es_gens s)).
    pose proof (reduced_total _ _ R). assert (total (e_colonVar v (es_gens s)) <= total (es_gens s)) by (apply total_map_le; intros; apply size_set_false).
    assert (e_size (es_elim s) < es_n s); [|lia].
    rewrite <- Le. destruct (Nat.eq_dec (e_size (es_elim s)) (length (es_elim s))) as [Q|Q]; [|pose proof (size_le (es_elim s)); lia].
    rewrite size_full in Q. rewrite Q in NE by lia. discriminate.
  - intros L. apply reduced_same; auto. unfold e_colonVar at 1. now rewrite map_length.
Qed.
Lemma colonVar_state s v : st_ok s -> v < es_n s -> e_get (es_elim s) v = false ->
  exists s', toColonVar s v = Some (negb (length (es_gens s) =? length (es_gens s')), s') /\ colon_by v s s'.
Proof.
  intros K V NE. unfold toColonVar. destruct (Nat.ltb_spec v (es_n s)); [|lia].
  exists (ES (es_n s) (e_colonReminimizeVar v (es_gens s)) (e_set (es_elim s) v true) (es_sign s)). split; [reflexivity|].
  apply colon_state; auto. apply (colonVar_reduced (es_n s)); apply K.
Qed.
Lemma colonVar_counts v s s' : st_ok s -> v < es_n s -> colon_by v s s' -> length (es_gens s') = length (es_gens s) ->
  set_nth (e_counts (es_n s) (es_gens s)) v 0 = e_counts (es_n s') (es_gens s').
Proof.
  intros K V C L. rewrite (cb_n _ _ _ C). apply counts_ext; [now rewrite set_nth_length, counts_length|].
  intros u U. rewrite nth_set_nth, counts_length, nth_counts by auto. rewrite <- (cnt_perm u _ _ (cb_same _ _ _ C L)).
  destruct (Nat.ltb_spec v (es_n s)); [|lia]. rewrite andb_true_r.
  clear. induction (es_gens s) as [|g G IH]; [now destruct (u =? v)|].
  unfold cnt, e_colonVar in *. cbn [map filter]. rewrite get_set_false. destruct (u =? v); auto. destruct (e_get g u); cbn [length]; lia.
Qed.
Lemma colonVar_supported v s s' : st_ok s -> v < es_n s -> colon_by v s s' -> length (es_gens s') = length (es_gens s) -> supported s -> supported s'.
Proof.
  intros K V C L S u U. apply get_tgt in U; [|apply C]. rewrite (cb_n _ _ _ C), (cb_elim _ _ _ C) in U. destruct U as [U1 U2].
  rewrite get_set in U2 by (rewrite (ok_elim s K); auto). destruct (Nat.eqb_spec u v) as [|NE]; [discriminate|].
  destruct (S u) as [g [I G]]; [now apply get_tgt|]. exists (e_set g v false). split.
  - apply (Permutation_in _ (cb_same _ _ _ C L)). apply in_map_iff. eauto.
  - rewrite get_set_false. destruct (Nat.eqb_spec u v); congruence.
Qed.
