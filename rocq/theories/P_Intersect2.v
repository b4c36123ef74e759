(** The intersection of the translated ideals is the intersection of the ideals. *)
From Coq Require Import List Arith Bool ZArith Lia Ascii Sorted Permutation.
Import ListNotations.
From Verif Require Import Spec M_Term M_Ideal M_Api M_Names Spec_Names M_Intersect Spec_Intersect P_Term P_Ideal P_Corner P_Translator P_Names P_Names2 P_Intersect.

(** ** Shrinking *)
Lemma shrink_term_length n tr : forall nv var g t, length t = n -> length (shrink_term n tr nv var g t) = n.
Proof. induction nv as [|v nv IH]; intros var g t H; cbn [shrink_term]; auto. apply IH. apply t_set_length. Qed.
Lemma shrink_term_out n tr : forall nv var g t w, w < n -> ~ In w nv -> nth w (shrink_term n tr nv var g t) 0 = nth w t 0.
Proof.
  induction nv as [|v nv IH]; intros var g t w L H; cbn [shrink_term]; auto. rewrite IH by (auto; intros X; apply H; right; auto). apply t_set_nth_neq; auto. intros ->. apply H. left. auto.
Qed.
Lemma shrink_term_in n tr : forall nv var g t k, NoDup nv -> Forall (fun v => v < n) nv -> k < length nv ->
  nth (nth k nv 0) (shrink_term n tr nv var g t) 0 = shrinkExponent tr (nth k nv 0) (nth (var + k) g 0).
Proof.
  induction nv as [|v nv IH]; intros var g t k N F L; cbn [length] in L; [lia|]. inversion N; inversion F; subst. cbn [shrink_term]. destruct k as [|k]; cbn [nth].
  - rewrite shrink_term_out by auto. rewrite Nat.add_0_r. apply t_set_nth_eq. auto.
  - rewrite IH by (auto; lia). do 2 f_equal. lia.
Qed.
Section Shrink.
  Variables (names nm : list str) (tr : translator).
  Hypothesis (Nn : NoDup names) (Nm : NoDup nm) (Sub : forall s, In s nm -> In s names).
  Hypothesis zero : forall v, v < length names -> shrinkExponent tr v 0 = 0.
  Let n := length names.
  Definition nv := map (fun s => match name_index s names with Some v => v | None => 0 end) nm.
  Lemma nv_nth k : k < length nm -> nth k nv 0 < n /\ nth (nth k nv 0) names [] = nth k nm [].
  Proof.
    intros L. unfold nv. rewrite nth_indep with (d' := match name_index [] names with Some v => v | None => 0 end) by now rewrite map_length.
    rewrite (map_nth (fun s => match name_index s names with Some v => v | None => 0 end)). destruct (name_index_some (nth k nm []) names Nn) as [i [A [B C]]]; [apply Sub, nth_In; auto|]. rewrite C. auto.
  Qed.
  Lemma nv_length : length nv = length nm. Proof. apply map_length. Qed.
  Lemma nv_ok : NoDup nv /\ Forall (fun v => v < n) nv.
  Proof.
    split.
    - apply (NoDup_nth nv 0). rewrite nv_length. intros i j Hi Hj E. destruct (nv_nth i Hi) as [_ A]. destruct (nv_nth j Hj) as [_ B]. rewrite E, B in A. symmetry in A. apply (NoDup_nth nm []) in A; auto.
    - apply Forall_forall. intros v H. apply In_nth with (d := 0) in H as [k [L <-]]. rewrite nv_length in L. apply nv_nth. auto.
  Qed.
  Lemma new_vars_ok I : new_vars names (nm, I) = Some nv.
  Proof.
    unfold new_vars. cbn [fst]. destruct (names_eqb nm names) eqn:E.
    - apply names_eqb_iff in E. f_equal. apply nth_ext with (d := 0) (d' := 0); [now rewrite seq_length, nv_length|]. rewrite seq_length. intros k L. destruct (nv_nth k L) as [A B].
      rewrite seq_nth by auto. cbn. rewrite E in B. symmetry. apply (proj1 (NoDup_nth names []) Nn); auto. rewrite <- E. auto.
    - rewrite (mapO_some _ (fun s => match name_index s names with Some v => v | None => 0 end)); auto. apply Forall_forall. intros s H. destruct (name_index_some s names Nn (Sub s H)) as [i [_ [_ ->]]]. reflexivity.
  Qed.
  Definition cold (t : term) : Prop := length t = n /\ forall w, w < n -> ~ In w nv -> nth w t 0 = 0.
  Lemma shrink_one g t : cold t -> cold (shrink_term n tr nv 0 g t) /\ shrink_term n tr nv 0 g t = tabulate n (fun v => shrinkExponent tr v (nth v (over names nm g) 0)).
  Proof.
    intros [L C]. destruct nv_ok as [N F]. split.
    - split; [now apply shrink_term_length|]. intros w Hw Hn. rewrite shrink_term_out by auto. auto.
    - apply term_ext with n; [now apply shrink_term_length | apply tabulate_length |]. intros w Hw. rewrite tabulate_nth by auto. rewrite over_nth by auto.
      destruct (in_dec Nat.eq_dec w nv) as [I|I].
      + apply In_nth with (d := 0) in I as [k [Lk Ek]]. rewrite nv_length in Lk. destruct (nv_nth k Lk) as [_ B]. rewrite <- Ek at 1. rewrite shrink_term_in by (auto; now rewrite nv_length). rewrite Ek in *. cbn [Nat.add].
        rewrite B. now rewrite name_index_nth.
      + rewrite shrink_term_out by auto. rewrite C by auto. rewrite name_index_none; [now rewrite zero|]. intros H. apply I. apply In_nth with (d := []) in H as [k [Lk Ek]]. destruct (nv_nth k Lk) as [A B].
        rewrite Ek in B. apply (NoDup_nth names []) in B; auto. rewrite <- B. apply nth_In. now rewrite nv_length.
  Qed.
  Lemma shrink_all I : forall t, cold t -> shrink_terms n tr nv I t = shrinkBigIdeal n tr (map (over names nm) I).
  Proof.
    induction I as [|g I IH]; intros t C; cbn [shrink_terms map shrinkBigIdeal]; auto. destruct (shrink_one g t C) as [A B]. rewrite (IH _ A). now rewrite B.
  Qed.
  Lemma shrink_named_ok I : shrink_named names tr (nm, I) = Some (shrinkBigIdeal n tr (over_all names (nm, I))).
  Proof.
    unfold shrink_named. rewrite new_vars_ok. cbn [bind]. fold n. cbn [snd]. rewrite shrink_all; auto. split; [apply tabulate_length|]. intros w Hw _. unfold t_identity. now apply tabulate_nth.
  Qed.
End Shrink.

(** ** Intersecting *)
Section Meet.
  Variables (n : nat) (K : nat -> nat) (ph : nat -> nat -> nat).
  Hypothesis E : embedding n K ph.
  Definition inP (J : ideal) (m : nat -> nat) : Prop := exists g, In g J /\ forall v, v < n -> ph v (nth v g 0) <= m v.
  Definition fine (J : ideal) : Prop := wf n J /\ below n K J.
  Lemma ph_mono v i j : v < n -> i <= j -> j < K v -> ph v i <= ph v j.
  Proof. intros Hv H L. apply (emb_le n K ph); auto. lia. Qed.
  Lemma minimize_fine J : fine J -> fine (i_minimize n J) /\ forall m, inP (i_minimize n J) m <-> inP J m.
  Proof.
    intros [W B]. pose proof (i_minimize_spec n J) as M. destruct M as [Mm [Mi Mc]]. split; [split|].
    - intros g Hg. apply W. auto.
    - intros g v Hg Hv. apply B; auto.
    - intros m. split.
      + intros [g [Hg H]]. exists g. auto.
      + intros [g [Hg H]]. destruct (Mc g Hg) as [h [Hh L]]. exists h. split; auto. intros v Hv. etransitivity; [|apply H; auto]. apply ph_mono; auto.
  Qed.
  Lemma lcm_ph v g h : v < n -> nth v g 0 < K v -> nth v h 0 < K v -> forall x, ph v (nth v (t_lcm n g h) 0) <= x <-> ph v (nth v g 0) <= x /\ ph v (nth v h 0) <= x.
  Proof.
    intros Hv Hg Hh x. rewrite t_lcm_nth by auto. destruct (Nat.max_spec (nth v g 0) (nth v h 0)) as [[C ->]|[C ->]].
    - pose proof (ph_mono v _ _ Hv (Nat.lt_le_incl _ _ C) Hh). lia.
    - pose proof (ph_mono v _ _ Hv C Hg). lia.
  Qed.
  Lemma intersect_fine a b : fine a -> fine b -> fine (intersect n a b) /\ minl n (intersect n a b) /\ forall m, inP (intersect n a b) m <-> inP a m /\ inP b m.
  Proof.
    intros [Wa Ba] [Wb Bb]. set (P := concat (map (fun g => map (fun h => t_lcm n g h) b) a)).
    assert (IP : forall x, In x P <-> exists g h, In g a /\ In h b /\ x = t_lcm n g h).
    { intros x. unfold P. rewrite in_concat. split.
      - intros [l [Hl Hx]]. apply in_map_iff in Hl as [g [<- Hg]]. apply in_map_iff in Hx as [h [<- Hh]]. exists g, h. auto.
      - intros [g [h [Hg [Hh ->]]]]. exists (map (fun h => t_lcm n g h) b). split; [apply in_map_iff; exists g; auto | apply in_map_iff; exists h; auto]. }
    assert (FP : fine P).
    { split.
      - intros x Hx. apply IP in Hx as [g [h [Hg [Hh ->]]]]. apply tabulate_length.
      - intros x v Hx Hv. apply IP in Hx as [g [h [Hg [Hh ->]]]]. rewrite t_lcm_nth by auto. pose proof (Ba g v Hg Hv). pose proof (Bb h v Hh Hv). lia. }
    destruct (minimize_fine P FP) as [A B]. split; [exact A|]. split; [apply i_minimize_spec|]. intros m. unfold intersect. fold P. rewrite B. split.
    - intros [x [Hx H]]. apply IP in Hx as [g [h [Hg [Hh ->]]]]. split; [exists g | exists h]; (split; auto); intros v Hv; specialize (H v Hv); apply lcm_ph in H; auto; tauto.
    - intros [[g [Hg H]] [h [Hh H']]]. exists (t_lcm n g h). split; [apply IP; eauto|]. intros v Hv. apply lcm_ph; auto.
  Qed.
  Lemma identity_fine : fine [t_identity n] /\ minl n [t_identity n] /\ forall m, inP [t_identity n] m.
  Proof.
    split; [split|split].
    - intros g [<-|[]]. apply tabulate_length.
    - intros g v [<-|[]] Hv. unfold t_identity. rewrite tabulate_nth by auto. destruct (E v Hv). auto.
    - split; [repeat constructor; intros [] | intros x y [<-|[]] [<-|[]] _; auto].
    - intros m. exists (t_identity n). split; [left; auto|]. intros v Hv. unfold t_identity. rewrite tabulate_nth by auto. destruct (E v Hv) as [_ [-> _]]. lia.
  Qed.
  Lemma fold_meet : forall l a, fine a -> minl n a -> Forall fine l ->
    let r := fold_left (fun a b => intersect n a (i_minimize n b)) l a in
    fine r /\ minl n r /\ forall m, inP r m <-> inP a m /\ Forall (fun J => inP J m) l.
  Proof.
    induction l as [|b l IH]; intros a Fa Ma Fl; cbn [fold_left].
    - split; auto. split; auto. intros m. split; [intros H; split; auto | tauto].
    - inversion Fl as [|? ? Fb Fl']; subst. destruct (minimize_fine b Fb) as [F1 E1]. destruct (intersect_fine a (i_minimize n b) Fa F1) as [F2 [M2 E2]].
      destruct (IH _ F2 M2 Fl') as [A [B C]]. split; auto. split; auto. intros m. rewrite C, E2, E1. split; [intros [[X Y] Z]; split; auto | intros [X Z]; inversion Z; subst; auto].
  Qed.
End Meet.
