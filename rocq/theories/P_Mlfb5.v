(** Edges that have to be there. *)
From Coq Require Import List Arith Bool ZArith Lia.
Import ListNotations.
From Verif Require Import M_Term M_Slice M_Msm M_Api M_Names M_IO M_SatBinom M_Mlfb M_Mlfb2 P_Api P_SatBinom P_SatBinom2 P_Mlfb P_Mlfb2 P_Mlfb3 P_Mlfb4 Spec_SatBinom Spec_Mlfb Spec_Mlfb2 Spec_Run.
From Verif Require Import Spec Spec_Api.
Local Open Scope nat_scope.
Local Notation length := List.length.

Lemma bounded_dec (c g : list Z) n : (exists k, k < n /\ (coordinate c k <= coordinate g k)%Z) \/ forall k, k < n -> (coordinate g k < coordinate c k)%Z.
Proof.
  induction n as [|n [(k & K)|IH]]; [right; lia|left; exists k; split; [lia|tauto]|]. destruct (Z.lt_ge_cases (coordinate g n) (coordinate c n)) as [H|H]; [right|left; exists n; split; auto].
  intros k Hk. destruct (Nat.eq_dec k n) as [->|]; auto. apply IH. lia.
Qed.
Lemma find_body_in bodies rhs : In rhs (map ml_rhs bodies) -> forall s, find_body bodies rhs s <> None.
Proof.
  induction bodies as [|b bodies IH]; intros H s; [contradiction|]. cbn [find_body]. destruct (list_eq_dec Z.eq_dec (ml_rhs b) rhs) as [E|E]; [discriminate|]. destruct H as [H|H]; [contradiction|auto].
Qed.
Section Same.
Variables (n : nat) (gens : list (list Z)) (b : mlfb).
Hypothesis V : vectors n gens.
Hypothesis O : one_sided n gens.
Hypothesis M : maximal_free n gens (ml_rhs b).
Hypothesis I : forall p, In p (ml_points b) -> p = None \/ exists k, p = Some k /\ k < length gens.
Hypothesis J : forall k, k < length gens -> (forall i, i < n -> (coordinate (nth k gens []) i <= coordinate (ml_rhs b) i)%Z) -> In (Some k) (ml_points b).
Hypothesis L : length (ml_points b) = n.
Hypothesis F : forall i, i < n -> on_facet_only n (ml_rhs b) (point_of n gens (nth i (ml_points b) None)) i.
Let c := ml_rhs b.
Let pt j := point_of n gens (nth j (ml_points b) None).
Variable i : nat.
Hypothesis Hi : 1 <= i < n.
Hypothesis Dis : forall j k, j < n -> k < n -> j <> k -> coordinate (pt j) i <> coordinate (pt k) i.
Hypothesis Pos : exists j, j < n /\ j <> i /\ (0 < coordinate (pt j) i)%Z.
Lemma scan_some k : k <= n -> exists st, fold_left (scan_point gens b i) (seq 0 k) (Some None) = Some st.
Proof.
  induction k as [|k IH]; intros Hk; [eexists; reflexivity|]. destruct IH as [st E]; [lia|]. rewrite seq_S, fold_left_app, E. cbn [fold_left Nat.add].
  pose proof (scan_right n gens b O M I L F i ltac:(lia) k st ltac:(lia) E) as R. unfold scan_point. rewrite (value_pt n gens b O M I L F) by lia. fold (pt k).
  destruct (Nat.eqb_spec k i) as [->|N].
  - destruct (F i ltac:(lia)) as [A _]. unfold entry. fold (pt i) in A. rewrite A, Z.eqb_refl. eexists. reflexivity.
  - destruct st as [[s o]|]; [|eexists; reflexivity]. destruct R as (R1 & R2 & R3 & _). fold (pt o) in R3. destruct (Z.eqb_spec (coordinate (pt k) i) s) as [Eq|_]; [exfalso; apply (Dis k o); try lia; congruence|]. destruct (_ >? _)%Z; eexists; reflexivity.
Qed.
Lemma pt_gen k : 1 <= k < n -> In (pt k) gens.
Proof.
  intros Hk. destruct (pt_in n gens b I L k ltac:(lia)) as [E|E]; auto. exfalso. fold (pt k) in E. destruct (F k ltac:(lia)) as [A _]. fold (pt k) c in A. rewrite E, repeat_nth in A. pose proof (c_pos n gens b M L k Hk). fold c in H. lia.
Qed.
Lemma edge_there bodies : (forall c, maximal_free n gens c -> In c (map ml_rhs bodies)) -> exists e, scarf_edge n gens bodies b i = Ok (Some e).
Proof.
  intros All. unfold scarf_edge, scan_points. destruct (scan_some n (le_n n)) as [st E]. rewrite E. pose proof (scan_right n gens b O M I L F i ltac:(lia) n st (le_n n) E) as R. clear E.
  destruct st as [[s o]|]; [|exfalso; pose proof (R 0 ltac:(lia)); lia]. destruct R as (Ho & No & S & D). fold (pt o) in S. change (forall j, j < n -> j <> i -> (coordinate (pt j) i <= s)%Z) in D.
  assert (Sp : (0 < s)%Z). { destruct Pos as (j & A & B & C). specialize (D j A B). lia. }
  assert (O0 : o <> 0). { intros ->. unfold pt in S. rewrite (pt_zero n gens b O M I L F), repeat_nth in S. lia. }
  assert (C0 : coordinate c 0 = 0%Z) by exact (c_zero n gens b M). assert (Cp : forall k, 1 <= k < n -> (0 < coordinate c k)%Z) by exact (c_pos n gens b M L). assert (LC : length c = n) by apply M.
  assert (Lt : forall j k, j < n -> k < n -> k <> j -> (coordinate (pt j) k < coordinate c k)%Z) by exact (pt_lt n gens b F). assert (On : forall j, j < n -> coordinate (pt j) j = coordinate c j) by exact (pt_on n gens b F).
  assert (Ac : forall k, k < n -> coordinate (assign c i s) k = if k =? i then s else coordinate c k) by (intros; apply assign_nth; lia).
  assert (LT : (s < coordinate c i)%Z) by (rewrite S; apply Lt; lia).
  unfold other_side. fold c. destruct (Nat.eqb_spec o 0) as [|_]; [lia|]. destruct (Nat.eqb_spec i 0) as [|_]; [lia|]. pose proof (positive_right n gens o (assign c i s)) as P. destruct (pushOutFacetPositive n gens o (assign c i s)) as [new|].
  2:{ exfalso. destruct O as (_ & O1 & O2). destruct (O2 o ltac:(lia)) as (g & G & Gp). apply In_nth with (d := []) in G. destruct G as (k & K & Eg). apply (P k K). rewrite Eg. intros j Hj Nj. rewrite Ac by auto.
      destruct (Nat.eqb_spec j i); [specialize (Gp j Hj Nj); lia|]. destruct (Nat.eq_dec j 0) as [->|]; [|specialize (Gp j Hj Nj); specialize (Cp j ltac:(lia)); lia]. rewrite C0. apply O1. rewrite <- Eg. now apply nth_In. }
  destruct P as (P1 & P2 & P3 & _). set (g := nth new gens []) in *. assert (G : In g gens) by (apply nth_In; auto).
  assert (Ge : (coordinate c o <= coordinate g o)%Z).
  { destruct M as (_ & _ & _ & Fr). destruct (Fr g G) as (k & Hk & Le). fold c in Le. destruct (Nat.eq_dec k o) as [->|Nk]; auto. specialize (P2 k Hk Nk). rewrite Ac in P2 by auto. destruct (Nat.eqb_spec k i) as [Ek|Ek]; [rewrite Ek in Le, P2; lia|lia]. }
  assert (Gs : (coordinate c o < coordinate g o)%Z).
  { destruct (Z.eq_dec (coordinate g o) (coordinate c o)) as [Eq|]; [exfalso|lia]. assert (H : In (Some new) (ml_points b)).
    { apply J; auto. intros k Hk. fold g c. destruct (Nat.eq_dec k o) as [->|Nk]; [lia|]. specialize (P2 k Hk Nk). rewrite Ac in P2 by auto. destruct (Nat.eqb_spec k i) as [Ek|Ek]; [rewrite Ek in *; lia|lia]. }
    apply In_nth with (d := None) in H. destruct H as (j & Hj & Ej). assert (Eg : pt j = g) by (unfold pt; unfold neighbor in *; rewrite Ej; reflexivity). assert (Hj' : j < n) by (unfold neighbor in *; lia).
    destruct (Nat.eq_dec o j) as [->|Nj]; [|specialize (Lt j o Hj' Ho Nj); rewrite Eg in Lt; lia]. specialize (P2 i ltac:(lia) ltac:(auto)). rewrite Ac, Nat.eqb_refl in P2 by lia. rewrite Eg in S. lia. }
  assert (C : forall k, k < n -> coordinate (assign (assign c i s) o (entry g o)) k = if k =? o then coordinate g o else if k =? i then s else coordinate c k).
  { intros k Hk. rewrite assign_nth by (rewrite assign_length; lia). rewrite Ac by auto. reflexivity. }
  set (c' := assign (assign c i s) o (entry g o)) in *.
  assert (Max : maximal_free n gens c').
  { split; [unfold c'; rewrite !assign_length; auto|]. split; [|split].
    - split; [|intros j Hj Nj]; rewrite repeat_nth, C by lia; [destruct (Nat.eqb_spec 0 o); [lia|]; destruct (Nat.eqb_spec 0 i); [lia|auto]|].
      destruct (Nat.eqb_spec j o) as [->|]; [specialize (Cp o ltac:(lia)); lia|]. destruct (Nat.eqb_spec j i); [lia|]. apply Cp. lia.
    - intros k Hk. destruct (Nat.eq_dec k o) as [->|Nk]; [|destruct (Nat.eq_dec k i) as [->|Nki]].
      + exists g. split; auto. split; [rewrite C, Nat.eqb_refl by auto; auto|]. intros j Hj Nj. rewrite C by auto. specialize (P2 j Hj Nj). rewrite Ac in P2 by auto. destruct (Nat.eqb_spec j o); [lia|auto].
      + exists (pt o). split; [apply pt_gen; lia|]. split; [rewrite C by lia; destruct (Nat.eqb_spec i o); [lia|]; rewrite Nat.eqb_refl; auto|]. intros j Hj Nj. rewrite C by auto.
        destruct (Nat.eqb_spec j o) as [->|]; [rewrite On; auto|]. destruct (Nat.eqb_spec j i); [lia|]. apply Lt; auto.
      + exists (pt k). split; [apply pt_gen; lia|]. split; [rewrite C by lia; destruct (Nat.eqb_spec k o); [lia|]; destruct (Nat.eqb_spec k i); [lia|]; apply On; lia|]. intros j Hj Nj. rewrite C by auto.
        destruct (Nat.eqb_spec j o) as [->|]; [specialize (Lt k o ltac:(lia) Ho Nj); lia|]. destruct (Nat.eqb_spec j i) as [->|]; [|apply Lt; lia].
        specialize (D k ltac:(lia) Nki). pose proof (Dis k o ltac:(lia) Ho Nk). lia.
    - intros g' G'. destruct (bounded_dec c' g' n) as [H|H]; auto. exfalso. apply In_nth with (d := []) in G'. destruct G' as (k & K & Eg). assert (B : (coordinate g o <= coordinate (nth k gens []) o)%Z).
      { apply P3; auto. intros j Hj Nj. rewrite Ac, Eg by auto. specialize (H j Hj). rewrite C in H by auto. destruct (Nat.eqb_spec j o); [lia|auto]. }
      rewrite Eg in B. specialize (H o Ho). rewrite C, Nat.eqb_refl in H by auto. lia. }
  pose proof (find_body_in bodies c' (All c' Max) 0) as Fb. destruct (find_body bodies c' 0) as [mi|]; [|contradiction]. eexists. reflexivity.
Qed.
End Same.
Theorem same_side_right rnd n gens bodies b i : legal_config default_config -> vectors n gens -> one_sided n gens -> computeMlfbs rnd n gens = Ok bodies -> In b bodies -> length (ml_points b) = n -> 1 <= i < n ->
  (forall j k, j < n -> k < n -> j <> k -> coordinate (nth j (map (point_of n gens) (ml_points b)) []) i <> coordinate (nth k (map (point_of n gens) (ml_points b)) []) i) ->
  (exists j, j < n /\ j <> i /\ (0 < coordinate (nth j (map (point_of n gens) (ml_points b)) []) i)%Z) ->
  exists e, scarf_edge n gens bodies b i = Ok (Some e).
Proof.
  intros LC V O E B L Hi Dis Pos. destruct (bodies_right rnd n gens LC V O) as (bodies' & E' & _ & A & P). rewrite E in E'. injection E' as <-. destruct (P b B) as (_ & P2 & P3).
  assert (Pt : forall j, j < n -> nth j (map (point_of n gens) (ml_points b)) [] = point_of n gens (nth j (ml_points b) None)) by (exact (points_nth n gens b L)).
  apply (edge_there n gens b O); auto.
  - apply A. now apply in_map.
  - intros p H. apply P2 in H. destruct H as [|(k & K1 & K2 & _)]; eauto.
  - intros k K H. apply P2. right. eauto.
  - intros j k Hj Hk N. rewrite <- !Pt by auto. auto.
  - destruct Pos as (j & J1 & J2 & J3). exists j. rewrite <- Pt by auto. auto.
  - intros c H. now apply A.
Qed.
