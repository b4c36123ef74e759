(** The edges between the bodies. *)
From Coq Require Import List Arith Bool ZArith Lia.
Import ListNotations.
From Verif Require Import M_Term M_Slice M_Msm M_Api M_Names M_IO M_SatBinom M_Mlfb M_Mlfb2 P_Api P_SatBinom P_SatBinom2 P_Mlfb P_Mlfb2 P_Mlfb3 Spec_SatBinom Spec_Mlfb Spec_Mlfb2 Spec_Run.
From Verif Require Import Spec Spec_Api.
Local Open Scope nat_scope.
Local Notation length := List.length.

Lemma assign_nth v i z k : k < length v -> coordinate (assign v i z) k = if k =? i then z else coordinate v k.
Proof. intros H. unfold assign. exact (entry_map_seq (fun k => if k =? i then z else entry v k) (length v) k H). Qed.
Lemma assign_length v i z : length (assign v i z) = length v.
Proof. unfold assign. now rewrite map_length, seq_length. Qed.
Lemma find_body_some bodies rhs : forall s mi, find_body bodies rhs s = Some mi -> s <= mi /\ exists b, nth_error bodies (mi - s) = Some b /\ ml_rhs b = rhs.
Proof.
  induction bodies as [|b bodies IH]; intros s mi H; [discriminate|]. cbn [find_body] in H. destruct (list_eq_dec Z.eq_dec (ml_rhs b) rhs) as [E|E].
  - injection H as <-. split; auto. rewrite Nat.sub_diag. exists b. auto.
  - destruct (IH (S s) mi H) as (A & b' & B1 & B2). split; [lia|]. exists b'. split; auto. replace (mi - s) with (S (mi - S s)) by lia. exact B1.
Qed.
Lemma edges_list n gens bodies b facets : forall es, scarf_edges n gens bodies b facets = Ok (Some es) ->
  length es = length facets /\ forall i, i < length facets -> exists e, nth_error es i = Some e /\ scarf_edge n gens bodies b (nth i facets 0) = Ok (Some e).
Proof.
  induction facets as [|f facets IH]; intros es H; cbn [scarf_edges] in H.
  - injection H as <-. split; auto. intros i Hi. cbn in Hi. lia.
  - destruct (scarf_edge n gens bodies b f) as [[e|]| | | | |] eqn:E; try discriminate. destruct (scarf_edges n gens bodies b facets) as [[es'|]| | | | |]; try discriminate. injection H as <-.
    destruct (IH es' eq_refl) as [A B]. split; [cbn; lia|]. intros [|i] Hi; [exists e; auto|]. apply B. cbn in Hi. lia.
Qed.
Section Edges.
Variables (n : nat) (gens : list (list Z)) (b : mlfb).
Hypothesis V : vectors n gens.
Hypothesis O : one_sided n gens.
Hypothesis Cl : closed n gens.
Hypothesis M : maximal_free n gens (ml_rhs b).
Hypothesis I : forall p, In p (ml_points b) -> p = None \/ exists k, p = Some k /\ k < length gens.
Hypothesis L : length (ml_points b) = n.
Hypothesis F : forall i, i < n -> on_facet_only n (ml_rhs b) (point_of n gens (nth i (ml_points b) None)) i.
Let c := ml_rhs b.
Let pt j := point_of n gens (nth j (ml_points b) None).
Lemma two_variables : 2 <= n.
Proof. destruct O as (G & A & _). assert (X : exists g, In g gens) by (clear - G; destruct gens as [|g gs]; [contradiction|exists g; simpl; auto]). destruct X as (g & Hg). destruct (A g Hg) as (_ & i & Hi & _). lia. Qed.
Lemma c_zero : coordinate c 0 = 0%Z.
Proof. destruct M as (_ & (A & _) & _). rewrite repeat_nth in A. symmetry. exact A. Qed.
Lemma c_pos k : 1 <= k < n -> (0 < coordinate c k)%Z.
Proof. intros H. destruct M as (_ & (_ & A) & _). specialize (A k ltac:(lia) ltac:(lia)). rewrite repeat_nth in A. exact A. Qed.
Lemma c_length : length c = n.
Proof. apply M. Qed.
Lemma gen_neg g : In g gens -> (coordinate g 0 < 0)%Z.
Proof. intros H. apply O. exact H. Qed.
Lemma pt_in j : j < n -> pt j = repeat 0%Z n \/ In (pt j) gens.
Proof.
  intros H. unfold pt. destruct (I (nth j (ml_points b) None)) as [->|(k & -> & K)]; [apply nth_In; lia|left; reflexivity|]. right. cbn [point_of]. now apply nth_In.
Qed.
Lemma pt_zero : pt 0 = repeat 0%Z n.
Proof.
  pose proof two_variables as N2. destruct (pt_in 0 ltac:(lia)) as [E|E]; auto. exfalso. destruct (F 0 ltac:(lia)) as [A _]. fold (pt 0) c in A. rewrite c_zero in A. pose proof (gen_neg _ E). lia.
Qed.
Lemma pt_le j k : j < n -> k < n -> (coordinate (pt j) k <= coordinate c k)%Z.
Proof. intros Hj Hk. destruct (F j Hj) as [A B]. fold (pt j) c in A, B. destruct (Nat.eq_dec k j) as [->|N]; [lia|]. specialize (B k Hk N). lia. Qed.
Lemma pt_lt j k : j < n -> k < n -> k <> j -> (coordinate (pt j) k < coordinate c k)%Z.
Proof. intros Hj Hk N. destruct (F j Hj) as [_ B]. exact (B k Hk N). Qed.
Lemma pt_on j : j < n -> coordinate (pt j) j = coordinate c j.
Proof. intros H. apply (F j H). Qed.
Lemma value_pt i j : i < n -> j < n -> (if j =? 0 then 0%Z else getY gens (nth j (ml_points b) None) i) = coordinate (pt j) i.
Proof. intros Hi Hj. destruct (Nat.eqb_spec j 0) as [->|N]; [now rewrite pt_zero, repeat_nth|]. apply (getY_point n gens); auto. Qed.
Lemma scan_right i : i < n -> forall k st, k <= n -> fold_left (scan_point gens b i) (seq 0 k) (Some None) = Some st ->
  match st with
  | None => forall j, j < k -> j = i
  | Some (s, o) => o < k /\ o <> i /\ s = coordinate (pt o) i /\ forall j, j < k -> j <> i -> (coordinate (pt j) i <= s)%Z
  end.
Proof.
  intros Hi. induction k as [|k IH]; intros st Hk H.
  - cbn in H. injection H as <-. intros j Hj. lia.
  - rewrite seq_S, fold_left_app in H. cbn [fold_left Nat.add] in H. destruct (fold_left (scan_point gens b i) (seq 0 k) (Some None)) as [st'|] eqn:E; [|discriminate].
    specialize (IH st' ltac:(lia) eq_refl). unfold scan_point in H. rewrite value_pt in H by lia. destruct (Nat.eqb_spec k i) as [->|N].
    + destruct (negb _); [discriminate|]. injection H as <-. destruct st' as [[s o]|].
      * destruct IH as (A & B & C & D). split; [lia|]. split; auto. split; auto. intros j Hj Nj. apply D; auto. lia.
      * intros j Hj. destruct (Nat.eq_dec j i); auto. apply IH. lia.
    + destruct st' as [[s o]|].
      * destruct IH as (A & B & C & D). destruct (Z.eqb_spec (coordinate (pt k) i) s); [discriminate|]. rewrite Z.gtb_ltb in H. destruct (Z.ltb_spec s (coordinate (pt k) i)) as [Lt|Lt]; injection H as <-.
        -- split; [lia|]. split; auto. split; auto. intros j Hj Nj. destruct (Nat.eq_dec j k) as [->|]; [lia|]. specialize (D j ltac:(lia) Nj). lia.
        -- split; [lia|]. split; auto. split; auto. intros j Hj Nj. destruct (Nat.eq_dec j k) as [->|]; [lia|]. apply D; auto. lia.
      * injection H as <-. split; [lia|]. split; auto. split; auto. intros j Hj Nj. destruct (Nat.eq_dec j k) as [->|]; [lia|]. exfalso. apply Nj, IH. lia.
Qed.
Let points := map (point_of n gens) (ml_points b).
Lemma points_nth j : j < n -> nth j points [] = pt j.
Proof. intros H. unfold points, pt. rewrite nth_indep with (d' := point_of n gens None) by (rewrite map_length; unfold neighbor in *; lia). apply map_nth. Qed.
Lemma side_right i s o rhs : i < n -> o < n -> o <> i -> s = coordinate (pt o) i -> (forall j, j < n -> j <> i -> (coordinate (pt j) i <= s)%Z) ->
  other_side n gens b i s o = Some rhs -> next_body n gens points i o rhs.
Proof.
  intros Hi Ho N S D H. split; auto. split; auto. pose proof two_variables as N2. unfold other_side in H. fold c in H.
  assert (LA : length (assign c i s) = n) by (rewrite assign_length; apply c_length).
  assert (LT : (s < coordinate c i)%Z) by (rewrite S; apply pt_lt; auto).
  destruct (Nat.eqb_spec o 0) as [E0|E0].
  - subst o. destruct (Nat.eqb_spec i 0) as [|Ni]; [lia|]. pose proof (zero_right n gens (assign c i s)) as R. destruct (pushOutFacetZero n gens (assign c i s)) as [new|]; [|discriminate]. injection H as <-.
    destruct R as (R1 & _). set (g := nth new gens []) in *. assert (G : In g gens) by (apply nth_In; auto). assert (S0 : s = 0%Z) by (rewrite S, pt_zero; apply repeat_nth).
    assert (C : forall k, k < n -> coordinate (assign (map (fun i0 => (entry (assign c i s) i0 + entry g i0)%Z) (seq 0 n)) 0 0) k = if k =? 0 then 0%Z else ((if (k =? i)%nat then s else coordinate c k) + coordinate g k)%Z).
    { intros k Hk. rewrite assign_nth by (rewrite map_length, seq_length; auto). destruct (k =? 0); auto. pose proof (entry_map_seq (fun i0 => (entry (assign c i s) i0 + entry g i0)%Z) n k Hk) as E. unfold entry in E at 1. rewrite E. unfold entry. f_equal. apply assign_nth. rewrite c_length. auto. }
    exists g. split; [right; left; auto|]. split; [|split].
    + intros j k Hj Nj Hk. rewrite points_nth, C by auto. pose proof (pt_le j k Hj Hk). destruct (Nat.eqb_spec k 0) as [->|].
      * pose proof (gen_neg g G). rewrite c_zero in *. lia.
      * destruct (Nat.eqb_spec k i) as [->|]; [|lia]. specialize (D j Hj Nj). lia.
    + exists i. split; auto. rewrite points_nth, C, pt_on by auto. destruct (Nat.eqb_spec i 0); [lia|]. rewrite Nat.eqb_refl. lia.
    + rewrite points_nth, C, <- S by auto. destruct (Nat.eqb_spec i 0); [lia|]. rewrite Nat.eqb_refl. lia.
  - destruct (Nat.eqb_spec i 0) as [Ei|Ni].
    + subst i. set (r := map (fun i => (entry (assign c 0 s) i - getY gens (nth o (ml_points b) None) i)%Z) (seq 0 n)) in *.
      assert (LR : length r = n) by (unfold r; now rewrite map_length, seq_length).
      assert (R : forall k, k < n -> coordinate r k = ((if (k =? 0)%nat then s else coordinate c k) - coordinate (pt o) k)%Z).
      { intros k Hk. pose proof (entry_map_seq (fun i => (entry (assign c 0 s) i - getY gens (nth o (ml_points b) None) i)%Z) n k Hk) as E. fold r in E. unfold entry in E at 1. rewrite E, (getY_point n gens) by auto. fold (pt o). f_equal. apply assign_nth. rewrite c_length. auto. }
      pose proof (positive_right n gens o r) as P. destruct (pushOutFacetPositive n gens o r) as [new|]; [|discriminate]. injection H as <-. destruct P as (P1 & P2 & _). set (g := nth new gens []) in *.
      assert (G : In g gens) by (apply nth_In; auto).
      assert (Po : In (pt o) gens). { destruct (pt_in o Ho) as [E|E]; auto. exfalso. pose proof (pt_on o Ho) as A. rewrite E, repeat_nth in A. pose proof (c_pos o ltac:(lia)). lia. }
      assert (Pos : (0 <= coordinate g o)%Z).
      { destruct (Cl g (pt o) (v_sum g (pt o)) G Po) as (g' & G' & B); [apply v_sum_is; apply (gen_length n gens V); auto|].
        pose proof (v_sum_is n g (pt o) (gen_length n gens V g G)) as [_ Sm]. destruct M as (_ & _ & _ & Fr). destruct (Fr g' G') as (i & Hi' & Le). fold c in Le. specialize (B i Hi'). rewrite Sm in B by auto.
        destruct (Nat.eq_dec i 0) as [->|]; [rewrite c_zero in Le; pose proof (gen_neg g' G'); lia|]. pose proof (c_pos i ltac:(lia)). destruct (Nat.eq_dec i o) as [->|No]; [rewrite pt_on in B by auto; lia|].
        specialize (P2 i Hi' No). rewrite R in P2 by auto. destruct (Nat.eqb_spec i 0); [lia|]. lia. }
      assert (C : forall k, k < n -> coordinate (assign r o (entry g o)) k = if k =? o then coordinate g o else ((if (k =? 0)%nat then s else coordinate c k) - coordinate (pt o) k)%Z).
      { intros k Hk. rewrite assign_nth by lia. rewrite R by auto. reflexivity. }
      assert (T : forall k, coordinate (map Z.opp (pt o)) k = (- coordinate (pt o) k)%Z). { intros k. change 0%Z with (Z.opp 0) at 1. rewrite map_nth. reflexivity. }
      exists (map Z.opp (pt o)). split; [right; right; eauto|]. split; [|split].
      * intros j k Hj Nj Hk. rewrite points_nth, C, T by auto. pose proof (pt_le j k Hj Hk). destruct (Nat.eqb_spec k o) as [->|].
        -- rewrite (pt_on o) by auto. lia.
        -- destruct (Nat.eqb_spec k 0) as [->|]; [|lia]. specialize (D j Hj Nj). lia.
      * exists 0. split; auto. rewrite points_nth, C, T by auto. destruct (Nat.eqb_spec 0 o); [lia|]. cbn [Nat.eqb]. rewrite pt_zero, repeat_nth. pose proof (gen_neg _ Po). lia.
      * rewrite points_nth, C, T by auto. destruct (Nat.eqb_spec 0 o); [lia|]. cbn [Nat.eqb]. lia.
    + pose proof (positive_right n gens o (assign c i s)) as P. destruct (pushOutFacetPositive n gens o (assign c i s)) as [new|]; [|discriminate]. injection H as <-. destruct P as (P1 & P2 & _). set (g := nth new gens []) in *.
      assert (G : In g gens) by (apply nth_In; auto).
      assert (C : forall k, k < n -> coordinate (assign (assign c i s) o (entry g o)) k = if k =? o then coordinate g o else if k =? i then s else coordinate c k).
      { intros k Hk. rewrite assign_nth by lia. rewrite assign_nth by (rewrite c_length; auto). reflexivity. }
      assert (Pos : (coordinate c o <= coordinate g o)%Z).
      { destruct M as (_ & _ & _ & Fr). destruct (Fr g G) as (k & Hk & Le). fold c in Le. destruct (Nat.eq_dec k o) as [->|No]; auto. specialize (P2 k Hk No). rewrite assign_nth in P2 by (rewrite c_length; auto). destruct (Nat.eqb_spec k i) as [Ek|Ek]; [rewrite Ek in Le, P2; lia|lia]. }
      exists (repeat 0%Z n). split; [left; auto|]. split; [|split].
      * intros j k Hj Nj Hk. rewrite points_nth, C, repeat_nth by auto. pose proof (pt_le j k Hj Hk). destruct (Nat.eqb_spec k o) as [->|]; [lia|]. destruct (Nat.eqb_spec k i) as [->|]; [|lia]. specialize (D j Hj Nj). lia.
      * exists i. split; auto. rewrite points_nth, C, repeat_nth, pt_on by auto. destruct (Nat.eqb_spec i o); [lia|]. rewrite Nat.eqb_refl. lia.
      * rewrite points_nth, C, repeat_nth, <- S by auto. destruct (Nat.eqb_spec i o); [lia|]. rewrite Nat.eqb_refl. lia.
Qed.
Lemma edge_right bodies i : i < n -> exists r, scarf_edge n gens bodies b i = Ok r /\ match r with None => True | Some (mi, hit) => exists b', nth_error bodies mi = Some b' /\ next_body n gens points i hit (ml_rhs b') end.
Proof.
  intros Hi. unfold scarf_edge, scan_points. pose proof (scan_right i Hi n) as Sc. destruct (fold_left (scan_point gens b i) (seq 0 n) (Some None)) as [st|]; [|exists None; auto]. specialize (Sc st (le_n n) eq_refl). destruct st as [[s o]|].
  - destruct Sc as (A & B & C & D). pose proof (side_right i s o) as R. destruct (other_side n gens b i s o) as [rhs|]; [|exists None; auto]. specialize (R rhs Hi A B C D eq_refl).
    pose proof (find_body_some bodies rhs 0) as Fb. destruct (find_body bodies rhs 0) as [mi|]; [|exists None; auto]. exists (Some (mi, o)). split; auto. destruct (Fb mi eq_refl) as (_ & b' & B1 & B2). rewrite Nat.sub_0_r in B1. exists b'. split; auto. rewrite B2. exact R.
  - exfalso. pose proof two_variables as N2. pose proof (Sc 0 ltac:(lia)). pose proof (Sc 1 ltac:(lia)). lia.
Qed.
Lemma edges_defined bodies facets : (forall i, In i facets -> i < n) -> exists r, scarf_edges n gens bodies b facets = Ok r.
Proof.
  induction facets as [|f facets IH]; intros H; [exists (Some []); auto|]. cbn [scarf_edges]. destruct (edge_right bodies f) as (r & -> & _); [apply H; simpl; auto|]. destruct r as [e|]; [|exists None; auto].
  destruct IH as (r & ->); [intros; apply H; simpl; auto|]. eexists. reflexivity.
Qed.
Lemma min_right : first_least n (fun _ => True) (fun j => coordinate (nth j points []) 0) (Some (minInitialFacet gens b)).
Proof.
  clear Cl. pose proof two_variables as N2. unfold minInitialFacet. rewrite L.
  assert (G : forall k, 1 <= k <= n -> forall m f, fold_left (fun (s : Z * nat) i => let (minInitial, facet) := s in let initial := getY gens (nth i (ml_points b) None) 0 in if (minInitial >? initial)%Z then (initial, i) else s) (seq 0 k) (0%Z, 0) = (m, f) ->
    f < k /\ m = coordinate (pt f) 0 /\ (forall j, j < k -> (m <= coordinate (pt j) 0)%Z) /\ forall j, j < f -> (m < coordinate (pt j) 0)%Z).
  { induction k as [|k IH]; intros Hk m f H; [lia|]. rewrite seq_S, fold_left_app in H. cbn [fold_left Nat.add] in H. destruct (Nat.eq_dec k 0) as [->|Nk].
    - cbn [seq fold_left] in H. rewrite (getY_point n gens) in H by lia. fold (pt 0) in H. rewrite pt_zero, repeat_nth in H. cbn in H. injection H as <- <-. split; [lia|]. rewrite pt_zero, repeat_nth. split; auto. split; [|lia]. intros j Hj. replace j with 0 by lia. rewrite pt_zero, repeat_nth. lia.
    - destruct (fold_left _ (seq 0 k) _) as [m' f'] eqn:E. destruct (IH ltac:(lia) m' f' eq_refl) as (A & B & C & D). rewrite (getY_point n gens) in H by lia. fold (pt k) in H. rewrite Z.gtb_ltb in H.
      destruct (Z.ltb_spec (coordinate (pt k) 0) m') as [Lt|Lt]; injection H as <- <-.
      + split; [lia|]. split; auto. split; [|intros j Hj; specialize (C j Hj); lia]. intros j Hj. destruct (Nat.eq_dec j k) as [->|]; [lia|]. specialize (C j ltac:(lia)). lia.
      + split; [lia|]. split; auto. split; auto. intros j Hj. destruct (Nat.eq_dec j k) as [->|]; [lia|]. apply C. lia. }
  destruct (fold_left _ (seq 0 n) _) as [m f] eqn:E. destruct (G n ltac:(lia) m f E) as (A & B & C & D). cbn [snd first_least]. split; auto. split; auto. split.
  - intros j Hj _. rewrite !points_nth, <- B by auto. auto.
  - intros j Hj _. rewrite !points_nth, <- B by lia. auto.
Qed.
End Edges.
Section Result.
Variables (rnd : nat -> nat) (n : nat) (gens : list (list Z)) (bodies : list mlfb) (b : mlfb).
Hypothesis LC : legal_config default_config.
Hypothesis V : vectors n gens.
Hypothesis O : one_sided n gens.
Hypothesis E : computeMlfbs rnd n gens = Ok bodies.
Hypothesis B : In b bodies.
Lemma body_facts : maximal_free n gens (ml_rhs b) /\ (forall p, In p (ml_points b) -> p = None \/ exists k, p = Some k /\ k < length gens) /\
  (length (ml_points b) = n -> forall i, i < n -> on_facet_only n (ml_rhs b) (point_of n gens (nth i (ml_points b) None)) i).
Proof.
  destruct (bodies_right rnd n gens LC V O) as (bodies' & E' & _ & A & P). rewrite E in E'. injection E' as <-. destruct (P b B) as (_ & P2 & P3). split; [apply A; now apply in_map|]. split; auto.
  intros p H. apply P2 in H. destruct H as [|(k & K1 & K2 & _)]; eauto.
Qed.
Theorem edges_right : closed n gens -> exists r, body_edges n gens bodies b = Ok r /\
  match r with
  | None => True
  | Some es => length es = n /\ forall i, i < n -> exists mi hit b', nth_error es i = Some (mi, hit) /\ nth_error bodies mi = Some b' /\ next_body n gens (map (point_of n gens) (ml_points b)) i hit (ml_rhs b')
  end.
Proof.
  intros Cl. destruct body_facts as (M & I & F). unfold body_edges. destruct (Nat.eqb_spec (length (ml_points b)) n) as [L|L]; cbn [negb]; [|exists None; auto]. specialize (F L).
  destruct (edges_defined n gens b V O Cl M I L F bodies (seq 0 n)) as (r & H); [intros i Hi; apply in_seq in Hi; lia|]. exists r. split; auto. destruct r as [es|]; auto.
  destruct (edges_list n gens bodies b (seq 0 n) es H) as [A C]. rewrite seq_length in *. split; auto. intros i Hi. destruct (C i Hi) as ((mi, hit) & C1 & C2). rewrite seq_nth in C2 by auto. cbn [Nat.add] in C2.
  destruct (edge_right n gens b V O Cl M I L F bodies i Hi) as (r & R1 & R2). rewrite C2 in R1. injection R1 as <-. destruct R2 as (b' & R2 & R3). exists mi, hit, b'. auto.
Qed.
Theorem min_initial_right : length (ml_points b) = n -> first_least n (fun _ => True) (fun j => coordinate (nth j (map (point_of n gens) (ml_points b)) []) 0) (Some (minInitialFacet gens b)).
Proof. intros L. destruct body_facts as (M & I & F). apply (min_right n gens b); auto. Qed.
End Result.
