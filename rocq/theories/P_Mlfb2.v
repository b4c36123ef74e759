(** The bodies that are computed, and their points. *)
From Coq Require Import List Arith Bool ZArith Lia Permutation.
Import ListNotations.
From Verif Require Import M_Term M_Slice M_Msm M_Api M_Names M_IO M_SatBinom M_Mlfb P_Api P_SatBinom P_SatBinom2 P_Mlfb Spec_SatBinom Spec_Mlfb Spec_Run.
From Verif Require Import Spec Spec_Api.
Local Open Scope nat_scope.
Local Notation length := List.length.

(** ** Swapping *)
Lemma list_as_map {A} (l : list A) d : map (fun k => nth k l d) (seq 0 (length l)) = l.
Proof. induction l as [|x l IH]; auto. cbn [length seq map nth]. f_equal. rewrite <- seq_shift, map_map. exact IH. Qed.
Lemma swap_length {A} (d : A) l i j : length (swap_at d l i j) = length l.
Proof. unfold swap_at. now rewrite map_length, seq_length. Qed.
Lemma swap_nth {A} (d : A) l i j k : k < length l -> nth k (swap_at d l i j) d = nth (if k =? i then j else if k =? j then i else k) l d.
Proof.
  intros H. unfold swap_at. set (f := fun k => nth (if k =? i then j else if k =? j then i else k) l d).
  rewrite nth_indep with (d' := f 0) by (rewrite map_length, seq_length; auto). rewrite map_nth, seq_nth; auto.
Qed.
Lemma swap_perm {A} (d : A) l i j : i < length l -> j < length l -> Permutation (swap_at d l i j) l.
Proof.
  intros Hi Hj. unfold swap_at. set (f := fun k => if k =? i then j else if k =? j then i else k).
  assert (P : Permutation (map f (seq 0 (length l))) (seq 0 (length l))).
  { apply NoDup_Permutation_bis; [|rewrite map_length; auto|].
    - apply FinFun.Injective_map_NoDup; [|apply seq_NoDup]. intros a b. unfold f.
      destruct (Nat.eqb_spec a i), (Nat.eqb_spec b i), (Nat.eqb_spec a j), (Nat.eqb_spec b j); lia.
    - intros k H. apply in_map_iff in H. destruct H as (a & <- & H). apply in_seq in H. apply in_seq. unfold f. destruct (a =? i), (a =? j); lia. }
  apply (Permutation_map (fun k => nth k l d)) in P. rewrite map_map, list_as_map in P. exact P.
Qed.
Section Order.
Variable test : neighbor -> nat -> bool.
Variable points : list neighbor.
Hypothesis N : NoDup points.
Hypothesis X : forall x i j, In x points -> i < length points -> j < length points -> test x i = true -> test x j = true -> i = j.
Hypothesis E : forall i, i < length points -> exists x, In x points /\ test x i = true.
Lemma order_row_steps i : i < length points -> forall k p l, p + k = length points -> Permutation l points -> (forall j, j < i -> test (nth j l None) j = true) ->
  test (nth i l None) i = true \/ (exists q, p <= q < length points /\ test (nth q l None) i = true) ->
  let r := fold_left (fun points p => if test (nth p points None) i then swap_at None points i p else points) (seq p k) l in
  Permutation r points /\ (forall j, j < i -> test (nth j r None) j = true) /\ test (nth i r None) i = true.
Proof.
  intros Hi. induction k as [|k IH]; intros p l Hp P J Q; cbn [seq fold_left].
  - split; auto. split; auto. destruct Q as [Q|(q & Q & _)]; auto. lia.
  - assert (L : length l = length points) by (now apply Permutation_length).
    assert (Inn : forall j, j < length points -> In (nth j l None) points). { intros j Hj. eapply Permutation_in; [exact P|]. apply nth_In. lia. }
    assert (Nl : NoDup l) by (eapply Permutation_NoDup; [apply Permutation_sym; exact P|auto]).
    unfold neighbor in *. destruct (test (nth p l None) i) eqn:T.
    + assert (p < i -> False). { intros H. specialize (J p H). assert (i = p); [|lia]. apply (X (nth p l None)); auto; try lia. apply Inn. lia. }
      apply IH; [lia| | |].
      * etransitivity; [|exact P]. apply swap_perm; lia.
      * intros j Hj. rewrite swap_nth by lia. destruct (Nat.eqb_spec j i); [lia|]. destruct (Nat.eqb_spec j p); [lia|auto].
      * left. rewrite swap_nth, Nat.eqb_refl by lia. exact T.
    + apply IH; [lia|auto|auto|]. destruct Q as [Q|(q & Q1 & Q2)]; auto. right. exists q. split; auto. assert (q <> p) by congruence. lia.
Qed.
Lemma order_steps : forall k i l, i + k = length points -> Permutation l points -> (forall j, j < i -> test (nth j l None) j = true) ->
  let r := fold_left (order_row test) (seq i k) l in Permutation r points /\ forall j, j < length points -> test (nth j r None) j = true.
Proof.
  induction k as [|k IH]; intros i l Hi P J; cbn [seq fold_left].
  - split; auto. intros j Hj. apply J. lia.
  - assert (L : length l = length points) by (now apply Permutation_length).
    destruct (order_row_steps i ltac:(lia) (length l) 0 l) as (A & B & C); auto.
    { right. destruct (E i ltac:(lia)) as (x & Hx & T). apply (Permutation_in _ (Permutation_sym P)) in Hx. apply In_nth with (d := None) in Hx. destruct Hx as (q & Q & Hx).
      exists q. rewrite Hx. split; auto. lia. }
    fold (order_row test l i) in A, B, C. apply IH; auto; [lia|]. intros j Hj. destruct (Nat.eq_dec j i) as [->|]; auto. apply B. lia.
Qed.
End Order.

(** ** The right hand side *)
Lemma fold_max gens i ps : forall r0, let r := fold_left (fun r p => if (r <? getY gens p i)%Z then getY gens p i else r) ps r0 in
  (r0 <= r)%Z /\ (forall p, In p ps -> (getY gens p i <= r)%Z) /\ (r = r0 \/ exists p, In p ps /\ r = getY gens p i).
Proof.
  induction ps as [|p ps IH]; intros r0; cbn [fold_left].
  - split; [lia|]. split; [intros p []|auto].
  - specialize (IH (if (r0 <? getY gens p i)%Z then getY gens p i else r0)). cbv zeta in *. destruct IH as (A & B & C).
    destruct (Z.ltb_spec r0 (getY gens p i)); (split; [lia|]); (split; [intros q [<-|H1]; auto; lia|]); (destruct C as [C|(q & C1 & C2)]; [|right; exists q; simpl; auto]); auto.
    right. exists p. simpl. auto.
Qed.
Lemma rhs_nth n gens p0 ps i v : i < n -> (forall p, In p (p0 :: ps) -> (getY gens p i <= v)%Z) -> (exists p, In p (p0 :: ps) /\ getY gens p i = v) ->
  nth i (computeRhs n gens (p0 :: ps)) 0%Z = v.
Proof.
  intros Hi A (q & Q1 & Q2). unfold computeRhs. pose proof (entry_map_seq (fun var => fold_left (fun r p => if (r <? getY gens p var)%Z then getY gens p var else r) (tl (p0 :: ps)) (getY gens (hd None (p0 :: ps)) var)) n i Hi) as E.
  unfold entry in E. rewrite E. cbn [tl hd]. destruct (fold_max gens i ps (getY gens p0 i)) as (B & C & F). cbv zeta in *.
  set (r := fold_left _ ps _) in *. clearbody r. assert (v <= r)%Z. { destruct Q1 as [<-|Q1]; [lia|]. specialize (C q Q1). lia. }
  assert (r <= v)%Z; [|lia]. destruct F as [->|(p & P1 & ->)]; apply A; simpl; auto.
Qed.
Section Body.
Variables (n : nat) (gens : list (list Z)) (D : list mono).
Hypothesis V : vectors n gens.
Hypothesis O : one_sided n gens.
Hypothesis HD : irreducible_decomposition n (map initial_monomial gens) D.
Lemma entry_initial k i : k < length gens -> entry (nth k (getInitialIdeal n gens) []) i = Z.max 0 (coordinate (nth k gens []) i).
Proof.
  intros H. rewrite (initial_right n gens V). set (f := fun g => map Z.of_nat (initial_monomial g)). rewrite nth_indep with (d' := f []) by (rewrite map_length; auto). rewrite map_nth. unfold f, entry.
  rewrite of_nat_nth, im_nth. lia.
Qed.
Lemma body_in c p : In c D -> In p (body_points n (getInitialIdeal n gens) (map Z.of_nat c)) <->
  p = None \/ exists k, p = Some k /\ k < length gens /\ forall i, i < n -> (coordinate (nth k gens []) i <= Z.of_nat (nth i c 0%nat))%Z.
Proof.
  intros Hc. unfold body_points. cbn [In]. rewrite in_map_iff.
  assert (L : length (getInitialIdeal n gens) = length gens) by (unfold getInitialIdeal; now rewrite map_length).
  split.
  - intros [<-|(k & <- & H)]; auto. right. apply filter_In in H. destruct H as [H1 H2]. apply in_seq in H1. exists k. split; auto. split; [lia|]. intros i Hi.
    rewrite forallb_forall in H2. specialize (H2 i ltac:(apply in_seq; lia)). rewrite entry_initial in H2 by lia. unfold entry in H2. rewrite of_nat_nth in H2. rewrite Z.gtb_ltb in H2. destruct (Z.ltb_spec (Z.of_nat (nth i c 0)) (Z.max 0 (coordinate (nth k gens []) i))); [discriminate|lia].
  - intros [->|(k & -> & H1 & H2)]; auto. right. exists k. split; auto. apply filter_In. split; [apply in_seq; lia|]. apply forallb_forall. intros i Hi. apply in_seq in Hi.
    rewrite entry_initial by lia. unfold entry. rewrite of_nat_nth, Z.gtb_ltb. specialize (H2 i ltac:(lia)). destruct (Z.ltb_spec (Z.of_nat (nth i c 0)) (Z.max 0 (coordinate (nth k gens []) i))); [lia|auto].
Qed.
Lemma getY_point p i : i < n -> getY gens p i = coordinate (point_of n gens p) i.
Proof. intros H. destruct p as [k|]; auto. cbn [getY point_of]. now rewrite repeat_nth. Qed.
(** A point on each facet only *)
Lemma facet_body c i : In c D -> i < n -> exists p, In p (body_points n (getInitialIdeal n gens) (map Z.of_nat c)) /\ on_facet_only n (map Z.of_nat c) (point_of n gens p) i.
Proof.
  intros Hc Hi. destruct (comp_maximal n gens D V O HD c Hc) as (_ & Z0 & F & _). destruct (Nat.eq_dec i 0) as [->|].
  - exists None. split; [left; auto|]. exact Z0.
  - destruct (F i ltac:(lia)) as (g & G & A). apply In_nth with (d := []) in G. destruct G as (k & K & <-). exists (Some k). split; [|exact A]. apply body_in; auto. right. exists k. split; auto. split; auto.
    intros j Hj. destruct A as [A1 A2]. destruct (Nat.eq_dec j i) as [->|Nj]; [rewrite A1, of_nat_nth; lia|]. specialize (A2 j Hj Nj). rewrite of_nat_nth in A2. lia.
Qed.
Lemma body_rhs c : In c D -> computeRhs n gens (body_points n (getInitialIdeal n gens) (map Z.of_nat c)) = map Z.of_nat c.
Proof.
  intros Hc. apply (nth_ext _ _ 0%Z 0%Z).
  - unfold computeRhs. rewrite !map_length, seq_length. symmetry. eapply comp_length; eauto.
  - intros i Hi. unfold computeRhs in Hi. rewrite map_length, seq_length in Hi. unfold body_points. apply rhs_nth; auto; fold (body_points n (getInitialIdeal n gens) (map Z.of_nat c)).
    + intros p Hp. apply body_in in Hp; auto. rewrite of_nat_nth. destruct Hp as [->|(k & -> & _ & H)]; [cbn; lia|]. exact (H i Hi).
    + destruct (facet_body c i Hc Hi) as (p & P & A & _). exists p. split; auto. now rewrite getY_point.
Qed.
Lemma body_nodup rhs : NoDup (body_points n (getInitialIdeal n gens) rhs).
Proof.
  unfold body_points. constructor; [intros H; apply in_map_iff in H; destruct H as (k & H & _); discriminate|]. apply FinFun.Injective_map_NoDup; [intros a b H; now injection H|]. apply NoDup_filter, seq_NoDup.
Qed.
Lemma facet_list c : In c D -> forall k, k <= n -> exists W, length W = k /\ forall i, i < k -> In (nth i W None) (body_points n (getInitialIdeal n gens) (map Z.of_nat c)) /\ on_facet_only n (map Z.of_nat c) (point_of n gens (nth i W None)) i.
Proof.
  intros Hc. induction k as [|k IH]; intros Hk; [exists []; split; auto; lia|]. destruct IH as (W & L & A); [lia|]. destruct (facet_body c k Hc ltac:(lia)) as (p & P). exists (W ++ [p]).
  split; [rewrite app_length; cbn; lia|]. intros i Hi. destruct (Nat.eq_dec i k) as [->|]; [rewrite app_nth2, L, Nat.sub_diag by lia; exact P|]. rewrite app_nth1 by lia. apply A. lia.
Qed.
Local Ltac nlia := unfold neighbor in *; lia.
Lemma body_ordered c : In c D -> let points := body_points n (getInitialIdeal n gens) (map Z.of_nat c) in let r := resetPoints n gens points in
  Permutation r points /\ (length points = n -> forall i, i < n -> on_facet_only n (map Z.of_nat c) (point_of n gens (nth i r None)) i).
Proof.
  intros Hc points r. unfold r, resetPoints. destruct (Nat.eqb_spec (length points) n) as [L|L]; [|split; auto; intros H; contradiction].
  assert (R : computeRhs n gens points = map Z.of_nat c) by exact (body_rhs c Hc). rewrite !R. clear R. destruct (facet_list c Hc n (le_n n)) as (W & LW & A). fold points in A.
  assert (NW : NoDup W).
  { apply (NoDup_nth W None). intros i j Hi Hj Eq. rewrite LW in *. destruct (Nat.eq_dec i j); auto. exfalso. destruct (A i Hi) as (_ & A1 & _), (A j Hj) as (_ & _ & A2). specialize (A2 i Hi n0). rewrite <- Eq, A1 in A2. nlia. }
  assert (I : forall x, In x points -> exists i, i < n /\ x = nth i W None).
  { intros x Hx. assert (incl points W). { apply NoDup_length_incl; auto; [nlia|]. intros y Hy. apply In_nth with (d := None) in Hy. destruct Hy as (i & Hi & <-). apply A. nlia. }
    apply H in Hx. apply In_nth with (d := None) in Hx. destruct Hx as (i & Hi & <-). exists i. split; auto. nlia. }
  set (test := fun p i => (getY gens p i =? entry (map Z.of_nat c) i)%Z).
  assert (T : forall i j, i < n -> j < n -> (test (nth j W None) i = true <-> i = j)).
  { intros i j Hi Hj. unfold test. rewrite Z.eqb_eq, getY_point by auto. unfold entry. destruct (A j Hj) as (_ & A1 & A2). split; [|intros ->; exact A1]. intros Eq. destruct (Nat.eq_dec i j); auto. specialize (A2 i Hi n0). nlia. }
  destruct (order_steps test points) with (k := n) (i := 0) (l := points) as (P & Q); auto.
  - apply body_nodup.
  - intros x i j Hx Hi Hj Ti Tj. destruct (I x Hx) as (k & Hk & ->). apply T in Ti, Tj; try nlia.
  - intros i Hi. exists (nth i W None). rewrite L in Hi. split; [apply A; auto|]. apply T; auto.
  - intros j Hj. nlia.
  - split; auto. intros _ i Hi. specialize (Q i ltac:(nlia)). assert (Hx : In (nth i (fold_left (order_row test) (seq 0 n) points) None) points). { eapply Permutation_in; [exact P|]. apply nth_In. rewrite (Permutation_length P). nlia. }
    destruct (I _ Hx) as (k & Hk & Eq). rewrite Eq in Q. apply T in Q; auto. subst k. destruct (A i Hi) as [_ A']. rewrite <- Eq in A'. exact A'.
Qed.
Definition body_of (c : mono) : mlfb := MLFB (map Z.of_nat c) (resetPoints n gens (body_points n (getInitialIdeal n gens) (map Z.of_nat c))).
Lemma bodies_made l : incl l D -> make_bodies n gens (getInitialIdeal n gens) (map (map Z.of_nat) l) = Ok (map body_of l).
Proof.
  induction l as [|c l IH]; intros I; auto. cbn [map make_bodies]. rewrite (body_rhs c) by (apply I; simpl; auto). destruct (list_eq_dec Z.eq_dec _ _); [|congruence].
  rewrite IH by (intros x Hx; apply I; simpl; auto). reflexivity.
Qed.
End Body.
Lemma recorded_block n D : recorded (block n D) = map (map Z.of_nat) D.
Proof.
  unfold recorded, block. cbn [flat_map app]. rewrite flat_map_app. cbn [flat_map]. rewrite app_nil_r. rewrite <- flat_map_concat_map || idtac. induction D as [|c D IH]; auto. cbn [map flat_map app]. now rewrite IH.
Qed.
Theorem bodies_right rnd n gens : legal_config default_config -> vectors n gens -> one_sided n gens -> exists bodies, computeMlfbs rnd n gens = Ok bodies /\
  NoDup (map ml_rhs bodies) /\ (forall c, In c (map ml_rhs bodies) <-> maximal_free n gens c) /\
  forall b, In b bodies -> NoDup (ml_points b) /\
    (forall p, In p (ml_points b) <-> p = None \/ exists k, p = Some k /\ k < length gens /\ forall i, i < n -> (coordinate (nth k gens []) i <= coordinate (ml_rhs b) i)%Z) /\
    (length (ml_points b) = n -> forall i, i < n -> on_facet_only n (ml_rhs b) (point_of n gens (nth i (ml_points b) None)) i).
Proof.
  intros LC V O. unfold computeMlfbs.
  assert (E : map (map Z.to_nat) (getInitialIdeal n gens) = map initial_monomial gens).
  { rewrite (initial_right n gens V), map_map. apply map_ext. intros g. rewrite map_map. rewrite <- (map_id (initial_monomial g)) at 2. apply map_ext. intros; lia. }
  rewrite E. destruct (p_irr default_config rnd n (map initial_monomial gens) LC) as (D & -> & HD).
  { unfold in_ring. apply Forall_map. eapply Forall_impl; [|exact V]. intros g H. unfold initial_monomial. now rewrite map_length. }
  rewrite recorded_block, (bodies_made n gens D V O HD D (incl_refl D)). exists (map (body_of n gens) D). split; auto.
  rewrite map_map. cbn [body_of ml_rhs].
  split; [|split].
  - apply FinFun.Injective_map_NoDup; [|apply HD]. intros a b. revert b. induction a as [|x a IH]; intros [|y b] H; try discriminate; auto. cbn in H. injection H as H1 H2. f_equal; [lia|auto].
  - intros c. rewrite in_map_iff. split.
    + intros (c' & <- & H). now apply (comp_maximal n gens D).
    + intros H. destruct (maximal_comp n gens D V O HD c H) as [H1 H2]. eauto.
  - intros b H. apply in_map_iff in H. destruct H as (c & <- & Hc). cbn [body_of ml_rhs ml_points]. destruct (body_ordered n gens D V O HD c Hc) as (P & Q). cbv zeta in P, Q.
    split; [eapply Permutation_NoDup; [apply Permutation_sym; exact P|apply body_nodup]|]. split.
    + intros p. rewrite (fun X => conj (Permutation_in p P) (Permutation_in p (Permutation_sym P)) : _ <-> _) by exact I. rewrite (body_in n gens D V c p Hc). 
      split; (intros [->|(k & -> & K1 & K2)]; [left; reflexivity|right; exists k; split; [reflexivity|]; split; [exact K1|]; intros i Hi; specialize (K2 i Hi); rewrite of_nat_nth in *; exact K2]).
    + intros L. apply Q. rewrite <- (Permutation_length P). exact L.
Qed.
Theorem points_right rnd n gens bodies : legal_config default_config -> vectors n gens -> one_sided n gens -> computeMlfbs rnd n gens = Ok bodies ->
  forall b, In b bodies -> length (ml_points b) = n -> forall i, i < n -> on_facet_only n (ml_rhs b) (point_of n gens (nth i (ml_points b) None)) i.
Proof.
  intros LC V O E b B. destruct (bodies_right rnd n gens LC V O) as (bodies' & E' & _ & _ & P). rewrite E in E'. injection E' as <-. apply (P b B).
Qed.
