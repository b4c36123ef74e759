(** More proofs about saturated binomial ideals *)
From Coq Require Import List Arith Bool ZArith Lia Permutation FinFun.
Import ListNotations.
From Verif Require Import Spec Spec_Slice Spec_Scarf M_SatBinom Spec_SatBinom P_SatBinom.
Local Open Scope Z_scope.
Local Notation length := List.length.

(** Validation *)
Lemma reaches_iff (R S : nat -> nat -> Prop) : (forall x y, R x y <-> S x y) -> forall x y, reaches R x y -> reaches S x y.
Proof. intros H x y K. induction K as [x y K | x y z K _ IH]; [apply reach_step, H, K | exact (reach_more S x y z (proj1 (H x y) K) IH)]. Qed.
Lemma cyclic_iff (R S : nat -> nat -> Prop) : (forall x y, R x y <-> S x y) -> (cyclic R <-> cyclic S).
Proof.
  intros H. split; intros (x & Hx); exists x; [exact (reaches_iff R S H x x Hx) |].
  apply (reaches_iff S R); [intros a b; symmetry; apply H | exact Hx].
Qed.
Lemma number_of_unique {A} (P : A -> Prop) j k : number_of P j -> number_of P k -> j = k.
Proof.
  intros (l & N & H & <-) (m & N' & H' & <-). apply Nat.le_antisymm.
  - apply NoDup_incl_length; [exact N |]. intros x Hx. apply H', H, Hx.
  - apply NoDup_incl_length; [exact N' |]. intros x Hx. apply H, H', Hx.
Qed.
Lemma edge_bounds n gens x y : interior_edge n gens x y -> (x < length gens)%nat /\ (y < length gens)%nat.
Proof. intros (a & b & s & E1 & E2 & _). split; apply nth_error_Some; congruence. Qed.
Lemma followed_iff n gens x y : vectors n gens ->
  (R (followed n gens) (length gens) x y <-> interior_edge n gens x y /\ ~ terminating_edge n gens x y).
Proof.
  intros V. unfold R, followed. split.
  - intros (Hx & Hy & H). apply andb_true_iff in H. destruct H as [H1 H2]. split; [apply interior_edge_iff; assumption |].
    intros K. apply terminating_edge_iff in K; [| assumption ..]. rewrite K in H2. discriminate.
  - intros [H1 H2]. destruct (edge_bounds n gens x y H1) as [Hx Hy]. split; [exact Hx |]. split; [exact Hy |]. apply andb_true_iff. split; [apply interior_edge_iff; assumption |].
    apply negb_true_iff. destruct (isTerminatingEdge n gens x y) eqn:E; [| reflexivity]. destruct H2. apply terminating_edge_iff; assumption.
Qed.
Lemma out_degree n gens x : vectors n gens -> (x < length gens)%nat ->
  number_of (interior_edge n gens x) (length (filter (isInteriorEdge n gens x) (seq 0 (length gens)))).
Proof.
  intros V Hx. exists (filter (isInteriorEdge n gens x) (seq 0 (length gens))). split; [apply NoDup_filter, seq_NoDup |]. split; [| reflexivity].
  intros y. rewrite filter_In, in_seq. split.
  - intros [Hy H]. apply interior_edge_iff; [assumption | assumption | lia | exact H].
  - intros H. destruct (edge_bounds n gens x y H) as [_ Hy]. split; [lia |]. apply interior_edge_iff; assumption.
Qed.
Theorem validate_right n gens : vectors n gens ->
  exists b, validate n gens = Some b /\
    (b = true <->
     zero_entry n gens \/
     (~ cyclic (fun x y => interior_edge n gens x y /\ ~ terminating_edge n gens x y) /\
      forall from g, nth_error gens from = Some g ->
        (interior n gens g g -> number_of (interior_edge n gens from) 0) /\ (~ interior n gens g g -> number_of (interior_edge n gens from) 1))).
Proof.
  intros V. unfold validate. destruct (hasZeroEntry n gens) eqn:Z.
  { exists true. split; [reflexivity |]. apply zero_entry_iff in Z. tauto. }
  assert (NZ : ~ zero_entry n gens) by (intros K; apply zero_entry_iff in K; congruence).
  cbv zeta. destruct (cycles_found (followed n gens) (length gens)) as (c & -> & Hc).
  rewrite (cyclic_iff _ _ (fun x y => followed_iff n gens x y V)) in Hc. destruct c.
  { exists false. split; [reflexivity |]. split; [discriminate |]. intros [K | [K _]]; [contradiction | destruct K; apply Hc; reflexivity]. }
  eexists. split; [reflexivity |]. rewrite forallb_forall. split.
  - intros H. right. split; [intros K; apply Hc in K; discriminate |]. intros from g E.
    assert (Hf : (from < length gens)%nat) by (apply nth_error_Some; congruence).
    specialize (H from ltac:(apply in_seq; lia)). rewrite (nth_error_nth gens from [] E) in H.
    pose proof (vectors_nth n gens from V Hf) as Lg. rewrite (nth_error_nth gens from [] E) in Lg.
    pose proof (interior_iff n gens g g Lg) as Ig. pose proof (out_degree n gens from V Hf) as O.
    destruct (isInterior n gens g g).
    + apply Nat.eqb_eq in H. rewrite H in O. split; [intros _; exact O | intros K; destruct K; apply Ig; reflexivity].
    + apply Nat.eqb_eq in H. rewrite H in O. split; [intros K; apply Ig in K; discriminate | intros _; exact O].
  - intros [K | [_ H]]; [contradiction |]. intros from Hin. apply in_seq in Hin. assert (Hf : (from < length gens)%nat) by lia.
    specialize (H from (nth from gens []) (nth_error_nth_some gens from [] Hf)).
    pose proof (interior_iff n gens _ (nth from gens []) (vectors_nth n gens from V Hf)) as Ig. pose proof (out_degree n gens from V Hf) as O.
    destruct (isInterior n gens (nth from gens []) (nth from gens [])).
    + apply Nat.eqb_eq. apply (number_of_unique _ _ _ O). apply H, Ig. reflexivity.
    + apply Nat.eqb_eq. apply (number_of_unique _ _ _ O). apply H. intros K. apply Ig in K. discriminate.
Qed.

(** Weak genericity *)
Lemma shares_iff n a b : sharesEntry n a b = true <-> exists i, (i < n)%nat /\ nth i a 0 = nth i b 0 /\ 0 < nth i a 0.
Proof.
  unfold sharesEntry. rewrite existsb_exists. split.
  - intros (i & Hi & H). apply in_seq in Hi. apply andb_true_iff in H. destruct H as [H1 H2]. exists i. unfold entry in *.
    apply Z.eqb_eq in H1. apply Z.ltb_lt in H2. repeat split; [lia | exact H1 | exact H2].
  - intros (i & Hi & H1 & H2). exists i. split; [apply in_seq; lia |]. unfold entry. apply andb_true_iff. split; [apply Z.eqb_eq, H1 | apply Z.ltb_lt, H2].
Qed.
Definition bad (n : nat) (gens : list (list Z)) (a b : list Z) : Prop :=
  (exists i, (i < n)%nat /\ nth i a 0 = nth i b 0 /\ 0 < nth i a 0) /\ point_free n gens [a; b].
Lemma bad_sym n gens a b : bad n gens a b -> bad n gens b a.
Proof.
  intros [(i & H1 & H2 & H3) P]. split; [exists i; repeat split; [exact H1 | lia | lia] |]. intros g Hg K. apply (P g Hg). intros j Hj.
  destruct (K j Hj) as [K1 | (p & Hp & K1)]; [left; exact K1 | right; exists p; split; [cbn in *; tauto | exact K1]].
Qed.
Lemma wg_pairs n gens l : wg_loop n gens l = true <-> ForallOrdPairs (fun a b => ~ bad n gens a b) l.
Proof.
  assert (B : forall a b, negb (sharesEntry n a b && isPointFreeBody n gens a b) = true <-> ~ bad n gens a b).
  { intros a b. unfold bad. rewrite <- shares_iff, <- point_free_iff. destruct (sharesEntry n a b), (isPointFreeBody n gens a b); cbn; intuition congruence. }
  induction l as [| a l IH]; [split; [constructor | reflexivity] |]. cbn [wg_loop]. rewrite andb_true_iff, IH, forallb_forall. split.
  - intros [H1 H2]. constructor; [| exact H2]. apply Forall_forall. intros b Hb. apply B, H1, Hb.
  - intros H. inversion H as [| a' l' H1 H2]; subst. split; [| exact H2]. rewrite Forall_forall in H1. intros b Hb. apply B, H1, Hb.
Qed.
Lemma ord_pairs (P : list Z -> list Z -> Prop) l : NoDup l -> (forall x y, In x l -> In y l -> x <> y -> P x y) -> ForallOrdPairs P l.
Proof.
  induction l as [| a l IH]; intros N H; [constructor |]. inversion N as [| a' l' N1 N2]; subst. constructor.
  - apply Forall_forall. intros b Hb. apply H; [left; reflexivity | right; exact Hb | intros ->; contradiction].
  - apply IH; [exact N2 |]. intros x y Hx Hy. apply H; right; assumption.
Qed.
Lemma im_nth g i : nth i (initial_monomial g) 0%nat = Z.to_nat (nth i g 0).
Proof. unfold initial_monomial. change 0%nat with (Z.to_nat 0) at 1. apply map_nth. Qed.
Lemma lcm_nth (a b : list nat) : length a = length b -> forall i, nth i (pair_lcm a b) 0%nat = Nat.max (nth i a 0%nat) (nth i b 0%nat).
Proof.
  unfold pair_lcm. revert b. induction a as [| x a IH]; intros [| y b] L i; try discriminate; [destruct i; reflexivity |].
  destruct i as [| i]; [reflexivity |]. cbn. apply IH. cbn in L. lia.
Qed.
Lemma inside_iff n a b g : length a = n -> length b = n -> length g = n -> (forall i, (i < n)%nat -> nth i g 0 <> 0) ->
  (exists i, (i < n)%nat /\ 0 < nth i a 0) ->
  (in_interior n [a; b] g <-> strictly_divides (initial_monomial g) (pair_lcm (initial_monomial a) (initial_monomial b))).
Proof.
  intros La Lb Lg NZ (k & Hk & Pk).
  assert (LL : length (initial_monomial a) = length (initial_monomial b)) by (unfold initial_monomial; rewrite !map_length; lia).
  unfold in_interior, strictly_divides. split.
  - intros H. split.
    + intros i. rewrite lcm_nth by exact LL. rewrite !im_nth. destruct (lt_dec i n) as [Hi | Hi].
      * specialize (NZ i Hi). destruct (H i Hi) as [K | (p & [<- | [<- | []]] & K)]; [left; lia | |];
          (destruct (Z.lt_ge_cases (nth i g 0) 0); [left; lia | right; lia]).
      * left. rewrite (nth_overflow g) by lia. reflexivity.
    + exists k. rewrite lcm_nth by exact LL. rewrite !im_nth. lia.
  - intros [H _] i Hi. specialize (H i). specialize (NZ i Hi). rewrite lcm_nth in H by exact LL. rewrite !im_nth in H.
    destruct H as [H | H]; [left; lia |]. right. destruct (Z.le_ge_cases (nth i a 0) (nth i b 0)).
    + exists b. split; [right; left; reflexivity | lia].
    + exists a. split; [left; reflexivity | lia].
Qed.
Lemma inside_dec n x y g : {in_interior n [x; y] g} + {~ in_interior n [x; y] g}.
Proof.
  destruct (isPointFreeBody n [g] x y) eqn:E.
  - right. apply point_free_iff in E. exact (E g (or_introl eq_refl)).
  - left. assert (U : ~ ~ in_interior n [x; y] g).
    { intros U. assert (point_free n [g] [x; y]) as PF by (intros g' [<- | []]; exact U). apply point_free_iff in PF. congruence. }
    intros i Hi. destruct (Z.lt_ge_cases (nth i g 0) 0) as [K | K]; [left; exact K |].
    destruct (Z.lt_ge_cases (nth i g 0) (nth i x 0)) as [K1 | K1]; [right; exists x; split; [left; reflexivity | exact K1] |].
    destruct (Z.lt_ge_cases (nth i g 0) (nth i y 0)) as [K2 | K2]; [right; exists y; split; [right; left; reflexivity | exact K2] |].
    destruct U. intros W. destruct (W i Hi) as [W1 | (p & [<- | [<- | []]] & W1)]; lia.
Qed.
Theorem weakly_generic_right n gens : vectors n gens -> ~ zero_entry n gens -> NoDup (map initial_monomial gens) ->
  (initialIdealIsWeaklyGeneric n gens = true <-> weakly_generic n (map initial_monomial gens)).
Proof.
  intros V NZ N. unfold initialIdealIsWeaklyGeneric. rewrite wg_pairs. unfold vectors in V. rewrite Forall_forall in V.
  assert (In_iff : forall a b g, In a gens -> In b gens -> In g gens -> (exists i, (i < n)%nat /\ 0 < nth i a 0) ->
    (in_interior n [a; b] g <-> strictly_divides (initial_monomial g) (pair_lcm (initial_monomial a) (initial_monomial b)))).
  { intros a b g Ha Hb Hg. apply inside_iff; [auto | auto | auto |]. intros i Hi E. apply NZ. exists g, i. auto. }
  assert (ND : NoDup gens) by exact (NoDup_map_inv _ _ N). split.
  - intros H a b v Ha Hb Nab Hv E P. apply in_map_iff in Ha. destruct Ha as (x & <- & Hx). apply in_map_iff in Hb. destruct Hb as (y & <- & Hy).
    rewrite !im_nth in *.
    assert (NB : ~ bad n gens x y).
    { destruct (ForallOrdPairs_In H x y Hx Hy) as [-> | [K | K]]; [congruence | exact K | intros B; apply K, bad_sym, B]. }
    destruct (Exists_dec (fun g => in_interior n [x; y] g) gens) as [D | D].
    + intros g. exact (inside_dec n x y g).
    + apply Exists_exists in D. destruct D as (g & Hg & D). exists (initial_monomial g). split; [apply in_map, Hg |].
      apply (In_iff x y g Hx Hy Hg); [exists v; split; [exact Hv | lia] | exact D].
    + destruct NB. split; [exists v; repeat split; [exact Hv | lia | lia] |]. intros g Hg K. apply D, Exists_exists. exists g. auto.
  - intros H. apply ord_pairs; [exact ND |]. intros x y Hx Hy Nxy [(v & Hv & E & P) PF].
    destruct (H (initial_monomial x) (initial_monomial y) v) as (g & Hg & S).
    + apply in_map, Hx.
    + apply in_map, Hy.
    + intros E'. apply Nxy. clear - N E' Hx Hy. induction gens as [| z l IH]; [destruct Hx |]. cbn [map] in N. inversion N as [| z' l' N1 N2]; subst.
      destruct Hx as [-> | Hx], Hy as [-> | Hy]; [reflexivity | | | exact (IH N2 Hx Hy)].
      * destruct N1. rewrite E'. apply in_map, Hy.
      * destruct N1. rewrite <- E'. apply in_map, Hx.
    + exact Hv.
    + rewrite !im_nth. lia.
    + rewrite im_nth. lia.
    + apply in_map_iff in Hg. destruct Hg as (z & <- & Hz). apply (PF z Hz). apply (In_iff x y z Hx Hy Hz); [exists v; split; [exact Hv | lia] | exact S].
Qed.

Theorem generic_right n gens : vectors n gens -> NoDup (map initial_monomial gens) ->
  (isGeneric n gens = true <-> ~ zero_entry n gens /\ weakly_generic n (map initial_monomial gens)).
Proof.
  intros V N. unfold isGeneric. rewrite andb_true_iff, negb_true_iff. pose proof (zero_entry_iff n gens) as Z. split.
  - intros [H1 H2]. assert (NZ : ~ zero_entry n gens) by (intros K; apply Z in K; congruence). split; [exact NZ | apply weakly_generic_right; assumption].
  - intros [NZ H]. split; [destruct (hasZeroEntry n gens); [destruct NZ; apply Z; reflexivity | reflexivity] | apply weakly_generic_right; assumption].
Qed.

(** Pairs of triangles *)
Section Count.
Variables (n : nat) (gens : list (list Z)).
Definition dt_test (a b : list Z) : bool := isPointFreeBody n gens a (v_sum a b) && isPointFreeBody n gens b (v_sum a b).
Lemma fold_count (f : list Z -> bool) l c : fold_left (fun c b => if f b then c + 1 else c) l c = c + Z.of_nat (length (filter f l)).
Proof. revert c. induction l as [| b l IH]; intros c; cbn [fold_left filter]; [cbn; lia |]. rewrite IH. destruct (f b); cbn [length]; lia. Qed.
Lemma filter_positions (f : list Z -> bool) pre l :
  length (filter f l) = length (filter (fun j => f (nth j (pre ++ l) [])) (seq (length pre) (length l))).
Proof.
  revert pre. induction l as [| b l IH]; intros pre; [reflexivity |]. cbn [length seq filter]. rewrite app_nth2, Nat.sub_diag by lia. cbn [nth].
  specialize (IH (pre ++ [b])). rewrite app_length, <- app_assoc in IH. cbn [length app] in IH. rewrite Nat.add_1_r in IH.
  destruct (f b); cbn [length]; rewrite IH; reflexivity.
Qed.
Lemma nodup_app2 {A} (l m : list A) : NoDup l -> NoDup m -> (forall x, In x l -> ~ In x m) -> NoDup (l ++ m).
Proof.
  induction l as [| x l IH]; intros N M D; [exact M |]. inversion N as [| x' l' N1 N2]; subst. cbn. constructor.
  - intros K. apply in_app_iff in K. destruct K as [K | K]; [contradiction | exact (D x (or_introl eq_refl) K)].
  - apply IH; [exact N2 | exact M |]. intros y Hy. apply D. right. exact Hy.
Qed.
Lemma dt_pairs : forall l pre c, gens = pre ++ l -> exists ps, NoDup ps /\
  (forall i j, In (i, j) ps <-> (length pre <= i < j)%nat /\ (j < length gens)%nat /\ dt_test (nth i gens []) (nth j gens []) = true) /\
  dt_loop n gens l c = c + Z.of_nat (length ps).
Proof.
  induction l as [| a l IH]; intros pre c E.
  - exists []. split; [constructor |]. split; [| cbn; lia]. intros i j. rewrite E, app_nil_r. split; [intros [] | lia].
  - cbn [dt_loop]. fold (dt_test a). rewrite (fold_count (fun b => dt_test a b)).
    destruct (IH (pre ++ [a]) (c + Z.of_nat (length (filter (fun b => dt_test a b) l)))) as (ps & N & H & D); [rewrite <- app_assoc; exact E |].
    rewrite D. set (k := length pre) in *.
    assert (Ek : nth k gens [] = a) by (rewrite E, app_nth2, Nat.sub_diag by lia; reflexivity).
    pose proof (filter_positions (fun b => dt_test a b) (pre ++ [a]) l) as FP. rewrite <- app_assoc in FP. cbn [app] in FP. rewrite <- E, app_length in FP. cbn [length] in FP. fold k in FP.
    assert (Lg : length gens = (k + S (length l))%nat) by (rewrite E, app_length; reflexivity).
    exists (map (pair k) (filter (fun j => dt_test a (nth j gens [])) (seq (k + 1) (length l))) ++ ps). split; [| split].
    + apply nodup_app2; [| exact N |].
      * apply Injective_map_NoDup; [intros x y X; congruence | apply NoDup_filter, seq_NoDup].
      * intros (i, j) K K'. apply in_map_iff in K. destruct K as (j' & K & _). apply H in K'. rewrite app_length in K'. cbn in K'. fold k in K'. inversion K. lia.
    + intros i j. rewrite in_app_iff, H, in_map_iff, app_length. cbn [length]. fold k. split.
      * intros [(j' & K & K') | K]; [| repeat split; try tauto; lia]. inversion K; subst i j'. apply filter_In in K'. destruct K' as [K1 K2]. apply in_seq in K1.
        rewrite Ek. repeat split; [lia | lia | lia | exact K2].
      * intros (K1 & K2 & K3). destruct (Nat.eq_dec i k) as [-> | Nk]; [left | right; repeat split; try assumption; lia].
        exists j. split; [reflexivity |]. apply filter_In. rewrite Ek in K3. split; [apply in_seq; lia | exact K3].
    + rewrite app_length, map_length, <- FP. lia.
Qed.
Theorem triangles_right : vectors n gens -> exists k, getDoubleTriangleCount n gens = Z.of_nat k /\ number_of (double_triangle n gens) k.
Proof.
  intros V. destruct (dt_pairs gens [] 0 eq_refl) as (ps & N & H & D). exists (length ps). split; [exact D |]. exists ps. split; [exact N |]. split; [| reflexivity].
  intros (i, j). rewrite H. unfold double_triangle. cbn [fst snd length].
  assert (T : (i < length gens)%nat -> dt_test (nth i gens []) (nth j gens []) = true <->
    point_free n gens [nth i gens []; v_sum (nth i gens []) (nth j gens [])] /\ point_free n gens [nth j gens []; v_sum (nth i gens []) (nth j gens [])]).
  { intros Hi. unfold dt_test. rewrite andb_true_iff, !point_free_iff. tauto. }
  split.
  - intros (K1 & K2 & K3). split; [lia |]. exists (nth i gens []), (nth j gens []), (v_sum (nth i gens []) (nth j gens [])).
    split; [apply nth_error_nth_some; lia |]. split; [apply nth_error_nth_some; lia |]. split; [apply v_sum_is, vectors_nth; [exact V | lia] |]. apply T; [lia | exact K3].
  - intros (K & a & b & s & E1 & E2 & Hs & P1 & P2).
    assert (Hi : (i < length gens)%nat) by (apply nth_error_Some; congruence). assert (Hj : (j < length gens)%nat) by (apply nth_error_Some; congruence).
    repeat split; [lia | exact K | exact Hj |]. apply T; [exact Hi |]. rewrite (nth_error_nth gens i [] E1), (nth_error_nth gens j [] E2).
    assert (La : length a = n) by (rewrite <- (nth_error_nth gens i [] E1); apply vectors_nth; assumption).
    rewrite (is_sum_unique n a b (v_sum a b) s (v_sum_is n a b La) Hs). split; assumption.
Qed.
End Count.

(** Removal *)
Definition stays (zero : bool) (g : list Z) : bool := negb (Bool.eqb (nth 0 g 0 =? 0) zero).
Lemma split_at {A} (gens : list A) gen d : (gen < length gens)%nat -> exists pre x tl, gens = pre ++ x :: tl /\ length pre = gen /\ nth gen gens d = x.
Proof. intros L. destruct (nth_split gens d L) as (pre & tl & E & Lp). exists pre, (nth gen gens d), tl. auto. Qed.
Lemma split_parts {A} (pre : list A) x tl : firstn (length pre) (pre ++ x :: tl) = pre /\ skipn (length pre) (pre ++ x :: tl) = x :: tl /\ skipn (S (length pre)) (pre ++ x :: tl) = tl.
Proof. induction pre as [| y pre IH]; [repeat split |]. destruct IH as (H1 & H2 & H3). cbn [length app firstn]. rewrite H1. split; [reflexivity |]. split; [exact H2 | exact H3]. Qed.
Lemma replaced_last {A} (pre : list A) x tl d : exists tl', removelast (pre ++ last (pre ++ x :: tl) d :: tl) = pre ++ tl' /\ Permutation tl' tl.
Proof.
  destruct (exists_last (l := x :: tl) ltac:(discriminate)) as (m & z & E). rewrite E, app_assoc, last_last.
  destruct m as [| y m].
  - cbn in E. inversion E; subst. exists []. rewrite removelast_last, app_nil_r. split; [reflexivity | apply perm_nil].
  - cbn [app] in E. inversion E; subst. exists (z :: m). split.
    + change (pre ++ z :: m ++ [z]) with (pre ++ (z :: m) ++ [z]). rewrite app_assoc. apply removelast_last.
    + change (z :: m) with ([z] ++ m). apply Permutation_app_comm.
Qed.
Lemma filter_perm {A} (f : A -> bool) l m : Permutation l m -> Permutation (filter f l) (filter f m).
Proof.
  intros H. induction H as [| x l m H IH | x y l | l m k H1 IH1 H2 IH2]; cbn [filter].
  - apply perm_nil.
  - destruct (f x); [apply perm_skip, IH | exact IH].
  - destruct (f x), (f y); try apply Permutation_refl. apply perm_swap.
  - exact (Permutation_trans IH1 IH2).
Qed.
Lemma remove_right zero : forall fuel gen gens, Forall (fun g => g <> []) gens -> (gen <= length gens)%nat -> (length gens - gen <= fuel)%nat ->
  exists r, remove_loop fuel zero gen gens = Some r /\ Permutation r (firstn gen gens ++ filter (stays zero) (skipn gen gens)).
Proof.
  assert (End : forall gens, (Permutation gens (firstn (length gens) gens ++ filter (stays zero) (skipn (length gens) gens)))).
  { intros gens. rewrite firstn_all, skipn_all. cbn. rewrite app_nil_r. apply Permutation_refl. }
  induction fuel as [| fuel IH]; intros gen gens F Hg Hf; cbn [remove_loop].
  - destruct (Nat.leb_spec (length gens) gen) as [L | L]; [| lia]. assert (gen = length gens) as -> by lia. exists gens. split; [reflexivity | apply End].
  - destruct (Nat.leb_spec (length gens) gen) as [L | L]; [assert (gen = length gens) as -> by lia; exists gens; split; [reflexivity | apply End] |].
    destruct (split_at gens gen [] L) as (pre & x & tl & E & Lp & Ex). rewrite Ex.
    destruct (split_parts pre x tl) as (P1 & P2 & P3). rewrite Lp in P1, P2, P3. rewrite <- E in P1, P2, P3.
    assert (Nx : x <> []) by (rewrite Forall_forall in F; apply F; rewrite E; apply in_or_app; right; left; reflexivity).
    destruct x as [| e x']; [congruence |]. rewrite P1, P2, P3. cbn [filter]. unfold stays at 1. cbn [nth].
    assert (Lg : length gens = S (gen + length tl)) by (rewrite E, app_length; cbn [length]; lia).
    destruct (Bool.eqb (e =? 0) zero); cbn [negb].
    + destruct (replaced_last pre (e :: x') tl []) as (tl' & Et & Pt). rewrite <- E in Et. rewrite Et. pose proof (Permutation_length Pt) as LP.
      destruct (IH gen (pre ++ tl')) as (r & Er & Pr).
      * apply Forall_app. rewrite E in F. apply Forall_app in F. destruct F as [F1 F2]. split; [exact F1 |].
        inversion F2 as [| ? ? _ F3]; subst. rewrite Forall_forall in *. intros g Hin. apply F3. exact (Permutation_in g Pt Hin).
      * rewrite app_length. lia.
      * rewrite app_length. lia.
      * exists r. split; [exact Er |]. apply (Permutation_trans Pr). rewrite <- Lp, firstn_app, firstn_all, skipn_app, skipn_all, Nat.sub_diag. cbn [firstn skipn app]. rewrite app_nil_r.
        apply Permutation_app_head, filter_perm, Pt.
    + destruct (IH (S gen) gens F ltac:(lia) ltac:(lia)) as (r & Er & Pr). exists r. split; [exact Er |]. apply (Permutation_trans Pr). rewrite P3.
      rewrite E. change (pre ++ (e :: x') :: tl) with (pre ++ [e :: x'] ++ tl). rewrite app_assoc.
      replace (S gen) with (length (pre ++ [e :: x'])) by (rewrite app_length; cbn [length]; lia).
      rewrite firstn_app, firstn_all, Nat.sub_diag. cbn [firstn]. rewrite app_nil_r, <- app_assoc. apply Permutation_refl.
Qed.
Theorem removal_right gens : Forall (fun g => g <> []) gens ->
  exists r s, removeGeneratorsWithLeadingZero gens = Some r /\ Permutation r (filter (fun g => negb (nth 0 g 0 =? 0)) gens) /\
    removeGeneratorsWithoutLeadingZero gens = Some s /\ Permutation s (filter (fun g => nth 0 g 0 =? 0) gens).
Proof.
  intros F. destruct (remove_right true (length gens) 0 gens F ltac:(lia) ltac:(lia)) as (r & E & P).
  destruct (remove_right false (length gens) 0 gens F ltac:(lia) ltac:(lia)) as (s & E' & P'). exists r, s. cbn [firstn skipn app] in P, P'.
  split; [exact E |]. split; [| split; [exact E' |]].
  - rewrite (filter_ext _ (stays true)); [exact P |]. intros g. unfold stays. destruct (nth 0 g 0 =? 0); reflexivity.
  - rewrite (filter_ext _ (stays false)); [exact P' |]. intros g. unfold stays. destruct (nth 0 g 0 =? 0); reflexivity.
Qed.
(** The initial ideal *)
Theorem initial_right n gens : vectors n gens -> getInitialIdeal n gens = map (fun g => map Z.of_nat (initial_monomial g)) gens.
Proof.
  intros V. unfold getInitialIdeal. apply map_ext_in. intros g Hg. unfold vectors in V. rewrite Forall_forall in V. specialize (V g Hg). subst n. clear.
  unfold initial_monomial. rewrite map_map. unfold entry. rewrite <- (map_map (fun var => nth var g 0) (fun e => if 0 <? e then e else 0)).
  replace (map (fun var => nth var g 0) (seq 0 (length g))) with g.
  - apply map_ext. intros e. destruct (Z.ltb_spec 0 e); lia.
  - clear. induction g as [| e g IH]; [reflexivity |]. cbn [length seq map nth]. f_equal. rewrite <- seq_shift, map_map. exact IH.
Qed.
Theorem generator_right gens v : isGenerator gens v = true <-> In v gens.
Proof.
  unfold isGenerator. rewrite existsb_exists. split.
  - intros (g & Hg & H). destruct (list_eq_dec Z.eq_dec g v) as [<- | _]; [exact Hg | discriminate].
  - intros H. exists v. split; [exact H |]. destruct (list_eq_dec Z.eq_dec v v); congruence.
Qed.
