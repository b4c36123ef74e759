(** What the functions on matrices do. *)
From Coq Require Import List Arith Bool ZArith QArith Qcanon Lia.
Import ListNotations.
From Verif Require Import M_IO M_Matrix Spec_Matrix P_Matrix P_Matrix2 P_Matrix3 P_Matrix4 P_Matrix5 P_Matrix6 P_Matrix7.
Local Open Scope nat_scope.
Local Notation "0q" := (0%Qc). Local Notation "1q" := (1%Qc).

(** ** Parallelograms *)
Definition others (m : matrix) (o c : nat) : Qc := fold_left (fun s row => if row =? o then s else (s + get m row c)%Qc) [1; 2; 3] 0q.
Lemma is_para_iff : forall m o, In o [1; 2; 3] ->
  is_para m o = true <-> forall c, c < colCount m -> (get m 0 c + get m o c)%Qc = others m o c.
Proof.
  intros m o Ho. unfold is_para. rewrite forallb_forall.
  assert (K : forall c, fold_left (fun tmp row => if negb (row =? o) then (tmp - get m row c)%Qc else tmp) (seq 1 3) (get m 0 c + get m o c)%Qc =
            (get m 0%nat c + get m o c - others m o c)%Qc).
  { intros c. cbn in Ho. destruct Ho as [<-|[<-|[<-|[]]]]; unfold others; cbn; ring. }
  split; intros H c Hc.
  - specialize (H c (proj2 (in_seq _ _ _) (conj (Nat.le_0_l _) Hc))). apply is_zero_iff in H. rewrite K in H.
    set (s := others m o c) in *. replace (get m 0 c + get m o c)%Qc with (get m 0%nat c + get m o c - s + s)%Qc by ring. rewrite H. ring.
  - apply in_seq in Hc. apply is_zero_iff. rewrite K, H by lia. ring.
Qed.
Lemma perm3 : forall a o b, (forall i, In i [a; o; b] <-> In i [1; 2; 3]) -> 
  (a = 1 /\ o = 2 /\ b = 3) \/ (a = 1 /\ o = 3 /\ b = 2) \/ (a = 2 /\ o = 1 /\ b = 3) \/ (a = 2 /\ o = 3 /\ b = 1) \/ (a = 3 /\ o = 1 /\ b = 2) \/ (a = 3 /\ o = 2 /\ b = 1).
Proof.
  intros a o b H. pose proof (proj1 (H a)) as A. pose proof (proj1 (H o)) as O. pose proof (proj1 (H b)) as B.
  pose proof (proj2 (H 1)) as X1. pose proof (proj2 (H 2)) as X2. pose proof (proj2 (H 3)) as X3. cbn in *.
  specialize (A ltac:(auto)). specialize (O ltac:(auto)). specialize (B ltac:(auto)). specialize (X1 ltac:(auto)). specialize (X2 ltac:(auto)). specialize (X3 ltac:(auto)).
  clear H. lia.
Qed.
Lemma corner_para : forall m a o b, corners m a o b -> is_para m o = true.
Proof.
  intros m a o b (R & P & E). apply (proj2 (is_para_iff m o (proj1 (P o) (or_intror (or_introl eq_refl))))). intros c Hc. rewrite (E c Hc). apply perm3 in P.
  unfold others. destruct P as [P|[P|[P|[P|[P|P]]]]]; destruct P as (-> & -> & ->); cbn; ring.
Qed.
Lemma para_corner : forall m o, rowCount m = 4 -> In o [1; 2; 3] -> is_para m o = true -> exists a b, corners m a o b /\ filter (fun row => negb (row =? o)) (seq 1 3) = [a; b].
Proof.
  intros m o R Ho P. pose proof (proj1 (is_para_iff m o Ho) P) as P'. clear P. rename P' into P. cbn in Ho. destruct Ho as [<-|[<-|[<-|[]]]].
  - exists 2, 3. split; [|reflexivity]. split; [auto|split; [intros i; cbn; lia|]]. intros c Hc. rewrite (P c Hc). unfold others. cbn. ring.
  - exists 1, 3. split; [|reflexivity]. split; [auto|split; [intros i; cbn; lia|]]. intros c Hc. rewrite (P c Hc). unfold others. cbn. ring.
  - exists 1, 2. split; [|reflexivity]. split; [auto|split; [intros i; cbn; lia|]]. intros c Hc. rewrite (P c Hc). unfold others. cbn. ring.
Qed.
Lemma isParallelogram_ok : forall m, isParallelogram m = true <-> exists a o b, corners m a o b.
Proof.
  intros m. unfold isParallelogram, getOppositeZeroRow. destruct (Nat.eqb_spec (rowCount m) 4) as [R|R]; cbn [negb].
  - destruct (find (is_para m) (seq 1 3)) as [o|] eqn:F.
    + apply find_some in F. destruct F as (I & P). split; [|intros _; apply in_seq in I; apply negb_true_iff, Nat.eqb_neq; lia].
      intros _. assert (Ho : In o [1; 2; 3]) by exact I. destruct (para_corner m o R Ho P) as (a & b & H & _). eauto.
    + rewrite Nat.eqb_refl. split; [discriminate|]. intros (a & o & b & H). pose proof (corner_para _ _ _ _ H) as P. destruct H as (_ & I & _).
      rewrite (find_none _ _ F o) in P; [discriminate|]. apply I. cbn. auto.
  - rewrite Nat.eqb_refl. split; [discriminate|]. intros (a & o & b & (H & _)). contradiction.
Qed.
Lemma dot_ext : forall n u v u' v', (forall i, i < n -> u i = u' i) -> (forall i, i < n -> v i = v' i) -> dot n u v = dot n u' v'.
Proof. intros n u v u' v' H H'. apply sum_ext. intros i Hi. rewrite H, H' by auto. reflexivity. Qed.
Lemma area_ext : forall n u v u' v', (forall i, i < n -> u i = u' i) -> (forall i, i < n -> v i = v' i) -> area_sq n u v = area_sq n u' v'.
Proof. intros n u v u' v' H H'. unfold area_sq. rewrite (dot_ext n u u u' u'), (dot_ext n v v v' v'), (dot_ext n u v u' v'); auto. Qed.
Lemma dot_comm : forall n u v, dot n u v = dot n v u.
Proof. intros. apply sum_ext. intros; ring. Qed.
Lemma area_comm : forall n u v, area_sq n u v = area_sq n v u.
Proof. intros. unfold area_sq. rewrite (dot_comm n v u). ring. Qed.
Lemma area_zero : forall n u v, (forall i, i < n -> v i = 0q) -> area_sq n u v = 0q.
Proof.
  intros n u v H. unfold area_sq, dot. rewrite (sum_zero n (fun i => (v i * v i)%Qc)), (sum_zero n (fun i => (u i * v i)%Qc)); [ring| |];
    intros i Hi; rewrite (H i Hi); ring.
Qed.
Lemma half : forall x y : Qc, (x + x)%Qc = (y + y)%Qc -> x = y.
Proof.
  intros x y H. replace x with ((x + x) / (1 + 1))%Qc by (field; discriminate). rewrite H. field. discriminate.
Qed.
Definition edge (m : matrix) (a : nat) : vector := fun c => (get m a c - get m 0%nat c)%Qc.
Lemma two_opposites : forall m a o b, corners m a o b -> is_para m a = true ->
  forall c, c < colCount m -> get m b c = get m 0 c /\ get m o c = get m a c.
Proof.
  intros m a o b (R & P & E) Q c Hc. assert (Ha : In a [1; 2; 3]) by (apply P; cbn; auto).
  pose proof (proj1 (is_para_iff m a Ha) Q c Hc) as Q'.
  assert (X : (get m 0 c + get m a c)%Qc = (get m o c + get m b c)%Qc).
  { rewrite Q'. apply perm3 in P. unfold others. destruct P as [P|[P|[P|[P|[P|P]]]]]; destruct P as (-> & -> & ->); cbn; ring. }
  specialize (E c Hc). assert (B : get m b c = get m 0 c).
  { apply half. replace (get m b c + get m b c)%Qc with ((get m a c + get m b c) + (get m o c + get m b c) - get m a c - get m o c)%Qc by ring. rewrite <- E, <- X. ring. }
  split; [exact B|]. replace (get m o c) with (get m o c + get m b c - get m b c)%Qc by ring. rewrite <- X, B. ring.
Qed.
Lemma corners_flip : forall m a o b, corners m a o b -> corners m b o a.
Proof.
  intros m a o b (R & P & E). split; [auto|split].
  - intros i. rewrite <- P. cbn. tauto.
  - intros c Hc. rewrite (E c Hc). ring.
Qed.
Lemma area_corners : forall m a o b a' o' b', corners m a o b -> corners m a' o' b' ->
  area_sq (colCount m) (edge m a) (edge m b) = area_sq (colCount m) (edge m a') (edge m b').
Proof.
  intros m a o b a' o' b' H H'. pose proof (corner_para _ _ _ _ H') as P'.
  assert (Z : forall a o b, corners m a o b -> is_para m a = true -> area_sq (colCount m) (edge m a) (edge m b) = 0q /\ area_sq (colCount m) (edge m o) (edge m b) = 0q).
  { intros a1 o1 b1 C P. pose proof (two_opposites m a1 o1 b1 C P) as T.
    split; apply area_zero; intros i Hi; unfold edge; destruct (T i Hi) as (-> & _); ring. }
  pose proof H as (_ & I & _). pose proof H' as (_ & I' & _). apply perm3 in I. apply perm3 in I'.
  assert (Cs : o' = o \/ o' = a \/ o' = b).
  { lia. }
  destruct Cs as [->|[->| ->]].
  - assert (Cs : (a' = a /\ b' = b) \/ (a' = b /\ b' = a)).
    { lia. }
    destruct Cs as [(-> & ->)|(-> & ->)]; [reflexivity|apply area_comm].
  - rewrite (proj1 (Z a o b H P')). assert (Cs : (a' = o /\ b' = b) \/ (a' = b /\ b' = o)).
    { lia. }
    destruct Cs as [(-> & ->)|(-> & ->)]; [|rewrite area_comm]; symmetry; apply (proj2 (Z a o b H P')).
  - pose proof (corners_flip _ _ _ _ H) as Hf. rewrite area_comm, (proj1 (Z b o a Hf P')).
    assert (Cs : (a' = o /\ b' = a) \/ (a' = a /\ b' = o)).
    { lia. }
    destruct Cs as [(-> & ->)|(-> & ->)]; [|rewrite area_comm]; symmetry; apply (proj2 (Z b o a Hf P')).
Qed.
Lemma getParallelogramAreaSq_ok : forall m a o b, corners m a o b ->
  getParallelogramAreaSq m = Ok (area_sq (colCount m) (edge m a) (edge m b)).
Proof.
  intros m a o b H. pose proof H as (R & I & _). unfold getParallelogramAreaSq, getOppositeZeroRow. rewrite R. cbn [Nat.eqb negb].
  destruct (find (is_para m) (seq 1 3)) as [o'|] eqn:F.
  - apply find_some in F. destruct F as (I' & P). destruct (para_corner m o' R I' P) as (a' & b' & H' & ->).
    f_equal. rewrite (determinant_ok _ 2) by reflexivity. rewrite det2, !dot_get by lia.
    rewrite (area_corners m a o b a' o' b' H H'). unfold area_sq. cbn [Nat.eqb]. rewrite (dot_comm _ (fun col => (get m b' col - get m 0 col)%Qc) (fun col => (get m a' col - get m 0 col)%Qc)). unfold edge. ring.
  - exfalso. pose proof (corner_para _ _ _ _ H) as P.
    rewrite (find_none _ _ F o) in P; [discriminate|]. apply I. cbn. auto.
Qed.

(** ** Everything else *)
Lemma p_product : forall a b, colCount a = rowCount b -> well_formed (product a b) /\ is_product (product a b) a b.
Proof.
  intros a b H. split; [apply well_build|]. split; [auto|split; [auto|split; [auto|]]]. intros r c Hr Hc. unfold product. rewrite get_build by auto. apply sum_fold.
Qed.
Lemma p_transpose : forall m, well_formed (transpose m) /\ rowCount (transpose m) = colCount m /\ colCount (transpose m) = rowCount m /\
  forall r c, r < rowCount m -> c < colCount m -> get (transpose m) c r = get m r c.
Proof. intros m. split; [apply well_build|]. split; [auto|split; [auto|]]. intros. unfold transpose. rewrite get_build; auto. Qed.
Lemma p_sub : forall m rb re cb ce, rb <= re -> re <= rowCount m -> cb <= ce -> ce <= colCount m ->
  let s := subMatrix m rb re cb ce in well_formed s /\ rowCount s = re - rb /\ colCount s = ce - cb /\
  forall r c, rb <= r -> r < re -> cb <= c -> c < ce -> get s (r - rb) (c - cb) = get m r c.
Proof.
  intros m rb re cb ce H1 H2 H3 H4 s. split; [apply well_build|]. split; [auto|split; [auto|]]. intros r c A B C D. unfold s, subMatrix.
  rewrite get_build by lia. replace (rb + (r - rb)) with r by lia. replace (cb + (c - cb)) with c by lia. reflexivity.
Qed.
Lemma p_resize : forall m R C, well_formed m -> let s := resize m R C in well_formed s /\ rowCount s = R /\ colCount s = C /\
  forall r c, r < R -> c < C -> get s r c = if (r <? rowCount m) && (c <? colCount m) then get m r c else 0q.
Proof.
  intros m R C W s. destruct (resize_dims m R C) as (A & B). split; [|split; [auto|split; [auto|]]].
  - unfold s, resize. destruct (_ && _); [auto|apply well_build].
  - intros. apply get_resize; auto.
Qed.
Lemma p_equal : forall a b, equal a b = true <-> same a b.
Proof.
  intros a b. unfold equal, same. destruct (Nat.eqb_spec (rowCount a) (rowCount b)) as [R|R]; cbn [negb orb]; [|split; [discriminate|tauto]].
  destruct (Nat.eqb_spec (colCount a) (colCount b)) as [C|C]; cbn [negb]; [|split; [discriminate|tauto]].
  rewrite forallb_forall. split.
  - intros H. split; [auto|split; [auto|]]. intros r c Hr Hc. specialize (H r (proj2 (in_seq _ _ _) (conj (Nat.le_0_l _) Hr))).
    rewrite forallb_forall in H. specialize (H c (proj2 (in_seq _ _ _) (conj (Nat.le_0_l _) Hc))). apply Qc_eq_bool_correct. auto.
  - intros (_ & _ & H) r Hr. apply forallb_forall. intros c Hc. apply in_seq in Hr. apply in_seq in Hc. rewrite H by lia.
    unfold Qc_eq_bool. destruct (Qc_eq_dec _ _); auto.
Qed.
Lemma ops_well : forall m b m', ops m b m' -> well_formed m -> well_formed m'.
Proof. induction 1; intros W; auto; apply well_build. Qed.
Lemma p_rowReduce : forall m, well_formed m -> let m' := fst (rowReduce m) in
  well_formed m' /\ rowCount m' = rowCount m /\ colCount m' = colCount m /\ (forall w, in_row_space m' w <-> in_row_space m w) /\ exists k p, echelon m' k p.
Proof.
  intros m W m'. destruct (rowReduce_ok m) as (k & p & O & E). destruct (ops_dims _ _ _ O) as (R & C).
  split; [apply (ops_well _ _ _ O W)|]. split; [auto|split; [auto|split; [|eauto]]].
  intros w. destruct (ops_equiv _ _ _ O) as (_ & _ & X). symmetry. apply X.
Qed.
Lemma clear_well : forall co l pr pc m, well_formed m -> well_formed (clear co l pr pc m).
Proof.
  intros co l pr pc. induction l as [|a l IH]; intros m W; [auto|]. cbn [clear fold_left]. destruct (_ && _); [|apply IH; auto].
  apply IH. apply well_build.
Qed.
Lemma full_well : forall fuel m pr pc m', fully_loop fuel m pr pc = Ok m' -> well_formed m -> well_formed m'.
Proof.
  induction fuel; intros m pr pc m' H W; cbn [fully_loop] in H; destruct (_ && _); try discriminate; try (injection H as <-; auto).
  destruct (is_zero _); [eapply IHfuel; eauto|]. eapply IHfuel; [exact H|]. rewrite clear_above_is. apply clear_well. apply well_build.
Qed.
Lemma p_rowReduceFully : forall m, well_formed m -> exists m', rowReduceFully m = Ok m' /\
  well_formed m' /\ rowCount m' = rowCount m /\ colCount m' = colCount m /\ (forall w, in_row_space m' w <-> in_row_space m w) /\ exists k p, reduced m' k p.
Proof.
  intros m W. destruct (rowReduceFully_ok m) as (m' & k & p & E & (R & C & X) & Rd). exists m'. split; [auto|].
  split; [|split; [auto|split; [auto|split; [intros w; symmetry; apply X|eauto]]]].
  unfold rowReduceFully in E. destruct (p_rowReduce m W) as (W' & _). destruct (rowReduce m) as (m1, odd). apply (full_well _ _ _ _ _ E). exact W'.
Qed.
(** The reduced form is unique *)
Lemma pivots_same : forall a b k p l q, reduced a k p -> reduced b l q -> colCount a = colCount b -> (forall w, in_row_space a w <-> in_row_space b w) ->
  forall i, i < k -> exists j, j < l /\ q j = p i.
Proof.
  intros a b k p l q Ra Rb C X i Hi. pose proof Ra as ((Hk & E1 & E2 & E3) & N). pose proof Rb as ((Hl & F1 & F2 & F3) & M).
  destruct (E1 i Hi) as (Pc & Pn & Pl).
  assert (I : in_row_space b (get a i)) by (apply X; apply row_in; lia). destruct I as (x & I).
  (* coefficients are the entries at the pivots of b *)
  assert (Xc : forall j, j < l -> x j = get a i (q j)).
  { intros j Hj. rewrite (I (q j) (proj1 (F1 j Hj))). rewrite (sum_delta _ j); [|lia|].
    - rewrite (M j j Hj Hj), Nat.eqb_refl. ring.
    - intros j' Hj' NE. destruct (Nat.lt_ge_cases j' l) as [L|L]; [rewrite (M j j' Hj L)|rewrite F3 by (try lia; apply F1; auto); ring].
      apply Nat.eqb_neq in NE. rewrite NE. ring. }
  destruct (pivot_dec l q (p i)) as [(j & Hj & e)|NP]; [eauto|]. exfalso.
  apply Pn. rewrite (I (p i)) by lia. apply sum_zero. intros j Hj. destruct (Nat.lt_ge_cases j l) as [L|L].
  - rewrite (Xc j L). destruct (Nat.lt_ge_cases (q j) (p i)) as [L'|L']; [rewrite (Pl _ L'); ring|].
    destruct (F1 j L) as (_ & _ & Ql). rewrite (Ql (p i)); [ring|]. pose proof (NP j L). lia.
  - rewrite F3 by lia. ring.
Qed.
Lemma increasing_same : forall k p l q, (forall i j, i < j -> j < k -> p i < p j) -> (forall i j, i < j -> j < l -> q i < q j) ->
  (forall i, i < k -> exists j, j < l /\ q j = p i) -> (forall i, i < l -> exists j, j < k /\ p j = q i) ->
  k = l /\ forall i, i < k -> p i = q i.
Proof.
  intros k p l q P Q A B.
  assert (H : forall i, (i < k -> i < l /\ p i = q i) /\ (i < l -> i < k /\ p i = q i)).
  { induction i as [i IH] using lt_wf_ind. split; intros Hi.
    - destruct (A i Hi) as (j & Hj & e). destruct (Nat.lt_trichotomy j i) as [L|[->|L]].
      + destruct (proj2 (IH j L) Hj) as (Hk & e'). pose proof (P j i L Hi). lia.
      + split; [auto|congruence].
      + destruct (B i ltac:(lia)) as (j' & Hj' & e'). pose proof (Q i j L Hj).
        destruct (Nat.lt_trichotomy j' i) as [L'|[->|L']]; [|lia|pose proof (P i j' L' Hj'); lia].
        destruct (proj1 (IH j' L') Hj') as (Hl & e''). pose proof (Q j' i L' ltac:(lia)). lia.
    - destruct (B i Hi) as (j & Hj & e). destruct (Nat.lt_trichotomy j i) as [L|[->|L]].
      + destruct (proj1 (IH j L) Hj) as (Hk & e'). pose proof (Q j i L Hi). lia.
      + split; auto.
      + destruct (A i ltac:(lia)) as (j' & Hj' & e'). pose proof (P i j L Hj).
        destruct (Nat.lt_trichotomy j' i) as [L'|[->|L']]; [|lia|pose proof (Q i j' L' Hj'); lia].
        destruct (proj2 (IH j' L') Hj') as (Hl & e''). pose proof (P j' i L' ltac:(lia)). lia. }
  assert (k = l). { destruct (Nat.lt_trichotomy k l) as [L|[L|L]]; auto; [destruct (proj2 (H k) L)|destruct (proj1 (H l) L)]; lia. }
  split; [auto|]. intros i Hi. exact (proj2 (proj1 (H i) Hi)).
Qed.
Lemma reduced_unique : forall a b k p l q, reduced a k p -> reduced b l q -> rowCount a = rowCount b -> colCount a = colCount b ->
  (forall w, in_row_space a w <-> in_row_space b w) -> same a b.
Proof.
  intros a b k p l q Ra Rb R C X. destruct (increasing_same k p l q) as (<- & Pq).
  { apply (proj1 Ra). } { apply (proj1 Rb). } { apply (pivots_same a b k p l q Ra Rb C X). }
  { apply (pivots_same b a l q k p Rb Ra (eq_sym C) (fun w => iff_sym (X w))). }
  split; [auto|split; [auto|]]. intros r c Hr Hc. pose proof Ra as ((Hk & E1 & E2 & E3) & N). pose proof Rb as ((Hl & F1 & F2 & F3) & M).
  destruct (Nat.lt_ge_cases r k) as [L|L]; [|rewrite E3, F3 by lia; reflexivity].
  assert (I : in_row_space b (get a r)) by (apply X; apply row_in; auto). destruct I as (x & I).
  rewrite (I c) by lia. rewrite (sum_delta _ r); [|lia|].
  - replace (x r) with 1q; [ring|]. assert (Y : get a r (p r) = x r).
    { rewrite (I (p r)) by (rewrite <- C; apply E1; auto). rewrite (sum_delta _ r); [|lia|].
      - rewrite (Pq r L), (M r r L L), Nat.eqb_refl. ring.
      - intros j Hj NE. rewrite (Pq r L). destruct (Nat.lt_ge_cases j k) as [Lj|Lj]; [rewrite (M r j L Lj)|rewrite F3 by (try lia; apply F1; auto); ring].
        apply Nat.eqb_neq in NE. rewrite NE. ring. }
    rewrite <- Y, (N r r L L), Nat.eqb_refl. reflexivity.
  - intros j Hj NE. destruct (Nat.lt_ge_cases j k) as [Lj|Lj]; [|rewrite F3 by lia; ring].
    replace (x j) with 0q; [ring|]. assert (Y : get a r (p j) = x j).
    { rewrite (I (p j)) by (rewrite <- C; apply E1; auto). rewrite (sum_delta _ j); [|lia|].
      - rewrite (Pq j Lj), (M j j Lj Lj), Nat.eqb_refl. ring.
      - intros j' Hj' NE'. rewrite (Pq j Lj). destruct (Nat.lt_ge_cases j' k) as [Lj'|Lj']; [rewrite (M j j' Lj Lj')|rewrite F3 by (try lia; apply F1; auto); ring].
        apply Nat.eqb_neq in NE'. rewrite NE'. ring. }
    rewrite <- Y, (N j r Lj L). replace (r =? j) with false by (symmetry; apply Nat.eqb_neq; auto). reflexivity.
Qed.

Lemma p_solve : forall a b, rowCount a = rowCount b ->
  (exists s, solve a b = Ok (Some s) /\ well_formed s /\ is_product b a s) \/ (solve a b = Ok None /\ forall s, ~ is_product b a s).
Proof.
  intros a b R. destruct (solve_ok a b) as [(s & E & W & Rs & Cs & H)|(E & r & Hr & H)].
  - left. exists s. split; [auto|split; [auto|]]. split; [auto|split; [auto|split; [auto|]]]. intros i c Hi Hc. rewrite Cs in Hc. symmetry. apply (H c Hc i Hi).
  - right. split; [auto|]. intros s (A & B & C & P). apply (H (fun c => get s c r)). intros i Hi. symmetry. apply P; auto. congruence.
Qed.
Lemma p_inverse : forall a n, rowCount a = n -> colCount a = n -> 0 < n ->
  (exists b, inverse a = Ok (Some b) /\ well_formed b /\ inverses n a b) \/
  (inverse a = Ok None /\ (forall b, ~ inverses n a b)).
Proof.
  intros a n R C Hn. destruct (inverse_ok a n R C Hn) as [(b & E & W & Rb & Cb & A & B)|(E & x & K & i & Hi & X)].
  - left. exists b. split; [auto|split; [auto|]]. split.
    + exists (product a b). split; [apply p_product; congruence|]. split; [auto|split; [auto|]]. intros r c Hr Hc.
      destruct (p_product a b ltac:(congruence)) as (_ & _ & _ & _ & P). rewrite P by lia. rewrite C. apply A; auto.
    + exists (product b a). split; [apply p_product; congruence|]. split; [auto|split; [auto|]]. intros r c Hr Hc.
      destruct (p_product b a ltac:(congruence)) as (_ & _ & _ & _ & P). rewrite P by lia. rewrite Cb. apply B; auto.
  - right. split; [auto|]. intros b (_ & q & (Q1 & Q2 & Q3 & Q4) & (I1 & I2 & I3)). apply X.
    transitivity (sum n (fun c => (get q i c * x c)%Qc)).
    + rewrite (sum_delta n i); auto; [rewrite I3, Nat.eqb_refl by auto; ring|]. intros j Hj NE. rewrite I3 by auto.
      replace (i =? j) with false by (symmetry; apply Nat.eqb_neq; auto). ring.
    + rewrite (sum_ext n _ (fun c => sum n (fun t => (get b i t * (get a t c * x c))%Qc))).
      * rewrite sum_swap. apply sum_zero. intros t Ht. rewrite <- sum_scale. rewrite <- C at 1. rewrite (K t) by lia. ring.
      * intros c Hc. rewrite Q4 by lia. rewrite sum_scale_r. replace (colCount b) with n by lia. apply sum_ext. intros; ring.
Qed.
Lemma p_rank : forall m, exists k, matrixRank m = Ok k /\ forall l, dimension (colCount m) (in_row_space m) l <-> l = k.
Proof.
  intros m. destruct (matrixRank_ok m) as (k & E & D). exists k. split; [auto|]. intros l. split; [|intros ->; auto]. intros D'. apply (dimension_unique _ _ _ _ D' D).
Qed.
Lemma p_nullSpace : forall m, exists b k, nullSpace m = Ok b /\ matrixRank m = Ok k /\ well_formed b /\
  rowCount b = colCount m /\ colCount b = colCount m - k /\
  (forall j, j < colCount b -> primitive (colCount m) (fun c => get b c j)) /\
  independent (colCount b) (fun j c => get b c j) (colCount m) /\
  (forall w, in_kernel m w <-> in_col_space b w).
Proof.
  intros m. destruct (nullSpace_ok m) as (b & k & A & B & C & D & E & F). exists b, k. split; [auto|split; [auto|split; [auto|split; [auto|split; [lia|auto]]]]].
Qed.
Lemma solve_span : forall a b, rowCount a = rowCount b ->
  (exists s, solve a b = Ok (Some s)) /\ (forall w, in_col_space b w -> in_col_space a w) \/ solve a b = Ok None /\ ~ (forall w, in_col_space b w -> in_col_space a w).
Proof.
  intros a b R. destruct (solve_ok a b) as [(s & E & W & Rs & Cs & H)|(E & r & Hr & H)].
  - left. split; [eauto|]. unfold in_col_space. rewrite <- R. apply span_incl. intros c Hc. exists (fun i => get s i c). intros i Hi.
    rewrite <- (H c Hc i Hi). apply sum_ext. intros; ring.
  - right. split; [auto|]. intros I. destruct (I (fun i => get b i r)) as (x & X).
    + apply (span_row (colCount b) (fun c r => get b r c) (rowCount b) r Hr).
    + apply (H x). intros i Hi. rewrite (X i Hi). apply sum_ext. intros; ring.
Qed.
Lemma p_sameCol : forall a b, exists r, hasSameColSpace a b = Ok r /\
  (r = true <-> rowCount a = rowCount b /\ forall w, in_col_space a w <-> in_col_space b w).
Proof.
  intros a b. unfold hasSameColSpace. destruct (Nat.eqb_spec (rowCount a) (rowCount b)) as [R|R]; cbn [negb].
  2: { exists false. split; [auto|]. split; [discriminate|tauto]. }
  destruct (solve_span a b R) as [((s & ->) & I)|(-> & I)]; cbn [rbind].
  2: { exists false. split; [auto|]. split; [discriminate|]. intros (_ & H). exfalso. apply I. intros w. apply H. }
  destruct (solve_span b a (eq_sym R)) as [((s' & ->) & J)|(-> & J)]; cbn [rbind].
  - exists true. split; [auto|]. split; [|auto]. intros _. split; [auto|]. intros w. split; auto.
  - exists false. split; [auto|]. split; [discriminate|]. intros (_ & H). exfalso. apply J. intros w. apply H.
Qed.
Lemma transpose_space : forall m w, in_col_space (transpose m) w <-> in_row_space m w.
Proof.
  intros m w. unfold in_col_space, in_row_space, in_span. cbn [rowCount colCount build transpose].
  assert (S : forall x c, c < colCount m -> sum (rowCount m) (fun i => (x i * get (transpose m) c i)%Qc) = sum (rowCount m) (fun i => (x i * get m i c)%Qc)).
  { intros x c Hc. apply sum_ext. intros i Hi. unfold transpose. rewrite get_build by auto. reflexivity. }
  split; intros (x & X); exists x; intros c Hc; rewrite (X c Hc); [|symmetry]; apply S; auto.
Qed.
Lemma p_sameRow : forall a b, exists r, hasSameRowSpace a b = Ok r /\
  (r = true <-> colCount a = colCount b /\ forall w, in_row_space a w <-> in_row_space b w).
Proof.
  intros a b. unfold hasSameRowSpace. destruct (p_sameCol (transpose a) (transpose b)) as (r & E & H). exists r. split; [auto|]. rewrite H.
  cbn [rowCount build transpose]. split; intros (C & X); (split; [auto|]); intros w; specialize (X w); rewrite !transpose_space in *; auto.
Qed.
