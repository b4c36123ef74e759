(** The index and the degree of a body, and the numbers of bodies of each type. *)
From Coq Require Import List Arith Bool ZArith QArith Qcanon Lia Sorted.
Import ListNotations.
From Verif Require Import M_Api M_IO M_Matrix M_SatBinom M_Mlfb M_Planes M_Index Spec_Matrix Spec_SatBinom Spec_Mlfb P_Matrix P_Matrix4 P_Matrix5 P_Matrix3 P_Matrix7 P_Matrix8 P_Matrix9 P_SatBinom P_Mlfb3.
Local Open Scope nat_scope.
Local Notation length := List.length.
Local Notation "0q" := (0%Qc). Local Notation "1q" := (1%Qc).

(** ** Rows that are independent *)
Lemma independent_ext k u w n : (forall i c, i < k -> c < n -> u i c = w i c) -> independent k u n -> independent k w n.
Proof. intros E Ind x X. apply Ind. intros c C. rewrite <- (X c C). apply sum_ext. intros i Hi. rewrite E; auto. Qed.
Lemma det_independent m n : rowCount m = n -> colCount m = n -> determinant m <> 0q <-> independent n (fun r c => get m r c) n.
Proof.
  intros R C. destruct (Nat.eq_dec n 0) as [Z|Z].
  - split; [intros _ x _ i Hi; lia|]. intros _. rewrite (determinant_ok m 0) by congruence. cbn [det]. discriminate.
  - rewrite <- (p_det_inverse m n R C ltac:(lia)). split.
    + intros (b & E). destruct (inverse_ok m n R C ltac:(lia)) as [(b' & E' & _ & _ & _ & A & _)|(E' & _)]; [|congruence]. assert (b' = b) by congruence. subst b'.
      intros x X i Hi. transitivity (sum n (fun j => (x j * (if j =? i then 1q else 0q))%Qc)).
      * rewrite (sum_delta n i); auto; [rewrite Nat.eqb_refl; ring|]. intros j Hj Ne. apply Nat.eqb_neq in Ne. rewrite Ne. ring.
      * transitivity (sum n (fun c => (sum n (fun j => x j * get m j c) * get b c i)%Qc)).
        -- transitivity (sum n (fun j => sum n (fun c => (x j * get m j c * get b c i)%Qc))).
           ++ apply sum_ext. intros j Hj. rewrite <- (A j i Hj Hi), sum_scale. apply sum_ext. intros. ring.
           ++ rewrite sum_swap. apply sum_ext. intros c Hc. rewrite sum_scale_r. reflexivity.
        -- apply sum_zero. intros c Hc. rewrite (X c Hc). ring.
    + intros Ind. destruct (inverse_ok m n R C ltac:(lia)) as [(b' & E' & _)|(E' & x & K & i & Hi & X)]; [eauto|]. exfalso. apply X.
      destruct (p_nullSpace m) as (b & k & _ & Rk & _ & D1 & D2 & _ & _ & Ker). destruct (p_rank m) as (k' & Rk' & Dim). assert (k' = k) by congruence. subst k'.
      assert (k = n). { symmetry. apply Dim. rewrite C. exists (fun r c => get m r c). split; auto. intros w. unfold in_row_space. rewrite R, C. reflexivity. }
      apply Ker in K. destruct K as (y & Y). rewrite (Y i) by congruence. replace (colCount b) with 0 by lia. reflexivity.
Qed.
(** ** Coordinates *)
Section Index.
Variables (mat : matrix) (n : nat) (gens : list (list Z)) (h : matrix).
Hypothesis Ind : independent (rowCount mat) (fun r c => get mat r c) n.
Hypothesis H2 : colCount h = rowCount mat.
Hypothesis H3 : forall k c, k < length gens -> c < n -> rational (nth k gens []) c = sum (rowCount mat) (fun i => (get h k i * get mat i c)%Qc).
Definition valid (p : neighbor) : Prop := match p with None => True | Some k => k < length gens end.
Lemma coordinates p c : valid p -> c < n -> rational (point_of n gens p) c = sum (rowCount mat) (fun i => (getH h p i * get mat i c)%Qc).
Proof.
  intros Hp Hc. destruct p as [k|]; cbn [point_of getH]; [apply H3; auto|]. unfold rational. rewrite nth_repeat. change (Q2Qc (inject_Z 0)) with 0q. symmetry. apply sum_zero. intros. ring.
Qed.
Lemma unique (x y : vector) : (forall c, c < n -> sum (rowCount mat) (fun i => (x i * get mat i c)%Qc) = sum (rowCount mat) (fun i => (y i * get mat i c)%Qc)) -> forall i, i < rowCount mat -> x i = y i.
Proof.
  intros E i Hi. assert (D : (x i - y i)%Qc = 0q).
  { apply (Ind (fun i => (x i - y i)%Qc)); auto. intros c Hc. transitivity (sum (rowCount mat) (fun i => (x i * get mat i c)%Qc) + (- (1)) * sum (rowCount mat) (fun i => (y i * get mat i c)%Qc))%Qc.
    - rewrite sum_scale, sum_add. apply sum_ext. intros. ring.
    - rewrite E by auto. ring. }
  transitivity (x i - y i + y i)%Qc; [ring|]. rewrite D. ring.
Qed.
Variable points : list neighbor.
Hypothesis Valid : forall k, In (Some k) points -> k < length gens.
Lemma valid_nth i : valid (nth i points None).
Proof. destruct (nth_in_or_default i points None) as [H|H]; [|rewrite H; exact I]. destruct (nth i points None) as [k|]; cbn; auto. Qed.
Theorem index_right : length points = S (rowCount mat) ->
  (forall A : nat -> vector, (forall r c, r < rowCount mat -> c < n -> rational (point_of n gens (nth (S r) points None)) c = sum (rowCount mat) (fun i => (A r i * get mat i c)%Qc)) ->
    body_index h points = det (rowCount mat) A) /\
  (body_index h points <> 0q <-> independent (rowCount mat) (fun r => rational (point_of n gens (nth (S r) points None))) n).
Proof.
  intros L. unfold body_index. rewrite L, H2. replace (S (rowCount mat) - 1) with (rowCount mat) by lia. rewrite Nat.eqb_refl. set (d := rowCount mat) in *.
  set (m := build d d (fun row var => getH h (nth (row + 1) points None) var)).
  assert (G : forall r i, r < d -> i < d -> get m r i = getH h (nth (S r) points None) i). { intros r i Hr Hi. unfold m. rewrite get_build by auto. rewrite Nat.add_1_r. reflexivity. }
  assert (Rm : rowCount m = d) by reflexivity. assert (Cm : colCount m = d) by reflexivity. clearbody m. split.
  - intros A HA. rewrite (determinant_ok m d) by auto. apply det_ext. intros r i Hr Hi. rewrite G by auto. apply unique; auto. intros c Hc. rewrite <- HA by auto. symmetry. apply coordinates; auto. apply valid_nth.
  - rewrite (det_independent m d Rm Cm). split.
    + intros Im x X. apply Im. apply (unique (fun i => sum d (fun r => (x r * get m r i)%Qc)) (fun _ => 0q)). intros c Hc. rewrite (sum_zero _ (fun i => (0 * get mat i c)%Qc)) by (intros; ring).
      rewrite <- (X c Hc). transitivity (sum d (fun r => sum d (fun i => (x r * (get m r i * get mat i c))%Qc))).
      * rewrite sum_swap. apply sum_ext. intros i Hi. rewrite sum_scale_r. apply sum_ext. intros. ring.
      * apply sum_ext. intros r Hr. rewrite (coordinates _ c (valid_nth (S r)) Hc), sum_scale. apply sum_ext. intros i Hi. rewrite G by auto. reflexivity.
    + intros Ip x X. apply Ip. intros c Hc. transitivity (sum d (fun r => sum d (fun i => (x r * (get m r i * get mat i c))%Qc))).
      * apply sum_ext. intros r Hr. rewrite (coordinates _ c (valid_nth (S r)) Hc), sum_scale. apply sum_ext. intros i Hi. rewrite G by auto. reflexivity.
      * rewrite sum_swap. apply sum_zero. intros i Hi. transitivity (sum d (fun r => (x r * get m r i)%Qc) * get mat i c)%Qc; [rewrite sum_scale_r; apply sum_ext; intros; ring|]. rewrite (X i Hi). ring.
Qed.
Theorem parallelogram_right : body_isParallelogram h points = true <-> length points = 4 /\ exists a o b, (forall i, In i [a; o; b] <-> In i [1; 2; 3]) /\
  forall c, c < n -> (coordinate (point_of n gens (nth 0 points None)) c + coordinate (point_of n gens (nth o points None)) c =
                      coordinate (point_of n gens (nth a points None)) c + coordinate (point_of n gens (nth b points None)) c)%Z.
Proof.
  unfold body_isParallelogram. destruct (Nat.eqb_spec (length points) 4) as [L|L]; [|split; [discriminate|intros [X _]; contradiction]]. rewrite isParallelogram_ok. rewrite H2. set (d := rowCount mat) in *.
  set (m := build 4 d (fun point var => getH h (nth point points None) var)).
  assert (G : forall r i, r < 4 -> i < d -> get m r i = getH h (nth r points None) i) by (intros; unfold m; rewrite get_build; auto).
  assert (Rm : rowCount m = 4) by reflexivity. assert (Cm : colCount m = d) by reflexivity. clearbody m.
  assert (S4 : forall a o b, (forall i, In i [a; o; b] <-> In i [1; 2; 3]) -> a < 4 /\ o < 4 /\ b < 4).
  { intros a o b P. pose proof (proj1 (P a) ltac:(simpl; auto)) as Pa. pose proof (proj1 (P o) ltac:(simpl; auto)) as Po. pose proof (proj1 (P b) ltac:(simpl; auto)) as Pb. simpl in Pa, Po, Pb. lia. }
  assert (Eq : forall a o b, a < 4 -> o < 4 -> b < 4 ->
    (forall c, c < d -> (get m 0 c + get m o c)%Qc = (get m a c + get m b c)%Qc) <->
    (forall c, c < n -> (coordinate (point_of n gens (nth 0 points None)) c + coordinate (point_of n gens (nth o points None)) c =
                      coordinate (point_of n gens (nth a points None)) c + coordinate (point_of n gens (nth b points None)) c)%Z)).
  { intros a o b Ha Ho Hb.
    assert (Two : forall i j c, i < 4 -> j < 4 -> c < n -> Q2Qc (inject_Z (coordinate (point_of n gens (nth i points None)) c + coordinate (point_of n gens (nth j points None)) c)) = sum d (fun k => ((get m i k + get m j k) * get mat k c)%Qc)).
    { intros i j c Hi Hj Hc. rewrite <- rational_add. change (rational (point_of n gens (nth i points None)) c + rational (point_of n gens (nth j points None)) c = sum d (fun k => ((get m i k + get m j k) * get mat k c)%Qc))%Qc.
      rewrite (coordinates _ c (valid_nth i) Hc), (coordinates _ c (valid_nth j) Hc), sum_add. apply sum_ext. intros k Hk. rewrite !G by auto. ring. }
    split.
    - intros E c Hc. apply rational_inj. rewrite !Two by (auto; lia). apply sum_ext. intros k Hk. rewrite (E k Hk). reflexivity.
    - intros E. apply (unique (fun k => (get m 0 k + get m o k)%Qc) (fun k => (get m a k + get m b k)%Qc)). intros c Hc. change (rowCount mat) with d. cbv beta. rewrite <- (Two 0 o c), <- (Two a b c) by (auto; lia). rewrite (E c Hc). reflexivity. }
  split.
  - intros (a & o & b & _ & P & E). split; auto. exists a, o, b. split; auto. destruct (S4 a o b P) as (Ha & Ho & Hb). apply Eq; auto. rewrite Cm in E. exact E.
  - intros (_ & a & o & b & P & E). exists a, o, b. split; auto. split; auto. destruct (S4 a o b P) as (Ha & Ho & Hb). rewrite Cm. apply Eq; auto.
Qed.
End Index.
(** ** The degree *)
Lemma truncated_integer z : truncated (Q2Qc (inject_Z z)) = z.
Proof. unfold truncated. destruct (integer_num z) as [A B]. rewrite A, B. apply Z.quot_1_r. Qed.
Lemma integral_of q : integral q -> q = Q2Qc (inject_Z (Qnum q)).
Proof. intros H. apply Qc_is_canon. cbn [this Q2Qc]. rewrite Qred_correct. destruct q as [[a b] C]. unfold integral in H. cbn in *. subst b. reflexivity. Qed.
Lemma rational_mul a b : (Q2Qc (inject_Z a) * Q2Qc (inject_Z b))%Qc = Q2Qc (inject_Z (a * b)).
Proof. apply Qc_is_canon. unfold Qcmult. cbn [this Q2Qc]. rewrite !Qred_correct. rewrite inject_Z_mult. reflexivity. Qed.
Lemma degree_fold (w : vector) rhs k : (forall c, c < k -> integral (w c)) ->
  Q2Qc (inject_Z (fold_left (fun d c => truncated (Q2Qc (inject_Z d) + w c * Q2Qc (inject_Z (entry rhs c)))%Qc) (seq 0 k) 0%Z)) = sum k (fun c => (w c * rational rhs c)%Qc).
Proof.
  induction k as [|k IH]; intros I; [reflexivity|]. rewrite seq_S, fold_left_app. cbn [plus fold_left sum]. rewrite <- IH by (intros; apply I; lia). set (d := fold_left _ _ _). clearbody d.
  unfold rational, entry. rewrite (integral_of (w k)) by (apply I; lia). rewrite rational_mul, rational_add, truncated_integer. reflexivity.
Qed.
Theorem degree_right mat n : colCount mat = n -> independent (rowCount mat) (fun r c => get mat r c) n -> n = S (rowCount mat) ->
  exists w : vector, primitive n w /\ in_kernel mat w /\ (forall v, in_kernel mat v -> exists q, forall c, c < n -> v c = (q * w c)%Qc) /\
    forall rhs, exists d, dotDegree mat n rhs = Ok d /\ Q2Qc (inject_Z d) = sum n (fun c => (w c * rational rhs c)%Qc).
Proof.
  intros C Ind E. destruct (p_nullSpace mat) as (b & k & Nb & Rk & _ & D1 & D2 & Pr & _ & Ker). destruct (p_rank mat) as (k' & Rk' & Dim). assert (k' = k) by congruence. subst k'. rewrite C in *.
  assert (k = rowCount mat). { symmetry. apply Dim. exists (fun r c => get mat r c). split; auto. intros w. unfold in_row_space. rewrite C. reflexivity. }
  assert (B1 : colCount b = 1) by lia. exists (fun c => get b c 0). pose proof (Pr 0 ltac:(lia)) as P0. split; [exact P0|]. split; [|split].
  - apply Ker. exists (fun _ => 1q). rewrite B1. intros c Hc. cbn [sum]. ring.
  - intros v Hv. apply Ker in Hv. destruct Hv as (x & X). exists (x 0). intros c Hc. rewrite (X c) by lia. rewrite B1. cbn [sum]. ring.
  - intros rhs. unfold dotDegree. rewrite Nb. cbv beta iota zeta delta [rbind]. destruct (p_transpose b) as (_ & T1 & T2 & T3). rewrite T1, T2, B1, D1, !Nat.eqb_refl. cbn [andb seq fold_left]. eexists. split; [reflexivity|].
    rewrite (degree_fold (fun c => get (transpose b) 0 c)); [|intros c Hc; rewrite T3 by lia; apply P0; auto]. apply sum_ext. intros c Hc. rewrite T3 by lia. reflexivity.
Qed.
(** ** Types *)
Lemma getTypeCount_increment t u counts : getTypeCount (increment u counts) t = getTypeCount counts t + (if t =? u then 1 else 0) \/ ~ StronglySorted lt (map fst counts).
Proof.
  unfold getTypeCount. induction counts as [|[v c] counts IH]; cbn [increment find fst].
  - left. rewrite Nat.eqb_sym. destruct (t =? u) eqn:E; reflexivity.
  - destruct (Nat.ltb_spec u v) as [L|L].
    + destruct (Nat.eqb_spec t u) as [->|N].
      * cbn [find fst]. rewrite Nat.eqb_refl. cbn [snd]. destruct (Nat.eqb_spec v u) as [|_]; [lia|]. destruct (find (fun p => fst p =? u) counts) as [p|] eqn:F; [|left; reflexivity].
        right. intros S. cbn [map] in S. inversion S as [|? ? _ A]; subst. apply find_some in F. destruct F as [F1 F2]. apply Nat.eqb_eq in F2. rewrite Forall_forall in A. specialize (A (fst p) (in_map fst _ _ F1)). cbn in A. lia.
      * left. cbn [find fst]. destruct (Nat.eqb_spec u t); [congruence|]. cbn [find fst]. lia.
    + destruct (Nat.eqb_spec u v) as [->|N].
      * left. cbn [find fst]. destruct (Nat.eqb_spec v t) as [->|M]; cbn [snd]; [rewrite Nat.eqb_refl; lia|]. destruct (Nat.eqb_spec t v); [congruence|]. lia.
      * cbn [find fst]. destruct (Nat.eqb_spec v t) as [->|M].
        -- left. destruct (Nat.eqb_spec t u); [congruence|]. lia.
        -- destruct IH as [IH|IH]; [left; exact IH|]. right. intros S. apply IH. cbn [map] in S. inversion S. auto.
Qed.
Lemma increment_keys u counts t : In t (map fst (increment u counts)) <-> t = u \/ In t (map fst counts).
Proof.
  induction counts as [|[v c] counts IH]; cbn [increment]; [simpl; intuition|]. destruct (u <? v); [simpl; intuition|]. destruct (Nat.eqb_spec u v) as [->|]; [simpl; intuition|].
  cbn [map In fst]. rewrite IH. tauto.
Qed.
Lemma increment_sorted u counts : StronglySorted lt (map fst counts) -> StronglySorted lt (map fst (increment u counts)).
Proof.
  induction counts as [|[v c] counts IH]; intros S; cbn [increment]; [repeat constructor|]. cbn [map fst] in S. inversion S as [|? ? S1 S2]; subst. destruct (Nat.ltb_spec u v) as [L|L].
  - cbn [map fst]. constructor; [constructor; auto|]. constructor; auto. eapply Forall_impl; [|exact S2]. cbn. intros; lia.
  - destruct (Nat.eqb_spec u v) as [->|N]; [cbn [map fst]; constructor; auto|]. cbn [map fst]. constructor; auto. rewrite Forall_forall in *. intros t Ht. apply increment_keys in Ht. destruct Ht as [->|Ht]; [lia|auto].
Qed.
Lemma type_loop places bodies : forall counts, StronglySorted lt (map fst counts) ->
  let r := fold_left (fun counts b => increment (getType places b) counts) bodies counts in
  StronglySorted lt (map fst r) /\ (forall t, getTypeCount r t = getTypeCount counts t + length (filter (fun b => getType places b =? t) bodies)) /\
  (forall t, In t (map fst r) <-> In t (map fst counts) \/ exists b, In b bodies /\ getType places b = t).
Proof.
  induction bodies as [|b bodies IH]; intros counts S; cbn [fold_left filter].
  - split; [auto|]. split; [intros; cbn; lia|]. intros t. split; auto. intros [|(b & [] & _)]; auto.
  - destruct (IH (increment (getType places b) counts) (increment_sorted _ _ S)) as (A & B & C). cbv zeta. split; [exact A|]. split.
    + intros t. rewrite B. destruct (getTypeCount_increment t (getType places b) counts) as [E|E]; [|contradiction]. rewrite E, (Nat.eqb_sym t). destruct (getType places b =? t); cbn [length]; lia.
    + intros t. rewrite C, increment_keys. split.
      * intros [[->|X]|(b' & X & Y)]; [right; exists b; simpl; auto|auto|right; exists b'; simpl; auto].
      * intros [X|(b' & [<-|X] & Y)]; [auto|auto|right; eauto].
Qed.
Lemma last_greatest l : StronglySorted lt l -> l <> [] -> In (last l 0) l /\ forall x, In x l -> x <= last l 0.
Proof.
  induction l as [|a l IH]; intros S N; [congruence|]. inversion S as [|? ? S1 S2]; subst. destruct l as [|b l]; [simpl; split; auto; intros x [<-|[]]; lia|].
  destruct (IH S1 ltac:(discriminate)) as [A B]. change (last (a :: b :: l) 0) with (last (b :: l) 0). split; [right; exact A|]. intros x [<-|X]; [|auto]. rewrite Forall_forall in S2. specialize (S2 _ A). lia.
Qed.
Lemma last_map (l : list (nat * nat)) : l <> [] -> fst (last l (0, 0)) = last (map fst l) 0.
Proof. induction l as [|a l IH]; intros N; [congruence|]. destruct l as [|b l]; [reflexivity|]. apply IH. discriminate. Qed.
Theorem types_right places bodies : let counts := typeCounts places bodies in
  (forall t, getTypeCount counts t = length (filter (fun b => getType places b =? t) bodies)) /\
  (bodies = [] -> getMaxType counts = 0) /\
  (bodies <> [] -> (exists b, In b bodies /\ getType places b = getMaxType counts) /\ forall b, In b bodies -> getType places b <= getMaxType counts) /\
  (hasFlat counts = true <-> exists b, In b bodies /\ isFlat places b = true).
Proof.
  destruct (type_loop places bodies [] (SSorted_nil _)) as (A & B & C). fold (typeCounts places bodies) in A, B, C. cbv zeta. set (counts := typeCounts places bodies) in *.
  assert (Cn : forall t, getTypeCount counts t = length (filter (fun b => getType places b =? t) bodies)) by (intros t; rewrite B; reflexivity).
  split; [exact Cn|]. split; [|split].
  - unfold counts. intros ->. reflexivity.
  - intros N. assert (Nc : counts <> []).
    { destruct bodies as [|b bodies']; [congruence|]. intros X. assert (Y : In (getType places b) (map fst counts)) by (apply C; right; exists b; simpl; auto). rewrite X in Y. destruct Y. }
    assert (M : getMaxType counts = last (map fst counts) 0). { rewrite <- last_map by auto. destruct counts; [congruence|reflexivity]. }
    destruct (last_greatest (map fst counts) A) as [G1 G2]; [destruct counts; [congruence|discriminate]|]. rewrite M. split.
    + apply C in G1. destruct G1 as [[]|G1]. exact G1.
    + intros b Hb. apply G2. apply C. right. eauto.
  - unfold hasFlat. rewrite Nat.ltb_lt, Cn. unfold isFlat. split.
    + intros L. destruct (filter (fun b => getType places b =? 4) bodies) as [|b l] eqn:F; [cbn in L; lia|]. exists b. apply (filter_In (fun b => getType places b =? 4)). rewrite F. simpl. auto.
    + intros (b & Hb & F). assert (X : In b (filter (fun b => getType places b =? 4) bodies)) by (apply filter_In; auto). destruct (filter _ _); [destruct X|cbn; lia].
Qed.
