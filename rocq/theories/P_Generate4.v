(** Proofs about matching ideals. *)
From Coq Require Import String Ascii.
From Coq Require Import List Arith Bool ZArith Lia Permutation.
Import ListNotations.
From Verif Require Import M_Term M_Ideal M_Names M_IO M_Generate P_Term P_Ideal P_Msm3 P_Generate P_Generate3.
From Verif Require Import Spec Spec_Api Spec_Generate.
Local Open Scope list_scope.
Local Open Scope nat_scope.
Local Notation length := List.length.

(** ** Edges *)
Definition tri (a : nat) : nat := a * (a - 1) / 2.
Lemma tri_S a : tri (S a) = tri a + a.
Proof.
  unfold tri. replace (S a * (S a - 1)) with (a * (a - 1) + a * 2) by nia. now rewrite Nat.div_add.
Qed.
Lemma tri_le a b : a <= b -> tri a <= tri b.
Proof. induction 1; auto. rewrite tri_S. lia. Qed.
Lemma edge_bound a b : b < a -> tri a <= edge a b < tri (S a). Proof. intros H. unfold edge. rewrite tri_S. fold (tri a). lia. Qed.
Lemma edge_lt n a b : b < a -> a < n -> edge a b < tri n.
Proof. intros H1 H2. pose proof (edge_bound a b H1). pose proof (tri_le (S a) n ltac:(lia)). lia. Qed.
Lemma edge_inj a b c d : b < a -> d < c -> edge a b = edge c d -> a = c /\ b = d.
Proof.
  intros H1 H2 E. assert (a = c).
  { pose proof (edge_bound a b H1). pose proof (edge_bound c d H2). destruct (Nat.lt_trichotomy a c) as [L|[L|L]]; auto; [pose proof (tri_le (S a) c ltac:(lia))|pose proof (tri_le (S c) a ltac:(lia))]; lia. }
  subst. unfold edge in E. lia.
Qed.
Lemma edge_surj n v : v < tri n -> exists a b, b < a /\ a < n /\ v = edge a b.
Proof.
  induction n as [|n IH]; [cbn; lia|]. rewrite tri_S. intros H. destruct (Nat.lt_ge_cases v (tri n)) as [L|L].
  - destruct (IH L) as (a & b & A & B & C). exists a, b. repeat split; auto.
  - exists n, (v - tri n). unfold edge. fold (tri n). lia.
Qed.
Lemma edgeToVar_lt a b : a < b -> edgeToVar a b = edge b a.
Proof. intros H. unfold edgeToVar. destruct (Nat.ltb_spec a b); [reflexivity|lia]. Qed.

Lemma find_seq_spec (f : nat -> bool) : forall k s, match find f (seq s k) with
  | Some v => s <= v < s + k /\ f v = true /\ forall x, s <= x < v -> f x = false
  | None => forall x, s <= x < s + k -> f x = false
  end.
Proof.
  induction k as [|k IH]; intros s; cbn; [intros; lia|]. destruct (f s) eqn:E; [repeat split; auto; try lia|].
  specialize (IH (S s)). destruct (find f (seq (S s) k)) as [v|].
  - destruct IH as (A & B & C). repeat split; auto; try lia. intros x Hx. destruct (Nat.eq_dec x s) as [->|]; auto. apply C. lia.
  - intros x Hx. destruct (Nat.eq_dec x s) as [->|]; auto. apply IH. lia.
Qed.
Lemma flat_skip {B} (f : nat -> list B) : forall k s b, s <= b <= s + k -> (forall x, s <= x < b -> f x = []) -> flat_map f (seq s k) = flat_map f (seq b (s + k - b)).
Proof.
  induction k as [|k IH]; intros s b H E; [replace (s + 0 - b) with 0 by lia; reflexivity|]. destruct (Nat.eq_dec s b) as [->|N]; [f_equal; f_equal; lia|].
  cbn [seq flat_map]. rewrite (E s) by lia. cbn [app]. rewrite (IH (S s) b) by (try intros; try apply E; lia). f_equal. f_equal. lia.
Qed.

Section Matching.
  Variables n u : nat.
  Definition nodes (M : list (nat * nat)) : list nat := flat_map (fun p => [fst p; snd p]) M.
  Definition isfree (M : list (nat * nat)) (v : nat) : bool := negb (v =? u) && if in_dec Nat.eq_dec v (nodes M) then false else true.
  Fixpoint mate (M : list (nat * nat)) (v : nat) : option nat :=
    match M with
    | [] => if v =? u then Some v else None
    | (a, b) :: M' => if v =? b then Some a else if v =? a then Some b else mate M' v
    end.
  Definition anchor (M : list (nat * nat)) (v : nat) : bool := existsb (fun p => v =? fst p) M.
  Definition has (M : list (nat * nat)) (e : nat) : nat := if existsb (fun p => e =? edge (snd p) (fst p)) M then 1 else 0.
  Definition mm (M : list (nat * nat)) : mono := map (has M) (seq 0 (tri n)).
  Definition st (M : list (nat * nat)) : matching_state := MS (map (mate M) (seq 0 n)) (map (anchor M) (seq 0 n)) (mm M).
  Definition first_free (M : list (nat * nat)) (s : nat) : nat := match find (isfree M) (seq s (n - s)) with Some v => v | None => n end.
  Fixpoint ok (M : list (nat * nat)) : Prop :=
    match M with
    | [] => True
    | (a, b) :: M' => a < b /\ b < n /\ isfree M' a = true /\ isfree M' b = true /\ (forall p, In p M' -> fst p < a) /\ ok M'
    end.
  Lemma free_iff M v : isfree M v = true <-> v <> u /\ ~ In v (nodes M).
  Proof. unfold isfree. rewrite andb_true_iff, negb_true_iff, Nat.eqb_neq. destruct (in_dec Nat.eq_dec v (nodes M)); intuition congruence. Qed.
  Lemma free_cons a b M v : isfree ((a, b) :: M) v = true <-> isfree M v = true /\ v <> a /\ v <> b.
  Proof. rewrite !free_iff. cbn. intuition. Qed.
  Lemma mate_taken M v : mate M v = None <-> isfree M v = true.
  Proof.
    induction M as [|[a b] M IH]; cbn [mate].
    - rewrite free_iff. cbn. destruct (Nat.eqb_spec v u); intuition congruence.
    - rewrite free_cons. destruct (Nat.eqb_spec v b); [intuition congruence|]. destruct (Nat.eqb_spec v a); [intuition congruence|]. rewrite IH. intuition.
  Qed.
  Lemma taken_st M v : v < n -> isTaken (st M) v = negb (isfree M v).
  Proof.
    intros H. unfold isTaken, st. cbn [ms_nodes]. rewrite map_seq_nth by auto. destruct (mate M v) eqn:E.
    - symmetry. apply negb_true_iff. apply not_true_iff_false. rewrite <- mate_taken, E. discriminate.
    - apply mate_taken in E. now rewrite E.
  Qed.
  Lemma ntr_st M v : getNotTakenRight n (st M) v = first_free M (S v).
  Proof.
    unfold getNotTakenRight, first_free. assert (E : forall k s, s + k <= n -> find (fun v => negb (isTaken (st M) v)) (seq s k) = find (isfree M) (seq s k)).
    { induction k as [|k IH]; intros s H; cbn; auto. rewrite taken_st, negb_involutive, IH by lia. auto. }
    destruct (Nat.le_gt_cases (S v) n); [now rewrite E by lia|]. replace (n - S v) with 0 by lia. reflexivity.
  Qed.
  Lemma ff_spec M s : s <= n -> s <= first_free M s <= n /\ (forall x, s <= x < first_free M s -> isfree M x = false) /\ (first_free M s < n -> isfree M (first_free M s) = true).
  Proof.
    intros H. unfold first_free. pose proof (find_seq_spec (isfree M) (n - s) s) as S. destruct (find _ _); [destruct S as (A & B & C); repeat split; auto; lia|].
    split; [lia|]. split; [|lia]. intros x Hx. apply S. lia.
  Qed.
  Lemma ff_skip M s t : s <= t -> t <= n -> (forall x, s <= x < t -> isfree M x = false) -> first_free M s = first_free M t.
  Proof.
    intros H1 H2 H3. destruct (ff_spec M s ltac:(lia)) as (A1 & A2 & A3). destruct (ff_spec M t H2) as (B1 & B2 & B3).
    destruct (Nat.lt_trichotomy (first_free M s) (first_free M t)) as [L|[L|L]]; auto; exfalso.
    - specialize (A3 ltac:(lia)). destruct (Nat.lt_ge_cases (first_free M s) t); [rewrite H3 in A3 by lia; discriminate|rewrite B2 in A3 by lia; discriminate].
    - specialize (B3 ltac:(lia)). rewrite A2 in B3 by lia. discriminate.
  Qed.
  Lemma take_st M a b : a < b -> b < n -> takeEdge (st M) a b = st ((a, b) :: M).
  Proof.
    intros H1 H2. unfold takeEdge, st. cbn [ms_nodes ms_isAnchor ms_term]. f_equal.
    - rewrite !put_map by lia. apply map_seq_eq. intros v _. cbn [mate]. reflexivity.
    - rewrite put_map by lia. apply map_seq_eq. intros v _. unfold anchor. cbn [existsb fst]. now destruct (v =? a).
    - rewrite edgeToVar_lt by auto. unfold mm. rewrite put_map by (apply edge_lt; auto). apply map_seq_eq. intros v _. unfold has. cbn [existsb fst snd]. now destruct (v =? edge b a).
  Qed.
  Lemma in_nodes M p : In p M -> In (fst p) (nodes M) /\ In (snd p) (nodes M).
  Proof. intros H. unfold nodes. split; apply in_flat_map; exists p; cbn; auto. Qed.
  Lemma ok_pair M p : ok M -> In p M -> fst p < snd p /\ snd p < n.
  Proof. induction M as [|[a b] M IH]; intros O []; [subst; cbn in *; tauto|]. apply IH; auto. cbn in O. tauto. Qed.
  Lemma has_iff M a b : ok M -> b < a -> (has M (edge a b) = 1 <-> In (b, a) M).
  Proof.
    intros O H. unfold has. destruct (existsb _ M) eqn:E.
    - split; auto. intros _. apply existsb_exists in E. destruct E as ([c d] & Hp & E). apply Nat.eqb_eq in E. cbn in E. destruct (ok_pair M (c, d) O Hp). cbn in *. apply edge_inj in E; auto. destruct E; subst. auto.
    - split; [discriminate|]. intros I. exfalso. apply not_true_iff_false in E. apply E. apply existsb_exists. exists (b, a). cbn. split; auto. apply Nat.eqb_refl.
  Qed.
  Lemma drop_st M a b : ok ((a, b) :: M) -> dropEdge (st ((a, b) :: M)) a = Ok (st M) /\ getNeighbor (st ((a, b) :: M)) a = Ok b.
  Proof.
    intros (H1 & H2 & F1 & F2 & An & O). assert (G : getNeighbor (st ((a, b) :: M)) a = Ok b).
    { unfold getNeighbor, st. cbn [ms_nodes]. rewrite map_seq_nth by lia. cbn [mate]. destruct (Nat.eqb_spec a b); [lia|]. now rewrite Nat.eqb_refl. }
    split; auto. unfold dropEdge. rewrite G. cbn [rbind]. unfold st. cbn [ms_nodes ms_isAnchor ms_term]. f_equal. f_equal.
    - rewrite !put_map by lia. apply map_seq_eq. intros v _. cbn [mate]. destruct (Nat.eqb_spec v a) as [->|]; [symmetry; now apply mate_taken|]. destruct (Nat.eqb_spec v b) as [->|]; [symmetry; now apply mate_taken|auto].
    - rewrite put_map by lia. apply map_seq_eq. intros v _. unfold anchor. cbn [existsb fst]. destruct (Nat.eqb_spec v a) as [->|]; auto. symmetry. apply not_true_iff_false. intros E.
      apply existsb_exists in E. destruct E as (p & Hp & E). apply Nat.eqb_eq in E. specialize (An p Hp). lia.
    - rewrite edgeToVar_lt by auto. unfold mm. rewrite put_map by (apply edge_lt; auto). apply map_seq_eq. intros v _. destruct (Nat.eqb_spec v (edge b a)) as [->|N].
      + destruct (has M (edge b a)) as [|[|]] eqn:E; auto.
        * apply has_iff in E; auto. apply in_nodes in E. cbn in E. apply free_iff in F1. tauto.
        * unfold has in E. destruct (existsb _ M); discriminate.
      + unfold has. cbn [existsb fst snd]. destruct (Nat.eqb_spec v (edge b a)); [tauto|auto].
  Qed.
  Lemma left_st M v w : v <= w -> w <= n -> (forall x, v <= x < w -> anchor M x = false) -> getAnchorLeft (st M) w = getAnchorLeft (st M) v.
  Proof.
    intros H1 H2 H3. induction H1 as [|w H1 IH]; auto. cbn [getAnchorLeft]. unfold st at 1. cbn [ms_isAnchor]. rewrite map_seq_nth, H3 by lia. apply IH; [lia|]. intros x Hx. apply H3. lia.
  Qed.
  (** all matchings that extend M and use all nodes that are free *)
  Fixpoint enum (d : nat) (M : list (nat * nat)) : list mono :=
    match d with
    | 0 => [mm M]
    | S d' => let a := first_free M 0 in
        if a =? n then [mm M] else flat_map (fun b => if isfree M b then enum d' ((a, b) :: M) else []) (seq (S a) (n - S a))
    end.
  Lemma ff_cons M a b : a = first_free M 0 -> a < b -> b < n -> first_free ((a, b) :: M) 0 = first_free ((a, b) :: M) (S a).
  Proof.
    intros Ea H1 H2. apply ff_skip; [lia|lia|]. intros x Hx. apply not_true_iff_false. rewrite free_cons. intros (F & N1 & N2). destruct (ff_spec M 0 ltac:(lia)) as (_ & S & _). rewrite (S x) in F by lia. discriminate.
  Qed.
  Lemma ok_cons M a b : ok M -> (forall p, In p M -> fst p < a) -> isfree M a = true -> isfree M b = true -> a < b -> b < n -> ok ((a, b) :: M).
  Proof. cbn. auto 10. Qed.
  Section Run.
    Variable nu : nat.
    Definition runs (M : list (nat * nat)) (out : list mono) : Prop := exists steps, forall fuel I,
      matching_loop (steps + fuel) n (st M) (Some (first_free M 0)) nu I = matching_loop fuel n (st M) (getAnchorLeft (st M) (first_free M 0)) nu (I ++ out).
    Lemma inner_run d M a : ok M -> (forall p, In p M -> fst p < a) -> a = first_free M 0 -> a < n ->
      (forall b, a < b < n -> isfree M b = true -> runs ((a, b) :: M) (enum d ((a, b) :: M))) ->
      forall j b, a < b < n -> n - S b <= j -> isfree M b = true -> exists steps, forall fuel I,
        matching_loop (steps + fuel) n (st ((a, b) :: M)) (Some a) nu I =
        matching_loop fuel n (st M) (getAnchorLeft (st M) a) nu (I ++ flat_map (fun b => if isfree M b then enum d ((a, b) :: M) else []) (seq (S b) (n - S b))).
    Proof.
      intros O An Ea Ha R. assert (Fa : isfree M a = true) by (destruct (ff_spec M 0 ltac:(lia)) as (_ & _ & S); rewrite Ea; apply S; lia).
      induction j as [j IH] using lt_wf_ind. intros b Hb Hj Fb.
      assert (O1 : ok ((a, b) :: M)) by (apply ok_cons; auto; lia). destruct (drop_st M a b O1) as [D G].
      destruct (ff_spec ((a, b) :: M) (S b) ltac:(lia)) as (S1 & S2 & S3). set (c := first_free ((a, b) :: M) (S b)) in *.
      assert (T : isTaken (st ((a, b) :: M)) a = true). { rewrite taken_st by lia. apply negb_true_iff, not_true_iff_false. rewrite free_cons. tauto. }
      assert (SK : forall x, S b <= x < c -> isfree M x = false).
      { intros x Hx. specialize (S2 x Hx). apply not_true_iff_false in S2. apply not_true_iff_false. intros F. apply S2. apply free_cons. repeat split; auto; lia. }
      destruct (Nat.eq_dec c n) as [Ec|Nc].
      - exists 1. intros fuel I. cbn [Nat.add matching_loop]. destruct (Nat.eqb_spec a n); [lia|]. rewrite T. cbn [negb]. rewrite G. cbn [rbind]. rewrite D. cbn [rbind]. rewrite ntr_st. fold c.
        rewrite Ec, Nat.eqb_refl. f_equal. rewrite (flat_skip _ (n - S b) (S b) n) by (try lia; intros x Hx; rewrite SK by lia; auto). replace (S b + (n - S b) - n) with 0 by lia. cbn. now rewrite app_nil_r.
      - assert (Hc : c < n) by lia. specialize (S3 Hc). apply free_cons in S3. destruct S3 as (Fc & _ & _).
        destruct (R c ltac:(lia) Fc) as (s1 & R1). assert (Fc' : first_free ((a, c) :: M) 0 = first_free ((a, c) :: M) (S a)) by (apply ff_cons; auto; lia).
        destruct (ff_spec ((a, c) :: M) (S a) ltac:(lia)) as (Q1 & Q2 & Q3). rewrite <- Fc' in Q1.
        assert (AL : getAnchorLeft (st ((a, c) :: M)) (first_free ((a, c) :: M) 0) = Some a).
        { rewrite (left_st _ (S a)); try lia.
          - cbn [getAnchorLeft]. unfold st. cbn [ms_isAnchor]. rewrite map_seq_nth by lia. unfold anchor. cbn [existsb fst]. now rewrite Nat.eqb_refl.
          - intros x Hx. apply not_true_iff_false. intros E. apply existsb_exists in E. destruct E as (p & Hp & E). apply Nat.eqb_eq in E. destruct Hp as [<-|Hp]; [cbn in E; lia|]. specialize (An p Hp). lia. }
        destruct (IH (n - S c) ltac:(lia) c ltac:(lia) ltac:(lia) Fc) as (s2 & R2).
        exists (S (s1 + s2)). intros fuel I. cbn [Nat.add matching_loop]. destruct (Nat.eqb_spec a n); [lia|]. rewrite T. cbn [negb]. rewrite G. cbn [rbind]. rewrite D. cbn [rbind]. rewrite ntr_st. fold c.
        destruct (Nat.eqb_spec c n); [lia|]. rewrite take_st by lia. rewrite ntr_st, <- Fc'. rewrite <- Nat.add_assoc, R1, AL, R2. f_equal. rewrite <- app_assoc. f_equal.
        rewrite (flat_skip _ (n - S b) (S b) c) by (try lia; intros x Hx; rewrite SK by lia; auto). replace (S b + (n - S b) - c) with (S (n - S c)) by lia. cbn [seq flat_map]. now rewrite Fc.
    Qed.
    Lemma run : forall d M, ok M -> (forall p, In p M -> fst p < first_free M 0) -> n - first_free M 0 <= d -> runs M (enum d M).
    Proof.
      assert (Done : forall M, first_free M 0 = n -> runs M [mm M]).
      { intros M E. exists 1. intros fuel I. rewrite E. cbn [Nat.add matching_loop]. rewrite Nat.eqb_refl. reflexivity. }
      induction d as [|d IH]; intros M O An Hd; destruct (ff_spec M 0 ltac:(lia)) as (S1 & S2 & S3).
      - apply Done. lia.
      - cbn [enum]. destruct (Nat.eqb_spec (first_free M 0) n) as [E|N]; [now apply Done|]. remember (first_free M 0) as a eqn:Ea. assert (Ha : a < n) by lia. specialize (S3 Ha).
        assert (R : forall b, a < b < n -> isfree M b = true -> runs ((a, b) :: M) (enum d ((a, b) :: M))).
        { intros b Hb Fb. pose proof (ff_cons M a b Ea ltac:(lia) ltac:(lia)) as Q. destruct (ff_spec ((a, b) :: M) (S a) ltac:(lia)) as (Q1 & _ & _). rewrite <- Q in Q1. apply IH.
          - apply ok_cons; auto; lia.
          - intros p [<-|Hp]; [cbn; lia|]. specialize (An p Hp). lia.
          - lia. }
        pose proof (inner_run d M a O An Ea Ha R) as Inner.
        destruct (ff_spec M (S a) ltac:(lia)) as (T1 & T2 & T3). set (b := first_free M (S a)) in *.
        destruct (Nat.eq_dec b n) as [Eb|Nb].
        + exists 1. intros fuel I. rewrite <- Ea. cbn [Nat.add matching_loop]. destruct (Nat.eqb_spec a n); [lia|]. rewrite taken_st, S3 by auto. cbn [negb]. rewrite ntr_st. fold b. rewrite Eb, Nat.eqb_refl. f_equal.
          rewrite (flat_skip _ (n - S a) (S a) n) by (try lia; intros x Hx; rewrite T2 by lia; auto). replace (S a + (n - S a) - n) with 0 by lia. cbn. now rewrite app_nil_r.
        + assert (Hb : b < n) by lia. specialize (T3 Hb). destruct (R b ltac:(lia) T3) as (s1 & R1). destruct (Inner (n - S b) b ltac:(lia) ltac:(lia) T3) as (s2 & R2).
          assert (Q : first_free ((a, b) :: M) 0 = first_free ((a, b) :: M) (S a)) by (apply ff_cons; auto; lia). assert (Q' : first_free ((a, b) :: M) (S a) = first_free ((a, b) :: M) (S b)).
          { apply ff_skip; try lia. intros x Hx. apply not_true_iff_false. rewrite free_cons. intros (F & N1 & N2). rewrite T2 in F by lia. discriminate. }
          destruct (ff_spec ((a, b) :: M) (S a) ltac:(lia)) as (Q1 & _ & _). rewrite <- Q in Q1.
          assert (AL : getAnchorLeft (st ((a, b) :: M)) (first_free ((a, b) :: M) 0) = Some a).
          { rewrite (left_st _ (S a)); try lia.
            - cbn [getAnchorLeft]. unfold st. cbn [ms_isAnchor]. rewrite map_seq_nth by lia. unfold anchor. cbn [existsb fst]. now rewrite Nat.eqb_refl.
            - intros x Hx. apply not_true_iff_false. intros E. apply existsb_exists in E. destruct E as (p & Hp & E). apply Nat.eqb_eq in E. destruct Hp as [<-|Hp]; [cbn in E; lia|]. specialize (An p Hp). lia. }
          exists (S (s1 + s2)). intros fuel I. rewrite <- Ea. cbn [Nat.add matching_loop]. destruct (Nat.eqb_spec a n); [lia|]. rewrite taken_st, S3 by auto. cbn [negb]. rewrite ntr_st. fold b.
          destruct (Nat.eqb_spec b n); [lia|]. rewrite take_st by lia. rewrite ntr_st, <- Q', <- Q, <- Nat.add_assoc, R1, AL, R2. f_equal. rewrite <- app_assoc. f_equal.
          rewrite (flat_skip _ (n - S a) (S a) b) by (try lia; intros x Hx; rewrite T2 by lia; auto). replace (S a + (n - S a) - b) with (S (n - S b)) by lia. cbn [seq flat_map]. now rewrite T3.
    Qed.
  End Run.

  (** ** What is enumerated *)
  Definition extends (M : list (nat * nat)) (m : mono) : Prop :=
    matching n m /\ (forall p, In p M -> nth (edge (snd p) (fst p)) m 0 = 1) /\ (forall v, v < n -> v <> u -> covered n m v) /\ ~ covered n m u.
  Lemma mm_nth M v : v < tri n -> nth v (mm M) 0 = has M v. Proof. intros H. unfold mm. now rewrite map_seq_nth. Qed.
  Lemma mm_length M : length (mm M) = tri n. Proof. unfold mm. now rewrite map_length, seq_length. Qed.
  Lemma mm_edge M a b : ok M -> b < a -> a < n -> (nth (edge a b) (mm M) 0 = 1 <-> In (b, a) M).
  Proof. intros O H1 H2. rewrite mm_nth by (apply edge_lt; auto). now apply has_iff. Qed.
  Lemma ok_same M : ok M -> forall p q v, In p M -> In q M -> (v = fst p \/ v = snd p) -> (v = fst q \/ v = snd q) -> p = q.
  Proof.
    induction M as [|[a b] M IH]; intros O p q v Hp Hq Vp Vq; [destruct Hp|]. destruct O as (H1 & H2 & F1 & F2 & An & O). apply free_iff in F1, F2.
    assert (NI : forall r, In r M -> (v = a \/ v = b) -> (v = fst r \/ v = snd r) -> False).
    { intros r Hr V Vr. destruct (in_nodes M r Hr) as [I1 I2]. destruct V as [-> | ->], Vr as [E|E]; rewrite <- E in *; tauto. }
    destruct Hp as [<-|Hp], Hq as [<-|Hq]; auto; cbn [fst snd] in *; try (exfalso; eapply NI; eauto; fail). eapply IH; eauto.
  Qed.
  Lemma cover_mm M v : ok M -> (covered n (mm M) v <-> In v (nodes M)).
  Proof.
    intros O. split.
    - intros (a & b & H1 & H2 & E & T). apply mm_edge in E; auto. apply in_nodes in E. cbn in E. destruct T as [->| ->]; tauto.
    - intros H. apply in_flat_map in H. destruct H as ([b a] & Hp & H). destruct (ok_pair M _ O Hp) as [A B]. cbn in A, B, H. exists a, b. repeat split; auto; [apply mm_edge; auto|]. unfold touches. destruct H as [<-|[<-|[]]]; auto.
  Qed.
  Lemma mm_matching M : ok M -> matching n (mm M).
  Proof.
    intros O. split; [apply mm_length|]. split.
    - intros v. destruct (Nat.lt_ge_cases v (tri n)); [rewrite mm_nth by auto; unfold has; destruct (existsb _ M); lia|rewrite nth_overflow by (now rewrite mm_length); lia].
    - intros a b c d v H1 H2 H3 H4 E1 E2 T1 T2. apply mm_edge in E1, E2; auto. assert (E : (b, a) = (d, c)) by (apply (ok_same M O _ _ v); auto; cbn; unfold touches in *; tauto). inversion E. auto.
  Qed.
  Lemma u_out M : ok M -> ~ In u (nodes M).
  Proof.
    induction M as [|[a b] M IH]; intros O; [intros []|]. destruct O as (H1 & H2 & F1 & F2 & An & O). apply free_iff in F1, F2. cbn. intros [E|[E|E]]; [| |now apply IH in E]; subst; tauto.
  Qed.
  Lemma base M m : ok M -> first_free M 0 = n -> (m = mm M <-> extends M m).
  Proof.
    intros O E. assert (All : forall v, v < n -> v <> u -> In v (nodes M)).
    { intros v Hv Nv. destruct (ff_spec M 0 ltac:(lia)) as (_ & S & _). rewrite E in S. specialize (S v ltac:(lia)). apply not_true_iff_false in S. rewrite free_iff in S. destruct (in_dec Nat.eq_dec v (nodes M)); tauto. }
    split.
    - intros ->. split; [now apply mm_matching|]. split; [|split].
      + intros [a b] Hp. destruct (ok_pair M _ O Hp). cbn in *. now apply mm_edge.
      + intros v Hv Nv. apply cover_mm; auto.
      + rewrite cover_mm by auto. now apply u_out.
    - intros ((L & B & D) & H & C & U). apply term_ext with (tri n); [exact L|apply mm_length|]. intros v Hv. destruct (edge_surj n v Hv) as (a & b & H1 & H2 & ->). specialize (B (edge a b)).
      destruct (Nat.eq_dec (nth (edge a b) (mm M) 0) 1) as [Y|N].
      + rewrite Y. apply mm_edge in Y; auto. apply (H (b, a) Y).
      + destruct (Nat.eq_dec (nth (edge a b) m 0) 1) as [Y|N'].
        * exfalso. apply N. apply mm_edge; auto. assert (Ca : a <> u). { intros ->. apply U. exists u, b. repeat split; auto. now left. }
          pose proof (All a H2 Ca) as I. apply in_flat_map in I. destruct I as ([d c] & Hp & I). destruct (ok_pair M _ O Hp) as [A1 A2]. cbn in A1, A2, I.
          assert (X : a = c /\ b = d). { apply (D a b c d a); auto; [apply (H (d, c) Hp)|now left|]. destruct I as [<-|[<-|[]]]; [now right|now left]. } destruct X; subst. auto.
        * pose proof (proj1 (proj2 (mm_matching M O)) (edge a b)). lia.
  Qed.
  Lemma enum_iff : forall d M, ok M -> (forall p, In p M -> fst p < first_free M 0) -> n - first_free M 0 <= d -> forall m, In m (enum d M) <-> extends M m.
  Proof.
    assert (Done : forall M m, ok M -> first_free M 0 = n -> (In m [mm M] <-> extends M m)). { intros M m O E. rewrite <- base by auto. cbn. intuition. }
    induction d as [|d IH]; intros M O An Hd m; destruct (ff_spec M 0 ltac:(lia)) as (S1 & S2 & S3).
    - apply Done; auto. lia.
    - cbn [enum]. destruct (Nat.eqb_spec (first_free M 0) n) as [E|N]; [now apply Done|]. remember (first_free M 0) as a eqn:Ea. assert (Ha : a < n) by lia. specialize (S3 Ha).
      assert (R : forall b, a < b < n -> isfree M b = true -> forall m, In m (enum d ((a, b) :: M)) <-> extends ((a, b) :: M) m).
      { intros b Hb Fb. pose proof (ff_cons M a b Ea ltac:(lia) ltac:(lia)) as Q. destruct (ff_spec ((a, b) :: M) (S a) ltac:(lia)) as (Q1 & _ & _). rewrite <- Q in Q1. apply IH.
        - apply ok_cons; auto; lia.
        - intros p [<-|Hp]; [cbn; lia|]. specialize (An p Hp). lia.
        - lia. }
      rewrite in_flat_map. split.
      + intros (b & Hb & H). apply in_seq in Hb. destruct (isfree M b) eqn:F; [|destruct H]. apply R in H; auto; [|lia]. destruct H as (H1 & H2 & H3 & H4). split; auto. split; auto. intros p Hp. apply H2. now right.
      + intros (Mt & H2 & H3 & H4). apply free_iff in S3. destruct (H3 a Ha (proj1 S3)) as (x & y & A & B & C & T).
        assert (X : forall c, touches x y c -> c <> a -> isfree M c = true).
        { intros c Tc Nc. apply free_iff. split; [intros ->; apply H4; exists x, y; auto|]. intros I. apply in_flat_map in I. destruct I as (p & Hp & I). destruct (ok_pair M p O Hp) as [P1 P2].
          destruct (proj2 (proj2 Mt) x y (snd p) (fst p) c) as [E1 E2]; auto; [destruct I as [<-|[<-|[]]]; unfold touches; auto|]. apply (proj2 S3). destruct (in_nodes M p Hp). rewrite <- E1, <- E2 in *. destruct T as [->| ->]; auto. }
        set (b := if x =? a then y else x). assert (Tb : touches x y b) by (unfold b, touches; destruct (x =? a); auto). assert (Nb : b <> a).
        { unfold b. destruct (Nat.eqb_spec x a); [lia|auto]. } pose proof (X b Tb Nb) as Fb. assert (Hb : b < n) by (unfold b; destruct (x =? a); lia).
        assert (Hab : a < b). { destruct (Nat.lt_ge_cases a b); auto. rewrite S2 in Fb by lia. discriminate. }
        exists b. split; [apply in_seq; lia|]. rewrite Fb. apply R; auto. split; auto. split; [|split; auto]. intros p [<-|Hp]; auto. cbn [fst snd]. revert Hab. unfold b. destruct T as [->| ->].
        * rewrite Nat.eqb_refl. lia.
        * destruct (Nat.eqb_spec x y); [lia|auto].
  Qed.
  Lemma enum_nodup : forall d M, ok M -> (forall p, In p M -> fst p < first_free M 0) -> n - first_free M 0 <= d -> NoDup (enum d M).
  Proof.
    induction d as [|d IH]; intros M O An Hd; destruct (ff_spec M 0 ltac:(lia)) as (S1 & S2 & S3); cbn [enum]; [repeat constructor; intros []|].
    destruct (Nat.eqb_spec (first_free M 0) n) as [E|N]; [repeat constructor; intros []|]. remember (first_free M 0) as a eqn:Ea. assert (Ha : a < n) by lia. specialize (S3 Ha).
    assert (R : forall b, a < b < n -> isfree M b = true -> NoDup (enum d ((a, b) :: M)) /\ forall m, In m (enum d ((a, b) :: M)) <-> extends ((a, b) :: M) m).
    { intros b Hb Fb. pose proof (ff_cons M a b Ea ltac:(lia) ltac:(lia)) as Q. destruct (ff_spec ((a, b) :: M) (S a) ltac:(lia)) as (Q1 & _ & _). rewrite <- Q in Q1.
      assert (O1 : ok ((a, b) :: M)) by (apply ok_cons; auto; lia). assert (A1 : forall p, In p ((a, b) :: M) -> fst p < first_free ((a, b) :: M) 0) by (intros p [<-|Hp]; [cbn; lia|specialize (An p Hp); lia]).
      split; [apply IH; auto; lia|apply enum_iff; auto; lia]. }
    apply NoDup_flat_map; [apply seq_NoDup| |].
    - intros b Hb. apply in_seq in Hb. destruct (isfree M b) eqn:F; [apply R; auto; lia|constructor].
    - intros b c m Hb Hc H1 H2. apply in_seq in Hb, Hc. destruct (isfree M b) eqn:Fb; [|destruct H1]. destruct (isfree M c) eqn:Fc; [|destruct H2].
      apply R in H1; auto; [|lia]. apply R in H2; auto; [|lia]. destruct H1 as (Mt & E1 & _), H2 as (_ & E2 & _). specialize (E1 (a, b) (or_introl eq_refl)). specialize (E2 (a, c) (or_introl eq_refl)). cbn in E1, E2.
      destruct (proj2 (proj2 Mt) b a c a a) as [X _]; auto; try lia; now right.
  Qed.
End Matching.

(** ** All maximal matchings *)
Definition all_pairs (n : nat) : list (nat * nat) := flat_map (fun a => map (fun b => (b, a)) (seq 0 a)) (seq 0 n).
Lemma all_pairs_in n p : In p (all_pairs n) <-> fst p < snd p /\ snd p < n.
Proof.
  unfold all_pairs. rewrite in_flat_map. split.
  - intros (a & Ha & H). apply in_map_iff in H. destruct H as (b & <- & Hb). apply in_seq in Ha, Hb. cbn. lia.
  - intros [H1 H2]. destruct p as [b a]. cbn in *. exists a. rewrite in_seq. split; [lia|]. apply in_map_iff. exists b. rewrite in_seq. split; auto. lia.
Qed.
Lemma all_pairs_nodup n : NoDup (all_pairs n).
Proof.
  apply NoDup_flat_map; [apply seq_NoDup| |].
  - intros a _. apply NoDup_map_inj; [apply seq_NoDup|]. congruence.
  - intros a b p _ _ H1 H2. apply in_map_iff in H1, H2. destruct H1 as (x & <- & _), H2 as (y & E & _). congruence.
Qed.
Definition edges (n : nat) (m : mono) : list (nat * nat) := filter (fun p => nth (edge (snd p) (fst p)) m 0 =? 1) (all_pairs n).
Lemma edges_in n m p : In p (edges n m) <-> fst p < snd p /\ snd p < n /\ nth (edge (snd p) (fst p)) m 0 = 1.
Proof. unfold edges. rewrite filter_In, all_pairs_in, Nat.eqb_eq. tauto. Qed.
Lemma edges_cover n m v : covered n m v <-> In v (nodes (edges n m)).
Proof.
  unfold nodes. rewrite in_flat_map. split.
  - intros (a & b & H1 & H2 & E & T). exists (b, a). rewrite edges_in. cbn. split; auto. destruct T; auto.
  - intros ([b a] & H & T). apply edges_in in H. cbn in H, T. exists a, b. unfold touches. intuition.
Qed.
Lemma edges_nodup n m : matching n m -> NoDup (nodes (edges n m)).
Proof.
  intros (_ & _ & D). apply NoDup_flat_map; [apply NoDup_filter, all_pairs_nodup| |].
  - intros p Hp. apply edges_in in Hp. repeat constructor; cbn; [|tauto]. intros [E|[]]. lia.
  - intros [b a] [d c] v Hp Hq H1 H2. apply edges_in in Hp, Hq. cbn in *. destruct (D a b c d v) as [-> ->]; try tauto; unfold touches; intuition.
Qed.
Lemma nodes_length M : length (nodes M) = 2 * length M.
Proof. unfold nodes. induction M; cbn in *; lia. Qed.
Lemma covered_dec n m v : {covered n m v} + {~ covered n m v}.
Proof. destruct (in_dec Nat.eq_dec v (nodes (edges n m))) as [H|H]; [left|right]; now rewrite edges_cover. Qed.
Lemma covered_lt n m v : covered n m v -> v < n. Proof. intros (a & b & H1 & H2 & _ & [-> | ->]); lia. Qed.
Lemma parity_all n m : matching n m -> (forall v, v < n -> covered n m v) -> n mod 2 = 0.
Proof.
  intros Mt H. assert (P : Permutation (seq 0 n) (nodes (edges n m))).
  { apply NoDup_Permutation; [apply seq_NoDup|now apply edges_nodup|]. intros v. rewrite in_seq, <- edges_cover. split; [intros; apply H; lia|]. intros C. apply covered_lt in C. lia. }
  apply Permutation_length in P. rewrite seq_length, nodes_length in P. rewrite P, Nat.mul_comm. apply Nat.mod_mul. lia.
Qed.
Lemma parity_one n m u : matching n m -> u < n -> ~ covered n m u -> (forall v, v < n -> v <> u -> covered n m v) -> n mod 2 = 1.
Proof.
  intros Mt Hu U H. assert (P : Permutation (seq 0 n) (u :: nodes (edges n m))).
  { apply NoDup_Permutation; [apply seq_NoDup|constructor; [now rewrite <- edges_cover|now apply edges_nodup]|]. intros v. rewrite in_seq. cbn [In]. rewrite <- edges_cover. split.
    - intros Hv. destruct (Nat.eq_dec u v); auto. right. apply H; auto. lia.
    - intros [<-|C]; [lia|]. apply covered_lt in C. lia. }
  apply Permutation_length in P. cbn [length] in P. rewrite seq_length, nodes_length in P. rewrite P. replace (S (2 * length (edges n m))) with (1 + length (edges n m) * 2) by lia. rewrite Nat.mod_add by lia. reflexivity.
Qed.
Lemma generator_even n m : n mod 2 = 0 -> (matching_generator n m <-> extends n n [] m).
Proof.
  intros E. split.
  - intros [Mt H]. split; auto. split; [intros p []|]. split; [|intros C; apply covered_lt in C; lia]. intros v Hv _. destruct (covered_dec n m v) as [|N]; auto. exfalso.
    assert (P : n mod 2 = 1); [|lia]. apply (parity_one n m v); auto. intros w Hw Nw. destruct (covered_dec n m w); auto. exfalso. apply Nw. apply H; auto.
  - intros (Mt & _ & C & _). split; auto. intros v w Hv Hw N _. exfalso. apply N. apply C; lia.
Qed.
Lemma generator_odd n m : n mod 2 = 1 -> (matching_generator n m <-> exists u, u < n /\ extends n u [] m).
Proof.
  intros E. split.
  - intros [Mt H]. assert (X : exists u, u < n /\ ~ covered n m u).
    { destruct (forallb (fun v => if covered_dec n m v then true else false) (seq 0 n)) eqn:F.
      - exfalso. rewrite forallb_forall in F. assert (P : n mod 2 = 0); [|lia]. apply (parity_all n m); auto. intros v Hv. specialize (F v). rewrite in_seq in F. specialize (F ltac:(lia)). destruct (covered_dec n m v); auto. discriminate.
      - apply not_true_iff_false in F. rewrite forallb_forall in F. destruct (existsb (fun v => if covered_dec n m v then false else true) (seq 0 n)) eqn:G.
        + apply existsb_exists in G. destruct G as (v & Hv & G). apply in_seq in Hv. exists v. split; [lia|]. destruct (covered_dec n m v); [discriminate|auto].
        + exfalso. apply F. intros v Hv. destruct (covered_dec n m v) eqn:Q; auto. exfalso. apply not_true_iff_false in G. apply G. apply existsb_exists. exists v. rewrite Q. auto. }
    destruct X as (u & Hu & U). exists u. split; auto. split; auto. split; [intros p []|]. split; auto. intros v Hv Nv. destruct (covered_dec n m v); auto. exfalso. apply Nv. apply H; auto.
  - intros (u & Hu & Mt & _ & C & U). split; auto. intros v w Hv Hw Nv Nw. assert (v = u) by (destruct (Nat.eq_dec v u); auto; exfalso; apply Nv, C; auto). assert (w = u) by (destruct (Nat.eq_dec w u); auto; exfalso; apply Nw, C; auto). congruence.
Qed.
Lemma generator_divs n m m' : matching_generator n m -> matching_generator n m' -> divs m m' -> m = m'.
Proof.
  intros [(L & B0 & D) H] [(L' & B0' & D') H'] V. apply term_ext with (tri n); [exact L|exact L'|]. intros v Hv. destruct (edge_surj n v Hv) as (a & b & H1 & H2 & ->).
  pose proof (divs_nth _ _ (edge a b) V) as Le. pose proof (B0 (edge a b)) as B. pose proof (B0' (edge a b)) as B'. destruct (Nat.eq_dec (nth (edge a b) m 0) (nth (edge a b) m' 0)) as [|N]; auto. exfalso.
  assert (E0 : nth (edge a b) m 0 = 0) by lia. assert (E1 : nth (edge a b) m' 0 = 1) by lia.
  assert (NC : forall w, touches a b w -> ~ covered n m w).
  { intros w T (c & d & A1 & A2 & A3 & A4). pose proof (divs_nth _ _ (edge c d) V) as Le2. assert (C1 : nth (edge c d) m' 0 = 1) by (specialize (B0' (edge c d)); lia).
    destruct (D' a b c d w) as [-> ->]; auto. lia. }
  assert (b = a); [|lia]. apply H; [lia|lia| |]; apply NC; [now right|now left].
Qed.

(** ** The loop *)
Lemma ms_new_st n : ms_new n = st n n [].
Proof.
  unfold ms_new, st. f_equal.
  - rewrite repeat_map. apply map_seq_eq. intros v Hv. cbn. destruct (Nat.eqb_spec v n); auto; lia.
  - rewrite repeat_map. apply map_seq_eq. intros v Hv. reflexivity.
  - unfold mm, tri. rewrite repeat_map. apply map_seq_eq. intros v Hv. reflexivity.
Qed.
Lemma takeNode_st n u w : u < n -> w = n -> takeNode (st n w []) u = st n u [].
Proof.
  intros H ->. unfold takeNode, st. cbn [ms_nodes ms_isAnchor ms_term]. f_equal. rewrite put_map by auto. apply map_seq_eq. intros v Hv. cbn.
  destruct (Nat.eqb_spec v u) as [->|]; auto. destruct (Nat.eqb_spec v n); auto; lia.
Qed.
Lemma dropNode_st n u : u < n -> dropNode (st n u []) u = st n n [].
Proof.
  intros H. unfold dropNode, st. cbn [ms_nodes ms_isAnchor ms_term]. f_equal. rewrite put_map by auto. apply map_seq_eq. intros v Hv. cbn.
  destruct (v =? u); destruct (Nat.eqb_spec v n); auto; lia.
Qed.
Lemma left_none n u v : v <= n -> getAnchorLeft (st n u []) v = None.
Proof. intros H. rewrite (left_st n u [] 0 v) by (try lia; reflexivity). reflexivity. Qed.
Definition all_of (n u : nat) : list mono := enum n u n [].
Lemma run_all n u nu : exists steps, forall fuel I,
  matching_loop (steps + fuel) n (st n u []) (Some (first_free n u [] 0)) nu I = matching_loop fuel n (st n u []) None nu (I ++ all_of n u).
Proof.
  destruct (run n u nu n [] Logic.I ltac:(intros p []) ltac:(lia)) as (s & R). exists s. intros fuel I. rewrite R, left_none; auto. destruct (ff_spec n u [] 0 ltac:(lia)). lia.
Qed.
Lemma more_fuel n : forall fuel s node nu I J, matching_loop fuel n s node nu I = Ok J -> forall k, matching_loop (fuel + k) n s node nu I = Ok J.
Proof.
  induction fuel as [|fuel IH]; intros s node nu I J H k; [discriminate|]. revert H. cbn [Nat.add matching_loop].
  destruct (match node with Some node0 => _ | None => _ end) as [[[s' node'] nu']|]; auto.
  destruct (node' =? n); [intros H; now apply IH|]. destruct (negb _); [destruct (_ =? n); intros H; now apply IH|].
  destruct (getNeighbor s' node'); cbn [rbind]; try discriminate. destruct (dropEdge s' node'); cbn [rbind]; try discriminate. destruct (_ =? n); intros H; now apply IH.
Qed.
Lemma ff_start n u : 0 < n -> first_free n u [] 0 = if u =? 0 then (if n =? 1 then 1 else 1) else 0.
Proof.
  intros H. unfold first_free. destruct n as [|n]; [lia|]. cbn [Nat.sub seq find]. unfold isfree at 1. cbn [nodes flat_map in_dec]. destruct (Nat.eqb_spec 0 u) as [<-|N].
  - cbn [negb andb]. rewrite Nat.eqb_refl. destruct n as [|n]; [reflexivity|]. cbn [seq find]. unfold isfree. cbn. reflexivity.
  - cbn [negb andb]. cbn. destruct (Nat.eqb_spec u 0); [lia|reflexivity].
Qed.
Lemma run_odd n : 0 < n -> forall j u, u < n -> n - S u <= j -> exists steps, forall I,
  matching_loop steps n (st n u []) (Some (first_free n u [] 0)) u I = Ok (I ++ flat_map (all_of n) (seq u (n - u))).
Proof.
  intros Hn. induction j as [|j IH]; intros u Hu Hj; destruct (run_all n u u) as (s1 & R1).
  - assert (u = n - 1) by lia. exists (s1 + 1). intros I. rewrite R1. cbn [matching_loop]. destruct (Nat.ltb_spec u n); [|lia]. destruct (Nat.eqb_spec (S u) n); [|lia].
    replace (n - u) with 1 by lia. cbn [seq flat_map]. now rewrite app_nil_r.
  - destruct (Nat.eq_dec (S u) n) as [E|N].
    + exists (s1 + 1). intros I. rewrite R1. cbn [matching_loop]. destruct (Nat.ltb_spec u n); [|lia]. destruct (Nat.eqb_spec (S u) n); [|lia].
      replace (n - u) with 1 by lia. cbn [seq flat_map]. now rewrite app_nil_r.
    + destruct (IH (S u) ltac:(lia) ltac:(lia)) as (s2 & R2). exists (s1 + s2). intros I. rewrite R1. specialize (R2 (I ++ all_of n u)). rewrite ff_start in R2 by auto. cbn [Nat.eqb] in R2.
      assert (Step : matching_loop s2 n (st n u []) None u (I ++ all_of n u) = matching_loop s2 n (st n (S u) []) (Some 0) (S u) (I ++ all_of n u)).
      { destruct s2 as [|s2]; auto. cbn [matching_loop]. destruct (Nat.ltb_spec u n); [|lia]. destruct (Nat.eqb_spec (S u) n); [lia|]. rewrite dropNode_st, takeNode_st by lia. reflexivity. }
      rewrite Step, R2. f_equal. rewrite <- app_assoc. f_equal. replace (n - u) with (S (n - S u)) by lia. reflexivity.
Qed.
Lemma all_of_iff n u m : In m (all_of n u) <-> extends n u [] m.
Proof. apply enum_iff; [exact Logic.I|intros p []|lia]. Qed.
Lemma all_of_nodup n u : NoDup (all_of n u).
Proof. apply enum_nodup; [exact Logic.I|intros p []|lia]. Qed.
Lemma p_matching n : 1 <= n <= 1000 -> exists gens,
  (exists enough, forall fuel, enough <= fuel -> generateMatchingIdeal fuel n = Ok (x_names (n * (n - 1) / 2), map znat gens)) /\
  exactly (matching_generator n) gens /\ lists_minimal_generators (n * (n - 1) / 2) gens gens.
Proof.
  intros Hn. assert (X : exists gens, (exists enough, forall fuel, enough <= fuel -> generateMatchingIdeal fuel n = Ok (x_names (n * (n - 1) / 2), map znat gens)) /\ exactly (matching_generator n) gens).
  { unfold generateMatchingIdeal. destruct (Nat.eqb_spec n 0); [lia|]. destruct (Z.ltb_spec 1000 (Z.of_nat n)); [lia|]. destruct (Nat.eqb_spec (n mod 2) 1) as [O|O].
    - exists (flat_map (all_of n) (seq 0 n)). split.
      + destruct (run_odd n ltac:(lia) (n - 1) 0 ltac:(lia) ltac:(lia)) as (s & R). exists s. intros fuel Hf. rewrite ms_new_st, takeNode_st by lia. specialize (R []). rewrite ff_start in R by lia. cbn [Nat.eqb] in R.
        replace (if n =? 1 then 1 else 1) with 1 in R by (destruct (n =? 1); auto). replace fuel with (s + (fuel - s)) by lia. rewrite (more_fuel _ _ _ _ _ _ _ R). cbn [rbind]. rewrite Nat.sub_0_r. reflexivity.
      + split.
        * apply NoDup_flat_map; [apply seq_NoDup|intros; apply all_of_nodup|]. intros u v m Hu Hv H1 H2. apply in_seq in Hu, Hv. apply all_of_iff in H1, H2. destruct H1 as (_ & _ & _ & U), H2 as (_ & _ & C & _).
          destruct (Nat.eq_dec u v); auto. exfalso. apply U. apply C; auto. lia.
        * intros m. rewrite in_flat_map, generator_odd by auto. split; intros (u & A & B); exists u; rewrite in_seq in *; rewrite all_of_iff in *; split; auto; lia.
    - exists (all_of n n). split.
      + destruct (run_all n n n) as (s & R). exists (s + 1). intros fuel Hf. rewrite ms_new_st. specialize (R (fuel - s) []). rewrite ff_start in R by lia. destruct (Nat.eqb_spec n 0); [lia|].
        replace (s + (fuel - s)) with fuel in R by lia. rewrite R. destruct (fuel - s) eqn:E; [lia|]. cbn [matching_loop]. destruct (Nat.ltb_spec n n); [lia|]. rewrite Nat.eqb_refl. reflexivity.
      + split; [apply all_of_nodup|]. intros m. rewrite generator_even, all_of_iff by (pose proof (Nat.mod_upper_bound n 2); lia). tauto. }
  destruct X as (gens & R & E). exists gens. split; auto. split; auto. apply g_minimal.
  - exact (g_ring_exactly _ _ _ E (fun m H => proj1 (proj1 H))).
  - apply E.
  - intros a b Ha Hb. apply E in Ha, Hb. now apply (generator_divs n).
Qed.
Lemma p_matching_errors fuel n : n = 0 \/ 1000 < n -> generateMatchingIdeal fuel n = OtherError.
Proof. intros H. unfold generateMatchingIdeal. destruct (Nat.eqb_spec n 0); auto. destruct (Z.ltb_spec 1000 (Z.of_nat n)); auto. lia. Qed.
