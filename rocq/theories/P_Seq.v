(** Sequences of bodies. *)
From Coq Require Import List Arith Bool Lia.
Import ListNotations.
From Verif Require Import M_IO M_Seq Spec_Seq.
Local Open Scope nat_scope.
Local Notation length := List.length.

Lemma forward p : sp_fix1 p < 4 -> sp_fix2 p < 4 -> sp_from p < 4 -> sp_fix1 p <> sp_fix2 p -> ~ kept p (sp_from p) ->
  exists t, getForwardFacet p = Some t /\ t < 4 /\ ~ kept p t /\ t <> sp_from p.
Proof.
  destruct p as [m f1 f2 fr]. unfold kept, getForwardFacet. cbn [sp_fix1 sp_fix2 sp_from]. intros A B C D E.
  destruct f1 as [|[|[|[|f1]]]]; [| | | |lia]; (destruct f2 as [|[|[|[|f2]]]]; [| | | |lia]); try lia; (destruct fr as [|[|[|[|fr]]]]; [| | | |lia]); try lia; cbn; eexists; (split; [reflexivity|]); lia.
Qed.
Lemma forward_is p t : sp_fix1 p < 4 -> sp_fix2 p < 4 -> sp_from p < 4 -> sp_fix1 p <> sp_fix2 p -> ~ kept p (sp_from p) -> t < 4 -> ~ kept p t -> t <> sp_from p -> getForwardFacet p = Some t.
Proof.
  intros A B C D E T1 T2 T3. destruct (forward p A B C D E) as (u & U & U1 & U2 & U3). rewrite U. f_equal. unfold kept in *. lia.
Qed.
Definition arranged (p : seqPos) : Prop := sp_fix1 p < sp_fix2 p.
Lemma order_kept p x : kept (order p) x <-> kept p x.
Proof. unfold order, kept. destruct (sp_fix2 p <? sp_fix1 p); cbn; tauto. Qed.
Lemma order_rest p : sp_mlfb (order p) = sp_mlfb p /\ sp_from (order p) = sp_from p.
Proof. unfold order. destruct (sp_fix2 p <? sp_fix1 p); auto. Qed.
Lemma order_arranged p : sp_fix1 p <> sp_fix2 p -> arranged (order p).
Proof. unfold order, arranged. intros N. destruct (Nat.ltb_spec (sp_fix2 p) (sp_fix1 p)); cbn; lia. Qed.
(** A position is known from its body, the facets that are kept and the one through which the body was entered. *)
Lemma same_position p q : arranged p -> arranged q -> sp_mlfb p = sp_mlfb q -> sp_from p = sp_from q -> (forall x, kept p x <-> kept q x) -> p = q.
Proof.
  destruct p as [m f1 f2 fr], q as [m' g1 g2 gr]. unfold arranged, kept. cbn. intros A B <- <- K. pose proof (proj1 (K f1) ltac:(auto)). pose proof (proj1 (K f2) ltac:(auto)). pose proof (proj2 (K g1) ltac:(auto)). pose proof (proj2 (K g2) ltac:(auto)).
  f_equal; lia.
Qed.
Section Walks.
Variable edges : list (list (nat * nat)).
Hypothesis Both : both_ways edges.
Lemma next_right p : position edges p -> exists q, nextInSeq edges p = Ok q /\ position edges q /\ arranged q /\ step_to edges p q.
Proof.
  intros (M & A & B & C & D & E). destruct (forward p A B C D E) as (t & T & T1 & T2 & T3). destruct (Both (sp_mlfb p) t M T1) as (body & hits & Ed & M' & H & N & Back).
  unfold nextInSeq. rewrite T, Ed. set (q := if sp_fix1 p =? hits then _ else _). exists (order q). split; [reflexivity|].
  assert (Q : sp_mlfb q = body /\ sp_from q = hits /\ sp_fix1 q < 4 /\ sp_fix2 q < 4 /\ sp_fix1 q <> sp_fix2 q /\ ~ kept q hits /\ forall x, kept q x <-> (kept p x /\ x <> hits) \/ (x = t /\ kept p hits)).
  { unfold q, kept in *. destruct (Nat.eqb_spec (sp_fix1 p) hits) as [X|X]; [|destruct (Nat.eqb_spec (sp_fix2 p) hits) as [Y|Y]]; cbn [sp_mlfb sp_fix1 sp_fix2 sp_from]; do 6 (split; [lia|]); intros x; lia. }
  clearbody q. destruct Q as (Q1 & Q2 & Q3 & Q4 & Q5 & Q6 & Q7). destruct (order_rest q) as [O1 O2]. pose proof (order_arranged q Q5) as Ar. split; [|split; auto].
  - unfold position. rewrite O1, O2, Q1, Q2. unfold arranged in Ar. split; auto.
    assert (L : forall x, kept (order q) x -> x < 4). { intros x X. rewrite order_kept in X. unfold kept in X. lia. }
    split; [apply L; left; auto|]. split; [apply L; right; auto|]. split; auto. split; [lia|]. rewrite order_kept. exact Q6.
  - exists t, hits. rewrite O1, O2, Q1. do 5 (split; [auto|]). intros x. rewrite order_kept. apply Q7.
Qed.
Lemma reverse_right p : position edges p -> exists q, getReverse p = Ok q /\ position edges q /\ sp_mlfb q = sp_mlfb p /\ (forall x, kept q x <-> kept p x) /\ (arranged p -> arranged q) /\
  getForwardFacet p = Some (sp_from q) /\ getForwardFacet q = Some (sp_from p).
Proof.
  intros (M & A & B & C & D & E). destruct (forward p A B C D E) as (t & T & T1 & T2 & T3). unfold getReverse. rewrite T. eexists. split; [reflexivity|]. unfold kept, position, arranged in *. cbn [sp_mlfb sp_fix1 sp_fix2 sp_from] in *.
  split; [repeat (split; auto)|]. split; auto. split; [tauto|]. split; [auto|]. split; auto. apply forward_is; unfold kept; cbn [sp_mlfb sp_fix1 sp_fix2 sp_from]; auto.
Qed.
(** A step backwards: the reverse of a step is a step between the reverses. *)
Lemma step_back p q p' q' : position edges p -> step_to edges p q -> position edges q -> getReverse p = Ok p' -> getReverse q = Ok q' -> step_to edges q' p'.
Proof.
  intros P (out & hit & S1 & S2 & S3 & S4 & S5 & S6) Q Rp Rq. destruct (reverse_right p P) as (p1 & E1 & P1 & P2 & P3 & _ & P4 & P5). destruct (reverse_right q Q) as (q1 & E2 & Q1 & Q2 & Q3 & _ & Q4 & Q5).
  assert (p1 = p') by congruence. assert (q1 = q') by congruence. subst p1 q1.
  pose proof P as (M & A & B & C & D & E). pose proof (forward_is p out A B C D E S1 S2 S3) as F. assert (Out : sp_from p' = out) by congruence.
  destruct (Both (sp_mlfb p) out M S1) as (body & h & Ed & _ & H & N & Back). rewrite S4 in Ed. injection Ed as <- <-.
  pose proof Q as (_ & _ & _ & QC & _ & QE).
  exists hit, out. split; [congruence|]. split; [rewrite Q3; rewrite <- S5; exact QE|]. split.
  - intros X. destruct Q1 as (_ & A1 & A2 & A3 & A4 & A5). destruct (forward q') as (t & T & T1 & T2 & T3); auto. rewrite Q5 in T. injection T as <-. congruence.
  - rewrite Q2, P2, Back. split; auto. split; auto. intros x. rewrite P3, !Q3, !S6. clear - S2 N. destruct (Nat.eq_dec x hit) as [->|X]; [|destruct (Nat.eq_dec x out) as [->|Y]]; [|tauto|]; intuition congruence.
Qed.
Lemma step_unique p q q' : position edges p -> arranged q -> arranged q' -> step_to edges p q -> step_to edges p q' -> q = q'.
Proof.
  intros (M & A & B & C & D & E) Aq Aq' (o & h & S1 & S2 & S3 & S4 & S5 & S6) (o' & h' & T1 & T2 & T3 & T4 & T5 & T6).
  pose proof (forward_is p o A B C D E S1 S2 S3) as F. pose proof (forward_is p o' A B C D E T1 T2 T3) as F'. assert (o' = o) by congruence. subst o'. rewrite S4 in T4. injection T4 as H1 H2. subst h'.
  apply same_position; auto; [congruence|]. intros x. rewrite S6, T6. tauto.
Qed.
Theorem prev_next p : position edges p -> sp_fix1 p < sp_fix2 p -> exists q, nextInSeq edges p = Ok q /\ prevInSeq edges q = Ok p.
Proof.
  intros P Ap. destruct (next_right p P) as (q & E & Q & Aq & S). exists q. split; auto. unfold prevInSeq. destruct (reverse_right p P) as (p' & R1 & P' & P2 & P3 & P4 & P5 & P6). destruct (reverse_right q Q) as (q' & R2 & Q' & _).
  rewrite R2. cbn [rbind]. pose proof (step_back p q p' q' P S Q R1 R2) as Bk. destruct (next_right q' Q') as (r & E' & _ & Ar & S'). rewrite E'. cbn [rbind].
  rewrite (step_unique q' r p' Q' Ar (P4 Ap) S' Bk). unfold getReverse. rewrite P6, P2. f_equal. apply same_position; auto.
Qed.
Theorem next_prev p : position edges p -> sp_fix1 p < sp_fix2 p -> exists q, prevInSeq edges p = Ok q /\ nextInSeq edges q = Ok p.
Proof.
  intros P Ap. destruct (reverse_right p P) as (p' & R1 & P' & P2 & P3 & P4 & P5 & P6). destruct (prev_next p' P' (P4 Ap)) as (r & E1 & E2).
  destruct (next_right p' P') as (r0 & E1' & R & Ar & S). assert (r0 = r) by congruence. subst r0. destruct (reverse_right r R) as (q & R2 & Q & Q2 & Q3 & Q4 & Q5 & Q6).
  exists q. split; [unfold prevInSeq; rewrite R1; cbn [rbind]; rewrite E1; cbn [rbind]; auto|].
  destruct (reverse_right p' P') as (p'' & R3 & P'' & X2 & X3 & X4 & X5 & X6).
  assert (p'' = p). { apply same_position; [apply X4, P4; exact Ap|exact Ap|congruence|congruence|]. intros x. rewrite X3, P3. tauto. } subst p''.
  pose proof (step_back p' r p q P' S R R3 R2) as Bk. destruct (next_right q Q) as (u & U & _ & Au & Su). rewrite U. f_equal. apply (step_unique q u p Q Au Ap Su Bk).
Qed.
(** ** Sequences come back *)
Definition step (p : seqPos) : seqPos := match nextInSeq edges p with Ok q => q | _ => p end.
Fixpoint steps (k : nat) (p : seqPos) : seqPos := match k with 0 => p | S k => step (steps k p) end.
Definition proper (p : seqPos) : Prop := position edges p /\ arranged p.
Lemma step_proper p : position edges p -> proper (step p) /\ step_to edges p (step p) /\ nextInSeq edges p = Ok (step p).
Proof. intros P. destruct (next_right p P) as (q & E & Q & A & S). unfold step, proper. rewrite E. auto. Qed.
Lemma step_inj p q : proper p -> proper q -> step p = step q -> p = q.
Proof.
  intros [P1 P2] [Q1 Q2] E. destruct (prev_next p P1 P2) as (a & A1 & A2). destruct (prev_next q Q1 Q2) as (b & B1 & B2). unfold step in E. rewrite A1, B1 in E. congruence.
Qed.
Lemma steps_proper k p : proper p -> proper (steps k p).
Proof. intros P. induction k; cbn [steps]; auto. apply step_proper. apply IHk. Qed.
Lemma steps_cancel i : forall k p, proper p -> steps (i + k) p = steps i p -> steps k p = p.
Proof.
  induction i as [|i IH]; intros k p P E; auto. apply IH; auto. apply step_inj; auto using steps_proper.
Qed.
Definition all_positions : list seqPos := flat_map (fun m => flat_map (fun a => flat_map (fun b => map (fun c => SeqPos m a b c) (seq 0 4)) (seq 0 4)) (seq 0 4)) (seq 0 (length edges)).
Lemma all_positions_in p : position edges p -> In p all_positions.
Proof.
  intros (M & A & B & C & _). destruct p as [m a b c]. cbn in *. unfold all_positions. apply in_flat_map. exists m. split; [apply in_seq; lia|]. apply in_flat_map. exists a. split; [apply in_seq; lia|].
  apply in_flat_map. exists b. split; [apply in_seq; lia|]. apply in_map_iff. exists c. split; auto. apply in_seq; lia.
Qed.
Lemma seqPos_dec (p q : seqPos) : {p = q} + {p <> q}.
Proof. decide equality; apply Nat.eq_dec. Qed.
Lemma repeated (f : nat -> seqPos) n : NoDup (map f (seq 0 n)) \/ exists i k, f (i + S k) = f i.
Proof.
  induction n as [|n IH]; [left; constructor|]. destruct IH as [IH|IH]; auto. destruct (in_dec seqPos_dec (f n) (map f (seq 0 n))) as [I|I].
  - right. apply in_map_iff in I. destruct I as (i & E & I). apply in_seq in I. exists i, (n - i - 1). replace (i + S (n - i - 1)) with n by lia. auto.
  - left. rewrite seq_S, map_app. cbn [map plus]. clear - IH I. induction (map f (seq 0 n)) as [|x l IHl]; cbn [app]; [repeat constructor; simpl; auto|]. inversion IH; subst. constructor.
    + rewrite in_app_iff. simpl in *. intros [X|[X|[]]]; auto.
    + apply IHl; auto. simpl in I. tauto.
Qed.
Theorem comes_back p : proper p -> exists k, steps (S k) p = p.
Proof.
  intros P. destruct (repeated (fun i => steps i p) (S (length all_positions))) as [N|(i & k & E)].
  - exfalso. apply NoDup_incl_length with (l' := all_positions) in N; [rewrite map_length, seq_length in N; lia|]. intros q Q. apply in_map_iff in Q. destruct Q as (i & <- & _). apply all_positions_in. apply steps_proper. auto.
  - exists k. apply (steps_cancel i); auto.
Qed.
(** ** The loop *)
Variable pivot : nat -> bool.
Lemma steps_shift k p : steps (S k) p = steps k (step p).
Proof. induction k as [|k IH]; [reflexivity|]. cbn [steps] in *. rewrite IH. reflexivity. Qed.
Lemma loop_more fuel : forall fuel' p l, fuel <= fuel' -> seq_loop fuel edges pivot p = Ok l -> seq_loop fuel' edges pivot p = Ok l.
Proof.
  clear Both. induction fuel as [|fuel IH]; intros [|fuel'] p l L H; cbn [seq_loop] in *; try discriminate; [lia|]. destruct (nextInSeq edges p) as [q| | | | |]; cbn [rbind] in *; auto.
  destruct (pivot (sp_mlfb q)); auto. destruct (seq_loop fuel edges pivot q) as [r| | | | |] eqn:E; cbn [rbind] in H; try discriminate. rewrite (IH fuel' q r); auto. lia.
Qed.
Lemma loop_right k : forall p, position edges p -> pivot (sp_mlfb (steps (S k) p)) = true -> exists fuel middle last, seq_loop fuel edges pivot p = Ok (middle ++ [last]) /\
  walk edges (p :: middle ++ [last]) /\ pivot (sp_mlfb last) = true /\ forall q, In q middle -> pivot (sp_mlfb q) = false.
Proof.
  induction k as [|k IH]; intros p P H; destruct (step_proper p P) as ([P1 P2] & St & E).
  - exists 1, [], (step p). cbn [seq_loop app]. rewrite E. cbn [rbind]. cbn [steps] in H. rewrite H. split; auto. split; [repeat constructor; auto|]. split; auto. intros q [].
  - destruct (pivot (sp_mlfb (step p))) eqn:F.
    + exists 1, [], (step p). cbn [seq_loop app]. rewrite E. cbn [rbind]. rewrite F. split; auto. split; [repeat constructor; auto|]. split; auto. intros q [].
    + rewrite steps_shift in H. destruct (IH (step p) P1 H) as (fuel & middle & last & L1 & L2 & L3 & L4). exists (S fuel), (step p :: middle), last. cbn [seq_loop app]. rewrite E. cbn [rbind]. rewrite F, L1. cbn [rbind].
      split; auto. split; [constructor; auto|]. split; auto. intros q [<-|Q]; auto.
Qed.
Lemma new_position body facet flat : body < length edges -> facet < 4 -> flat < 4 -> facet <> flat ->
  position edges (newSeqPos body facet flat) /\ sp_mlfb (newSeqPos body facet flat) = body /\ sp_from (newSeqPos body facet flat) = flat /\ getForwardFacet (newSeqPos body facet flat) = Some facet.
Proof.
  intros M A B N. unfold position, kept.
  destruct facet as [|[|[|[|facet]]]]; [| | | |lia]; (destruct flat as [|[|[|[|flat]]]]; [| | | |lia]); try lia; cbn; repeat split; auto; lia.
Qed.
Theorem pivot_seq_right body facet flat : body < length edges -> facet < 4 -> flat < 4 -> facet <> flat -> pivot body = true ->
  exists fuel first middle last, (forall fuel', fuel <= fuel' -> pivotSeq fuel' edges pivot body facet flat = Ok (first :: middle ++ [last])) /\ walk edges (first :: middle ++ [last]) /\
    sp_mlfb first = body /\ sp_from first = flat /\ ~ kept first facet /\ pivot (sp_mlfb last) = true /\ forall q, In q middle -> pivot (sp_mlfb q) = false.
Proof.
  intros M A B N Pv. destruct (new_position body facet flat M A B N) as (P & P1 & P2 & P3). set (p := newSeqPos body facet flat) in *.
  destruct (step_proper p P) as (Pr & _ & _).
  assert (Or : proper (order p) /\ step (order p) = step p).
  { pose proof P as (Q1 & Q2 & Q3 & Q4 & Q5 & Q6). pose proof (order_arranged p Q5) as Ar. destruct (order_rest p) as [O1 O2].
    assert (Po : position edges (order p)). { unfold position. rewrite O1, O2, order_kept. unfold order, arranged in *. destruct (sp_fix2 p <? sp_fix1 p); cbn in *; repeat (split; auto). }
    split; [split; auto|]. destruct (step_proper (order p) Po) as ([_ A1] & S1 & _). destruct (step_proper p P) as ([_ A2] & (o & h & T1 & T2 & T3 & T4 & T5 & T6) & _).
    apply (step_unique (order p) _ _ Po A1 A2 S1). exists o, h. rewrite O1, O2. split; [auto|]. split; [rewrite order_kept; auto|]. do 3 (split; [auto|]). intros x. rewrite !order_kept. apply T6. }
  destruct Or as [Or1 Or2]. destruct (comes_back (order p) Or1) as (k & K).
  destruct (loop_right k p P) as (fuel & middle & last & L1 & L2 & L3 & L4).
  { rewrite steps_shift, <- Or2, <- steps_shift, K. rewrite (proj1 (order_rest p)), P1. exact Pv. }
  exists fuel, p, middle, last. split; [intros fuel' F; unfold pivotSeq; fold p; rewrite (loop_more fuel fuel' p _ F L1); reflexivity|]. repeat (split; auto).
  destruct P as (Q1 & Q2 & Q3 & Q4 & Q5 & Q6). destruct (forward p Q2 Q3 Q4 Q5 Q6) as (t & T & _ & T2 & _). rewrite P3 in T. injection T as <-. exact T2.
Qed.
End Walks.
Lemma next_and_previous edges p : both_ways edges -> position edges p ->
  (exists q, nextInSeq edges p = Ok q /\ position edges q /\ sp_fix1 q < sp_fix2 q /\ step_to edges p q) /\
  (sp_fix1 p < sp_fix2 p ->
    (exists q, nextInSeq edges p = Ok q /\ prevInSeq edges q = Ok p) /\ (exists q, prevInSeq edges p = Ok q /\ nextInSeq edges q = Ok p)).
Proof. intros B P. split; [exact (next_right edges B p P)|]. intros A. split; [apply prev_next; auto|apply next_prev; auto]. Qed.
Lemma pivot_sequence edges pivot body facet flatFacet : both_ways edges -> body < length edges -> facet < 4 -> flatFacet < 4 -> facet <> flatFacet ->
  pivot body = true ->
  exists fuel first middle last, (forall fuel', fuel <= fuel' -> pivotSeq fuel' edges pivot body facet flatFacet = Ok (first :: middle ++ [last])) /\ walk edges (first :: middle ++ [last]) /\
    sp_mlfb first = body /\ sp_from first = flatFacet /\ ~ kept first facet /\ pivot (sp_mlfb last) = true /\ forall q, In q middle -> pivot (sp_mlfb q) = false.
Proof. intros B. exact (pivot_seq_right edges B pivot body facet flatFacet). Qed.
