(** The neighbors in the body of a double triangle, and the bodies at its sides. *)
From Coq Require Import List Arith Bool ZArith QArith Qcanon Lia.
Import ListNotations.
From Verif Require Import M_Api M_IO M_Matrix M_SatBinom M_Mlfb M_Planes Spec_Matrix Spec_SatBinom Spec_Mlfb Spec_Planes.
Local Open Scope nat_scope.
Local Notation length := List.length.

Lemma classify_right g rhs is : forall i0 d0, (i0 = true -> d0 = true) ->
  let (i, d) := classify g rhs is i0 d0 in
  (i = true <-> i0 = true /\ forall c, In c is -> (entry g c < entry rhs c)%Z) /\ (d = true <-> d0 = true /\ forall c, In c is -> (entry g c <= entry rhs c)%Z).
Proof.
  induction is as [|c is IH]; intros i0 d0 I; cbn [classify].
  - split; split; try tauto; intros; split; auto; intros ? [].
  - destruct (Z.eqb_spec (entry g c) (entry rhs c)) as [E|E].
    + specialize (IH false d0 ltac:(discriminate)). destruct (classify g rhs is false d0) as [i d]. destruct IH as [A B]. rewrite A, B. split; split.
      * intros [X _]. discriminate.
      * intros [_ X]. specialize (X c (or_introl eq_refl)). lia.
      * intros [X Y]. split; auto. intros c' [<-|H]; auto. lia.
      * intros [X Y]. split; auto. intros c' H. apply Y. simpl. auto.
    + rewrite Z.gtb_ltb. destruct (Z.ltb_spec (entry rhs c) (entry g c)) as [L|L].
      * split; (split; [discriminate|]); intros [_ X]; specialize (X c (or_introl eq_refl)); lia.
      * specialize (IH i0 d0 I). destruct (classify g rhs is i0 d0) as [i d]. destruct IH as [A B]. rewrite A, B. split; split; intros [X Y]; split; auto.
        -- intros c' [<-|H]; auto. lia.
        -- intros c' H. apply Y. simpl. auto.
        -- intros c' [<-|H]; auto.
        -- intros c' H. apply Y. simpl. auto.
Qed.
Lemma max_fold gens var ps : forall r, (r <= fold_left (fun r p => if (r <? getY gens p var)%Z then getY gens p var else r) ps r)%Z /\
  (forall p, In p ps -> (getY gens p var <= fold_left (fun r p => if (r <? getY gens p var)%Z then getY gens p var else r) ps r)%Z) /\
  (fold_left (fun r p => if (r <? getY gens p var)%Z then getY gens p var else r) ps r = r \/ exists p, In p ps /\ fold_left (fun r p => if (r <? getY gens p var)%Z then getY gens p var else r) ps r = getY gens p var).
Proof.
  induction ps as [|p ps IH]; intros r; cbn [fold_left]; [split; [lia|split; [intros ? []|auto]]|].
  destruct (Z.ltb_spec r (getY gens p var)) as [L|L].
  - destruct (IH (getY gens p var)) as (A & B & C). split; [lia|]. split; [intros q [<-|Q]; auto|]. right. destruct C as [C|(q & Q & C)]; [exists p|exists q]; simpl; auto.
  - destruct (IH r) as (A & B & C). split; [lia|]. split; [intros q [<-|Q]; auto; lia|]. destruct C as [C|(q & Q & C)]; auto. right. exists q. simpl. auto.
Qed.
Section Tri.
Variables (n : nat) (gens : list (list Z)) (a b s : nat).
Let points := [nth a gens []; nth b gens []; nth s gens []].
Let rhs := computeRhs n gens [None; Some a; Some b; Some s].
Lemma rhs_length : length rhs = n.
Proof. unfold rhs, computeRhs. rewrite map_length, seq_length. reflexivity. Qed.
Lemma rhs_entry i : i < n -> (0 <= entry rhs i)%Z /\ (forall p, In p points -> (coordinate p i <= entry rhs i)%Z) /\ (entry rhs i = 0%Z \/ exists p, In p points /\ entry rhs i = coordinate p i).
Proof.
  intros Hi. unfold rhs, computeRhs, entry. rewrite (nth_indep _ 0%Z ((fun var => fold_left (fun r p => if (r <? getY gens p var)%Z then getY gens p var else r) (tl [None; Some a; Some b; Some s]) (getY gens (hd None [None; Some a; Some b; Some s]) var)) 0)) by (rewrite map_length, seq_length; auto).
  rewrite (map_nth (fun var => fold_left (fun r p => if (r <? getY gens p var)%Z then getY gens p var else r) (tl [None; Some a; Some b; Some s]) (getY gens (hd None [None; Some a; Some b; Some s]) var))). rewrite seq_nth by auto. cbn [tl hd plus].
  change (getY gens None i) with 0%Z. destruct (max_fold gens i [Some a; Some b; Some s] 0%Z) as (A & B & C). split; [exact A|]. split.
  - intros p [<-|[<-|[<-|[]]]]; [apply (B (Some a))|apply (B (Some b))|apply (B (Some s))]; simpl; auto.
  - destruct C as [C|(p & P & C)]; [left; exact C|right]. cbn [In] in P. destruct P as [<-|[<-|[<-|[]]]]; [exists (nth a gens [])|exists (nth b gens [])|exists (nth s gens [])]; split; simpl; auto.
Qed.
Lemma classified g : let (i, d) := classify g rhs (seq 0 (length rhs)) true true in (i = true <-> in_interior n points g) /\ (d = true <-> in_body n points g).
Proof.
  pose proof (classify_right g rhs (seq 0 (length rhs)) true true ltac:(auto)) as C. destruct (classify _ _ _ _ _) as [i d]. destruct C as [A B]. rewrite A, B, rhs_length. unfold in_interior, in_body. split; split.
  - intros [_ H] c Hc. specialize (H c ltac:(apply in_seq; lia)). destruct (rhs_entry c Hc) as (_ & _ & [E|(p & P & E)]); rewrite E in H; [left; exact H|right; exists p; split; auto].
  - intros H. split; auto. intros c Hc. apply in_seq in Hc. destruct (rhs_entry c ltac:(lia)) as (E1 & E2 & _). unfold entry in *. destruct (H c ltac:(lia)) as [X|(p & P & X)]; [lia|]. specialize (E2 p P). lia.
  - intros [_ H] c Hc. specialize (H c ltac:(apply in_seq; lia)). destruct (rhs_entry c Hc) as (_ & _ & [E|(p & P & E)]); rewrite E in H; [left; exact H|right; exists p; split; auto].
  - intros H. split; auto. intros c Hc. apply in_seq in Hc. destruct (rhs_entry c ltac:(lia)) as (E1 & E2 & _). unfold entry in *. destruct (H c ltac:(lia)) as [X|(p & P & X)]; [lia|]. specialize (E2 p P). lia.
Qed.
Lemma tri_loop ks : NoDup ks -> forall done ins bnd, NoDup (done ++ ks) ->
  (NoDup ins /\ forall p, In p ins <-> exists k, p = Some k /\ In k done /\ in_interior n points (nth k gens [])) ->
  (NoDup bnd /\ forall p, In p bnd <-> p = None \/ exists k, p = Some k /\ In k done /\ in_body n points (nth k gens []) /\ ~ in_interior n points (nth k gens [])) ->
  let (ins', bnd') := fold_left (fun (st : list neighbor * list neighbor) k => let (ins, bnd) := st in
    let (i, d) := classify (nth k gens []) rhs (seq 0 (length rhs)) true true in
    if i then (ins ++ [Some k], bnd) else if d then (ins, bnd ++ [Some k]) else st) ks (ins, bnd) in
  (NoDup ins' /\ forall p, In p ins' <-> exists k, p = Some k /\ In k (done ++ ks) /\ in_interior n points (nth k gens [])) /\
  (NoDup bnd' /\ forall p, In p bnd' <-> p = None \/ exists k, p = Some k /\ In k (done ++ ks) /\ in_body n points (nth k gens []) /\ ~ in_interior n points (nth k gens [])).
Proof.
  induction ks as [|k ks IH]; intros Nk done ins bnd Nd [I1 I2] [B1 B2]; cbn [fold_left]; [rewrite app_nil_r; auto|].
  inversion Nk as [|? ? Nk1 Nk2]; subst. assert (Fresh : ~ In k done). { apply NoDup_remove_2 in Nd. rewrite in_app_iff in Nd. tauto. }
  assert (Snoc : forall l : list neighbor, NoDup l -> ~ In (Some k) l -> NoDup (l ++ [Some k])).
  { intros l Nl Hl. induction l as [|x l IHl]; cbn [app]; [repeat constructor; simpl; auto|]. inversion Nl; subst. constructor.
    - rewrite in_app_iff. simpl in *. intros [X|[X|[]]]; auto.
    - apply IHl; auto. simpl in Hl. tauto. }
  assert (E : done ++ k :: ks = (done ++ [k]) ++ ks) by (rewrite <- app_assoc; reflexivity). rewrite E in *.
  pose proof (classified (nth k gens [])) as C. destruct (classify (nth k gens []) rhs (seq 0 (length rhs)) true true) as [i d]. destruct C as [C1 C2].
  destruct i; [|destruct d].
  - assert (J : in_interior n points (nth k gens [])) by (apply C1; auto). apply IH; auto.
    + split; [apply Snoc; auto; rewrite I2; intros (k' & X & Y & _); injection X as <-; auto|]. intros p. rewrite in_app_iff, I2. setoid_rewrite in_app_iff. split.
      * intros [(k' & X & Y & Z)|[<-|[]]]; [exists k'; auto|exists k; simpl; auto].
      * intros (k' & -> & [Y|[<-|[]]] & Z); [left; eauto|right; simpl; auto].
    + split; auto. intros p. rewrite B2. setoid_rewrite in_app_iff. split; (intros [X|(k' & X & Y & Z & W)]; [auto|]); right; exists k'; repeat (split; auto).
      destruct Y as [Y|[<-|[]]]; auto. contradiction.
  - assert (J : ~ in_interior n points (nth k gens [])) by (intros X; apply C1 in X; discriminate). assert (K : in_body n points (nth k gens [])) by (apply C2; auto). apply IH; auto.
    + split; auto. intros p. rewrite I2. setoid_rewrite in_app_iff. split; intros (k' & X & Y & Z); exists k'; repeat (split; auto).
      destruct Y as [Y|[<-|[]]]; auto. contradiction.
    + split; [apply Snoc; auto; rewrite B2; intros [X|(k' & X & Y & _)]; [discriminate|injection X as <-; auto]|]. intros p. rewrite in_app_iff, B2. setoid_rewrite in_app_iff. split.
      * intros [[X|(k' & X & Y & Z)]|[<-|[]]]; auto; right; [exists k'; auto|exists k; simpl; auto].
      * intros [X|(k' & -> & [Y|[<-|[]]] & Z)]; auto; [left; right; eauto|right; simpl; auto].
  - assert (J : ~ in_body n points (nth k gens [])) by (intros X; apply C2 in X; discriminate). assert (K : ~ in_interior n points (nth k gens [])) by (intros X; apply C1 in X; discriminate). apply IH; auto.
    + split; auto. intros p. rewrite I2. setoid_rewrite in_app_iff. split; intros (k' & X & Y & Z); exists k'; repeat (split; auto).
      destruct Y as [Y|[<-|[]]]; auto. contradiction.
    + split; auto. intros p. rewrite B2. setoid_rewrite in_app_iff. split; (intros [X|(k' & X & Y & Z & W)]; [auto|]); right; exists k'; repeat (split; auto).
      destruct Y as [Y|[<-|[]]]; auto. contradiction.
Qed.
Theorem tri_right : let (ins, bnd) := tri_neighbors n gens a b s in
  (NoDup ins /\ forall p, In p ins <-> exists k, p = Some k /\ k < length gens /\ in_interior n points (nth k gens [])) /\
  (NoDup bnd /\ forall p, In p bnd <-> p = None \/ exists k, p = Some k /\ k < length gens /\ in_body n points (nth k gens []) /\ ~ in_interior n points (nth k gens [])).
Proof.
  unfold tri_neighbors. cbv zeta. fold rhs.
  pose proof (tri_loop (seq 0 (length gens)) (seq_NoDup _ _) [] [] [None] (seq_NoDup _ _)) as T.
  assert (T1 : NoDup (@nil neighbor) /\ forall p : neighbor, In p [] <-> exists k, p = Some k /\ In k [] /\ in_interior n points (nth k gens [])).
  { split; [constructor|]. intros p. split; [intros []|intros (k & _ & [] & _)]. }
  assert (T2 : NoDup [@None nat] /\ forall p : neighbor, In p [None] <-> p = None \/ exists k, p = Some k /\ In k [] /\ in_body n points (nth k gens []) /\ ~ in_interior n points (nth k gens [])).
  { split; [repeat constructor; simpl; auto|]. intros p. split; [intros [<-|[]]; auto|intros [->|(k & _ & [] & _)]; simpl; auto]. }
  specialize (T T1 T2). destruct (fold_left _ _ _) as [ins bnd]. cbn [app] in T. destruct T as [[A1 A2] [B1 B2]]. setoid_rewrite in_seq in A2. setoid_rewrite in_seq in B2.
  split; split; auto; intros p; [rewrite A2|rewrite B2]; split.
  - intros (k & X & Y & Z). exists k. repeat (split; auto). lia.
  - intros (k & X & Y & Z). exists k. repeat (split; auto); lia.
  - intros [X|(k & X & Y & Z)]; auto. right. exists k. split; auto. split; auto. lia.
  - intros [X|(k & X & Y & Z)]; auto. right. exists k. split; auto. split; auto. lia.
Qed.
End Tri.
Lemma hasPoint_iff b p : hasPoint b p = true <-> In p (ml_points b).
Proof.
  unfold hasPoint. rewrite existsb_exists. split.
  - intros (q & Q & E). destruct q as [q|], p as [p|]; cbn in E; try discriminate; auto. apply Nat.eqb_eq in E. subst. auto.
  - intros H. exists p. split; auto. destruct p; cbn; auto. apply Nat.eqb_refl.
Qed.
Theorem side_right bodies a s b : In b (sideMlfbs bodies a s) <-> In b bodies /\ In (Some a) (ml_points b) /\ In (Some s) (ml_points b).
Proof. unfold sideMlfbs. rewrite filter_In, andb_true_iff, !hasPoint_iff. tauto. Qed.
