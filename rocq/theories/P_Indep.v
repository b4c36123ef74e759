(** The independence analysis splits the variables into two blocks that no generator connects. *)
From Coq Require Import List Arith Bool ZArith Lia Permutation.
Import ListNotations.
From Verif Require Import M_Term M_Ideal M_Slice M_Partition P_Term P_Ideal P_Msm2 P_Part.

Definition coarser (R R' : nat -> nat) : Prop := forall x y, R x = R y -> R' x = R' y.
Lemma coarser_refl : forall R, coarser R R. Proof. intros R x y H; auto. Qed.
Lemma coarser_trans : forall A B C, coarser A B -> coarser B C -> coarser A C.
Proof. intros A B C H1 H2 x y H. apply H2, H1, H. Qed.
Lemma merge_coarser : forall R i j, coarser R (merge R i j).
Proof. intros R i j x y H. unfold merge. rewrite H. auto. Qed.
Lemma merge_eq : forall R i j, merge R i j i = merge R i j j.
Proof. intros R i j. unfold merge. rewrite Nat.eqb_refl. destruct (R i =? R j); auto. Qed.

Definition conn (n : nat) (R : nat -> nat) (J : ideal) : Prop :=
  forall g u v, In g J -> u < n -> v < n -> 0 < g @ u -> 0 < g @ v -> R u = R v.

Lemma conn_coarser : forall n R R' J, coarser R R' -> conn n R J -> conn n R' J.
Proof. intros n R R' J H C g u v Hg Hu Hv A B. apply H. eapply C; eauto. Qed.

Lemma an_vars_spec : forall n G g first vars p R, PI n p R G -> first < n -> (forall v, In v vars -> v < n) ->
  exists r, an_vars p g first vars = Some r /\
    match r with
    | None => True
    | Some p' => exists R', PI n p' R' G /\ coarser R R' /\ forall v, In v vars -> 0 < g @ v -> R' v = R' first
    end.
Proof.
  intros n G g first. induction vars as [|v vars IH]; intros p R H Hf Hv.
  - exists (Some p). split; auto. exists R. split; auto. split; [apply coarser_refl|]. intros v [].
  - cbn [an_vars]. assert (Hvn : v < n) by (apply Hv; left; auto).
    assert (Hv' : forall w, In w vars -> w < n) by (intros; apply Hv; right; auto).
    destruct (Nat.ltb_spec 0 (g @ v)) as [Hp|Hz].
    + destruct (join_spec n p R G first v H Hf Hvn) as [J1 J2].
      destruct (Nat.eq_dec (R first) (R v)) as [E|E].
      * destruct (J1 E) as [p1 [E1 [H1 _]]]. rewrite E1. cbn [andb].
        destruct (IH p1 R H1 Hf Hv') as [r [Er Hr]]. exists r. split; auto. destruct r as [p'|]; auto.
        destruct Hr as [R' [A [B C]]]. exists R'. split; auto. split; auto. intros w [<-|Hw] Hg; auto.
      * destruct (J2 E) as [p1 [E1 [H1 _]]]. rewrite E1. cbn [andb].
        destruct (p_count p1 =? 1); [exists None; auto|].
        destruct (IH p1 _ H1 Hf Hv') as [r [Er Hr]]. exists r. split; auto. destruct r as [p'|]; auto.
        destruct Hr as [R' [A [B C]]]. exists R'. split; auto. split.
        -- eapply coarser_trans; [apply merge_coarser|exact B].
        -- intros w [<-|Hw] Hg; auto. symmetry. apply B. apply merge_eq.
    + destruct (IH p R H Hf Hv') as [r [Er Hr]]. exists r. split; auto. destruct r as [p'|]; auto.
      destruct Hr as [R' [A [B C]]]. exists R'. split; auto. split; auto. intros w [<-|Hw] Hg; [lia|auto].
Qed.

Lemma supp_first : forall n g first (R : nat -> nat), t_firstNonZero n g = first ->
  (forall v, In v (seq (S first) (n - S first)) -> 0 < g @ v -> R v = R first) ->
  forall u, u < n -> 0 < g @ u -> R u = R first.
Proof.
  intros n g first R E H u Hu Hg. destruct (t_firstNonZero_spec n g) as [[A [B C]]|[A B]].
  - rewrite E in *. destruct (Nat.lt_trichotomy u first) as [Hlt|[->|Hgt]]; auto.
    + specialize (C u Hlt). lia.
    + apply H; auto. apply in_seq. lia.
  - specialize (B u Hu). lia.
Qed.

Lemma an_ideal_spec : forall n I p R G, PI n p R G ->
  exists r, an_ideal n p I = Some r /\
    match r with
    | None => True
    | Some p' => exists R' G', PI n p' R' G' /\ coarser R R' /\ conn n R' I /\
        Permutation G' (map (t_firstNonZero n) I ++ G) /\ (forall g, In g I -> t_firstNonZero n g < n)
    end.
Proof.
  intros n. induction I as [|g I IH]; intros p R G H.
  - exists (Some p). split; auto. exists R, G. split; auto. split; [apply coarser_refl|]. split; [intros g u v []|].
    split; [apply Permutation_refl|]. intros g [].
  - cbn [an_ideal]. cbv zeta.
    assert (Hfle : t_firstNonZero n g <= n) by (destruct (t_firstNonZero_spec n g); lia).
    destruct (Nat.eqb_spec (t_firstNonZero n g) n) as [E|E]; [exists None; auto|].
    assert (Hf : t_firstNonZero n g < n) by lia.
    destruct (addToSet_spec n p R G _ H Hf) as [p1 [E1 [H1 _]]]. rewrite E1.
    destruct (an_vars_spec n _ g _ (seq (S (t_firstNonZero n g)) (n - S (t_firstNonZero n g))) p1 R H1 Hf) as [r [Er Hr]].
    { intros v Hv. apply in_seq in Hv. lia. }
    rewrite Er. destruct r as [p2|]; [|exists None; auto]. destruct Hr as [R2 [H2 [C2 S2]]].
    destruct (IH p2 R2 _ H2) as [r [Er' Hr]]. exists r. split; auto. destruct r as [p'|]; auto.
    destruct Hr as [R' [G' [A [B [C [D F]]]]]]. exists R', G'. split; auto. split; [eapply coarser_trans; eauto|].
    split; [|split].
    + intros h u v [<-|Hh] Hu Hv Gu Gv; [|eapply C; eauto].
      apply B. rewrite (supp_first n g _ R2 eq_refl S2 u Hu Gu). symmetry. apply (supp_first n g _ R2 eq_refl S2 v Hv Gv).
    + rewrite D. cbn [map app]. symmetry. apply Permutation_middle.
    + intros h [<-|Hh]; auto.
Qed.

Lemma an_subvars_spec : forall n G g first vars p R, PI n p R G -> first < n -> (forall v, In v vars -> v < n) ->
  exists p' R', an_subvars p g first vars = Some p' /\ PI n p' R' G /\ coarser R R' /\
    forall v, In v vars -> 0 < g @ v -> R' v = R' first.
Proof.
  intros n G g first. induction vars as [|v vars IH]; intros p R H Hf Hv.
  - exists p, R. split; auto. split; auto. split; [apply coarser_refl|]. intros v [].
  - cbn [an_subvars]. assert (Hvn : v < n) by (apply Hv; left; auto).
    assert (Hv' : forall w, In w vars -> w < n) by (intros; apply Hv; right; auto).
    destruct (Nat.ltb_spec 0 (g @ v)) as [Hp|Hz].
    + destruct (join_spec n p R G first v H Hf Hvn) as [J1 J2].
      destruct (Nat.eq_dec (R first) (R v)) as [E|E].
      * destruct (J1 E) as [p1 [E1 [H1 _]]]. rewrite E1.
        destruct (IH p1 R H1 Hf Hv') as [p' [R' [A [B [C D]]]]]. exists p', R'. split; auto. split; auto. split; auto.
        intros w [<-|Hw] Hg; auto.
      * destruct (J2 E) as [p1 [E1 [H1 _]]]. rewrite E1.
        destruct (IH p1 _ H1 Hf Hv') as [p' [R' [A [B [C D]]]]]. exists p', R'. split; auto. split; auto. split.
        -- eapply coarser_trans; [apply merge_coarser|exact C].
        -- intros w [<-|Hw] Hg; auto. symmetry. apply C. apply merge_eq.
    + destruct (IH p R H Hf Hv') as [p' [R' [A [B [C D]]]]]. exists p', R'. split; auto. split; auto. split; auto.
      intros w [<-|Hw] Hg; [lia|auto].
Qed.

Lemma an_sub_spec : forall n J p R G, PI n p R G ->
  exists p' R', an_sub n p J = Some p' /\ PI n p' R' G /\ coarser R R' /\ conn n R' J.
Proof.
  intros n. induction J as [|g J IH]; intros p R G H.
  - exists p, R. split; auto. split; auto. split; [apply coarser_refl|]. intros g u v [].
  - cbn [an_sub]. cbv zeta. destruct (t_firstNonZero_spec n g) as [[A0 [B0 C0]]|[A0 B0]].
    + destruct (an_subvars_spec n G g _ (seq (S (t_firstNonZero n g)) (n - S (t_firstNonZero n g))) p R H A0) as [p1 [R1 [A [B [C D]]]]].
      { intros v Hv. apply in_seq in Hv. lia. }
      rewrite A. destruct (IH p1 R1 G B) as [p' [R' [A' [B' [C' D']]]]]. exists p', R'. split; auto. split; auto.
      split; [eapply coarser_trans; eauto|].
      intros h u v [<-|Hh] Hu Hv Gu Gv; [|eapply D'; eauto].
      apply C'. rewrite (supp_first n g _ R1 eq_refl D u Hu Gu). symmetry. apply (supp_first n g _ R1 eq_refl D v Hv Gv).
    + rewrite A0. replace (n - S n) with 0 by lia. cbn [seq an_subvars].
      destruct (IH p R G H) as [p' [R' [A' [B' [C' D']]]]]. exists p', R'. split; auto. split; auto. split; auto.
      intros h u v [<-|Hh] Hu Hv Gu Gv; [|eapply D'; eauto]. rewrite B0 in Gu by auto. lia.
Qed.

Lemma an_maxSet_spec : forall n R G sets p maxSet, PI n p R G -> maxSet < n -> (forall x, In x sets -> x < n) ->
  exists p' ms, an_maxSet p maxSet sets = Some (p', ms) /\ PI n p' R G /\ p_roots p' = p_roots p /\ ms < n /\
    cnt R (R maxSet) G <= cnt R (R ms) G /\ forall x, In x sets -> cnt R (R x) G <= cnt R (R ms) G.
Proof.
  intros n R G. induction sets as [|x sets IH]; intros p maxSet H Hm Hs.
  - exists p, maxSet. split; auto. split; auto. split; auto. split; auto. split; auto. intros x [].
  - cbn [an_maxSet]. assert (Hx : x < n) by (apply Hs; left; auto).
    assert (Hs' : forall w, In w sets -> w < n) by (intros; apply Hs; right; auto).
    destruct (getSizeOfClassOf_spec n p R G x H Hx) as [p1 [E1 [H1 [R1 C1]]]]. rewrite E1.
    destruct (getSizeOfClassOf_spec n p1 R G maxSet H1 Hm) as [p2 [E2 [H2 [R2 C2]]]]. rewrite E2.
    destruct (Z.ltb_spec (1 + Z.of_nat (cnt R (R maxSet) G)) (1 + Z.of_nat (cnt R (R x) G))) as [Hlt|Hge].
    + destruct (getRoot_spec n p2 R G x H2 Hx) as [p3 [E3 [H3 [R3 [C3 V3]]]]]. rewrite E3.
      destruct (PI_lt n p3 R G x H3 Hx) as [Lx Rx].
      destruct (IH p3 (R x) H3 Lx Hs') as [p' [ms [A [B [C [D [E F]]]]]]]. exists p', ms.
      split; auto. split; auto. split; [congruence|]. split; auto. rewrite Rx in E. split; [lia|].
      intros y [<-|Hy]; auto.
    + destruct (IH p2 maxSet H2 Hm Hs') as [p' [ms [A [B [C [D [E F]]]]]]]. exists p', ms.
      split; auto. split; auto. split; [congruence|]. split; auto. split; auto.
      intros y [<-|Hy]; [lia|auto].
Qed.

Lemma an_nonMax_spec : forall n R G maxSet sets p nonMax, PI n p R G -> maxSet < n -> nonMax < n ->
  (forall x, In x sets -> x < n) ->
  exists p' nm, an_nonMax p maxSet nonMax sets = Some (p', nm) /\ PI n p' R G /\ nm < n /\
    ((R nonMax <> R maxSet \/ exists x, In x sets /\ R x <> R maxSet) -> R nm <> R maxSet).
Proof.
  intros n R G maxSet. induction sets as [|x sets IH]; intros p nonMax H Hm Hn Hs.
  - exists p, nonMax. split; auto. split; auto. split; auto. intros [A|[x [[] _]]]; auto.
  - cbn [an_nonMax]. assert (Hx : x < n) by (apply Hs; left; auto).
    assert (Hs' : forall w, In w sets -> w < n) by (intros; apply Hs; right; auto).
    destruct (getRoot_spec n p R G maxSet H Hm) as [p1 [E1 [H1 _]]]. rewrite E1.
    destruct (getRoot_spec n p1 R G x H1 Hx) as [p2 [E2 [H2 _]]]. rewrite E2.
    destruct (Nat.eqb_spec (R maxSet) (R x)) as [E|E].
    + destruct (IH p2 nonMax H2 Hm Hn Hs') as [p' [nm [A [B [C D]]]]]. exists p', nm. split; auto. split; auto. split; auto.
      intros [F|[y [[<-|Hy] F]]]; [auto|congruence|]. apply D. right. exists y; auto.
    + destruct (IH p2 x H2 Hm Hx Hs') as [p' [nm [A [B [C D]]]]]. exists p', nm. split; auto.
Qed.

Lemma an_joinRest_spec : forall n G maxSet nonMax sets p R, PI n p R G -> maxSet < n -> nonMax < n ->
  R nonMax <> R maxSet -> (forall x, In x sets -> x < n) ->
  exists p' R', an_joinRest p maxSet nonMax sets = Some p' /\ PI n p' R' G /\ coarser R R' /\
    R' nonMax <> R' maxSet /\ (forall x, R' x = R' maxSet -> R x = R maxSet) /\
    forall x, In x sets -> R' x = R' maxSet \/ R' x = R' nonMax.
Proof.
  intros n G maxSet nonMax. induction sets as [|x sets IH]; intros p R H Hm Hn Hne Hs.
  - exists p, R. split; auto. split; auto. split; [apply coarser_refl|]. split; auto. split; auto. intros x [].
  - cbn [an_joinRest]. assert (Hx : x < n) by (apply Hs; left; auto).
    assert (Hs' : forall w, In w sets -> w < n) by (intros; apply Hs; right; auto).
    destruct (getRoot_spec n p R G x H Hx) as [p1 [E1 [H1 _]]]. rewrite E1.
    destruct (getRoot_spec n p1 R G maxSet H1 Hm) as [p2 [E2 [H2 _]]]. rewrite E2.
    destruct (Nat.eqb_spec (R x) (R maxSet)) as [E|E].
    + destruct (IH p2 R H2 Hm Hn Hne Hs') as [p' [R' [A [B [C [D [F K]]]]]]]. exists p', R'.
      split; auto. split; auto. split; auto. split; auto. split; auto. intros y [<-|Hy]; auto.
    + destruct (join_spec n p2 R G x nonMax H2 Hx Hn) as [J1 J2].
      destruct (Nat.eq_dec (R x) (R nonMax)) as [E'|E'].
      * destruct (J1 E') as [p3 [E3 [H3 _]]]. rewrite E3.
        destruct (IH p3 R H3 Hm Hn Hne Hs') as [p' [R' [A [B [C [D [F K]]]]]]]. exists p', R'.
        split; auto. split; auto. split; auto. split; auto. split; auto. intros y [<-|Hy]; auto.
      * destruct (J2 E') as [p3 [E3 [H3 _]]]. rewrite E3.
        assert (Hmm : merge R x nonMax maxSet = R maxSet).
        { unfold merge. rewrite (proj2 (Nat.eqb_neq _ _)); auto. }
        assert (Hne3 : merge R x nonMax nonMax <> merge R x nonMax maxSet).
        { rewrite Hmm. unfold merge. rewrite Nat.eqb_refl. auto. }
        destruct (IH p3 _ H3 Hm Hn Hne3 Hs') as [p' [R' [A [B [C [D [F K]]]]]]]. exists p', R'.
        split; auto. split; auto. split; [eapply coarser_trans; [apply merge_coarser|exact C]|]. split; auto. split.
        -- intros y Hy. apply F in Hy. rewrite Hmm in Hy. unfold merge in Hy.
           destruct (Nat.eqb_spec (R y) (R nonMax)); [contradiction|auto].
        -- intros y [<-|Hy]; auto. right. apply C. apply merge_eq.
Qed.

(** two different elements in the class [r] *)
Definition two (n : nat) (R : nat -> nat) (r : nat) : Prop :=
  exists x y, x < n /\ y < n /\ x <> y /\ R x = r /\ R y = r.


Lemma weight_two : forall n R I G r, wf n I -> minl n I -> conn n R I ->
  Permutation G (map (t_firstNonZero n) I) -> (forall g, In g I -> t_firstNonZero n g < n) ->
  2 <= cnt R r G -> two n R r.
Proof.
  intros n R I G r Hw Hm Hc Hp Hf Hcnt.
  assert (E : cnt R r G = length (filter (fun g => R (t_firstNonZero n g) =? r) I)).
  { unfold cnt. assert (Hq : forall l, length (filter (fun x => R x =? r) (map (t_firstNonZero n) l)) =
      length (filter (fun g => R (t_firstNonZero n g) =? r) l)).
    { induction l as [|a l IH]; simpl; auto. destruct (R (t_firstNonZero n a) =? r); simpl; rewrite IH; auto. }
    rewrite <- Hq. apply Permutation_length. clear -Hp. induction Hp; simpl; auto.
    - destruct (R x =? r); auto.
    - destruct (R x =? r), (R y =? r); auto. apply perm_swap.
    - eapply Permutation_trans; eauto. }
  rewrite E in Hcnt.
  assert (HN : NoDup (filter (fun g => R (t_firstNonZero n g) =? r) I)) by (apply NoDup_filter, Hm).
  assert (Hin : forall g, In g (filter (fun g => R (t_firstNonZero n g) =? r) I) -> In g I /\ R (t_firstNonZero n g) = r).
  { intros g Hg. apply filter_In in Hg. destruct Hg as [A B]. apply Nat.eqb_eq in B. auto. }
  revert Hcnt HN Hin. generalize (filter (fun g => R (t_firstNonZero n g) =? r) I). intros L Hcnt HN Hin.
  destruct L as [|g [|h L]]; simpl in Hcnt; try lia.
  destruct (Hin g ltac:(left; auto)) as [Ig Rg]. destruct (Hin h ltac:(right; left; auto)) as [Ih Rh].
  assert (Hgh : g <> h). { intros ->. inversion HN; subst. apply H1. left; auto. }
  set (u := t_firstNonZero n g) in *. set (w := t_firstNonZero n h) in *.
  assert (Hu : u < n) by (apply Hf; auto). assert (Hw' : w < n) by (apply Hf; auto).
  destruct (Nat.eq_dec u w) as [Euw|N]; [|exists u, w; auto].
  assert (Gu : 0 < g @ u). { destruct (t_firstNonZero_spec n g) as [[A [B C]]|[A B]]; fold u in A; [exact B|lia]. }
  assert (Hhu : 0 < h @ u). { rewrite Euw. destruct (t_firstNonZero_spec n h) as [[A [B C]]|[A B]]; fold w in A; [exact B|lia]. }
  destruct (existsb (fun v => negb (v =? u) && ((0 <? g @ v) || (0 <? h @ v))) (seq 0 n)) eqn:Ex.
  - apply existsb_exists in Ex. destruct Ex as [v [Hv Hb]]. apply in_seq in Hv. apply andb_true_iff in Hb. destruct Hb as [Nv Hb].
    apply negb_true_iff, Nat.eqb_neq in Nv. exists u, v. split; auto. split; [lia|]. split; auto. split; auto.
    rewrite <- Rg. apply orb_true_iff in Hb. destruct Hb as [Hb|Hb]; apply Nat.ltb_lt in Hb.
    + apply (Hc g v u); auto; lia.
    + apply (Hc h v u); auto; lia.
  - exfalso.
    assert (Z0 : forall v, v < n -> v <> u -> g @ v = 0 /\ h @ v = 0).
    { intros v Hv Nv. assert (Hf0 := existsb_exists (fun v => negb (v =? u) && ((0 <? g @ v) || (0 <? h @ v))) (seq 0 n)).
      rewrite Ex in Hf0. destruct (Nat.eq_dec (g @ v) 0), (Nat.eq_dec (h @ v) 0); auto;
      (exfalso; assert (false = true); [apply Hf0; exists v; split; [apply in_seq; lia|];
         rewrite (proj2 (Nat.eqb_neq v u) Nv); cbn [negb andb]; apply orb_true_iff;
         rewrite !Nat.ltb_lt; lia|discriminate]). }
    destruct (Nat.le_ge_cases (g @ u) (h @ u)) as [Hle|Hle].
    + apply Hgh. apply (proj2 Hm); auto. intros v Hv. destruct (Nat.eq_dec v u) as [->|Nv]; auto.
      destruct (Z0 v Hv Nv). lia.
    + apply Hgh. symmetry. apply (proj2 Hm); auto. intros v Hv. destruct (Nat.eq_dec v u) as [->|Nv]; auto.
      destruct (Z0 v Hv Nv). lia.
Qed.

Lemma two_filter : forall n R r, two n R r -> 2 <= length (filter (fun i => R i =? r) (seq 0 n)).
Proof.
  intros n R r [x [y [Hx [Hy [N [A B]]]]]].
  apply (NoDup_incl_length (l := [x; y])).
  - repeat constructor; simpl; intuition.
  - intros z [<-|[<-|[]]]; apply filter_In; split; try (apply in_seq; lia); apply Nat.eqb_eq; auto.
Qed.

Lemma nodup_two : forall (l : list nat) a b, NoDup l -> In a l -> In b l -> a <> b ->
  (forall x, In x l -> x = a \/ x = b) -> l = [a; b] \/ l = [b; a].
Proof.
  intros l a b HN Ha Hb Hne Hl. destruct l as [|x [|y [|z l]]].
  - destruct Ha.
  - destruct Ha as [<-|[]], Hb as [<-|[]]. congruence.
  - inversion HN as [|? ? Hx HN']; subst. assert (x <> y) by (intros ->; apply Hx; left; auto).
    destruct (Hl x) as [->| ->], (Hl y) as [->| ->]; try (left; auto; fail); try (right; auto; fail);
    try (left; reflexivity); try (right; reflexivity); try congruence; simpl; auto.
  - exfalso. inversion HN as [|? ? Hx HN']; subst. inversion HN' as [|? ? Hy HN'']; subst.
    assert (x <> y) by (intros ->; apply Hx; left; auto). assert (x <> z) by (intros ->; apply Hx; right; left; auto).
    assert (y <> z) by (intros ->; apply Hy; left; auto).
    destruct (Hl x), (Hl y), (Hl z); simpl; auto; congruence.
Qed.

Definition one_side (n : nat) (f : nat -> bool) (g : term) : Prop :=
  (forall v, v < n -> 0 < g @ v -> f v = true) \/ (forall v, v < n -> 0 < g @ v -> f v = false).

Lemma conn_side : forall n R J r g, conn n R J -> In g J -> one_side n (fun i => R i =? r) g.
Proof.
  intros n R J r g Hc Hg. destruct (t_firstNonZero_spec n g) as [[A [B _]]|[A B]].
  - destruct (Nat.eqb_spec (R (t_firstNonZero n g)) r) as [E|E].
    + left. intros v Hv Gv. apply Nat.eqb_eq. rewrite <- E. eapply Hc; eauto.
    + right. intros v Hv Gv. apply Nat.eqb_neq. intros E'. apply E. rewrite <- E'. eapply Hc; eauto.
  - left. intros v Hv Gv. rewrite B in Gv by auto. lia.
Qed.

Lemma indep_analyze_spec : forall s, slice_ok s ->
  exists r, indep_analyze s = Some r /\
    match r with
    | None => True
    | Some (big, rest) => exists f, big = filter f (seq 0 (s_n s)) /\ rest = filter (fun i => negb (f i)) (seq 0 (s_n s)) /\
        2 <= length big /\ 2 <= length rest /\
        (forall g, In g (s_I s) -> one_side (s_n s) f g) /\ (forall g, In g (s_S s) -> one_side (s_n s) f g)
    end.
Proof.
  intros s Hok. pose proof (ok_wfI s Hok) as HwI. pose proof (ok_minI s Hok) as HmI. unfold indep_analyze. cbv zeta.
  set (n := s_n s) in *.
  destruct (an_ideal_spec n (s_I s) (p_reset n) _ _ (reset_PI n)) as [r [E1 H1]]. rewrite E1.
  destruct r as [p|]; [|exists None; auto].
  destruct H1 as [R0 [G [H0 [_ [C0 [PG Ff]]]]]]. rewrite app_nil_r in PG.
  destruct (an_sub_spec n (s_S s) p R0 G H0) as [p1 [R [E2 [H [C1 CS]]]]]. rewrite E2.
  assert (CI : conn n R (s_I s)) by (eapply conn_coarser; eauto). clear C0 C1 H0 E1 E2 R0.
  destruct (Nat.eqb_spec (p_count p1) 1) as [Ec1|Nc1]; [exists None; auto|].
  destruct (Nat.ltb_spec (an_countBig p1) 2) as [Hb|Hb]; [exists None; auto|].
  assert (HW : forall r, 2 <= cnt R r G -> two n R r).
  { intros r. apply (weight_two n R (s_I s) G r); auto. }
  (* two heavy classes *)
  assert (Hheavy : exists r1 r2, r1 <> r2 /\ In r1 (p_roots p1) /\ In r2 (p_roots p1) /\ 2 <= cnt R r1 G /\ 2 <= cnt R r2 G).
  { unfold an_countBig in Hb.
    assert (HN : NoDup (filter (fun k => match p_getSetSize p1 k with Some z => (2 <=? z)%Z | None => false end) (seq 0 (p_count p1)))) by (apply NoDup_filter, seq_NoDup).
    assert (Hin : forall k, In k (filter (fun k => match p_getSetSize p1 k with Some z => (2 <=? z)%Z | None => false end) (seq 0 (p_count p1))) ->
       exists r, nth_error (p_roots p1) k = Some r /\ 2 <= cnt R r G).
    { intros k Hk. apply filter_In in Hk. destruct Hk as [A B]. apply in_seq in A.
      destruct (nth_error (p_roots p1) k) as [r|] eqn:En.
      - exists r. split; auto. rewrite (getSetSize_spec n p1 R G k r H En) in B. apply Z.leb_le in B. lia.
      - apply nth_error_None in En. rewrite <- (pi_count _ _ _ _ H) in En. lia. }
    revert Hb HN Hin. generalize (filter (fun k => match p_getSetSize p1 k with Some z => (2 <=? z)%Z | None => false end) (seq 0 (p_count p1))).
    intros L Hb HN Hin. destruct L as [|k1 [|k2 L]]; simpl in Hb; try lia.
    destruct (Hin k1 ltac:(left; auto)) as [r1 [A1 B1]]. destruct (Hin k2 ltac:(right; left; auto)) as [r2 [A2 B2]].
    exists r1, r2. split.
    - intros ->. assert (k1 = k2).
      { apply (proj1 (NoDup_nth_error (p_roots p1)) (p_roots_nodup p1)); [|congruence].
        apply nth_error_Some. congruence. }
      subst. inversion HN; subst. match goal with Hn : ~ In _ _ |- _ => apply Hn; left; auto end.
    - split; [eapply nth_error_In; eauto|]. split; [eapply nth_error_In; eauto|]. auto. }
  destruct Hheavy as [r1 [r2 [Hr12 [Ir1 [Ir2 [W1 W2]]]]]].
  pose proof (proj1 (p_roots_R n p1 R G r1 H) Ir1) as [L1 F1]. pose proof (proj1 (p_roots_R n p1 R G r2 H) Ir2) as [L2 F2].
  (* the final partition has two classes, each with two members *)
  assert (Hfin : exists p3 R3, (if 2 <? p_count p1 then
                match an_maxSet p1 0 (seq 1 (n - 1)) with
                | None => None
                | Some (pa, maxSet) =>
                    match an_nonMax pa maxSet 0 (seq 0 n) with
                    | None => None
                    | Some (pb, nonMax) => an_joinRest pb maxSet nonMax (seq 0 n)
                    end
                end
              else Some p1) = Some p3 /\ PI n p3 R3 G /\ coarser R R3 /\
              exists a b, p_roots p3 = [a; b] /\ two n R3 a /\ two n R3 b).
  { destruct (Nat.ltb_spec 2 (p_count p1)) as [Hc2|Hc2].
    - destruct (an_maxSet_spec n R G (seq 1 (n - 1)) p1 0 H ltac:(lia)) as [pa [ms [Ea [Ha [Ra [Lms [Wa Wb]]]]]]].
      { intros x Hx. apply in_seq in Hx. lia. }
      rewrite Ea.
      assert (Wms : forall x, x < n -> cnt R (R x) G <= cnt R (R ms) G).
      { intros x Hx. destruct (Nat.eq_dec x 0) as [->|N0]; auto. apply Wb. apply in_seq. lia. }
      destruct (an_nonMax_spec n R G ms (seq 0 n) pa 0 Ha Lms ltac:(lia)) as [pb [nm [Eb [Hpb [Lnm Dnm]]]]].
      { intros x Hx. apply in_seq in Hx. lia. }
      rewrite Eb.
      (* some heavy class is not the class of ms *)
      assert (Hoth : exists rr, rr < n /\ R rr = rr /\ rr <> R ms /\ 2 <= cnt R rr G).
      { destruct (Nat.eq_dec r1 (R ms)) as [->|Nr]; [exists r2|exists r1]; auto. }
      destruct Hoth as [rr [Lrr [Frr [Nrr Wrr]]]].
      assert (Hnm : R nm <> R ms).
      { apply Dnm. right. exists rr. split; [apply in_seq; lia|]. rewrite Frr. auto. }
      destruct (an_joinRest_spec n G ms nm (seq 0 n) pb R Hpb Lms Lnm Hnm) as [p3 [R3 [E3 [H3 [C3 [D3 [U3 K3]]]]]]].
      { intros x Hx. apply in_seq in Hx. lia. }
      exists p3, R3. split; auto. split; auto. split; auto.
      assert (Tms : two n R3 (R3 ms)).
      { destruct (HW (R ms)) as [x [y [Hx [Hy [Nxy [Ex Ey]]]]]].
        { specialize (Wms rr Lrr). rewrite Frr in Wms. lia. }
        exists x, y. repeat split; auto; apply C3; auto. }
      assert (Tnm : two n R3 (R3 nm)).
      { destruct (HW rr Wrr) as [x [y [Hx [Hy [Nxy [Ex Ey]]]]]].
        assert (K : forall z, z < n -> R z = rr -> R3 z = R3 nm).
        { intros z Hz Ez. destruct (K3 z) as [K|K]; [apply in_seq; lia| |auto]. apply U3 in K. congruence. }
        exists x, y. repeat split; auto. }
      destruct (PI_lt n p3 R3 G ms H3 Lms) as [Q1 Q2]. destruct (PI_lt n p3 R3 G nm H3 Lnm) as [Q3 Q4].
      destruct (nodup_two (p_roots p3) (R3 ms) (R3 nm) (p_roots_nodup p3)) as [Er|Er].
      + apply (p_roots_R n p3 R3 G); auto.
      + apply (p_roots_R n p3 R3 G); auto.
      + auto.
      + intros x Hx. apply (p_roots_R n p3 R3 G x H3) in Hx. destruct Hx as [Lx Fx].
        rewrite <- Fx. apply K3. apply in_seq. lia.
      + exists (R3 ms), (R3 nm). auto.
      + exists (R3 nm), (R3 ms). auto.
    - exists p1, R. split; auto. split; auto. split; [apply coarser_refl|].
      pose proof (pi_count _ _ _ _ H) as Hpc.
      destruct (p_roots p1) as [|a [|b [|c l]]] eqn:Er; simpl in Hpc; try lia; try (destruct Ir1; fail).
      exists a, b. split; auto.
      destruct Ir1 as [<-|[<-|[]]], Ir2 as [<-|[<-|[]]]; try congruence; auto. }
  destruct Hfin as [p3 [R3 [E3 [H3 [C3 [a [b [Er [Ta Tb]]]]]]]]]. rewrite E3.
  rewrite (getSetSize_spec n p3 R3 G 0 a H3) by (rewrite Er; auto).
  rewrite (getSetSize_spec n p3 R3 G 1 b H3) by (rewrite Er; auto).
  assert (Hall : forall i, i < n -> R3 i = a \/ R3 i = b).
  { intros i Hi. destruct (PI_lt n p3 R3 G i H3 Hi) as [Q1 Q2].
    assert (Hin : In (R3 i) (p_roots p3)) by (apply (p_roots_R n p3 R3 G); auto).
    rewrite Er in Hin. destruct Hin as [<-|[<-|[]]]; auto. }
  assert (Hab : a <> b). { pose proof (p_roots_nodup p3) as HN. rewrite Er in HN. inversion HN; subst. intros ->. apply H2. left; auto. }
  assert (Hp0 : proj_reset p3 0 = Some (filter (fun i => R3 i =? a) (seq 0 n))).
  { unfold proj_reset. rewrite Er. cbn [nth_error]. rewrite (pi_size _ _ _ _ H3).
    apply (class_members_spec n p3 R3 G); auto. intros x Hx. apply in_seq in Hx. lia. }
  assert (Hp1 : proj_reset p3 1 = Some (filter (fun i => R3 i =? b) (seq 0 n))).
  { unfold proj_reset. rewrite Er. cbn [nth_error]. rewrite (pi_size _ _ _ _ H3).
    apply (class_members_spec n p3 R3 G); auto. intros x Hx. apply in_seq in Hx. lia. }
  pose proof (conn_coarser n R R3 _ C3 CI) as CI3. pose proof (conn_coarser n R R3 _ C3 CS) as CS3.
  assert (Fab : forall c d, (c = a /\ d = b) \/ (c = b /\ d = a) ->
    filter (fun i => R3 i =? d) (seq 0 n) = filter (fun i => negb (R3 i =? c)) (seq 0 n)).
  { intros c d Hcd. apply filter_ext_in. intros i Hi. apply in_seq in Hi.
    destruct (Hall i) as [Hi'|Hi']; [lia| |]; rewrite Hi'; destruct Hcd as [[-> ->]|[-> ->]];
    rewrite ?Nat.eqb_refl; cbn [negb]; try reflexivity;
    first [apply Nat.eqb_neq; auto | apply eq_sym, negb_true_iff, Nat.eqb_neq; auto]. }
  destruct (Z.ltb _ _).
  - cbn [Nat.sub]. rewrite Hp0, Hp1. eexists. split; [reflexivity|]. cbv iota beta.
    exists (fun i => R3 i =? a). split; auto. split; [apply Fab; auto|].
    split; [apply two_filter; auto|]. split; [apply two_filter; auto|].
    split; intros g Hg; [exact (conn_side n R3 _ _ g CI3 Hg)|exact (conn_side n R3 _ _ g CS3 Hg)].
  - cbn [Nat.sub]. rewrite Hp0, Hp1. eexists. split; [reflexivity|]. cbv iota beta.
    exists (fun i => R3 i =? b). split; auto. split; [apply Fab; auto|].
    split; [apply two_filter; auto|]. split; [apply two_filter; auto|].
    split; intros g Hg; [exact (conn_side n R3 _ _ g CI3 Hg)|exact (conn_side n R3 _ _ g CS3 Hg)].
Qed.
