(** Frobenius numbers and Grobner bases. *)
From Coq Require Import List Arith Bool ZArith Lia Wf_nat.
Import ListNotations.
From Verif Require Import M_Names M_IO Spec_Frob P_Frob Spec_Opt Spec Spec_Lattice.
Local Open Scope Z_scope.
Local Notation length := List.length.

(** ** Sums *)
Lemma inner_cons c cs x xs : inner (c :: cs) (x :: xs) = c * x + inner cs xs.
Proof. reflexivity. Qed.
Lemma inner_sum : forall u v xs, length u = length v -> inner (vector_sum u v) xs = inner u xs + inner v xs.
Proof.
  unfold vector_sum. induction u as [|x u IH]; intros [|y v] [|z xs] L; try discriminate; cbn [combine map inner fst snd]; auto.
  rewrite IH by (cbn in L; congruence). lia.
Qed.
Lemma sum_length u v : length u = length v -> length (vector_sum u v) = length u.
Proof. intros L. unfold vector_sum. rewrite map_length, combine_length. lia. Qed.
Lemma inner_opp_l : forall u xs, inner (map Z.opp u) xs = - inner u xs.
Proof. induction u as [|x u IH]; intros [|y xs]; cbn [map inner]; auto. rewrite IH. lia. Qed.
Lemma product_inner : forall b m, inner_product b m = inner (map Z.of_nat m) b.
Proof. induction b as [|x b IH]; intros [|e m]; cbn [inner_product map inner]; auto. rewrite IH. lia. Qed.
Lemma sum_nth : forall u v i, length u = length v -> nth i (vector_sum u v) 0 = nth i u 0 + nth i v 0.
Proof.
  unfold vector_sum. induction u as [|x u IH]; intros [|y v] [|i] L; try discriminate; cbn [combine map nth fst snd]; try reflexivity.
  all: try (apply IH; cbn in L; congruence).
Qed.
Lemma opp_nth u i : nth i (map Z.opp u) 0 = - nth i u 0.
Proof. change 0 with (- 0) at 1. apply map_nth. Qed.
Lemma list_ext (u v : list Z) : length u = length v -> (forall i, nth i u 0 = nth i v 0) -> u = v.
Proof. intros L H. apply (nth_ext u v 0 0); auto. Qed.
Lemma sum_opp u : vector_sum u (map Z.opp u) = repeat 0 (length u).
Proof.
  apply list_ext; [rewrite sum_length, repeat_length by (now rewrite map_length); auto|]. intros i. rewrite sum_nth, opp_nth by (now rewrite map_length).
  rewrite nth_repeat. lia.
Qed.

(** ** Standard monomials *)
Section Standard.
Variables (a0 : Z) (b : list Z) (G : list (list Z)) (leading : list Z -> Prop).
Hypothesis Pos : Forall (fun x => 0 < x) (a0 :: b).
Hypothesis Ord : reverse_order (a0 :: b) leading.
Hypothesis Rel : forall g, In g G -> relation (a0 :: b) g /\ leading g.
Hypothesis All : forall u, relation (a0 :: b) u -> leading u -> exists g, In g G /\ positive_part_divides g u.
Let J := leading_monomials G.
Let n := length b.

Lemma not_both u : relation (a0 :: b) u -> leading u -> ~ leading (map Z.opp u).
Proof.
  intros R L L'. apply (order_strict _ _ Ord). rewrite <- (proj1 R), <- sum_opp. apply (order_sum _ _ Ord); auto.
  destruct R as (R1 & R2). split; [now rewrite map_length|rewrite inner_opp_l; lia].
Qed.
Lemma first_not_positive x g : In (x :: g) G -> x <= 0.
Proof.
  intros H. destruct (Rel _ H) as (R & L). destruct (Z.le_gt_cases x 0); auto. exfalso. apply (not_both _ R L). cbn [map].
  apply (order_reverse _ _ Ord); [|lia]. destruct R as (R1 & R2). split; [now rewrite <- R1; cbn; rewrite map_length|].
  change (- x :: map Z.opp g) with (map Z.opp (x :: g)). rewrite inner_opp_l. lia.
Qed.
Lemma J_in_ring : in_ring n J.
Proof.
  apply Forall_forall. intros m Hm. apply in_map_iff in Hm. destruct Hm as (g & <- & Hg). destruct (Rel _ Hg) as ((R & _) & _).
  rewrite map_length. destruct g; cbn in *; [discriminate|]. unfold n. congruence.
Qed.
Lemma divs_positive : forall (m : list nat) c g, length c = length m -> Forall (fun x => 0 <= x) c ->
  positive_part_divides g (vector_sum (map Z.of_nat m) (map Z.opp c)) -> divs (map Z.to_nat g) m.
Proof.
  unfold positive_part_divides, divs, vector_sum. induction m as [|e m IH]; intros [|x c] g L F H; try discriminate; cbn [map combine fst snd] in H; inversion H; subst; constructor.
  - inversion F; subst. lia.
  - inversion F; subst. apply (IH c); auto.
Qed.
(** The degree of a standard monomial, less a0, is not representable *)
Lemma standard_degree m : length m = n -> ~ in_ideal J m -> ~ representable (a0 :: b) (inner_product b m - a0).
Proof.
  intros L S (cs & Lc & Fc & E). apply S. destruct cs as [|c0 cs]; [discriminate|]. cbn [length] in Lc. injection Lc as Lc. inversion Fc as [|? ? F0 F1]; subst.
  set (u := (-1 - c0) :: vector_sum (map Z.of_nat m) (map Z.opp cs)).
  assert (LL : length (map Z.of_nat m) = length (map Z.opp cs)) by (rewrite !map_length; unfold n in L; congruence).
  assert (R : relation (a0 :: b) u).
  { split; [unfold u; cbn [length]; rewrite sum_length, map_length by auto; unfold n in L; congruence|]. unfold u. cbn [inner]. rewrite inner_sum, inner_opp_l, <- product_inner by auto.
    cbn [inner] in E. lia. }
  destruct (All u R) as (g & Hg & D); [apply (order_reverse _ _ Ord); [exact R|lia]|].
  exists (map Z.to_nat (tl g)). split; [unfold J, leading_monomials; apply in_map_iff; eauto|]. unfold u in D. inversion D as [|x y g' u' Dx D' E1 E2]; subst. cbn [tl].
  apply (divs_positive m cs); auto. unfold n in L. congruence.
Qed.

(** Monomials of one degree *)
Lemma monomials_of : forall k (xs : list Z) w, length xs = k -> Forall (fun x => 0 < x) xs -> 0 <= w ->
  exists ms : list (list nat), forall m, length m = k -> inner_product xs m <= w -> In m ms.
Proof.
  induction k; intros xs w L F Hw; [exists [[]]; intros [|? ?] Lm _; [left; auto|discriminate]|].
  destruct xs as [|x xs]; [discriminate|]. inversion F; subst. destruct (IHk xs w) as (ms & Hms); auto.
  exists (flat_map (fun e => map (cons e) ms) (seq 0 (S (Z.to_nat w)))). intros [|e m] Lm I; [discriminate|]. cbn [inner_product] in I.
  assert (P : 0 <= inner_product xs m).
  { clear - H2. rename H2 into F. revert m. induction F; intros [|e m]; cbn [inner_product]; try lia. specialize (IHF m). nia. }
  apply in_flat_map. exists e. split; [apply in_seq; nia|]. apply in_map. apply Hms; [cbn in Lm; congruence|nia].
Qed.
Lemma minimal_in (R : list nat -> list nat -> Prop) (dec : list nat -> Prop) :
  (forall x y z, R x y -> R y z -> R x z) -> (forall x, ~ R x x) ->
  forall ms x, dec x -> ~ ~ exists y, dec y /\ forall z, In z ms -> dec z -> ~ R z y.
Proof.
  intros T I. induction ms as [|z ms IH]; intros x Dx NN; [apply NN; exists x; split; auto; intros z []|].
  apply (IH x Dx). intros (y & Dy & My). apply NN. exists y. split; auto. intros z' [<-|H] D' HR; [|apply (My z'); auto].
  apply NN. exists z. split; auto. intros w [<-|Hw] Dw; [apply I|]. intros Hwz. apply (My w Hw Dw). eapply T; eauto.
Qed.

Definition lower (m' m : list nat) : Prop := leading (0 :: vector_sum (map Z.of_nat m) (map Z.opp (map Z.of_nat m'))).
Lemma in_ideal_dec m : {in_ideal J m} + {~ in_ideal J m}.
Proof.
  assert (D : forall g m : list nat, {divs g m} + {~ divs g m}).
  { unfold divs. induction g as [|x g IH]; intros [|y m']; try (right; intros H; inversion H; fail); [left; constructor|].
    destruct (le_dec x y) as [A|A]; [|right; intros H; inversion H; auto]. destruct (IH m') as [B|B]; [left; constructor; auto|right; intros H; inversion H; auto]. }
  unfold in_ideal. induction J as [|g K IH]; [right; intros (g & [] & _)|]. destruct (D g m) as [A|A]; [left; exists g; split; [left; auto|auto]|].
  destruct IH as [B|B]; [left; destruct B as (h & H1 & H2); exists h; split; [right; auto|auto]|right; intros (h & [<-|H1] & H2); [auto|apply B; eauto]].
Qed.
(** Each number that is representable, but not after subtracting a0, is the degree of a standard monomial. The statement is doubly negated
    first, as the order need not be decidable. *)
Lemma standard_exists_nn w : representable (a0 :: b) w -> ~ representable (a0 :: b) (w - a0) ->
  ~ ~ exists m, length m = n /\ inner_product b m = w /\ ~ in_ideal J m.
Proof.
  intros (cs & Lc & Fc & E) N NN. destruct cs as [|c0 cs]; [discriminate|]. cbn [length] in Lc. injection Lc as Lc. inversion Fc as [|? ? F0 F1]; subst. cbn [inner] in *.
  assert (c0 = 0) as ->.
  { destruct (Z.eq_dec c0 0); auto. destruct N. exists ((c0 - 1) :: cs). split; [cbn; congruence|]. split; [constructor; [lia|auto]|]. cbn [inner]. lia. }
  set (w := 0 * a0 + inner cs b) in *. inversion Pos as [|? ? P0 P1]; subst.
  assert (W0 : 0 <= w). { apply (rep_nonneg (a0 :: b)); auto. exists (0 :: cs). split; [cbn; congruence|]. split; auto. }
  set (start := map Z.to_nat cs). assert (Es : map Z.of_nat start = cs). { unfold start. rewrite map_map. rewrite <- (map_id cs) at 2. apply map_ext_in. intros x Hx. rewrite Forall_forall in F1. specialize (F1 x Hx). lia. }
  set (ok := fun m : list nat => length m = n /\ inner_product b m = w).
  assert (Hs : ok start). { split; [unfold start; rewrite map_length; auto|]. rewrite product_inner, Es. unfold w. lia. }
  destruct (monomials_of n b w eq_refl P1 W0) as (ms & Hms).
  assert (Rl : forall m m', ok m -> ok m' -> relation (a0 :: b) (0 :: vector_sum (map Z.of_nat m) (map Z.opp (map Z.of_nat m')))).
  { intros m m' (L1 & D1) (L2 & D2). assert (length (map Z.of_nat m) = length (map Z.opp (map Z.of_nat m'))) by (rewrite !map_length; congruence).
    split; [cbn [length]; rewrite sum_length, map_length by auto; f_equal; exact L1|]. cbn [inner]. rewrite inner_sum, inner_opp_l, <- !product_inner by auto. lia. }
  set (R := fun m' m => ok m' /\ ok m /\ lower m' m).
  assert (T : forall x y z, R x y -> R y z -> R x z).
  { intros x y z (X & Y & A) (_ & Z & B). split; auto. split; auto. unfold lower in *. pose proof (order_sum _ _ Ord _ _ (Rl y x Y X) (Rl z y Z Y) A B) as S.
    replace (0 :: vector_sum (map Z.of_nat z) (map Z.opp (map Z.of_nat x))) with
      (vector_sum (0 :: vector_sum (map Z.of_nat y) (map Z.opp (map Z.of_nat x))) (0 :: vector_sum (map Z.of_nat z) (map Z.opp (map Z.of_nat y)))); auto.
    destruct X as (X & _), Y as (Y & _), Z as (Z & _). unfold vector_sum at 1. cbn [combine map fst snd]. f_equal.
    change (vector_sum (vector_sum (map Z.of_nat y) (map Z.opp (map Z.of_nat x))) (vector_sum (map Z.of_nat z) (map Z.opp (map Z.of_nat y))) = vector_sum (map Z.of_nat z) (map Z.opp (map Z.of_nat x))).
    assert (Lx : length (map Z.opp (map Z.of_nat x)) = n) by (rewrite !map_length; auto). assert (Ly : length (map Z.opp (map Z.of_nat y)) = n) by (rewrite !map_length; auto).
    assert (Ly' : length (map Z.of_nat y) = n) by (rewrite !map_length; auto). assert (Lz : length (map Z.of_nat z) = n) by (rewrite !map_length; auto).
    apply list_ext; [rewrite !sum_length; rewrite ?sum_length; congruence|]. intros i. rewrite !sum_nth by (rewrite ?sum_length; congruence). rewrite !opp_nth. lia. }
  assert (Ir : forall x, ~ R x x).
  { intros x (X & _ & A). apply (order_strict _ _ Ord). cbn [length repeat]. unfold lower in A. rewrite sum_opp, map_length, (proj1 X) in A. exact A. }
  apply (minimal_in R ok T Ir ms start Hs). intros (m & Hm & Min). apply NN. exists m. destruct Hm as (L & D). split; auto. split; auto.
  intros (g' & Hg' & Dv). apply in_map_iff in Hg'. destruct Hg' as (g & <- & Hg). destruct (Rel g Hg) as ((Rg & Eg) & Lg). destruct g as [|x g]; [discriminate|]. cbn [tl length] in *. injection Rg as Rg.
  pose proof (first_not_positive x g Hg) as Hx. cbn [inner] in Eg.
  set (v := vector_sum (map Z.of_nat m) (map Z.opp g)). assert (LL : length (map Z.of_nat m) = length (map Z.opp g)) by (rewrite !map_length; unfold n in L; congruence).
  assert (Fv : Forall (fun z => 0 <= z) v).
  { unfold v. clear - Dv. unfold divs, vector_sum in *. revert m Dv. induction g as [|y g IH]; intros [|e m] Dv; cbn [map combine]; try constructor; inversion Dv; subst; cbn [fst snd]; [lia|apply IH; auto]. }
  assert (Ev : inner v b = w + x * a0). { unfold v. rewrite inner_sum, inner_opp_l, <- product_inner by auto. lia. }
  assert (Lv : length v = n) by (unfold v; rewrite sum_length, map_length by auto; auto).
  destruct (Z.eq_dec x 0) as [->|NZ].
  - set (m' := map Z.to_nat v). assert (Em : map Z.of_nat m' = v). { unfold m'. rewrite map_map. rewrite <- (map_id v) at 2. apply map_ext_in. intros y Hy. rewrite Forall_forall in Fv. specialize (Fv y Hy). lia. }
    assert (Hm' : ok m'). { split; [unfold m'; rewrite map_length; auto|]. rewrite product_inner, Em, Ev. lia. }
    apply (Min m'); [apply Hms; [apply Hm'|rewrite (proj2 Hm'); lia]|exact Hm'|]. split; auto. split; [split; auto|]. unfold lower. rewrite Em.
    replace (vector_sum (map Z.of_nat m) (map Z.opp v)) with g; auto. apply list_ext; [rewrite sum_length; rewrite !map_length; unfold n in *; congruence|].
    intros i. rewrite sum_nth, opp_nth by (rewrite !map_length; congruence). unfold v. rewrite sum_nth, opp_nth by auto. lia.
  - apply N. exists ((- x - 1) :: v). split; [cbn [length]; f_equal; exact Lv|]. split; [constructor; [lia|exact Fv]|]. cbn [inner]. rewrite Ev. unfold w. lia.
Qed.
Lemma standard_exists w : 0 <= w -> representable (a0 :: b) w -> ~ representable (a0 :: b) (w - a0) ->
  exists m, length m = n /\ inner_product b m = w /\ ~ in_ideal J m.
Proof.
  intros W0 Rp N. inversion Pos as [|? ? P0 P1]; subst. destruct (monomials_of n b w eq_refl P1 W0) as (ms & Hms).
  assert (D : {m | length m = n /\ inner_product b m = w /\ ~ in_ideal J m} + {forall m, In m ms -> ~ (length m = n /\ inner_product b m = w /\ ~ in_ideal J m)}).
  { clear Hms. induction ms as [|m ms IH]; [right; intros m []|]. destruct IH as [H|H]; [left; auto|].
    destruct (Nat.eq_dec (length m) n) as [A|A]; [|right; intros m' [<-|H']; [intros (X & _); auto|auto]].
    destruct (Z.eq_dec (inner_product b m) w) as [B|B]; [|right; intros m' [<-|H']; [intros (_ & X & _); auto|auto]].
    destruct (in_ideal_dec m) as [C|C]; [right; intros m' [<-|H']; [intros (_ & _ & X); auto|auto]|]. left. exists m. auto. }
  destruct D as [(m & H)|D]; [eauto|]. exfalso. apply (standard_exists_nn w Rp N). intros (m & L & E & S). apply (D m); auto. apply Hms; auto. lia.
Qed.

(** The best maximal standard monomials have the degree of the Frobenius number and a0 together *)
Lemma best_standard F : frobenius_number (a0 :: b) F -> 0 <= F + a0 ->
  (exists m, max_standard n J m /\ inner_product b m = F + a0) /\ forall m, max_standard n J m -> inner_product b m <= F + a0.
Proof.
  intros (NF & RF) Hp. inversion Pos as [|? ? P0 P1]; subst.
  assert (Upper : forall m, length m = n -> ~ in_ideal J m -> inner_product b m <= F + a0).
  { intros m L S. destruct (Z.le_gt_cases (inner_product b m) (F + a0)); auto. exfalso. apply (standard_degree m L S). apply RF. lia. }
  split; [|intros m (L & S & _); auto].
  destruct (standard_exists (F + a0) Hp (RF (F + a0) ltac:(lia))) as (m & L & E & S); [now replace (F + a0 - a0) with F by lia|].
  exists m. split; [|exact E]. split; [exact L|]. split; [exact S|]. intros i Hi. destruct (in_ideal_dec (times_var m i)) as [|N]; auto. exfalso.
  assert (LT : length (times_var m i) = n /\ inner_product b m < inner_product b (times_var m i)).
  { clear - L Hi P1. unfold n in *. revert m i L Hi P1. induction b as [|x b' IH]; intros [|e m] [|i] L Hi P1; try discriminate; cbn [length] in Hi; try lia; inversion P1; subst; cbn [times_var length inner_product] in *.
    - split; [auto|nia].
    - destruct (IH m i) as (A & B); auto; try lia. }
  destruct LT as (L' & LT). specialize (Upper _ L' N). lia.
Qed.
End Standard.
