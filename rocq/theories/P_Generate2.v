(** Proofs about random ideals and random instances of the Frobenius problem. *)
From Coq Require Import String Ascii.
From Coq Require Import List Arith Bool ZArith Znumtheory Lia Permutation Sorted.
Import ListNotations.
From Verif Require Import M_Term M_Ideal M_Names M_IO M_Generate P_Term P_Ideal P_Msm3 P_Generate.
From Verif Require Import Spec Spec_Api Spec_Frob Spec_Generate.
Local Open Scope list_scope.
Local Open Scope nat_scope.
Local Notation length := List.length.

(** ** Inserting monomials that are not comparable *)
Definition good (n : nat) (I : list mono) : Prop := in_ring n I /\ NoDup I /\ no_divisors I.
Lemma good_nil n : good n []. Proof. split; [constructor|]. split; [constructor|]. intros a b []. Qed.
Lemma incomparable_iff n I t : in_ring n I -> length t = n -> (i_isIncomparable n I t = true <-> forall g, In g I -> ~ comparable g t).
Proof.
  intros R L. unfold i_isIncomparable. rewrite negb_true_iff, <- not_true_iff_false, existsb_exists. unfold in_ring in R. rewrite Forall_forall in R. split.
  - intros H g Hg C. apply H. exists g. split; auto. apply orb_true_iff. rewrite t_dominates_iff, t_divides_iff. destruct C as [C|C]; apply (divs_iff n) in C; auto.
  - intros H (g & Hg & C). apply (H g Hg). apply orb_true_iff in C. rewrite t_dominates_iff, t_divides_iff in C. destruct C as [C|C]; [left|right]; apply (divs_iff n); auto.
Qed.
Lemma good_insert n I t : good n I -> length t = n -> i_isIncomparable n I t = true -> good n (i_insert I t).
Proof.
  intros (R & N & D) L H. rewrite incomparable_iff in H by auto. unfold i_insert. split; [|split].
  - unfold in_ring. apply Forall_app. split; auto.
  - apply NoDup_app_intro; auto; [repeat constructor; intros []|]. intros x Hx [<-|[]]. apply (H t Hx). left. apply divs_refl'.
  - intros a b Ha Hb Dab. apply in_app_iff in Ha, Hb. destruct Ha as [Ha|[<-|[]]], Hb as [Hb|[<-|[]]]; auto.
    + exfalso. apply (H a Ha). now left.
    + exfalso. apply (H b Hb). now right.
Qed.
Lemma comparable_found n I t : in_ring n I -> length t = n -> i_isIncomparable n I t = false -> exists g, In g I /\ comparable g t.
Proof.
  intros R L H. unfold i_isIncomparable in H. rewrite negb_false_iff in H. apply existsb_exists in H. destruct H as (g & Hg & C). exists g. split; auto.
  unfold in_ring in R. rewrite Forall_forall in R. apply orb_true_iff in C. rewrite t_dominates_iff, t_divides_iff in C. destruct C as [C|C]; [left|right]; apply (divs_iff n); auto.
Qed.

(** ** Random ideals *)
Lemma candidate_eq max rand range n t : (Z.of_nat range < max)%Z -> tabulate n (fun var => random_exponent max range (rand (t * n + var))) = candidate rand range n t.
Proof.
  intros H. unfold candidate, tabulate. apply map_ext. intros v. unfold random_exponent. destruct (Z.eqb_spec (Z.of_nat range) max); [lia|reflexivity].
Qed.
Lemma candidate_length rand range n t : length (candidate rand range n t) = n. Proof. unfold candidate. now rewrite map_length, seq_length. Qed.
Lemma random_run max rand range n : (Z.of_nat range < max)%Z -> forall tries t I go I' go', good n I -> random_loop tries max rand range n (t * n) go I = (I', go') ->
  good n I' /\ length I' + go' = length I + go /\ (forall m, In m I -> In m I') /\ (forall m, In m I' -> In m I \/ exists s, t <= s < t + tries /\ m = candidate rand range n s) /\
  (go' <> 0 -> forall s, t <= s < t + tries -> exists g, In g I' /\ comparable g (candidate rand range n s)).
Proof.
  intros B. induction tries as [|tries IH]; intros t I go I' go' G H; cbn [random_loop] in H.
  - assert (E : (I, go) = (I', go')) by (destruct (go =? 0); auto). inversion E; subst. repeat split; auto; try apply G. intros _ s Hs. lia.
  - destruct (Nat.eqb_spec go 0) as [->|N]; [inversion H; subst; repeat split; auto; try apply G; lia|]. rewrite candidate_eq in H by auto. set (c := candidate rand range n t) in *.
    assert (Lc : length c = n) by apply candidate_length. replace (t * n + n) with (S t * n) in H by lia. destruct (i_isIncomparable n I c) eqn:E.
    + apply IH in H; [|now apply good_insert]. destruct H as (H1 & H2 & H3 & H4 & H5). split; auto. unfold i_insert in *. rewrite app_length in H2. cbn [length] in H2. split; [unfold term, mono in *; lia|]. split; [|split].
      * intros m Hm. apply H3, in_app_iff. auto.
      * intros m Hm. apply H4 in Hm. destruct Hm as [Hm|(s & Hs & ->)]; [|right; exists s; split; auto; lia]. apply in_app_iff in Hm. destruct Hm as [Hm|[<-|[]]]; auto. right. exists t. split; auto. lia.
      * intros Hgo s Hs. destruct (Nat.eq_dec s t) as [->|Ns]; [|apply H5; auto; lia]. exists c. split; [apply H3, in_app_iff; cbn; auto|left; apply divs_refl'].
    + destruct (comparable_found n I c (proj1 G) Lc E) as (g & Hg & C). apply IH in H; auto. destruct H as (H1 & H2 & H3 & H4 & H5). split; auto. split; [lia|]. split; auto. split.
      * intros m Hm. apply H4 in Hm. destruct Hm as [Hm|(s & Hs & ->)]; auto. right. exists s. split; auto. lia.
      * intros Hgo s Hs. destruct (Nat.eq_dec s t) as [->|Ns]; [|apply H5; auto; lia]. exists g. split; auto.
Qed.
Definition tries : nat := Z.to_nat 4000000.
Lemma p_random max rand range n count : (Z.of_nat range < max)%Z -> exists gens full, generateRandomIdeal max rand range n count = ((x_names n, map znat gens), full) /\
  lists_minimal_generators n gens gens /\ length gens <= count /\ (full = true <-> length gens = count) /\
  (forall m, In m gens -> exists t, t < tries /\ m = candidate rand range n t) /\
  (full = false -> forall t, t < tries -> exists g, In g gens /\ comparable g (candidate rand range n t)).
Proof.
  intros B. unfold generateRandomIdeal. change (Z.to_nat (4 * 1000 * 1000)) with tries. destruct (random_loop tries max rand range n 0 count []) as [gens go] eqn:E.
  change 0 with (0 * n) in E at 1. apply random_run in E; auto using good_nil. destruct E as ((R & N & D) & H2 & _ & H4 & H5). exists gens, (go =? 0). cbn [length] in H2.
  split; [reflexivity|]. split; [now apply g_minimal|]. split; [unfold term, mono in *; lia|]. split; [rewrite Nat.eqb_eq; unfold term, mono in *; lia|]. split.
  - intros m Hm. apply H4 in Hm. destruct Hm as [[]|(s & Hs & ->)]. exists s. split; auto. lia.
  - intros F t Ht. apply Nat.eqb_neq in F. apply (H5 F). lia.
Qed.
Lemma p_candidate rand range n t v : v < n -> nth v (candidate rand range n t) 0 <= range.
Proof.
  intros H. unfold candidate. set (f := fun v => _). rewrite (nth_indep _ 0 (f 0)) by (now rewrite map_length, seq_length). rewrite map_nth. unfold f.
  match goal with |- ?a mod ?b <= _ => pose proof (Nat.mod_upper_bound a b) end. lia.
Qed.

(** ** Edge ideals *)
Lemma edge_run max rand n : forall fuel i go tl I I' go', good n I -> Forall (edge_generator n) I -> edge_loop fuel max rand n i go tl I = Ok (I', go') ->
  good n I' /\ Forall (edge_generator n) I' /\ length I' + go' = length I + go.
Proof.
  induction fuel as [|fuel IH]; intros i go tl I I' go' G F H; cbn [edge_loop] in H.
  - destruct ((go =? 0) || (tl =? 0)%Z); [inversion H; subst; auto|discriminate].
  - destruct ((go =? 0) || (tl =? 0)%Z) eqn:Z; [inversion H; subst; auto|]. apply orb_false_iff in Z. destruct Z as [Z _]. apply Nat.eqb_neq in Z.
    destruct (Nat.eqb_spec n 0) as [->|Nn]; [discriminate|]. assert (A := Nat.mod_upper_bound (rand i) n Nn). assert (B := Nat.mod_upper_bound (rand (i + 1)) n Nn).
    set (a := rand i mod n) in *. set (b := rand (i + 1) mod n) in *. destruct (Nat.eqb_spec a b) as [_|Nab]; [eapply IH; eauto|].
    fold (pair_term n a b) in H. destruct (i_isIncomparable n I (pair_term n a b)) eqn:E; [|eapply IH; eauto]. apply IH in H.
    + destruct H as (H1 & H2 & H3). repeat split; auto; try apply H1. unfold i_insert in H3. rewrite app_length in H3. cbn [length] in H3. unfold term, mono in *; lia.
    + apply good_insert; auto. apply pair_length.
    + apply Forall_app. split; auto. constructor; auto. exists a, b. repeat split; auto; [apply pair_length| |]; now apply pair_product.
Qed.
Lemma p_edge fuel max rand n count r : generateRandomEdgeIdeal fuel max rand n count = Ok r -> exists gens full, r = ((x_names n, map znat gens), full) /\
  Forall (edge_generator n) gens /\ lists_minimal_generators n gens gens /\ length gens <= count /\ (full = true <-> length gens = count).
Proof.
  intros H. unfold generateRandomEdgeIdeal in H. destruct (edge_loop fuel max rand n 0 count (4 * 1000 * 1000) []) as [[gens go]| | | | |] eqn:E; try discriminate. cbn [rbind] in H. inversion H; subst.
  apply edge_run in E; auto using good_nil. destruct E as ((R & N & D) & F & L). cbn [length] in L. exists gens, (go =? 0). split; [reflexivity|]. split; auto. split; [now apply g_minimal|].
  unfold term, mono in *. split; [lia|]. rewrite Nat.eqb_eq. lia.
Qed.
(** All pairs are different: two tries are counted for each one, and so their number becomes 0. *)
Lemma edge_ends max rand n : n <> 0 -> (forall t, rand (2 * t) mod n <> rand (2 * t + 1) mod n) -> forall k t go I, (Z.of_nat (2 * k) <= max)%Z ->
  forall fuel, k <= fuel -> exists r, edge_loop fuel max rand n (2 * t) go (Z.of_nat (2 * k)) I = Ok r.
Proof.
  intros Nn D. induction k as [|k IH]; intros t go I B fuel F.
  - destruct fuel; cbn; rewrite orb_true_r; eauto.
  - destruct fuel as [|fuel]; [lia|]. cbn [edge_loop]. destruct ((go =? 0) || (Z.of_nat (2 * S k) =? 0)%Z); eauto. destruct (Nat.eqb_spec n 0); [tauto|].
    destruct (Nat.eqb_spec (rand (2 * t) mod n) (rand (2 * t + 1) mod n)) as [E|_]; [now apply D in E|].
    rewrite (Z.mod_small (Z.of_nat (2 * S k) - 1)) by lia. rewrite Z.mod_small by lia. replace (Z.of_nat (2 * S k) - 1 - 1)%Z with (Z.of_nat (2 * k)) by lia.
    replace (2 * t + 2) with (2 * S t) by lia. destruct (i_isIncomparable _ _ _); apply IH; lia.
Qed.
Lemma p_edge_ends max rand n count : (4000000 <= max)%Z -> n <> 0 -> (forall t, rand (2 * t) mod n <> rand (2 * t + 1) mod n) ->
  exists enough, forall fuel, enough <= fuel -> exists r, generateRandomEdgeIdeal fuel max rand n count = Ok r.
Proof.
  intros B Nn D. exists (Z.to_nat 2000000). intros fuel F. unfold generateRandomEdgeIdeal.
  destruct (edge_ends max rand n Nn D (Z.to_nat 2000000) 0 count [] ltac:(lia) fuel F) as [[gens go] E]. replace (Z.of_nat (2 * Z.to_nat 2000000)) with (4 * 1000 * 1000)%Z in E by lia.
  change (2 * 0) with 0 in E. rewrite E. cbn [rbind]. eauto.
Qed.
(** The first two numbers are equal, and then the pairs are always the same: the number of tries stays odd. *)
Definition stuck (i : nat) : nat := if i <? 2 then 0 else i mod 2.
Lemma stuck_loop max n go : Z.odd max = true -> 2 <= n -> forall fuel t tl, Z.odd tl = true -> edge_loop fuel max stuck n (2 * S t) (S go) tl [pair_term n 0 1] = OutOfFuel.
Proof.
  intros O Hn. induction fuel as [|fuel IH]; intros t tl Ht; cbn [edge_loop].
  - assert (Z : (tl =? 0)%Z = false). { apply Z.eqb_neq. intros ->. discriminate. } rewrite Z. reflexivity.
  - assert (Z : (tl =? 0)%Z = false). { apply Z.eqb_neq. intros ->. discriminate. } rewrite Z. change ((S go =? 0) || false) with false. cbv iota.
    destruct (Nat.eqb_spec n 0); [lia|].
    assert (A : stuck (2 * S t) mod n = 0). { unfold stuck. destruct (Nat.ltb_spec (2 * S t) 2); [lia|]. rewrite Nat.mul_comm, Nat.mod_mul by lia. apply Nat.mod_small. lia. }
    assert (B : stuck (2 * S t + 1) mod n = 1). { unfold stuck. destruct (Nat.ltb_spec (2 * S t + 1) 2); [lia|]. rewrite Nat.add_comm, (Nat.mul_comm 2), Nat.mod_add by lia. apply Nat.mod_small. lia. }
    rewrite A, B. cbn [Nat.eqb]. fold (pair_term n 0 1).
    assert (C : i_isIncomparable n [pair_term n 0 1] (pair_term n 0 1) = false).
    { apply not_true_iff_false. rewrite incomparable_iff; [|repeat constructor; apply pair_length|apply pair_length]. intros H. apply (H (pair_term n 0 1)); [cbn; auto|left; apply divs_refl']. }
    rewrite C. replace (2 * S t + 2) with (2 * S (S t)) by lia. apply IH.
    destruct (Z.eq_dec (max + 1) 0) as [E0|NE0].
    + rewrite E0, !Zmod_0_r, !Z.odd_sub, Ht. reflexivity.
    + assert (EV : Z.even (max + 1) = true) by (rewrite Z.even_add, <- Z.negb_odd, O; reflexivity).
      assert (M' : forall x, Z.odd (x mod (max + 1)) = Z.odd x). { intros x. rewrite Z.mod_eq by lia. rewrite Z.odd_sub, Z.odd_mul. rewrite <- (Z.negb_even (max + 1)), EV. cbn. apply xorb_false_r. }
      rewrite M', Z.odd_sub, M', Z.odd_sub, Ht. reflexivity.
Qed.
Lemma p_edge_never max n count : Z.odd max = true -> (4000000 <= max)%Z -> 2 <= n -> 2 <= count -> exists rand, forall fuel, generateRandomEdgeIdeal fuel max rand n count = OutOfFuel.
Proof.
  intros O B Hn Hc. exists stuck. intros fuel. unfold generateRandomEdgeIdeal. change (4 * 1000 * 1000)%Z with 4000000%Z.
  assert (E : edge_loop fuel max stuck n 0 count 4000000 [] = OutOfFuel); [|now rewrite E].
  destruct count as [|[|count]]; try lia. destruct fuel as [|fuel]; [reflexivity|]. cbn [edge_loop]. change ((S (S count) =? 0) || (4000000 =? 0)%Z) with false. cbv iota.
  destruct (Nat.eqb_spec n 0); [lia|]. change (stuck 0) with 0. change (stuck (0 + 1)) with 0. rewrite Nat.mod_0_l by lia. cbn [Nat.eqb].
  rewrite Z.mod_small by lia. change (4000000 - 1)%Z with 3999999%Z. change (0 + 2) with 2. destruct fuel as [|fuel]; [reflexivity|]. cbn [edge_loop].
  change ((S (S count) =? 0) || (3999999 =? 0)%Z) with false. cbv iota. destruct (Nat.eqb_spec n 0); [lia|]. change (stuck 2) with 0. change (stuck (2 + 1)) with 1.
  rewrite Nat.mod_0_l, (Nat.mod_small 1) by lia. cbn [Nat.eqb]. fold (pair_term n 0 1). change (i_isIncomparable n [] (pair_term n 0 1)) with true. cbv iota. cbn [i_insert app].
  rewrite (Z.mod_small (3999999 - 1)) by lia. rewrite Z.mod_small by lia. change (2 + 2) with (2 * 2). replace (S (S count) - 1) with (S count) by lia. apply (stuck_loop max n count O Hn fuel 1). reflexivity.
Qed.
Lemma p_edge_undefined fuel max rand count : 0 < count -> 0 < fuel -> generateRandomEdgeIdeal fuel max rand 0 count = Undefined.
Proof. intros H F. unfold generateRandomEdgeIdeal. destruct fuel; [lia|]. destruct count; [lia|]. reflexivity. Qed.

(** ** Instances of the Frobenius problem *)
Lemma z_insert_perm x l : Permutation (z_insert x l) (x :: l).
Proof. induction l as [|y l IH]; cbn; auto. destruct (x <=? y)%Z; auto. rewrite IH. apply perm_swap. Qed.
Lemma z_sort_perm l : Permutation (z_sort l) l.
Proof. unfold z_sort. induction l as [|x l IH]; cbn; auto. rewrite z_insert_perm. auto. Qed.
Lemma z_insert_sorted x l : StronglySorted Z.le l -> StronglySorted Z.le (z_insert x l).
Proof.
  induction 1 as [|y l S IH F]; cbn; [repeat constructor|]. destruct (Z.leb_spec x y).
  - constructor; [constructor; auto|]. constructor; auto. rewrite Forall_forall in *. intros z Hz. specialize (F z Hz). lia.
  - constructor; auto. rewrite Forall_forall in *. intros z Hz. apply (Permutation_in _ (z_insert_perm x l)) in Hz. destruct Hz as [<-|Hz]; [lia|auto].
Qed.
Lemma z_sort_sorted l : StronglySorted Z.le (z_sort l).
Proof. unfold z_sort. induction l; cbn; [constructor|now apply z_insert_sorted]. Qed.
Lemma sorted_increasing l : StronglySorted Z.le l -> increasing l.
Proof.
  induction 1 as [|x l S IH F]; intros i j L B; [cbn in B; lia|]. cbn in B. destruct i as [|i], j as [|j]; cbn; try lia; [|apply IH; lia].
  rewrite Forall_forall in F. apply F, nth_In. lia.
Qed.
Lemma fold_gcd_divides l : forall a, (0 <= a)%Z -> (0 <= fold_left Z.gcd l a)%Z /\ (fold_left Z.gcd l a | a)%Z /\ Forall (fun x => (fold_left Z.gcd l a | x)%Z) l.
Proof.
  induction l as [|x l IH]; intros a A; cbn; [repeat split; auto; exists 1%Z; lia|]. destruct (IH (Z.gcd a x) (Z.gcd_nonneg a x)) as (P & D & F). split; auto. split.
  - eapply Z.divide_trans; [exact D|apply Z.gcd_divide_l].
  - constructor; auto. eapply Z.divide_trans; [exact D|apply Z.gcd_divide_r].
Qed.
Lemma p_genfrob rand count digits : 1 <= count -> 1 <= digits ->
  let numbers := map (fun i => (Z.of_nat (rand i) mod 10 ^ Z.of_nat digits + 1)%Z) (seq 0 count) in
  exists instance, genfrob_action rand count digits = Ok (writeFrobeniusInstance instance) /\
    length instance = count /\ increasing instance /\ (forall a, In a instance -> (1 <= a <= 10 ^ Z.of_nat digits)%Z) /\
    (coprime numbers -> Permutation instance numbers) /\
    (exists rest a g, numbers = a :: rest /\ (0 < g)%Z /\ Forall (fun x => (g | x)%Z) numbers /\ (forall d, Forall (fun x => (d | x)%Z) numbers -> (d | g)%Z) /\
      Permutation instance ((a / g)%Z :: rest)).
Proof.
  intros C D numbers. unfold genfrob_action. destruct (Nat.ltb_spec count 1); [lia|]. destruct (Nat.ltb_spec digits 1); [lia|].
  exists (generateRandomFrobeniusInstance rand count (10 ^ Z.of_nat digits)). split; auto. unfold generateRandomFrobeniusInstance. fold numbers.
  assert (P : (0 < 10 ^ Z.of_nat digits)%Z) by (apply Z.pow_pos_nonneg; lia).
  assert (B : forall a, In a numbers -> (1 <= a <= 10 ^ Z.of_nat digits)%Z).
  { intros a H1. apply in_map_iff in H1. destruct H1 as (i & <- & _). pose proof (Z.mod_pos_bound (Z.of_nat (rand i)) (10 ^ Z.of_nat digits) P). lia. }
  assert (L : length numbers = count) by (unfold numbers; now rewrite map_length, seq_length).
  destruct numbers as [|a rest] eqn:E; [cbn in L; lia|]. assert (A := B a (or_introl eq_refl)). destruct (fold_gcd_divides rest a ltac:(lia)) as (G0 & G1 & G2).
  set (g := fold_left Z.gcd rest a) in *. assert (Gp : (0 < g)%Z). { destruct (Z.eq_dec g 0) as [Z0|]; [|lia]. rewrite Z0 in G1. apply Z.divide_0_l in G1. lia. }
  assert (Q := z_sort_perm ((a / g)%Z :: rest)). split; [apply Permutation_length in Q; rewrite Q; exact L|]. split; [apply sorted_increasing, z_sort_sorted|]. split; [|split].
  - intros x Hx. apply (Permutation_in _ Q) in Hx. destruct Hx as [<-|Hx]; [|apply B; cbn; auto]. destruct G1 as [q Hq]. rewrite Hq, Z.div_mul by lia. nia.
  - intros CP. assert (g = 1%Z) by (apply CP; auto; lia). rewrite Q, H1, Z.div_1_r. auto.
  - exists rest, a, g. split; auto. split; auto. split; [constructor; auto|]. split; auto. intros d F. unfold g. clear - F. revert a F. induction rest as [|x rest IH]; intros a F; cbn; inversion F; subst; auto. inversion H2; subst. apply IH. constructor; auto. now apply Z.gcd_greatest.
Qed.
Lemma p_genfrob_errors rand count digits : count = 0 \/ digits = 0 -> genfrob_action rand count digits = OtherError.
Proof. intros H. unfold genfrob_action. destruct (Nat.ltb_spec count 1); auto. destruct (Nat.ltb_spec digits 1); auto. lia. Qed.
