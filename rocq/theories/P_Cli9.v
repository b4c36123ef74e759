(** The actions that print a number, from text to text. *)
From Coq Require Import String Ascii.
From Coq Require Import List Arith Bool ZArith Lia Sorted Permutation.
Import ListNotations.
From Verif Require Import M_Term M_Ideal M_Slice M_Msm M_Api M_Names M_IO Spec_IO P_Names P_IO P_IO2 P_IO3 P_IO4 P_IO5 P_IO6 P_IO7 P_IO8 P_IO9 P_IO10 P_IOPoly M_Intersect M_Transform M_Actions M_Dim M_Opt M_Cli M_Cli2 P_Cli2 P_Cli3 P_Cli4 P_Cli5 P_Cli6.
From Verif Require Import Spec_Names P_Names2 P_Transform4 P_Cli1 Spec_Slice Spec_Run P_Term P_Ideal P_Decomp P_Internal P_Api P_Api2 P_Api3 P_Api4 P_Api5 P_Translator P_Dim P_Opt6 P_Opt7 P_Opt8 P_Opt9.
From Verif Require Import Spec Spec_Api Spec_Dim Spec_Opt Spec_Cli Spec_Cli2.
Local Notation length := List.length.

(** ** The optimum that the consumer is told *)
Lemma told_program_ok p rnd n J tr l all names L v : length tr = n ->
  solveProgram p rnd (mkCommon n J tr) l all = Some (block n L, v) -> sized_run p rnd n J tr l all ->
  exists ts, told_program p rnd names (mkCommon n J tr) l all = Some (tr, told names ts, v) /\ valued n tr ts L.
Proof.
  intros Ht E S. unfold solveProgram in E. unfold told_program. cbn [co_tr co_n co_ideal] in *.
  destruct (o_run (op_config p (gr_make l tr) all) rnd n J) as [st|] eqn:R; [|discriminate]. cbn [bind] in *.
  destruct (emit n tr (o_sols st)) as [evs|] eqn:X; [|discriminate]. cbn [bind] in E. injection E as E1 E2. exists (o_sols st). split; [now rewrite <- E2|].
  rewrite E1 in X. apply valued_intro; auto. now apply emit_values.
Qed.
Lemma told_optimum_ok std p rnd n I J l all names : legal_oparams p -> in_ring n I -> internal n I J -> length l = n ->
  exists tr ts L v, told_optimum std p rnd names (co_of n I J) l all = Some (tr, told names ts, v) /\ valued n tr ts L /\
    optimum_reported (program_set std n I) l L v /\ (all = false -> length L <= 1) /\
    (all = true -> v <> Some 0%Z -> forall m, optimal (program_set std n I) l m -> In m L).
Proof.
  intros Hp Hr HJ Hl. unfold told_optimum, program_set, co_of. cbn [co_n co_ideal co_tr]. destruct std.
  - destruct (g_standard_sized p rnd n I J l all Hp Hr HJ Hl) as [L [v [A [B [C [D E]]]]]]. unfold solveStandardProgram, co_of in A. cbn [co_n co_ideal co_tr] in A.
    destruct (told_program_ok p rnd n J (tr_decrement (tr_initialize n I)) l all names L v ltac:(unfold tr_decrement; rewrite map_length; apply tr_length) A E) as [ts [X Y]].
    exists (tr_decrement (tr_initialize n I)), ts, L, v. auto.
  - destruct (g_decomposition_sized p rnd n I J l all Hp Hr HJ Hl) as [L [v [A [B [C [D E]]]]]]. unfold solveIrreducibleDecompositionProgram, co_of in A. cbn [co_n co_ideal co_tr] in A.
    destruct (told_program_ok p rnd n _ (tr_initialize n I) l all names L v (tr_length n I) A E) as [ts [X Y]].
    exists (tr_initialize n I), ts, L, v. auto.
Qed.
Lemma solution_min (level : nat) (min std : bool) n I v L x : let v2 := if min then map Z.opp v else v in
  optimum_reported (program_set std n I) v2 L x -> ((2 <=? level) = false -> length L <= 1) ->
  ((2 <=? level) = true -> x <> Some 0%Z -> forall m, optimal (program_set std n I) v2 m -> In m L) ->
  solution level min std n I v L (option_map (fun y => if min then - y else y)%Z x).
Proof.
  intros v2 R One All. split; [intros H; apply One, Nat.leb_gt; lia|].
  assert (Ho : forall m, program_optimal min (program_set std n I) v m <-> optimal (program_set std n I) v2 m).
  { intros m. unfold program_optimal, v2. destruct min; [symmetry; apply optimal_opp|tauto]. }
  assert (Hi : forall m, inner_product v2 m = if min then (- inner_product v m)%Z else inner_product v m).
  { intros m. unfold v2. destruct min; auto. apply inner_opp. }
  destruct x as [y|]; cbn [option_map]; [|exact R]. destruct R as [R1 [R2 R3]]. split; auto. split; auto. split.
  - intros m Hm. rewrite Ho. destruct (R3 m Hm) as [X Y]. split; auto. rewrite Hi in Y. destruct min; lia.
  - intros Hl Hy m Hm. apply All; [apply Nat.leb_le; auto| |apply Ho; auto]. destruct min; intros X; inversion X; subst; lia.
Qed.

(** ** Reading *)
Lemma vector_gd : forall k s, gd (fun p => length (fst p) = k) (readVector k s).
Proof.
  induction k as [|k IH]; intros s; cbn [readVector]; [reflexivity|]. eapply gd_bind; [apply readInteger_gd|]. intros [z r] _.
  eapply gd_bind; [apply IH|]. intros [v r'] H. cbn [gd fst length] in *. congruence.
Qed.
Definition good_optimize (p : list str * list (list Z) * list Z) : Prop := good_ideal (fst p) /\ length (snd p) = length (fst (fst p)).
Lemma read_optimize_gd m f file : gd good_optimize (read_optimize m f file).
Proof.
  unfold read_optimize. eapply gd_bind; [apply ideal_gd, start_outside|]. intros [ic r] [P [_ [N _]]]. cbn [fst snd] in *.
  pose proof (big_good ic P) as G. destruct (big_ideals ic) as [|J Js] eqn:E.
  - unfold big_ideals in E. destruct (ic_ideals ic); [discriminate|]. cbn in E. destruct (rev _); discriminate.
  - inversion G as [|? ? G1 _]; subst. destruct (hasMoreInput r) as [b s]. eapply gd_bind with (Q := fun p => length (fst p) = length (fst J)).
    + destruct b; [apply vector_gd|]. cbn [gd fst]. apply repeat_length.
    + intros [v s'] H. eapply gd_bind; [apply expectEOF_gd|]. intros _ _. split; auto.
Qed.
Lemma read_optimize_good m f file names gens v : read_optimize m f file = Ok (names, map znat gens, v) -> legal_names names /\ in_ring (length names) gens /\ length v = length names.
Proof.
  intros E. pose proof (read_optimize_gd m f file) as G. rewrite E in G. destruct G as [A B]. cbn [fst snd] in *. apply good_znat in A. destruct A. auto.
Qed.
Lemma read_optimize_ideal m f file J : read_ideal m f file = Ok J -> read_optimize m f file = Ok (J, repeat 1%Z (length (fst J))).
Proof.
  unfold read_ideal, read_optimize. destruct (handler_readIdeal m f ic_new _) as [[ic s]| | | | |]; cbn [rbind]; try discriminate.
  unfold expectEOF, hasMoreInput. destruct (eat s) eqn:E; cbn [rbind]; try discriminate. destruct (big_ideals ic); [discriminate|]. intros X. injection X as ->. cbn [rbind]. now cbn.
Qed.
Lemma z_first z : exists c r, z_str z = c :: r /\ isspace c = false /\ isalpha c = false.
Proof.
  destruct (Z.ltb_spec z 0) as [L|L].
  - unfold z_str. destruct z; try lia. eexists _, _. split; [reflexivity|]. split; reflexivity.
  - destruct (z_str_digits z L) as [D N]. destruct (z_str z) as [|c r]; [congruence|]. inversion D; subst. exists c, r. split; auto.
    destruct (digit_facts c); auto.
Qed.
Lemma vector_read : forall v s, eat s = eat (vector_text v) -> exists r, readVector (length v) s = Ok (v, r) /\ eat r = [].
Proof.
  induction v as [|z v IH]; intros s E; cbn [readVector length]; [exists s; auto|]. unfold vector_text in E. cbn [map concat] in E. unfold line_with in E. rewrite <- !app_assoc, eat_zany in E.
  rewrite (readInteger_any z s ([nl] ++ vector_text v)) by (try exact E; reflexivity). cbn [rbind].
  destruct (IH ([nl] ++ vector_text v) eq_refl) as [r [A B]]. rewrite A. cbn [rbind]. eauto.
Qed.
Lemma optimize_file m f names J v : legal_names names -> monomials (length names) J -> length v = length names -> v <> [] -> format_fits m f names J ->
  read_optimize m f (itext f names J ++ vector_text v) = Ok (names, J, v).
Proof.
  intros L M Lv Nv R. unfold read_optimize.
  assert (E0 : exists c r, eat (vector_text v) = c :: r /\ isalpha c = false).
  { destruct v as [|z v]; [congruence|]. unfold vector_text. cbn [map concat]. unfold line_with. rewrite <- !app_assoc, eat_zany. destruct (z_first z) as [c [r [-> [_ H]]]]. cbn [app]. eauto. }
  destruct E0 as [c [r0 [E0 Hc]]].
  destruct (single_rest m f names J (vector_text v) L M R) as [ic [r [A [B C]]]]; [intros _; unfold not_name; now rewrite E0|]. rewrite A. cbn [rbind].
  destruct B as [K [-> [B _]]]. unfold big_ideals. cbn [ic_ideals map rev app fst snd]. rewrite B, rev_involutive.
  unfold hasMoreInput. rewrite C, E0. rewrite <- E0. rewrite <- Lv. destruct (vector_read v (eat (vector_text v)) (eat_idem _)) as [r' [X Y]]. rewrite X. cbn [rbind].
  unfold expectEOF. rewrite Y. reflexivity.
Qed.

(** ** optimize *)
Lemma const_weights n c : forall names names' : list str, length names = n -> Permutation names names' -> NoDup names -> same_term 0%Z names names' (repeat c n) (repeat c n).
Proof.
  intros names names' Ln P N. split; [rewrite repeat_length, <- Ln; now apply Permutation_length|]. intros s.
  assert (G : forall l : list str, length l = n -> exponent_of 0%Z l (repeat c n) s = if in_dec str_dec s l then c else 0%Z).
  { clear. intros l. revert n. unfold exponent_of. induction l as [|x l IH]; intros n L; cbn [index_of]; [destruct (in_dec str_dec s []) as [[]|]; reflexivity|].
    destruct n as [|n]; [discriminate|]. destruct (str_dec x s) as [->|Nx].
    - destruct (in_dec str_dec s (s :: l)) as [|X]; [reflexivity|]. destruct X. now left.
    - specialize (IH n ltac:(cbn in L; lia)). cbn [repeat].
      assert (X : (if in_dec str_dec s (x :: l) then c else 0%Z) = (if in_dec str_dec s l then c else 0%Z)).
      { destruct (in_dec str_dec s l) as [Y|Y], (in_dec str_dec s (x :: l)) as [W|W]; auto; exfalso; [apply W; now right|destruct W; congruence]. }
      rewrite X, <- IH. destruct (index_of s l); reflexivity. }
  rewrite !G; auto; [|rewrite <- Ln; symmetry; now apply Permutation_length].
  destruct (in_dec str_dec s names) as [X|X], (in_dec str_dec s names') as [Y|Y]; auto; exfalso; [apply Y; exact (Permutation_in _ P X)|apply X; exact (Permutation_in _ (Permutation_sym P) Y)].
Qed.
Lemma output_weights canon names gens names' gens' (v : list Z) : output_ring canon names gens names' gens' -> NoDup names -> length v = length names ->
  (canon = true -> ascending names \/ exists c, v = repeat c (length names)) -> same_term 0%Z names names' v v.
Proof.
  intros O N L H. destruct canon; cbn [output_ring] in O.
  - destruct O as [P [A _]]. destruct (H eq_refl) as [H1|[c ->]]; [|apply const_weights; auto]. assert (names' = names) as -> by (apply ascending_unique; auto using Permutation_sym). split; auto.
  - destruct O as [-> _]. split; auto.
Qed.
Lemma drop_first_skipn gens : drop_first gens = map (skipn 1) gens.
Proof. unfold drop_first. apply map_ext. intros [|]; reflexivity. Qed.
Lemma asked_model o names gens (v : list Z) names1 gens1 v1 w : length v = length names -> asked_for o names gens v = (names1, gens1, v1, w) ->
  let chop := oo_chop (oo_what o) && negb (length v =? 0) in
  (if chop then nth 0 v 0%Z else 0%Z) = w /\ (if chop then skipn 1 v else v) = v1 /\ (if chop then skipn 1 names else names) = names1 /\ (if chop then map (skipn 1) gens else gens) = gens1.
Proof.
  intros L E. unfold asked_for in E. destruct names as [|x names], v as [|z v]; try discriminate; cbn [length Nat.eqb negb] in *.
  - rewrite andb_false_r. injection E as <- <- <- <-. auto.
  - rewrite andb_true_r. destruct (oo_chop (oo_what o)); injection E as <- <- <- <-; cbn [skipn nth]; auto using drop_first_skipn.
Qed.
Lemma asked_good o names gens (v : list Z) names1 gens1 v1 w : length v = length names -> legal_names names -> in_ring (length names) gens -> asked_for o names gens v = (names1, gens1, v1, w) ->
  legal_names names1 /\ in_ring (length names1) gens1 /\ length v1 = length names1.
Proof.
  intros L N R E. unfold asked_for in E. destruct names as [|x names], v as [|z v]; try discriminate; try (injection E as <- <- <- <-; auto; fail).
  destruct (oo_chop (oo_what o)); injection E as <- <- <- <-; auto. destruct N as [N1 N2]. inversion N1; subst. inversion N2; subst. split; [split; auto|]. split; [|cbn in L; lia].
  apply Forall_forall. intros g Hg. apply in_map_iff in Hg. destruct Hg as [h [<- Hh]]. unfold in_ring in R. rewrite Forall_forall in R. specialize (R h Hh). destruct h; [discriminate|]. cbn in *. lia.
Qed.
Lemma optimize_general o rnd file names gens v names1 gens1 v1 w : optimize_input_is o file names gens v -> asked_for o names gens v = (names1, gens1, v1, w) ->
  (oo_minimal o = true -> lists_minimal_generators (length names1) gens1 gens1) ->
  exists names' gens' L0 L value out, let what := oo_what o in legal_names names' /\
    output_ring (oo_canon o) names1 gens1 names' gens' /\ L = canon1 (oo_canon o) L0 /\ in_ring (length names') L0 /\ NoDup L /\
    (oo_canon o = true -> descending L) /\ solution (oo_level what) (oo_min what) (oo_maxStandard what) (length names') gens' v1 L value /\
    optimize_print o rnd file = Ok (out ++ if oo_display o then value_line w value else []) /\
    out = if 0 <? oo_level what then stext (oo_output o file) names' (map znat L) else [].
Proof.
  intros [Hp E] Ha Hm. destruct (read_optimize_good _ _ _ _ _ _ E) as [N [R Lv]]. destruct (asked_good o names gens v names1 gens1 v1 w Lv N R Ha) as [N1 [R1 L1]].
  destruct (asked_model o names gens v names1 gens1 v1 w Lv Ha) as [M1 [M2 [M3 M4]]].
  destruct (cli_set_legal (oo_minimal o) (oo_canon o) names1 gens1 N1 R1 Hm) as [names' [gens' [J [A [B [C [D F]]]]]]].
  assert (Ln : length names' = length names1). { destruct (oo_canon o); cbn [output_ring] in F; [destruct F as [P _]; symmetry; now apply Permutation_length|destruct F as [-> _]; auto]. }
  set (what := oo_what o) in *. set (v2 := if oo_min what then map Z.opp v1 else v1).
  assert (L2 : length v2 = length names') by (unfold v2; destruct (oo_min what); rewrite ?map_length; congruence).
  destruct (told_optimum_ok (oo_maxStandard what) (oo_params o) rnd (length names') gens' J v2 (2 <=? oo_level what) names' Hp C D L2) as [tr [ts [L [x [T [V [O [One All]]]]]]]].
  pose proof (solution_min (oo_level what) (oo_min what) (oo_maxStandard what) (length names') gens' v1 L x O One All) as S.
  assert (ND : NoDup L). { destruct x as [y|]; [apply O|]. destruct O as [-> _]. constructor. }
  pose proof (valued_ring _ _ _ _ V) as RL.
  set (out := if 0 <? oo_level what then stext (oo_output o file) names' (map znat (canon1 (oo_canon o) L)) else []).
  exists names', gens', L, (canon1 (oo_canon o) L), (option_map (fun y => if oo_min what then - y else y)%Z x), out. cbv zeta. split; auto. split; auto. split; auto. split; auto. split; [eapply Permutation_NoDup; [apply canon1_perm|exact ND]|]. split; [|split; [|split]].
  - intros Hc. now apply (canon1_descending (length names')).
  - destruct S as [S1 S2]. pose proof (canon1_perm (oo_canon o) L) as P. split; [rewrite <- (Permutation_length P); auto|].
    destruct x as [y|]; cbn [option_map] in *; [|destruct S2 as [-> S2]; split; auto; destruct (oo_canon o); reflexivity].
    destruct S2 as [S3 [S4 [S5 S6]]]. split; [intros X; apply S3; rewrite X in P; now apply Permutation_sym, Permutation_nil in P|]. split; [eapply Permutation_NoDup; eauto|].
    split; [intros m X; apply S5; eapply Permutation_in; [apply Permutation_sym, P|exact X]|]. intros X1 X2 m X3. eapply Permutation_in; [exact P|]. now apply S6.
  - unfold optimize_print. rewrite E. cbn [rbind]. fold what. rewrite nideal_znat. cbn [fst]. rewrite M1, M2, M3, M4. fold v2.
    rewrite A. cbn [bind]. rewrite T.
    assert ((if 0 <? oo_level what then ideal_output (oo_output o file) (oo_canon o) false tr (told names' ts) else Ok []) = Ok out) as ->.
    { unfold out. destruct (0 <? oo_level what); auto. apply (output_one (length names')); auto. }
    cbn [rbind]. do 2 f_equal. unfold value_text, value_line. destruct (oo_display o); auto. destruct x as [y|]; cbn [option_map]; auto.
  - reflexivity.
Qed.
Lemma optimize_printed o rnd file names gens v names1 gens1 v1 w : optimize_input_is o file names gens v -> asked_for o names gens v = (names1, gens1, v1, w) ->
  (oo_minimal o = true -> lists_minimal_generators (length names1) gens1 gens1) ->
  (oo_canon o = true -> ascending names1 \/ exists c, v1 = repeat c (length names1)) ->
  exists names' gens' v' L value out, let what := oo_what o in
    output_ring (oo_canon o) names1 gens1 names' gens' /\ same_term 0%Z names1 names' v1 v' /\
    (oo_canon o = true -> descending L) /\ solution (oo_level what) (oo_min what) (oo_maxStandard what) (length names') gens' v' L value /\
    optimize_print o rnd file = Ok (out ++ if oo_display o then value_line w value else []) /\
    if oo_level what =? 0 then out = [] else shows_ideal (oo_max o) (oo_output o file) names' L out.
Proof.
  intros H Ha Hm Hc. destruct (optimize_general o rnd file names gens v names1 gens1 v1 w H Ha Hm) as [names' [gens' [L0 [L [value [out [N' [A [EL [RL [ND [B [C [D E]]]]]]]]]]]]]].
  destruct (read_optimize_good _ _ _ _ _ _ (proj2 H)) as [N [R Lv]]. destruct (asked_good o names gens v names1 gens1 v1 w Lv N R Ha) as [N1 [R1 L1]].
  exists names', gens', v1, L, value, out. split; auto. split; [eapply output_weights; eauto; apply N1|]. split; auto. split; auto. split; auto.
  subst out. destruct (oo_level (oo_what o)) as [|k]; cbn [Nat.eqb Nat.ltb Nat.leb]; auto. apply stext_shows; auto. rewrite EL. now apply canon1_ring.
Qed.

(** ** What does not depend on the strategy *)
Lemma value_unique level min std n gens v L1 x1 L2 x2 : solution level min std n gens v L1 x1 -> solution level min std n gens v L2 x2 -> x1 = x2.
Proof.
  intros [_ A] [_ B]. destruct x1 as [y1|], x2 as [y2|]; auto.
  - destruct A as [A1 [_ [A2 _]]], B as [B1 [_ [B2 _]]]. destruct L1 as [|m1 L1]; [congruence|]. destruct L2 as [|m2 L2]; [congruence|].
    destruct (A2 m1 (or_introl eq_refl)) as [O1 E1], (B2 m2 (or_introl eq_refl)) as [O2 E2]. f_equal. subst. unfold program_optimal in *. destruct min; destruct O1 as [P1 Q1], O2 as [P2 Q2]; specialize (Q1 _ P2); specialize (Q2 _ P1); lia.
  - destruct A as [A1 [_ [A2 _]]], B as [_ B]. destruct L1 as [|m1 L1]; [congruence|]. destruct (A2 m1 (or_introl eq_refl)) as [O1 _]. unfold program_optimal in O1. destruct min; destruct O1 as [P1 _]; destruct (B _ P1).
  - destruct B as [A1 [_ [A2 _]]], A as [_ B]. destruct L2 as [|m1 L2]; [congruence|]. destruct (A2 m1 (or_introl eq_refl)) as [O1 _]. unfold program_optimal in O1. destruct min; destruct O1 as [P1 _]; destruct (B _ P1).
Qed.
Lemma output_ring_unique canon names gens l1 G1 l2 G2 : NoDup names -> in_ring (length names) gens -> output_ring canon names gens l1 G1 -> output_ring canon names gens l2 G2 -> l1 = l2 /\ G1 = G2.
Proof.
  intros N R. destruct canon; cbn [output_ring]; [|intros [-> ->] [-> ->]; auto]. intros [P1 [A1 F1]] [P2 [A2 F2]].
  assert (l1 = l2) as ->. { apply ascending_unique; auto. eapply Permutation_trans; [apply Permutation_sym; exact P1|exact P2]. }
  split; auto. clear P1 A1 A2. revert G2 F2. assert (NL : NoDup l2) by (eapply Permutation_NoDup; eauto). pose proof (Permutation_length P2) as E.
  induction F1 as [|g g1 l l' H F1 IH]; intros G2 F2; inversion F2; subst; auto. inversion R; subst. f_equal; auto.
  match goal with X : same_term 0 names l2 g ?y |- _ => destruct H as [L1 H1], X as [L2 H2] end. apply (exponent_ext 0 l2); auto. intros s. specialize (H1 s). specialize (H2 s). congruence.
Qed.
Lemma optimize_same o p1 p2 rnd1 rnd2 file names gens v names1 gens1 v1 w : optimize_input_is (with_params o p1) file names gens v -> optimize_input_is (with_params o p2) file names gens v ->
  asked_for o names gens v = (names1, gens1, v1, w) -> (oo_minimal o = true -> lists_minimal_generators (length names1) gens1 gens1) ->
  let what := oo_what o in
  oo_level what = 0 \/ (oo_canon o = true /\ 2 <= oo_level what /\ forall names' gens' m, output_ring true names1 gens1 names' gens' ->
    program_optimal (oo_min what) (program_set (oo_maxStandard what) (length names') gens') v1 m -> inner_product v1 m <> 0%Z) ->
  optimize_print (with_params o p1) rnd1 file = optimize_print (with_params o p2) rnd2 file.
Proof.
  intros H1 H2 Ha Hm what Hl.
  destruct (optimize_general (with_params o p1) rnd1 file names gens v names1 gens1 v1 w H1 Ha Hm) as [l1 [G1 [K1 [L1 [x1 [out1 [N1 [O1 [E1 [R1 [D1 [S1 [T1 [P1 Q1]]]]]]]]]]]]]].
  destruct (optimize_general (with_params o p2) rnd2 file names gens v names1 gens1 v1 w H2 Ha Hm) as [l2 [G2 [K2 [L2 [x2 [out2 [N2 [O2 [E2 [R2 [D2 [S2 [T2 [P2 Q2]]]]]]]]]]]]]].
  destruct (read_optimize_good _ _ _ _ _ _ (proj2 H1)) as [N [R Lv]]. destruct (asked_good o names gens v names1 gens1 v1 w Lv N R Ha) as [N0 [R0 L0]].
  cbn [with_params oo_canon oo_what oo_display oo_output oo_format oo_out oo_in] in O1, O2, S1, S2, T1, T2, P1, P2, Q1, Q2, E1, E2. fold what in T1, T2, Q1, Q2.
  destruct (output_ring_unique _ _ _ _ _ _ _ (proj1 N0) R0 O1 O2) as [<- <-]. pose proof (value_unique _ _ _ _ _ _ _ _ _ _ T1 T2) as EX. rewrite P1, P2, EX. do 2 f_equal. rewrite Q1, Q2.
  destruct Hl as [->|[Hc [Hl Hn]]]; [reflexivity|]. destruct (0 <? oo_level what); auto. change (oo_output (with_params o p2) file) with (oo_output (with_params o p1) file). do 2 f_equal.
  assert (P : Permutation L1 L2).
  { apply NoDup_Permutation; auto. rewrite Hc in O1. destruct T1 as [_ T1], T2 as [_ T2]. rewrite <- EX in T2. destruct x1 as [y|]; [|destruct T1 as [-> _], T2 as [-> _]; tauto].
    destruct T1 as [M1 [_ [A1 B1]]], T2 as [_ [_ [A2 B2]]]. assert (y <> 0%Z). { destruct L1 as [|m L1']; [congruence|]. destruct (A1 m (or_introl eq_refl)) as [X <-]. eapply Hn; eauto. }
    intros m. split; intros X; [apply B2; auto; now apply A1|apply B1; auto; now apply A2]. }
  rewrite E1, E2, Hc in *. cbn [canon1] in *. apply (lexsort_unique (length l1)); auto.
  eapply Permutation_trans; [apply (canon1_perm true)|]. eapply Permutation_trans; [exact P|]. apply Permutation_sym, (canon1_perm true).
Qed.
Lemma optimize_errors o rnd file : legal_oparams (oo_params o) -> oo_minimal o = false -> match read_optimize (oo_max o) (oo_format o file) file with
  | Ok _ => exists out, optimize_print o rnd file = Ok out
  | SyntaxError => optimize_print o rnd file = SyntaxError
  | OtherError => optimize_print o rnd file = OtherError
  | InvalidArgument => optimize_print o rnd file = InvalidArgument
  | OutOfFuel | Undefined => False
  end.
Proof.
  intros Hp Hm. pose proof (read_optimize_gd (oo_max o) (oo_format o file) file) as T.
  destruct (read_optimize (oo_max o) (oo_format o file) file) as [[[names J] v]| | | | |] eqn:E; cbn [gd] in T; auto; try (unfold optimize_print; rewrite E; reflexivity).
  destruct T as [A B]. cbn [fst snd] in *. destruct (good_form _ A) as [gens G]. cbn [fst] in G. injection G as ->.
  destruct (asked_for o names gens v) as [[[names1 gens1] v1] w] eqn:Ha.
  destruct (optimize_general o rnd file names gens v names1 gens1 v1 w) as [l1 [G1 [K1 [L1 [x1 [out1 [_ [_ [_ [_ [_ [_ [_ [P _]]]]]]]]]]]]]]; [split; auto|auto|congruence|]. eauto.
Qed.
Lemma optimize_ideal m f names gens v : legal_names names -> in_ring (length names) gens -> length v = length names -> format_fits m f names (map znat gens) ->
  exists file, write_ideal f names (map znat gens) = Ok file /\ read_optimize m f file = Ok (names, map znat gens, repeat 1%Z (length names)) /\
    (v <> [] -> read_optimize m f (file ++ vector_text v) = Ok (names, map znat gens, v)).
Proof.
  intros N R L F. exists (itext f names (map znat gens)). split; [apply write_ideal_text|]. pose proof (znat_monomials _ _ R) as M. split; [|intros X; now apply optimize_file].
  change (names, map znat gens, repeat 1%Z (length names)) with ((names, map znat gens), repeat 1%Z (length (fst (names, map znat gens)))). apply read_optimize_ideal.
  destruct (ideal_round m f names (map znat gens)) as [file [W X]]; [split; auto|auto|]. rewrite write_ideal_text in W. injection W as ->. exact X.
Qed.
