(** The whole algorithm. *)
From Coq Require Import List Arith Bool ZArith Lia Permutation.
Import ListNotations.
From Verif Require Import M_SqFree M_Euler Spec_Euler Spec_EulerCfg P_Euler1 P_Euler2 P_Euler3 P_Euler4 P_Euler5 P_Euler6 P_Euler7 P_Euler8.

Definition good (N : nat) (s : estate) : Prop := st_ok s /\ live s /\ es_n s <= N /\ length (es_gens s) <= N.
Lemma ready_perm cf s G : ready cf s -> Permutation (es_gens s) G -> ready cf (ES (es_n s) G (es_elim s) (es_sign s)) /\
  val (ES (es_n s) G (es_elim s) (es_sign s)) = val s /\ es_weight (ES (es_n s) G (es_elim s) (es_sign s)) = es_weight s.
Proof.
  intros [[A B C D] Sp T O] P. split; [|split].
  - split; cbn [es_n es_gens es_elim es_sign].
    + split; cbn [es_n es_gens es_elim es_sign]; auto; [now apply (lens_perm _ _ _ P)|now apply (antichain_perm _ _ P)|].
      intros g u I. apply D. now apply (Permutation_in _ (Permutation_sym P)).
    + intros v V. destruct (Sp v V) as [g [I G1]]. exists g. split; auto. now apply (Permutation_in _ P).
    + now rewrite <- (Permutation_length P).
    + intros U u. rewrite <- (cnt_perm u _ _ P). auto.
  - unfold val, tgt. cbn [es_gens es_elim es_sign]. now rewrite (E_perm _ _ _ P).
  - unfold es_weight. cbn [es_gens]. fold (total G) (total (es_gens s)). rewrite <- (total_perm _ _ P), <- (Permutation_length P). reflexivity.
Qed.
Lemma process_spec cf N rnd acc s : pairs_supported cf -> good N s ->
  match process_state cf rnd acc s with
  | PDone a => a = (acc + val s)%Z
  | PSplit a this sub => good N this /\ good N sub /\ (a + val this + val sub = acc + val s)%Z /\
      (strategy_ends (c_unique cf) (c_strategy cf) -> es_weight this < es_weight s /\ es_weight sub < es_weight s)
  | PUndef => ~ (strategy_ends (c_unique cf) (c_strategy cf) /\
                 (draws_variables (c_strategy cf) = true -> forall m v, v < m -> m <= N -> exists i, i < c_tries cf /\ rnd i mod m = v))
  | PMore => False
  end.
Proof.
  intros PS [K [Lv [Nn Ng]]]. unfold process_state.
  destruct (compact_spec (c_word cf) s K Lv) as [s1 [-> [K1 [Lv1 [V1 [W1 [N1 G1]]]]]]].
  pose proof (simplify_spec cf PS (S (S (es_weight s1) * S (es_n s1 + length (es_gens s1)))) acc s1 N K1 ltac:(lia) ltac:(lia)) as A.
  pose proof (simplify_spec cf PS (S (S (es_weight s1) * S (es_n s1 + length (es_gens s1)))) acc s1 (es_n s1 + length (es_gens s1)) K1 ltac:(lia) ltac:(lia)) as B.
  destruct (simplify cf _ acc s1) as [a|a s2 co| |]; auto.
  - now rewrite A, V1.
  - destruct A as [Rd [V2 [-> [W2 [N2 G2]]]]]. clear B.
    destruct (do_pivot rnd (c_tries cf) (c_strategy cf) s2 (e_counts (es_n s2) (es_gens s2))) as [[G p]|] eqn:DP.
    + destruct (do_pivot_sound cf s2 Rd _ _ _ _ _ DP) as [P [Lg Sh]]. destruct (ready_perm cf s2 G Rd P) as [Rd' [V' W']].
      destruct (split_spec cf _ p Rd' Lg) as [this [sub [-> [Kt [Lt [Ks [Ls [Vs [Nt [Ns [Gt [Gs Wt]]]]]]]]]]]].
      cbn [es_n es_gens] in *. rewrite <- (Permutation_length P) in Gt, Gs.
      split; [split; [auto|split; [auto|split; lia]]|]. split; [split; [auto|split; [auto|split; lia]]|]. split; [lia|].
      intros En. specialize (Wt (Sh En)). lia.
    + intros [En Dr]. revert DP. apply (do_pivot_some cf); [auto| |auto]. intros D v V. apply (Dr D (es_n s2)); auto.
  - exfalso. assert (second (c_strategy cf) s1 <= es_n s1 + length (es_gens s1)) by (unfold second; destruct (c_strategy cf); lia).
    rewrite Nat.mul_succ_l in B. nia.
Qed.
Definition stack_val (l : list estate) : Z := fold_right (fun s a => (val s + a)%Z) 0%Z l.
Lemma loop_sound cf N : pairs_supported cf -> forall fuel t stack acc r, Forall (good N) stack ->
  euler_loop cf fuel t stack acc = EAnswer r -> r = (acc + stack_val stack)%Z.
Proof.
  intros PS. induction fuel as [|k IH]; intros t stack acc r F H.
  - destruct stack; [|discriminate]. injection H as <-. cbn. lia.
  - destruct stack as [|s rest]; cbn [euler_loop] in H; [injection H as <-; cbn; lia|].
    apply Forall_cons_iff in F as [Gs F]. pose proof (process_spec cf N (c_rand cf t) acc s PS Gs) as P. cbn [stack_val fold_right]. fold (stack_val rest).
    destruct (process_state cf (c_rand cf t) acc s) as [a|a this sub| |]; try discriminate.
    + apply IH in H; auto. lia.
    + destruct P as [Gt [Gs' [V _]]]. apply IH in H; auto. cbn [stack_val fold_right] in H. fold (stack_val rest) in H. lia.
Qed.
Lemma loop_ends cf N : pairs_supported cf -> settings_end cf N -> forall w s, es_weight s < w -> good N s -> forall t acc rest,
  exists k, forall fuel, euler_loop cf (k + fuel) t (s :: rest) acc = euler_loop cf fuel (k + t) rest (acc + val s)%Z.
Proof.
  intros PS [En Dr]. induction w as [|w IH]; intros s W G t acc rest; [lia|].
  pose proof (process_spec cf N (c_rand cf t) acc s PS G) as P.
  destruct (process_state cf (c_rand cf t) acc s) as [a|a this sub| |] eqn:Q.
  - exists 1. intros fuel. cbn [euler_loop Nat.add]. rewrite Q. now subst a.
  - destruct P as [Gt [Gs [V Wt]]]. specialize (Wt En).
    destruct (IH sub ltac:(lia) Gs (S t) a (this :: rest)) as [k1 H1].
    destruct (IH this ltac:(lia) Gt (k1 + S t) (a + val sub)%Z rest) as [k2 H2].
    exists (S (k1 + k2)). intros fuel. cbn [Nat.add]. cbn [euler_loop]. rewrite Q. rewrite <- Nat.add_assoc, H1, H2. f_equal; lia.
  - exfalso. apply P. split; auto. intros D m v A B. now apply Dr.
  - destruct P.
Qed.

(** ** The value *)
Lemma hits_all_false G F : hits_all G F = false <-> exists g, In g G /\ e_prime F g = true.
Proof.
  unfold hits_all. split.
  - intros H. induction G as [|g G IH]; [discriminate|]. cbn [forallb] in H. apply andb_false_iff in H as [H|H].
    + exists g. split; [now left|]. now apply negb_false_iff.
    + destruct (IH H) as [h [I P]]. exists h. split; auto. now right.
  - intros [g [I P]]. rewrite <- not_true_iff_false, forallb_forall. intros H. specialize (H g I). unfold hits in H. rewrite P in H. discriminate.
Qed.
Lemma E_all G n : E G (e_all n) = sum_of (fun F => if hits_all G F then alt (card F) else 0%Z) (vectors n).
Proof.
  unfold E. rewrite all_length. apply sum_ext. intros F I. apply vectors_length in I.
  assert (e_divides F (e_all n) = true); [|now rewrite H].
  apply divides_iff; [now rewrite all_length|]. intros v V. apply get_all. apply get_lt in V. lia.
Qed.
Lemma euler_value n G : lens n G -> is_euler n (dual_face G) (E G (e_all n) - (if Nat.eqb n 0 then 1 else 0)).
Proof.
  intros L. exists (fun F => negb (hits_all G F)). split.
  - intros F LF. rewrite negb_true_iff, hits_all_false. unfold dual_face, elem. split; intros [g [I P]]; exists g; (split; [auto|]).
    + intros v V W. rewrite prime_iff in P by (rewrite (L g I); auto). specialize (P v V). unfold e_get in P. congruence.
    + apply prime_iff; [rewrite (L g I); auto|]. intros v V. destruct (e_get g v) eqn:Q; auto. now destruct (P v V).
  - assert (Z0 : (if Nat.eqb n 0 then 1 else 0)%Z = E [] (e_all n)).
    { rewrite E_nil. replace (e_size (e_all n)) with n; auto. symmetry. rewrite <- (all_length n) at 2. apply size_full.
      intros v V. rewrite all_length in V. now apply get_all. }
    rewrite Z0, !E_all, <- sum_sub. apply sum_ext. intros F _. destruct (hits_all G F); cbn; lia.
Qed.
Lemma is_euler_unique n face a b : is_euler n face a -> is_euler n face b -> a = b.
Proof.
  intros [f [Hf ->]] [g [Hg ->]]. apply sum_ext. intros F I. apply vectors_length in I.
  assert (f F = g F) as ->; auto. apply eq_true_iff_eq. rewrite Hf, Hg by auto. tauto.
Qed.
Lemma is_euler_ext n p q a : (forall F, length F = n -> (p F <-> q F)) -> is_euler n p a -> is_euler n q a.
Proof. intros H [f [Hf ->]]. exists f. split; auto. intros F L. rewrite Hf by auto. auto. Qed.
Lemma minimal_antichain n G : over n G -> minimal_gens G -> lens n G /\ antichain G.
Proof.
  intros O M. assert (L : lens n G) by (unfold over in O; rewrite Forall_forall in O; auto). split; auto. clear O.
  induction G as [|g G IH]; [constructor|]. apply lens_cons in L as [Lg L]. apply antichain_cons. split.
  - intros h I. destruct (In_nth _ _ [] I) as [j [J Ej]]. rewrite <- Ej. split; rewrite <- not_true_iff_false, divides_iff by (rewrite Ej, (L h I); auto).
    + intros H. apply (M 0 (S j)); cbn; try lia. exact H.
    + intros H. apply (M (S j) 0); cbn; try lia. exact H.
  - apply IH; auto. intros i j A B C H. apply (M (S i) (S j)); cbn; try lia. exact H.
Qed.
Lemma initial_state n G : n <> 0 -> G <> [] -> lens n G -> antichain G ->
  good (Nat.max n (length G)) (ES n G (e_one n) 1) /\ val (ES n G (e_one n) 1) = E G (e_all n).
Proof.
  intros N NE L A. assert (K : st_ok (ES n G (e_one n) 1)).
  { split; cbn; auto; [apply one_length|]. intros g u _ _. apply get_one. }
  split; [split; [auto|split; [|cbn; lia]]|].
  - apply live_iff; auto. unfold es_nonElim. cbn [es_n es_elim]. rewrite size_one. lia.
  - unfold val, tgt. cbn [es_sign es_gens es_elim]. rewrite invert_one. lia.
Qed.
Lemma initial_transpose cf n G : n <> 0 -> G <> [] -> lens n G -> antichain G ->
  exists s, (if c_initial cf && shouldTranspose (c_strategy cf) (ES n G (e_one n) 1) then es_transpose (ES n G (e_one n) 1) else Some (ES n G (e_one n) 1)) = Some s
   /\ good (Nat.max n (length G)) s /\ val s = E G (e_all n).
Proof.
  intros N NE L A. destruct (initial_state n G N NE L A) as [[K [Lv [B1 B2]]] V].
  destruct (_ && _); [|exists (ES n G (e_one n) 1); split; auto; split; auto; split; auto].
  destruct (transpose_spec _ K NE) as [s [Q [K' [L' [V' [_ [N' G']]]]]]]. exists s. split; auto. split; [|lia].
  cbn [es_n es_gens] in *. split; auto. split; auto. split; [lia|]. unfold es_nonElim in G'. cbn [es_n es_elim] in G'. lia.
Qed.
Lemma zero_vars G : lens 0 G -> G <> [] -> E G (e_all 0) = 0%Z.
Proof. intros L NE. rewrite E_empty_target; auto. now destruct G. Qed.
Lemma p_algorithm cf fuel n G r : pairs_supported cf -> over n G -> minimal_gens G -> compute_euler cf fuel n G = EAnswer r ->
  is_euler n (dual_face G) r.
Proof.
  intros PS O M H. destruct (minimal_antichain n G O M) as [L A]. pose proof (euler_value n G L) as EV.
  assert (r = E G (e_all n) - (if Nat.eqb n 0 then 1 else 0))%Z as ->; auto.
  unfold compute_euler in H. destruct G as [|g0 G0] eqn:EG; [|rewrite <- EG in *].
  - injection H as <-. rewrite E_nil. replace (e_size (e_all n)) with n; [lia|]. symmetry. rewrite <- (all_length n) at 2. apply size_full.
    intros v V. rewrite all_length in V. now apply get_all.
  - assert (NE : G <> []) by (rewrite EG; discriminate). destruct (Nat.eqb_spec n 0) as [Z|NZ].
    + injection H as <-. subst n. now rewrite zero_vars.
    + destruct (initial_transpose cf n G NZ NE L A) as [s [Q [Gs V]]]. rewrite Q in H.
      apply (loop_sound cf (Nat.max n (length G)) PS) in H; auto. cbn in H. lia.
Qed.
Lemma p_terminates cf n G : pairs_supported cf -> settings_end cf (Nat.max n (length G)) -> over n G -> minimal_gens G ->
  exists r k, forall fuel, k <= fuel -> compute_euler cf fuel n G = EAnswer r.
Proof.
  intros PS SE O M. destruct (minimal_antichain n G O M) as [L A]. unfold compute_euler. destruct G as [|g0 G0] eqn:EG; [exists 0%Z, 0; auto|rewrite <- EG in *].
  assert (NE : G <> []) by (rewrite EG; discriminate). destruct (Nat.eqb_spec n 0) as [Z|NZ]; [exists (-1)%Z, 0; auto|].
  destruct (initial_transpose cf n G NZ NE L A) as [s [Q [Gs V]]]. rewrite Q.
  destruct (loop_ends cf _ PS SE (S (es_weight s)) s ltac:(lia) Gs 0 0%Z []) as [k H].
  exists (0 + val s)%Z, k. intros fuel F. replace fuel with (k + (fuel - k)) by lia. rewrite H. now destruct (fuel - k).
Qed.
(** No input and no number of steps leads to undefined behaviour *)
Lemma loop_defined cf N : pairs_supported cf -> settings_end cf N -> forall fuel t stack acc, Forall (good N) stack ->
  euler_loop cf fuel t stack acc <> EUndef.
Proof.
  intros PS [En Dr]. induction fuel as [|k IH]; intros t stack acc F; [destruct stack; discriminate|].
  destruct stack as [|s rest]; cbn [euler_loop]; [discriminate|]. apply Forall_cons_iff in F as [Gs F].
  pose proof (process_spec cf N (c_rand cf t) acc s PS Gs) as P.
  destruct (process_state cf (c_rand cf t) acc s) as [a|a this sub| |]; auto; try discriminate.
  - destruct P as [Gt [Gs' _]]. auto.
  - exfalso. apply P. split; auto. intros D m v A B. now apply Dr.
Qed.

(** ** Alternating sums *)
Fixpoint union (n : nat) (S : list eterm) : eterm := match S with [] => e_one n | g :: S' => e_lcm g (union n S') end.
Lemma union_length n S : lens n S -> length (union n S) = n.
Proof. induction S as [|g S IH]; intros L; [apply one_length|]. apply lens_cons in L as [Lg L]. cbn. rewrite lcm_length; auto. rewrite IH; auto. Qed.
Lemma get_union n S v : lens n S -> e_get (union n S) v = true <-> exists g, In g S /\ e_get g v = true.
Proof.
  induction S as [|g S IH]; intros L; cbn [union].
  - rewrite get_one. split; [discriminate|]. intros [g [[] _]].
  - apply lens_cons in L as [Lg L]. rewrite get_lcm by (rewrite union_length; auto). rewrite orb_true_iff, IH by auto. split.
    + intros [H|[h [I H]]]; [exists g|exists h]; split; auto; [now left|now right].
    + intros [h [[<-|I] H]]; auto. right. eauto.
Qed.
Lemma sublists_in {A} (l S : list A) x : In S (sublists l) -> In x S -> In x l.
Proof.
  revert S. induction l as [|y l IH]; intros S I X; cbn in I; [destruct I as [<-|[]]; auto|].
  apply in_app_or in I as [I|I]; [right; eauto|]. apply in_map_iff in I as [S' [<- I]]. destruct X as [<-|X]; [now left|right; eauto].
Qed.
Lemma E_subsets n G : forall v, lens n G -> length v = n ->
  E G v = sum_of (fun S => if e_size (e_colon v (union n S)) =? 0 then alt (length S) else 0%Z) (sublists G).
Proof.
  induction G as [|g G IH]; intros v L Lv.
  - cbn [sublists]. rewrite sum_cons, sum_nil, E_nil. cbn [union length]. rewrite <- Lv, colon_one. destruct (_ =? 0); cbn; lia.
  - apply lens_cons in L as [Lg L]. cbn [sublists]. rewrite sum_app, sum_map, E_cons by lia. rewrite (IH v), (IH (e_colon v g)) by (auto; rewrite colon_length; lia).
    assert (Q : sum_of (fun S => if e_size (e_colon v (union n (g :: S))) =? 0 then alt (length (g :: S)) else 0%Z) (sublists G) =
      (- sum_of (fun S => if Nat.eqb (e_size (e_colon (e_colon v g) (union n S))) 0 then alt (length S) else 0%Z) (sublists G))%Z).
    { rewrite <- sum_opp. apply sum_ext. intros S I. cbn [union length].
      assert (LS : lens n S) by (intros x X; apply L; eapply sublists_in; eauto).
      rewrite colon_colon by (rewrite ?union_length; auto; lia). rewrite alt_S. destruct (_ =? 0); lia. }
    rewrite Q. lia.
Qed.
Lemma p_alternating n G r : lens n G -> is_euler n (dual_face G) r -> is_alternating_sum n G r.
Proof.
  intros L H. rewrite (is_euler_unique _ _ _ _ H (euler_value n G L)). clear H r.
  exists (fun S => match S with [] => false | _ => forallb (fun v => existsb (fun g => e_get g v) S) (seq 0 n) end). split.
  - intros S. assert (X : forallb (fun v => existsb (fun g => e_get g v) S) (seq 0 n) = true <-> forall v, v < n -> exists g, In g S /\ elem g v).
    { rewrite forallb_forall. split.
      - intros H v V. assert (I : In v (seq 0 n)) by (apply in_seq; lia). apply H in I. now apply existsb_exists in I.
      - intros H v I. apply in_seq in I. apply existsb_exists. apply H. lia. }
    destruct S as [|g S]; [split; [discriminate|intros [H _]; congruence]|]. rewrite X. split; [intros H; split; auto; discriminate|tauto].
  - rewrite (E_subsets n) by (auto; apply all_length).
    assert (Q : forall S, In S (sublists G) -> (e_size (e_colon (e_all n) (union n S)) =? 0) = forallb (fun v => existsb (fun g => e_get g v) S) (seq 0 n)).
    { intros S I. assert (LS : lens n S) by (intros x X; apply L; eapply sublists_in; eauto).
      apply eq_true_iff_eq. rewrite Nat.eqb_eq, size_zero, forallb_forall. split.
      - intros H v V. apply in_seq in V. specialize (H v). rewrite get_colon, get_all in H by (rewrite ?all_length, ?union_length; auto; lia). cbn in H.
        apply negb_false_iff, get_union in H; auto. now apply existsb_exists.
      - intros H v. destruct (Nat.lt_ge_cases v n) as [V|V].
        + rewrite get_colon, get_all by (rewrite ?all_length, ?union_length; auto; lia). cbn. apply negb_false_iff. apply get_union; auto.
          apply existsb_exists, H, in_seq. lia.
        + apply get_out. rewrite colon_length; rewrite all_length; auto. now rewrite union_length. }
    assert (One : exists rest, sublists G = [] :: rest /\ forall S, In S rest -> S <> []).
    { clear. induction G as [|g G [rest [E1 H]]]; cbn [sublists]; [exists []; split; auto; intros S []|]. rewrite E1. cbn [app map].
      exists (rest ++ [g] :: map (cons g) rest). split; auto. intros S I. apply in_app_or in I as [I|[<-|I]]; auto; [discriminate|].
      apply in_map_iff in I as [S' [<- _]]. discriminate. }
    destruct One as [rest [E1 NE]]. rewrite (sum_ext _ _ _ (fun S I => f_equal (fun b : bool => if b then alt (length S) else 0%Z) (Q S I))).
    rewrite E1 in *. rewrite !sum_cons.
    assert (T : sum_of (fun S => if forallb (fun v => existsb (fun g => e_get g v) S) (seq 0 n) then alt (length S) else 0%Z) rest =
       sum_of (fun S => if match S with [] => false | _ => forallb (fun v => existsb (fun g => e_get g v) S) (seq 0 n) end then alt (length S) else 0%Z) rest).
    { apply sum_ext. intros S I. destruct S; auto. now destruct (NE [] I). }
    rewrite T. match goal with |- context [sum_of ?f rest] => generalize (sum_of f rest) end. intros X. destruct n; cbn [seq forallb existsb length Nat.eqb andb]; unfold alt; cbn [Nat.even]; lia.
Qed.

(** ** The action *)
Lemma minimize_faces n G F : lens n G -> length F = n -> dual_face (e_minimize G) F <-> dual_face G F.
Proof.
  intros L LF. destruct (minimize_spec n G L) as [[R P] [_ C]]. cbn zeta in *. unfold dual_face. split.
  - intros [g [I H]]. exists g. split; auto. apply (Permutation_in _ (Permutation_sym P)), in_or_app. auto.
  - intros [g [I H]]. destruct (C g I) as [m [Im D]]. exists m. split; auto. intros v V W. apply (H v V). revert v V W.
    intros v V. apply divides_iff; auto. rewrite (L g I). now apply (minimize_lens n G L).
Qed.
Lemma antichain_minimal n G : lens n G -> antichain G -> minimal_gens G.
Proof.
  intros L A i j Hi Hj NE H. pose proof (antichain_nodup G A) as ND.
  assert (X : nth i G [] <> nth j G []).
  { intros Q. apply NE. eapply (proj1 (NoDup_nth G [])); eauto. }
  destruct (antichain_in G _ _ A (nth_In _ _ Hi) (nth_In _ _ Hj) X) as [D _].
  assert (LE : length (nth i G []) = length (nth j G [])) by (rewrite !L; auto using nth_In).
  rewrite (proj2 (divides_iff (nth i G []) (nth j G []) LE) H) in D. discriminate.
Qed.
Lemma minimized_ok n G : over n G -> over n (e_minimize G) /\ minimal_gens (e_minimize G).
Proof.
  intros O. assert (L : lens n G) by (unfold over in O; rewrite Forall_forall in O; auto).
  pose proof (minimize_lens n G L) as L'. split; [apply Forall_forall; auto|]. apply (antichain_minimal n); auto.
  now destruct (minimize_spec n G L) as [_ [A _]].
Qed.
Lemma action_input n (swap01 : bool) G : over n G -> over n (if swap01 then map e_invert G else G) /\
  forall F, length F = n -> dual_face (e_minimize (if swap01 then map e_invert G else G)) F <-> action_faces swap01 G F.
Proof.
  intros O. assert (L : lens n G) by (unfold over in O; rewrite Forall_forall in O; auto). destruct swap01; cbn [action_faces].
  - assert (L' : lens n (map e_invert G)) by (intros g I; apply in_map_iff in I as [x [<- I]]; rewrite invert_length; auto).
    split; [apply Forall_forall; auto|]. intros F LF. rewrite (minimize_faces n) by auto. unfold dual_face, spanned_face. split.
    + intros [g [I H]]. apply in_map_iff in I as [x [<- I]]. exists x. split; auto. intros v V. destruct (e_get x v) eqn:Q; auto. exfalso.
      apply (H v V). apply get_invert_true. split; auto. rewrite (L x I). apply get_lt in V. lia.
    + intros [g [I H]]. exists (e_invert g). split; [apply in_map_iff; eauto|]. intros v V W. apply get_invert_true in W as [_ W].
      specialize (H v V). unfold elem in H. unfold e_get in W. congruence.
  - split; auto. intros F LF. now apply (minimize_faces n).
Qed.
Lemma p_action cf fuel swap01 n G r : pairs_supported cf -> over n G -> euler_action cf fuel swap01 n G = EAnswer r ->
  is_euler n (action_faces swap01 G) r.
Proof.
  intros PS O H. destruct (action_input n swap01 G O) as [O' F]. destruct (minimized_ok n _ O') as [O2 M].
  apply p_algorithm in H; auto. eapply is_euler_ext; [|exact H]. exact F.
Qed.
Lemma minimize_le n G : lens n G -> length (e_minimize G) <= length G.
Proof. intros L. destruct (minimize_spec n G L) as [[R P] _]. cbn zeta in *. rewrite (Permutation_length P), app_length. lia. Qed.
Lemma settings_mono cf N M : M <= N -> settings_end cf N -> settings_end cf M.
Proof. intros L [A B]. split; auto. intros D t m v V H. apply (B D); auto. lia. Qed.
Lemma p_action_terminates cf swap01 n G : pairs_supported cf -> settings_end cf (Nat.max n (length G)) -> over n G ->
  exists r k, forall fuel, k <= fuel -> euler_action cf fuel swap01 n G = EAnswer r.
Proof.
  intros PS SE O. destruct (action_input n swap01 G O) as [O' _]. destruct (minimized_ok n _ O') as [O2 M]. apply p_terminates; auto.
  eapply settings_mono; [|exact SE]. assert (L : lens n (if swap01 then map e_invert G else G)) by (unfold over in O'; rewrite Forall_forall in O'; auto).
  pose proof (minimize_le n _ L) as Q. assert (length (if swap01 then map e_invert G else G) = length G) by (destruct swap01; auto; apply map_length). lia.
Qed.
Lemma p_action_defined cf fuel swap01 n G : pairs_supported cf -> settings_end cf (Nat.max n (length G)) -> over n G ->
  euler_action cf fuel swap01 n G <> EUndef.
Proof.
  intros PS SE O. destruct (action_input n swap01 G O) as [O' _]. destruct (minimized_ok n _ O') as [O2 M].
  assert (L0 : lens n (if swap01 then map e_invert G else G)) by (unfold over in O'; rewrite Forall_forall in O'; auto).
  pose proof (minimize_le n _ L0) as Q. assert (Q2 : length (if swap01 then map e_invert G else G) = length G) by (destruct swap01; auto; apply map_length).
  unfold euler_action. set (H := e_minimize _) in *. destruct (minimal_antichain n H O2 M) as [L A]. unfold compute_euler.
  destruct H as [|g0 G0] eqn:EG; [discriminate|]. assert (NE : g0 :: G0 <> []) by discriminate. rewrite <- EG in *.
  destruct (Nat.eqb_spec n 0) as [Z|NZ]; [discriminate|].
  destruct (initial_transpose cf n H NZ NE L A) as [s [Qs [Gs V]]]. rewrite Qs. apply (loop_defined cf (Nat.max n (length H))); auto.
  eapply settings_mono; [|exact SE]. lia.
Qed.

Lemma p_alternating_over n G r : over n G -> is_euler n (dual_face G) r -> is_alternating_sum n G r.
Proof. intros O. apply p_alternating. unfold over in O. rewrite Forall_forall in O. exact O. Qed.
