(** Proofs about intersecting ideals. *)
From Coq Require Import List Arith Bool ZArith Lia Ascii Sorted Permutation.
Import ListNotations.
From Verif Require Import Spec M_Term M_Ideal M_Api M_Names Spec_Names M_Intersect Spec_Intersect P_Term P_Ideal P_Corner P_Translator P_Names P_Names2.

(** ** std::unique after std::sort *)
Section Unique.
  Context {A : Type} (lt : A -> A -> Prop) (eqf : A -> A -> bool).
  Hypothesis total : forall x y, lt x y \/ x = y \/ lt y x.
  Hypothesis trans : forall x y z, lt x y -> lt y z -> lt x z.
  Hypothesis eqf_ok : forall x y, eqf x y = true <-> x = y.
  Lemma unique_gen : forall l x, StronglySorted (fun a b => ~ lt b a) (x :: l) ->
    StronglySorted lt (x :: unique_aux eqf x l) /\ forall e, In e (x :: unique_aux eqf x l) <-> In e (x :: l).
  Proof.
    induction l as [|y l IH]; intros x H; cbn [unique_aux].
    - split; [repeat constructor | reflexivity].
    - inversion H as [|? ? Hs Hf]; subst. inversion Hf as [|? ? Hxy Hf']; subst. destruct (eqf x y) eqn:E.
      + apply eqf_ok in E. subst y. destruct (IH x Hs) as [B C]. split; auto. intros e. rewrite C. cbn. tauto.
      + assert (L : lt x y). { destruct (total x y) as [T|[T|T]]; auto; [|tauto]. apply eqf_ok in T. congruence. }
        destruct (IH y Hs) as [B C]. split.
        * constructor; auto. apply Forall_forall. intros e He. destruct He as [<-|He]; auto. inversion B as [|? ? B1 B2]; subst. rewrite Forall_forall in B2. eapply trans; eauto.
        * intros e. specialize (C e). cbn in *. tauto.
  Qed.
End Unique.
Lemma str_eqb_iff a b : str_eqb a b = true <-> a = b.
Proof. unfold str_eqb. destruct (str_dec a b); split; congruence. Qed.
Lemma names_eqb_iff a b : names_eqb a b = true <-> a = b.
Proof. unfold names_eqb. destruct (list_eq_dec str_dec a b); split; congruence. Qed.
Lemma str_sorted l : StronglySorted (fun a b => ~ str_lt b a) (std_sort str_less l).
Proof.
  assert (S : StronglySorted (before str_less) (std_sort str_less l)).
  { apply std_sort_sorted; unfold before.
    - intros x y H. apply str_less_iff in H. destruct (str_less y x) eqn:E; auto. apply str_less_iff in E. exfalso. eapply str_lt_irr. eapply str_lt_trans; eauto.
    - intros x y z H K. destruct (str_less z x) eqn:E; auto. apply str_less_iff in E.
      assert (H' : ~ str_lt y x) by (intros X; apply str_less_iff in X; congruence). assert (K' : ~ str_lt z y) by (intros X; apply str_less_iff in X; congruence).
      destruct (str_lt_total y x) as [X|[X|X]]; [tauto|subst; tauto|]. exfalso. apply K'. eapply str_lt_trans; eauto. }
  induction S as [|a s S IH F]; constructor; auto. eapply Forall_impl; [|exact F]. intros b H X. unfold before in H. apply str_less_iff in X. congruence.
Qed.
Lemma gather_in s : forall ideals prev, In s (gather prev ideals) \/ (exists p, prev = Some p /\ In s p) <->
  (exists J, In J ideals /\ In s (fst J)) \/ (exists p, prev = Some p /\ In s p).
Proof.
  induction ideals as [|[nm I] ideals IH]; intros prev; cbn [gather].
  - split; intros [H|H]; auto; [inversion H | destruct H as [J [[] _]]].
  - specialize (IH (Some nm)). assert (E : (exists p, Some nm = Some p /\ In s p) <-> In s nm) by (split; [intros [p [X Y]]; congruence | intros X; exists nm; auto]). rewrite E in IH. clear E.
    assert (E : (exists J, In J ((nm, I) :: ideals) /\ In s (fst J)) <-> In s nm \/ exists J, In J ideals /\ In s (fst J)).
    { split; [intros [J [[<-|X] Y]]; [auto | right; eauto]|]. intros [X|[J [X Y]]]; [exists (nm, I); cbn; auto | exists J; cbn; auto]. }
    rewrite E. clear E. rewrite in_app_iff. destruct prev as [p|].
    + assert (E : (exists q, Some p = Some q /\ In s q) <-> In s p) by (split; [intros [q [X Y]]; congruence | intros X; exists p; auto]). rewrite E.
      destruct (names_eqb nm p) eqn:N; [apply names_eqb_iff in N; subst p; cbn [In]|]; tauto.
    + assert (E : (exists q : list str, None = Some q /\ In s q) <-> False) by (split; [intros [q [X Y]]; congruence | tauto]). rewrite E. tauto.
Qed.
Lemma union_spec ideals : ascending (union_names ideals) /\ forall s, In s (union_names ideals) <-> exists J, In J ideals /\ In s (fst J).
Proof.
  assert (G : forall s, In s (gather None ideals) <-> exists J, In J ideals /\ In s (fst J)).
  { intros s. pose proof (gather_in s ideals None) as H. assert (E : (exists q : list str, None = Some q /\ In s q) <-> False) by (split; [intros [q [X Y]]; congruence | tauto]). rewrite E in H. tauto. }
  unfold union_names. pose proof (str_sorted (gather None ideals)) as S. pose proof (fun s => std_sort_in str_less (gather None ideals) s) as P. destruct (std_sort str_less (gather None ideals)) as [|x l] eqn:Q.
  - split; [constructor|]. intros s. rewrite <- G, <- P. reflexivity.
  - cbn [std_unique]. destruct (unique_gen str_lt str_eqb str_lt_total str_lt_trans str_eqb_iff l x S) as [A B]. split; auto. intros s. rewrite B, P. apply G.
Qed.
Lemma ascending_nodup l : ascending l -> NoDup l.
Proof.
  unfold ascending. induction 1 as [|a l S IH F]; constructor; auto. intros H. rewrite Forall_forall in F. apply (str_lt_irr a). auto.
Qed.

(** ** Names and indices *)
Lemma name_index_eq s : forall l, name_index s l = index_of s l.
Proof. induction l as [|t l IH]; cbn; auto. destruct (str_dec s t) as [E|E], (str_dec t s) as [E2|E2]; try congruence; try (now rewrite IH). Qed.
Lemma name_index_nth l i : NoDup l -> i < length l -> name_index (nth i l []) l = Some i.
Proof. intros N L. rewrite name_index_eq. apply index_of_nth; auto. now apply nth_error_nth'. Qed.
Lemma name_index_some s l : NoDup l -> In s l -> exists i, i < length l /\ nth i l [] = s /\ name_index s l = Some i.
Proof. intros N H. apply In_nth with (d := []) in H as [i [L E]]. exists i. split; auto. split; auto. rewrite <- E. now apply name_index_nth. Qed.
Lemma name_index_none s l : ~ In s l -> name_index s l = None.
Proof. intros H. rewrite name_index_eq. now apply index_of_none. Qed.

(** A generator over other names *)
Definition over (names nm : list str) (g : list nat) : list nat :=
  map (fun s => match name_index s nm with Some v => nth v g 0 | None => 0 end) names.
Definition over_all (names : list str) (J : nideal) : big_ideal := map (over names (fst J)) (snd J).
Lemma over_length names nm g : length (over names nm g) = length names. Proof. apply map_length. Qed.
Lemma over_nth names nm g i : i < length names -> nth i (over names nm g) 0 = match name_index (nth i names []) nm with Some v => nth v g 0 | None => 0 end.
Proof. intros L. unfold over. rewrite nth_indep with (d' := match name_index [] nm with Some v => nth v g 0 | None => 0 end) by now rewrite map_length. now rewrite (map_nth (fun s => match name_index s nm with Some v => nth v g 0 | None => 0 end)). Qed.

Lemma collect_zeros es : forall k seen, In 0 seen -> collect seen (repeat 0 k ++ es) = collect seen es.
Proof.
  induction k as [|k IH]; intros seen H; cbn [repeat app collect]; auto. cbn [Nat.leb]. assert (existsb (Nat.eqb 0) seen = true) as -> by (apply existsb_exists; exists 0; auto). auto.
Qed.
Lemma collect_app_zero : forall es rest rest' seen, In 0 seen -> (forall seen', In 0 seen' -> collect seen' rest = collect seen' rest') -> collect seen (es ++ rest) = collect seen (es ++ rest').
Proof.
  induction es as [|e es IH]; intros rest rest' seen H E; cbn [app collect]; auto. destruct (e <=? 900); [destruct (existsb (Nat.eqb e) seen)|]; [apply IH; auto | |f_equal; apply IH; auto].
  f_equal. apply IH; auto. cbn. auto.
Qed.
Lemma collect_over names ideals i : i < length names -> forall seen, In 0 seen ->
  collect seen (concat (map (exponents_of (nth i names [])) ideals)) = collect seen (map (fun g => nth i g 0) (concat (map (over_all names) ideals))).
Proof.
  intros L. induction ideals as [|[nm I] ideals IH]; intros seen H; cbn [map concat]; auto. rewrite map_app.
  assert (E : map (fun g => nth i g 0) (over_all names (nm, I)) = match name_index (nth i names []) nm with Some v => map (fun g => nth v g 0) I | None => repeat 0 (length I) end).
  { unfold over_all. cbn [fst snd]. rewrite map_map. destruct (name_index (nth i names []) nm) as [v|] eqn:Q.
    - apply map_ext. intros g. rewrite over_nth by auto. now rewrite Q.
    - induction I as [|g I IH2]; cbn [map length repeat]; auto. rewrite over_nth, Q by auto. now rewrite IH2. }
  rewrite E. unfold exponents_of at 1. cbn [fst snd]. destruct (name_index (nth i names []) nm) as [v|].
  - apply collect_app_zero; auto.
  - rewrite collect_zeros by auto. cbn [app]. auto.
Qed.
Lemma tables_eq names ideals : tr_initialize_all names ideals = tr_initialize (length names) (concat (map (over_all names) ideals)).
Proof.
  unfold tr_initialize_all, tr_initialize. assert (E : names = map (fun i => nth i names []) (seq 0 (length names))) by (symmetry; apply map_nth_seq). rewrite E at 1. rewrite map_map.
  apply map_ext_in. intros i Hi. apply in_seq in Hi. unfold extractExponents_all, extractExponents. rewrite (collect_over names ideals i) by (cbn; auto; lia). reflexivity.
Qed.
