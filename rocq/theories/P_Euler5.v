(** The simplifications by the number of multiples of a variable. *)
From Coq Require Import List Arith Bool ZArith Lia Permutation.
Import ListNotations.
From Verif Require Import M_SqFree M_Euler Spec_Euler P_Euler1 P_Euler2 P_Euler3 P_Euler4.

Notation nm v G := (filter (fun g => negb (e_get g v)) G).
Lemma val_var s v : st_ok s -> v < es_n s -> e_get (es_elim s) v = false ->
  val s = (es_sign s * E (es_gens s) (e_set (tgt s) v false) - es_sign s * E (nm v (es_gens s)) (e_set (tgt s) v false))%Z.
Proof.
  intros K V NE. unfold val. rewrite (E_var _ v) by (try (now apply lens_tgt); now apply get_tgt). ring.
Qed.
Lemma nm_in v G g : In g (nm v G) <-> In g G /\ e_get g v = false.
Proof. rewrite filter_In. now rewrite negb_true_iff. Qed.
Lemma nm_lens n v G : lens n G -> lens n (nm v G).
Proof. intros L g I. apply nm_in in I. now apply L. Qed.

(** The generators that are not multiples of v, within the variables that are left *)
Section Step.
Variables (s : estate) (v : nat).
Hypothesis (K : st_ok s) (V : v < es_n s) (NE : e_get (es_elim s) v = false).
Let w := e_set (tgt s) v false.
Lemma w_length : length w = es_n s. Proof. unfold w. now rewrite set_length, tgt_length. Qed.
Lemma get_w u : e_get w u = true <-> u <> v /\ e_get (tgt s) u = true.
Proof.
  unfold w. rewrite get_set_false. destruct (Nat.eqb_spec u v); split; auto; try discriminate; intros [A B]; congruence.
Qed.
Lemma nm_w g u : In g (nm v (es_gens s)) -> e_get g u = true -> e_get w u = true.
Proof.
  intros I U. apply nm_in in I as [I N]. apply get_w. split; [congruence|]. now apply (gens_tgt s g).
Qed.
(** The term that is tested for full support *)
Lemma full_w t : length t = es_n s ->
  (e_full (e_set (e_lcm t (es_elim s)) v true) = true <-> forall u, e_get w u = true -> e_get t u = true).
Proof.
  intros Lt. pose proof (ok_elim s K) as Le. rewrite full_iff, set_length, lcm_length, Lt by lia. split.
  - intros F u U. apply get_w in U as [A B]. apply get_tgt in B as [B C]; auto. specialize (F u B).
    rewrite get_set in F by (rewrite lcm_length; lia). destruct (Nat.eqb_spec u v); [congruence|].
    rewrite get_lcm, C, orb_false_r in F by lia. auto.
  - intros F u U. rewrite get_set by (rewrite lcm_length; lia). destruct (Nat.eqb_spec u v); auto.
    rewrite get_lcm by lia. destruct (e_get (es_elim s) u) eqn:X; [apply orb_true_r|]. rewrite orb_false_r. apply F, get_w. split; auto.
    now apply get_tgt.
Qed.
Lemma lcm_nonmultiples : length (e_getLcmOfNonMultiples (es_n s) v (es_gens s)) = es_n s /\
  forall u, e_get (e_getLcmOfNonMultiples (es_n s) v (es_gens s)) u = true <-> exists g, In g (nm v (es_gens s)) /\ e_get g u = true.
Proof.
  unfold e_getLcmOfNonMultiples.
  assert (Q : forall G a, lens (es_n s) G -> length a = es_n s ->
    length (fold_left (fun a g => if e_get g v then a else e_lcm a g) G a) = es_n s /\
    forall u, e_get (fold_left (fun a g => if e_get g v then a else e_lcm a g) G a) u = true <-> e_get a u = true \/ exists g, In g (nm v G) /\ e_get g u = true).
  { induction G as [|g G IH]; intros a L La; cbn [fold_left].
    - split; auto. intros u. split; auto. intros [H|[g [[] _]]]; auto.
    - apply lens_cons in L as [Lg L]. cbn [filter]. destruct (e_get g v) eqn:X; cbn [negb]; [now apply IH|].
      destruct (IH (e_lcm a g)) as [A B]; auto; [rewrite lcm_length; lia|]. split; auto.
      intros u. rewrite B, get_lcm by lia. rewrite orb_true_iff. split.
      + intros [[H|H]|[h [I H]]]; auto; right; [exists g|exists h]; split; auto; [now left|now right].
      + intros [H|[h [[<-|I] H]]]; auto. right. eauto. }
  destruct (Q (es_gens s) (e_one (es_n s))) as [A B]; [apply K|apply one_length|]. split; auto.
  intros u. rewrite B, get_one. split; [intros [H|H]; [discriminate|auto]|auto].
Qed.
Lemma E_none : nm v (es_gens s) = [] -> 2 <= length (es_gens s) -> E (nm v (es_gens s)) w = 0%Z.
Proof.
  intros N L. rewrite N. destruct (es_gens s) as [|g [|h G]] eqn:EG; cbn [length] in L; try lia.
  pose proof (ok_anti s K) as A. rewrite EG in A. apply antichain_cons in A as [A _]. specialize (A h (or_introl eq_refl)).
  destruct (inc_witness (es_n s) g h) as [u [U1 U2]]; auto; try (apply (ok_lens s K); rewrite EG; cbn; auto).
  apply (E_nil_pos _ u). apply get_w. split.
  - intros ->. assert (X : In h (nm v (es_gens s))) by (apply nm_in; rewrite EG; cbn; auto). rewrite EG, N in X. destruct X.
  - apply (gens_tgt s g); auto. rewrite EG. now left.
Qed.
Lemma E_single h : nm v (es_gens s) = [h] -> 2 <= length (es_gens s) ->
  E (nm v (es_gens s)) w = (if e_full (e_set (e_lcm h (es_elim s)) v true) then -1 else 0)%Z.
Proof.
  intros N L. assert (Ih : In h (nm v (es_gens s))) by (rewrite N; now left).
  assert (Lh : length h = es_n s) by (apply (nm_lens (es_n s) v (es_gens s)); auto; apply K).
  pose proof Ih as Ih'. apply nm_in in Ih' as [Ih1 Ih2].
  assert (Ig : exists g, In g (es_gens s) /\ e_get g v = true).
  { apply cnt_pos. pose proof (cnt_split v (es_gens s)) as C. rewrite N in C. cbn [length] in C. lia. }
  destruct Ig as [g [Ig Gv]]. assert (NEq : h <> g) by congruence.
  pose proof (antichain_in _ _ _ (ok_anti s K) Ih1 Ig NEq) as A.
  destruct (inc_witness (es_n s) h g) as [u [U1 U2]]; auto; [now apply K|].
  assert (Wu : e_get w u = true) by (apply (nm_w h); auto).
  pose proof w_length as Lw. rewrite N, E_cons by lia. rewrite (E_nil_pos w u) by auto.
  pose proof (full_w h Lh) as F. destruct (e_full _).
  - rewrite E_nil_empty; [lia|]. intros x. rewrite get_colon by lia. destruct (e_get w x) eqn:X; auto. now rewrite (proj1 F eq_refl x X).
  - assert (X : exists x, e_get w x = true /\ e_get h x = false).
    { destruct (existsb (fun x => e_get w x && negb (e_get h x)) (seq 0 (es_n s))) eqn:X.
      - apply existsb_exists in X as [x [_ X]]. apply andb_true_iff in X as [X1 X2]. apply negb_true_iff in X2. eauto.
      - exfalso. assert (false = true); [|discriminate]. apply F. intros x X1. destruct (e_get h x) eqn:X2; auto. rewrite <- X.
        apply existsb_exists. exists x. split; [apply in_seq; apply get_lt in X1; lia|now rewrite X1, X2]. }
    destruct X as [x [X1 X2]]. rewrite (E_nil_pos _ x); [lia|]. rewrite get_colon, X1, X2 by lia. auto.
Qed.
Lemma E_double h k : nm v (es_gens s) = [h; k] ->
  E (nm v (es_gens s)) w = (if e_full (e_set (e_lcm (e_getLcmOfNonMultiples (es_n s) v (es_gens s)) (es_elim s)) v true) then 1 else 0)%Z.
Proof.
  intros N. assert (Ih : In h (nm v (es_gens s))) by (rewrite N; now left).
  assert (Ik : In k (nm v (es_gens s))) by (rewrite N; right; now left).
  assert (Lh : length h = es_n s) by (apply (nm_lens (es_n s) v (es_gens s)); auto; apply K).
  assert (Lk : length k = es_n s) by (apply (nm_lens (es_n s) v (es_gens s)); auto; apply K).
  pose proof (antichain_filter (fun g => negb (e_get g v)) _ (ok_anti s K)) as A. rewrite N in A.
  apply antichain_cons in A as [A _]. specialize (A k (or_introl eq_refl)).
  destruct (inc_witness (es_n s) h k Lh Lk A) as [u [U1 U2]].
  destruct (inc_witness (es_n s) k h Lk Lh (inc_sym _ _ A)) as [y [Y1 Y2]].
  assert (Wu : e_get w u = true) by (apply (nm_w h); auto).
  assert (Wy : e_get w y = true) by (apply (nm_w k); auto).
  destruct lcm_nonmultiples as [Ll Gl]. pose proof (full_w _ Ll) as F. pose proof w_length as Lw.
  rewrite N, !E_cons by (rewrite ?colon_length; lia).
  rewrite (E_nil_pos w u) by auto.
  rewrite (E_nil_pos (e_colon w k) u) by (rewrite get_colon, Wu, U2 by lia; auto).
  rewrite (E_nil_pos (e_colon w h) y) by (rewrite get_colon, Wy, Y2 by lia; auto).
  destruct (e_full _).
  - rewrite E_nil_empty; [lia|]. intros x. rewrite !get_colon by (rewrite ?colon_length; lia). destruct (e_get w x) eqn:X; auto.
    apply (proj1 F eq_refl), Gl in X as [g [I G]]. rewrite N in I. destruct I as [<-|[<-|[]]]; rewrite G; auto.
    now rewrite andb_false_r.
  - assert (X : exists x, e_get w x = true /\ e_get h x = false /\ e_get k x = false).
    { destruct (existsb (fun x => e_get w x && (negb (e_get h x) && negb (e_get k x))) (seq 0 (es_n s))) eqn:X.
      - apply existsb_exists in X as [x [_ X]]. apply andb_true_iff in X as [X1 X2]. apply andb_true_iff in X2 as [X2 X3].
        apply negb_true_iff in X2. apply negb_true_iff in X3. eauto.
      - exfalso. assert (false = true); [|discriminate]. apply F. intros x X1. apply Gl. rewrite N.
        destruct (e_get h x) eqn:X2; [exists h; split; auto; now left|]. destruct (e_get k x) eqn:X3; [exists k; split; auto; right; now left|].
        exfalso. rewrite <- not_true_iff_false in X. apply X.
        apply existsb_exists. exists x. split; [apply in_seq; apply get_lt in X1; lia|now rewrite X1, X2, X3]. }
    destruct X as [x [X1 [X2 X3]]]. rewrite (E_nil_pos _ x); [lia|]. rewrite !get_colon by (rewrite ?colon_length; lia). now rewrite X1, X2, X3.
Qed.
Lemma E_notfull : e_full (e_set (e_lcm (e_getLcmOfNonMultiples (es_n s) v (es_gens s)) (es_elim s)) v true) = false ->
  E (nm v (es_gens s)) w = 0%Z.
Proof.
  intros F. destruct lcm_nonmultiples as [Ll Gl]. rewrite <- not_true_iff_false, (full_w _ Ll) in F. pose proof w_length as Lw.
  destruct (existsb (fun x => e_get w x && negb (e_get (e_getLcmOfNonMultiples (es_n s) v (es_gens s)) x)) (seq 0 (es_n s))) eqn:X.
  - apply existsb_exists in X as [x [_ X]]. apply andb_true_iff in X as [X1 X2]. apply negb_true_iff in X2.
    apply (E_unsupported _ x); auto.
    + intros g I. rewrite Lw. apply (nm_lens _ v _ (ok_lens s K) g I).
    + intros g I. destruct (e_get g x) eqn:G; auto. rewrite <- X2. symmetry. apply Gl. eauto.
  - exfalso. apply F. intros x X1. destruct (e_get (e_getLcmOfNonMultiples (es_n s) v (es_gens s)) x) eqn:X2; auto. rewrite <- X.
    apply existsb_exists. exists x. split; [apply in_seq; apply get_lt in X1; lia|now rewrite X1, X2].
Qed.
End Step.

(** What a simplification that reports no change keeps, and what each simplification does *)
Definition kept (s s' : estate) : Prop :=
  length (es_gens s') = length (es_gens s) /\ (supported s -> supported s').
Record step (acc : Z) (s : estate) (acc' : Z) (s' : estate) : Prop := {
  sp_ok : st_ok s'; sp_val : (acc' + val s' = acc + val s)%Z; sp_n : es_n s' = es_n s;
  sp_len : length (es_gens s') <= length (es_gens s); sp_weight : es_weight s' <= es_weight s }.
Lemma step_refl acc s : st_ok s -> step acc s acc s. Proof. split; auto. Qed.
Lemma step_trans a s a1 s1 a2 s2 : step a s a1 s1 -> step a1 s1 a2 s2 -> step a s a2 s2.
Proof. intros [] []. split; auto; try lia; congruence. Qed.
Lemma kept_trans a b c : kept a b -> kept b c -> kept a c.
Proof. intros [A B] [C D]. split; auto. lia. Qed.
Lemma cnt_elim s v : st_ok s -> 0 < cnt v (es_gens s) -> v < es_n s /\ e_get (es_elim s) v = false.
Proof. intros K C. apply cnt_pos in C as [g [I G]]. apply (gens_tgt s g) in G; auto. now apply get_tgt in G. Qed.

Lemma simple_spec vars gc : 3 <= gc -> forall acc s, st_ok s -> length (es_gens s) = gc ->
  exists b acc' s' counts', optimizeSimple vars gc acc s (e_counts (es_n s) (es_gens s)) = Some (b, acc', s', counts') /\
  step acc s acc' s' /\ (b = true -> es_weight s' < es_weight s) /\
  (b = false -> kept s s' /\ counts' = e_counts (es_n s') (es_gens s') /\
     (forall u, nth u counts' 0 = 0 \/ nth u counts' 0 = nth u (e_counts (es_n s) (es_gens s)) 0) /\
     (forall u, In u vars -> nth u counts' 0 < gc - 2)).
Proof.
  intros G3. induction vars as [|v vars IH]; intros acc s K L; cbn [optimizeSimple];
    destruct (Nat.ltb_spec gc 2); try lia.
  { do 4 eexists. split; [reflexivity|]. split; [now apply step_refl|]. split; [discriminate|]. intros _. repeat split; auto. intros u []. }
  rewrite nth_counts_any by apply K. set (c := cnt v (es_gens s)).
  destruct (Nat.ltb_spec c (gc - 2)) as [C|C].
  { destruct (IH acc s K L) as [b [a [s' [co [R [S [W P]]]]]]]. exists b, a, s', co. split; auto. split; auto. split; auto. intros B.
    destruct (P B) as [P1 [P2 [P3 P4]]]. split; auto. split; auto. split; auto. intros u [<-|I]; auto.
    destruct (P3 v) as [->| ->]; [lia|]. now rewrite nth_counts_any by apply K. }
  destruct (cnt_elim s v K) as [V NE]; [unfold c in C; lia|].
  pose proof (cnt_split v (es_gens s)) as CS. fold c in CS. pose proof (val_var s v K V NE) as VV.
  destruct (colonVar_state s v K V NE) as [s1 [T1 CB]].
  (* what remains after the accumulator was updated *)
  assert (Rest : forall acc' s2, colon_by v s s2 ->
            (acc' + es_sign s * E (es_gens s) (e_set (tgt s) v false) = acc + val s)%Z -> length (es_gens s2) = length (es_gens s) ->
    exists b acc'' s' counts', optimizeSimple vars gc acc' s2 (set_nth (e_counts (es_n s) (es_gens s)) v 0) = Some (b, acc'', s', counts') /\
    step acc s acc'' s' /\ (b = true -> es_weight s' < es_weight s) /\
    (b = false -> kept s s' /\ counts' = e_counts (es_n s') (es_gens s') /\
      (forall u, nth u counts' 0 = 0 \/ nth u counts' 0 = nth u (e_counts (es_n s) (es_gens s)) 0) /\
      (forall u, In u (v :: vars) -> nth u counts' 0 < gc - 2))).
  { intros acc' s2 CB2 A Len. rewrite (colonVar_counts v s s2) by auto.
    destruct (IH acc' s2) as [b [a [s' [co [R [S [W P]]]]]]]; [apply CB2|congruence|].
    exists b, a, s', co. split; auto.
    assert (S1 : step acc s acc' s2).
    { destruct CB2. split; auto; try lia. }
    split; [exact (step_trans _ _ _ _ _ _ S1 S)|]. split; [intros B; specialize (W B); destruct CB2; lia|].
    intros B. destruct (P B) as [P1 [P2 [P3 P4]]]. split; [|split; [auto|split]].
    - eapply kept_trans; [|exact P1]. split; auto. now apply (colonVar_supported v).
    - intros u. destruct (P3 u) as [Pu|Pu]; [now left|]. rewrite Pu. rewrite <- (colonVar_counts v s s2) by auto.
      rewrite nth_set_nth. destruct ((u =? v) && _); auto.
    - intros u [<-|I]; auto. destruct (P3 v) as [->| ->]; [lia|].
      rewrite <- (colonVar_counts v s s2) by auto. rewrite nth_set_nth, Nat.eqb_refl, counts_length.
      destruct (Nat.ltb_spec v (es_n s)); [|lia]. cbn [andb]. lia. }
  assert (Rest' : forall acc', (acc' + es_sign s * E (es_gens s) (e_set (tgt s) v false) = acc + val s)%Z ->
    exists b acc'' s' counts',
     match toColonVar s v with
     | None => None
     | Some (true, s') => Some (true, acc', s', e_counts (es_n s) (es_gens s))
     | Some (false, s') => optimizeSimple vars gc acc' s' (set_nth (e_counts (es_n s) (es_gens s)) v 0)
     end = Some (b, acc'', s', counts') /\
    step acc s acc'' s' /\ (b = true -> es_weight s' < es_weight s) /\
    (b = false -> kept s s' /\ counts' = e_counts (es_n s') (es_gens s') /\
      (forall u, nth u counts' 0 = 0 \/ nth u counts' 0 = nth u (e_counts (es_n s) (es_gens s)) 0) /\
      (forall u, In u (v :: vars) -> nth u counts' 0 < gc - 2))).
  { intros acc' A. rewrite T1. destruct (Nat.eqb_spec (length (es_gens s)) (length (es_gens s1))) as [Q|Q]; cbn [negb].
    - apply Rest; auto.
    - do 4 eexists. split; [reflexivity|]. split; [|split; [destruct CB; auto|discriminate]]. destruct CB. split; auto; try lia. }
  destruct (Nat.eqb_spec c (gc - 1)) as [C1|C1].
  - assert (LN : length (nm v (es_gens s)) = 1) by lia.
    destruct (nm v (es_gens s)) as [|h [|? ?]] eqn:N; cbn [length] in LN; try lia.
    destruct (nonMultiple_spec v (es_gens s)) as [h' [Nh Gh]].
    { exists h. apply nm_in. rewrite N. now left. }
    rewrite Nh. assert (Hh : h' = h).
    { assert (X : In h' (nm v (es_gens s))) by (apply nm_in; split; auto; now apply nth_error_In in Nh). rewrite N in X. destruct X as [X|[]]; auto. }
    subst h'. pose proof (E_single s v K V NE h N ltac:(lia)) as ES1. rewrite <- N in VV. rewrite ES1 in VV. apply Rest'.
    destruct (e_full _); lia.
  - destruct (Nat.eqb_spec c (gc - 2)) as [C2|C2].
    + assert (LN : length (nm v (es_gens s)) = 2) by lia.
      destruct (nm v (es_gens s)) as [|h [|k [|? ?]]] eqn:N; cbn [length] in LN; try lia.
      pose proof (E_double s v K V NE h k N) as ES1. rewrite <- N in VV. rewrite ES1 in VV. apply Rest'.
      destruct (e_full _); lia.
    + pose proof (cnt_le v (es_gens s)) as CL. assert (LN : length (nm v (es_gens s)) = 0) by (unfold c in *; lia).
      apply length_zero_iff_nil in LN. rewrite (E_none s v K V LN ltac:(lia)) in VV.
      unfold toColonVarNoRe. destruct (Nat.ltb_spec v (es_n s)); [|lia].
      set (s2 := ES (es_n s) (e_colonVar v (es_gens s)) (e_set (es_elim s) v true) (es_sign s)).
      apply Rest; [|lia|cbn; unfold e_colonVar; apply map_length].
      apply colon_state; auto. split; [exists []; now rewrite app_nil_r|]. split.
      * apply (antichain_set (es_n s)); try apply K. intros g I. destruct (e_get g v) eqn:G; auto.
        assert (X : In g (nm v (es_gens s))) by (now apply nm_in). rewrite LN in X. destruct X.
      * intros y I. exists y. split; auto. apply divides_refl.
Qed.

Lemma pairs_spec vars : (forall v, In v vars -> True) -> forall acc s, st_ok s -> (forall v, In v vars -> v < es_n s) ->
  exists b s' counts', optimizeVarPairs vars s (e_counts (es_n s) (es_gens s)) = Some (b, s', counts') /\
  step acc s acc s' /\ (b = true -> es_weight s' < es_weight s) /\
  (b = false -> kept s s' /\ counts' = e_counts (es_n s') (es_gens s') /\
     (forall u, nth u counts' 0 = 0 \/ nth u counts' 0 = nth u (e_counts (es_n s) (es_gens s)) 0)).
Proof.
  intros _ acc. induction vars as [|v vars IH]; intros s K B; cbn [optimizeVarPairs].
  { do 3 eexists. split; [reflexivity|]. split; [now apply step_refl|]. split; [discriminate|]. intros _. repeat split; auto. }
  assert (V : v < es_n s) by (apply B; now left). assert (B' : forall u, In u vars -> u < es_n s) by (intros; apply B; now right).
  destruct (e_get (es_elim s) v) eqn:NE; [now apply IH|].
  destruct (e_full _) eqn:F; [now apply IH|].
  pose proof (val_var s v K V NE) as VV. rewrite (E_notfull s v K V F) in VV.
  destruct (colonVar_state s v K V NE) as [s1 [T1 CB]]. rewrite T1.
  assert (S1 : step acc s acc s1) by (destruct CB; split; auto; lia).
  destruct (Nat.eqb_spec (length (es_gens s)) (length (es_gens s1))) as [Q|Q]; cbn [negb].
  - rewrite (colonVar_counts v s s1) by auto.
    destruct (IH s1) as [b [s' [co [R [S [W P]]]]]]; [apply CB|rewrite (cb_n _ _ _ CB); auto|].
    exists b, s', co. split; auto. split; [exact (step_trans _ _ _ _ _ _ S1 S)|].
    split; [intros X; specialize (W X); destruct CB; lia|]. intros X. destruct (P X) as [P1 [P2 P3]].
    split; [|split; auto].
    + eapply kept_trans; [|exact P1]. split; auto. now apply (colonVar_supported v).
    + intros u. destruct (P3 u) as [Pu|Pu]; [now left|]. rewrite Pu. rewrite <- (colonVar_counts v s s1) by auto.
      rewrite nth_set_nth. destruct ((u =? v) && _); auto.
  - do 3 eexists. split; [reflexivity|]. split; auto. split; [destruct CB; auto|discriminate].
Qed.
