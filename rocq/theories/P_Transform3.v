(** Unused variables, and sorting. *)
From Coq Require Import List Arith Bool ZArith Lia Ascii Sorted Permutation.
Import ListNotations.
From Verif Require Import Spec M_Term M_Ideal M_Api M_Names Spec_Names M_Intersect Spec_Intersect M_Transform Spec_Transform
  P_Term P_Ideal P_Corner P_Translator P_Names P_Names2 P_Intersect P_Intersect2 P_Intersect3 P_Transform P_Transform2 P_Poly P_Poly3.

(** ** Trimming *)
Fixpoint sel {A} (used : list bool) (t : list A) : list A :=
  match used, t with
  | b :: used', x :: t' => if b then x :: sel used' t' else sel used' t'
  | _, _ => []
  end.
Lemma sel_filter {A} (f : A -> bool) : forall l, sel (map f l) l = filter f l.
Proof. induction l as [|x l IH]; cbn; auto. rewrite IH. destruct (f x); auto. Qed.
Lemma sel_app {A} : forall u u' (t t' : list A), length u = length t -> sel (u ++ u') (t ++ t') = sel u t ++ sel u' t'.
Proof. induction u as [|b u IH]; intros u' [|x t] t' L; cbn in *; try discriminate; auto. rewrite IH by lia. try destruct b; auto. Qed.
Lemma sel_in {A} x : forall u (t : list A), In x (sel u t) -> In x t.
Proof. induction u as [|b u IH]; intros [|y t] H; cbn in *; try contradiction; auto. destruct b; cbn in *; [destruct H; auto|auto]. Qed.
Lemma sel_nodup {A} : forall u (t : list A), NoDup t -> NoDup (sel u t).
Proof. induction u as [|b u IH]; intros [|y t] N; cbn; try constructor. inversion N; subst. destruct b; [constructor; auto; intros X; apply sel_in in X; auto|auto]. Qed.
Lemma sel_same_length {A B} : forall u (t : list A) (t' : list B), length t = length t' -> length (sel u t) = length (sel u t').
Proof. induction u as [|b u IH]; intros [|x t] [|y t'] L; cbn in *; try discriminate; auto. destruct b; cbn; auto. Qed.
Lemma exponent_cons x l e t s : exponent_of 0 (x :: l) (e :: t) s = if str_dec x s then e else exponent_of 0 l t s.
Proof. unfold exponent_of. cbn [index_of]. destruct (str_dec x s); auto. destruct (index_of s l); auto. Qed.
Lemma exponent_none l t s : ~ In s l -> exponent_of 0 l t s = 0.
Proof. intros H. unfold exponent_of. apply index_of_none in H. now rewrite H. Qed.
Lemma sel_exponent s : forall u l (t : list nat), NoDup l -> length t = length l -> length u = length l -> (forall i, nth i u false = false -> nth i t 0 = 0) ->
  exponent_of 0 (sel u l) (sel u t) s = exponent_of 0 l t s.
Proof.
  induction u as [|b u IH]; intros [|x l] [|e t] N L Lu Z; cbn in L, Lu; try discriminate; auto. inversion N as [|? ? N1 N2]; subst.
  assert (Z' : forall i, nth i u false = false -> nth i t 0 = 0) by (intros i; apply (Z (S i))). cbn [sel]. rewrite exponent_cons. destruct b.
  - rewrite exponent_cons. destruct (str_dec x s); auto.
  - destruct (str_dec x s) as [<-|]; auto. rewrite exponent_none by (intros H; apply N1; eapply sel_in; eauto). symmetry. apply (Z 0). auto.
Qed.
Lemma firstn_last {A} d : forall v (t : list A), v < length t -> firstn (S v) t = firstn v t ++ [nth v t d].
Proof. induction v as [|v IH]; intros [|x t] L; cbn [length] in L; try lia; auto. cbn [firstn nth app]. f_equal. apply (IH t). lia. Qed.
Lemma skipn_cons {A} d : forall v (t : list A), v < length t -> skipn v t = nth v t d :: skipn (S v) t.
Proof. induction v as [|v IH]; intros [|x t] L; cbn [length] in L; try lia; auto. cbn [skipn nth]. apply (IH t). lia. Qed.
Definition cut {A} (used : list bool) (var : nat) (t : list A) : list A := sel (firstn var used) (firstn var t) ++ skipn var t.
Lemma cut_used {A} used v (t : list A) : v < length t -> v < length used -> nth v used false = true -> cut used (S v) t = cut used v t.
Proof.
  intros L Lu E. destruct t as [|d t0]; [cbn in L; lia|]. set (t := d :: t0) in *. unfold cut. rewrite (firstn_last false v used), (firstn_last d v t), E by auto.
  rewrite sel_app by (rewrite !firstn_length; lia). cbn [sel]. rewrite <- app_assoc. cbn [app]. now rewrite (skipn_cons d v t).
Qed.
Lemma cut_unused {A} used v (t : list A) : v < length t -> v < length used -> nth v used false = false -> cut used (S v) t = cut used v (firstn v t ++ skipn (S v) t).
Proof.
  intros L Lu E. destruct t as [|d t0]; [cbn in L; lia|]. set (t := d :: t0) in *. unfold cut. rewrite (firstn_last false v used), (firstn_last d v t), E by auto.
  rewrite sel_app by (rewrite !firstn_length; lia). cbn [sel]. rewrite app_nil_r. assert (F : length (firstn v t) = v) by (rewrite firstn_length; lia).
  rewrite firstn_app, F, Nat.sub_diag. cbn [firstn]. rewrite app_nil_r, firstn_firstn, Nat.min_id. rewrite skipn_app, F, Nat.sub_diag. cbn [skipn]. rewrite skipn_all2 by lia. reflexivity.
Qed.
Lemma trim_gen used : forall var names (ideals : list nideal), var <= length used -> var <= length names -> Forall (fun J => fst J = names /\ wf (length names) (snd J)) ideals ->
  trim_from used var names ideals = Some (cut used var names, map (fun J => (cut used var (fst J), map (cut used var) (snd J))) ideals).
Proof.
  induction var as [|v IH]; intros names ideals Lu Ln F; cbn [trim_from].
  - unfold cut. cbn. do 2 f_equal. erewrite map_ext_in; [symmetry; apply map_id|]. intros [nm I] _. cbn. f_equal. apply map_id.
  - rewrite Forall_forall in F. destruct (nth v used false) eqn:E.
    + rewrite IH by (try lia; apply Forall_forall; auto). do 2 f_equal; [now rewrite cut_used by (auto; lia)|]. apply map_ext_in. intros [nm I] HJ. destruct (F _ HJ) as [EJ W]. cbn [fst snd] in *. subst nm. f_equal; [now rewrite cut_used by (auto; lia)|].
      apply map_ext_in. intros g Hg. rewrite cut_used; auto. rewrite (W g Hg). lia.
    + rewrite (@mapO_some nideal nideal (bi_projectVar v) (fun J => (project_names v (fst J), map (fun g => firstn v g ++ skipn (S v) g) (snd J)))).
      2:{ apply Forall_forall. intros [nm I] HJ. destruct (F _ HJ) as [EJ W]. unfold bi_projectVar. cbn [fst snd] in *. rewrite (mapO_erase v (length names)) by (auto; lia). reflexivity. }
      cbn [bind]. assert (LP : length (project_names v names) = length names - 1) by (unfold project_names; apply removed_length; lia). rewrite IH; try lia.
      2:{ apply Forall_forall. intros K HK. apply in_map_iff in HK as [[nm I] [<- HJ]]. destruct (F _ HJ) as [EJ W]. cbn [fst snd] in *. split; [now rewrite EJ|]. rewrite LP. intros r Hr. apply in_map_iff in Hr as [g [<- Hg]]. rewrite removed_length by (rewrite (W g Hg); lia). now rewrite (W g Hg). }
      do 2 f_equal; [symmetry; apply cut_unused; auto; lia|]. rewrite map_map. apply map_ext_in. intros [nm I] HJ. destruct (F _ HJ) as [EJ W]. cbn [fst snd] in *. subst nm. f_equal; [symmetry; apply cut_unused; auto; lia|].
      rewrite map_map. apply map_ext_in. intros g Hg. symmetry. apply cut_unused; auto. rewrite (W g Hg). lia.
Qed.
Lemma cut_all {A} used (t : list A) : length used = length t -> cut used (length t) t = sel used t.
Proof. intros L. unfold cut. rewrite <- L at 1. rewrite !firstn_all, skipn_all, app_nil_r. reflexivity. Qed.
Lemma mark_ok used g : length g = length used -> mark used g = Some (map (fun v => nth v used false || negb (nth v g 0 =? 0)) (seq 0 (length used))).
Proof.
  intros L. unfold mark. assert (forallb (fun v => (nth v g 0 =? 0) || (v <? length used)) (seq 0 (length g)) = true) as ->; auto. apply forallb_forall. intros v Hv. apply in_seq in Hv. apply orb_true_iff. right. apply Nat.ltb_lt. lia.
Qed.
Lemma map_seq_nth {A} (f : nat -> A) d n v : v < n -> nth v (map f (seq 0 n)) d = f v.
Proof. intros L. rewrite nth_indep with (d' := f n) by now rewrite map_length, seq_length. rewrite map_nth. now rewrite seq_nth. Qed.
Lemma mark_all_ok n : forall gens used, length used = n -> wf n gens -> exists u, mark_all used gens = Some u /\ length u = n /\
  forall v, v < n -> nth v u false = (nth v used false || existsb (fun g => negb (nth v g 0 =? 0)) gens).
Proof.
  induction gens as [|g gens IH]; intros used L W; cbn [mark_all].
  - exists used. split; auto. split; auto. intros v Hv. cbn. now rewrite orb_false_r.
  - rewrite mark_ok by (rewrite (W g (or_introl eq_refl)); auto). cbn [bind]. destruct (IH (map (fun v => nth v used false || negb (nth v g 0 =? 0)) (seq 0 (length used)))) as [u [A [B C]]].
    + now rewrite map_length, seq_length.
    + intros x Hx. apply W. right. auto.
    + exists u. split; auto. split; auto. intros v Hv. rewrite C by auto. rewrite map_seq_nth by lia. cbn [existsb]. now rewrite orb_assoc.
Qed.
Theorem p_trim names (ideals : list nideal) : Forall (fun J => fst J = names /\ good_named J) ideals -> NoDup names ->
  exists ideals', if_trimVariables names ideals = Some (filter (divides_some names ideals) names, ideals') /\
    Forall good_named ideals' /\
    Forall2 (fun J J' => fst J' = filter (divides_some names ideals) names /\ Forall2 (same_term 0 names (fst J')) (snd J) (snd J')) ideals ideals'.
Proof.
  intros F N. assert (F' : Forall (fun J => fst J = names /\ wf (length names) (snd J)) ideals).
  { eapply Forall_impl; [|exact F]. intros [nm I] [E G]. apply good_wf in G as [_ W]. cbn in *. subst. auto. }
  assert (W : wf (length names) (concat (map snd ideals))).
  { intros g Hg. apply in_concat in Hg as [I [HI Hg]]. apply in_map_iff in HI as [J [<- HJ]]. rewrite Forall_forall in F'. apply (F' J HJ). auto. }
  destruct (mark_all_ok (length names) (concat (map snd ideals)) (repeat false (length names)) (repeat_length _ _) W) as [used [A [B C]]].
  unfold if_trimVariables. rewrite A. cbn [bind]. rewrite trim_gen by (auto; lia). rewrite cut_all by auto.
  assert (EU : used = map (divides_some names ideals) names).
  { apply nth_ext with (d := false) (d' := false); [now rewrite map_length|]. rewrite B. intros v Hv. rewrite C by auto. rewrite nth_repeat. cbn [orb].
    rewrite nth_indep with (d' := divides_some names ideals []) by now rewrite map_length. rewrite (map_nth (divides_some names ideals)). unfold divides_some.
    assert (X : forall g, exponent_of 0 names g (nth v names []) = nth v g 0). { intros g. unfold exponent_of. rewrite <- name_index_eq, name_index_nth by auto. auto. }
    clear - X. induction ideals as [|J ideals IH]; cbn [map concat existsb]; auto. rewrite existsb_app, IH. f_equal. destruct J as [nm I]. cbn [snd]. clear IH. induction I as [|g I IH2]; cbn [existsb]; auto. rewrite X, IH2. auto. }
  assert (SU : sel used names = filter (divides_some names ideals) names) by (rewrite EU; apply sel_filter). rewrite SU.
  assert (ZU : forall J g, In J ideals -> In g (snd J) -> forall i, nth i used false = false -> nth i g 0 = 0).
  { intros J g HJ Hg i H. destruct (Nat.lt_ge_cases i (length names)) as [Li|Li].
    - rewrite C in H by auto. apply orb_false_iff in H as [_ H]. destruct (Nat.eqb_spec (nth i g 0) 0) as [|Q]; auto. assert (existsb (fun g => negb (nth i g 0 =? 0)) (concat (map snd ideals)) = true); [|congruence].
      apply existsb_exists. exists g. split; [apply in_concat; exists (snd J); split; [now apply in_map|auto]|]. apply Nat.eqb_neq in Q. now rewrite Q.
    - apply nth_overflow. rewrite Forall_forall in F'. destruct (F' J HJ) as [_ WJ]. rewrite (WJ g Hg). auto. }
  set (R := map (fun J => (cut used (length names) (fst J), map (cut used (length names)) (snd J))) ideals).
  assert (ER : R = map (fun J => (filter (divides_some names ideals) names, map (sel used) (snd J))) ideals).
  { unfold R. apply map_ext_in. intros [nm I] HJ. rewrite Forall_forall in F'. destruct (F' _ HJ) as [E WJ]. cbn [fst snd] in *. rewrite E. rewrite cut_all by auto. rewrite SU. f_equal. apply map_ext_in. intros g Hg. rewrite <- (WJ g Hg). apply cut_all. now rewrite (WJ g Hg). }
  rewrite ER. eexists. split; [reflexivity|]. rewrite Forall_forall in F'. split.
  - apply Forall_forall. intros K HK. apply in_map_iff in HK as [J [<- HJ]]. destruct (F' J HJ) as [E WJ]. apply good_wf. split; [apply NoDup_filter; auto|]. intros r Hr. apply in_map_iff in Hr as [g [<- Hg]]. rewrite <- SU. apply sel_same_length. now apply WJ.
  - apply Forall2_map_r. apply Forall_forall. intros J HJ. destruct (F' J HJ) as [E WJ]. cbn [fst snd]. split; auto. apply Forall2_map_r. apply Forall_forall. intros g Hg. rewrite <- SU. split; [apply sel_same_length; now apply WJ|].
    intros s. apply sel_exponent; auto. eapply ZU; eauto.
Qed.
