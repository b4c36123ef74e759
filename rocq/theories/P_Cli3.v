(** The consumers between the algorithms and the writer. *)
From Coq Require Import String Ascii.
From Coq Require Import List Arith Bool ZArith Lia Sorted Permutation.
Import ListNotations.
From Verif Require Import M_Term M_Ideal M_Api M_Names M_IO Spec_IO P_Names P_IO P_IO2 P_IO3 P_IO4 P_IO5 P_IO6 P_IO7 P_IO10 M_Intersect M_Transform M_Actions M_Cli P_Cli2.
From Verif Require Import Spec Spec_Api Spec_Names Spec_Cli P_Term P_Ideal P_Translator P_Api P_Api4 P_Transform4 P_Orderer.
Local Notation length := List.length.

Definition lexsort (L : list mono) : list mono := std_sort term_greater L.
Definition listsort (Ls : list (list mono)) : list (list mono) := std_sort terms_less Ls.
(** These terms stand for these monomials *)
Definition valued (n : nat) (tr : translator) (ts : list term) (L : list mono) : Prop :=
  length tr = n /\ Forall (fun t => length t = n /\ translate n tr t <> None) ts /\ map (t_value tr) ts = map znat L.

Lemma translate_from_value tr t : forall k v z, translate_from tr t v k = Some z -> length z = k /\ forall i, i < k -> nth i z 0%Z = nth (nth (v + i) t 0) (nth (v + i) tr []) 0%Z.
Proof.
  induction k as [|k IH]; intros v z H; cbn [translate_from] in H; [injection H as <-; split; auto; intros; lia|].
  destruct (getExponent tr v (t @ v)) as [e|] eqn:E; [|discriminate]. destruct (translate_from tr t (S v) k) as [r|] eqn:R; [|discriminate]. injection H as <-.
  destruct (IH _ _ R) as [A B]. split; [cbn; congruence|]. intros [|i] Hi; cbn [nth].
  - rewrite Nat.add_0_r. unfold getExponent in E. now rewrite (nth_error_nth _ _ _ E).
  - rewrite B by lia. now rewrite Nat.add_succ_r.
Qed.
Lemma translate_value n tr t z : length tr = n -> length t = n -> translate n tr t = Some z -> t_value tr t = z.
Proof.
  intros A B H. destruct (translate_from_value tr t n 0 z H) as [C D]. symmetry. unfold t_value.
  assert (LC : length (combine tr t) = n) by (rewrite combine_length; lia).
  apply (nth_ext _ _ 0%Z 0%Z); [rewrite map_length; congruence|]. intros i Hi. rewrite D by congruence.
  pose proof (map_nth (fun p : list Z * nat => nth (snd p) (fst p) 0%Z) (combine tr t) ([], 0) i) as Q. rewrite combine_nth in Q by congruence. cbn [fst snd] in Q. cbn [Nat.add].
  rewrite <- Q. apply nth_indep. rewrite map_length. congruence.
Qed.
Lemma valued_intro n tr ts L : length tr = n -> Forall (fun t => length t = n) ts -> translate_all n tr ts = Some (map znat L) -> valued n tr ts L.
Proof.
  intros A. revert L. induction ts as [|t ts IH]; intros L F H; cbn [translate_all] in H.
  - destruct L; [|discriminate]. repeat split; auto.
  - destruct (translate n tr t) as [v|] eqn:E; [|discriminate]. destruct (translate_all n tr ts) as [r|] eqn:R; [|discriminate]. destruct L as [|m L]; [discriminate|].
    injection H as -> ->. inversion F; subst. destruct (IH L) as [_ [B C]]; auto. split; auto. split.
    + constructor; auto. split; auto. congruence.
    + cbn [map]. f_equal; auto. eapply translate_value; eauto.
Qed.
Lemma valued_ok n tr ts L : valued n tr ts L -> ok_terms tr ts.
Proof. intros [A [B _]]. unfold ok_terms. rewrite A. eapply Forall_impl; [|exact B]. intros t [H _]. exact H. Qed.
Lemma valued_ring n tr ts L : valued n tr ts L -> in_ring n L.
Proof.
  intros [A [B C]]. apply Forall_forall. intros m Hm. apply (in_map znat) in Hm. rewrite <- C in Hm. apply in_map_iff in Hm. destruct Hm as [t [E Ht]].
  rewrite Forall_forall in B. destruct (B t Ht) as [LT _]. apply (f_equal (@List.length BinNums.Z)) in E. unfold t_value, znat in E. rewrite !map_length, combine_length in E. lia.
Qed.

(** ** Order *)
Lemma z_before_greater : forall a b, z_before (znat a) (znat b) = term_greater a b.
Proof.
  induction a as [|x a IH]; intros [|y b]; auto. unfold znat in *. cbn [map z_before term_greater]. rewrite IH.
  destruct (Z.eqb_spec (Z.of_nat x) (Z.of_nat y)), (Z.ltb_spec (Z.of_nat y) (Z.of_nat x)), (Nat.ltb_spec y x), (Nat.ltb_spec x y); auto; lia.
Qed.
Lemma sort_ext {A} (lt lt' : A -> A -> bool) : forall l, (forall x y, In x l -> In y l -> lt x y = lt' x y) -> std_sort lt l = std_sort lt' l.
Proof.
  induction l as [|x l IH]; intros H; auto. cbn [std_sort]. rewrite IH by (intros; apply H; cbn; auto).
  assert (G : forall s, (forall y, In y s -> In y l) -> sort_insert lt x s = sort_insert lt' x s).
  { induction s as [|y s IHs]; intros K; auto. cbn [sort_insert]. rewrite (H y x) by (cbn; auto using in_eq). destruct (lt' y x); auto. f_equal. apply IHs. intros. apply K. cbn; auto. }
  apply G. intros y Hy. exact (proj1 (std_sort_in lt' l y) Hy).
Qed.
Lemma valued_sort n tr ts L : valued n tr ts L -> valued n tr (canonicalize tr ts) (lexsort L).
Proof.
  intros [A [B C]]. split; auto. split; [eapply Permutation_Forall; [apply Permutation_sym, std_sort_perm|exact B]|].
  unfold canonicalize, lexsort, tr_less. etransitivity; [symmetry; apply (std_sort_map _ _ (t_value tr) z_before)|]. rewrite C.
  rewrite (std_sort_map _ _ znat z_before). f_equal. apply sort_ext. intros. apply z_before_greater.
Qed.
Lemma greater_lex : forall a b, length a = length b -> (term_greater a b = true <-> lex_lt b a).
Proof.
  induction a as [|x a IH]; intros [|y b] E; cbn [term_greater lex_lt length] in *; try discriminate; try (split; [discriminate|tauto]).
  injection E as E. specialize (IH b E). destruct (Nat.ltb_spec y x) as [H1|H1]; [split; auto|]. destruct (Nat.ltb_spec x y) as [H2|H2]; rewrite ?IH; (split; intros H'; [try discriminate|]).
  - destruct H' as [H'|[-> H']]; lia.
  - right. split; [lia|exact H'].
  - destruct H' as [H'|[_ H']]; [lia|exact H'].
Qed.
Lemma lexsort_perm L : Permutation (lexsort L) L.
Proof. apply std_sort_perm. Qed.
Lemma lexsort_ring n L : in_ring n L -> in_ring n (lexsort L).
Proof. intros H. eapply Permutation_Forall; [apply Permutation_sym, lexsort_perm|exact H]. Qed.
Lemma lexsort_descending n L : in_ring n L -> NoDup L -> descending (lexsort L).
Proof.
  intros R N. pose proof (strict_sorted term_greater (fun t => length t = n) tg_asym (tg_trans_n n) (tg_tot_n n) L R) as Q.
  assert (N' : NoDup (lexsort L)) by (eapply Permutation_NoDup; [apply Permutation_sym, lexsort_perm|exact N]). pose proof (lexsort_ring n L R) as R'.
  fold (lexsort L) in Q. unfold descending. clear -Q N' R'. induction Q as [|x l Q IH F]; [constructor|]. inversion N' as [|? ? N1 N2]; subst. inversion R' as [|? ? R1 R2]; subst. constructor; auto.
  rewrite Forall_forall in *. intros y Hy. unfold in_ring in *. rewrite Forall_forall in *. pose proof (R2 y Hy) as LY. apply greater_lex; auto. specialize (F y Hy). unfold before in F.
  destruct (term_greater x y) eqn:E; auto. exfalso. apply N1. rewrite (tg_tot_n (length x) x y); auto.
Qed.
Lemma lexsort_twice n L : in_ring n L -> lexsort (lexsort L) = lexsort L.
Proof. intros R. apply (sort_unique term_greater (fun t => length t = n) tg_asym (tg_trans_n n) (tg_tot_n n)); [apply lexsort_perm|]. now apply lexsort_ring. Qed.
Lemma lexsort_unique n L L' : in_ring n L -> Permutation L L' -> lexsort L = lexsort L'.
Proof. intros R P. apply (sort_unique term_greater (fun t => length t = n) tg_asym (tg_trans_n n) (tg_tot_n n)); auto. Qed.
Lemma listsort_unique n Ls Ls' : Forall (in_ring n) Ls -> Permutation Ls Ls' -> listsort Ls = listsort Ls'.
Proof.
  intros R P. apply (sort_unique terms_less (in_ring n)); auto.
  - apply tl_asym.
  - intros x y z X Y Z. apply in_ring_wf in X, Y, Z. now apply (tl_trans n).
  - intros x y X Y. apply in_ring_wf in X, Y. now apply (tl_tot n).
Qed.

(** ** Events *)
Lemma cc_terms tr sl : forall ts J Js es, cc_run tr (CC sl (J :: Js)) (map TTerm ts ++ es) = cc_run tr (CC sl ((J ++ ts) :: Js)) es.
Proof.
  induction ts as [|t ts IH]; intros J Js es; cbn [map app]; [now rewrite app_nil_r|]. cbn [cc_run cc_step cc_ideals cc_storing bind fst snd app]. rewrite IH, <- app_assoc. cbn [app].
  destruct (cc_run _ _ _); reflexivity.
Qed.
Lemma cc_told tr names ts : cc_run tr cc_new (told names ts) = Some (told names (canonicalize tr ts)).
Proof.
  unfold told. cbn [cc_run cc_step cc_new cc_ideals cc_storing bind fst snd app]. rewrite cc_terms. cbn [app cc_run cc_step cc_ideals cc_storing bind fst snd]. now rewrite app_nil_r.
Qed.
Lemma cc_list tr : forall Ls Js es, cc_run tr (CC true Js) (concat (map (fun L => TBegin :: map TTerm L ++ [TDone]) Ls) ++ es) = cc_run tr (CC true (rev Ls ++ Js)) es.
Proof.
  induction Ls as [|L Ls IH]; intros Js es; auto. cbn [map concat rev]. cbn [app]. rewrite <- !app_assoc. cbn [app cc_run cc_step cc_ideals cc_storing bind fst snd]. rewrite cc_terms.
  cbn [app cc_run cc_step cc_ideals cc_storing bind fst snd]. rewrite IH. destruct (cc_run _ _ _); reflexivity.
Qed.
Lemma cc_told_list tr names Ls : cc_run tr cc_new (told_list names Ls) =
  Some (told_list names (map (canonicalize tr) (std_sort (list_less (tr_less tr)) (map (canonicalize tr) (rev Ls))))).
Proof.
  unfold told_list. cbn [cc_run cc_step cc_new cc_ideals cc_storing bind fst snd app]. rewrite cc_list. cbn [app cc_run cc_step cc_ideals cc_storing bind fst snd]. rewrite !app_nil_r.
  unfold pass. now rewrite map_map.
Qed.
Lemma mapO_app {A B} (g : A -> option B) : forall l l' r r', mapO g l = Some r -> mapO g l' = Some r' -> mapO g (l ++ l') = Some (r ++ r').
Proof.
  induction l as [|x l IH]; intros l' r r' H K; cbn [app mapO] in *; [now injection H as <-|]. destruct (g x) as [y|]; [|discriminate]. cbn [bind] in *.
  destruct (mapO g l) as [q|]; [|discriminate]. cbn [bind] in *. injection H as <-. now rewrite (IH l' q r').
Qed.
Lemma mapO_terms tr ts : Forall (fun t => translate (length tr) tr t <> None) ts -> mapO (translating tr) (map TTerm ts) = Some (map (WTTerm tr) ts).
Proof.
  induction ts as [|t ts IH]; intros F; auto. inversion F; subst. cbn [map mapO translating]. destruct (translate (length tr) tr t); [|congruence]. cbn [bind]. now rewrite IH.
Qed.
Lemma valued_translating n tr ts L : valued n tr ts L -> mapO (translating tr) (map TTerm ts) = Some (map (WTTerm tr) ts).
Proof. intros [A [B _]]. apply mapO_terms. rewrite A. eapply Forall_impl; [|exact B]. intros t [_ H]. exact H. Qed.
Lemma told_events n tr names ts L : valued n tr ts L -> mapO (translating tr) (told names ts) = Some (WRing names :: ideal_events tr ts).
Proof.
  intros V. unfold told, ideal_events. cbn [mapO translating bind]. rewrite (mapO_app _ _ [TDone] _ [WDone] (valued_translating _ _ _ _ V) eq_refl). reflexivity.
Qed.
Lemma told_list_events n tr names Tss Ls : Forall2 (valued n tr) Tss Ls -> mapO (translating tr) (told_list names Tss) = Some (list_events names tr Tss).
Proof.
  intros V. unfold told_list, list_events. cbn [mapO translating bind].
  assert (E : mapO (translating tr) (concat (map (fun L => TBegin :: map TTerm L ++ [TDone]) Tss)) = Some (concat (map (ideal_events tr) Tss))).
  { induction V as [|ts L Tss Ls V1 V IH]; auto. cbn [map concat]. apply mapO_app; auto. cbn [mapO translating bind]. rewrite (mapO_app _ _ [TDone] _ [WDone] (valued_translating _ _ _ _ V1) eq_refl). reflexivity. }
  rewrite (mapO_app _ _ [TDoneList] _ [WDoneList] E eq_refl). reflexivity.
Qed.

(** ** The text *)
Definition ltext (f : format) (names : list str) (Ls : list (list mono)) : res text :=
  match f with
  | CoCoA4 => Ok (match Ls with [] => ringt f names | _ => stexts f names true (map (map znat) Ls) end)
  | _ => write_ideals f names (map (pair names) (map (map znat) Ls))
  end.
Lemma written_ltext n f names tr Tss Ls : length names = n -> length tr = n -> Forall2 (valued n tr) Tss Ls -> written f (list_events names tr Tss) = ltext f names Ls.
Proof.
  intros A B V. assert (F : Forall (ok_terms tr) Tss) by (clear -V; induction V; constructor; auto; eapply valued_ok; eauto).
  assert (E : map (map (t_value tr)) Tss = map (map znat) Ls) by (clear -V; induction V as [|? ? ? ? [_ [_ H]]]; cbn [map]; congruence).
  assert (f = CoCoA4 \/ f <> CoCoA4) as [-> | X] by (destruct f; auto; right; discriminate).
  - rewrite list_common by (unfold P_IO3.is_common; auto; congruence). cbn [ltext]. rewrite E. now destruct V.
  - rewrite list_text by (auto; congruence). rewrite E. destruct f; auto. congruence.
Qed.
Definition canon1 (canon : bool) (L : list mono) : list mono := if canon then lexsort L else L.
Definition canon2 (canon : bool) (Ls : list (list mono)) : list (list mono) := if canon then listsort (map lexsort (rev Ls)) else Ls.
Lemma output_one n f canon names tr ts L : length names = n -> valued n tr ts L ->
  ideal_output f canon false tr (told names ts) = Ok (stext f names (map znat (canon1 canon L))).
Proof.
  intros A V. unfold ideal_output. set (ts' := if canon then canonicalize tr ts else ts).
  assert (V' : valued n tr ts' (canon1 canon L)) by (unfold ts', canon1; destruct canon; auto using valued_sort).
  assert ((if canon then cc_run tr cc_new (told names ts) else Some (told names ts)) = Some (told names ts')) as -> by (unfold ts'; destruct canon; auto using cc_told).
  cbn [bind]. rewrite (told_events n tr names ts' _ V'). rewrite written_one; [|destruct V' as [-> _]; exact A|eapply valued_ok; eauto].
  destruct V' as [_ [_ ->]]. reflexivity.
Qed.
Lemma list_less_value n tr : forall ts us L M, valued n tr ts L -> valued n tr us M -> list_less (tr_less tr) ts us = terms_less L M.
Proof.
  induction ts as [|t ts IH]; intros us L M [A [B C]] [_ [E F]]; destruct L as [|a L]; try discriminate; auto. destruct us as [|u us]; destruct M as [|b M]; try discriminate; auto.
  cbn [map] in C, F. injection C as C1 C2. injection F as F1 F2. cbn [list_less terms_less]. rewrite term_order_eq. unfold tr_less at 1 2.
  match goal with |- context [z_before (t_value tr t) (t_value tr u)] => idtac end.
  assert (z_before (t_value tr t) (t_value tr u) = term_greater a b) as -> by (rewrite C1, F1; apply z_before_greater).
  assert (z_before (t_value tr u) (t_value tr t) = term_greater b a) as -> by (rewrite C1, F1; apply z_before_greater).
  destruct (term_greater a b); auto. destruct (term_greater b a); auto. inversion B; inversion E; subst. apply IH; repeat split; auto.
Qed.
Lemma insert_Forall2 {A B} (R : A -> B -> Prop) (lt : A -> A -> bool) (lt' : B -> B -> bool) : (forall x y x' y', R x x' -> R y y' -> lt x y = lt' x' y') ->
  forall l l', Forall2 R l l' -> Forall2 R (std_sort lt l) (std_sort lt' l').
Proof.
  intros H l l' F. induction F as [|x x' l l' X F IH]; [constructor|]. cbn [std_sort]. induction IH as [|y y' s s' Y IH IHs]; cbn [sort_insert]; [repeat constructor; auto|].
  rewrite (H y x y' x') by auto. destruct (lt' y' x'); repeat constructor; auto.
Qed.
Lemma F2_map {A B} (R : A -> B -> Prop) (g : A -> A) (h : B -> B) l l' : (forall x y, R x y -> R (g x) (h y)) -> Forall2 R l l' -> Forall2 R (map g l) (map h l').
Proof. intros H F. induction F; cbn; constructor; auto. Qed.
Lemma F2_rev {A B} (R : A -> B -> Prop) l l' : Forall2 R l l' -> Forall2 R (rev l) (rev l').
Proof. intros F. induction F; cbn; auto. apply Forall2_app; auto. Qed.
Lemma output_list n f canon names tr Tss Ls : length names = n -> length tr = n -> Forall2 (valued n tr) Tss Ls ->
  ideal_output f canon false tr (told_list names Tss) = ltext f names (canon2 canon Ls).
Proof.
  intros A B V. unfold ideal_output.
  set (Tss' := if canon then map (canonicalize tr) (std_sort (list_less (tr_less tr)) (map (canonicalize tr) (rev Tss))) else Tss).
  assert (V' : Forall2 (valued n tr) Tss' (canon2 canon Ls)).
  { unfold Tss', canon2. destruct canon; auto. assert (V1 : Forall2 (valued n tr) (map (canonicalize tr) (rev Tss)) (map lexsort (rev Ls))) by (apply F2_map; [apply valued_sort|now apply F2_rev]).
    assert (W : Forall2 (valued n tr) (std_sort (list_less (tr_less tr)) (map (canonicalize tr) (rev Tss))) (listsort (map lexsort (rev Ls)))).
    { apply insert_Forall2; auto. intros x y x' y' X Y. apply (list_less_value n tr); auto. }
    assert (listsort (map lexsort (rev Ls)) = map lexsort (listsort (map lexsort (rev Ls)))) as ->.
    { symmetry. rewrite <- (map_id (listsort (map lexsort (rev Ls)))) at 2. apply map_ext_in. intros L HL. apply std_sort_in in HL. apply in_map_iff in HL. destruct HL as [L0 [<- H0]]. apply (lexsort_twice n).
      apply in_rev in H0. clear -V H0. induction V; destruct H0; subst; auto. eapply valued_ring; eauto. }
    apply F2_map; auto. apply valued_sort. }
  assert ((if canon then cc_run tr cc_new (told_list names Tss) else Some (told_list names Tss)) = Some (told_list names Tss')) as -> by (unfold Tss'; destruct canon; auto using cc_told_list).
  cbn [bind]. rewrite (told_list_events n tr names Tss' _ V'). apply (written_ltext n); auto.
Qed.

(** ** The splitter *)
Definition zero_first (tr : translator) : Prop := Forall (fun tb => nth 0 tb 0%Z = 0%Z) tr.
Definition splits (tr : translator) (t : term) : list term := map (split_at 0 t) (split_vars (t_value tr t)).
Lemma splitter_terms tr : forall ts es, splitter_run false (map (WTTerm tr) ts ++ es) = concat (map (ideal_events tr) (map (splits tr) ts)) ++ splitter_run false es.
Proof.
  induction ts as [|t ts IH]; intros es; auto. cbn [map app concat splitter_run]. rewrite IH.
  assert (ideal_events tr (splits tr t) = WBegin :: map (fun i => WTTerm tr (split_at 0 t i)) (split_vars (t_value tr t)) ++ [WDone]) as -> by (unfold splits, ideal_events; now rewrite map_map).
  cbn [app]. now rewrite <- !app_assoc.
Qed.
Lemma splitter_told names tr ts : splitter_run false (WRing names :: ideal_events tr ts) = list_events names tr (map (splits tr) ts).
Proof. unfold ideal_events, list_events. cbn [splitter_run app]. rewrite splitter_terms. reflexivity. Qed.
Lemma split_at_nth (t : list nat) var i : i < length t -> nth i (split_at 0 t var) 0 = if i =? var then nth i t 0 else 0.
Proof.
  intros H. unfold split_at. pose proof (map_nth (fun j => if j =? var then nth j t 0 else 0) (seq 0 (length t)) 0 i) as Q. rewrite seq_nth in Q by auto. cbn [Nat.add] in Q.
  rewrite <- Q. apply nth_indep. now rewrite map_length, seq_length.
Qed.
Lemma split_length (t : list nat) var : length (split_at 0 t var) = length t.
Proof. unfold split_at. now rewrite map_length, seq_length. Qed.
Lemma split_value tr t var : length t = length tr -> zero_first tr -> forall c, t_value tr t = znat c -> t_value tr (split_at 0 t var) = znat (var_power (length t) var (nth var c 0)).
Proof.
  intros A ZF c E. assert (LC : length c = length t) by (apply (f_equal (@List.length BinNums.Z)) in E; unfold t_value, znat in E; rewrite !map_length, combine_length in E; lia).
  assert (V : forall u i, length u = length tr -> i < length u -> nth i (t_value tr u) 0%Z = nth (nth i u 0) (nth i tr []) 0%Z).
  { intros u i LU Hi. unfold t_value. pose proof (map_nth (fun p : list Z * nat => nth (snd p) (fst p) 0%Z) (combine tr u) ([], 0) i) as Q. rewrite combine_nth in Q by congruence. cbn [fst snd] in Q.
    rewrite <- Q. apply nth_indep. rewrite map_length, combine_length. lia. }
  assert (LV : forall u, length u = length tr -> length (t_value tr u) = length u) by (intros u LU; unfold t_value; rewrite map_length, combine_length; lia).
  apply (nth_ext _ _ 0%Z 0%Z).
  - rewrite LV by (rewrite split_length; auto). unfold znat, var_power. now rewrite split_length, !map_length, seq_length.
  - intros i Hi. rewrite LV, split_length in Hi by (rewrite split_length; auto). rewrite V, split_at_nth by (rewrite ?split_length; auto). rewrite znat_nth.
    assert (nth i (var_power (length t) var (nth var c 0)) 0 = if i =? var then nth var c 0 else 0) as ->.
    { unfold var_power. pose proof (map_nth (fun j => if j =? var then nth var c 0 else 0) (seq 0 (length t)) 0 i) as Q. rewrite seq_nth in Q by auto. cbn [Nat.add] in Q. rewrite <- Q. apply nth_indep. now rewrite map_length, seq_length. }
    destruct (Nat.eqb_spec i var) as [->|N].
    + rewrite <- V by auto. rewrite E. apply znat_nth.
    + unfold zero_first in ZF. rewrite Forall_forall in ZF. apply ZF. apply nth_In. congruence.
Qed.
Lemma split_filter c : split_vars (znat c) = filter (fun i => 0 <? nth i c 0) (seq 0 (length c)).
Proof.
  unfold split_vars. unfold znat at 2. rewrite map_length. apply filter_ext. intros i. rewrite znat_nth. destruct (Z.eqb_spec (Z.of_nat (nth i c 0)) 0), (Nat.ltb_spec 0 (nth i c 0)); auto; lia.
Qed.
Lemma translate_from_some tr t : forall k v, (forall i, v <= i < v + k -> nth i t 0 < length (nth i tr [])) -> translate_from tr t v k <> None.
Proof.
  induction k as [|k IH]; intros v H; cbn [translate_from]; [discriminate|]. unfold getExponent. destruct (nth_error (nth v tr []) (t @ v)) eqn:E.
  - specialize (IH (S v)). destruct (translate_from tr t (S v) k); [discriminate|]. exfalso. apply IH; auto. intros i Hi. apply H. lia.
  - exfalso. apply nth_error_None in E. specialize (H v). lia.
Qed.
Lemma translate_from_below tr t : forall k v, translate_from tr t v k <> None -> forall i, v <= i < v + k -> nth i t 0 < length (nth i tr []).
Proof.
  induction k as [|k IH]; intros v H i Hi; [lia|]. cbn [translate_from] in H. unfold getExponent in H. destruct (nth_error (nth v tr []) (t @ v)) eqn:E; [|congruence].
  destruct (Nat.eq_dec i v) as [->|N]; [apply nth_error_Some; congruence|]. apply (IH (S v)); [|lia]. destruct (translate_from tr t (S v) k); congruence.
Qed.
Lemma splits_valued n tr t c : length tr = n -> length t = n -> zero_first tr -> translate n tr t <> None -> t_value tr t = znat c -> valued n tr (splits tr t) (irreducible_generators n c).
Proof.
  intros A B ZF T E. assert (LC : length c = n) by (apply (f_equal (@List.length BinNums.Z)) in E; unfold t_value, znat in E; rewrite !map_length, combine_length in E; lia).
  split; auto. split.
  - apply Forall_forall. intros u Hu. apply in_map_iff in Hu. destruct Hu as [i [<- Hi]]. split; [now rewrite split_length|].
    apply translate_from_some. intros j Hj. rewrite split_at_nth by lia. pose proof (translate_from_below _ _ _ _ T j Hj) as Q. destruct (j =? i); lia.
  - unfold splits, irreducible_generators. rewrite E, split_filter, LC, !map_map. apply map_ext. intros i. rewrite (split_value tr t i ltac:(congruence) ZF c E). now rewrite B.
Qed.
Lemma output_split n f canon names tr ts L : length names = n -> valued n tr ts L -> zero_first tr ->
  ideal_output f canon true tr (told names ts) = ltext f names (map (irreducible_generators n) (canon1 canon L)).
Proof.
  intros A V ZF. unfold ideal_output. set (ts' := if canon then canonicalize tr ts else ts).
  assert (V' : valued n tr ts' (canon1 canon L)) by (unfold ts', canon1; destruct canon; auto using valued_sort).
  assert ((if canon then cc_run tr cc_new (told names ts) else Some (told names ts)) = Some (told names ts')) as -> by (unfold ts'; destruct canon; auto using cc_told).
  cbn [bind]. rewrite (told_events n tr names ts' _ V'). rewrite splitter_told. pose proof (proj1 V') as LT. apply (written_ltext n); auto.
  destruct V' as [_ [B C]]. revert B C. generalize (canon1 canon L) as M. clear -ZF LT. clearbody ts'. clear ts. induction ts' as [|t us IH]; intros M B C; destruct M as [|m M]; try discriminate; [constructor|].
  cbn [map] in *. injection C as C1 C2. inversion B as [|? ? [B1 B2] B3]; subst. constructor; auto. apply splits_valued; auto.
Qed.
