(** The action: options one by one. *)
From Coq Require Import List Arith Bool ZArith Lia Ascii Sorted Permutation.
Import ListNotations.
From Verif Require Import Spec M_Term M_Ideal M_Api M_Names Spec_Names M_Intersect Spec_Intersect M_Transform Spec_Transform
  P_Term P_Ideal P_Corner P_Translator P_Names P_Names2 P_Intersect P_Intersect2 P_Intersect3 P_Transform P_Transform2 P_Transform3 P_Transform4 P_Poly P_Poly3.

Lemma mapT_id {A} : forall (l : list A) (f : A -> tres A), (forall x, f x = TOk x) -> mapT f l = TOk l.
Proof. induction l as [|x l IH]; intros f H; cbn [mapT]; auto. rewrite H. cbn [tbind]. now rewrite IH. Qed.
Lemma mapT_ok {A B} (f : A -> tres B) (g : A -> B) : forall l, (forall x, In x l -> f x = TOk (g x)) -> mapT f l = TOk (map g l).
Proof. induction l as [|x l IH]; intros H; cbn [mapT map]; auto. rewrite H by (left; auto). cbn [tbind]. rewrite IH by (intros; apply H; right; auto). reflexivity. Qed.
Definition no_err {A} (r : tres A) : Prop := r <> TErr.
Lemma mapT_comp {A B C} (f : A -> tres B) (g : B -> tres C) : (forall x, no_err (f x)) -> (forall x, no_err (g x)) ->
  forall l, mapT (fun x => tbind (f x) g) l = tbind (mapT f l) (mapT g).
Proof.
  intros F G. assert (MF : forall l, no_err (mapT f l)). { induction l as [|x l IH]; unfold no_err in *; cbn [mapT]; [discriminate|]. specialize (F x). destruct (f x); cbn [tbind]; try congruence. destruct (mapT f l); cbn [tbind]; congruence. }
  assert (MG : forall l, no_err (mapT g l)). { induction l as [|x l IH]; unfold no_err in *; cbn [mapT]; [discriminate|]. specialize (G x). destruct (g x); cbn [tbind]; try congruence. destruct (mapT g l); cbn [tbind]; congruence. }
  unfold no_err in *. induction l as [|x l IH]; cbn [mapT]; auto. rewrite IH. specialize (F x). specialize (MF l). destruct (f x) as [y| |]; cbn [tbind]; try congruence.
  specialize (G y). destruct (mapT f l) as [r| |]; cbn [tbind mapT]; try congruence; destruct (g y); cbn [tbind]; congruence.
Qed.
Lemma of_option_no_err {A} (o : option A) : no_err (of_option o).
Proof. unfold no_err. destruct o; discriminate. Qed.
Lemma tbind_ok {A} (r : tres A) : tbind r TOk = r. Proof. destruct r; reflexivity. Qed.
Lemma tbind_assoc {A B C} (r : tres A) (f : A -> tres B) (g : B -> tres C) : tbind (tbind r f) g = tbind r (fun x => tbind (f x) g).
Proof. destruct r; reflexivity. Qed.
Lemma tbind_ext {A B} (r : tres A) (f g : A -> tres B) : (forall x, f x = g x) -> tbind r f = tbind r g.
Proof. intros H. destruct r; cbn; auto. Qed.

(** What each option does *)
Definition s_radical (b : bool) (J : nideal) : tres nideal := if b then of_option (if_takeRadical J) else TOk J.
Definition s_swap (b : bool) (J : nideal) : tres nideal := TOk (if b then if_swap01 J else J).
Definition s_minimize (b : bool) (J : nideal) : tres nideal := if b then of_option (if_minimize J) else TOk J.
Definition s_deform (b : bool) (J : nideal) : tres nideal := TOk (if b then if_deform J else J).
Definition s_pure (b : bool) (J : nideal) : tres nideal := TOk (if b then if_addPurePowers J else J).
Definition s_order (c s u : bool) (J : nideal) : tres nideal :=
  tbind (if c then of_option (bi_sortVariables J) else TOk J) (fun J =>
  TOk (if u then (fst J, bi_sortGeneratorsUnique (snd J)) else if s || c then (fst J, bi_sortGenerators (snd J)) else J)).
Lemma first_stages o Js : mapT (ta_first o) Js = tbind (mapT (s_radical (o_radical o)) Js) (fun Js => tbind (mapT (s_swap (o_swap01 o)) Js) (fun Js => tbind (mapT (s_minimize (o_minimize o)) Js) (mapT (s_deform (o_deform o))))).
Proof.
  assert (NR : forall x, no_err (s_radical (o_radical o) x)) by (intros; unfold s_radical; destruct (o_radical o); [apply of_option_no_err|discriminate]).
  assert (NS : forall x, no_err (s_swap (o_swap01 o) x)) by (intros; discriminate). assert (ND : forall x, no_err (s_deform (o_deform o) x)) by (intros; discriminate).
  assert (NM : forall x, no_err (s_minimize (o_minimize o) x)) by (intros; unfold s_minimize; destruct (o_minimize o); [apply of_option_no_err|discriminate]).
  assert (N2 : forall x, no_err (tbind (s_minimize (o_minimize o) x) (s_deform (o_deform o)))) by (intros x; specialize (NM x); unfold no_err in *; destruct (s_minimize (o_minimize o) x); cbn; congruence).
  assert (N3 : forall x, no_err (tbind (s_swap (o_swap01 o) x) (fun x => tbind (s_minimize (o_minimize o) x) (s_deform (o_deform o))))) by (intros x; apply N2).
  transitivity (mapT (fun x => tbind (s_radical (o_radical o) x) (fun x => tbind (s_swap (o_swap01 o) x) (fun x => tbind (s_minimize (o_minimize o) x) (s_deform (o_deform o))))) Js); [reflexivity|].
  rewrite mapT_comp by auto. apply tbind_ext. intros l. rewrite mapT_comp by auto. apply tbind_ext. intros l'. now rewrite mapT_comp.
Qed.
Lemma second_stages o Js : mapT (ta_second o) Js = tbind (mapT (s_pure (o_addPurePowers o)) Js) (mapT (s_order (o_canon o) (o_sort o) (o_unique o))).
Proof.
  assert (N : forall x, no_err (s_order (o_canon o) (o_sort o) (o_unique o) x)).
  { intros x. unfold s_order. destruct (o_canon o); [|discriminate]. pose proof (of_option_no_err (bi_sortVariables x)) as H. unfold no_err in *. destruct (of_option (bi_sortVariables x)); cbn; congruence. }
  transitivity (mapT (fun x => tbind (s_pure (o_addPurePowers o) x) (s_order (o_canon o) (o_sort o) (o_unique o))) Js); [reflexivity|]. apply mapT_comp; auto. intros; discriminate.
Qed.
Lemma first_none Js : mapT (ta_first no_options) Js = TOk Js. Proof. now apply mapT_id. Qed.
Lemma second_none Js : mapT (ta_second no_options) Js = TOk Js. Proof. now apply mapT_id. Qed.
Definition pairup (names : list str) (r : tres (list nideal)) : tres (list str * list nideal) := tbind r (fun Js => TOk (names, Js)).
Lemma t_transpose b names Js : transform (only_transpose b) names Js = TOk (if b then let Js := map ta_transpose Js in (last (map fst Js) [], Js) else (names, Js)).
Proof. unfold transform, only_transpose. destruct b; cbn -[ta_first ta_second mapT ta_transpose last]; rewrite first_none; cbn [tbind]; rewrite second_none; reflexivity. Qed.
Lemma t_project k names Js : transform (only_projectVar k) names Js =
  if (0 <? k) && (k <=? length names) then tbind (of_option (mapO (bi_projectVar (k - 1)) Js)) (fun Js => TOk (project_names (k - 1) names, Js)) else TOk (names, Js).
Proof.
  unfold transform, only_projectVar. cbn -[ta_first ta_second mapT ta_transpose last mapO Nat.ltb Nat.leb Nat.sub]. destruct ((0 <? k) && (k <=? length names)).
  - destruct (of_option (mapO (bi_projectVar (k - 1)) Js)) as [r| |]; cbn [tbind]; auto. change (ta_first _) with (ta_first no_options). rewrite first_none. cbn [tbind]. change (ta_second _) with (ta_second no_options). now rewrite second_none.
  - cbn [tbind]. change (ta_first _) with (ta_first no_options). rewrite first_none. cbn [tbind]. change (ta_second _) with (ta_second no_options). now rewrite second_none.
Qed.
Lemma t_product b names Js : transform (only_product b) names Js = pairup names (if b then tbind (if_takeProducts Js (names, [])) (fun J => TOk [J]) else TOk Js).
Proof.
  unfold transform, only_product. cbn -[ta_first ta_second mapT]. destruct b; [destruct (if_takeProducts Js (names, []))|]; cbn [tbind]; auto; change (ta_first _) with (ta_first no_options); rewrite first_none; cbn [tbind]; change (ta_second _) with (ta_second no_options); now rewrite second_none.
Qed.
Lemma t_first o names Js : o_transpose o = false -> o_projectVar o = 0 -> o_product o = false -> o_trimVariables o = false -> o_addPurePowers o = false -> o_canon o = false -> o_sort o = false -> o_unique o = false ->
  transform o names Js = pairup names (mapT (ta_first o) Js).
Proof.
  intros H1 H2 H3 H4 H5 H6 H7 H8. unfold transform. rewrite H1, H2, H3, H4, H6. cbn [tbind andb Nat.ltb Nat.leb]. unfold pairup. apply tbind_ext. intros l. rewrite second_stages, H5, H6, H7, H8. rewrite mapT_id by reflexivity. cbn [tbind]. now rewrite mapT_id.
Qed.
Lemma t_trim b names Js : transform (only_trimVariables b) names Js = if b then of_option (if_trimVariables names Js) else TOk (names, Js).
Proof.
  unfold transform, only_trimVariables. cbn -[ta_first ta_second mapT]. change (ta_first _) with (ta_first no_options). rewrite first_none. cbn [tbind]. destruct b; [destruct (if_trimVariables names Js) as [[n r]|]|]; cbn [tbind of_option]; auto; change (ta_second _) with (ta_second no_options); now rewrite second_none.
Qed.
Lemma t_second o names Js : o_transpose o = false -> o_projectVar o = 0 -> o_product o = false -> o_radical o = false -> o_swap01 o = false -> o_minimize o = false -> o_deform o = false -> o_trimVariables o = false ->
  transform o names Js = tbind (mapT (ta_second o) Js) (fun Js => TOk (if o_canon o then (ordered names, std_sort ideal_less Js) else (names, Js))).
Proof.
  intros H1 H2 H3 H4 H5 H6 H7 H8. unfold transform. rewrite H1, H2, H3, H8. cbn [tbind andb Nat.ltb Nat.leb]. rewrite first_stages, H4, H5, H6, H7. now do 4 (rewrite mapT_id by reflexivity; cbn [tbind]).
Qed.
Lemma t_radical b names Js : transform (only_radical b) names Js = pairup names (mapT (s_radical b) Js).
Proof. rewrite t_first by reflexivity. rewrite first_stages. cbn [only_radical o_radical o_swap01 o_minimize o_deform]. f_equal. transitivity (tbind (mapT (s_radical b) Js) TOk); [|apply tbind_ok]. apply tbind_ext. intros l. now do 3 (rewrite mapT_id by reflexivity; cbn [tbind]). Qed.
Lemma t_swap b names Js : transform (only_swap01 b) names Js = pairup names (mapT (s_swap b) Js).
Proof. rewrite t_first by reflexivity. rewrite first_stages. cbn [only_swap01 o_radical o_swap01 o_minimize o_deform]. rewrite mapT_id by reflexivity. cbn [tbind]. f_equal. transitivity (tbind (mapT (s_swap b) Js) TOk); [|apply tbind_ok]. apply tbind_ext. intros l. now do 2 (rewrite mapT_id by reflexivity; cbn [tbind]). Qed.
Lemma t_minimize b names Js : transform (only_minimize b) names Js = pairup names (mapT (s_minimize b) Js).
Proof. rewrite t_first by reflexivity. rewrite first_stages. cbn [only_minimize o_radical o_swap01 o_minimize o_deform]. do 2 (rewrite mapT_id by reflexivity; cbn [tbind]). f_equal. transitivity (tbind (mapT (s_minimize b) Js) TOk); [|apply tbind_ok]. apply tbind_ext. intros l. now rewrite mapT_id. Qed.
Lemma t_deform b names Js : transform (only_deform b) names Js = pairup names (mapT (s_deform b) Js).
Proof. rewrite t_first by reflexivity. rewrite first_stages. cbn [only_deform o_radical o_swap01 o_minimize o_deform]. do 3 (rewrite mapT_id by reflexivity; cbn [tbind]). reflexivity. Qed.
Lemma t_pure b names Js : transform (only_addPurePowers b) names Js = pairup names (mapT (s_pure b) Js).
Proof. rewrite t_second by reflexivity. rewrite second_stages. cbn [only_addPurePowers o_addPurePowers o_canon o_sort o_unique]. rewrite tbind_assoc. apply tbind_ext. intros l. now rewrite mapT_id. Qed.
Lemma t_order c s u names Js : transform (only_order c s u) names Js = tbind (mapT (s_order c s u) Js) (fun Js => TOk (if c then (ordered names, std_sort ideal_less Js) else (names, Js))).
Proof. rewrite t_second by reflexivity. rewrite second_stages. cbn [only_order o_addPurePowers o_canon o_sort o_unique]. rewrite mapT_id by reflexivity. reflexivity. Qed.

Lemma later_options o names (Js : list nideal) : o_transpose o = false -> transform o names Js = in_turn (tl (one_by_one o)) names Js.
Proof.
  intros E1. unfold one_by_one. cbn [in_turn tl]. unfold transform at 1. rewrite E1. rewrite t_project.
  destruct ((0 <? o_projectVar o) && (o_projectVar o <=? length names)).
  all: try (destruct (mapO (bi_projectVar (o_projectVar o - 1)) Js) as [Js2|]; cbn [of_option tbind]; [|reflexivity]).
  all: cbn [tbind]; rewrite t_product; match goal with |- context [tbind (if ?b then ?x else ?y) _] => destruct (if b then x else y) as [Js3| |] end; cbn [tbind pairup]; try reflexivity.
  all: rewrite t_radical, first_stages; destruct (mapT (s_radical (o_radical o)) Js3) as [Js4| |]; cbn [tbind pairup]; try reflexivity.
  all: rewrite t_swap; destruct (mapT (s_swap (o_swap01 o)) Js4) as [Js5| |]; cbn [tbind pairup]; try reflexivity.
  all: rewrite t_minimize; destruct (mapT (s_minimize (o_minimize o)) Js5) as [Js6| |]; cbn [tbind pairup]; try reflexivity.
  all: rewrite t_deform; destruct (mapT (s_deform (o_deform o)) Js6) as [Js7| |]; cbn [tbind pairup]; try reflexivity.
  all: rewrite t_trim; match goal with |- context [tbind (if ?b then ?x else ?y) _] => destruct (if b then x else y) as [[names8 Js8]| |] end; cbn [tbind pairup]; try reflexivity.
  all: rewrite t_pure, second_stages; destruct (mapT (s_pure (o_addPurePowers o)) Js8) as [Js9| |]; cbn [tbind pairup]; try reflexivity.
  all: rewrite t_order; destruct (mapT (s_order (o_canon o) (o_sort o) (o_unique o)) Js9) as [Js10| |]; cbn [tbind pairup]; try reflexivity.
  all: destruct (o_canon o); reflexivity.
Qed.
Theorem p_one_by_one o names (Js : list nideal) : transform o names Js = in_turn (one_by_one o) names Js.
Proof.
  change (one_by_one o) with (only_transpose (o_transpose o) :: tl (one_by_one o)). cbn [in_turn]. rewrite t_transpose.
  destruct o as [o1 o2 o3 o4 o5 o6 o7 o8 o9 o10 o11 o12]. cbn [o_transpose]. destruct o10.
  - exact (later_options (Build_transform_options o1 o2 o3 o4 o5 o6 o7 o8 o9 false o11 o12) (last (map fst (map ta_transpose Js)) []) (map ta_transpose Js) eq_refl).
  - apply later_options. reflexivity.
Qed.
