(** The formats count and null. *)
From Coq Require Import String Ascii.
From Coq Require Import List Arith Bool ZArith Lia Sorted Permutation.
Import ListNotations.
From Verif Require Import M_Term M_Ideal M_Slice M_Msm M_Api M_Names M_IO Spec_IO P_Names P_IO P_IO2 P_IO3 P_IO4 P_IO5 P_IO6 P_IO7 P_IO8 P_IO9 P_IO10 M_Intersect M_Transform M_Actions M_Cli P_Cli2 P_Cli3 P_Cli4 P_Cli5 P_Cli6 P_Cli7.
From Verif Require Import Spec_Names P_Names2 P_Transform4 P_Cli1 Spec_Slice Spec_Run P_Term P_Ideal P_Decomp P_Internal P_Api P_Api2 P_Api3 P_Api4 P_Api5.
From Verif Require Import M_Cli2 M_Cli3 P_Cli12 M_Main M_Count Spec_Main P_Main P_Main2 P_Main3.
From Verif Require Import Spec Spec_Api Spec_Cli Spec_Cli3 Spec_Cli2 Spec_Count.
Local Notation length := List.length.

(** ** Counting *)
Lemma counted_terms tr es : forall ts k, counted k (map (WTTerm tr) ts ++ es) = counted (k + Z.of_nat (length ts)) es.
Proof.
  induction ts as [|t ts IH]; intros k; cbn [map app counted length]; [f_equal; lia|]. rewrite IH. f_equal. lia.
Qed.
Lemma counted_ideal tr ts es k : counted k (ideal_events tr ts ++ es) = line_with (Z.of_nat (length ts)) ++ counted (Z.of_nat (length ts)) es.
Proof. unfold ideal_events. cbn [app counted]. rewrite <- app_assoc, counted_terms. reflexivity. Qed.
Lemma counted_lists tr es : (forall k, counted k es = []) -> forall Tss k,
  counted k (concat (map (ideal_events tr) Tss) ++ es) = concat (map (fun T => line_with (Z.of_nat (length T))) Tss).
Proof.
  intros E. induction Tss as [|T Tss IH]; intros k; cbn [map concat app]; auto. rewrite <- app_assoc, counted_ideal. f_equal. apply IH.
Qed.
Lemma counted_list names tr Tss k : counted k (list_events names tr Tss) = counts Counting (map (@length term) Tss).
Proof. unfold list_events. cbn [counted app]. rewrite counted_lists by reflexivity. cbn [counts]. now rewrite map_map. Qed.
Lemma valued_length n tr ts L : valued n tr ts L -> length ts = length L.
Proof. intros [_ [_ E]]. apply (f_equal (@length _)) in E. now rewrite !map_length in E. Qed.
Lemma valued_lengths n tr Tss Ls : Forall2 (valued n tr) Tss Ls -> map (@length term) Tss = map (@length mono) Ls.
Proof. induction 1; cbn [map]; f_equal; auto. eapply valued_length; eauto. Qed.

(** ** What the sinks show *)
Lemma canonicalize_length tr ts : length (canonicalize tr ts) = length ts.
Proof. apply Permutation_length, std_sort_perm. Qed.
Lemma sink_one n s canon names tr ts L : valued n tr ts L -> sink_output s canon false tr (told names ts) = Ok (counts s [length L]).
Proof.
  intros V. unfold sink_output. set (ts' := if canon then canonicalize tr ts else ts).
  assert (V' : valued n tr ts' (canon1 canon L)) by (unfold ts', canon1; destruct canon; auto using valued_sort).
  assert ((if canon then cc_run tr cc_new (told names ts) else Some (told names ts)) = Some (told names ts')) as -> by (unfold ts'; destruct canon; auto using cc_told).
  cbn [bind]. rewrite (told_events n tr names ts' _ V'). destruct s; auto. f_equal. cbn [counted].
  rewrite <- (app_nil_r (ideal_events tr ts')), counted_ideal. cbn [counts map concat counted].
  now rewrite (valued_length _ _ _ _ V'), <- (Permutation_length (canon1_perm canon L)).
Qed.
Lemma sink_split n s canon names tr ts L : valued n tr ts L -> zero_first tr ->
  sink_output s canon true tr (told names ts) = Ok (counts s (map (fun c => length (irreducible_generators n c)) (canon1 canon L))).
Proof.
  intros V ZF. unfold sink_output. set (ts' := if canon then canonicalize tr ts else ts).
  assert (V' : valued n tr ts' (canon1 canon L)) by (unfold ts', canon1; destruct canon; auto using valued_sort).
  assert ((if canon then cc_run tr cc_new (told names ts) else Some (told names ts)) = Some (told names ts')) as -> by (unfold ts'; destruct canon; auto using cc_told).
  cbn [bind]. rewrite (told_events n tr names ts' _ V'). destruct s; auto. f_equal. rewrite splitter_told, counted_list. f_equal.
  pose proof (proj1 V') as LT. destruct V' as [_ [B C]]. revert B C. generalize (canon1 canon L) as M. clear -ZF LT. clearbody ts'. clear ts.
  induction ts' as [|t us IH]; intros M B C; destruct M as [|m M]; try discriminate; [reflexivity|].
  cbn [map] in *. injection C as C1 C2. inversion B as [|? ? [B1 B2] B3]; subst. f_equal; auto.
  apply (valued_length (length tr) tr). apply splits_valued; auto.
Qed.
Lemma sink_list n s canon names tr Tss Ls : Forall2 (valued n tr) Tss Ls ->
  sink_output s canon false tr (told_list names Tss) = Ok (counts s (map (@length mono) (canon2 canon Ls))).
Proof.
  intros V. unfold sink_output.
  set (Tss' := if canon then map (canonicalize tr) (std_sort (list_less (tr_less tr)) (map (canonicalize tr) (rev Tss))) else Tss).
  assert (V' : Forall2 (valued n tr) Tss' (canon2 canon Ls)).
  { unfold Tss', canon2. destruct canon; auto. assert (V1 : Forall2 (valued n tr) (map (canonicalize tr) (rev Tss)) (map lexsort (rev Ls))) by (apply F2_map; [apply valued_sort|now apply F2_rev]).
    assert (W : Forall2 (valued n tr) (std_sort (list_less (tr_less tr)) (map (canonicalize tr) (rev Tss))) (listsort (map lexsort (rev Ls)))).
    { apply insert_Forall2; auto. intros x y x' y' X Y. apply (list_less_value n tr); auto. }
    assert (listsort (map lexsort (rev Ls)) = map lexsort (listsort (map lexsort (rev Ls)))) as ->.
    { symmetry. rewrite <- (map_id (listsort (map lexsort (rev Ls)))) at 2. apply map_ext_in. intros L HL. apply std_sort_in in HL. apply in_map_iff in HL. destruct HL as [L0 [<- H0]]. apply (lexsort_twice n).
      apply in_rev in H0. clear -V H0. induction V; destruct H0; subst; auto. eapply valued_ring; eauto. }
    apply F2_map; auto. apply valued_sort. }
  assert ((if canon then cc_run tr cc_new (told_list names Tss) else Some (told_list names Tss)) = Some (told_list names Tss')) as -> by (unfold Tss'; destruct canon; auto using cc_told_list).
  cbn [bind]. rewrite (told_list_events n tr names Tss' _ V'). destruct s; auto. rewrite counted_list. cbn [counts]. now rewrite (valued_lengths _ _ _ _ V').
Qed.

(** ** The actions *)
Lemma irr_counts s o (encode : bool) rnd file names gens : input_is o file names gens -> exists names' gens' D,
  output_ring (o_canon o) names gens names' gens' /\ irreducible_decomposition (length names') gens' D /\ (o_canon o = true -> descending D) /\
  irrdecom_sink s o encode rnd file = Ok (counts s (if encode then [length D] else map (fun c => length (irreducible_generators (length names') c)) D)).
Proof.
  intros H. destruct (cli_read_ok o file names gens H) as [names' [gens' [J [A [B [C [D E]]]]]]]. pose proof H as [Hc _].
  destruct (told_irr (o_config o) rnd (length names') gens' J Hc C D) as [ts [Dec [X [V Y]]]]. exists names', gens', (canon1 (o_canon o) Dec). split; auto.
  split; [exact (decomposition_perm _ _ _ _ (canon1_perm (o_canon o) Dec) Y)|]. pose proof Y as [Y1 [Y2 _]]. split; [now apply (canon1_descending (length names'))|].
  unfold irrdecom_sink. rewrite A. cbn [rbind]. unfold told_irrDecom. rewrite X. cbn [bind co_of co_tr sink_write]. destruct encode; cbn [negb].
  - rewrite (sink_one (length names') s _ names' _ ts Dec V). now rewrite <- (Permutation_length (canon1_perm (o_canon o) Dec)).
  - apply sink_split; auto. apply tr_zero_first.
Qed.
Lemma msm_counts s o (increment : bool) rnd file names gens : input_is o file names gens -> exists names' gens' L,
  output_ring (o_canon o) names gens names' gens' /\ NoDup L /\ (forall m, In m L <-> max_standard (length names') gens' m) /\
  maxstandard_sink s o increment rnd file = Ok (counts s [length L]).
Proof.
  intros H. destruct (cli_read_ok o file names gens H) as [names' [gens' [J [A [B [C [D E]]]]]]]. pose proof H as [Hc _].
  destruct (told_msm increment (o_config o) rnd (length names') gens' J Hc C D) as [ts [L [X [V [Y Z]]]]]. exists names', gens', L. split; auto. split; auto. split; auto.
  unfold maxstandard_sink. rewrite A. cbn [rbind]. unfold told_maxStandard. cbn [co_of co_n co_ideal co_tr]. rewrite X. cbn [bind sink_write].
  rewrite (sink_one (length names') s _ names' _ ts _ V). destruct increment; auto. now rewrite map_length.
Qed.
Lemma ass_counts s o rnd file names gens : input_is o file names gens -> exists names' gens' Ss,
  output_ring (o_canon o) names gens names' gens' /\ NoDup Ss /\ (forall p, In p Ss <-> associated_prime (length names') gens' p) /\
  assoprimes_sink s o rnd file = Ok (counts s [length Ss]).
Proof.
  intros H. destruct (cli_read_ok o file names gens H) as [names' [gens' [J [A [B [C [D E]]]]]]]. pose proof H as [Hc _].
  destruct (told_ass (o_config o) rnd (length names') gens' J names' Hc C D) as [ts [L [X [V [Y Z]]]]]. exists names', gens', L. split; auto. split; auto. split; auto.
  unfold assoprimes_sink. rewrite A. cbn [rbind]. rewrite X. cbn [sink_write]. now apply (sink_one (length names')).
Qed.
Lemma primary_counts s o rnd file names gens : input_is o file names gens -> exists names' gens' D Gs Bs Cs, let n := length names' in
  output_ring (o_canon o) names gens names' gens' /\ irreducible_decomposition n gens' D /\ descending D /\ support_runs n D Gs /\ Forall2 (same_support_intersection n) Gs Bs /\
  (forall m, length m = n -> (in_ideal gens' m <-> forall B, In B Bs -> in_ideal B m)) /\
  (if o_canon o then same_lists Bs Cs else Cs = Bs) /\
  primdecom_sink s o rnd file = Ok (counts s (map (@length mono) Cs)).
Proof.
  intros H. destruct (cli_read_ok o file names gens H) as [names' [gens' [J [A [B [C [D E]]]]]]]. pose proof H as [Hc _].
  destruct (told_primary_ok (o_config o) rnd (length names') gens' J names' Hc C D) as [parts [Dec [Gs [Bs [X [V [Y1 [Y2 [Y3 [Y4 Y5]]]]]]]]]].
  exists names', gens', Dec, Gs, Bs, (canon2 (o_canon o) Bs). cbv zeta. split; auto. split; auto. split; auto. split; auto. split; auto. split; auto. split.
  - assert (R : Forall (in_ring (length names')) Bs) by (clear -V; induction V; constructor; auto; eapply valued_ring; eauto).
    destruct (o_canon o) eqn:EC; [|reflexivity]. exact (proj1 (canon2_same (length names') true Bs R)).
  - unfold primdecom_sink. rewrite A. cbn [rbind]. rewrite X. cbn [sink_write]. now apply (sink_list (length names')).
Qed.
Lemma dual_counts s o rnd file names gens point : dual_input_is o file names gens point -> (o_canon o = true -> point = None \/ ascending names) -> exists names' gens',
  output_ring (o_canon o) names gens names' gens' /\
  let n := length names' in
  let prints a := exists L, lists_minimal n (in_alexander_dual gens' a) L /\ alexdual_sink s o rnd file = Ok (counts s [length L]) in
  match point with
  | None => exists a, lcm_of_minimal_generators n gens' a /\ prints a
  | Some a => names' = names /\ gens' = gens /\ (above_minimal_generators n gens' a -> prints a) /\ (~ above_minimal_generators n gens' a -> alexdual_sink s o rnd file = OtherError)
  end.
Proof.
  intros H HC. destruct (dual_good _ _ _ _ _ H) as [N [R P]]. destruct H as [Hc [E M]].
  destruct (cli_set_legal (o_minimal o) (o_canon o) names gens N R M) as [names' [gens' [J [A [B [C [D F]]]]]]]. exists names', gens'. split; auto. cbv zeta.
  assert (LN : length names' = length names) by (destruct (o_canon o); cbn [output_ring] in F; [destruct F as [F _]; apply Permutation_sym, Permutation_length in F; auto|destruct F as [-> _]; auto]).
  assert (ACT : alexdual_sink s o rnd file = match bind (match point with Some a => Some (znat a) | None => getLcmOfIdeal (co_of (length names') gens' J) end) (told_dual (o_config o) rnd names' (co_of (length names') gens' J)) with
      | None => Undefined | Some None => OtherError | Some r => sink_write s o false r end).
  { unfold alexdual_sink. rewrite E. cbn [rbind]. rewrite nideal_znat. cbn [fst]. rewrite A. destruct point; reflexivity. }
  assert (OK : forall a, length a = length names' -> above_minimal_generators (length names') gens' a ->
     match told_dual (o_config o) rnd names' (co_of (length names') gens' J) (znat a) with
      | None => Undefined | Some None => OtherError | Some r => sink_write s o false r end = alexdual_sink s o rnd file ->
     exists L, lists_minimal (length names') (in_alexander_dual gens' a) L /\ alexdual_sink s o rnd file = Ok (counts s [length L])).
  { intros a La HA X. destruct (told_dual_ok (o_config o) rnd (length names') gens' J a names' Hc C D La HA) as [ts [L [Y [V [Z0 [W _]]]]]]. exists L. split; auto. rewrite <- X, Y. cbn [sink_write].
    now apply (sink_one (length names')). }
  destruct point as [a|]; cbn [bind] in ACT.
  - assert (HA : o_canon o = true -> ascending names) by (intros Y; destruct (HC Y); [discriminate|auto]).
    destruct (ascending_output _ _ _ _ _ (proj1 N) R HA F) as [-> ->]. split; auto. split; auto. split; intros X; [apply OK; auto; congruence|]. rewrite ACT.
    rewrite told_dual_error; auto; [unfold znat; rewrite map_length; congruence|]. intros [b [X1 Y]]. apply znat_inj in X1. subst. contradiction.
  - pose proof (lcmI_least (length names') gens' J (proj1 (in_ring_wf _ _) C) D) as HL. exists (lcmI (length names') gens' J). split; auto. destruct HL as [L1 [L2 _]]. apply OK; auto. rewrite ACT, getLcm_spec by auto. reflexivity.
Qed.
