(** The actions dimension and euler, from text to text. *)
From Coq Require Import String Ascii.
From Coq Require Import List Arith Bool ZArith Lia Sorted Permutation.
Import ListNotations.
From Verif Require Import M_Term M_Ideal M_Slice M_Msm M_Api M_Names M_IO Spec_IO P_Names P_IO P_IO2 P_IO3 P_IO4 P_IO5 P_IO6 P_IO7 P_IO8 P_IO9 P_IO10 M_Intersect M_Transform M_Actions M_Dim M_Opt M_Euler M_Cli M_Cli2 P_Cli2 P_Cli3 P_Cli4 P_Cli5 P_Cli6 P_Detect.
From Verif Require Import Spec_Names P_Names2 P_Transform4 P_Cli1 P_Actions Spec_Slice Spec_Run P_Term P_Ideal P_Decomp P_Internal P_Api P_Dim P_Valid P_Opt8 Spec_Euler Spec_EulerCfg P_Euler9.
From Verif Require Import Spec Spec_Api Spec_Dim Spec_Opt Spec_Cli Spec_Cli2.
Local Notation length := List.length.

(** ** dimension *)
Lemma radical_same n I : in_ring n I -> square_free I -> radical_of n I = I.
Proof.
  intros R S. unfold radical_of. rewrite <- (map_id I) at 2. apply map_ext_in. intros g Hg. unfold in_ring in R. rewrite Forall_forall in R. specialize (R g Hg). unfold square_free in S. rewrite Forall_forall in S. specialize (S g Hg). rewrite Forall_forall in S.
  apply nth_ext with (d := 0) (d' := 0); [rewrite tabulate_length; auto|]. rewrite tabulate_length. intros v Hv. rewrite tabulate_nth by auto. fold (g @ v). destruct (Nat.eqb_spec (g @ v) 0); auto.
  assert (g @ v <= 1) by (apply S, nth_In; lia). lia.
Qed.
Lemma dimension_sqf n I sqf : in_ring n I -> (sqf = true -> square_free I /\ lists_minimal_generators n I I) -> exists d,
  is_dimension n I d /\ computeDimension n I sqf = Some d /\ computeCodimension n I sqf = Some (Z.of_nat n - d)%Z.
Proof.
  intros R S. destruct (dimension_spec n I sqf) as [d [E [H1 H2]]].
  { intros Hs. destruct (S Hs) as [A B]. rewrite radical_same by auto. destruct (minl_antichain n I) as [X Y]; auto; [now apply in_ring_wf|]. split; auto. }
  exists d. split; [|unfold computeCodimension; rewrite E; auto]. split.
  - intros H. apply H1. apply one_in; auto.
  - intros H. rewrite one_in in H by auto. destruct H2 as [k [K1 [[E0 [K2 K3]] K4]]].
    + intros g Hg. destruct (existsb (fun v => 0 <? g @ v) (seq 0 n)) eqn:X.
      * apply existsb_exists in X. destruct X as [v [A B]]. apply in_seq in A. apply Nat.ltb_lt in B. exists v. split; auto; lia.
      * exfalso. apply H. exists g. split; auto. intros v Hv. destruct (Nat.eq_dec (g @ v) 0); auto. exfalso.
        assert (existsb (fun v => 0 <? g @ v) (seq 0 n) = true); [|congruence]. apply existsb_exists. exists v.
        split; [apply in_seq; lia|apply Nat.ltb_lt; lia].
    + split.
      * destruct (cover_indep n I E0 K2) as [V [A B]]. exists V. split; auto. lia.
      * intros V HV. destruct (indep_cover n I V HV) as [A B]. specialize (K4 _ A). lia.
Qed.
Lemma dimension_printed o rnd file names gens :
  read_ideal (do_max o) (if do_slice o then autoDetect file else the_format (do_in o) file) file = Ok (names, map znat gens) ->
  (do_slice o = false -> do_sqf o = true -> square_free gens /\ lists_minimal_generators (length names) gens gens) ->
  exists d, is_dimension (length names) gens d /\
    dimension_action o rnd file = Ok (line_with (if do_codim o then Z.of_nat (length names) - d else d)).
Proof.
  intros E S. destruct (good_znat names gens (read_good _ _ _ _ E)) as [N R]. unfold dimension_action. destruct (do_slice o).
  - rewrite E. cbn [rbind]. rewrite nideal_znat. cbn [fst]. destruct (cli_set_legal false false names gens N R) as [names' [gens' [J [A [B [C [D F]]]]]]]; [discriminate|].
    cbn [output_ring] in F. destruct F as [-> ->]. rewrite A. cbn [rbind].
    destruct (p_codimension (length names) gens C) as [d [D1 [D2 D3]]]. exists d. split; auto.
    destruct (g_sf_dimension default_oparams rnd (length names) gens J) as [X Y]; auto; [exact (proj1 (proj2 builtin_rules))|].
    destruct (do_codim o); [rewrite Y, D3|rewrite X, D1]; reflexivity.
  - rewrite E. cbn [rbind]. rewrite nideal_znat. cbn [fst].
    destruct (dimension_sqf (length names) gens (do_sqf o) R (S eq_refl)) as [d [A [B C]]]. exists d. split; auto. destruct (do_codim o); [rewrite C|rewrite B]; reflexivity.
Qed.
Lemma dimension_errors o rnd file : do_slice o = true \/ do_sqf o = false -> match read_ideal (do_max o) (dimension_format o file) file with
  | Ok _ => exists d, dimension_action o rnd file = Ok (line_with d)
  | SyntaxError => dimension_action o rnd file = SyntaxError
  | OtherError => dimension_action o rnd file = OtherError
  | InvalidArgument => dimension_action o rnd file = InvalidArgument
  | OutOfFuel | Undefined => False
  end.
Proof.
  intros S. unfold dimension_format. set (f := if do_slice o then autoDetect file else the_format (do_in o) file). destruct (reading_total (do_max o) f file) as [T _].
  destruct (read_ideal (do_max o) f file) as [J| | | | |] eqn:E; auto.
  - destruct (good_form J T) as [gens G]. destruct J as [names J]. cbn [fst] in G. injection G as ->.
    destruct (dimension_printed o rnd file names gens E) as [d [_ ->]]; [intros A B; destruct S; congruence|]. eauto.
  - unfold f in E. unfold dimension_action. destruct (do_slice o); rewrite E; reflexivity.
  - unfold f in E. unfold dimension_action. destruct (do_slice o); rewrite E; reflexivity.
  - unfold f in E. unfold dimension_action. destruct (do_slice o); rewrite E; reflexivity.
Qed.

(** ** The names of the strategies *)
Lemma created_std name s : created stdFactory name = Some s -> In name std_names.
Proof.
  unfold stdFactory. cbn [created]. repeat (destruct (str_dec _ name) as [<-|]; [intros _; cbn; tauto|]). discriminate.
Qed.
Lemma std_created name : In name std_names -> exists s, created stdFactory name = Some s.
Proof. intros H. cbn in H. repeat (destruct H as [<-|H]; [eexists; reflexivity|]). destruct H. Qed.
Lemma created_gen name s : created genFactory name = Some s -> In name gen_names.
Proof.
  unfold genFactory. cbn [created]. repeat (destruct (str_dec _ name) as [<-|]; [intros _; cbn; tauto|]). discriminate.
Qed.
Lemma gen_created name : In name gen_names -> exists s, created genFactory name = Some s.
Proof. intros H. cbn in H. repeat (destruct H as [<-|H]; [eexists; reflexivity|]). destruct H. Qed.
Lemma std_plain name : In name std_names -> firstn 6 name <> lit "widen_".
Proof. intros H. cbn in H. repeat (destruct H as [<-|H]; [discriminate|]). destruct H. Qed.
Lemma gen_plain name : In name gen_names -> ~ In "_"%char name.
Proof. intros H. cbn in H. repeat (destruct H as [<-|H]; [cbn; intuition discriminate|]). destruct H. Qed.
Lemma std_legal name : (exists st, newStdPivotStrategy name = Ok st) <-> legal_std name.
Proof.
  unfold newStdPivotStrategy, legal_std. split.
  - intros [st H]. destruct (str_dec (firstn 6 name) (lit "widen_")) as [W|W].
    + destruct (created stdFactory (skipn 6 name)) as [s|] eqn:E; [|discriminate]. exists (skipn 6 name). split; [now apply created_std in E|]. right. rewrite <- W. symmetry. apply firstn_skipn.
    + destruct (created stdFactory name) as [s|] eqn:E; [|discriminate]. exists name. split; auto. now apply created_std in E.
  - intros [x [H [-> | ->]]]; destruct (std_created x H) as [s E].
    + destruct (str_dec (firstn 6 x) (lit "widen_")) as [W|W]; [destruct (std_plain x H W)|]. rewrite E. eauto.
    + change (firstn 6 (lit "widen_" ++ x)) with (lit "widen_"). destruct (str_dec (lit "widen_") (lit "widen_")) as [W|W]; [|congruence]. change (skipn 6 (lit "widen_" ++ x)) with x. rewrite E. eauto.
Qed.
Lemma std_error name : (exists st, newStdPivotStrategy name = Ok st) \/ newStdPivotStrategy name = OtherError.
Proof. unfold newStdPivotStrategy. destruct (str_dec _ _); destruct (created _ _); eauto. Qed.
Lemma parts_plain : forall x p, ~ In "_"%char x -> parts p x = [rev p ++ x].
Proof.
  induction x as [|c x IH]; intros p H; cbn [parts]; [now rewrite app_nil_r|]. destruct (ascii_dec c "_") as [->|Nc]; [destruct H; now left|].
  rewrite IH by (intros X; apply H; now right). cbn [rev]. now rewrite <- app_assoc.
Qed.
Lemma parts_split : forall x p y, ~ In "_"%char x -> parts p (x ++ lit "_" ++ y) = (rev p ++ x) :: parts [] y.
Proof.
  induction x as [|c x IH]; intros p y H; cbn [parts app]; [change (lit "_" ++ y) with ("_"%char :: y); cbn [parts]; destruct (ascii_dec "_" "_"); [now rewrite app_nil_r|congruence]|].
  destruct (ascii_dec c "_") as [->|Nc]; [destruct H; now left|].
  rewrite IH by (intros X; apply H; now right). cbn [rev]. now rewrite <- app_assoc.
Qed.
Lemma cut_name : forall name : str, In "_"%char name -> exists x y, name = x ++ lit "_" ++ y /\ ~ In "_"%char x.
Proof.
  induction name as [|c name IH]; intros H; [destruct H|]. destruct (ascii_dec c "_") as [->|Nc]; [exists [], name; split; auto|].
  destruct IH as [x [y [-> X]]]; [destruct H; congruence || auto|]. exists (c :: x), y. split; auto. intros [->|Y]; auto.
Qed.
Lemma create_all_iff ps : (exists gs, create_all ps = Ok gs) <-> Forall (fun p => In p gen_names) ps.
Proof.
  induction ps as [|p ps IH]; cbn [create_all]; [split; eauto|]. split.
  - intros [gs H]. destruct (created genFactory p) as [g|] eqn:E; [|discriminate]. constructor; [now apply created_gen in E|]. apply IH. destruct (create_all ps) as [gs'| | | | |]; try discriminate; eauto.
  - intros H. inversion H; subst. destruct (gen_created p) as [g ->]; auto. apply IH in H3. destruct H3 as [gs ->]. cbn [rbind]. eauto.
Qed.
Lemma gen_parts : forall name, Forall (fun p => In p gen_names) (parts [] name) <-> legal_gen name.
Proof.
  intros name. split.
  - assert (G : forall k name, length name <= k -> Forall (fun p => In p gen_names) (parts [] name) -> legal_gen name).
    { clear name. induction k as [|k IH]; intros name L H.
      - destruct name; [|cbn in L; lia]. cbn in H. inversion H; subst. apply LG1. auto.
      - destruct (in_dec ascii_dec "_"%char name) as [U|U].
        + destruct (cut_name name U) as [x [y [-> X]]]. rewrite parts_split in H by auto. inversion H; subst. apply LG2; auto. apply IH; auto. rewrite !app_length in L. cbn in L. lia.
        + rewrite parts_plain in H by auto. inversion H; subst. apply LG1. auto. }
    apply (G (length name)). lia.
  - induction 1 as [x H|x y H L IH].
    + rewrite parts_plain by (now apply gen_plain). constructor; auto.
    + rewrite parts_split by (now apply gen_plain). constructor; auto.
Qed.
Lemma gen_legal name : (exists st, newGenPivotStrategy name = Ok st) <-> legal_gen name.
Proof.
  rewrite <- gen_parts, <- create_all_iff. unfold newGenPivotStrategy. destruct (in_dec ascii_dec "_"%char name) as [U|U].
  - split; intros [st H]; [destruct (create_all (parts [] name)); try discriminate; eauto|]. rewrite H. cbn [rbind]. eauto.
  - rewrite parts_plain by auto. cbn [rev app create_all]. split; intros [st H]; destruct (created genFactory name); try discriminate; cbn [rbind]; eauto.
Qed.
Lemma all_error ps : (exists gs, create_all ps = Ok gs) \/ create_all ps = OtherError.
Proof. induction ps as [|p ps IH]; cbn [create_all]; eauto. destruct (created genFactory p); auto. destruct IH as [[gs ->]| ->]; cbn [rbind]; eauto. Qed.
Lemma gen_error name : (exists st, newGenPivotStrategy name = Ok st) \/ newGenPivotStrategy name = OtherError.
Proof.
  unfold newGenPivotStrategy. destruct (in_dec _ _ _); [|destruct (created _ _); eauto]. destruct (all_error (parts [] name)) as [[gs ->]| ->]; cbn [rbind]; eauto.
Qed.
Lemma strategy_legal o : (exists st, euler_strategy o = Ok st) <-> legal_euler o.
Proof.
  unfold euler_strategy, legal_euler. rewrite <- std_legal, <- gen_legal. split.
  - intros [st H]. destruct (newStdPivotStrategy (eo_std o)) as [a| | | | |] eqn:A; try discriminate. cbn [rbind] in H. destruct (newGenPivotStrategy (eo_gen o)) as [b| | | | |] eqn:B; try discriminate. cbn [rbind] in H.
    split; [|eauto]. cbn. destruct (str_dec (eo_pivot o) (lit "std")); [auto|]. destruct (str_dec (eo_pivot o) (lit "gen")); [auto|]. destruct (str_dec (eo_pivot o) (lit "hybrid")); [auto|discriminate].
  - intros [K [[a ->] [b ->]]]. cbn [rbind]. cbn in K. destruct (str_dec (eo_pivot o) (lit "std")); [eauto|]. destruct (str_dec (eo_pivot o) (lit "gen")); [eauto|]. destruct (str_dec (eo_pivot o) (lit "hybrid")); [eauto|].
    destruct K as [K|[K|[K|[]]]]; cbn in *; congruence.
Qed.
Lemma strategy_error o : ~ legal_euler o -> euler_strategy o = OtherError.
Proof.
  intros H. assert (G : (exists st, euler_strategy o = Ok st) \/ euler_strategy o = OtherError); [|destruct G as [G|G]; auto; apply strategy_legal in G; tauto].
  unfold euler_strategy. destruct (std_error (eo_std o)) as [[a ->]| ->]; cbn [rbind]; auto. destruct (gen_error (eo_gen o)) as [[b ->]| ->]; cbn [rbind]; auto. repeat (destruct (str_dec _ _); eauto).
Qed.
Lemma transpose_legal o : (exists tr, euler_transpose o = Ok tr) <-> In (eo_transpose o) transpose_names.
Proof.
  unfold euler_transpose, transpose_names. cbn [map In].
  destruct (str_dec (eo_transpose o) (lit "on")) as [E|E]; [rewrite E; split; [auto|eexists; reflexivity]|]. destruct (str_dec (eo_transpose o) (lit "once")) as [F|F]; [rewrite F; split; [auto|eexists; reflexivity]|].
  destruct (str_dec (eo_transpose o) (lit "off")) as [D|D]; [rewrite D; split; [auto|eexists; reflexivity]|]. split; [intros [? ?]; discriminate|]. intros [K|[K|[K|[]]]]; congruence.
Qed.
Lemma transpose_error o : ~ In (eo_transpose o) transpose_names -> euler_transpose o = OtherError.
Proof. rewrite <- transpose_legal. unfold euler_transpose. repeat (destruct (str_dec _ _); [intros H; exfalso; apply H; eexists; reflexivity|]). auto. Qed.

(** ** euler *)
Lemma bz_inj A B : map (map b2z) A = map (map b2z) B -> A = B.
Proof.
  revert B. induction A as [|a A IH]; intros [|b B] E; try discriminate; auto. cbn [map] in E. injection E as E1 E2. f_equal; auto.
  clear IH E2. revert b E1. induction a as [|x a IH]; intros [|y b] E; try discriminate; auto. cbn [map] in E. injection E as E1 E2. f_equal; auto. destruct x, y; cbn in E1; congruence.
Qed.
Lemma euler_over m f file names gens : read_square_free m f file = Ok (names, gens) -> over (length names) gens.
Proof. intros E. pose proof (read_square_free_gd m f file) as H. rewrite E in H. apply H. Qed.
Lemma euler_printed o fuel file out : (eo_pairs o = true -> eo_unique o = true \/ eo_many o = true) -> euler_print o fuel file = Ok out ->
  legal_euler o /\ In (eo_transpose o) transpose_names /\
  exists names gens chi, read_square_free (eo_max o) (the_format (eo_in o) file) file = Ok (names, gens) /\
    is_euler (length names) (action_faces (eo_swap01 o) gens) chi /\ out = line_with chi.
Proof.
  intros P H. unfold euler_print in H. destruct (euler_strategy o) as [st| | | | |] eqn:A; try discriminate. cbn [rbind] in H.
  destruct (read_square_free (eo_max o) (the_format (eo_in o) file) file) as [[names gens]| | | | |] eqn:E; try discriminate. cbn [rbind] in H.
  destruct (euler_transpose o) as [tr| | | | |] eqn:B; try discriminate. cbn [rbind] in H.
  destruct (euler_action (euler_settings o st tr) fuel (eo_swap01 o) (length names) gens) as [chi| |] eqn:F; try discriminate. injection H as <-.
  split; [apply strategy_legal; eauto|]. split; [apply transpose_legal; eauto|]. exists names, gens, chi. split; auto. split; [|reflexivity].
  eapply p_action; [|eapply euler_over; exact E|exact F]. exact P.
Qed.
Lemma euler_total o file names gens : (eo_pairs o = true -> eo_unique o = true \/ eo_many o = true) -> legal_euler o -> In (eo_transpose o) transpose_names ->
  read_square_free (eo_max o) (the_format (eo_in o) file) file = Ok (names, gens) ->
  (forall st, euler_strategy o = Ok st -> settings_end (euler_settings o st (true, true)) (Nat.max (length names) (length gens))) ->
  exists chi k, is_euler (length names) (action_faces (eo_swap01 o) gens) chi /\ forall fuel, k <= fuel -> euler_print o fuel file = Ok (line_with chi).
Proof.
  intros P L T E S. apply strategy_legal in L. destruct L as [st L]. apply transpose_legal in T. destruct T as [tr T]. specialize (S st L).
  destruct (p_action_terminates (euler_settings o st tr) (eo_swap01 o) (length names) gens P S (euler_over _ _ _ _ _ E)) as [chi [k H]].
  exists chi, k. split; [exact (p_action (euler_settings o st tr) k (eo_swap01 o) (length names) gens chi P (euler_over _ _ _ _ _ E) (H k (Nat.le_refl k)))|].
  intros fuel K. unfold euler_print. rewrite L, E. cbn [rbind]. rewrite T. cbn [rbind]. now rewrite H.
Qed.
Lemma euler_errors o fuel file : (~ legal_euler o -> euler_print o fuel file = OtherError) /\
  (legal_euler o -> match read_square_free (eo_max o) (the_format (eo_in o) file) file with
   | Ok _ => ~ In (eo_transpose o) transpose_names -> euler_print o fuel file = OtherError
   | SyntaxError => euler_print o fuel file = SyntaxError
   | OtherError => euler_print o fuel file = OtherError
   | InvalidArgument => euler_print o fuel file = InvalidArgument
   | OutOfFuel | Undefined => False
   end).
Proof.
  split.
  - intros H. unfold euler_print. now rewrite strategy_error.
  - intros L. apply strategy_legal in L. destruct L as [st L]. unfold euler_print. rewrite L. cbn [rbind]. destruct (reading_total (eo_max o) (the_format (eo_in o) file) file) as [_ [_ T]].
    destruct (read_square_free (eo_max o) (the_format (eo_in o) file) file) as [[names gens]| | | | |]; cbn [rbind]; auto. intros X. now rewrite transpose_error.
Qed.
(** Without random choices *)
Definition steady_std (st : strategy) : Prop := match st with SStd StdRandom | SWiden StdRandom => False | SStd _ | SWiden _ => True | _ => False end.
Definition steady_gen (st : strategy) : Prop := match st with SGen GenRandom => False | SGen _ => True | SComposite l => ~ In GenRandom l | _ => False end.
Lemma created_random_std name : created stdFactory name = Some StdRandom -> name = lit "random".
Proof. unfold stdFactory. cbn [created]. repeat (destruct (str_dec _ name) as [<-|]; [congruence|]). discriminate. Qed.
Lemma created_random_gen name : created genFactory name = Some GenRandom -> name = lit "random".
Proof. unfold genFactory. cbn [created]. repeat (destruct (str_dec _ name) as [<-|]; [congruence|]). discriminate. Qed.
Lemma std_steady name st : ~ mentions (lit "random") name -> newStdPivotStrategy name = Ok st -> steady_std st.
Proof.
  unfold newStdPivotStrategy. intros M H. destruct (str_dec (firstn 6 name) (lit "widen_")) as [W|W].
  - destruct (created stdFactory (skipn 6 name)) as [s|] eqn:E; [|discriminate]. injection H as <-. destruct s; try exact Logic.I. apply M. apply created_random_std in E. exists (firstn 6 name), []. rewrite app_nil_r, <- E. symmetry. apply firstn_skipn.
  - destruct (created stdFactory name) as [s|] eqn:E; [|discriminate]. injection H as <-. destruct s; try exact Logic.I. apply M. apply created_random_std in E. exists [], []. now rewrite app_nil_r.
Qed.
Lemma parts_mention x : forall name p, In x (parts p name) -> mentions x (rev p ++ name).
Proof.
  induction name as [|c name IH]; intros p H; cbn [parts] in H.
  - destruct H as [<-|[]]. exists [], []. reflexivity.
  - destruct (ascii_dec c "_") as [->|Nc].
    + destruct H as [<-|H]; [exists [], ("_"%char :: name); reflexivity|]. destruct (IH [] H) as [a [b E]]. cbn [rev app] in E. exists (rev p ++ "_"%char :: a), b. rewrite E, <- app_assoc. reflexivity.
    + destruct (IH (c :: p) H) as [a [b E]]. cbn [rev] in E. rewrite <- app_assoc in E. exists a, b. exact E.
Qed.
Lemma all_random : forall ps gs, create_all ps = Ok gs -> In GenRandom gs -> In (lit "random") ps.
Proof.
  induction ps as [|p ps IH]; cbn [create_all]; intros gs H X; [injection H as <-; destruct X|]. destruct (created genFactory p) as [g|] eqn:E; [|discriminate].
  destruct (create_all ps) as [gs'| | | | |]; try discriminate. cbn [rbind] in H. injection H as <-. destruct X as [->|X]; [left; now apply created_random_gen in E|right; eauto].
Qed.
Lemma gen_steady name st : ~ mentions (lit "random") name -> newGenPivotStrategy name = Ok st -> steady_gen st.
Proof.
  unfold newGenPivotStrategy. intros M H. destruct (in_dec ascii_dec "_"%char name) as [U|U].
  - destruct (create_all (parts [] name)) as [gs| | | | |] eqn:E; try discriminate. cbn [rbind] in H. injection H as <-. intros X. apply M. apply (parts_mention _ name []). eapply all_random; eauto.
  - destruct (created genFactory name) as [g|] eqn:E; [|discriminate]. injection H as <-. destruct g; try exact Logic.I. apply M. apply created_random_gen in E. exists [], []. now rewrite app_nil_r.
Qed.
Lemma never_steady : forall fs a b, ~ In GenRandom fs -> never_empty a b fs = true.
Proof. induction fs as [|f fs IH]; intros a b H; cbn [never_empty]; auto. assert (~ In GenRandom fs) by (intros X; apply H; now right). destruct f; auto. destruct H. now left. Qed.
Lemma steady_ends o st tr N : eo_unique o = true -> ~ mentions (lit "random") (eo_std o) -> ~ mentions (lit "random") (eo_gen o) -> euler_strategy o = Ok st ->
  settings_end (euler_settings o st tr) N.
Proof.
  intros U A B H. unfold euler_strategy in H. destruct (newStdPivotStrategy (eo_std o)) as [s| | | | |] eqn:E; try discriminate. cbn [rbind] in H. destruct (newGenPivotStrategy (eo_gen o)) as [g| | | | |] eqn:F; try discriminate. cbn [rbind] in H.
  apply std_steady in E; auto. apply gen_steady in F; auto.
  assert (X : strategy_ends true s /\ draws_variables s = false) by (destruct s as [[]|[]| | |]; cbn in E |- *; tauto).
  assert (Y : strategy_ends true g /\ draws_variables g = false) by (destruct g as [| |[]|l|]; cbn in F |- *; try tauto; split; auto; now apply never_steady).
  assert (Z : strategy_ends true st /\ draws_variables st = false).
  { destruct (str_dec (eo_pivot o) (lit "std")); [injection H as <-; auto|]. destruct (str_dec (eo_pivot o) (lit "gen")); [injection H as <-; auto|]. destruct (str_dec (eo_pivot o) (lit "hybrid")); [|discriminate].
    injection H as <-. cbn. destruct X as [X1 X2], Y as [Y1 Y2]. rewrite X2, Y2. auto. }
  destruct Z as [Z1 Z2]. split; cbn [euler_settings c_unique c_strategy]; [now rewrite U|]. rewrite Z2. discriminate.
Qed.
Lemma euler_steady o file names gens : eo_unique o = true -> ~ mentions (lit "random") (eo_std o) -> ~ mentions (lit "random") (eo_gen o) ->
  legal_euler o -> In (eo_transpose o) transpose_names -> read_square_free (eo_max o) (the_format (eo_in o) file) file = Ok (names, gens) ->
  exists chi k, is_euler (length names) (action_faces (eo_swap01 o) gens) chi /\ forall fuel, k <= fuel -> euler_print o fuel file = Ok (line_with chi).
Proof. intros U A B L T E. apply euler_total; auto. intros st H. now apply steady_ends. Qed.
Lemma dimension_user o rnd file names gens :
  read_ideal (do_max o) (the_format (do_in o) file) file = Ok (names, map znat gens) ->
  (do_slice o = false -> do_sqf o = true -> square_free gens /\ lists_minimal_generators (length names) gens gens) ->
  exists d, is_dimension (length names) gens d /\
    dimension_action o rnd file = Ok (line_with (if do_codim o then Z.of_nat (length names) - d else d)).
Proof.
  intros E M. apply dimension_printed; auto. destruct (do_slice o); auto. now rewrite (detect_readable (do_max o) (the_format (do_in o) file) file) by (left; eauto).
Qed.
Lemma output_formats o o' max f file : (exists J, read_ideal max f file = Ok J) ->
  (out_format o file = match o_out o with Some g => g | None => match o_in o with Some g => g | None => f end end) /\
  (oo_output o' file = match oo_out o' with Some g => g | None => match oo_in o' with Some g => g | None => f end end).
Proof.
  intros H. pose proof (detect_readable max f file (or_introl H)) as E. unfold out_format, in_format, oo_output, oo_format, the_format. rewrite E. destruct (o_out o), (o_in o), (oo_out o'), (oo_in o'); auto.
Qed.
