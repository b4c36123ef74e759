(** The program: the action and its options. *)
From Coq Require Import String Ascii.
From Coq Require Import List Arith Bool ZArith Lia.
Import ListNotations.
From Verif Require Import M_Term M_Names M_IO M_Opt M_Cli M_Cli2 M_Cli3 M_Analyze M_Actions M_Frob M_IOPoly M_Transform Spec_Slice Spec_Run Spec_Opt Spec_Hilbert Spec_Names Spec_Cli3 P_Names P_Cli12 M_Main Spec_Main P_Main.
Local Open Scope nat_scope.
Local Notation length := List.length.

Lemma value_dec : forall v w : value, {v = w} + {v <> w}.
Proof. decide equality; [apply Bool.bool_dec|apply Z.eq_dec|apply str_dec]. Defined.
Lemma setting_dec : forall v w : str * value, {v = w} + {v <> w}.
Proof. decide equality; [apply value_dec|apply str_dec]. Defined.
Definition within_options (l l' : list (str * value)) : bool := forallb (fun y => if in_dec setting_dec y l' then true else false) l.
Lemma within_options_spec l l' : within_options l l' = true -> incl l l'.
Proof. intros H y Hy. unfold within_options in H. rewrite forallb_forall in H. specialize (H y Hy). destruct (in_dec setting_dec y l'); [auto|discriminate]. Qed.
(** Two tables with the same options *)
Definition same_options (l l' : list (str * value)) : bool := nodupb (map fst l) && nodupb (map fst l') && within_options l l' && within_options l' l.
Lemma same_options_spec l l' : same_options l l' = true -> NoDup (map fst l) /\ NoDup (map fst l') /\ forall y, In y l <-> In y l'.
Proof.
  intros H. apply andb_true_iff in H. destruct H as [H H4]. apply andb_true_iff in H. destruct H as [H H3]. apply andb_true_iff in H. destruct H as [H1 H2].
  apply within_options_spec in H3, H4. split; [now apply str_nodup|]. split; [now apply str_nodup|]. intros y. split; auto.
Qed.
Lemma command_line_same l l' tokens settings : (forall y, In y l <-> In y l') -> command_line l tokens settings -> command_line l' tokens settings.
Proof.
  intros E (gs & -> & F). exists gs. split; auto. assert (EN : forall x, In x (map fst l) <-> In x (map fst l')).
  { intros x. rewrite !in_map_iff. split; intros [y [Y1 Y2]]; exists y; split; auto; now apply E. }
  induction F as [|g s gs ss (p & args & v & H1 & [H2 H2'] & H3 & H4 & H5) F IH]; constructor; auto.
  exists p, args, v. split; auto. split; [split; [now apply EN|]|split; [now apply E|auto]].
  destruct H2' as [->|[H6 H7]]; auto. right. split; auto. intros y Hy. apply H7. now apply EN.
Qed.
Lemma value_of_same l l' settings x : NoDup (map fst l) -> NoDup (map fst l') -> (forall y, In y l <-> In y l') -> value_of l settings x = value_of l' settings x.
Proof.
  intros N N' E. rewrite (value_of_split l), (value_of_split l'). destruct (value_of [] settings x); auto.
  destruct (value_of l [] x) as [w|] eqn:H.
  - apply value_of_in in H; auto. apply E in H. symmetry. now apply value_of_in.
  - destruct (value_of l' [] x) as [w|] eqn:H'; auto. apply value_of_in in H'; auto. apply E, value_of_in in H'; auto. congruence.
Qed.
Lemma getParam_in p x v : NoDup (map fst p) -> In (x, v) p -> getParam p x = Ok v.
Proof.
  induction p as [|[y w] p IH]; cbn [map fst In getParam]; intros N; [tauto|]. inversion N as [|? ? N1 N2]; subst. intros [[= -> ->]|H].
  - destruct (str_dec x x); congruence.
  - destruct (str_dec y x) as [->|]; auto. exfalso. apply N1, in_map_iff. exists (x, v). auto.
Qed.
(** The parameters have the values *)
Definition reads (p : params) (v : valuation) (options : list (str * value)) : Prop :=
  forall x d, In (x, d) options -> exists w, getParam p x = Ok w /\ v x = Some w /\ same_kind d w.
Lemma action_nodup : NoDup (map fst actionFactory).
Proof. apply str_nodup. vm_compute. reflexivity. Qed.
Lemma action_factory : map fst actionFactory = action_names.
Proof. reflexivity. Qed.
Lemma options_nodup : NoDup (map fst options_of).
Proof. apply str_nodup. vm_compute. reflexivity. Qed.
Lemma created_is a action act : In (action, act) actionFactory -> abbreviates action_names a action -> created_with_prefix actionFactory a = Ok act.
Proof.
  intros H A. pose proof (created_spec actionFactory a action_nodup) as C. rewrite action_factory in C.
  destruct (created_with_prefix actionFactory a) as [act'| | | | |]; try destruct C.
  - destruct H0 as [B1 B2]. pose proof (abbreviates_unique _ _ _ _ A B1) as <-. f_equal. eapply in_functional; eauto. exact action_nodup.
  - now destruct (C action).
Qed.
Lemma run action act options w args v file : In (lit action, act) actionFactory -> In (lit action, options) options_of ->
  same_options options (a_params act) = true -> command args action v ->
  exists p, frobby w args file = a_perform act w p file /\ reads p v options.
Proof.
  intros HA HO S (a & tokens & options' & settings & -> & A & HO' & CL & V).
  rewrite (in_functional options_of _ _ _ options_nodup HO' HO) in *. clear options' HO'.
  destruct (same_options_spec _ _ S) as (N1 & N2 & E). pose proof (command_line_same _ _ _ _ E CL) as CL'.
  unfold frobby. rewrite (created_is a _ act HA A). cbn [rbind]. pose proof (parse_updated (a_params act) tokens N2) as P.
  destruct (parseCommandLine (a_params act) tokens) as [p| | | | |]; try destruct P; [|exfalso; eapply P; eauto].
  destruct H as (P1 & P2 & ->). rename x into settings'. pose proof (p_command_unique _ _ _ _ N2 CL' P1) as <-. cbn [rbind].
  eexists. split; [reflexivity|]. intros x d Hd. apply E in Hd. pose proof (kinds_value _ settings x d N2 P2 Hd) as K.
  exists (match value_of [] settings x with Some w => w | None => d end). split; [|split; auto].
  - apply getParam_in; [now rewrite updated_names|]. unfold updated. apply in_map_iff. exists (x, d). auto.
  - rewrite V, (value_of_same options (a_params act) settings x N1 N2 E), value_of_split. destruct (value_of [] settings x); auto. now apply value_of_in.
Qed.
Lemma bad_line action act options w a tokens file : In (lit action, act) actionFactory -> In (lit action, options) options_of ->
  same_options options (a_params act) = true -> abbreviates action_names a (lit action) -> (forall settings, ~ command_line options tokens settings) ->
  frobby w (a :: tokens) file = OtherError.
Proof.
  intros HA HO S A CL. destruct (same_options_spec _ _ S) as (N1 & N2 & E).
  unfold frobby. rewrite (created_is a _ act HA A). cbn [rbind]. pose proof (parse_updated (a_params act) tokens N2) as P.
  destruct (parseCommandLine (a_params act) tokens) as [p| | | | |]; try destruct P; auto.
  destruct H as (P1 & P2 & ->). exfalso. apply (CL x). eapply command_line_same; eauto. intros y. symmetry. apply E.
Qed.
Theorem p_unknown_action w a tokens file : (forall x, ~ abbreviates action_names a x) -> frobby w (a :: tokens) file = OtherError.
Proof.
  intros H. unfold frobby. pose proof (created_spec actionFactory a action_nodup) as C. rewrite action_factory in C.
  destruct (created_with_prefix actionFactory a) as [act| | | | |]; try destruct C; auto. exfalso. eapply H. destruct H0. eauto.
Qed.
(** ** The table *)
Ltac in_table := vm_compute; repeat (first [left; reflexivity|right]).
Lemma all_options action options : In (action, options) options_of -> exists act, In (action, act) actionFactory /\ same_options options (a_params act) = true.
Proof.
  intros H. assert (C : forallb (fun y => match find (fun z => if str_dec (fst z) (fst y) then true else false) actionFactory with
    Some (_, act) => same_options (snd y) (a_params act) | None => false end) options_of = true) by (vm_compute; reflexivity).
  rewrite forallb_forall in C. specialize (C _ H). cbn [fst snd] in C. destruct (find _ actionFactory) as [[x act]|] eqn:F; [|discriminate].
  apply find_some in F. destruct F as [F1 F2]. cbn [fst] in F2. destruct (str_dec x action) as [->|]; [|discriminate]. eauto.
Qed.
Theorem p_bad_options w a tokens file action options : abbreviates action_names a action -> In (action, options) options_of ->
  (forall settings, ~ command_line options tokens settings) -> frobby w (a :: tokens) file = OtherError.
Proof.
  intros A HO CL. destruct (all_options _ _ HO) as (act & HA & S). destruct (same_options_spec _ _ S) as (N1 & N2 & E).
  unfold frobby. rewrite (created_is a _ act HA A). cbn [rbind]. pose proof (parse_updated (a_params act) tokens N2) as P.
  destruct (parseCommandLine (a_params act) tokens) as [p| | | | |]; try destruct P; auto.
  destruct H as (P1 & P2 & ->). exfalso. apply (CL x). eapply command_line_same; eauto. intros y. symmetry. apply E.
Qed.
Lemma same_updated l s s' : (forall x, value_of l s x = value_of l s' x) -> NoDup (map fst l) -> updated l s = updated l s'.
Proof.
  intros E N. unfold updated. apply map_ext_in. intros [x d] H. cbn [fst snd]. f_equal. specialize (E x). rewrite (value_of_split l s), (value_of_split l s') in E.
  apply value_of_in in H; auto. rewrite H in E. destruct (value_of [] s x), (value_of [] s' x); congruence.
Qed.
Theorem p_same_command w args args' file action v v' : command args action v -> command args' action v' -> (forall x, v x = v' x) ->
  frobby w args file = frobby w args' file.
Proof.
  intros (a & tokens & options & settings & -> & A & HO & CL & V) (a' & tokens' & options' & settings' & -> & A' & HO' & CL' & V') EV.
  rewrite (in_functional options_of _ _ _ options_nodup HO' HO) in *. clear options' HO'. destruct (all_options _ _ HO) as (act & HA & S). destruct (same_options_spec _ _ S) as (N1 & N2 & E).
  unfold frobby. rewrite (created_is a _ act HA A), (created_is a' _ act HA A'). cbn [rbind].
  pose proof (parse_updated (a_params act) tokens N2) as P. pose proof (parse_updated (a_params act) tokens' N2) as P'.
  apply (command_line_same _ _ _ _ E) in CL, CL'.
  destruct (parseCommandLine (a_params act) tokens) as [p| | | | |]; try destruct P; [|exfalso; eapply P; eauto].
  destruct (parseCommandLine (a_params act) tokens') as [p'| | | | |]; try destruct P'; [|exfalso; eapply P'; eauto].
  destruct H as (P1 & P2 & ->), H0 as (P1' & P2' & ->). pose proof (p_command_unique _ _ _ _ N2 CL P1) as <-. pose proof (p_command_unique _ _ _ _ N2 CL' P1') as <-.
  rewrite (same_updated (a_params act) settings settings'); auto. intros x1. rewrite <- !(value_of_same options (a_params act)) by auto. rewrite <- V, <- V'. auto.
Qed.
(** ** Formats *)
Lemma format_nodup : NoDup (map fst formatFactory).
Proof. apply str_nodup. vm_compute. reflexivity. Qed.
Lemma format_factory : map fst formatFactory = format_names.
Proof. reflexivity. Qed.
Lemma format_or_choice other name f : (forall x, ~ abbreviates format_names (lit other) x) -> format_choice other name f -> format_or other name = Ok f.
Proof.
  unfold format_or, format_choice. intros O. destruct f as [f|].
  - intros (x & A & H). destruct (str_dec name (lit other)) as [->|_]; [now destruct (O x)|]. unfold createIOHandler.
    pose proof (created_spec formatFactory name format_nodup) as C. rewrite format_factory in C. destruct (created_with_prefix formatFactory name) as [g| | | | |]; try destruct C; [|exfalso; eapply C; eauto].
    destruct H0 as [B1 B2]. pose proof (abbreviates_unique _ _ _ _ A B1) as <-.
    assert (In (x, Some f) formatFactory). { revert H. unfold formats, formatFactory. cbn [In]. intuition congruence. }
    rewrite (in_functional formatFactory x g (Some f) format_nodup B2 H0). reflexivity.
  - intros ->. destruct (str_dec (lit other) (lit other)); congruence.
Qed.
Lemma format_or_unknown other name : unknown_format other name -> format_or other name = OtherError.
Proof.
  intros [N U]. unfold format_or, createIOHandler. destruct (str_dec name (lit other)); [congruence|].
  pose proof (created_spec formatFactory name format_nodup) as C. rewrite format_factory in C. destruct (created_with_prefix formatFactory name) as [g| | | | |]; try destruct C; auto.
  exfalso. eapply U. destruct H. eauto.
Qed.
Lemma not_prefix names p : existsb (has_prefix p) names = false -> forall x, ~ abbreviates names p x.
Proof.
  intros H x [Hx A]. assert (prefix_of p x). { destruct A as [->|[A _]]; auto. exists []. now rewrite app_nil_r. }
  assert (existsb (has_prefix p) names = true); [|congruence]. apply existsb_exists. exists x. split; auto. now apply has_prefix_iff.
Qed.
Lemma input_choice_ok v f : input_choice v f -> format_or "autodetect" (word v "iformat") = Ok f.
Proof. apply format_or_choice. apply not_prefix. reflexivity. Qed.
Lemma output_choice_ok v f : output_choice v f -> format_or "input" (word v "oformat") = Ok f.
Proof. apply format_or_choice. apply not_prefix. reflexivity. Qed.
(** ** Values of parameters *)
Lemma read_bool p v options x d : reads p v options -> In (lit x, VBool d) options -> getBool p x = Ok (on v x).
Proof.
  intros R H. destruct (R _ _ H) as (w & H1 & H2 & H3). unfold getBool, on. rewrite H1, H2. cbn [rbind]. destruct w; cbn in H3; try destruct H3. reflexivity.
Qed.
Lemma read_word p v options x d : reads p v options -> In (lit x, VStr d) options -> getString p x = Ok (word v x).
Proof.
  intros R H. destruct (R _ _ H) as (w & H1 & H2 & H3). unfold getString, word. rewrite H1, H2. cbn [rbind]. destruct w; cbn in H3; try destruct H3. reflexivity.
Qed.
Lemma read_int p v options x d : reads p v options -> In (lit x, VInt d) options -> exists z, getInt p x = Ok z /\ amount v x = Z.to_nat z.
Proof.
  intros R H. destruct (R _ _ H) as (w & H1 & H2 & H3). unfold getInt, amount. rewrite H1, H2. cbn [rbind]. destruct w; cbn in H3; try destruct H3. eauto.
Qed.
Definition table (action : string) : list (str * value) :=
  match find (fun z => if str_dec (fst z) (lit action) then true else false) options_of with Some (_, l) => l | None => [] end.
Ltac values :=
  repeat match goal with
  | R : reads ?p ?v (table ?a) |- context [getBool ?p ?x] => rewrite (read_bool p v (table a) x _ R ltac:(in_table)); cbn [rbind]
  | R : reads ?p ?v (table ?a) |- context [getString ?p ?x] => rewrite (read_word p v (table a) x _ R ltac:(in_table)); cbn [rbind]
  | R : reads ?p ?v (table ?a) |- context [getInt ?p ?x] => let z := fresh in let E1 := fresh in let E2 := fresh in destruct (read_int p v (table a) x _ R ltac:(in_table)) as (z & E1 & E2); rewrite E1; try rewrite E2; cbn [rbind]
  end.
Lemma run_action action act w args v file : command args action v -> In (lit action, act) actionFactory -> In (lit action, table action) options_of -> same_options (table action) (a_params act) = true ->
  exists p, frobby w args file = a_perform act w p file /\ reads p v (table action).
Proof. intros C H1 H2 H3. exact (run action act (table action) w args v file H1 H2 H3 C). Qed.
Ltac the_action C w file p R :=
  match type of C with command ?args ?a ?v =>
    let E := fresh in destruct (run_action a _ w args v file C ltac:(unfold actionFactory; cbn [In]; tauto) ltac:(in_table) ltac:(vm_compute; reflexivity)) as (p & E & R); rewrite E; clear E; cbn [a_perform]
  end.
