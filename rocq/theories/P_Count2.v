(** The program with the formats count and null. *)
From Coq Require Import String Ascii.
From Coq Require Import List Arith Bool ZArith Lia Sorted Permutation.
Import ListNotations.
From Verif Require Import M_Term M_Ideal M_Slice M_Msm M_Api M_Names M_IO Spec_IO P_Names M_Intersect M_Transform M_Actions M_Cli.
From Verif Require Import Spec_Names Spec_Slice Spec_Run M_Cli2 M_Cli3 P_Cli12 M_Main M_Count Spec_Main P_Main P_Main2 P_Main3 P_Count.
From Verif Require Import Spec Spec_Api Spec_Cli Spec_Cli2 Spec_Cli3 Spec_Count.
Local Notation length := List.length.
Local Open Scope nat_scope.

(** ** Finding the action and the format *)
Lemma sink_nodup : NoDup (map fst sinkActions).
Proof. apply str_nodup. vm_compute. reflexivity. Qed.
Lemma sink_actions : map fst sinkActions = action_names.
Proof. reflexivity. Qed.
Lemma created_sink a action act : In (action, act) sinkActions -> abbreviates action_names a action -> created_with_prefix sinkActions a = Ok act.
Proof.
  intros H A. pose proof (created_spec sinkActions a sink_nodup) as C. rewrite sink_actions in C.
  destruct (created_with_prefix sinkActions a) as [act'| | | | |]; try destruct C.
  - destruct H0 as [B1 B2]. pose proof (abbreviates_unique _ _ _ _ A B1) as <-. f_equal. eapply in_functional; eauto. exact sink_nodup.
  - now destruct (C action).
Qed.
Lemma run_sink action act w args v file : command args action v -> In (lit action, act) sinkActions -> In (lit action, table action) options_of ->
  same_options (table action) (a_params act) = true -> exists p, frobby_sink w args file = a_perform act w p file /\ reads p v (table action).
Proof.
  intros (a & tokens & options' & settings & -> & A & HO' & CL & V) HA HO S. set (options := table action) in *. clearbody options.
  rewrite (in_functional options_of _ _ _ options_nodup HO' HO) in *. clear options' HO'.
  destruct (same_options_spec _ _ S) as (N1 & N2 & E). pose proof (command_line_same _ _ _ _ E CL) as CL'.
  unfold frobby_sink. rewrite (created_sink a _ act HA A). cbn [rbind]. pose proof (parse_updated (a_params act) tokens N2) as P.
  destruct (parseCommandLine (a_params act) tokens) as [p| | | | |]; try destruct P; [|exfalso; eapply P; eauto].
  destruct H as (P1 & P2 & ->). rename x into settings'. pose proof (p_command_unique _ _ _ _ N2 CL' P1) as <-. cbn [rbind].
  eexists. split; [reflexivity|]. intros x d Hd. apply E in Hd. pose proof (kinds_value _ settings x d N2 P2 Hd) as K.
  exists (match value_of [] settings x with Some w => w | None => d end). split; [|split; auto].
  - apply getParam_in; [now rewrite updated_names|]. unfold updated. apply in_map_iff. exists (x, d). auto.
  - rewrite V, (value_of_same options (a_params act) settings x N1 N2 E), value_of_split. destruct (value_of [] settings x); auto. now apply value_of_in.
Qed.
Ltac the_sink C w file p R :=
  match type of C with command ?args ?a ?v =>
    let E := fresh in destruct (run_sink a _ w args v file C ltac:(unfold sinkActions; cbn [In]; tauto) ltac:(in_table) ltac:(vm_compute; reflexivity)) as (p & E & R); rewrite E; clear E; cbn [a_perform]
  end.
Lemma sinks_nodup : NoDup (map fst sinkFactory).
Proof. apply str_nodup. vm_compute. reflexivity. Qed.
Lemma sinks_names : map fst sinkFactory = format_names.
Proof. reflexivity. Qed.
Lemma sink_choice_ok v s : sink_choice v s -> sink_of (word v "oformat") = Ok s.
Proof.
  unfold sink_choice, sink_of. generalize (word v "oformat") as name. intros name (x & A & H).
  destruct (str_dec name (lit "input")) as [->|_]; [now destruct (not_prefix format_names (lit "input") eq_refl x)|].
  pose proof (created_spec sinkFactory name sinks_nodup) as C. rewrite sinks_names in C.
  destruct (created_with_prefix sinkFactory name) as [g| | | | |]; try destruct C; [|exfalso; eapply C; eauto].
  destruct H0 as [B1 B2]. pose proof (abbreviates_unique _ _ _ _ A B1) as <-.
  assert (In (x, Some s) sinkFactory) by (revert H; unfold sinkFactory; cbn [In]; intuition congruence).
  rewrite (in_functional sinkFactory x g (Some s) sinks_nodup B2 H0). reflexivity.
Qed.
Lemma sink_options_ok w args a v p i s : reads p v (table a) ->
  (forall x d, In (x, d) decomposition_options -> In (x, d) (table a)) ->
  input_choice v i -> sink_choice v s -> split_choice v -> command args a v ->
  exists c, legal_config c /\ c_indep c = on v "independence" /\ c_simp c = on v "simplify" /\
    sink_options w p = Ok (slice_opts w v i None c, s).
Proof.
  intros R0 D I O (x & A & G) C. assert (R : reads p v decomposition_options) by (intros y d H; apply R0, D, H). clear R0 D.
  unfold sink_options.
  repeat match goal with
  | |- context [getBool ?p ?x] => rewrite (read_bool p v decomposition_options x _ R ltac:(in_table)); cbn [rbind]
  | |- context [getString ?p ?x] => rewrite (read_word p v decomposition_options x _ R ltac:(in_table)); cbn [rbind]
  end.
  pose proof (slice_config_spec true (on v "independence") (on v "simplify") (word v "split")) as S.
  destruct (slice_config true (on v "independence") (on v "simplify") (word v "split")) as [c| | | | |]; try destruct S.
  - rename x0 into y. destruct H as (B & _ & _ & S1 & S2 & S3). pose proof (abbreviates_unique _ _ _ _ A B) as <-. destruct (in_dec str_dec x degree_names); [tauto|]. destruct S3 as [S3 _].
    exists c. cbn [rbind]. rewrite (input_choice_ok v i I), (sink_choice_ok v s O). auto.
  - exfalso. eapply H; eauto.
  - exfalso. destruct H as [[H _]|H]; [discriminate|]. assert (B : abbreviates split_names (word v "split") (word v "split")).
    { split; auto. destruct H as [<-|[<-|[]]]; vm_compute; tauto. }
    pose proof (abbreviates_unique _ _ _ _ A B) as ->. auto.
Qed.
Ltac sinks C w file i s p R H4 :=
  let c := fresh "c" in let H1 := fresh in let H2 := fresh in let H3 := fresh in
  match type of C with command ?args ?a ?v =>
    the_sink C w file p R;
    destruct (sink_options_ok w args a v p i s R (decomposition_sub a ltac:(cbn; tauto))) as (c & H1 & H2 & H3 & H4); auto;
    exists c; split; [exact H1|]
  end.
Lemma s_irrdecom w args v i s file : command args "irrdecom" v -> input_choice v i -> sink_choice v s -> split_choice v ->
  exists c, legal_config c /\ frobby_sink w args file = irrdecom_sink s (slice_opts w v i None c) (on v "encode") (w_rand w) file.
Proof. intros C I O S. sinks C w file i s p R HS. unfold irrdecom_performs. rewrite HS. cbn [rbind]. values. reflexivity. Qed.
Lemma s_primdecom w args v i s file : command args "primdecom" v -> input_choice v i -> sink_choice v s -> split_choice v ->
  exists c, legal_config c /\ frobby_sink w args file = primdecom_sink s (slice_opts w v i None c) (w_rands w) file.
Proof. intros C I O S. sinks C w file i s p R HS. unfold primdecom_performs. rewrite HS. reflexivity. Qed.
Lemma s_alexdual w args v i s file : command args "alexdual" v -> input_choice v i -> sink_choice v s -> split_choice v ->
  exists c, legal_config c /\ frobby_sink w args file = alexdual_sink s (slice_opts w v i None c) (w_rand w) file.
Proof. intros C I O S. sinks C w file i s p R HS. unfold alexdual_performs. rewrite HS. reflexivity. Qed.
Lemma s_assoprimes w args v i s file : command args "assoprimes" v -> input_choice v i -> sink_choice v s -> split_choice v ->
  exists c, legal_config c /\ frobby_sink w args file = assoprimes_sink s (slice_opts w v i None c) (w_rand w) file.
Proof. intros C I O S. sinks C w file i s p R HS. unfold assoprimes_performs. rewrite HS. reflexivity. Qed.
Lemma s_maxstandard w args v i s file : command args "maxstandard" v -> input_choice v i -> sink_choice v s -> split_choice v ->
  exists c, legal_config c /\ frobby_sink w args file = maxstandard_sink s (slice_opts w v i None c) (on v "increment") (w_rand w) file.
Proof. intros C I O S. sinks C w file i s p R HS. unfold maxstandard_performs. rewrite HS. cbn [rbind]. values. reflexivity. Qed.
Lemma s_intersection w args v i s file : command args "intersection" v -> input_choice v i -> sink_choice v s ->
  frobby_sink w args file = intersection_sink s (w_max w) (input_format i file) (on v "canon") file.
Proof. intros C I O. the_sink C w file p R. unfold intersection_performs, one_format. values. rewrite (input_choice_ok v i I), (sink_choice_ok v s O). reflexivity. Qed.
Lemma s_transform w args v i s file : command args "transform" v -> input_choice v i -> sink_choice v s ->
  frobby_sink w args file = transform_sink s (w_max w) (input_format i file)
    {| M_Transform.o_canon := on v "canon"; o_sort := on v "sort"; o_unique := on v "unique"; o_minimize := on v "minimize"; o_deform := on v "deform";
       o_radical := on v "radical"; o_product := on v "product"; o_addPurePowers := on v "addPurePowers"; o_trimVariables := on v "trimVariables";
       o_transpose := on v "transpose"; o_swap01 := on v "swap01"; o_projectVar := amount v "projectVar" |} file.
Proof. intros C I O. the_sink C w file p R. unfold transform_performs, one_format. values. rewrite (input_choice_ok v i I), (sink_choice_ok v s O). reflexivity. Qed.

(** ** What is printed *)
Lemma reads_input w v i c file names gens : reads_as w v i file names gens -> legal_config c -> input_is (slice_opts w v i None c) file names gens.
Proof. intros [H1 H2] L. split; [exact L|]. split; [exact H1|exact H2]. Qed.
Theorem n_irrdecom w args v i s file names gens : command args "irrdecom" v -> input_choice v i -> sink_choice v s -> split_choice v -> reads_as w v i file names gens ->
  exists names' gens' D, output_ring (on v "canon") names gens names' gens' /\ irreducible_decomposition (length names') gens' D /\ (on v "canon" = true -> descending D) /\
    frobby_sink w args file = Ok (counts s (if on v "encode" then [length D] else map (fun c => length (irreducible_generators (length names') c)) D)).
Proof.
  intros C I O S R. destruct (s_irrdecom w args v i s file C I O S) as (c & L & ->).
  exact (irr_counts s (slice_opts w v i None c) (on v "encode") (w_rand w) file names gens (reads_input w v i c file names gens R L)).
Qed.
Theorem n_maxstandard w args v i s file names gens : command args "maxstandard" v -> input_choice v i -> sink_choice v s -> split_choice v -> reads_as w v i file names gens ->
  exists names' gens' L, output_ring (on v "canon") names gens names' gens' /\ NoDup L /\ (forall m, In m L <-> max_standard (length names') gens' m) /\
    frobby_sink w args file = Ok (counts s [length L]).
Proof.
  intros C I O S R. destruct (s_maxstandard w args v i s file C I O S) as (c & L & ->).
  exact (msm_counts s (slice_opts w v i None c) (on v "increment") (w_rand w) file names gens (reads_input w v i c file names gens R L)).
Qed.
Theorem n_assoprimes w args v i s file names gens : command args "assoprimes" v -> input_choice v i -> sink_choice v s -> split_choice v -> reads_as w v i file names gens ->
  exists names' gens' Ss, output_ring (on v "canon") names gens names' gens' /\ NoDup Ss /\ (forall p, In p Ss <-> associated_prime (length names') gens' p) /\
    frobby_sink w args file = Ok (counts s [length Ss]).
Proof.
  intros C I O S R. destruct (s_assoprimes w args v i s file C I O S) as (c & L & ->).
  exact (ass_counts s (slice_opts w v i None c) (w_rand w) file names gens (reads_input w v i c file names gens R L)).
Qed.
Theorem n_primdecom w args v i s file names gens : command args "primdecom" v -> input_choice v i -> sink_choice v s -> split_choice v -> reads_as w v i file names gens ->
  exists names' gens' D Gs Bs Cs, let n := length names' in
  output_ring (on v "canon") names gens names' gens' /\ irreducible_decomposition n gens' D /\ descending D /\ support_runs n D Gs /\ Forall2 (same_support_intersection n) Gs Bs /\
  (forall m, length m = n -> (in_ideal gens' m <-> forall B, In B Bs -> in_ideal B m)) /\
  (if on v "canon" then same_lists Bs Cs else Cs = Bs) /\
  frobby_sink w args file = Ok (counts s (map (@length mono) Cs)).
Proof.
  intros C I O S R. destruct (s_primdecom w args v i s file C I O S) as (c & L & ->).
  exact (primary_counts s (slice_opts w v i None c) (w_rands w) file names gens (reads_input w v i c file names gens R L)).
Qed.
Theorem n_alexdual w args v i s file names gens point : command args "alexdual" v -> input_choice v i -> sink_choice v s -> split_choice v ->
  read_dual (w_max w) (input_format i file) file = Ok (names, map znat gens, option_map znat point) ->
  (on v "minimal" = true -> lists_minimal_generators (length names) gens gens) -> (on v "canon" = true -> point = None \/ ascending names) ->
  exists names' gens', output_ring (on v "canon") names gens names' gens' /\
  let n := length names' in
  let prints a := exists L, lists_minimal n (in_alexander_dual gens' a) L /\ frobby_sink w args file = Ok (counts s [length L]) in
  match point with
  | None => exists a, lcm_of_minimal_generators n gens' a /\ prints a
  | Some a => names' = names /\ gens' = gens /\ (above_minimal_generators n gens' a -> prints a) /\ (~ above_minimal_generators n gens' a -> frobby_sink w args file = OtherError)
  end.
Proof.
  intros C I O S R M HC. destruct (s_alexdual w args v i s file C I O S) as (c & L & ->).
  assert (H : dual_input_is (slice_opts w v i None c) file names gens point) by (split; [exact L|split; [exact R|exact M]]).
  exact (dual_counts s (slice_opts w v i None c) (w_rand w) file names gens point H HC).
Qed.
(** ** The same errors *)
Theorem n_errors w args a v i s file : command args a v -> In a ["irrdecom"; "primdecom"; "assoprimes"; "maxstandard"]%string -> input_choice v i -> sink_choice v s -> split_choice v ->
  match read_ideal (w_max w) (input_format i file) file with
  | Ok _ => True
  | SyntaxError => frobby_sink w args file = SyntaxError
  | OtherError => frobby_sink w args file = OtherError
  | InvalidArgument => frobby_sink w args file = InvalidArgument
  | OutOfFuel => frobby_sink w args file = OutOfFuel
  | Undefined => frobby_sink w args file = Undefined
  end.
Proof.
  intros C Ha I O S. cbn [In] in Ha.
  destruct Ha as [<-|[<-|[<-|[<-|[]]]]]; [destruct (s_irrdecom w args v i s file C I O S) as (c & L & ->)|destruct (s_primdecom w args v i s file C I O S) as (c & L & ->)|
    destruct (s_assoprimes w args v i s file C I O S) as (c & L & ->)|destruct (s_maxstandard w args v i s file C I O S) as (c & L & ->)];
  unfold irrdecom_sink, primdecom_sink, assoprimes_sink, maxstandard_sink, cli_read;
  change (read_ideal (o_max (slice_opts w v i None c)) (in_format (slice_opts w v i None c) file) file) with (read_ideal (w_max w) (input_format i file) file);
  destruct (read_ideal _ _ _); auto.
Qed.

(** ** transform and intersection *)
Lemma same_on v v' x : same_but_format v v' -> lit x <> lit "oformat" -> on v x = on v' x.
Proof. intros H N. unfold on. now rewrite H. Qed.
Lemma same_amount v v' x : same_but_format v v' -> lit x <> lit "oformat" -> amount v x = amount v' x.
Proof. intros H N. unfold amount. now rewrite H. Qed.
Lemma same_input_choice v v' i : same_but_format v v' -> input_choice v i -> input_choice v' i.
Proof. intros H. unfold input_choice, word. rewrite H by discriminate. auto. Qed.
Theorem n_transform w args args' v v' i s o file : command args "transform" v -> command args' "transform" v' -> same_but_format v v' ->
  input_choice v i -> sink_choice v s -> output_choice v' o ->
  (exists names Js, frobby w args' file = write_ideals (output_format i o file) names Js /\
     frobby_sink w args file = Ok (counts s (map (fun J => length (snd J)) Js))) \/
  (frobby w args' file = frobby_sink w args file /\ forall out, frobby_sink w args file <> Ok out).
Proof.
  intros C C' H I O O'. rewrite (s_transform w args v i s file C I O), (p_transform w args' v' i o file C' (same_input_choice v v' i H I) O').
  rewrite !(fun x => same_on v v' x H) by discriminate. rewrite (same_amount v v' "projectVar" H) by discriminate. unfold transform_action, transform_sink.
  destruct (read_ideals _ _ _) as [[names Js]| | | | |]; cbn [rbind]; try (right; split; [reflexivity|discriminate]).
  destruct (transform _ _ _) as [[names' Rs]| |]; try (right; split; [reflexivity|discriminate]).
  left. exists names', (map of_nideal Rs). split; auto. destruct s; auto. cbn [sink_ideals counts]. f_equal. f_equal. rewrite !map_map. apply map_ext. reflexivity.
Qed.
Theorem n_intersection w args args' v v' i s o file : command args "intersection" v -> command args' "intersection" v' -> same_but_format v v' ->
  input_choice v i -> sink_choice v s -> output_choice v' o ->
  (exists names gens, frobby w args' file = write_ideal (output_format i o file) names gens /\ frobby_sink w args file = Ok (counts s [length gens])) \/
  (frobby w args' file = frobby_sink w args file /\ forall out, frobby_sink w args file <> Ok out).
Proof.
  intros C C' H I O O'. rewrite (s_intersection w args v i s file C I O), (p_intersection w args' v' i o file C' (same_input_choice v v' i H I) O').
  rewrite !(fun x => same_on v v' x H) by discriminate. unfold intersection_action, intersection_sink.
  destruct (read_ideals _ _ _) as [[names Js]| | | | |]; cbn [rbind]; try (right; split; [reflexivity|discriminate]).
  destruct (intersection _ _ _) as [J|]; try (right; split; [reflexivity|discriminate]).
  left. exists (fst (of_nideal J)), (snd (of_nideal J)). split; auto. destruct s; auto. cbn [sink_ideal counts map concat]. now rewrite app_nil_r.
Qed.
