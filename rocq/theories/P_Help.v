(** Proofs about the action help. *)
From Coq Require Import String Ascii.
From Coq Require Import List Arith Bool ZArith Lia Sorted Permutation.
Import ListNotations.
From Verif Require Import M_Term P_Term M_Names M_IO M_Cli M_Cli3 M_Main M_Display M_Help Spec_Names Spec_Cli Spec_Cli3 Spec_IOPoly Spec_Display Spec_Main Spec_Help.
From Verif Require Import P_Names P_Orderer P_Cli12 P_Main P_Main2 P_Display P_Display2.
Local Open Scope list_scope.
Local Notation length := List.length.

(** ** Finding the action *)
Definition pair_factory := map (fun y : str * action => (fst y, y)) actionFactory.
Lemma pair_names : map fst pair_factory = action_names. Proof. vm_compute. reflexivity. Qed.
Lemma pair_nodup : NoDup (map fst pair_factory). Proof. apply str_nodup. vm_compute. reflexivity. Qed.
Lemma find_action topic x : abbreviates action_names topic x -> exists a, In (x, a) actionFactory /\ created_with_prefix pair_factory topic = Ok (x, a).
Proof.
  intros A. pose proof (created_spec pair_factory topic pair_nodup) as C. rewrite pair_names in C.
  destruct (created_with_prefix pair_factory topic) as [[y a]| | | | |]; try destruct C as [z C]; try contradiction.
  - destruct C as [B I]. unfold pair_factory in I. apply in_map_iff in I. destruct I as [[u b] [E I]]. cbn in E. injection E as -> -> ->.
    pose proof (abbreviates_unique _ _ _ _ A B) as <-. eauto.
  - now destruct (C x).
Qed.
Lemma find_none topic : (forall x, ~ abbreviates action_names topic x) -> created_with_prefix pair_factory topic = OtherError.
Proof.
  intros A. pose proof (created_spec pair_factory topic pair_nodup) as C. rewrite pair_names in C.
  destruct (created_with_prefix pair_factory topic) as [[y a]| | | | |]; try destruct C as [z C]; try contradiction; auto. destruct C as [B _]. now destruct (A z).
Qed.
Definition name_factory := map (fun y : str * action => (fst y, fst y)) actionFactory.
Lemma find_name prefix x : abbreviates action_names prefix x -> created_with_prefix name_factory prefix = Ok x.
Proof.
  intros A. assert (N : map fst name_factory = action_names) by (vm_compute; reflexivity).
  assert (D : NoDup (map fst name_factory)) by (apply str_nodup; vm_compute; reflexivity).
  pose proof (created_spec name_factory prefix D) as C. rewrite N in C.
  destruct (created_with_prefix name_factory prefix) as [y| | | | |]; try destruct C as [z C]; try contradiction.
  - destruct C as [B I]. unfold name_factory in I. apply in_map_iff in I. destruct I as [[u b] [E I]]. cbn in E. injection E as -> ->.
    now rewrite (abbreviates_unique _ _ _ _ A B).
  - now destruct (C x).
Qed.
Lemma run_help d args tokens : (args = [] /\ tokens = []) \/ (exists a, args = a :: tokens /\ abbreviates action_names a (lit "help")) ->
  frobby_help d args = LET t := help_run d tokens IN Ok (Some t).
Proof.
  intros [[-> ->]|[a [-> A]]]; unfold frobby_help.
  - assert (A : abbreviates action_names (lit "help") (lit "help")) by (split; [in_table|left; reflexivity]). fold name_factory. rewrite (find_name _ _ A). reflexivity.
  - fold name_factory. rewrite (find_name _ _ A). reflexivity.
Qed.
Lemma run_topic d a topic : abbreviates action_names a (lit "help") -> a_topic topic -> frobby_help d [a; topic] = LET t := help_perform d topic IN Ok (Some t).
Proof.
  intros A [T1 T2]. rewrite (run_help d [a; topic] [topic]) by (right; eauto). unfold help_run. destruct topic as [|c t]; [congruence|].
  assert (E : match c with "-"%char => (@nil ascii, [c :: t]) | _ => (c :: t, []) end = (c :: t, [])).
  { destruct (ascii_dec c "-"%char) as [->|N]; [exfalso; apply T2; exists t; reflexivity|]. destruct c as [[] [] [] [] [] [] [] []]; try reflexivity. congruence. }
  rewrite E. reflexivity.
Qed.

(** ** Words and lines *)
Lemma words_app p t : word_ends t -> words_in (p ++ t) = words_in p ++ words_in t.
Proof.
  destruct t as [|c t]; intros H; [now rewrite !app_nil_r|]. unfold word_ends in H. unfold words_in at 1. rewrite words_space by auto.
  change (words_in (c :: t)) with (words_in ([c] ++ t)). rewrite words_blank by auto. reflexivity.
Qed.
Lemma words_nl p t : words_in (p ++ nl :: t) = words_in p ++ words_in t.
Proof. rewrite words_app by exact nl_space. reflexivity. Qed.
Lemma words_line1 t : words_in (nl :: t) = words_in t.
Proof. apply (words_nl [] t). Qed.
Lemma lines_split p t : exists ls, ls <> [] /\ lines_in (p ++ nl :: t) = ls ++ lines_in t.
Proof.
  induction p as [|c p [ls [N E]]].
  - exists [[]]. split; [discriminate|]. apply (lines_cons [] t). intros [].
  - cbn [app lines_in]. rewrite E. destruct (ascii_dec c nl); [exists ([] :: ls); split; [discriminate|reflexivity]|].
    destruct ls as [|m ms]; [congruence|]. exists ((c :: m) :: ms). split; [discriminate|reflexivity].
Qed.
Lemma line_in p l t : one_line l -> In l (lines_in (p ++ nl :: l ++ nl :: t)).
Proof. intros H. destruct (lines_split p (l ++ nl :: t)) as [ls [_ ->]]. apply in_or_app. right. rewrite lines_cons by auto. now left. Qed.
(** ** The options of an action *)
Lemma options_match x options a : In (x, options) shown_options -> In (x, a) actionFactory -> same_options options (obtainParameters x a) = true.
Proof.
  intros H I. assert (C : forallb (fun y => forallb (fun z => if str_dec (fst z) (fst y) then same_options (snd y) (obtainParameters (fst z) (snd z)) else true) actionFactory) shown_options = true)
    by (vm_compute; reflexivity).
  rewrite forallb_forall in C. specialize (C _ H). rewrite forallb_forall in C. specialize (C _ I). cbn [fst snd] in C. destruct (str_dec x x); congruence.
Qed.
Definition by_name (x y : str * value) : bool := str_less (fst x) (fst y).
Lemma ascending_sorted l : NoDup l -> ascending (std_sort str_less l).
Proof.
  intros N. pose proof (str_sorted l) as S. assert (N' : NoDup (std_sort str_less l)) by (eapply Permutation_NoDup; [apply Permutation_sym, std_sort_perm|exact N]).
  revert S N'. generalize (std_sort str_less l). clear. induction l as [|a l IH]; intros S N; [constructor|]. inversion S; inversion N; subst. constructor; [now apply IH|].
  rewrite Forall_forall in *. intros b Hb. destruct (str_lt_total a b) as [H|[->|H]]; [exact H|contradiction|exfalso; exact (H2 b Hb H)].
Qed.
Lemma sorted_options options l : same_options options l = true -> Permutation (std_sort by_name l) options /\ ascending (map fst (std_sort by_name l)).
Proof.
  intros H. apply same_options_spec in H. destruct H as [N [N' E]]. split.
  - rewrite std_sort_perm. apply NoDup_Permutation; [now apply NoDup_map_inv in N'|now apply NoDup_map_inv in N|]. intros y. symmetry. apply E.
  - unfold by_name. rewrite <- (std_sort_map _ _ fst str_less). now apply ascending_sorted.
Qed.
Lemma option_text o : lit " -" ++ fst o ++ lit " " ++ argument_type (snd o) ++ lit "   (default is " ++ value_string (snd o) ++ lit ")" = option_line o.
Proof. unfold option_line. destruct o as [x [[]|z|s]]; reflexivity. Qed.

Lemma parameters_shown d x : forall l, exists rest, displayParameters d x l = Ok rest /\ word_ends rest /\
  words_in rest = concat (map (fun o => words_in (option_line o) ++ words_in (param_text d x (fst o))) l) /\
  forall p o, In o l -> one_line (option_line o) -> In (option_line o) (lines_in (p ++ rest)).
Proof.
  induction l as [|[name v] l [rest [E [W [Hw Hl]]]]].
  - exists []. split; [reflexivity|]. split; [exact I|]. split; [reflexivity|]. intros p o [].
  - destruct (p_display (lit "   ") (param_text d x name)) as [t [D _]]. pose proof (p_words (lit "   ") (param_text d x name) t) as P.
    cbn [displayParameters]. rewrite D. cbn [shown rbind]. rewrite E. cbn [rbind]. pose proof (option_text (name, v)) as O. cbn [fst snd] in O.
    eexists. split; [reflexivity|]. 
    replace (nl :: lit " -" ++ name ++ lit " " ++ argument_type v ++ lit "   (default is " ++ value_string v ++ lit ")" ++ nl :: t ++ rest)
      with (nl :: option_line (name, v) ++ nl :: t ++ rest) by (rewrite <- O; rewrite <- !app_assoc; reflexivity).
    split; [exact nl_space|]. split.
    + rewrite words_line1, words_nl, words_app by exact W. rewrite P, Hw by (try exact D; repeat (apply Forall_cons; [left; reflexivity|]); constructor).
      cbn [map concat]. cbn [fst]. now rewrite <- app_assoc.
    + intros p o [<-|Ho] H1; [now apply line_in|].
      replace (p ++ nl :: option_line (name, v) ++ nl :: t ++ rest) with ((p ++ nl :: option_line (name, v) ++ nl :: t) ++ rest)
        by (rewrite <- !app_assoc; cbn [app]; rewrite <- !app_assoc; reflexivity). now apply Hl.
Qed.
Theorem p_action d a topic x options : abbreviates action_names a (lit "help") -> a_topic topic -> topic <> lit "io" -> abbreviates action_names topic x ->
  In (x, options) shown_options -> exists out sorted described, frobby_help d [a; topic] = Ok (Some out) /\ Permutation sorted options /\ ascending (map fst sorted) /\
    (forall o, fst o <> lit "iformat" -> fst o <> lit "oformat" -> described o = d_param d x (fst o)) /\
    words_in out = words_in (lit "Displaying information on action: " ++ x) ++ words_in (d_long d x) ++
      (if list_eq_dec str_dec (map fst options) [] then [] else words_in (lit "The parameters accepted by " ++ x ++ lit " are as follows.")) ++
      concat (map (fun o => words_in (option_line o) ++ words_in (described o)) sorted) /\
    forall o, In o options -> one_line (option_line o) -> In (option_line o) (lines_in out).
Proof.
  intros A T N X O. destruct (find_action topic x X) as [act [I F]]. pose proof (options_match x options act O I) as S. destruct (sorted_options _ _ S) as [P Asc].
  rewrite run_topic by auto. unfold help_perform. destruct topic as [|c topic]; [now destruct T|]. destruct (str_dec (c :: topic) (lit "io")); [congruence|].
  fold pair_factory. rewrite F. cbn [rbind fst snd]. unfold displayActionHelp. fold by_name.
  destruct (p_display [] (lit "Displaying information on action: " ++ x ++ nl :: nl :: d_long d x ++ [nl])) as [t [D _]]. pose proof (p_words [] _ t (Forall_nil _) D) as Pw.
  rewrite D. cbn [shown rbind].
  assert (Wt : words_in t = words_in (lit "Displaying information on action: " ++ x) ++ words_in (d_long d x)).
  { rewrite Pw. rewrite app_assoc, words_nl, words_line1. f_equal. apply words_end. constructor; [exact nl_space|constructor]. }
  revert P Asc. generalize (std_sort by_name (obtainParameters x act)). intros sorted P Asc. destruct (parameters_shown d x sorted) as [rest [E [We [Hw Hl]]]].
  destruct sorted as [|o sorted].
  - apply Permutation_nil in P. subst options. exists t, [], (fun o => param_text d x (fst o)). split; [reflexivity|]. split; [constructor|]. split; [constructor|]. split.
    { intros o H1 H2. unfold param_text. destruct (createNoThrow declared x) as [[[i|] [u|]]|]; destruct (str_dec (fst o) (lit "iformat")); destruct (str_dec (fst o) (lit "oformat")); congruence. }
    split; [|intros o []]. rewrite Wt. cbn [map]. destruct (list_eq_dec str_dec [] []); [|congruence]. cbn [map concat app]. now rewrite app_nil_r.
  - rewrite E. cbn [rbind].
    exists (t ++ nl :: lit "The parameters accepted by " ++ x ++ lit " are as follows." ++ nl :: rest), (o :: sorted), (fun o => param_text d x (fst o)).
    split; [reflexivity|]. split; [exact P|]. split; [exact Asc|]. split.
    { intros o' H1 H2. unfold param_text. destruct (createNoThrow declared x) as [[[i|] [u|]]|]; destruct (str_dec (fst o') (lit "iformat")); destruct (str_dec (fst o') (lit "oformat")); congruence. }
    split.
    + rewrite words_nl, Wt. rewrite <- !app_assoc. f_equal. f_equal.
      replace (lit "The parameters accepted by " ++ x ++ lit " are as follows." ++ nl :: rest) with ((lit "The parameters accepted by " ++ x ++ lit " are as follows.") ++ nl :: rest)
        by (rewrite <- !app_assoc; reflexivity).
      rewrite words_nl, Hw. destruct (list_eq_dec str_dec (map fst options) []) as [Z|]; [|reflexivity]. apply map_eq_nil in Z. subst options. apply Permutation_sym, Permutation_nil in P. discriminate.
    + intros o' Ho H1. replace (t ++ nl :: lit "The parameters accepted by " ++ x ++ lit " are as follows." ++ nl :: rest)
        with ((t ++ nl :: lit "The parameters accepted by " ++ x ++ lit " are as follows." ++ [nl]) ++ rest) by (rewrite <- !app_assoc; cbn [app]; rewrite <- !app_assoc; reflexivity).
      apply Hl; auto. eapply Permutation_in; [apply Permutation_sym, P|exact Ho].
Qed.
Theorem p_no_topic d a topic : abbreviates action_names a (lit "help") -> a_topic topic -> topic <> lit "io" -> (forall x, ~ abbreviates action_names topic x) ->
  frobby_help d [a; topic] = OtherError.
Proof.
  intros A T N X. rewrite run_topic by auto. unfold help_perform. destruct topic as [|c topic]; [now destruct T|]. destruct (str_dec (c :: topic) (lit "io")); [congruence|].
  fold pair_factory. now rewrite find_none.
Qed.

(** ** The screen *)
Lemma words_row u v : words_in (lit " " ++ u ++ lit " - " ++ v) = words_in u ++ lit "-" :: words_in v.
Proof.
  change (lit " " ++ u ++ lit " - " ++ v) with ([" "%char] ++ u ++ lit " - " ++ v). rewrite words_blank by (constructor; [left; reflexivity|constructor]).
  rewrite words_app by (left; reflexivity). f_equal.
Qed.
Lemma pad_space (k : nat) : Forall space (repeat " "%char k).
Proof. apply Forall_forall. intros c H. apply repeat_spec in H. subst. left. reflexivity. Qed.
Lemma seq_map {A B} (g : A -> B) d (l : list A) : map (fun i => g (nth i l d)) (seq 0 (length l)) = map g l.
Proof. induction l as [|a l IH]; [reflexivity|]. cbn [length seq map nth]. f_equal. rewrite <- seq_shift, map_map. exact IH. Qed.
Lemma words_table d names : Forall one_line names -> Forall (fun x => one_line (d_short d x)) names ->
  exists t, print_columns [] (screen_columns d names) = Some t /\ words_in t = concat (map (fun x => words_in x ++ lit "-" :: words_in (d_short d x)) names) /\
    (exists t', t = t' ++ [nl] \/ t = []).
Proof.
  intros H1 H2. rewrite p_columns. eexists. split; [reflexivity|].
  set (c1 := Col (lit " ") (ended names) [] false). set (c2 := Col (lit " - ") (ended (map (d_short d) names)) [] true).
  assert (C : screen_columns d names = [c1; c2]). { unfold screen_columns, c1, c2, ended. now rewrite map_map. }
  rewrite C. assert (K1 : cells c1 = names). { unfold cells. cbn [col_text c1]. rewrite <- (app_nil_r (ended names)), lines_ended by auto. cbn. now rewrite app_nil_r. }
  assert (K2 : cells c2 = map (d_short d) names). { unfold cells. cbn [col_text c2]. rewrite <- (app_nil_r (ended _)), lines_ended by (now apply Forall_map). cbn. now rewrite app_nil_r. }
  assert (R : row_count [c1; c2] = length names). { unfold row_count. cbn [map]. rewrite K1, K2, map_length. cbn. lia. }
  rewrite R. split.
  - rewrite <- (app_nil_r (ended _)), words_ended. cbn [words_in words_after]. rewrite app_nil_r, map_map. f_equal.
    rewrite <- (seq_map (fun x => words_in x ++ lit "-" :: words_in (d_short d x)) [] names). apply map_ext_in. intros i Hi. apply in_seq in Hi.
    unfold row_line, cell_text. cbn [map concat app]. rewrite K1, K2. cbn [col_prefix col_suffix flushLeft c1 c2].
    rewrite !app_nil_r. rewrite (nth_indep (map (d_short d) names) [] (d_short d [])) by (rewrite map_length; lia). rewrite map_nth.
    change (@concat ascii []) with (@nil ascii). rewrite <- !app_assoc. cbn [app].
    rewrite (app_assoc (padding c1 (nth i names []))), words_row. rewrite words_blank by apply pad_space. f_equal. f_equal. apply words_end, pad_space.
  - destruct names as [|x names]; [exists []; right; reflexivity|]. cbn [length seq map].
    assert (L : forall l, l <> [] -> exists t', ended l = t' ++ [nl]).
    { intros l. unfold ended. induction l as [|a l IH]; [congruence|]. intros _. cbn [map concat]. destruct l as [|b l]; [exists a; apply app_nil_r|].
      destruct (IH ltac:(discriminate)) as [t' ->]. exists ((a ++ [nl]) ++ t'). apply app_assoc. }
    destruct (L (row_line [] [c1; c2] 0 :: map (row_line [] [c1; c2]) (seq 1 (length names))) ltac:(discriminate)) as [t' E]. exists t'. left. exact E.
Qed.
Lemma screen_names : filter displayAction (getNamesWithPrefix actionFactory []) = screen_actions. Proof. vm_compute. reflexivity. Qed.
Theorem p_screen d args : args = [] \/ (exists a, args = [a] /\ abbreviates action_names a (lit "help")) -> Forall (fun x => one_line (d_short d x)) screen_actions ->
  exists out, frobby_help d args = Ok (Some out) /\
    words_in out = words_in (screen_head d) ++ concat (map (fun x => x :: lit "-" :: words_in (d_short d x)) screen_actions) ++ words_in screen_foot.
Proof.
  intros A H. rewrite (run_help d args []) by (destruct A as [->|[a [-> A]]]; eauto). unfold help_run. cbn [parseCommandLine].
  assert (P : exists p, parseCommandLine action_params [] = Ok p) by (eexists; vm_compute; reflexivity). destruct P as [p ->]. cbn [rbind help_perform].
  unfold displayScreen. rewrite screen_names.
  assert (H1 : Forall one_line screen_actions). { apply Forall_forall. intros x Hx. vm_compute in Hx. repeat (destruct Hx as [<-|Hx]; [intros K; vm_compute in K; intuition discriminate|]). destruct Hx. }
  destruct (words_table d screen_actions H1 H) as [t [-> [W [t' E]]]]. cbn [shown rbind].
  destruct (p_display [] (screen_head d ++ t ++ screen_foot)) as [out [D _]]. pose proof (p_words [] _ out (Forall_nil _) D) as Pw. rewrite D. cbn [shown rbind].
  exists out. split; [reflexivity|]. rewrite Pw. 
  assert (Hh : exists h, screen_head d = h ++ [nl]).
  { eexists (lit "Frobby version " ++ d_version d ++ lit " Copyright (C) 2007 Bjarke Hammersholt Roune" ++ nl ::
      lit "Frobby performs a number of computations related to monomial ideals." ++ nl ::
      lit "You run it by typing `frobby ACTION', where ACTION is one of the following. " ++ [nl]). unfold screen_head. rewrite <- !app_assoc. reflexivity. }
  destruct Hh as [h ->]. rewrite <- app_assoc. cbn [app]. rewrite !words_nl. change (words_in []) with (@nil text). rewrite app_nil_r.
  rewrite words_app by exact nl_space. rewrite W. reflexivity.
Qed.

(** ** Formats *)
Ltac no := let K := fresh "K" in intros K; exfalso; vm_compute in K;
  repeat match goal with
  | H : _ \/ _ |- _ => destruct H | H : exists _, _ |- _ => destruct H | H : _ /\ _ |- _ => destruct H
  | H : (_, _) = (_, _) |- _ => first [discriminate H|inversion H; clear H; subst]
  | H : @eq (list _) _ _ |- _ => discriminate H
  | H : @eq format _ _ |- _ => first [discriminate H|progress subst|clear H]
  | H : False |- _ => destruct H
  end.
Ltac yes := intros _; unfold can_read, can_write;
  first [exact eq_refl
        |in_table; fail
        |left; in_table; fail
        |left; eexists; split; [in_table; fail|first [left; reflexivity|right; left; reflexivity|right; right; reflexivity|right; right; left; reflexivity|right; right; right; reflexivity]]
        |right; reflexivity|right; left; reflexivity|right; right; reflexivity].
Lemma can_read_iff x h t : In (x, h) ioFactory -> (supportsInput h t = true <-> can_read x t).
Proof.
  intros H. unfold ioFactory in H. cbn [In] in H.
  repeat (destruct H as [H|H]; [injection H as <- <-; destruct t; (split; [first [discriminate|yes]|first [intros _; vm_compute; reflexivity|no; fail]])|]); contradiction.
Qed.
Lemma can_write_iff x h t : In (x, h) ioFactory -> (supportsOutput h t = true <-> can_write x t).
Proof.
  intros H. unfold ioFactory in H. cbn [In] in H.
  repeat (destruct H as [H|H]; [injection H as <- <-; destruct t; (split; [first [discriminate|yes]|first [intros _; vm_compute; reflexivity|no; fail]])|]); contradiction.
Qed.
Lemma one_line_called t : one_line (lit (called t)). Proof. destruct t; intros H; vm_compute in H; intuition discriminate. Qed.
Lemma type_line_says x h t : In (x, h) ioFactory -> exists ls, type_line h t = ended ls /\ says x t ls.
Proof.
  intros H. pose proof (can_read_iff x h t H) as R. pose proof (can_write_iff x h t H) as W. unfold type_line, says.
  assert (E : type_name t = lit (called t)) by (destruct t; reflexivity). rewrite E.
  destruct (supportsInput h t), (supportsOutput h t); cbn [andb].
  - eexists. split; [|left; split; [now apply R|split; [now apply W|reflexivity]]]. unfold ended. cbn [map concat]. rewrite app_nil_r, <- !app_assoc. reflexivity.
  - eexists. split; [|right; left; split; [now apply R|split; [|reflexivity]]]. { unfold ended. cbn [map concat]. rewrite app_nil_r, <- !app_assoc. reflexivity. }
    intros K. apply W in K. discriminate.
  - eexists. split; [|right; right; left; split; [|split; [now apply W|reflexivity]]]. { unfold ended. cbn [map concat]. rewrite app_nil_r, <- !app_assoc. reflexivity. }
    intros K. apply R in K. discriminate.
  - exists []. split; [reflexivity|]. right. right. right. split; [|split; [|reflexivity]]; intros K; [apply R in K|apply W in K]; discriminate.
Qed.
Lemma ended_app a b : ended (a ++ b) = ended a ++ ended b.
Proof. unfold ended. now rewrite map_app, concat_app. Qed.
Lemma io_names : map fst ioFactory = format_names. Proof. reflexivity. Qed.
Lemma io_created x : In x format_names -> exists h, created_with_prefix ioFactory x = Ok h /\ In (x, h) ioFactory.
Proof.
  intros H. assert (D : NoDup (map fst ioFactory)) by (apply str_nodup; vm_compute; reflexivity). pose proof (created_spec ioFactory x D) as C. rewrite io_names in C.
  assert (A : abbreviates format_names x x) by (split; auto).
  destruct (created_with_prefix ioFactory x) as [h| | | | |]; try contradiction; [|now destruct (C x)].
  destruct C as [y [B I]]. rewrite <- (abbreviates_unique _ _ _ _ A B) in I. eauto.
Qed.
Lemma formats_shown d : forall names, Forall (fun x => In x format_names) names -> exists blocks, displayFormats d names = Ok (ended (concat blocks)) /\ Forall2 (about_format d) names blocks.
Proof.
  induction names as [|x names IH]; intros H; [exists []; split; [reflexivity|constructor]|]. inversion H; subst. destruct (IH H3) as [blocks [E F]].
  destruct (io_created x H2) as [h [C I]]. cbn [displayFormats]. rewrite C. cbn [rbind]. rewrite E. cbn [rbind].
  destruct (type_line_says x h IdealType I) as [l1 [E1 S1]]. destruct (type_line_says x h ListType I) as [l2 [E2 S2]].
  destruct (type_line_says x h PolyType I) as [l3 [E3 S3]]. destruct (type_line_says x h SatBinomType I) as [l4 [E4 S4]].
  exists (([] :: (lit "* The format " ++ x ++ lit ": " ++ d_format d x) :: concat [l1; l2; l3; l4]) :: blocks). split.
  - f_equal. cbn [concat]. rewrite ended_app. unfold getTypes. cbn [map concat]. rewrite E1, E2, E3, E4. rewrite app_nil_r.
    change ([] :: (lit "* The format " ++ x ++ lit ": " ++ d_format d x) :: l1 ++ l2 ++ l3 ++ l4 ++ []) with ([[]; lit "* The format " ++ x ++ lit ": " ++ d_format d x] ++ l1 ++ l2 ++ l3 ++ l4 ++ []).
    rewrite !ended_app. change (ended []) with (@nil ascii). assert (L : forall l, ended [[]; l] = nl :: l ++ [nl]) by (intros l; unfold ended; cbn [map concat app]; now rewrite app_nil_r).
    rewrite L. repeat (cbn [app]; rewrite <- ?app_assoc). reflexivity.
  - constructor; [|exact F]. exists [l1; l2; l3; l4]. split; [|reflexivity]. repeat (constructor; [assumption|]). constructor.
Qed.
Lemma one_line_says x t ls : says x t ls -> Forall one_line ls.
Proof.
  unfold says. intros H. assert (O : forall a b c : string, one_line (lit a) -> one_line (lit b) -> one_line (lit c) -> one_line (lit a ++ lit b ++ lit c)).
  { intros a b c H1 H2 H3 K. apply in_app_iff in K. destruct K as [K|K]; [now apply H1|]. apply in_app_iff in K. destruct K as [K|K]; [now apply H2|now apply H3]. }
  destruct H as [[_ [_ ->]]|[[_ [_ ->]]|[[_ [_ ->]]|[_ [_ ->]]]]]; [..|constructor]; (constructor; [|constructor]); apply O; try apply one_line_called; intros K; vm_compute in K; intuition discriminate.
Qed.
Lemma one_line_about d x ls : In x format_names -> one_line (d_format d x) -> about_format d x ls -> Forall one_line ls.
Proof.
  intros Hx D [l [F ->]]. constructor; [intros []|]. constructor.
  - intros K. repeat (apply in_app_iff in K; destruct K as [K|K]); try (vm_compute in K; intuition discriminate); [|now apply D].
    vm_compute in Hx. repeat (destruct Hx as [<-|Hx]; [vm_compute in K; intuition discriminate|]). destruct Hx.
  - induction F as [|t ls ts l H F IH]; [constructor|]. cbn [concat]. apply Forall_app. split; [eapply one_line_says; eauto|exact IH].
Qed.
Theorem p_io d a : abbreviates action_names a (lit "help") -> (forall x, In x format_names -> one_line (d_format d x)) ->
  exists out head blocks sorted, frobby_help d [a; lit "io"] = Ok (Some out) /\ Permutation sorted format_names /\ ascending sorted /\
    lines_in out = head ++ concat blocks /\ concat (map words_in head) = words_in io_intro /\ Forall2 (about_format d) sorted blocks.
Proof.
  intros A H. rewrite run_topic; [|exact A|split; [discriminate|intros [p E]; discriminate]]. unfold help_perform. cbn [lit list_ascii_of_string].
  change ["i"%char; "o"%char] with (lit "io"). destruct (str_dec (lit "io") (lit "io")) as [_|]; [|congruence]. unfold displayIOHelp.
  assert (D : exists L, display [] io_intro = Some (ended L) /\ Forall one_line L /\ concat (map words_in L) = words_in io_intro).
  { destruct (display [] io_intro) as [t|] eqn:E; [|vm_compute in E; discriminate]. exists (lines_in t). pose proof (p_words [] _ t (Forall_nil _) E) as W.
    assert (Et : t = ended (lines_in t)). { assert (X : display [] io_intro = Some (ended (lines_in match display [] io_intro with Some t => t | None => [] end))) by (vm_compute; reflexivity).
      rewrite E in X. injection X as X. exact X. }
    split; [now rewrite <- Et|]. split.
    - assert (X : forallb (fun l => negb (existsb newline l)) (lines_in match display [] io_intro with Some t => t | None => [] end) = true) by (vm_compute; reflexivity).
      rewrite E in X. apply Forall_forall. intros l Hl K. rewrite forallb_forall in X. specialize (X l Hl). apply negb_true_iff in X.
      assert (Y : existsb newline l = true) by (apply existsb_exists; exists nl; split; [exact K|reflexivity]). congruence.
    - rewrite <- W. rewrite Et at 2. rewrite <- (app_nil_r (ended _)), words_ended. change (words_in []) with (@nil text). now rewrite app_nil_r. }
  destruct D as [L [D [O W]]]. rewrite D. cbn [shown rbind].
  set (sorted := getNamesWithPrefix ioFactory []).
  assert (P : Permutation sorted format_names).
  { unfold sorted, getNamesWithPrefix. rewrite std_sort_perm, <- io_names. assert (E : filter (has_prefix []) (map fst ioFactory) = map fst ioFactory) by (vm_compute; reflexivity). now rewrite E. }
  assert (F : Forall (fun x => In x format_names) sorted) by (apply Forall_forall; intros x Hx; eapply Permutation_in; eauto).
  destruct (formats_shown d sorted F) as [blocks [E B]]. rewrite E. cbn [rbind].
  exists (ended L ++ ended (concat blocks)), L, blocks, sorted. split; [reflexivity|]. split; [exact P|]. split.
  { unfold sorted, getNamesWithPrefix. apply ascending_sorted. apply str_nodup. vm_compute. reflexivity. }
  split; [|split; [exact W|exact B]]. rewrite lines_ended by exact O. f_equal. rewrite <- (app_nil_r (ended _)), lines_ended; [cbn; now rewrite app_nil_r|].
  clear E. revert F. generalize sorted B. clear sorted P B. intros sorted B F. induction B as [|x b xs bs H1 B IH]; [constructor|]. inversion F; subst. cbn [concat]. apply Forall_app. split; [|now apply IH].
  eapply one_line_about; eauto.
Qed.
(** ** The formats that are listed for an action *)
Lemma parameter_at d x : forall l o t, In o l -> display (lit "   ") (param_text d x (fst o)) = Some t -> exists rest, displayParameters d x l = Ok rest /\
  forall p, exists p' rest', p ++ rest = p' ++ nl :: t ++ rest'.
Proof.
  induction l as [|[name v] l IH]; intros o t []; intros D.
  - subst o. cbn [fst] in D. destruct (parameters_shown d x l) as [rest [E _]]. cbn [displayParameters]. rewrite D. cbn [shown rbind]. rewrite E. cbn [rbind].
    eexists. split; [reflexivity|]. intros p. exists (p ++ nl :: lit " -" ++ name ++ lit " " ++ argument_type v ++ lit "   (default is " ++ value_string v ++ lit ")"), rest.
    repeat (rewrite <- ?app_assoc; cbn [app]). reflexivity.
  - destruct (IH o t H D) as [rest [E F]]. destruct (p_display (lit "   ") (param_text d x name)) as [u [D' _]].
    cbn [displayParameters]. rewrite D'. cbn [shown rbind]. rewrite E. cbn [rbind]. eexists. split; [reflexivity|]. intros p.
    destruct (F (p ++ nl :: lit " -" ++ name ++ lit " " ++ argument_type v ++ lit "   (default is " ++ value_string v ++ lit ")" ++ nl :: u)) as [p' [rest' Q]].
    exists p', rest'. rewrite <- Q. repeat (rewrite <- ?app_assoc; cbn [app]). reflexivity.
Qed.
Lemma described_lines d a topic x options o L : abbreviates action_names a (lit "help") -> a_topic topic -> topic <> lit "io" -> abbreviates action_names topic x ->
  In (x, options) shown_options -> In o options -> display (lit "   ") (param_text d x (fst o)) = Some (ended L) -> Forall one_line L ->
  exists out, frobby_help d [a; topic] = Ok (Some out) /\ forall l, In l L -> In l (lines_in out).
Proof.
  intros A T N X O Io D One. destruct (find_action topic x X) as [act [I F]]. pose proof (options_match x options act O I) as S. destruct (sorted_options _ _ S) as [P _].
  rewrite run_topic by auto. unfold help_perform. destruct topic as [|c topic]; [now destruct T|]. destruct (str_dec (c :: topic) (lit "io")); [congruence|].
  fold pair_factory. rewrite F. cbn [rbind fst snd]. unfold displayActionHelp. fold by_name.
  destruct (p_display [] (lit "Displaying information on action: " ++ x ++ nl :: nl :: d_long d x ++ [nl])) as [t [D' _]]. rewrite D'. cbn [shown rbind].
  assert (Io' : In o (std_sort by_name (obtainParameters x act))) by (eapply Permutation_in; [apply Permutation_sym, P|exact Io]).
  destruct (parameter_at d x _ o (ended L) Io' D) as [rest [E Q]]. destruct (std_sort by_name (obtainParameters x act)) as [|o' sorted]; [destruct Io'|].
  rewrite E. cbn [rbind]. eexists. split; [reflexivity|]. intros l Hl.
  destruct (Q (t ++ nl :: lit "The parameters accepted by " ++ x ++ lit " are as follows." ++ [nl])) as [p' [rest' R]].
  replace (t ++ nl :: lit "The parameters accepted by " ++ x ++ lit " are as follows." ++ nl :: rest)
    with ((t ++ nl :: lit "The parameters accepted by " ++ x ++ lit " are as follows." ++ [nl]) ++ rest) by (repeat (rewrite <- ?app_assoc; cbn [app]); reflexivity).
  rewrite R. destruct (lines_split p' (ended L ++ rest')) as [ls [_ ->]]. rewrite lines_ended by auto. apply in_or_app. right. apply in_or_app. now left.
Qed.
Definition readers (t : datatype) : list str := filter (fun x => match createNoThrow ioFactory x with Some h => supportsInput h t | None => false end) (getNamesWithPrefix ioFactory []).
Definition writers (t : datatype) : list str := filter (fun x => match createNoThrow ioFactory x with Some h => supportsOutput h t | None => false end) (getNamesWithPrefix ioFactory []).
Lemma found_in {A} (f : list (str * A)) x h : createNoThrow f x = Some h -> In (x, h) f.
Proof. induction f as [|[y k] f IH]; [discriminate|]. cbn [createNoThrow]. destruct (str_dec y x) as [->|]; intros E; [injection E as ->; now left|right; auto]. Qed.
Lemma found_some {A} (f : list (str * A)) x : In x (map fst f) -> exists h, createNoThrow f x = Some h.
Proof. induction f as [|[y k] f IH]; [intros []|]. cbn [createNoThrow map fst]. destruct (str_dec y x) as [->|N]; [eauto|]. intros [E|H]; [congruence|auto]. Qed.
Lemma sorted_formats : Permutation (getNamesWithPrefix ioFactory []) format_names /\ ascending (getNamesWithPrefix ioFactory []).
Proof.
  split; [|apply ascending_sorted, str_nodup; vm_compute; reflexivity].
  unfold getNamesWithPrefix. rewrite std_sort_perm, <- io_names. assert (E : filter (has_prefix []) (map fst ioFactory) = map fst ioFactory) by (vm_compute; reflexivity). now rewrite E.
Qed.
Lemma sorted_filter {A} (R : A -> A -> Prop) p l : StronglySorted R l -> StronglySorted R (filter p l).
Proof.
  induction 1 as [|a l S IH F]; [constructor|]. cbn [filter]. destruct (p a); auto. constructor; auto. rewrite Forall_forall in *. intros b Hb. apply filter_In in Hb. now apply F.
Qed.
Lemma readers_spec t : ascending (readers t) /\ forall x, In x (readers t) <-> In x format_names /\ can_read x t.
Proof.
  destruct sorted_formats as [P S]. split; [now apply sorted_filter|]. intros x. unfold readers. rewrite filter_In. split.
  - intros [H K]. destruct (createNoThrow ioFactory x) as [h|] eqn:E; [|discriminate]. split; [eapply Permutation_in; eauto|]. apply (can_read_iff x h t); auto. now apply found_in.
  - intros [H K]. split; [eapply Permutation_in; [apply Permutation_sym, P|auto]|]. rewrite <- io_names in H. destruct (found_some ioFactory x H) as [h E]. rewrite E. apply (can_read_iff x h t); auto. now apply found_in.
Qed.
Lemma writers_spec t : ascending (writers t) /\ forall x, In x (writers t) <-> In x format_names /\ can_write x t.
Proof.
  destruct sorted_formats as [P S]. split; [now apply sorted_filter|]. intros x. unfold writers. rewrite filter_In. split.
  - intros [H K]. destruct (createNoThrow ioFactory x) as [h|] eqn:E; [|discriminate]. split; [eapply Permutation_in; eauto|]. apply (can_write_iff x h t); auto. now apply found_in.
  - intros [H K]. split; [eapply Permutation_in; [apply Permutation_sym, P|auto]|]. rewrite <- io_names in H. destruct (found_some ioFactory x H) as [h E]. rewrite E. apply (can_write_iff x h t); auto. now apply found_in.
Qed.
Lemma closed_lines t u : display (lit "   ") t = Some u -> u = ended (lines_in u) -> forallb (fun l => negb (existsb newline l)) (lines_in u) = true ->
  display (lit "   ") t = Some (ended (lines_in u)) /\ Forall one_line (lines_in u).
Proof.
  intros D E F. split; [now rewrite <- E|]. apply Forall_forall. intros l Hl K. rewrite forallb_forall in F. specialize (F l Hl). apply negb_true_iff in F.
  assert (Y : existsb newline l = true) by (apply existsb_exists; exists nl; split; [exact K|reflexivity]). congruence.
Qed.
Lemma iformat_lines t : exists L, display (lit "   ") (iformat_text t) = Some (ended L) /\ Forall one_line L /\ In (formats_line (readers t)) L.
Proof.
  destruct t; eexists;
    match goal with |- display (lit "   ") ?x = _ /\ _ => let u := eval vm_compute in (match display (lit "   ") x with Some u => u | None => [] end) in
      destruct (closed_lines x u) as [D F]; [vm_compute; reflexivity|vm_compute; reflexivity|vm_compute; reflexivity|] end;
    (split; [exact D|split; [exact F|vm_compute; tauto]]).
Qed.
Lemma oformat_lines i t : exists L, display (lit "   ") (oformat_text i t) = Some (ended L) /\ Forall one_line L /\ In (formats_line (writers t)) L.
Proof.
  destruct t, i; eexists;
    match goal with |- display (lit "   ") ?x = _ /\ _ => let u := eval vm_compute in (match display (lit "   ") x with Some u => u | None => [] end) in
      destruct (closed_lines x u) as [D F]; [vm_compute; reflexivity|vm_compute; reflexivity|vm_compute; reflexivity|] end;
    (split; [exact D|split; [exact F|vm_compute; tauto]]).
Qed.
Theorem p_input_formats d a topic x t : abbreviates action_names a (lit "help") -> a_topic topic -> topic <> lit "io" -> abbreviates action_names topic (lit x) ->
  In (x, t) reads_type -> exists out names, frobby_help d [a; topic] = Ok (Some out) /\ ascending names /\ (forall n, In n names <-> In n format_names /\ can_read n t) /\
    In (formats_line names) (lines_in out).
Proof.
  intros A T N X R. destruct (iformat_lines t) as [L [D [F I]]].
  assert (E : exists options v, In (lit x, options) shown_options /\ In (lit "iformat", v) options /\ param_text d (lit x) (lit "iformat") = iformat_text t).
  { unfold reads_type in R. cbn [In] in R. repeat (destruct R as [R|R]; [injection R as <- <-; eexists; eexists; split; [in_table; fail|split; [in_table; fail|reflexivity]]|]). destruct R. }
  destruct E as [options [v [O [V E]]]]. rewrite <- E in D. destruct (described_lines d a topic (lit x) options (lit "iformat", v) L A T N X O V D F) as [out [Q H]].
  exists out, (readers t). destruct (readers_spec t) as [S1 S2]. split; [exact Q|]. split; [exact S1|]. split; [exact S2|]. now apply H.
Qed.
Theorem p_output_formats d a topic x t : abbreviates action_names a (lit "help") -> a_topic topic -> topic <> lit "io" -> abbreviates action_names topic (lit x) ->
  In (x, t) writes_type -> exists out names, frobby_help d [a; topic] = Ok (Some out) /\ ascending names /\ (forall n, In n names <-> In n format_names /\ can_write n t) /\
    In (formats_line names) (lines_in out).
Proof.
  intros A T N X R.
  assert (E : exists options v i, In (lit x, options) shown_options /\ In (lit "oformat", v) options /\ param_text d (lit x) (lit "oformat") = oformat_text i t).
  { unfold writes_type in R. cbn [In] in R. repeat (destruct R as [R|R]; [injection R as <- <-; eexists; eexists; eexists; split; [in_table; fail|split; [in_table; fail|reflexivity]]|]). destruct R. }
  destruct E as [options [v [i [O [V E]]]]]. destruct (oformat_lines i t) as [L [D [F I]]]. rewrite <- E in D.
  destruct (described_lines d a topic (lit x) options (lit "oformat", v) L A T N X O V D F) as [out [Q H]].
  exists out, (writers t). destruct (writers_spec t) as [S1 S2]. split; [exact Q|]. split; [exact S1|]. split; [exact S2|]. now apply H.
Qed.
(** For the actions that write lists of ideals but are declared to write ideals *)
Theorem p_wrong_formats d a topic x : abbreviates action_names a (lit "help") -> a_topic topic -> topic <> lit "io" -> abbreviates action_names topic (lit x) ->
  In x ["irrdecom"; "assoprimes"; "maxstandard"]%string -> exists out names, frobby_help d [a; topic] = Ok (Some out) /\
    In (formats_line names) (lines_in out) /\ In (lit "cocoa4") names.
Proof.
  intros A T N X R.
  assert (E : exists options v i, In (lit x, options) shown_options /\ In (lit "oformat", v) options /\ param_text d (lit x) (lit "oformat") = oformat_text i IdealType).
  { cbn [In] in R. repeat (destruct R as [R|R]; [subst x; eexists; eexists; eexists; split; [in_table; fail|split; [in_table; fail|reflexivity]]|]). destruct R. }
  destruct E as [options [v [i [O [V E]]]]]. destruct (oformat_lines i IdealType) as [L [D [F I]]]. rewrite <- E in D.
  destruct (described_lines d a topic (lit x) options (lit "oformat", v) L A T N X O V D F) as [out [Q H]].
  exists out, (writers IdealType). split; [exact Q|]. split; [now apply H|]. vm_compute. tauto.
Qed.
