(** Properties C120 and C121: what the action help displays. *)
From Coq Require Import String Ascii.
From Coq Require Import List Arith Bool ZArith Lia Sorted Permutation.
Import ListNotations.
From Verif Require Import M_Term M_Names M_IO M_Cli M_Cli3 M_Main M_Display M_Help Spec_Names Spec_Cli Spec_Cli3 Spec_IOPoly Spec_Display Spec_Main Spec_Help.
From Verif Require Import P_Names P_Orderer P_Cli12 P_Main P_Main2 P_Main3 P_Main4 P_Help.
Local Open Scope list_scope.
Local Notation length := List.length.
Local Notation "$ s" := (list_ascii_of_string s%string) (at level 0, s at level 0, only parsing).

(** ** C120: the topic may be abbreviated like an action.  What is displayed is the long description of the action, and its options in
    ascending order, each with the kind of its argument, its default, and its description. *)
Theorem C120_action : forall d a topic x options, abbreviates action_names a ($"help") -> a_topic topic -> topic <> $"io" -> abbreviates action_names topic x ->
  In (x, options) shown_options -> exists out sorted described, frobby_help d [a; topic] = Ok (Some out) /\ Permutation sorted options /\ ascending (map fst sorted) /\
    (forall o, fst o <> $"iformat" -> fst o <> $"oformat" -> described o = d_param d x (fst o)) /\
    words_in out = words_in ($"Displaying information on action: " ++ x) ++ words_in (d_long d x) ++
      (if list_eq_dec str_dec (map fst options) [] then [] else words_in ($"The parameters accepted by " ++ x ++ $" are as follows.")) ++
      concat (map (fun o => words_in (option_line o) ++ words_in (described o)) sorted) /\
    forall o, In o options -> one_line (option_line o) -> In (option_line o) (lines_in out).
Proof. exact p_action. Qed.
Print Assumptions C120_action.
(** A topic that is not the name of one action, or short for one, is reported. *)
Theorem C120_unknown_topic : forall d a topic, abbreviates action_names a ($"help") -> a_topic topic -> topic <> $"io" -> (forall x, ~ abbreviates action_names topic x) ->
  frobby_help d [a; topic] = OtherError.
Proof. exact p_no_topic. Qed.
Print Assumptions C120_unknown_topic.
(** Without a topic, and when there are no arguments at all, the actions that are not for experts are listed in ascending order, each with its
    short description. *)
Theorem C120_screen : forall d args, args = [] \/ (exists a, args = [a] /\ abbreviates action_names a ($"help")) -> Forall (fun x => one_line (d_short d x)) screen_actions ->
  exists out, frobby_help d args = Ok (Some out) /\
    words_in out = words_in (screen_head d) ++ concat (map (fun x => x :: $"-" :: words_in (d_short d x)) screen_actions) ++ words_in screen_foot.
Proof. exact p_screen. Qed.
Print Assumptions C120_screen.
(** The texts of the action dimension *)
Definition some_d : descriptions :=
  Desc (fun x => $"What " ++ x ++ $" does.")
    (fun _ => $"Compute the dimension or codimension of the input ideal. This is the
dimension of the zero set of the ideal. The ideal containing the identity
has an empty zero set, and we define the dimension of this to be -1.
All other ideals have non-negative dimension.")
    (fun _ o => if str_dec o ($"useSlice") then $"Use the Slice Algorithm to compute the dimension instead of the usual
algorithm." else if str_dec o ($"time") then $"Display and time each subcomputation."
      else if str_dec o ($"codim") then $"Compute the codimension instead of the dimension. The codimension is the
number of variables in the polynomial ring minus the dimension."
      else $"State that the input ideal is square free and minimally generated. This
can speed up the the computation, but will result in unpredictable
behavior if it is not true.")
    (fun x => $"The format of " ++ x ++ $".") ($"0.9.9").
Lemma an_abbreviation names p x : getUniqueNameWithPrefix (map (fun y => (y, tt)) names) p = Found x -> nodupb names = true -> abbreviates names p x.
Proof.
  intros H N. assert (E : map fst (map (fun y => (y, tt)) names) = names) by (rewrite map_map; apply map_id).
  pose proof (lookup_abbreviates (map (fun y => (y, tt)) names) p) as L. rewrite E, H in L. apply L. now apply str_nodup.
Qed.
Ltac abbreviation := apply an_abbreviation; vm_compute; reflexivity.
(** test/messages/help-dimension.err *)
Example C120_ex : abbreviates action_names ($"he") ($"help") /\ a_topic ($"dim") /\ $"dim" <> $"io" /\ abbreviates action_names ($"dim") ($"dimension") /\
  (exists options, In ($"dimension", options) shown_options /\ In ($"codim", VBool false) options /\ one_line (option_line ($"codim", VBool false))) /\
  frobby_help some_d [$"he"; $"dim"] = Ok (Some ($"Displaying information on action: dimension

Compute the dimension or codimension of the input ideal. This is the
dimension of the zero set of the ideal. The ideal containing the identity
has an empty zero set, and we define the dimension of this to be -1.
All other ideals have non-negative dimension.

The parameters accepted by dimension are as follows.

 -codim [BOOL]   (default is off)
   Compute the codimension instead of the dimension. The codimension is the
   number of variables in the polynomial ring minus the dimension.

 -iformat STRING   (default is autodetect)
   The format used to read the input. This action supports the formats:
     4ti2 cocoa4 m2 monos newmonos null singular.
   The format ""autodetect"" instructs Frobby to guess the format.
   Type 'frobby help io' for more information on input formats.

 -squareFreeAndMinimal [BOOL]   (default is off)
   State that the input ideal is square free and minimally generated. This
   can speed up the the computation, but will result in unpredictable
   behavior if it is not true.

 -time [BOOL]   (default is off)
   Display and time each subcomputation.

 -useSlice [BOOL]   (default is off)
   Use the Slice Algorithm to compute the dimension instead of the usual
   algorithm.
")) /\
  (forall x, ~ abbreviates action_names ($"gen") x) /\ frobby_help some_d [$"help"; $"gen"] = OtherError /\
  Forall (fun x => one_line (d_short some_d x)) screen_actions /\
  (exists out, frobby_help some_d [] = Ok (Some out) /\ In ($" intersection - What intersection does.") (lines_in out) /\ In ($"      frobdyn - What frobdyn does.") (lines_in out)).
Proof.
  split; [abbreviation|]. split; [split; [discriminate|intros [p E]; discriminate]|]. split; [discriminate|]. split; [abbreviation|]. split.
  { eexists. split; [in_table; fail|]. split; [in_table; fail|]. intros H. vm_compute in H. intuition discriminate. }
  split; [vm_compute; reflexivity|]. split.
  { pose proof (lookup_abbreviates actionFactory ($"gen") action_nodup) as H. rewrite action_factory in H. exact H. }
  split; [vm_compute; reflexivity|]. split.
  { apply Forall_forall. intros x Hx. vm_compute in Hx. repeat (destruct Hx as [<-|Hx]; [intros K; vm_compute in K; intuition discriminate|]). destruct Hx. }
  eexists. split; [vm_compute; reflexivity|]. split; vm_compute; tauto.
Qed.

(** ** C121: the formats.  The topic io lists the formats in ascending order, each with the types of data that it can read and write. *)
Theorem C121_io : forall d a, abbreviates action_names a ($"help") -> (forall x, In x format_names -> one_line (d_format d x)) ->
  exists out head blocks sorted, frobby_help d [a; $"io"] = Ok (Some out) /\ Permutation sorted format_names /\ ascending sorted /\
    lines_in out = head ++ concat blocks /\ concat (map words_in head) = words_in io_intro /\ Forall2 (about_format d) sorted blocks.
Proof. exact p_io. Qed.
Print Assumptions C121_io.
(** For each action the formats that it can read are listed. *)
Theorem C121_input_formats : forall d a topic x t, abbreviates action_names a ($"help") -> a_topic topic -> topic <> $"io" -> abbreviates action_names topic ($x) ->
  In (x, t) reads_type -> exists out names, frobby_help d [a; topic] = Ok (Some out) /\ ascending names /\ (forall n, In n names <-> In n format_names /\ can_read n t) /\
    In (formats_line names) (lines_in out).
Proof. exact p_input_formats. Qed.
Print Assumptions C121_input_formats.
(** And so are the formats that it can write, but for the actions of the next theorem. *)
Theorem C121_output_formats_partial : forall d a topic x t, abbreviates action_names a ($"help") -> a_topic topic -> topic <> $"io" -> abbreviates action_names topic ($x) ->
  In (x, t) writes_type -> exists out names, frobby_help d [a; topic] = Ok (Some out) /\ ascending names /\ (forall n, In n names <-> In n format_names /\ can_write n t) /\
    In (formats_line names) (lines_in out).
Proof. exact p_output_formats. Qed.
Print Assumptions C121_output_formats_partial.
Definition bad_settings : list (str * value) := [($"oformat", VStr ($"cocoa4"))].
Ltac bad_command t := eexists; eexists; exists t, bad_settings; split; [reflexivity|]; split; [abbreviation|]; split; [in_table; fail|]; split; [|reflexivity];
  exists [[$"-oformat"; $"cocoa4"]]; split; [reflexivity|]; apply Forall2_cons; [|constructor];
  eexists; eexists; eexists; split; [reflexivity|]; split; [abbreviation|]; split; [in_table; fail|]; split; [repeat constructor; intros [? H]; discriminate H|cbn; eauto].
(** irrdecom, assoprimes and maxstandard need a format for lists of ideals, but are declared to write an ideal: formats are listed that they
    cannot write. *)
Theorem C121_output_formats_refuted : forall d x, In x ["irrdecom"; "assoprimes"; "maxstandard"]%string ->
  exists out names, frobby_help d [$"help"; $x] = Ok (Some out) /\ In (formats_line names) (lines_in out) /\ In ($"cocoa4") names /\
    forall w file, frobby w [$x; $"-oformat"; $"cocoa4"] file = OtherError.
Proof.
  intros d x Hx. assert (A : abbreviates action_names ($"help") ($"help")) by abbreviation.
  assert (T : a_topic ($x) /\ $x <> $"io" /\ abbreviates action_names ($x) ($x)).
  { cbn [In] in Hx. repeat (destruct Hx as [<-|Hx]; [split; [split; [discriminate|intros [p E]; discriminate]|split; [discriminate|abbreviation]]|]). destruct Hx. }
  destruct T as [T1 [T2 T3]]. destruct (p_wrong_formats d ($"help") ($x) x A T1 T2 T3 Hx) as [out [names [E [H1 H2]]]]. exists out, names.
  split; [exact E|]. split; [exact H1|]. split; [exact H2|]. intros w file.
  apply (e_no_lists w _ x (value_of (table x) bad_settings) None (Some CoCoA4) file).
  - cbn [In] in Hx. destruct Hx as [<-|[<-|[<-|[]]]]; [bad_command (table "irrdecom")|bad_command (table "assoprimes")|bad_command (table "maxstandard")].
  - cbn [In] in Hx. destruct Hx as [<-|[<-|[<-|[]]]]; vm_compute; tauto.
  - cbn [In] in Hx. destruct Hx as [<-|[<-|[<-|[]]]]; discriminate.
  - cbn [In] in Hx. destruct Hx as [<-|[<-|[<-|[]]]]; [reflexivity|discriminate|discriminate].
  - cbn [In] in Hx. destruct Hx as [<-|[<-|[<-|[]]]]; reflexivity.
  - cbn [In] in Hx. destruct Hx as [<-|[<-|[<-|[]]]]; (exists ($"cocoa4"); split; [abbreviation|]); in_table; fail.
  - cbn [In] in Hx. destruct Hx as [<-|[<-|[<-|[]]]]; (eexists; split; [abbreviation|intros H; vm_compute in H; intuition discriminate]).
  - intros [H|[H|H]]; discriminate.
Qed.
Print Assumptions C121_output_formats_refuted.
Example C121_ex : abbreviates action_names ($"hil") ($"hilbert") /\ In ("hilbert"%string, PolyType) writes_type /\ In ("hilbert"%string, IdealType) reads_type /\
  (forall x, In x format_names -> one_line (d_format some_d x)) /\
  (exists out, frobby_help some_d [$"help"; $"hil"] = Ok (Some out) /\ In ($"     4ti2 cocoa4 count m2 null singular.") (lines_in out) /\
     In ($"     4ti2 cocoa4 m2 monos newmonos null singular.") (lines_in out)) /\
  (exists out, frobby_help some_d [$"help"; $"irrdecom"] = Ok (Some out) /\ In ($"     4ti2 cocoa4 count m2 monos newmonos null singular.") (lines_in out)) /\
  (exists out before after, frobby_help some_d [$"help"; $"io"] = Ok (Some out) /\ lines_in out = before ++ [$"* The format 4ti2: The format of 4ti2."; $"  - supports input and output of a monomial ideal.";
     $"  - supports input and output of a list of monomial ideals."; $"  - supports input and output of a polynomial."; $"  - supports input of a saturated binomial ideal."; [];
     $"* The format cocoa4: The format of cocoa4."] ++ after).
Proof.
  split; [abbreviation|]. split; [vm_compute; tauto|]. split; [vm_compute; tauto|]. split.
  { intros x Hx. vm_compute in Hx. repeat (destruct Hx as [<-|Hx]; [intros K; vm_compute in K; intuition discriminate|]). destruct Hx. }
  split; [eexists; split; [vm_compute; reflexivity|split; vm_compute; tauto]|]. split; [eexists; split; [vm_compute; reflexivity|vm_compute; tauto]|].
  pose (out := match frobby_help some_d [$"help"; $"io"] with Ok (Some t) => t | _ => [] end).
  exists out, (firstn 22 (lines_in out)), (skipn 29 (lines_in out)). split; vm_compute; reflexivity.
Qed.
