(** C118-C119: messages are broken into lines, and tables are laid out in columns. *)
From Coq Require Import String Ascii.
From Coq Require Import List Arith Bool Lia.
Import ListNotations.
From Verif Require Import M_IO M_Display Spec_Display P_Display P_Display2.
Local Notation length := List.length.
Local Notation "$ s" := (list_ascii_of_string s%string) (at level 0, s at level 0, only parsing).

(** ** C118 *)
(** Every message is displayed. It is broken only where the next word has no room, and the white space at the start of a line is repeated in
    front of each line that it is broken into. *)
Theorem C118_display : forall prefix msg, exists out, display prefix msg = Some out /\ displayed prefix msg out.
Proof. exact p_display. Qed.
Print Assumptions C118_display.
(** No word is lost, changed, broken or moved. *)
Theorem C118_words : forall prefix msg out, Forall space prefix -> display prefix msg = Some out -> words_in out = words_in msg.
Proof. exact p_words. Qed.
Print Assumptions C118_words.
(** A line wider than the console has at most one word. *)
Theorem C118_width : forall prefix msg out l, blank_text prefix -> display prefix msg = Some out -> In l (lines_in out) -> length l <= 79 \/ length (words_in l) <= 1.
Proof. exact p_narrow. Qed.
Print Assumptions C118_width.
(** Lines that fit are displayed as they are. *)
Theorem C118_unchanged : forall prefix lines, Forall (fun l => length prefix + length l <= 79 /\ trimmed l) lines ->
  display prefix (ended lines) = Some (ended (map (app prefix) lines)).
Proof. exact p_fits. Qed.
Print Assumptions C118_unchanged.
Theorem C118_errors : forall msg out,
  (displayNote msg = Some out -> words_in out = lit "NOTE:" :: words_in msg) /\
  (displayError msg = Some out -> words_in out = lit "ERROR:" :: words_in msg) /\
  (displayInternalError msg = Some out -> words_in out = lit "INTERNAL" :: lit "ERROR:" :: words_in msg).
Proof. exact p_error_words. Qed.
Print Assumptions C118_errors.
(** A word too wide for the console ought to be printed beyond the width "if word is the first thing we are printing on this line", but with a
    prefix or an indentation there is a line without a word before it: a line of one word is displayed as two lines (finding F37). *)
Theorem C118_one_line_refuted : exists msg out, length (words_in msg) = 1 /\ one_line msg /\ display [] msg = Some out /\ length (lines_in out) = 2.
Proof. exists (lit "  " ++ repeat "a"%char 78), (lit "  " ++ [nl] ++ lit "  " ++ repeat "a"%char 78 ++ [nl]). split; [reflexivity|]. split; [|split; reflexivity].
  intros H. apply in_app_iff in H. destruct H as [H|H]; [vm_compute in H; intuition discriminate|]. apply repeat_spec in H. discriminate. Qed.
Print Assumptions C118_one_line_refuted.
Example C118_ex :
  display ($"  ") $" aaaaaaaaaaaaaaaaaaaaaaaaaaaaaa bbbbbbbbbbbbbbbbbbbbbbbbbbbbbb ccccccccccccc  ddd e
f  g" = Some $"   aaaaaaaaaaaaaaaaaaaaaaaaaaaaaa bbbbbbbbbbbbbbbbbbbbbbbbbbbbbb ccccccccccccc
   ddd e
  f  g
" /\ displayError $"no" = Some $"ERROR: no
" /\ Forall (fun l => length ($"> ") + length l <= 79 /\ trimmed l) [$"  one line"; $" "; $"and another"].
Proof.
  split; [reflexivity|]. split; [reflexivity|]. repeat (apply Forall_cons; [split; [vm_compute; lia|]|]); [..|constructor].
  - right. split; [intros H; vm_compute in H; intuition discriminate|]. exists "e"%char, $"  one lin". split; [reflexivity|]. unfold space. vm_compute. lia.
  - left. split; [constructor; [left; reflexivity|constructor]|]. intros H; vm_compute in H; intuition discriminate.
  - right. split; [intros H; vm_compute in H; intuition discriminate|]. exists "r"%char, $"and anothe". split; [reflexivity|]. unfold space. vm_compute. lia.
Qed.

(** ** C119 *)
(** Row by row, each column has the line of its text for that row, filled up with spaces to the width of the column on the side that it is not
    flush with. *)
Theorem C119_columns : forall prefix cols, print_columns prefix cols = Some (ended (map (row_line prefix cols) (seq 0 (row_count cols)))).
Proof. exact p_columns. Qed.
Print Assumptions C119_columns.
(** All rows have the same width. *)
Theorem C119_aligned : forall prefix cols i j, length (row_line prefix cols i) = length (row_line prefix cols j).
Proof. exact p_aligned. Qed.
Print Assumptions C119_aligned.
Definition two_columns : list column := [Col [] ($"a
bbb

c") ($":") true; Col ($" ") ($"1
22
333") ($"|") false].
Example C119_ex : print_columns ($"* ") two_columns = Some $"* a  :   1|
* bbb:  22|
*    : 333|
* c  :    |
".
Proof. reflexivity. Qed.
