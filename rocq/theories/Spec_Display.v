(** What the theorems about the layout of text say. *)
From Coq Require Import String Ascii.
From Coq Require Import List Arith Bool.
Import ListNotations.
From Verif Require Import M_IO M_Display.
Local Notation length := List.length.

(** ** Words and lines *)
Definition space (c : ascii) : Prop := nat_of_ascii c = 32 \/ 9 <= nat_of_ascii c <= 13.
Definition space_dec (c : ascii) : {space c} + {~ space c}.
Proof. unfold space. destruct (Nat.eq_dec (nat_of_ascii c) 32); [auto|]. destruct (le_dec 9 (nat_of_ascii c)), (le_dec (nat_of_ascii c) 13); auto; right; intros [H|[H1 H2]]; auto. Defined.
(** The words of a text; [w] has the characters of the current word so far *)
Fixpoint words_after (w t : text) : list text :=
  match t with
  | [] => match w with [] => [] | _ => [w] end
  | c :: t' => if space_dec c then match w with [] => words_after [] t' | _ => w :: words_after [] t' end else words_after (w ++ [c]) t'
  end.
Definition words_in (t : text) : list text := words_after [] t.
(** The lines of a text: each is ended by a new line, the last one perhaps by the end of the text *)
Fixpoint lines_in (t : text) : list text :=
  match t with
  | [] => []
  | c :: t' => if ascii_dec c nl then [] :: lines_in t' else match lines_in t' with [] => [[c]] | l :: ls => (c :: l) :: ls end
  end.

(** ** Breaking lines *)
Definition one_line (t : text) : Prop := ~ In nl t.
Definition blank_text (t : text) : Prop := Forall space t /\ one_line t.
Definition a_word (w : text) : Prop := w <> [] /\ Forall (fun c => ~ space c) w.
(** It neither starts nor ends with a space *)
Definition a_piece (p : text) : Prop := one_line p /\ exists c p' c' p'', p = c :: p' /\ p = p'' ++ [c'] /\ ~ space c /\ ~ space c'.
(** There is no word across the end of what comes before [t] *)
Definition word_ends (t : text) : Prop := match t with [] => True | c :: _ => space c end.
(** After [h] characters there is room for [p] on a line, or it is one word and cannot be broken *)
Definition has_room (h : nat) (p : text) : Prop := h + length p <= 79 \/ a_word p.
(** A line broken into lines that start after [h] characters: a line is broken only where the next word has no room, and the white space there
    is left out *)
Inductive broken (h : nat) : text -> list text -> Prop :=
| broken_end p w : a_piece p -> has_room h p -> blank_text w -> broken h (p ++ w) [p]
| broken_on p w word rest lines : a_piece p -> has_room h p -> w <> [] -> blank_text w -> a_word word -> word_ends rest ->
    79 < h + length p + length w + length word -> broken h (word ++ rest) lines -> broken h (p ++ w ++ word ++ rest) (p :: lines).
(** The lines that are displayed for a line of the message. A line of white space is kept. The other lines all start with the prefix and the
    indentation. The last case: if these do not leave room for the first word, there is a line with nothing else before it. *)
Inductive line_displayed (prefix : text) : text -> list text -> Prop :=
| displayed_blank w : blank_text w -> line_displayed prefix w [prefix ++ w]
| displayed_line w word rest lines : blank_text w -> a_word word -> word_ends rest -> prefix ++ w = [] \/ length (prefix ++ w) + length word <= 79 ->
    broken (length (prefix ++ w)) (word ++ rest) lines -> line_displayed prefix (w ++ word ++ rest) (map (app (prefix ++ w)) lines)
| displayed_long w word rest lines : blank_text w -> a_word word -> word_ends rest -> prefix ++ w <> [] -> 79 < length (prefix ++ w) + length word ->
    broken (length (prefix ++ w)) (word ++ rest) lines -> line_displayed prefix (w ++ word ++ rest) ((prefix ++ w) :: map (app (prefix ++ w)) lines).
Definition ended (lines : list text) : text := concat (map (fun l => l ++ [nl]) lines).
(** All of the message, line by line. The last line need not be ended, and white space at the end is not ended by a new line. *)
Inductive displayed (prefix : text) : text -> text -> Prop :=
| displayed_end : displayed prefix [] []
| displayed_space w : w <> [] -> blank_text w -> displayed prefix w (prefix ++ w)
| displayed_last line lines : one_line line -> ~ blank_text line -> line_displayed prefix line lines -> displayed prefix line (ended lines)
| displayed_more line rest lines out : one_line line -> line_displayed prefix line lines -> displayed prefix rest out ->
    displayed prefix (line ++ nl :: rest) (ended lines ++ out).
(** No white space at the end of the line, unless it is blank *)
Definition trimmed (line : text) : Prop := blank_text line \/ (one_line line /\ exists c l, line = l ++ [c] /\ ~ space c).

(** ** Columns *)
Definition cells (c : column) : list text := lines_in (col_text c).
Definition width (c : column) : nat := list_max (map (@length ascii) (cells c)).
Definition padding (c : column) (cell : text) : text := repeat " "%char (width c - length cell).
Definition cell_text (i : nat) (c : column) : text :=
  let cell := nth i (cells c) [] in
  col_prefix c ++ (if flushLeft c then cell ++ padding c cell else padding c cell ++ cell) ++ col_suffix c.
(** Row number [i] of the table *)
Definition row_line (prefix : text) (cols : list column) (i : nat) : text := prefix ++ concat (map (cell_text i) cols).
Definition row_count (cols : list column) : nat := list_max (map (fun c => length (cells c)) cols).
