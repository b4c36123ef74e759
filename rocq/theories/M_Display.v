(** Model of display.cpp and ColumnPrinter.cpp: how text is laid out. *)
From Coq Require Import String Ascii.
From Coq Require Import List Arith Bool.
Import ListNotations.
From Verif Require Import M_IO.
Local Open Scope list_scope.
Local Notation length := List.length.

(** ** Printing with line breaks *)
(** display.cpp:25 ConsoleWidth *)
Definition consoleWidth : nat := 79.
Definition newline (c : ascii) : bool := Ascii.eqb c nl.
(** display.cpp:87-94 readIndentation: the indentation and what is left of the message. Simplification, here and below: the message has no
    characters for which isspace is not defined, and no character 0, at which fputs would stop. *)
Fixpoint readIndentation (msg : text) : text * text :=
  match msg with
  | c :: msg' => if negb (newline c) && isspace c then let (i, rest) := readIndentation msg' in (c :: i, rest) else ([], msg)
  | [] => ([], [])
  end.
(** display.cpp:65-71, the loop that reads a word *)
Fixpoint readWord (msg : text) : text * text :=
  match msg with
  | c :: msg' => if negb (newline c) && negb (isspace c) then let (w, rest) := readWord msg' in (c :: w, rest) else ([], msg)
  | [] => ([], [])
  end.
(** display.cpp:96-111 printWord: what is printed, and the size of the line afterwards *)
Definition printWord (prefix indentation : text) (lineSize : nat) (spaces word : text) : text * nat :=
  let size := length word + length spaces in
  if negb (lineSize =? 0) && (consoleWidth <? lineSize + size) then (nl :: prefix ++ indentation ++ word, length prefix + length indentation + length word)
  else (spaces ++ word, lineSize + length spaces + length word).
(** display.cpp:51-75, the loop over the words of a line: what is printed and what is left of the message. [None]: [fuel], which is more than
    the number of characters, is used up. *)
Fixpoint printLine (fuel : nat) (prefix indentation : text) (lineSize : nat) (spaces msg : text) : option (text * text) :=
  match fuel with
  | 0 => None
  | S fuel' =>
      match msg with
      | [] => Some ([], [])
      | c :: msg' =>
          if newline c then Some ([], msg')
          else if isspace c then printLine fuel' prefix indentation lineSize (spaces ++ [c]) msg'
          else let (word, rest) := readWord msg in
               let (out, lineSize) := printWord prefix indentation lineSize spaces word in
               match printLine fuel' prefix indentation lineSize [] rest with Some (out', rest) => Some (out ++ out', rest) | None => None end
      end
  end.
(** display.cpp:30-79, the constructor of Printer *)
Fixpoint printer (fuel : nat) (prefix msg : text) : option text :=
  match fuel with
  | 0 => None
  | S fuel' =>
      match msg with
      | [] => Some []
      | _ :: _ =>
          let (indentation, rest) := readIndentation msg in
          match rest with
          | [] => Some (prefix ++ indentation)
          | c :: rest' =>
              if newline c then match printer fuel' prefix rest' with Some out => Some (prefix ++ indentation ++ nl :: out) | None => None end
              else match printLine (S (length rest)) prefix indentation (length prefix + length indentation) [] rest with
                   | Some (out, rest) => match printer fuel' prefix rest with Some out' => Some (prefix ++ indentation ++ out ++ nl :: out') | None => None end
                   | None => None
                   end
          end
      end
  end.
(** display.cpp:131-133 display *)
Definition display (prepend msg : text) : option text := printer (S (length msg)) prepend msg.
(** display.cpp:135-145 displayNote, displayError, displayInternalError *)
Definition displayNote (msg : text) : option text := display [] (lit "NOTE: " ++ msg ++ [nl]).
Definition displayError (msg : text) : option text := display [] (lit "ERROR: " ++ msg ++ [nl]).
Definition displayInternalError (msg : text) : option text := display [] (lit "INTERNAL ERROR: " ++ msg ++ [nl]).

(** ** Columns *)
(** ColumnPrinter.h:42-47 *)
Record column := Col { col_prefix : text; col_text : text; col_suffix : text; flushLeft : bool }.
(** ColumnPrinter.cpp:23-28 getLineWidth, from the part of the string after [pos] *)
Fixpoint getLineWidth (s : text) : nat := match s with c :: s' => if newline c then 0 else S (getLineWidth s') | [] => 0 end.
(** ColumnPrinter.cpp:30-35 printSpaces *)
Definition printSpaces (howMany : nat) : text := repeat " "%char howMany.
(** ColumnPrinter.cpp:77-88, the loop over the lines of a column that computes its width *)
Fixpoint column_width (fuel maxWidth : nat) (s : text) : option nat :=
  match fuel with
  | 0 => None
  | S fuel' =>
      match s with
      | [] => Some maxWidth
      | _ :: _ =>
          let width := getLineWidth s in
          let maxWidth := if maxWidth <? width then width else maxWidth in
          let s := skipn width s in
          column_width fuel' maxWidth (match s with c :: s' => if newline c then s' else s | [] => s end)
      end
  end.
(** ColumnPrinter.cpp:116-123, the loop that prints a cell: what is printed and what is left *)
Fixpoint print_cell (s : text) : text * text :=
  match s with
  | c :: s' => if newline c then ([], s') else let (out, rest) := print_cell s' in (c :: out, rest)
  | [] => ([], [])
  end.
(** ColumnPrinter.cpp:106-129, the loop over the columns for a row; with each column its width and what is left of its text *)
Fixpoint print_row (cols : list (column * nat * text)) : text * list (column * nat * text) :=
  match cols with
  | [] => ([], [])
  | (col, width, s) :: cols' =>
      let spaces := printSpaces (width - getLineWidth s) in
      let (cell, s) := print_cell s in
      let (out, cols') := print_row cols' in
      (col_prefix col ++ (if flushLeft col then [] else spaces) ++ cell ++ (if flushLeft col then spaces else []) ++ col_suffix col ++ out, (col, width, s) :: cols')
  end.
(** ColumnPrinter.cpp:92-131, the loop over the rows *)
Fixpoint print_rows (fuel : nat) (prefix : text) (cols : list (column * nat * text)) : option text :=
  match fuel with
  | 0 => None
  | S fuel' =>
      if forallb (fun c => match snd c with [] => true | _ => false end) cols then Some []
      else let (row, cols) := print_row cols in
           match print_rows fuel' prefix cols with Some out => Some (prefix ++ row ++ nl :: out) | None => None end
  end.
(** ColumnPrinter.cpp:70-132 print *)
Fixpoint with_widths (cols : list column) : option (list (column * nat * text)) :=
  match cols with
  | [] => Some []
  | col :: cols' =>
      match column_width (S (length (col_text col))) 0 (col_text col), with_widths cols' with
      | Some w, Some l => Some ((col, w, col_text col) :: l)
      | _, _ => None
      end
  end.
Definition print_columns (prefix : text) (cols : list column) : option text :=
  match with_widths cols with
  | Some l => print_rows (S (length (concat (map col_text cols)))) prefix l
  | None => None
  end.
