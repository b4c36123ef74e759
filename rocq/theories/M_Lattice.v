(** Model of fourti2.cpp, fplllIO.cpp, lattice.cpp and of the actions latformat and frobgrob. *)
From Coq Require Import String Ascii.
From Coq Require Import List Arith Bool ZArith.
Import ListNotations.
From Verif Require Import M_Term M_Ideal M_Slice M_Msm M_Api M_Names M_IO M_Actions M_Opt M_Cli M_Cli2 M_Frob.
Local Open Scope list_scope.
Local Notation length := List.length.

(** ** Lattices *)
(** A lattice basis is a BigIdeal, which has the names of the variables as well: their number and the rows *)
Definition basis : Type := nat * list (list Z).

(** fourti2.cpp:75-76, the loop over the entries of a row in readLatticeBasis *)
Fixpoint readRow (columns : nat) (s : text) : res (list Z * text) :=
  match columns with
  | 0 => Ok ([], s)
  | S columns' => LET (z, s) := readInteger s IN LET (row, s) := readRow columns' s IN Ok (z :: row, s)
  end.
(** fourti2.cpp:73-77, the loop over the rows. Simplification: the indices of type unsigned int do not overflow. *)
Fixpoint readRows (rows columns : nat) (s : text) : res (list (list Z) * text) :=
  match rows with
  | 0 => Ok ([], s)
  | S rows' => LET (row, s) := readRow columns s IN LET (more, s) := readRows rows' columns s IN Ok (row :: more, s)
  end.
(** fourti2.cpp:63-78 readLatticeBasis *)
Definition fourti2_readLattice (max : Z) (s : text) : res (basis * text) :=
  LET (rows, s) := readSizeT max s IN
  LET (columns, s) := readSizeT max s IN
  LET (b, s) := readRows rows columns s IN
  Ok ((columns, b), s).
(** fourti2.cpp:85-89 and fplllIO.cpp:66-70, the loops over the entries of a row when writing *)
Fixpoint row_text (prefix : text) (row : list Z) : text :=
  match row with
  | [] => []
  | z :: row' => prefix ++ z_str z ++ row_text (lit " ") row'
  end.
(** fourti2.cpp:80-92 writeLatticeBasis *)
Definition fourti2_writeLattice (b : basis) : text :=
  nat_str (length (snd b)) ++ lit " " ++ nat_str (fst b) ++ [nl] ++ concat (map (fun row => row_text [] row ++ [nl]) (snd b)).

(** fplllIO.cpp:33-37, the loop that reads the rest of a row; [fuel] is more than the number of characters *)
Fixpoint fplll_readRow (fuel : nat) (s : text) : res (list Z * text) :=
  match fuel with
  | 0 => OutOfFuel
  | S fuel' =>
      match match_char "]" s with
      | (true, s) => Ok ([], s)
      | (false, s) => LET (z, s) := readInteger s IN LET (row, s) := fplll_readRow fuel' s IN Ok (z :: row, s)
      end
  end.
(** fplllIO.cpp:30-50, the loop over the rows; [tmp] has the rows so far *)
Fixpoint fplll_readRows (fuel : nat) (tmp : list (list Z)) (s : text) : res (list (list Z) * text) :=
  match fuel with
  | 0 => OutOfFuel
  | S fuel' =>
      match match_char "]" s with
      | (true, s) => Ok (tmp, s)
      | (false, s) =>
          LET s := expect_char "[" s IN
          LET (row, s) := fplll_readRow fuel' s IN
          let tmp := tmp ++ [row] in
          if length (nth 0 tmp []) =? length row then fplll_readRows fuel' tmp s else SyntaxError
      end
  end.
(** fplllIO.cpp:26-60 readLatticeBasis *)
Definition fplll_readLattice (s : text) : res (basis * text) :=
  LET s := expect_char "[" s IN
  LET (tmp, s) := fplll_readRows (S (length s)) [] s IN
  Ok ((match tmp with [] => 0 | row :: _ => length row end, tmp), s).
(** fplllIO.cpp:62-74 writeLatticeBasis *)
Definition fplll_writeLattice (b : basis) : text :=
  lit "[" ++ [nl] ++ concat (map (fun row => lit " [" ++ row_text [] row ++ lit "]" ++ [nl]) (snd b)) ++ lit "]" ++ [nl].

(** lattice.cpp:22-31 addMultiple; the two rows are different *)
Definition addMultiple (b : list (list Z)) (add addTo : nat) (mult : Z) : list (list Z) :=
  if (mult =? 0)%Z then b
  else map (fun i => if i =? addTo
                     then map (fun k => (nth k (nth addTo b []) 0 + nth k (nth add b []) 0 * mult)%Z) (seq 0 (length (nth 0 b [])))
                     else nth i b []) (seq 0 (length b)).
(** lattice.cpp:48-52, the loop over j *)
Definition clear_column (b : list (list Z)) (i col : nat) (sign : Z) : list (list Z) :=
  fold_left (fun b j => if j =? i then b else addMultiple b i j (-1 * sign * nth col (nth j b []) 0)%Z) (seq 0 (length b)) b.
(** lattice.cpp:39-55, the loop over i for a column *)
Fixpoint zero_column (rows : list nat) (b : list (list Z)) (col : nat) : list (list Z) :=
  match rows with
  | [] => b
  | i :: rows' =>
      let e := nth col (nth i b []) 0%Z in
      if (e =? 1)%Z then clear_column b i col 1
      else if (e =? -1)%Z then clear_column b i col (-1)
      else zero_column rows' b col
  end.
(** lattice.cpp:33-57 makeZeroesInLatticeBasis. [Undefined]: without rows basis[0] does not exist, and without columns columnCount - 1 is the
    largest unsigned int, which is not the index of a column. *)
Definition makeZeroes (b : list (list Z)) : res (list (list Z)) :=
  match b with
  | [] => Undefined
  | row :: _ =>
      match row with
      | [] => Undefined
      | _ :: _ => Ok (fold_left (fun b col => zero_column (seq 0 (length b)) b col) (rev (seq 1 (length row - 1))) b)
      end
  end.

(** IOFacade.cpp:318-326 isValidLatticeFormat: the two formats *)
Inductive lattice_format := L4ti2 | Lfplll.
Definition lattice_format_named (name : str) : res lattice_format :=
  if str_dec name (lit "4ti2") then Ok L4ti2 else if str_dec name (lit "fplll") then Ok Lfplll else OtherError.
(** IOFacade.cpp:328-341 readLattice *)
Definition readLattice (max : Z) (f : lattice_format) (s : text) : res (basis * text) :=
  match f with L4ti2 => fourti2_readLattice max s | Lfplll => fplll_readLattice s end.
(** IOFacade.cpp:343-356 writeLattice *)
Definition writeLattice (f : lattice_format) (b : basis) : text :=
  match f with L4ti2 => fourti2_writeLattice b | Lfplll => fplll_writeLattice b end.
(** LatticeFormatAction.cpp:61-86 perform, with the values of the options -iformat, -oformat and -zero *)
Definition latformat_print (max : Z) (iformat oformat : str) (zero : bool) (file : text) : res text :=
  let oformat := if str_dec oformat (lit "input") then iformat else oformat in
  LET i := lattice_format_named iformat IN
  LET o := lattice_format_named oformat IN
  LET (b, s) := readLattice max i (" "%char :: file) IN
  LET _ := expectEOF s IN
  LET rows := (if zero then makeZeroes (snd b) else Ok (snd b)) IN
  Ok (writeLattice o (fst b, rows)).

(** ** frobgrob *)
(** fourti2.cpp:37-41, the loop over the variables in readTerm *)
Fixpoint readEntries (vars : nat) (s : text) : res (list Z * text) :=
  match vars with
  | 0 => Ok ([], s)
  | S vars' =>
      LET (tmp, s) := readIntegerAndNegativeAsZero s IN
      LET (t, s) := readEntries vars' s IN
      Ok ((if (0 <? tmp)%Z then tmp else 0%Z) :: t, s)
  end.
(** fourti2.cpp:26-42 readTerm *)
Definition grobner_readTerm (vars : nat) (s : text) : res (list Z * text) :=
  LET (tmp, s) := readIntegerAndNegativeAsZero s IN
  if (0 <? tmp)%Z then OtherError else readEntries vars s.
(** fourti2.cpp:59-60, the loop over the terms *)
Fixpoint grobner_readTerms (terms vars : nat) (s : text) : res (list (list Z) * text) :=
  match terms with
  | 0 => Ok ([], s)
  | S terms' => LET (t, s) := grobner_readTerm vars s IN LET (ts, s) := grobner_readTerms terms' vars s IN Ok (t :: ts, s)
  end.
(** fourti2.cpp:44-61 readGrobnerBasis: the names and the generators *)
Definition readGrobnerBasis (max : Z) (s : text) : res (list str * list (list Z) * text) :=
  LET (termCount, s) := readSizeT max s IN
  LET (varCount, s) := readSizeT max s IN
  match varCount with
  | 0 => OtherError
  | S vars => LET (ts, s) := grobner_readTerms termCount vars s IN Ok (defaultNames vars, ts, s)
  end.
(** IOFacade.cpp:275-302 readFrobeniusInstanceWithGrobnerBasis, then expectEOF, FrobeniusAction.cpp:73-75 *)
Definition read_frobgrob (max : Z) (file : text) : res (list str * list (list Z) * list Z) :=
  LET (J, s) := readGrobnerBasis max (" "%char :: file) IN
  LET (instance, s) := readFrobeniusInstance s IN
  if length instance =? length (fst J) + 1 then LET _ := expectEOF s IN Ok (J, instance) else SyntaxError.

(** BigTermRecorder.cpp:38-55 and 74-79: the generators of the first ideal, of what a TranslatingTermConsumer passes on. [done]: the
    generators so far, if it has begun. *)
Fixpoint recorded (events : list w_event) (done : option (list (list Z))) : option (list (list Z)) :=
  match events with
  | [] => done
  | WBegin :: events' => recorded events' (match done with None => Some [] | Some _ => done end)
  | WTTerm tr t :: events' =>
      match done, translate (length tr) tr t with
      | Some ts, Some v => recorded events' (Some (ts ++ [v]))
      | _, _ => None
      end
  | WTerm t :: events' => match done with Some ts => recorded events' (Some (ts ++ [t])) | None => None end
  | WDone :: _ => done
  | _ :: events' => recorded events' done
  end.

(** FrobeniusAction.cpp:45-58, SliceParameters.cpp:25-105: the options *)
Record frobgrob_options := FG { fg_max : Z; fg_minimal : bool; fg_canon : bool; fg_params : oparams; fg_vector : bool }.
(** FrobeniusAction.cpp:91-93, the loop that computes the number *)
Fixpoint combination (v degrees : list Z) : Z :=
  match v, degrees with
  | x :: v', d :: degrees' => (x * d + combination v' degrees')%Z
  | _, _ => 0%Z
  end.
(** FrobeniusAction.cpp:95-100 *)
Definition solution_text (v : list Z) : text := lit "(-1" ++ concat (map (fun z => lit ", " ++ z_str z) v) ++ lit ")" ++ [nl].
(** FrobeniusAction.cpp:60-103 perform. [Undefined]: there is no solution, and the first generator of the solution is looked up. *)
Definition frobgrob_print (o : frobgrob_options) (rnd : nat -> nat) (file : text) : res text :=
  LET (J, instance) := read_frobgrob (fg_max o) file IN
  match bind (cli_setIdeal (fg_minimal o) (fg_canon o) (fst J) (snd (to_nideal J))) (fun '(names, co) =>
        told_optimum true (fg_params o) rnd names co (skipn 1 instance) false) with
  | None => Undefined
  | Some (tr, es, _) =>
      match bind (bind (if fg_canon o then cc_run tr cc_new es else Some es) (mapO (translating tr))) (fun ws => recorded ws None) with
      | Some (v :: _) =>
          Ok ((if fg_vector o then solution_text v else []) ++ number_line (- nth 0 instance 0 + combination v (skipn 1 instance))%Z)
      | _ => Undefined
      end
  end.
