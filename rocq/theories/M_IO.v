(** Model of Scanner.cpp/.h, InputConsumer.cpp, the IO handlers of all formats and their writers, and IOFacade.cpp. *)
From Coq Require Import String Ascii.
From Coq Require Import List Arith Bool ZArith.
Import ListNotations.
From Verif Require Import M_Term M_Api M_Names.

(** ** Results *)
(** SyntaxError: reportSyntaxError; OtherError: reportError; InvalidArgument: the std::invalid_argument that gmpxx throws for a
    string that is not a number; OutOfFuel is excluded by C53; Undefined: an assertion that is switched off in a release build
    would fail, or an index is out of range. *)
Inductive res (A : Type) := Ok (a : A) | SyntaxError | OtherError | InvalidArgument | OutOfFuel | Undefined.
Arguments Ok {A} a. Arguments SyntaxError {A}. Arguments OtherError {A}. Arguments InvalidArgument {A}. Arguments OutOfFuel {A}. Arguments Undefined {A}.
Definition rbind {A B} (r : res A) (f : A -> res B) : res B :=
  match r with
  | Ok a => f a | SyntaxError => SyntaxError | OtherError => OtherError | InvalidArgument => InvalidArgument
  | OutOfFuel => OutOfFuel | Undefined => Undefined
  end.
Notation "'LET' p := r 'IN' b" := (rbind r (fun p => b)) (at level 200, p pattern, r at level 100, b at level 200, right associativity).

(** ** Characters, in the C locale; only bytes below 128 are claimed about *)
Notation text := (list ascii).
Notation code := nat_of_ascii.
Definition within (a b : nat) (c : ascii) : bool := (a <=? code c) && (code c <=? b).
Definition isspace (c : ascii) : bool := within 9 13 c || (code c =? 32).
Definition isdigit (c : ascii) : bool := within 48 57 c.
Definition isalpha (c : ascii) : bool := within 65 90 c || within 97 122 c.
Definition isalnum (c : ascii) : bool := isalpha c || isdigit c.
Definition lit (s : string) : text := list_ascii_of_string s.
Definition nl : ascii := "010"%char.

(** ** Scanner *)
(** The state is the next character _char followed by what has not been read; it is empty if _char is EOF.  It starts as a space
    followed by the file (Scanner.cpp:31).  Line numbers, which are only used in messages, are not modelled.  The buffer is
    modelled below. *)
(** Scanner.h:267-270 eatWhite *)
Fixpoint eat (s : text) : text :=
  match s with
  | [] => []
  | c :: s' => if isspace c then eat s' else s
  end.
(** Scanner.h:215-222 match *)
Definition match_char (c : ascii) (s : text) : bool * text :=
  match eat s with
  | [] => (false, [])
  | x :: s' => if ascii_dec c x then (true, s') else (false, x :: s')
  end.
(** Scanner.h:231-236 expect *)
Definition expect_char (c : ascii) (s : text) : res text :=
  match eat s with
  | [] => SyntaxError
  | x :: s' => if ascii_dec x c then Ok s' else SyntaxError
  end.
(** Scanner.cpp:46-75 expect of a string; white space is skipped before it only *)
Fixpoint expect_rest (str s : text) : res text :=
  match str, s with
  | [], _ => Ok s
  | c :: str', x :: s' => if ascii_dec c x then expect_rest str' s' else SyntaxError
  | _ :: _, [] => SyntaxError
  end.
Definition expect_str (str s : text) : res text := expect_rest str (eat s).
(** Scanner.h:210-213 matchEOF; IOHandlerImpl.cpp:96-98 hasMoreInput *)
Definition hasMoreInput (s : text) : bool * text := match eat s with [] => (false, []) | s' => (true, s') end.
(** Scanner.cpp:77-85 expectEOF; the null format is not modelled *)
Definition expectEOF (s : text) : res unit := match eat s with [] => Ok tt | _ => SyntaxError end.
(** Scanner.h:257-260 peekIdentifier, 262-265 peek *)
Definition peekIdentifier (s : text) : bool * text :=
  match eat s with [] => (false, []) | c :: s' => (isalpha c, c :: s') end.
Definition peek_char (c : ascii) (s : text) : bool * text :=
  match eat s with [] => (false, []) | x :: s' => (if ascii_dec x c then true else false, x :: s') end.
Fixpoint span (f : ascii -> bool) (s : text) : text * text :=
  match s with
  | [] => ([], [])
  | c :: s' => if f c then (c :: fst (span f s'), snd (span f s')) else ([], s)
  end.
Definition isident (c : ascii) : bool := isalnum c || (code c =? 95).
(** Scanner.cpp:255-272 and Scanner.h:191-199 readIdentifier *)
Definition readIdentifier (s : text) : res (str * text) :=
  match eat s with
  | [] => SyntaxError
  | c :: s' => if isalpha c then Ok (span isident (c :: s')) else SyntaxError
  end.
(** Scanner.cpp:101-125 readIntegerString: the sign and the digits *)
Definition readIntegerString (s : text) : res (ascii * str * text) :=
  let '(sign, s) := match eat s with
                    | [] => ("+"%char, [])
                    | c :: s' => if ascii_dec c "-" then (c, s') else if ascii_dec c "+" then (c, s') else ("+"%char, c :: s')
                    end in
  match span isdigit s with
  | ([], _) => SyntaxError
  | (ds, s') => Ok (sign, ds, s')
  end.
(** Scanner.cpp:127-148 readIntegerStringNoSign *)
Definition readIntegerStringNoSign (s : text) : res (str * text) :=
  match eat s with
  | [] => SyntaxError
  | c :: s' =>
      if ascii_dec c "-" then SyntaxError else if ascii_dec c "+" then SyntaxError
      else match span isdigit (c :: s') with
           | ([], _) => SyntaxError
           | (ds, s'') => Ok (ds, s'')
           end
  end.
Definition digit_value (c : ascii) : Z := Z.of_nat (code c - 48).
(** mpz_set_str in a base of at most 10, for a string of digits.  [None]: it fails. *)
Fixpoint mpz_acc (base acc : Z) (ds : str) : option Z :=
  match ds with
  | [] => Some acc
  | c :: ds' => if (digit_value c <? base)%Z then mpz_acc base (base * acc + digit_value c) ds' else None
  end.
(** Scanner.cpp:150-169 parseInteger; [size] there counts the sign.  The slow path ignores a failure of mpz_set_str. *)
Definition parseInteger (sign : ascii) (ds : str) : Z :=
  let minus := if ascii_dec sign "-" then true else false in
  if S (List.length ds) <? 10 then
    let l := fold_left (fun l c => 10 * l + digit_value c)%Z ds 0%Z in if minus then (- l)%Z else l
  else match mpz_acc 10 0 ds with
       | None => 0%Z
       | Some z => if minus then (- z)%Z else z
       end.
(** Scanner.h:238-241 readInteger *)
Definition readInteger (s : text) : res (Z * text) :=
  LET (sign, ds, s) := readIntegerString s IN Ok (parseInteger sign ds, s).
(** The assignment of a C string to an mpz_class: mpz_set_str in base 0, where a leading 0 means octal, and an exception if it
    fails. *)
Definition mpz_assign (ds : str) : res Z :=
  match (match ds with c :: ds' => if ascii_dec c "0" then mpz_acc 8 0 ds' else mpz_acc 10 0 ds | [] => None end) with
  | Some z => Ok z
  | None => InvalidArgument
  end.
(** Scanner.h:247-250 readIntegerNoSign *)
Definition readIntegerNoSign (s : text) : res (Z * text) :=
  LET (ds, s) := readIntegerStringNoSign s IN LET z := mpz_assign ds IN Ok (z, s).
(** Scanner.cpp:171-186 readIntegerAndNegativeAsZero; the first peek does not skip white space *)
Definition readIntegerAndNegativeAsZero (s : text) : res (Z * text) :=
  let general s := LET (sign, ds, s) := readIntegerString s IN
                   Ok (if ascii_dec sign "-" then 0%Z else parseInteger sign ds, s) in
  match s with
  | c :: s' =>
      if ascii_dec c "0" then
        match s' with
        | d :: _ => if isdigit d then general s' else Ok (0%Z, s')
        | [] => Ok (0%Z, s')
        end
      else general s
  | [] => general s
  end.

(** ** The buffer *)
(** Scanner.h:272-283 getChar and Scanner.cpp:304-316 readBuffer for a file whose reads are full until its end: [buf] is what is
    left of the buffer, [file] what has not been read from the file, [cap] the capacity, [full] that the last read filled the
    buffer (or nothing was read yet), so that the end of the file has not been noticed.  The result is the new next character. *)
Record buffer := Buf { b_buf : text; b_file : text; b_full : bool }.
Definition readBuffer (cap : nat) (b : buffer) : option ascii * buffer :=
  if negb (b_full b) then (None, b)
  else let chunk := firstn cap (b_file b) in
       let b' := Buf chunk (skipn cap (b_file b)) (List.length chunk =? cap) in
       match chunk with
       | [] => (None, b')
       | c :: rest => (Some c, Buf rest (b_file b') (b_full b'))
       end.
Definition nextChar (cap : nat) (b : buffer) : option ascii * buffer :=
  match b_buf b with
  | [] => readBuffer cap b
  | c :: rest => (Some c, Buf rest (b_file b) (b_full b))
  end.
(** The next characters of k calls of getChar *)
Fixpoint nextChars (cap k : nat) (b : buffer) : list (option ascii) :=
  match k with
  | O => []
  | S k' => let (c, b') := nextChar cap b in c :: nextChars cap k' b'
  end.

Section Limits.
(** The largest size_t, which is also the largest unsigned long *)
Context (max_ulong : Z).
(** Scanner.cpp:205-241 readSizeT *)
Definition readSizeT (s : text) : res (nat * text) :=
  LET (z, s) := readInteger s IN
  if ((0 <=? z) && (z <=? max_ulong))%Z then Ok (Z.to_nat z, s) else SyntaxError.

(** ** InputConsumer *)
(** The ideal that is being read, newest generator first.  A square free term is the set of its variables (C32 shows that the
    packed words behave so). *)
Inductive in_ideal := Sqf (terms : list (list bool)) | Big (terms : list (list Z)).
(** InputConsumer.h:105-114.  Names are a list (C40 shows that a VarNames behaves so); _cur is None if not _inIdeal. *)
Record consumer := IC { ic_names : list str; ic_cur : option (list str * in_ideal); ic_require : bool; ic_ideals : list (list str * in_ideal) }.
(** InputConsumer.cpp:27-31 *)
Definition ic_new : consumer := IC [] None false [].
(** InputConsumer.cpp:33-43 consumeRing *)
Definition consumeRing (names : list str) (ic : consumer) : res consumer :=
  match ic_cur ic with
  | None => Ok (IC names None (ic_require ic) (ic_ideals ic))
  | Some (old, J) =>
      if List.length names =? List.length old then Ok (IC names (Some (names, J)) (ic_require ic) (ic_ideals ic)) else Undefined
  end.
(** InputConsumer.cpp:45-48 requireSquareFree *)
Definition requireSquareFree (ic : consumer) : consumer := IC (ic_names ic) (ic_cur ic) true (ic_ideals ic).
(** InputConsumer.cpp:50-55 beginIdeal *)
Definition beginIdeal (ic : consumer) : res consumer :=
  match ic_cur ic with
  | None => Ok (IC (ic_names ic) (Some (ic_names ic, Sqf [])) (ic_require ic) (ic_ideals ic))
  | Some _ => Undefined
  end.
(** InputConsumer.cpp:62-74 beginTerm *)
Definition beginTerm (ic : consumer) : res consumer :=
  match ic_cur ic with
  | None => Undefined
  | Some (names, J) =>
      let J' := match J with
                | Sqf terms => Sqf (map (fun _ => false) names :: terms)
                | Big terms => Big (map (fun _ => 0%Z) names :: terms)
                end in
      Ok (IC (ic_names ic) (Some (names, J')) (ic_require ic) (ic_ideals ic))
  end.
(** VarNames::getIndex, with None for invalidIndex *)
Fixpoint var_index (name : str) (names : list str) : option nat :=
  match names with
  | [] => None
  | x :: names' => if str_dec x name then Some O else match var_index name names' with None => None | Some i => Some (S i) end
  end.
(** InputConsumer.cpp:76-88 consumeVarNumber *)
Definition consumeVarNumber (ic : consumer) (s : text) : res (nat * text) :=
  LET (var, s) := readSizeT s IN
  if (var =? 0) || (List.length (ic_names ic) <? var) then SyntaxError else Ok (var - 1, s).
(** InputConsumer.cpp:90-100 consumeVar *)
Definition consumeVar (ic : consumer) (s : text) : res (nat * text) :=
  LET (name, s) := readIdentifier s IN
  match var_index name (ic_names ic) with None => SyntaxError | Some var => Ok (var, s) end.
(** BigIdeal.cpp:83-92 insert(const SquareFreeIdeal&); InputConsumer.cpp:247-254 toBigIdeal *)
Definition to_big (J : in_ideal) : list (list Z) :=
  match J with
  | Sqf terms => map (map (fun b : bool => if b then 1%Z else 0%Z)) terms
  | Big terms => terms
  end.
Definition ic_set (ic : consumer) (names : list str) (J : in_ideal) : consumer :=
  IC (ic_names ic) (Some (names, J)) (ic_require ic) (ic_ideals ic).
(** InputConsumer.cpp:102-120 consumeVarExponentOne *)
Definition consumeVarExponentOne (var : nat) (ic : consumer) : res consumer :=
  match ic_cur ic with
  | Some (names, Sqf (t :: terms)) =>
      match nth_error t var with
      | None => Undefined
      | Some true => SyntaxError
      | Some false => Ok (ic_set ic names (Sqf (list_set t var true :: terms)))
      end
  | Some (names, Big (t :: terms)) =>
      match nth_error t var with
      | None => Undefined
      | Some e => if (e =? 0)%Z then Ok (ic_set ic names (Big (list_set t var 1%Z :: terms))) else SyntaxError
      end
  | _ => Undefined
  end.
(** InputConsumer.cpp:122-147 consumeVarExponent, 241-245 idealNotSquareFree *)
Definition consumeVarExponent (var : nat) (ic : consumer) (s : text) : res (consumer * text) :=
  match ic_cur ic with
  | Some (names, Sqf (t :: terms)) =>
      LET (ds, s) := readIntegerStringNoSign s IN
      match nth_error t var with
      | None => Undefined
      | Some true => SyntaxError
      | Some false =>
          if str_dec ds ["1"%char] then Ok (ic_set ic names (Sqf (list_set t var true :: terms)), s)
          else if str_dec ds ["0"%char] then Ok (ic, s)
          else if ic_require ic then OtherError
          else match to_big (Sqf (t :: terms)) with
               | t' :: terms' => LET z := mpz_assign ds IN Ok (ic_set ic names (Big (list_set t' var z :: terms')), s)
               | [] => Undefined
               end
      end
  | Some (names, Big (t :: terms)) =>
      match nth_error t var with
      | None => Undefined
      | Some e =>
          if (e =? 0)%Z then LET (z, s) := readIntegerNoSign s IN Ok (ic_set ic names (Big (list_set t var z :: terms)), s)
          else SyntaxError
      end
  | _ => Undefined
  end.
(** InputConsumer.cpp:148-162 consumeTermProductNotation; endTerm (164-189) does nothing *)
Fixpoint consumeProduct (fuel : nat) (ic : consumer) (s : text) : res (consumer * text) :=
  match fuel with
  | O => OutOfFuel
  | S fuel' =>
      LET (var, s) := consumeVar ic s IN
      LET (ic, s) := (match match_char "^" s with
                      | (true, s) => consumeVarExponent var ic s
                      | (false, s) => LET ic := consumeVarExponentOne var ic IN Ok (ic, s)
                      end) IN
      match match_char "*" s with
      | (true, s) => consumeProduct fuel' ic s
      | (false, s) => Ok (ic, s)
      end
  end.
Definition consumeTermProductNotation (ic : consumer) (s : text) : res (consumer * text) :=
  LET ic := beginTerm ic IN
  match match_char "1" s with
  | (true, s) => Ok (ic, s)
  | (false, s) => consumeProduct (S (List.length s)) ic s
  end.
(** InputConsumer.cpp:191-198 endIdeal; the ideals are stored newest first here *)
Definition endIdeal (ic : consumer) : res consumer :=
  match ic_cur ic with
  | None => Undefined
  | Some J => Ok (IC (ic_names ic) None (ic_require ic) (J :: ic_ideals ic))
  end.
(** InputConsumer.cpp:209-216 releaseBigIdeal, of all the ideals in the order they came in *)
Definition big_ideals (ic : consumer) : list (list str * list (list Z)) :=
  rev (map (fun e => (fst e, rev (to_big (snd e)))) (ic_ideals ic)).

(** ** Formats *)
(** IOHandler.cpp:132-139 the formats; null and count have no text to read *)
Inductive format := M2 | CoCoA4 | Singular | Monos | NewMonos | Fourti2.

(** VarNames.cpp:68-73 addVarSyntaxCheckUnique *)
Definition addVarUnique (names : list str) (name : str) : res (list str) :=
  if in_dec str_dec name names then SyntaxError else Ok (names ++ [name]).
(** do addVarSyntaxCheckUnique(readIdentifier()) while match(','): Macaulay2IOHandler.cpp:201-203, MonosIOHandler.cpp:99-101,
    SingularIOHandler.cpp:155-157 *)
Fixpoint readNames (fuel : nat) (names : list str) (s : text) : res (list str * text) :=
  match fuel with
  | O => OutOfFuel
  | S fuel' =>
      LET (name, s) := readIdentifier s IN
      LET names := addVarUnique names name IN
      match match_char "," s with
      | (true, s) => readNames fuel' names s
      | (false, s) => Ok (names, s)
      end
  end.
(** do consumeTermProductNotation while match(','); with the optional _ring of Macaulay 2.
    Macaulay2IOHandler.cpp:229-233, MonosIOHandler.cpp:115-117, SingularIOHandler.cpp:224-226, CoCoA4IOHandler.cpp:239-241 *)
Fixpoint readTerms (readTerm : consumer -> text -> res (consumer * text)) (fuel : nat) (ic : consumer) (s : text) : res (consumer * text) :=
  match fuel with
  | O => OutOfFuel
  | S fuel' =>
      LET (ic, s) := readTerm ic s IN
      match match_char "," s with
      | (true, s) => readTerms readTerm fuel' ic s
      | (false, s) => Ok (ic, s)
      end
  end.

(** Macaulay2IOHandler.cpp:163-167 doReadTerm *)
Definition m2_readTerm (ic : consumer) (s : text) : res (consumer * text) :=
  LET (ic, s) := consumeTermProductNotation ic s IN
  match match_char "_" s with
  | (true, s) => LET (_, s) := readIdentifier s IN Ok (ic, s)
  | (false, s) => Ok (ic, s)
  end.
(** Macaulay2IOHandler.cpp:169-210 doReadRing *)
Definition m2_readRing (s : text) : res (list str * text) :=
  LET (ring, s) := readIdentifier s IN
  if match ring with c :: _ => if ascii_dec c "R" then true else false | [] => false end then
    LET s := expect_char "=" s IN
    LET s := (match peek_char "Z" s with
              | (true, s) => expect_str (lit "ZZ") s
              | (false, s) => expect_str (lit "QQ") s
              end) IN
    LET s := expect_char "[" s IN
    let '(brace, s) := match_char "{" s in
    LET (names, s) := (match peekIdentifier s with
                       | (true, s) => readNames (S (List.length s)) [] s
                       | (false, s) => Ok ([], s)
                       end) IN
    LET s := (if brace then expect_char "}" s else Ok s) IN
    LET s := expect_char "]" s IN
    LET s := expect_char ";" s IN
    Ok (names, s)
  else SyntaxError.
(** Macaulay2IOHandler.cpp:212-214 doPeekRing *)
Definition peek_two (a b : ascii) (s : text) : bool * text :=
  match peek_char a s with (true, s) => (true, s) | (false, s) => peek_char b s end.
(** Macaulay2IOHandler.cpp:216-238 doReadBareIdeal *)
Definition m2_readBareIdeal (ic : consumer) (s : text) : res (consumer * text) :=
  LET ic := beginIdeal ic IN
  LET s := expect_char "I" s IN
  LET s := expect_char "=" s IN
  LET s := expect_str (lit "monomialIdeal") s IN
  LET s := expect_char "(" s IN
  LET (ic, s) := (match match_char "0" s with
                  | (true, s) => match match_char "_" s with
                                 | (true, s) => LET (_, s) := readIdentifier s IN Ok (ic, s)
                                 | (false, s) => Ok (ic, s)
                                 end
                  | (false, s) => readTerms m2_readTerm (S (List.length s)) ic s
                  end) IN
  LET s := expect_char ")" s IN
  LET s := expect_char ";" s IN
  LET ic := endIdeal ic IN
  Ok (ic, s).

(** MonosIOHandler.cpp:95-104 readRing *)
Definition monos_readRing (s : text) : res (list str * text) :=
  LET s := expect_str (lit "vars") s IN
  match match_char ";" s with
  | (true, s) => Ok ([], s)
  | (false, s) =>
      LET (names, s) := readNames (S (List.length s)) [] s IN
      LET s := expect_char ";" s IN Ok (names, s)
  end.
(** MonosIOHandler.cpp:110-128 readBareIdeal *)
Definition monos_readBareIdeal (ic : consumer) (s : text) : res (consumer * text) :=
  LET ic := beginIdeal ic IN
  LET s := expect_char "[" s IN
  LET (ic, s) := (match match_char "]" s with
                  | (true, s) => Ok (ic, s)
                  | (false, s) =>
                      LET (ic, s) := readTerms consumeTermProductNotation (S (List.length s)) ic s IN
                      match match_char "]" s with
                      | (true, s) => Ok (ic, s)
                      | (false, s) =>
                          match peekIdentifier s with
                          | (true, s) => LET s := expect_char "*" s IN Ok (ic, s)
                          | (false, s) => LET s := expect_char "]" s IN Ok (ic, s)
                          end
                      end
                  end) IN
  LET s := expect_char ";" s IN
  LET ic := endIdeal ic IN
  Ok (ic, s).

(** SingularIOHandler.cpp:145-189 readRing *)
Definition singular_readRing (s : text) : res (list str * text) :=
  LET s := expect_str (lit "ring") s IN
  LET s := expect_char "R" s IN
  LET s := expect_char "=" s IN
  LET s := expect_char "0" s IN
  LET s := expect_char "," s IN
  LET s := expect_char "(" s IN
  LET (names, s) := readNames (S (List.length s)) [] s IN
  LET s := expect_char ")" s IN
  LET s := expect_char "," s IN
  LET s := expect_str (lit "lp") s IN
  LET s := expect_char ";" s IN
  LET s := expect_str (lit "int") s IN
  LET s := expect_str (lit "noVars") s IN
  LET s := expect_str (lit "=") s IN
  LET (names, s) := (match match_char "1" s with
                     | (true, s) =>
                         match names with
                         | [name] => if str_dec name (lit "dummy") then Ok ([], s) else SyntaxError
                         | _ => SyntaxError
                         end
                     | (false, s) => match match_char "0" s with (true, s) => Ok (names, s) | (false, _) => SyntaxError end
                     end) IN
  LET s := expect_char ";" s IN
  Ok (names, s).
(** SingularIOHandler.cpp:215-231 readBareIdeal *)
Definition singular_readBareIdeal (ic : consumer) (s : text) : res (consumer * text) :=
  LET ic := beginIdeal ic IN
  LET s := expect_str (lit "ideal") s IN
  LET s := expect_char "I" s IN
  LET s := expect_char "=" s IN
  LET (ic, s) := (match match_char "0" s with
                  | (true, s) => Ok (ic, s)
                  | (false, s) => readTerms consumeTermProductNotation (S (List.length s)) ic s
                  end) IN
  LET s := expect_char ";" s IN
  LET ic := endIdeal ic IN
  Ok (ic, s).

(** CoCoA4IOHandler.cpp:206-219 the loop over the names in readRing; [k] more *)
Definition peekWhite (s : text) : bool := match s with c :: _ => isspace c | [] => false end.
Fixpoint cocoa_readNames (k : nat) (names : list str) (s : text) : res (list str * text) :=
  match k with
  | O => Ok (names, s)
  | S k' =>
      LET s := expect_char """" s IN
      if peekWhite s then SyntaxError else
      LET (name, s) := readIdentifier s IN
      LET names := addVarUnique names name IN
      if peekWhite s then SyntaxError else
      LET s := expect_char """" s IN
      LET s := (if 0 <? k' then expect_char "," s else Ok s) IN
      cocoa_readNames k' names s
  end.
(** CoCoA4IOHandler.cpp:182-223 readRing *)
Definition cocoa_readRing (s : text) : res (list str * text) :=
  LET s := expect_str (lit "Use") s IN
  LET s := expect_char "R" s IN
  LET s := expect_str (lit "::=") s IN
  LET s := expect_char "Q" s IN
  LET s := expect_char "[" s IN
  LET s := expect_char "x" s IN
  LET (n, s) := (match match_char "[" s with
                 | (true, s) =>
                     LET s := expect_char "1" s IN
                     LET s := expect_str (lit "..") s IN
                     LET (n, s) := readSizeT s IN
                     LET s := expect_char "]" s IN Ok (n, s)
                 | (false, s) => Ok (O, s)
                 end) IN
  LET s := expect_char "]" s IN
  LET s := expect_char ";" s IN
  LET s := expect_str (lit "Names") s IN
  LET s := expect_str (lit ":=") s IN
  LET s := expect_char "[" s IN
  LET (names, s) := cocoa_readNames n [] s IN
  LET s := expect_char "]" s IN
  LET s := expect_char ";" s IN
  Ok (names, s).
(** CoCoA4IOHandler.cpp:391-400 readVarPower, 345-354 readTerm *)
Fixpoint cocoa_readPowers (fuel : nat) (ic : consumer) (s : text) : res (consumer * text) :=
  match fuel with
  | O => OutOfFuel
  | S fuel' =>
      LET s := expect_char "x" s IN
      LET s := expect_char "[" s IN
      LET (var, s) := consumeVarNumber ic s IN
      LET s := expect_char "]" s IN
      LET (ic, s) := (match match_char "^" s with
                      | (true, s) => consumeVarExponent var ic s
                      | (false, s) => LET ic := consumeVarExponentOne var ic IN Ok (ic, s)
                      end) IN
      match peek_char "x" s with
      | (true, s) => cocoa_readPowers fuel' ic s
      | (false, s) => Ok (ic, s)
      end
  end.
Definition cocoa_readTerm (ic : consumer) (s : text) : res (consumer * text) :=
  LET ic := beginTerm ic IN
  match match_char "1" s with
  | (true, s) => Ok (ic, s)
  | (false, s) => cocoa_readPowers (S (List.length s)) ic s
  end.
(** CoCoA4IOHandler.cpp:229-247 doReadBareIdeal *)
Definition cocoa_readBareIdeal (ic : consumer) (s : text) : res (consumer * text) :=
  LET ic := beginIdeal ic IN
  LET s := expect_char "I" s IN
  LET s := expect_str (lit ":=") s IN
  LET s := expect_str (lit "Ideal") s IN
  LET s := expect_char "(" s IN
  LET (ic, s) := (match match_char ")" s with
                  | (true, s) => Ok (ic, s)
                  | (false, s) =>
                      LET (ic, s) := readTerms cocoa_readTerm (S (List.length s)) ic s IN
                      LET s := expect_char ")" s IN Ok (ic, s)
                  end) IN
  let s := snd (match_char ";" s) in
  LET ic := endIdeal ic IN
  Ok (ic, s).

(** NewMonosIOHandler.cpp:124-128 readRingNoLeftParen *)
Fixpoint newmonos_readNames (fuel : nat) (names : list str) (s : text) : res (list str * text) :=
  match fuel with
  | O => OutOfFuel
  | S fuel' =>
      match match_char ")" s with
      | (true, s) => Ok (names, s)
      | (false, s) =>
          LET (name, s) := readIdentifier s IN
          LET names := addVarUnique names name IN
          newmonos_readNames fuel' names s
      end
  end.
Definition newmonos_readRing (s : text) : res (list str * text) :=
  LET s := expect_str (lit "lex-order") s IN
  newmonos_readNames (S (List.length s)) [] s.
(** NewMonosIOHandler.cpp:130-142 readIdealNoLeftParen *)
Fixpoint newmonos_readTerms (fuel : nat) (ic : consumer) (s : text) : res (consumer * text) :=
  match fuel with
  | O => OutOfFuel
  | S fuel' =>
      match match_char ")" s with
      | (true, s) => Ok (ic, s)
      | (false, s) => LET (ic, s) := consumeTermProductNotation ic s IN newmonos_readTerms fuel' ic s
      end
  end.
Definition newmonos_readIdeal (ic : consumer) (s : text) : res (consumer * text) :=
  LET s := expect_str (lit "monomial-ideal-with-order") s IN
  LET s := expect_char "(" s IN
  LET (names, s) := newmonos_readRing s IN
  LET ic := consumeRing names ic IN
  LET ic := beginIdeal ic IN
  LET (ic, s) := newmonos_readTerms (S (List.length s)) ic s IN
  LET ic := endIdeal ic IN
  Ok (ic, s).
(** NewMonosIOHandler.cpp:101-113 readIdeals *)
Fixpoint newmonos_readMore (fuel : nat) (ic : consumer) (s : text) : res (consumer * text) :=
  match fuel with
  | O => OutOfFuel
  | S fuel' =>
      LET (ic, s) := newmonos_readIdeal ic s IN
      match match_char "(" s with
      | (true, s) => newmonos_readMore fuel' ic s
      | (false, s) => Ok (ic, s)
      end
  end.
Definition newmonos_readIdeals (ic : consumer) (s : text) : res (consumer * text) :=
  LET s := expect_char "(" s IN
  match peek_two "l" "L" s with
  | (true, s) => LET (names, s) := newmonos_readRing s IN LET ic := consumeRing names ic IN Ok (ic, s)
  | (false, s) => newmonos_readMore (S (List.length s)) ic s
  end.

(** Fourti2IOHandler.cpp:312-326 readTerm, for at least one variable; [k] more variables *)
Fixpoint fourti2_readTerm (k var : nat) (ic : consumer) (s : text) : res (consumer * text) :=
  match k with
  | O => Ok (ic, s)
  | S k' =>
      LET (ic, s) := (match match_char "-" s with
                      | (true, s) => LET (_, s) := readIntegerStringNoSign s IN Ok (ic, s)
                      | (false, s) => consumeVarExponent var ic s
                      end) IN
      fourti2_readTerm k' (S var) ic s
  end.
(** Fourti2IOHandler.cpp:382-390 the loops over the generators in readIdeal; [gens] more *)
Fixpoint fourti2_readTerms (gens vars : nat) (ic : consumer) (s : text) : res (consumer * text) :=
  match gens with
  | O => Ok (ic, s)
  | S gens' =>
      LET ic := beginTerm ic IN
      LET (ic, s) := fourti2_readTerm vars 0 ic s IN
      fourti2_readTerms gens' vars ic s
  end.
(** Fourti2IOHandler.cpp:334-338 readRing with a number of variables *)
Fixpoint fourti2_readNames (k : nat) (names : list str) (s : text) : res (list str * text) :=
  match k with
  | O => Ok (names, s)
  | S k' => LET (name, s) := readIdentifier s IN LET names := addVarUnique names name IN fourti2_readNames k' names s
  end.
(** VarNames.cpp:28-34: the default names *)
Definition defaultNames (n : nat) : list str := map (fun i => "x"%char :: nat_str (i + 1)) (seq 0 n).
(** Fourti2IOHandler.cpp:375-398 readIdeal *)
Definition fourti2_readBody (ic : consumer) (gens vars : nat) (s : text) : res (consumer * text) :=
  LET ic := consumeRing (defaultNames vars) ic IN
  LET ic := beginIdeal ic IN
  LET (ic, s) := fourti2_readTerms gens vars ic s IN
  LET (ic, s) := (match peekIdentifier s with
                  | (true, s) => LET (names, s) := fourti2_readNames vars [] s IN LET ic := consumeRing names ic IN Ok (ic, s)
                  | (false, s) => Ok (ic, s)
                  end) IN
  LET ic := endIdeal ic IN
  Ok (ic, s).
(** Fourti2IOHandler.cpp:195-203 doReadIdeal *)
Definition fourti2_readIdeal (ic : consumer) (s : text) : res (consumer * text) :=
  LET (gens, s) := readSizeT s IN
  LET (vars, s) := readSizeT s IN
  fourti2_readBody ic gens vars s.
(** Fourti2IOHandler.cpp:328-332 readRing *)
Fixpoint fourti2_readRing (fuel : nat) (names : list str) (s : text) : res (list str * text) :=
  match fuel with
  | O => OutOfFuel
  | S fuel' =>
      match peekIdentifier s with
      | (false, s) => Ok (names, s)
      | (true, s) => LET (name, s) := readIdentifier s IN LET names := addVarUnique names name IN fourti2_readRing fuel' names s
      end
  end.
(** Fourti2IOHandler.cpp:205-232 doReadIdeals *)
Fixpoint fourti2_readMore (fuel : nat) (ic : consumer) (s : text) : res (consumer * text) :=
  match fuel with
  | O => OutOfFuel
  | S fuel' =>
      match hasMoreInput s with
      | (false, s) => Ok (ic, s)
      | (true, s) => LET (ic, s) := fourti2_readIdeal ic s IN fourti2_readMore fuel' ic s
      end
  end.
Definition fourti2_readIdeals (ic : consumer) (s : text) : res (consumer * text) :=
  LET (gens, s) := readSizeT s IN
  let '(ident, s) := (if gens =? 42 then peekIdentifier s else (false, s)) in
  if ident then
    LET s := expect_str (lit "ring") s IN
    LET (names, s) := fourti2_readRing (S (List.length s)) [] s IN
    LET ic := consumeRing names ic IN
    LET _ := expectEOF s IN
    Ok (ic, [])
  else
    LET (vars, s) := readSizeT s IN
    LET (ic, s) := fourti2_readBody ic gens vars s IN
    fourti2_readMore (S (List.length s)) ic s.

(** ** IOHandlerCommon and IOHandler *)
Definition fmt_readRing (f : format) (s : text) : res (list str * text) :=
  match f with
  | M2 => m2_readRing s | Monos => monos_readRing s | Singular => singular_readRing s | CoCoA4 => cocoa_readRing s
  | NewMonos | Fourti2 => Undefined
  end.
(** Macaulay2IOHandler.cpp:212-214, MonosIOHandler.cpp:106-108, SingularIOHandler.cpp:191-193, CoCoA4IOHandler.cpp:225-227 *)
Definition fmt_peekRing (f : format) (s : text) : bool * text :=
  match f with
  | M2 => peek_two "R" "r" s | Monos => peek_char "v" s | Singular => peek_two "r" "R" s | CoCoA4 => peek_two "U" "u" s
  | NewMonos | Fourti2 => (false, s)
  end.
Definition fmt_readBareIdeal (f : format) (ic : consumer) (s : text) : res (consumer * text) :=
  match f with
  | M2 => m2_readBareIdeal ic s | Monos => monos_readBareIdeal ic s | Singular => singular_readBareIdeal ic s
  | CoCoA4 => cocoa_readBareIdeal ic s
  | NewMonos | Fourti2 => Undefined
  end.
(** IOHandlerCommon.cpp:50-55 doReadIdeal *)
Definition common_readIdeal (f : format) (ic : consumer) (s : text) : res (consumer * text) :=
  LET (names, s) := fmt_readRing f s IN
  LET ic := consumeRing names ic IN
  fmt_readBareIdeal f ic s.
(** IOHandlerCommon.cpp:57-72 doReadIdeals *)
Fixpoint common_readMore (f : format) (fuel : nat) (ic : consumer) (s : text) : res (consumer * text) :=
  match fuel with
  | O => OutOfFuel
  | S fuel' =>
      match hasMoreInput s with
      | (false, s) => Ok (ic, s)
      | (true, s) =>
          LET (ic, s) := (match fmt_peekRing f s with
                          | (true, s) => LET (names, s) := fmt_readRing f s IN LET ic := consumeRing names ic IN Ok (ic, s)
                          | (false, s) => Ok (ic, s)
                          end) IN
          LET (ic, s) := fmt_readBareIdeal f ic s IN
          common_readMore f fuel' ic s
      end
  end.
Definition common_readIdeals (f : format) (ic : consumer) (s : text) : res (consumer * text) :=
  LET (names, s) := fmt_readRing f s IN
  LET ic := consumeRing names ic IN
  match hasMoreInput s with
  | (false, s) => Ok (ic, s)
  | (true, s) => LET (ic, s) := fmt_readBareIdeal f ic s IN common_readMore f (S (List.length s)) ic s
  end.
Definition handler_readIdeal (f : format) (ic : consumer) (s : text) : res (consumer * text) :=
  match f with
  | NewMonos => LET s := expect_char "(" s IN newmonos_readIdeal ic s
  | Fourti2 => fourti2_readIdeal ic s
  | _ => common_readIdeal f ic s
  end.
Definition handler_readIdeals (f : format) (ic : consumer) (s : text) : res (consumer * text) :=
  match f with
  | NewMonos => newmonos_readIdeals ic s
  | Fourti2 => fourti2_readIdeals ic s
  | _ => common_readIdeals f ic s
  end.

(** ** IOFacade *)
(** IOFacade.cpp:98-112 readIdeal of a whole file, followed by expectEOF as in TransformAction.cpp:137, CommonParamsHelper.cpp:172
    and the other actions; the names and the generators.  A new scanner starts with a space. *)
Definition read_ideal (f : format) (file : text) : res (list str * list (list Z)) :=
  LET (ic, s) := handler_readIdeal f ic_new (" "%char :: file) IN
  LET _ := expectEOF s IN
  match big_ideals ic with J :: _ => Ok J | [] => Undefined end.
(** IOFacade.cpp:116-130 readSquareFreeIdeal: the names and the sets of variables *)
Definition read_square_free (f : format) (file : text) : res (list str * list (list bool)) :=
  LET (ic, s) := handler_readIdeal f (requireSquareFree ic_new) (" "%char :: file) IN
  LET _ := expectEOF s IN
  match ic_ideals ic with (names, Sqf terms) :: _ => Ok (names, rev terms) | _ => Undefined end.
(** IOFacade.cpp:132-154 readIdeals: the names of the last ring and the ideals *)
Definition read_ideals (f : format) (file : text) : res (list str * list (list str * list (list Z))) :=
  LET (ic, s) := handler_readIdeals f ic_new (" "%char :: file) IN
  LET _ := expectEOF s IN
  Ok (ic_names ic, big_ideals ic).
End Limits.

(** IOHandler.cpp:198-228 autoDetectFormat *)
Definition autoDetect (file : text) : format :=
  match eat file with
  | [] => M2
  | c :: _ =>
      if in_dec ascii_dec c (lit "Uu") then CoCoA4
      else if in_dec ascii_dec c (lit "r") then Singular
      else if in_dec ascii_dec c (lit "(l)") then NewMonos
      else if in_dec ascii_dec c (lit "0123456789+-") then Fourti2
      else if in_dec ascii_dec c (lit "v") then Monos
      else M2
  end.

(** ** Writers *)
(** mpz_out_str in base 10 *)
Definition z_str (z : Z) : str :=
  match z with
  | Z0 => ["0"%char]
  | Zpos p => digits (Pos.to_uint p)
  | Zneg p => "-"%char :: digits (Pos.to_uint p)
  end.
(** fputs of names with a separator before all but the first *)
Fixpoint sep_names (sep : text) (names : list str) : text :=
  match names with
  | [] => []
  | [x] => x
  | x :: names' => x ++ sep ++ sep_names sep names'
  end.
(** IOHandlerImpl.cpp:192-215 writeTermProduct: the powers that are written, separated by stars *)
Fixpoint powers (names : list str) (t : list Z) : list str :=
  match names, t with
  | name :: names', e :: t' =>
      if (e =? 0)%Z then powers names' t'
      else (if (e =? 1)%Z then name else name ++ "^"%char :: z_str e) :: powers names' t'
  | _, _ => []
  end.
Definition writeTermProduct (names : list str) (t : list Z) : text :=
  match powers names t with [] => ["1"%char] | ps => sep_names ["*"%char] ps end.
(** TermTranslator.cpp:346-374 makeStrings: the strings with and without the name of the variable; [None] is a null pointer *)
Definition varExponentString (name : str) (e : Z) : option str :=
  if (e =? 0)%Z then None else Some (if (e =? 1)%Z then name else name ++ "^"%char :: z_str e).
Definition exponentString (e : Z) : option str := Some (z_str e).
(** IOHandlerImpl.cpp:170-190 writeTermProduct with a translator; term[var] is an index into the table of the variable *)
Fixpoint t_powers (names : list str) (tr : translator) (t : list nat) : list str :=
  match names, tr, t with
  | name :: names', table :: tr', e :: t' =>
      match varExponentString name (nth e table 0%Z) with
      | None => t_powers names' tr' t'
      | Some p => p :: t_powers names' tr' t'
      end
  | _, _, _ => []
  end.
Definition t_writeTermProduct (names : list str) (tr : translator) (t : list nat) : text :=
  match t_powers names tr t with [] => ["1"%char] | ps => sep_names ["*"%char] ps end.

(** Macaulay2IOHandler.cpp:261-271 m2GetRingName; [fuel] bounds the numbers that are tried, at most one more than there are
    names *)
Fixpoint m2_ringNumber (fuel i : nat) (names : list str) : res str :=
  match fuel with
  | O => OutOfFuel
  | S fuel' => let name := "R"%char :: nat_str i in if in_dec str_dec name names then m2_ringNumber fuel' (S i) names else Ok name
  end.
Definition m2_ringName (names : list str) : res str :=
  if in_dec str_dec (lit "R") names then m2_ringNumber (S (List.length names)) 1 names else Ok (lit "R").
(** Macaulay2IOHandler.cpp:273-291 m2WriteRing *)
Definition m2_writeRing (names : list str) : res text :=
  LET ring := m2_ringName names IN
  Ok (ring ++ lit " = QQ[" ++ sep_names (lit ", ") names ++ lit "];" ++ [nl]).
(** MonosIOHandler.cpp:130-139 writeRing *)
Definition monos_writeRing (names : list str) : text := lit "vars " ++ sep_names (lit ", ") names ++ lit ";" ++ [nl].
(** SingularIOHandler.cpp:254-268 writeRing *)
Definition singular_writeRing (names : list str) : text :=
  match names with
  | [] => lit "ring R = 0, (dummy), lp;" ++ nl :: lit "int noVars = 1;" ++ [nl]
  | _ => lit "ring R = 0, (" ++ sep_names (lit ", ") names ++ lit "), lp;" ++ nl :: lit "int noVars = 0;" ++ [nl]
  end.
(** CoCoA4IOHandler.cpp:269-287 writeRing *)
Definition cocoa_writeRing (names : list str) : text :=
  match names with
  | [] => lit "Use R ::= Q[x];" ++ nl :: lit "Names := [];" ++ [nl]
  | _ => lit "Use R ::= Q[x[1.." ++ nat_str (List.length names) ++ lit "]];" ++ nl :: lit "Names := [""" ++
         sep_names (lit """, """) names ++ lit """];" ++ [nl]
  end.
(** NewMonosIOHandler.cpp:115-122 writeRing *)
Definition newmonos_writeRing (names : list str) : text := lit "(lex-order" ++ concat (map (fun x => " "%char :: x) names) ++ lit ")".
(** Fourti2IOHandler.cpp:299-310 writeRingWithoutHeader, 294-297 writeRing *)
Definition fourti2_writeNames (names : list str) : text :=
  match names with [] => [] | _ => " "%char :: sep_names (lit " ") names ++ [nl] end.
Definition fourti2_writeRing (names : list str) : text := lit "42 ring" ++ nl :: fourti2_writeNames names.
(** CoCoA4IOHandler.cpp:311-330 writeTermProduct; [var] is the number of the first variable *)
Definition cocoa_power (var : nat) (e : Z) : str :=
  lit "x[" ++ nat_str (var + 1) ++ lit "]" ++ (if (e =? 1)%Z then [] else "^"%char :: z_str e).
Fixpoint cocoa_powers (var : nat) (t : list Z) : list str :=
  match t with
  | [] => []
  | e :: t' => if (e =? 0)%Z then cocoa_powers (S var) t' else cocoa_power var e :: cocoa_powers (S var) t'
  end.
Definition cocoa_writeTermProduct (t : list Z) : text :=
  match cocoa_powers 0 t with [] => ["1"%char] | ps => concat ps end.
(** CoCoA4IOHandler.cpp:289-309 writeTermProduct with a translator *)
Fixpoint cocoa_t_powers (var : nat) (tr : translator) (t : list nat) : list str :=
  match tr, t with
  | table :: tr', e :: t' =>
      match exponentString (nth e table 0%Z) with
      | None => cocoa_t_powers (S var) tr' t'
      | Some p =>
          (lit "x[" ++ nat_str (var + 1) ++ lit "]" ++ (if str_dec p ["1"%char] then [] else "^"%char :: p)) :: cocoa_t_powers (S var) tr' t'
      end
  | _, _ => []
  end.
Definition cocoa_t_writeTermProduct (tr : translator) (t : list nat) : text :=
  match cocoa_t_powers 0 tr t with [] => ["1"%char] | ps => concat ps end.
(** Fourti2IOHandler.cpp:340-349 writeTerm, 351-367 with a translator *)
Definition fourti2_writeTerm (t : list Z) : text :=
  concat (map (fun e => " "%char :: z_str e) t) ++ match t with [] => [] | _ => [nl] end.
Definition fourti2_t_writeTerm (tr : translator) (t : list nat) : text :=
  concat (map (fun p => " "%char :: match exponentString (nth (snd p) (fst p) 0%Z) with None => ["0"%char] | Some s => s end) (combine tr t)) ++
  match t with [] => [] | _ => [nl] end.

Definition is_identity (t : list Z) : bool := forallb (Z.eqb 0) t.
(** The value of a term under a translator *)
Definition t_value (tr : translator) (t : list nat) : list Z := map (fun p => nth (snd p) (fst p) 0%Z) (combine tr t).
(** The header: Macaulay2IOHandler.cpp:44-48, MonosIOHandler.cpp:41-44, SingularIOHandler.cpp:45-48, CoCoA4IOHandler.cpp:59-62,
    NewMonosIOHandler.cpp:44-47, Fourti2IOHandler.cpp:70-74 *)
Definition w_header (f : format) (names : list str) (first : bool) (count : nat) : res text :=
  match f with
  | M2 => LET ring := (if first then m2_writeRing names else Ok []) IN Ok (ring ++ lit "I = monomialIdeal(")
  | Monos => Ok (monos_writeRing names ++ lit "[")
  | Singular => Ok (singular_writeRing names ++ lit "ideal I =")
  | CoCoA4 => Ok (cocoa_writeRing names ++ lit "I := Ideal(")
  | NewMonos => Ok (lit "(monomial-ideal-with-order" ++ nl :: " "%char :: newmonos_writeRing names)
  | Fourti2 => Ok (nat_str count ++ " "%char :: nat_str (List.length names) ++ [nl])
  end.
Definition w_sep (first : bool) : text := if first then [nl; " "%char] else [","%char; nl; " "%char].
(** A term: Macaulay2IOHandler.cpp:65-77, MonosIOHandler.cpp:53-57, SingularIOHandler.cpp:57-61, CoCoA4IOHandler.cpp:71-75,
    NewMonosIOHandler.cpp:56-60, Fourti2IOHandler.cpp:82-84 *)
Definition w_term (f : format) (names : list str) (first : bool) (t : list Z) : res text :=
  match f with
  | M2 => LET ring := m2_ringName names IN
          Ok (w_sep first ++ writeTermProduct names t ++ if is_identity t then "_"%char :: ring else [])
  | Monos | Singular => Ok (w_sep first ++ writeTermProduct names t)
  | CoCoA4 => Ok (w_sep first ++ cocoa_writeTermProduct t)
  | NewMonos => Ok (nl :: " "%char :: writeTermProduct names t)
  | Fourti2 => Ok (fourti2_writeTerm t)
  end.
(** A term with a translator: Macaulay2IOHandler.cpp:50-63, MonosIOHandler.cpp:46-51, SingularIOHandler.cpp:50-55,
    CoCoA4IOHandler.cpp:64-69, NewMonosIOHandler.cpp:49-54, Fourti2IOHandler.cpp:76-80 *)
Definition w_t_term (f : format) (names : list str) (first : bool) (tr : translator) (t : list nat) : res text :=
  match f with
  | M2 => LET ring := m2_ringName names IN
          Ok (w_sep first ++ t_writeTermProduct names tr t ++ if is_identity (t_value tr t) then "_"%char :: ring else [])
  | Monos | Singular => Ok (w_sep first ++ t_writeTermProduct names tr t)
  | CoCoA4 => Ok (w_sep first ++ cocoa_t_writeTermProduct tr t)
  | NewMonos => Ok (nl :: " "%char :: t_writeTermProduct names tr t)
  | Fourti2 => Ok (fourti2_t_writeTerm tr t)
  end.
(** The footer: Macaulay2IOHandler.cpp:79-87, MonosIOHandler.cpp:59-61, SingularIOHandler.cpp:63-67, CoCoA4IOHandler.cpp:77-79,
    NewMonosIOHandler.cpp:62-64, Fourti2IOHandler.cpp:86-89 *)
Definition w_footer (f : format) (names : list str) (zero : bool) : res text :=
  match f with
  | M2 => if zero then LET ring := m2_ringName names IN Ok (lit "0_" ++ ring ++ lit ");" ++ [nl]) else Ok (nl :: lit ");" ++ [nl])
  | Monos => Ok (nl :: lit "];" ++ [nl])
  | Singular => Ok ((if zero then nl :: lit " 0" else []) ++ lit ";" ++ [nl])
  | CoCoA4 => Ok (nl :: lit ");" ++ [nl])
  | NewMonos => Ok (nl :: lit ")" ++ [nl])
  | Fourti2 => Ok (if list_eq_dec str_dec names (defaultNames (List.length names)) then [] else fourti2_writeNames names)
  end.
(** An empty list: Macaulay2IOHandler.cpp:89-91, MonosIOHandler.cpp:63-65, SingularIOHandler.cpp:69-71, CoCoA4IOHandler.cpp:81-83,
    NewMonosIOHandler.cpp:66-68, Fourti2IOHandler.cpp:91-93 *)
Definition w_emptyList (f : format) (names : list str) : res text :=
  match f with
  | M2 => m2_writeRing names
  | Monos => Ok (monos_writeRing names)
  | Singular => Ok (singular_writeRing names)
  | CoCoA4 => Ok (cocoa_writeRing names)
  | NewMonos => Ok (newmonos_writeRing names)
  | Fourti2 => Ok (fourti2_writeRing names)
  end.

(** IdealWriter.h and IdealWriter.cpp:25-83 *)
Record writer := IW { iw_names : list str; iw_firstIdeal : bool; iw_firstGen : bool }.
Definition iw_new : writer := IW [] true true.
Inductive w_event := WRing (names : list str) | WBeginList | WBegin | WTerm (t : list Z) | WTTerm (tr : translator) (t : list nat) | WDone | WDoneList.
Definition iw_step (f : format) (w : writer) (e : w_event) : res (writer * text) :=
  match e with
  | WRing names => if list_eq_dec str_dec (iw_names w) names then Ok (w, []) else Ok (IW names true (iw_firstGen w), [])
  | WBeginList => Ok (IW (iw_names w) true (iw_firstGen w), [])
  | WBegin =>
      match f with
      | Fourti2 => Undefined
      | _ => LET out := w_header f (iw_names w) (iw_firstIdeal w) 0 IN Ok (IW (iw_names w) (iw_firstIdeal w) true, out)
      end
  | WTerm t => LET out := w_term f (iw_names w) (iw_firstGen w) t IN Ok (IW (iw_names w) (iw_firstIdeal w) false, out)
  | WTTerm tr t => LET out := w_t_term f (iw_names w) (iw_firstGen w) tr t IN Ok (IW (iw_names w) (iw_firstIdeal w) false, out)
  | WDone => LET out := w_footer f (iw_names w) (iw_firstGen w) IN Ok (IW (iw_names w) false (iw_firstGen w), out)
  | WDoneList => if iw_firstIdeal w then LET out := w_emptyList f (iw_names w) IN Ok (w, out) else Ok (w, [])
  end.
Fixpoint iw_run (f : format) (w : writer) (es : list w_event) : res (writer * text) :=
  match es with
  | [] => Ok (w, [])
  | e :: es' => LET (w, a) := iw_step f w e IN LET (w, b) := iw_run f w es' IN Ok (w, a ++ b)
  end.
(** IdealWriter.cpp:71-79 consume(const BigIdeal&) *)
Definition iw_ideal (f : format) (w : writer) (names : list str) (J : list (list Z)) : res (writer * text) :=
  LET (w, _) := iw_step f w (WRing names) IN
  let w := IW (iw_names w) (iw_firstIdeal w) true in
  LET out := w_header f (iw_names w) (iw_firstIdeal w) (List.length J) IN
  LET (w, a) := iw_run f w (map WTerm J) IN
  LET (w, b) := iw_step f w WDone IN
  Ok (w, out ++ a ++ b).
(** IOFacade.cpp:156-166 writeIdeal; IdealConsolidator.cpp:90-92 passes an ideal on *)
Definition write_ideal (f : format) (names : list str) (J : list (list Z)) : res text :=
  LET (_, out) := iw_ideal f iw_new names J IN Ok out.
(** IOFacade.cpp:168-190 writeIdeals *)
Fixpoint iw_ideals (f : format) (w : writer) (Js : list (list str * list (list Z))) : res (writer * text) :=
  match Js with
  | [] => Ok (w, [])
  | J :: Js' => LET (w, a) := iw_ideal f w (fst J) (snd J) IN LET (w, b) := iw_ideals f w Js' IN Ok (w, a ++ b)
  end.
Definition write_ideals (f : format) (names : list str) (Js : list (list str * list (list Z))) : res text :=
  LET (w, _) := iw_run f iw_new [WBeginList; WRing names] IN
  LET (w, a) := iw_ideals f w Js IN
  LET (_, b) := iw_step f w WDoneList IN
  Ok (a ++ b).
(** The output of an ideal term by term, as the algorithms do: consumeRing, beginConsuming, the terms, doneConsuming.  In the 4ti2
    format the IdealConsolidator (IdealConsolidator.cpp:29-88) stores the translated terms and passes on the ideal. *)
Definition write_stream (f : format) (names : list str) (tr : translator) (I : list (list nat)) : res text :=
  match f with
  | Fourti2 => LET (w, _) := iw_step f iw_new (WRing names) IN LET (_, out) := iw_ideal f w names (map (t_value tr) I) IN Ok out
  | _ => LET (_, out) := iw_run f iw_new (WRing names :: WBegin :: map (WTTerm tr) I ++ [WDone]) IN Ok out
  end.
