(** Model of the readers and writers of polynomials: IOHandlerImpl.cpp, IOHandlerCommon.cpp, Macaulay2IOHandler.cpp,
    SingularIOHandler.cpp, CoCoA4IOHandler.cpp, Fourti2IOHandler.cpp, PolyWriter.cpp, PolynomialConsolidator.cpp,
    CoefBigTermRecorder.cpp, BigPolynomial.cpp and of the action that transforms polynomials, PolyTransformAction.cpp. *)
From Coq Require Import String Ascii.
From Coq Require Import List Arith Bool ZArith.
Import ListNotations.
From Verif Require Import M_Term M_Api M_Names M_IO M_Poly.

(** BigPolynomial.h:62-76: the coefficients and the terms in the order in which they were added.  Coefficients may be zero and
    terms may be repeated. *)
Notation bpoly := (list (Z * list Z)).

(** ** Readers *)
(** IOHandlerImpl.cpp:272-293 readVarPower with Scanner.h:201-207 readVariable *)
Definition readVarPower (names : list str) (t : list Z) (s : text) : res (list Z * text) :=
  LET (name, s) := readIdentifier s IN
  match var_index name names with
  | None => SyntaxError
  | Some var =>
      match nth_error t var with
      | None => Undefined
      | Some e =>
          if (e =? 0)%Z then
            match match_char "^" s with
            | (true, s) => LET (z, s) := readInteger s IN if (z <=? 0)%Z then SyntaxError else Ok (list_set t var z, s)
            | (false, s) => Ok (list_set t var 1%Z, s)
            end
          else SyntaxError
      end
  end.
(** IOHandlerImpl.cpp:237-247, CoCoA4IOHandler.cpp:409-419: the sign; true if positive.  In the last case expect('+') fails because
    match('+') did. *)
Definition readSign (first : bool) (s : text) : res (bool * text) :=
  LET (positive, s) :=
    (match (if first then (false, s) else match_char "+" s) with
     | (true, s) => let '(minus, s) := match_char "-" s in Ok (negb minus, s)
     | (false, s) => match match_char "-" s with
                     | (true, s) => Ok (false, s)
                     | (false, s) => if first then Ok (true, s) else SyntaxError
                     end
     end) IN
  match match_char "+" s with
  | (true, _) => SyntaxError
  | (false, s) => match match_char "-" s with (true, _) => SyntaxError | (false, s) => Ok (positive, s) end
  end.
(** IOHandlerImpl.cpp:255-256 the loop over the powers *)
Fixpoint readPowers (names : list str) (fuel : nat) (t : list Z) (s : text) : res (list Z * text) :=
  match fuel with
  | O => OutOfFuel
  | S fuel' =>
      match match_char "*" s with
      | (true, s) => LET (t, s) := readVarPower names t s IN readPowers names fuel' t s
      | (false, s) => Ok (t, s)
      end
  end.
(** IOHandlerImpl.cpp:228-260 readCoefTerm *)
Definition readCoefTerm (names : list str) (first : bool) (s : text) : res (Z * list Z * text) :=
  let t := map (fun _ => 0%Z) names in
  LET (positive, s) := readSign first s IN
  LET (coef, t, s) := (match peekIdentifier s with
                       | (true, s) => LET (t, s) := readVarPower names t s IN Ok (1%Z, t, s)
                       | (false, s) => LET (coef, s) := readInteger s IN Ok (coef, t, s)
                       end) IN
  LET (t, s) := readPowers names (S (List.length s)) t s IN
  Ok (if positive then coef else (- coef)%Z, t, s).

Section Limits.
(** The largest size_t *)
Context (max_ulong : Z).
(** CoCoA4IOHandler.cpp:356-389 readVarPower *)
Definition cocoa_readVarPower (t : list Z) (s : text) : res (list Z * text) :=
  LET s := expect_char "x" s IN
  LET s := expect_char "[" s IN
  LET (var, s) := readSizeT max_ulong s IN
  if (var =? 0) || (List.length t <? var) then SyntaxError else
  let var := var - 1 in
  LET s := expect_char "]" s IN
  match nth_error t var with
  | None => Undefined
  | Some e =>
      if (e =? 0)%Z then
        match match_char "^" s with
        | (true, s) => LET (z, s) := readInteger s IN if (z <=? 0)%Z then SyntaxError else Ok (list_set t var z, s)
        | (false, s) => Ok (list_set t var 1%Z, s)
        end
      else SyntaxError
  end.
(** CoCoA4IOHandler.cpp:427-431 the loop over the powers *)
Fixpoint cocoa_readPowersOf (fuel : nat) (t : list Z) (s : text) : res (list Z * text) :=
  match fuel with
  | O => OutOfFuel
  | S fuel' =>
      match peek_char "x" s with
      | (true, s) => LET (t, s) := cocoa_readVarPower t s IN cocoa_readPowersOf fuel' t s
      | (false, s) => Ok (t, s)
      end
  end.
(** CoCoA4IOHandler.cpp:402-435 readCoefTerm *)
Definition cocoa_readCoefTerm (names : list str) (first : bool) (s : text) : res (Z * list Z * text) :=
  let t := map (fun _ => 0%Z) names in
  LET (positive, s) := readSign first s IN
  LET (coef, t, s) := (match peekIdentifier s with
                       | (true, s) => LET (t, s) := cocoa_readVarPower t s IN Ok (1%Z, t, s)
                       | (false, s) => LET (coef, s) := readInteger s IN Ok (coef, t, s)
                       end) IN
  LET (t, s) := cocoa_readPowersOf (S (List.length s)) t s IN
  Ok (if positive then coef else (- coef)%Z, t, s).
(** do readCoefTerm while not match(';'): Macaulay2IOHandler.cpp:250-256, SingularIOHandler.cpp:244-250, CoCoA4IOHandler.cpp:259-265;
    CoefBigTermRecorder.cpp:40-43 adds the terms to the polynomial *)
Fixpoint readCoefTerms (read : bool -> text -> res (Z * list Z * text)) (fuel : nat) (first : bool) (s : text) : res (bpoly * text) :=
  match fuel with
  | O => OutOfFuel
  | S fuel' =>
      LET (coef, t, s) := read first s IN
      match match_char ";" s with
      | (true, s) => Ok ([(coef, t)], s)
      | (false, s) => LET (p, s) := readCoefTerms read fuel' false s IN Ok ((coef, t) :: p, s)
      end
  end.
(** Macaulay2IOHandler.cpp:240-258, SingularIOHandler.cpp:233-252, CoCoA4IOHandler.cpp:249-267 doReadBarePolynomial *)
Definition readBarePolynomial (f : format) (names : list str) (s : text) : res (bpoly * text) :=
  match f with
  | M2 =>
      LET s := expect_char "p" s IN
      LET s := expect_char "=" s IN
      readCoefTerms (readCoefTerm names) (S (List.length s)) true s
  | Singular =>
      LET s := expect_str (lit "poly") s IN
      LET s := expect_char "p" s IN
      LET s := expect_char "=" s IN
      readCoefTerms (readCoefTerm names) (S (List.length s)) true s
  | CoCoA4 =>
      LET s := expect_char "p" s IN
      LET s := expect_str (lit ":=") s IN
      readCoefTerms (cocoa_readCoefTerm names) (S (List.length s)) true s
  | _ => Undefined
  end.
(** Fourti2IOHandler.cpp:258-262 the exponents of a term; [k] variables *)
Fixpoint fourti2_readExponents (k : nat) (s : text) : res (list Z * text) :=
  match k with
  | O => Ok ([], s)
  | S k' => LET (e, s) := readIntegerAndNegativeAsZero s IN LET (t, s) := fourti2_readExponents k' s IN Ok (e :: t, s)
  end.
(** Fourti2IOHandler.cpp:252-263 the terms; [gens] more *)
Fixpoint fourti2_readCoefTerms (gens vars : nat) (s : text) : res (bpoly * text) :=
  match gens with
  | O => Ok ([], s)
  | S gens' =>
      LET (coef, s) := readInteger s IN
      LET (t, s) := fourti2_readExponents vars s IN
      LET (p, s) := fourti2_readCoefTerms gens' vars s IN
      Ok ((coef, t) :: p, s)
  end.
(** VarNames.cpp:44-66 addVar, whose result is ignored here; Fourti2IOHandler.cpp:275-276 the names, [k] more *)
Definition addVar (names : list str) (name : str) : list str := if in_dec str_dec name names then names else names ++ [name].
Fixpoint fourti2_addNames (k : nat) (names : list str) (s : text) : res (list str * text) :=
  match k with
  | O => Ok (names, s)
  | S k' => LET (name, s) := readIdentifier s IN fourti2_addNames k' (addVar names name) s
  end.
(** Fourti2IOHandler.cpp:234-281 doReadPolynomial, with BigPolynomial.cpp:95-98 renameVars, whose assertion is [Undefined] here *)
Definition fourti2_readPolynomial (s : text) : res (list str * bpoly * text) :=
  LET (gens, s) := readSizeT max_ulong s IN
  LET (cols, s) := readSizeT max_ulong s IN
  if cols =? 0 then OtherError else
  let vars := cols - 1 in
  LET (p, s) := fourti2_readCoefTerms gens vars s IN
  LET s := (match match_char "(" s with
            | (true, s) => Ok s
            | (false, s) => expect_str (lit "(coefficient)") s
            end) IN
  LET s := expect_str (lit "coefficient") s IN
  LET s := expect_char ")" s IN
  match peekIdentifier s with
  | (true, s) =>
      LET (names, s) := fourti2_addNames vars [] s IN
      if List.length names =? vars then Ok (names, p, s) else Undefined
  | (false, s) => Ok (defaultNames vars, p, s)
  end.
(** IOHandlerCommon.cpp:74-79 doReadPolynomial *)
Definition common_readPolynomial (f : format) (s : text) : res (list str * bpoly * text) :=
  LET (names, s) := fmt_readRing max_ulong f s IN
  LET (p, s) := readBarePolynomial f names s IN
  Ok (names, p, s).
(** IOParameters.cpp:152-183 validateFormats: only these formats have polynomials *)
Definition has_polynomials (f : format) : bool := match f with M2 | Singular | CoCoA4 | Fourti2 => true | _ => false end.
Definition handler_readPolynomial (f : format) (s : text) : res (list str * bpoly * text) :=
  if has_polynomials f then match f with Fourti2 => fourti2_readPolynomial s | _ => common_readPolynomial f s end else OtherError.
(** IOFacade.cpp:192-203 readPolynomial of a whole file, with expectEOF as in PolyTransformAction.cpp:63 *)
Definition read_polynomial (f : format) (file : text) : res (list str * bpoly) :=
  LET (names, p, s) := handler_readPolynomial f (" "%char :: file) IN
  LET _ := expectEOF s IN
  Ok (names, p).
End Limits.

(** ** Writers *)
(** IOHandlerImpl.cpp:123-142 and 144-168 writeCoefTermProduct, CoCoA4IOHandler.cpp:96-116 and 118-141 without a star.  The product
    [body] is written if the term is not the identity. *)
Definition writeCoef (star : text) (identity hidePlus : bool) (coef : Z) (body : text) : text :=
  (if ((0 <=? coef)%Z && negb hidePlus) then ["+"%char] else []) ++
  if identity then z_str coef
  else (if (coef =? -1)%Z then ["-"%char] else if (coef =? 1)%Z then [] else z_str coef ++ star) ++ body.
(** Macaulay2IOHandler.cpp:99-102, SingularIOHandler.cpp:79-82, CoCoA4IOHandler.cpp:91-94, Fourti2IOHandler.cpp:106-110 *)
Definition p_header (f : format) (names : list str) (count : nat) : res text :=
  match f with
  | M2 => LET ring := m2_writeRing names IN Ok (ring ++ lit "p =")
  | Singular => Ok (singular_writeRing names ++ lit "poly p =")
  | CoCoA4 => Ok (cocoa_writeRing names ++ lit "p :=")
  | Fourti2 => Ok (nat_str count ++ " "%char :: nat_str (List.length names + 1) ++ [nl])
  | _ => OtherError
  end.
Definition newline : text := [nl; " "%char].
(** Macaulay2IOHandler.cpp:116-125, SingularIOHandler.cpp:92-97, CoCoA4IOHandler.cpp:118-141, Fourti2IOHandler.cpp:127-139 *)
Definition p_term (f : format) (names : list str) (first : bool) (ct : Z * list Z) : text :=
  let '(coef, t) := ct in
  match f with
  | M2 => (if first then newline else lit " +" ++ newline) ++ writeCoef ["*"%char] (is_identity t) true coef (writeTermProduct names t)
  | Singular => newline ++ writeCoef ["*"%char] (is_identity t) first coef (writeTermProduct names t)
  | CoCoA4 => newline ++ writeCoef [] (is_identity t) first coef (cocoa_writeTermProduct t)
  | Fourti2 => z_str coef ++ match t with [] => [nl] | _ => " "%char :: fourti2_writeTerm t end
  | _ => []
  end.
(** The same with a translator: Macaulay2IOHandler.cpp:104-114, SingularIOHandler.cpp:84-90, CoCoA4IOHandler.cpp:96-116.  Term::isIdentity
    looks at the term before it is translated. *)
Definition identity_term (t : list nat) : bool := forallb (Nat.eqb 0) t.
Definition p_t_term (f : format) (names : list str) (tr : translator) (first : bool) (ct : Z * list nat) : text :=
  let '(coef, t) := ct in
  match f with
  | M2 => (if first then newline else lit " +" ++ newline) ++ writeCoef ["*"%char] (identity_term t) true coef (t_writeTermProduct names tr t)
  | Singular => newline ++ writeCoef ["*"%char] (identity_term t) first coef (t_writeTermProduct names tr t)
  | CoCoA4 => newline ++ writeCoef [] (identity_term t) first coef (cocoa_t_writeTermProduct tr t)
  | _ => []
  end.
(** Macaulay2IOHandler.cpp:127-131, SingularIOHandler.cpp:99-103, CoCoA4IOHandler.cpp:143-147, Fourti2IOHandler.cpp:141-147 *)
Definition p_footer (f : format) (names : list str) (wasZero : bool) : text :=
  match f with
  | M2 | Singular | CoCoA4 => (if wasZero then nl :: lit " 0" else []) ++ lit ";" ++ [nl]
  | Fourti2 => lit "(coefficient)" ++
               (if list_eq_dec str_dec names (defaultNames (List.length names)) then [nl] else fourti2_writeNames names)
  | _ => []
  end.
(** PolyWriter.cpp:39-57 consume: the flag _firstTerm *)
Fixpoint p_terms {A} (term : bool -> A -> text) (first : bool) (p : list A) : text :=
  match p with [] => [] | ct :: p' => term first ct ++ p_terms term false p' end.
Definition is_empty {A} (l : list A) : bool := match l with [] => true | _ => false end.
(** IOFacade.cpp:205-216 writePolynomial, PolyWriter.cpp:59-66 consume of a polynomial; IOHandler.cpp:110-117.  The
    PolynomialConsolidator of 4ti2 passes a polynomial on (PolynomialConsolidator.cpp:50-52). *)
Definition write_polynomial (f : format) (names : list str) (p : bpoly) : res text :=
  LET head := p_header f names (List.length p) IN
  Ok (head ++ p_terms (p_term f names) true p ++ p_footer f names (is_empty p)).
(** The output of a polynomial term by term: consumeRing, beginConsuming, the terms, doneConsuming.  In the 4ti2 format the
    PolynomialConsolidator (PolynomialConsolidator.cpp:25-48) stores the translated terms and passes on the polynomial. *)
Definition write_poly_stream (f : format) (names : list str) (tr : translator) (p : list (Z * list nat)) : res text :=
  match f with
  | Fourti2 => write_polynomial f names (map (fun ct => (fst ct, t_value tr (snd ct))) p)
  | _ =>
      LET head := p_header f names 0 IN
      Ok (head ++ p_terms (p_t_term f names tr) true p ++ p_footer f names (is_empty p))
  end.

(** ** PolyTransformAction *)
(** BigPolynomial.cpp:50-55 sortVariables with VarSorter.cpp:40-61.  [None]: an index is out of range. *)
Fixpoint permute_poly (perm : list nat) (old : list Z) (p : bpoly) : option bpoly :=
  match p with
  | [] => Some []
  | (coef, t) :: p' => bind (permute_big perm old t) (fun r => bind (permute_poly perm (snd r) p') (fun q => Some ((coef, fst r) :: q)))
  end.
Definition poly_sortVariables (names : list str) (p : bpoly) : option (list str * bpoly) :=
  bind (permute_poly (sorter names) (map (fun _ => 0%Z) names) p) (fun q => Some (map (fun i => nth i names []) (sorter names), q)).
(** PolyTransformAction.cpp:55-74 perform, with the formats given; [None] for the input format: it is guessed, and [None] for the output
    format: that of the input *)
Definition ptransform_change (canon sort : bool) (names : list str) (p : bpoly) : res (list str * bpoly) :=
  LET (names, p) := (if canon then match poly_sortVariables names p with Some r => Ok r | None => Undefined end else Ok (names, p)) IN
  Ok (names, if sort || canon then bigPoly_sort p else p).
Definition ptransform (max_ulong : Z) (canon sort : bool) (fin fout : option format) (file : text) : res text :=
  let f := match fin with Some f => f | None => autoDetect file end in
  LET (names, p) := read_polynomial max_ulong f file IN
  LET (names, p) := ptransform_change canon sort names p IN
  write_polynomial (match fout with Some g => g | None => f end) names p.
