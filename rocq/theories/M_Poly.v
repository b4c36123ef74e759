(** Model of Polynomial.cpp, HashPolynomial.cpp, UniHashPolynomial.cpp, the order of BigPolynomial.cpp,
    CanonicalCoefTermConsumer.cpp, CanonicalTermConsumer.cpp and IdealComparator.cpp. *)
From Coq Require Import List Arith Bool ZArith.
Import ListNotations.
From Verif Require Import M_Term M_Ideal M_Slice M_Msm M_Api.

(** ** Polynomial.cpp *)
(** Polynomial.h:50-58: _terms, pairs of a coefficient and a term; the number of variables is an argument below. *)
Definition cpoly := list (Z * term).

(** Polynomial.cpp:55-69 add; running out of memory is not modelled *)
Definition poly_add (coef : Z) (t : term) (p : cpoly) : cpoly := if (coef =? 0)%Z then p else p ++ [(coef, t)].

(** Polynomial.cpp:101-104 operator< *)
Definition coefTerm_less (n : nat) (a b : Z * term) : bool := t_revLexLess n (snd a) (snd b).

(** Polynomial.cpp:82-95 the loop: [done] are the entries before index last, [cur] is the entry at last, and the list holds
    the entries from i on.  Then the entries after last are erased. *)
Fixpoint collect_loop (n : nat) (done : cpoly) (cur : Z * term) (l : cpoly) : cpoly :=
  match l with
  | [] => done ++ [cur]
  | x :: l' =>
      if t_equals n (snd cur) (snd x) then collect_loop n done ((fst cur + fst x)%Z, snd cur) l'
      else if (fst cur =? 0)%Z then collect_loop n done x l'
      else collect_loop n (done ++ [cur]) x l'
  end.
(** Polynomial.cpp:71-99 sortTermsReverseLex *)
Definition poly_sort (n : nat) (collect : bool) (p : cpoly) : cpoly :=
  match std_sort (coefTerm_less n) p with
  | [] => []
  | x :: l => if collect then collect_loop n [] x l else x :: l
  end.

(** CanonicalCoefTermConsumer.cpp:22-52: what is passed on when the terms [p] were consumed between consumeRing and
    doneConsuming.  Afterwards the polynomial is empty again. *)
Definition canonical_coefs (n : nat) (p : cpoly) : cpoly :=
  poly_sort n true (fold_left (fun q x => poly_add (fst x) (snd x) q) p []).

(** ** HashPolynomial.cpp and UniHashPolynomial.cpp *)
(** The hash map (HashMap.h:43-45, std::unordered_map) is a list of pairs with distinct keys.  Its order is that of the
    iterators; it may change with every operation: [arr] rearranges it. *)
Section HashMap.
  Context {K : Type} (eqb : K -> K -> bool) (arr : list (K * Z) -> list (K * Z)).
  (** _terms[key]: finds the entry, or inserts one with value 0 *)
  Fixpoint hm_ref (k : K) (m : list (K * Z)) : list (K * Z) * Z * list (K * Z) :=
    match m with
    | [] => ([], 0%Z, [])
    | (k', c) :: m' => if eqb k' k then ([], c, m') else let '(a, x, b) := hm_ref k m' in ((k', c) :: a, x, b)
    end.
  (** erase(key) *)
  Definition hm_erase (k : K) (m : list (K * Z)) : list (K * Z) := filter (fun e => negb (eqb (fst e) k)) m.
  (** HashPolynomial.cpp:47-50, 56-62, UniHashPolynomial.cpp:26-32, 38-41, 47-50: ref = _terms[key], ref is changed by
      [f], and the entry is erased if it is zero now *)
  Definition hm_update (f : Z -> Z) (k : K) (m : list (K * Z)) : list (K * Z) :=
    let '(a, x, b) := hm_ref k m in
    let m' := a ++ (k, f x) :: b in
    arr (if (f x =? 0)%Z then hm_erase k m' else m').
  (** HashPolynomial.cpp:36-51, UniHashPolynomial.cpp:44-51 add(coef, key), and 35-42 for small numbers *)
  Definition hm_add (coef : Z) (k : K) (m : list (K * Z)) : list (K * Z) :=
    if (coef =? 0)%Z then m else hm_update (fun x => x + coef)%Z k m.
  (** HashPolynomial.cpp:53-63, UniHashPolynomial.cpp:25-33 add(plus, key) *)
  Definition hm_addSigned (plus : bool) (k : K) (m : list (K * Z)) : list (K * Z) :=
    hm_update (fun x => if plus then x + 1 else x - 1)%Z k m.
  (** HashPolynomial.cpp:76-115, UniHashPolynomial.cpp:64-108 feedTo: the pairs in the order in which they are passed on *)
  Definition hm_feed (greater : K -> K -> bool) (canonical : bool) (m : list (K * Z)) : list (Z * K) :=
    map (fun e => (snd e, fst e)) (if canonical then std_sort (fun a b => greater (fst a) (fst b)) m else m).
End HashMap.

(** Operations on an accumulator *)
Inductive accum_op (K : Type) := OpAdd (coef : Z) (k : K) | OpSigned (plus : bool) (k : K) | OpClear.
Arguments OpAdd {K} _ _.
Arguments OpSigned {K} _ _.
Arguments OpClear {K}.
(** HashPolynomial.cpp:31-34 clearAndSetVarCount; the other cases as above.  [arr i] is the rearrangement in step i. *)
Fixpoint accum {K} (eqb : K -> K -> bool) (arr : nat -> list (K * Z) -> list (K * Z)) (i : nat) (m : list (K * Z))
  (ops : list (accum_op K)) : list (K * Z) :=
  match ops with
  | [] => m
  | OpAdd c k :: ops' => accum eqb arr (S i) (hm_add eqb (arr i) c k m) ops'
  | OpSigned plus k :: ops' => accum eqb arr (S i) (hm_addSigned eqb (arr i) plus k m) ops'
  | OpClear :: ops' => accum eqb arr (S i) [] ops'
  end.
(** HashPolynomial.cpp:65-74 RefCompare: lexCompare(a, b) > 0; in n variables *)
Definition hash_polynomial (n : nat) (arr : nat -> list (term * Z) -> list (term * Z)) (ops : list (accum_op term))
  (canonical : bool) : list (Z * term) :=
  hm_feed (t_revLexLess n) canonical (accum (t_equals n) arr 0 [] ops).
(** UniHashPolynomial.cpp:53-62 RefCompare *)
Definition uni_hash_polynomial (arr : nat -> list (Z * Z) -> list (Z * Z)) (ops : list (accum_op Z))
  (canonical : bool) : list (Z * Z) :=
  hm_feed (fun a b => b <? a)%Z canonical (accum Z.eqb arr 0 [] ops).

(** ** BigPolynomial.cpp *)
(** BigPolynomial.cpp:151-157 compareCoefTermsReverseLex *)
Fixpoint bigTerm_less (ca cb : Z) (a b : list Z) : bool :=
  match a, b with
  | x :: a', y :: b' => if (x =? y)%Z then bigTerm_less ca cb a' b' else (y <? x)%Z
  | _, _ => (ca <? cb)%Z
  end.
(** BigPolynomial.cpp:46-48 sortTermsReverseLex *)
Definition bigPoly_sort (p : list (Z * list Z)) : list (Z * list Z) :=
  std_sort (fun a b => bigTerm_less (fst a) (fst b) (snd a) (snd b)) p.

(** ** IdealComparator.cpp, CanonicalTermConsumer.cpp *)
(** TermTranslator.cpp:451-464 lessThanReverseLex; a read outside a table is ruled out in [canon_done] *)
Fixpoint tr_less_from (tr : translator) (a b : term) (var k : nat) : bool :=
  match k with
  | O => false
  | S k' =>
      let ae := nth (a @ var) (nth var tr []) 0%Z in
      let be := nth (b @ var) (nth var tr []) 0%Z in
      if (ae =? be)%Z then tr_less_from tr a b (S var) k' else (be <? ae)%Z
  end.
(** CanonicalTermConsumer.cpp:113-120 the comparator; without a translator ReverseLexComparator *)
Definition canon_less (n : nat) (otr : option translator) (a b : term) : bool :=
  match otr with None => t_revLexLess n a b | Some tr => tr_less_from tr a b 0 n end.
(** CanonicalTermConsumer.cpp:113-120 canonicalizeIdeal *)
Definition canonicalizeIdeal (n : nat) (otr : option translator) (I : ideal) : ideal := std_sort (canon_less n otr) I.
(** IdealComparator.cpp:32-50 idealLessThanImpl *)
Fixpoint idealLess (lt : term -> term -> bool) (a b : ideal) : bool :=
  match a, b with
  | [], _ => false
  | _ :: _, [] => true
  | x :: a', y :: b' => if lt x y then true else if lt y x then false else idealLess lt a' b'
  end.

(** The calls of a TermConsumer (TermConsumer.h).  consumeRing is passed on at once. *)
Inductive tcall := TBeginList | TBegin | TConsume (t : term) | TDone | TDoneList.
(** CanonicalTermConsumer.h:66-71: _storingList and _ideals, the last ideal first *)
Record canon := mkCanon { ca_storing : bool; ca_ideals : list ideal }.

(** All exponents are inside the tables of the translator. *)
Definition canon_ok (n : nat) (otr : option translator) (I : ideal) : bool :=
  match otr with
  | None => true
  | Some tr => forallb (fun t => forallb (fun v => t @ v <? length (nth v tr [])) (seq 0 n)) I
  end.
(** CanonicalTermConsumer.cpp:92-111 passLastIdeal: the calls that are made *)
Definition pass_ideal (n : nat) (otr : option translator) (I : ideal) : list tcall :=
  TBegin :: map TConsume (canonicalizeIdeal n otr I) ++ [TDone].
(** CanonicalTermConsumer.cpp:40-90.  [None]: an access to the last ideal when there is none, or a read outside a table. *)
Definition canon_step (n : nat) (otr : option translator) (st : canon) (c : tcall) : option (canon * list tcall) :=
  match c with
  | TBeginList => Some (mkCanon true (ca_ideals st), [])
  | TBegin => Some (mkCanon (ca_storing st) ([] :: ca_ideals st), [])
  | TConsume t =>
      match ca_ideals st with
      | [] => None
      | J :: rest => Some (mkCanon (ca_storing st) ((J ++ [t]) :: rest), [])
      end
  | TDone =>
      if ca_storing st then Some (st, [])
      else match ca_ideals st with
           | [] => None
           | J :: rest => if canon_ok n otr J then Some (mkCanon false rest, pass_ideal n otr J) else None
           end
  | TDoneList =>
      if forallb (canon_ok n otr) (ca_ideals st) then
        (* _ideals from the back, after the sort from the back *)
        let sorted := std_sort (idealLess (canon_less n otr)) (map (canonicalizeIdeal n otr) (ca_ideals st)) in
        Some (mkCanon (ca_storing st) [], TBeginList :: concat (map (pass_ideal n otr) sorted) ++ [TDoneList])
      else None
  end.
Fixpoint canon_run (n : nat) (otr : option translator) (st : canon) (calls : list tcall) : option (list tcall) :=
  match calls with
  | [] => Some []
  | c :: calls' =>
      bind (canon_step n otr st c) (fun r => bind (canon_run n otr (fst r) calls') (fun out => Some (snd r ++ out)))
  end.
(** CanonicalTermConsumer.cpp:24-34 *)
Definition canonical_consumer (n : nat) (otr : option translator) (calls : list tcall) : option (list tcall) :=
  canon_run n otr (mkCanon false []) calls.
