(** Model of RawSquareFreeTerm.h / RawSquareFreeTerm.cpp and of those functions of RawSquareFreeIdeal.cpp that
    work on the words of the terms directly.

    A Word is a number below 2 ^ w where w = BitsPerWord (stdinc.h:93-94: 8 * sizeof(unsigned long)); everything
    here is for any w.  A pointer to a term is the list of the words from there on; writing through a pointer
    gives a new list.  [None] stands for reading or writing outside of the list.  [~x & y] is [N.ldiff y x]. *)
From Coq Require Import List Arith Bool NArith ZArith Lia Ascii.
Import ListNotations.

Definition sqterm := list N.

(** A loop that reads from each element of a list; [None] if one of the reads is outside. *)
Fixpoint all_some {A} (l : list (option A)) : option (list A) :=
  match l with
  | [] => Some []
  | None :: _ => None
  | Some a :: l' => option_map (cons a) (all_some l')
  end.

Section Words.
Variable w : nat.

(** [~((Word)0)] *)
Definition allOnes : N := N.ones (N.of_nat w).
(** [(((Word)1) << k) - 1], for k < w *)
Definition lowOnes (k : nat) : N := (N.shiftl 1 (N.of_nat k) - 1)%N.

(** RawSquareFreeTerm.h:157-163 getBitOffset and getWordOffset *)
Definition getBitOffset (var : nat) : nat := var mod w.
Definition getWordOffset (var : nat) : nat := var / w.

(** RawSquareFreeTerm.cpp:91-98 getWordCount *)
Definition getWordCount (varCount : nat) : nat :=
  if varCount =? 0 then 1 else (varCount - 1) / w + 1.

(** ** Loops over [a, aEnd) *)

(** RawSquareFreeTerm.h:144-149 divides *)
Fixpoint sq_divides (a b : sqterm) : option bool :=
  match a, b with
  | [], _ => Some true
  | x :: a', y :: b' => if negb (N.ldiff x y =? 0)%N then Some false else sq_divides a' b'
  | _ :: _, [] => None
  end.
(** RawSquareFreeTerm.h:195-200 isRelativelyPrime *)
Fixpoint sq_isRelativelyPrimeR (a b : sqterm) : option bool :=
  match a, b with
  | [], _ => Some true
  | x :: a', y :: b' => if negb (N.land x y =? 0)%N then Some false else sq_isRelativelyPrimeR a' b'
  | _ :: _, [] => None
  end.
(** RawSquareFreeTerm.cpp:51-56 isIdentity *)
Definition sq_isIdentityR (a : sqterm) : bool := forallb (N.eqb 0) a.
(** The loops [for (; res != resEnd; ...) *res = f( *a, *b)]; the number of words of res is given. *)
Fixpoint sq_mapR (f : N -> N -> N) (k : nat) (a b : sqterm) : option sqterm :=
  match k, a, b with
  | 0, _, _ => Some []
  | S k', x :: a', y :: b' => option_map (cons (f x y)) (sq_mapR f k' a' b')
  | _, _, _ => None
  end.
(** RawSquareFreeTerm.cpp:176-184 colon and colonInPlace (a is res) *)
Definition sq_colonR := sq_mapR (fun x y => N.ldiff x y).
(** RawSquareFreeTerm.cpp:251-255, 264-267 lcm and lcmInPlace *)
Definition sq_lcmR := sq_mapR N.lor.
(** RawSquareFreeTerm.cpp:276-279, 288-291 gcd and gcdInPlace *)
Definition sq_gcdR := sq_mapR N.land.
(** RawSquareFreeTerm.h:165-168 assign *)
Definition sq_assignR (a b : sqterm) : option sqterm := sq_mapR (fun _ y => y) (length a) a b.
(** RawSquareFreeTerm.cpp:115-118 setToIdentity *)
Definition sq_setToIdentityR (res : sqterm) : sqterm := map (fun _ => 0%N) res.

(** ** Loops over the words used by varCount variables *)

(** [for (; varCount >= BitsPerWord; ++res, varCount -= BitsPerWord) *res = f( *a); if (varCount > 0) *res = g( *a)] *)
Fixpoint sq_map1 (f : N -> N) (g : nat -> N -> N) (res : sqterm) (varCount : nat) : option sqterm :=
  if w <=? varCount then
    match res with
    | [] => None
    | x :: res' => option_map (cons (f x)) (sq_map1 f g res' (varCount - w))
    end
  else if 0 <? varCount then
    match res with [] => None | x :: res' => Some (g varCount x :: res') end
  else Some res.
(** the same with two operands *)
Fixpoint sq_map2 (f : N -> N -> N) (res a b : sqterm) (varCount : nat) : option sqterm :=
  if w <=? varCount then
    match res, a, b with
    | _ :: res', x :: a', y :: b' => option_map (cons (f x y)) (sq_map2 f res' a' b' (varCount - w))
    | _, _, _ => None
    end
  else if 0 <? varCount then
    match res, a, b with _ :: res', x :: a', y :: b' => Some (f x y :: res') | _, _, _ => None end
  else Some res.

(** RawSquareFreeTerm.cpp:120-125 setToIdentity *)
Definition sq_setToIdentity := sq_map1 (fun _ => 0%N) (fun _ _ => 0%N).
(** 128-135 setToAllVarProd.  The [~0] of line 130 is an int; its conversion to Word sets all bits. *)
Definition sq_setToAllVarProd := sq_map1 (fun _ => allOnes) (fun k _ => lowOnes k).
(** 311-318 invert *)
Definition sq_invert :=
  sq_map1 (fun x => N.ldiff allOnes x) (fun k x => N.land (N.ldiff allOnes x) (lowOnes k)).
(** 186-191 assign *)
Definition sq_assign (a b : sqterm) := sq_map2 (fun _ y => y) a a b.
(** 257-262 lcm, 269-274 lcmInPlace *)
Definition sq_lcm := sq_map2 N.lor.
Definition sq_lcmInPlace (res a : sqterm) := sq_map2 N.lor res res a.
(** 281-286 gcd, 293-298 gcdInPlace *)
Definition sq_gcd := sq_map2 N.land.
Definition sq_gcdInPlace (res a : sqterm) := sq_map2 N.land res res a.
(** 425-430 swap *)
Definition sq_swap (a b : sqterm) (varCount : nat) : option (sqterm * sqterm) :=
  match sq_assign a b varCount, sq_assign b a varCount with
  | Some a', Some b' => Some (a', b')
  | _, _ => None
  end.
(** 300-308 isRelativelyPrime *)
Fixpoint sq_isRelativelyPrime (a b : sqterm) (varCount : nat) : option bool :=
  if w <=? varCount then
    match a, b with
    | x :: a', y :: b' =>
        if negb (N.land x y =? 0)%N then Some false else sq_isRelativelyPrime a' b' (varCount - w)
    | _, _ => None
    end
  else if negb (varCount =? 0) then
    match a, b with x :: _, y :: _ => Some (N.land x y =? 0)%N | _, _ => None end
  else Some true.
(** RawSquareFreeTerm.h:183-193 hasFullSupport *)
Fixpoint sq_hasFullSupport (a : sqterm) (varCount : nat) : option bool :=
  if w <=? varCount then
    match a with
    | [] => None
    | x :: a' => if negb (x =? allOnes)%N then Some false else sq_hasFullSupport a' (varCount - w)
    end
  else if varCount =? 0 then Some true
  else match a with [] => None | x :: _ => Some (x =? lowOnes varCount)%N end.

(** RawSquareFreeTerm.cpp:58-69 isIdentity: the loop, and the function *)
Fixpoint sq_isIdentity_loop (a : sqterm) (varCount : nat) : option bool :=
  match a with
  | [] => None
  | x :: a' =>
      if negb (x =? 0)%N then Some false
      else if varCount <=? w then Some true
      else sq_isIdentity_loop a' (varCount - w)
  end.
Definition sq_isIdentity (a : sqterm) (varCount : nat) : option bool :=
  if varCount =? 0 then Some true else sq_isIdentity_loop a varCount.

(** [while (word != 0) { use(word & 1); word >>= 1 }]: the bits the loop sees, in order. *)
Fixpoint pos_bits (p : positive) : list bool :=
  match p with
  | xH => [true]
  | xO q => false :: pos_bits q
  | xI q => true :: pos_bits q
  end.
Definition word_bits (x : N) : list bool := match x with N0 => [] | Npos p => pos_bits p end.

(** 71-89 getSizeOfSupport *)
Definition bit_count (x : N) : nat := length (filter (fun b : bool => b) (word_bits x)).
Fixpoint sq_support_loop (a : sqterm) (varCount count : nat) : option nat :=
  match a with
  | [] => None
  | x :: a' =>
      let count' := count + bit_count x in
      if varCount <=? w then Some count' else sq_support_loop a' (varCount - w) count'
  end.
Definition sq_getSizeOfSupport (a : sqterm) (varCount : nat) : option nat :=
  if varCount =? 0 then Some 0 else sq_support_loop a varCount 0.

(** 158-174 lexLess.  [xorAB & (-xorAB)] is written as [N.ldiff xorAB (xorAB - 1)], which is the same number
    for xorAB <> 0: both are the lowest bit of xorAB. *)
Fixpoint sq_lexLess_loop (a b : sqterm) (varCount : nat) : option bool :=
  match a, b with
  | x :: a', y :: b' =>
      if negb (x =? y)%N then
        let xorAB := N.lxor x y in
        let leastSignificantBit := N.ldiff xorAB (xorAB - 1) in
        Some (N.land x leastSignificantBit =? 0)%N
      else if varCount <=? w then Some false
      else sq_lexLess_loop a' b' (varCount - w)
  | _, _ => None
  end.
Definition sq_lexLess (a b : sqterm) (varCount : nat) : option bool :=
  if varCount =? 0 then Some false else sq_lexLess_loop a b varCount.

(** 397-411 equals *)
Fixpoint sq_equals_loop (a b : sqterm) (varCount : nat) : option bool :=
  match a, b with
  | x :: a', y :: b' =>
      if negb (x =? y)%N then Some false
      else if varCount <=? w then Some true
      else sq_equals_loop a' b' (varCount - w)
  | _, _ => None
  end.
Definition sq_equals (a b : sqterm) (varCount : nat) : option bool :=
  if varCount =? 0 then Some true else sq_equals_loop a b varCount.

(** 415-423 isValid *)
Definition sq_isValid (a : sqterm) (varCount : nat) : option bool :=
  let offset := varCount / w in
  let left := varCount - w * offset in
  if left =? 0 then Some true
  else match nth_error a offset with
       | None => None
       | Some x => Some (N.ldiff x (lowOnes left) =? 0)%N
       end.

(** RawSquareFreeTerm.h:151-155 getExponent *)
Definition sq_getExponent (a : sqterm) (var : nat) : option bool :=
  match nth_error a (getWordOffset var) with
  | None => None
  | Some x => Some (negb (N.land x (N.shiftl 1 (N.of_nat (getBitOffset var))) =? 0)%N)
  end.
Fixpoint list_update (a : sqterm) (i : nat) (x : N) : sqterm :=
  match a, i with
  | [], _ => []
  | _ :: a', 0 => x :: a'
  | y :: a', S i' => y :: list_update a' i' x
  end.
(** RawSquareFreeTerm.h:170-176 setExponent *)
Definition sq_setExponent (a : sqterm) (var : nat) (value : bool) : option sqterm :=
  match nth_error a (getWordOffset var) with
  | None => None
  | Some x =>
      let bitOffset := N.of_nat (getBitOffset var) in
      let setBit := N.shiftl 1 bitOffset in
      let valueBit := N.shiftl (if value then 1 else 0) bitOffset in
      Some (list_update a (getWordOffset var) (N.lor (N.ldiff x setBit) valueBit))
  end.

(** 139-144 newTerm *)
Definition sq_newTerm (varCount : nat) : sqterm := repeat 0%N (getWordCount varCount).
(** 25-33 newTermParse: [str] is the string, given by the test of each character for '1' *)
Fixpoint sq_setAll (term : sqterm) (var : nat) (l : list bool) : option sqterm :=
  match l with
  | [] => Some term
  | b :: l' => match sq_setExponent term var b with None => None | Some t => sq_setAll t (S var) l' end
  end.
Definition sq_newTermParse (str : list bool) : option sqterm := sq_setAll (sq_newTerm (length str)) 0 str.

(** 100-113 compact: the two loops *)
Fixpoint sq_compact_loop (compacted term remove : sqterm) (vars : list nat) (newVarCount : nat)
  : option (sqterm * nat) :=
  match vars with
  | [] => Some (compacted, newVarCount)
  | var :: vars' =>
      match sq_getExponent remove var with
      | None => None
      | Some true => sq_compact_loop compacted term remove vars' newVarCount
      | Some false =>
          match sq_getExponent term var with
          | None => None
          | Some b =>
              match sq_setExponent compacted newVarCount b with
              | None => None
              | Some c => sq_compact_loop c term remove vars' (S newVarCount)
              end
          end
      end
  end.
Fixpoint sq_compact_pad (fuel : nat) (compacted : sqterm) (newVarCount : nat) : option sqterm :=
  match fuel with
  | 0 => Some compacted
  | S fuel' =>
      if newVarCount mod w =? 0 then Some compacted
      else match sq_setExponent compacted newVarCount false with
           | None => None
           | Some c => sq_compact_pad fuel' c (S newVarCount)
           end
  end.
(** compacted and term do not overlap *)
Definition sq_compact (compacted term remove : sqterm) (varCount : nat) : option (sqterm * nat) :=
  match sq_compact_loop compacted term remove (seq 0 varCount) 0 with
  | None => None
  | Some (c, k) => option_map (fun c' => (c', k)) (sq_compact_pad w c k)
  end.

(** 193-209, 211-227 encodeTerm for exponents of type Exponent and mpz_class.  The do loop: one word, from the
    current exponents on; [bit != 0] while fewer than w bits were handled.  The result is the rest of the exponents
    and the word; [None]: not square free. *)
Fixpoint encode_word (term : list Z) (k : nat) (word bit : N) : option (list Z * N) :=
  match k, term with
  | S k', e :: term' =>
      if (e =? 1)%Z then encode_word term' k' (N.lor word bit) (N.shiftl bit 1)
      else if negb (e =? 0)%Z then None
      else encode_word term' k' word (N.shiftl bit 1)
  | _, _ => Some (term, word)
  end.
(** The result: whether the term is square free, and the words from [encoded] on.  [None]: no room.  If the term is
    not square free, the code has overwritten a part of the word, which the model leaves alone. *)
Fixpoint sq_encodeTerm (encoded : sqterm) (term : list Z) : option (bool * sqterm) :=
  match term with
  | [] => Some (true, encoded)
  | _ :: _ =>
      match encoded with
      | [] => None
      | x :: encoded' =>
          match encode_word term w 0%N 1%N with
          | None => Some (false, x :: encoded')
          | Some (term', word) =>
              option_map (fun r => (fst r, word :: snd r)) (sq_encodeTerm encoded' term')
          end
      end
  end.
(** 229-249 encodeTerm for strings: the exponent a string stands for, 2 if the string is rejected. *)
Definition exponent_of_string (s : list ascii) : Z :=
  match s with
  | [] => 0
  | [c] => if ascii_dec c "1" then 1 else if ascii_dec c "0" then 0 else 2
  | _ => 2
  end%Z.
Definition sq_encodeStrings (encoded : sqterm) (term : list (list ascii)) : option (bool * sqterm) :=
  sq_encodeTerm encoded (map exponent_of_string term).

(** 322-353 getVarIfPure: the index of the only nonzero word ([Some None] if the function returns varCount) *)
Fixpoint sq_hit (a : sqterm) (varsToGo i : nat) (hit : option (nat * N)) : option (option (nat * N)) :=
  let step x := if negb (x =? 0)%N then match hit with Some _ => None | None => Some (Some (i, x)) end
                else Some hit in
  if w <=? varsToGo then
    match a with
    | [] => None
    | x :: a' => match step x with None => Some None | Some h => sq_hit a' (varsToGo - w) (S i) h end
    end
  else if negb (varsToGo =? 0) then
    match a with
    | [] => None
    | x :: a' => match step x with None => Some None | Some h => Some h end
    end
  else Some hit.
(** 343-352: the position of the lowest bit and what is left above it *)
Fixpoint lowest (p : positive) (k : nat) : nat * N :=
  match p with
  | xO q => lowest q (S k)
  | xI q => (k, Npos q)
  | xH => (k, 0%N)
  end.
Definition sq_getVarIfPure (a : sqterm) (varCount : nat) : option nat :=
  match sq_hit a varCount 0 None with
  | None => None
  | Some None => Some varCount
  | Some (Some (i, N0)) => None
  | Some (Some (i, Npos p)) =>
      let (k, word) := lowest p 0 in
      if negb (word =? 0)%N then Some varCount else Some (i * w + k)
  end.

(** 356-373 decrementAtSupport and 376-394 toZeroAtSupport: the loop over the bits of a word from [inc] on, and
    the loop over the words.  size_t is modelled as Z, that is, without the wrap around below 0. *)
Fixpoint at_bits (f : bool -> Z -> Z) (bits : list bool) (inc : list Z) : option (list Z) :=
  match bits, inc with
  | [], _ => Some inc
  | b :: bits', x :: inc' => option_map (cons (f b x)) (at_bits f bits' inc')
  | _ :: _, [] => None
  end.
Fixpoint at_words (f : bool -> Z -> Z) (a : sqterm) (inc : list Z) (varCount : nat) : option (list Z) :=
  match a with
  | [] => None
  | x :: a' =>
      match at_bits f (word_bits x) inc with
      | None => None
      | Some inc' =>
          if varCount <=? w then Some inc'
          else option_map (app (firstn w inc')) (at_words f a' (skipn w inc') (varCount - w))
      end
  end.
Definition sq_atSupport (f : bool -> Z -> Z) (a : sqterm) (inc : list Z) (varCount : nat) : option (list Z) :=
  if varCount =? 0 then Some inc else at_words f a inc varCount.
Definition sq_decrementAtSupport := sq_atSupport (fun b x => if b then x - 1 else x)%Z.
Definition sq_toZeroAtSupport := sq_atSupport (fun b x => if b then 0 else x)%Z.

(** ** RawSquareFreeIdeal.cpp: functions that work on words.  The ideal is the list of its generators, each with
    getWordCount(varCount) words. *)

(** 545-577 hasFullSupport: [col] is the list of the first words of what is left of the generators *)
Fixpoint sqi_hasFullSupport (gens : list sqterm) (ignore : sqterm) (varsLeft : nat) : option bool :=
  match ignore with
  | [] => None
  | x :: ignore' =>
      match all_some (map (@hd_error N) gens) with
      | None => None
      | Some col =>
          let support := fold_left N.lor col x in
          if w <? varsLeft then
            if negb (support =? allOnes)%N then Some false
            else sqi_hasFullSupport (map (@tl N) gens) ignore' (varsLeft - w)
          else if varsLeft =? w then Some (support =? allOnes)%N
          else Some (support =? lowOnes varsLeft)%N
      end
  end.

(** 521-543 getExclusiveVarGenerator: [once] and [twice] for one word position, then the first generator with
    such a variable *)
Definition once_twice (col : list N) : N * N :=
  fold_left (fun ot x => (N.lor (fst ot) x, N.lor (snd ot) (N.land (fst ot) x))) col (0%N, 0%N).
Fixpoint first_hit (mask : N) (col : list N) (i : nat) : option nat :=
  match col with
  | [] => None
  | x :: col' => if negb (N.land x mask =? 0)%N then Some i else first_hit mask col' (S i)
  end.
Fixpoint sqi_exclusive (gens : list sqterm) (words offset : nat) : option nat :=
  match words with
  | 0 => Some (length gens)
  | S words' =>
      match all_some (map (fun g => nth_error g offset) gens) with
      | None => None
      | Some col =>
          let (once, twice) := once_twice col in
          let onceOnly := N.ldiff once twice in
          if negb (onceOnly =? 0)%N then first_hit onceOnly col 0
          else sqi_exclusive gens words' (S offset)
      end
  end.
Definition sqi_getExclusiveVarGenerator (gens : list sqterm) (varCount : nat) : option nat :=
  sqi_exclusive gens (getWordCount varCount) 0.

(** 317-364 countVarDividesBlockUpTo15: [col] are the words of up to 15 generators at one word position.  The
    code handles an odd number of generators by an extra first step and then takes the words in pairs; that
    is the same sequence of additions. *)
Definition mask15 : N := (allOnes / 15)%N.
Definition nibbles (k : N) (col : list N) : N :=
  fold_left (fun acc x => (acc + N.land (N.shiftr x k) mask15) mod 2 ^ N.of_nat w)%N col 0%N.
Fixpoint add_counts (i : nat) (a0 a1 a2 a3 : N) (counts : list N) : option (list N) :=
  match i with
  | 0 => Some counts
  | S i' =>
      match counts with
      | c0 :: c1 :: c2 :: c3 :: counts' =>
          option_map (fun r => (c0 + N.land a0 15 :: c1 + N.land a1 15 :: c2 + N.land a2 15 :: c3 + N.land a3 15 :: r)%N)
            (add_counts i' (N.shiftr a0 4) (N.shiftr a1 4) (N.shiftr a2 4) (N.shiftr a3 4) counts')
      | _ => None
      end
  end.
Definition countBlock (col : list N) (counts : list N) : option (list N) :=
  add_counts (w / 4) (nibbles 0 col) (nibbles 1 col) (nibbles 2 col) (nibbles 3 col) counts.
(** 366-391 getVarDividesCounts: for one block of generators, all word positions *)
Fixpoint count_words (block : list sqterm) (counts : list N) (words : nat) : option (list N) :=
  match words with
  | 0 => Some counts
  | S words' =>
      match all_some (map (@hd_error N) block) with
      | None => None
      | Some col =>
          match countBlock col counts with
          | None => None
          | Some c => option_map (app (firstn w c)) (count_words (map (@tl N) block) (skipn w c) words')
          end
      end
  end.
Fixpoint count_blocks (fuel : nat) (gens : list sqterm) (counts : list N) (words : nat) : option (list N) :=
  match gens with
  | [] => Some counts
  | _ =>
      match fuel with
      | 0 => None
      | S fuel' =>
          match count_words (firstn 15 gens) counts words with
          | None => None
          | Some c => count_blocks fuel' (skipn 15 gens) c words
          end
      end
  end.
(** The vector has varCount entries and room for BitsPerWord more (reserve in 372); the entries for the unused
    bits of the last word are written there and stay 0.  The model has all the entries and cuts them off. *)
Definition sqi_getVarDividesCounts (gens : list sqterm) (varCount : nat) : option (list N) :=
  option_map (firstn varCount)
    (count_blocks (length gens) gens (repeat 0%N (w * getWordCount varCount)) (getWordCount varCount)).

(** 264-302 compact: the loop over the variables, for one generator (the terms do not influence each other);
    the mask for the last word; the words that are kept. *)
Definition sqi_compactTerm (term remove : sqterm) (varCount : nat) : option (sqterm * nat) :=
  (fix loop (term : sqterm) (vars : list nat) (varCompact : nat) : option (sqterm * nat) :=
     match vars with
     | [] =>
         let bitOffset := getBitOffset varCompact in
         let wordOffset := getWordOffset varCompact in
         let masked :=
           if negb (bitOffset =? 0) then
             match nth_error term wordOffset with
             | None => None
             | Some x => Some (list_update term wordOffset (N.land x (lowOnes bitOffset)))
             end
           else Some term in
         match masked with
         | None => None
         | Some t =>
             if getWordCount varCompact <=? length t then Some (firstn (getWordCount varCompact) t, varCompact)
             else None
         end
     | var :: vars' =>
         match sq_getExponent remove var with
         | None => None
         | Some true => loop term vars' varCompact
         | Some false =>
             match sq_getExponent term var with
             | None => None
             | Some b =>
                 match sq_setExponent term varCompact b with
                 | None => None
                 | Some t => loop t vars' (S varCompact)
                 end
             end
         end
     end) term (seq 0 varCount) 0.
End Words.

(** RawSquareFreeIdeal.cpp:110-138 getBytesOfMemoryFor.  [wb] is sizeof(Word), [bytesForStruct] is
    sizeof(RSFIdeal) - sizeof(Word), [smax] is the largest size_t; every result is taken modulo smax + 1. *)
Definition sqi_getBytesOfMemoryFor (wb bytesForStruct smax varCount generatorCount : N) : N :=
  (let wrap x := x mod (smax + 1) in
  if generatorCount =? 0 then bytesForStruct
  else
    let bytesPerGenUnaligned := if varCount =? 0 then 1 else wrap ((varCount - 1) / 8 + 1) in
    let wordsPerGen := wrap ((bytesPerGenUnaligned - 1) / wb + 1) in
    if smax / wb <? wordsPerGen then 0
    else
      let bytesPerGen := wrap (wordsPerGen * wb) in
      if smax / generatorCount <? bytesPerGen then 0
      else
        let bytesForGens := wrap (bytesPerGen * generatorCount) in
        if smax - bytesForStruct <? bytesForGens then 0
        else wrap (bytesForStruct + bytesForGens))%N.
