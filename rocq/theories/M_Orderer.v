(** Model of IdealOrderer.cpp and of the functions of TermExtra.cpp that it uses. *)
From Coq Require Import List Arith Bool ZArith Ascii.
Import ListNotations.
From Verif Require Import M_Term M_Ideal M_Msm M_Names.

(** ** TermExtra.cpp *)
(** The exponents a[0], ..., a[n-1] *)
Definition exponents (n : nat) (a : term) : list nat := map (fun v => a @ v) (seq 0 n).
(** nth_element(begin, begin + size / 2, end) and then the element in the middle.  The library function is modelled by
    sorting everything. *)
Definition middle_element (l : list nat) : nat := nth (length l / 2) (std_sort Nat.ltb l) 0.
(** TermExtra.cpp:25-33 median *)
Definition x_median (n : nat) (a : term) : nat := if n =? 0 then 0 else middle_element (exponents n a).
(** TermExtra.cpp:35-47 medianPositive *)
Definition x_medianPositive (n : nat) (a : term) : nat :=
  let exps := filter (fun e => 0 <? e) (exponents n a) in
  match exps with [] => 0 | _ => middle_element exps end.
(** TermExtra.cpp:49-53 totalDegree: a[0] is read even if there are no variables, see [o_base].  The sum is an mpz_class. *)
Definition x_totalDegree (n : nat) (a : term) : nat := fold_left (fun res v => res + a @ v) (seq 1 (n - 1)) (a @ 0).
(** TermExtra.cpp:55-66 minimumPositive *)
Fixpoint min_positive (min : nat) (l : list nat) : nat :=
  match l with
  | [] => min
  | e :: l' => min_positive (if negb (e =? 0) && (e <? min) then e else min) l'
  end.
Fixpoint x_minPos_list (l : list nat) : nat :=
  match l with
  | [] => 0
  | e :: l' => if negb (e =? 0) then min_positive e l else x_minPos_list l'
  end.
Definition x_minimumPositive (n : nat) (a : term) : nat := x_minPos_list (exponents n a).
(** TermExtra.cpp:68-74 maximum *)
Definition x_maximum (n : nat) (a : term) : nat := fold_left (fun max e => if max <? e then e else max) (exponents n a) 0.

(** ** IdealOrderer.cpp *)
(** The classes that have a name, IdealOrderer.cpp:38-206 *)
Inductive okind := KRandom | KNull | KLex | KRevLex | KTdeg | KMedian | KPosMedian | KMinPos | KMax | KSupport | KStrong | KWeak.
(** IdealOrderer.cpp:135-167 orderGenericity: two generators are in conflict if they share a positive exponent and, for the
    weak version, no generator strictly divides their lcm *)
Definition conflict (strong : bool) (n : nat) (I : ideal) (a b : term) : bool :=
  t_sharesNonZero n a b && (strong || negb (i_strictlyContains n I (t_lcm n a b))).
(** IdealOrderer.cpp:147-163: how often the entry of the generator at position [i] is increased, first as *b for the earlier
    generators and then as *a for the later ones.  The map is keyed by addresses, that is by positions. *)
Definition degeneracy (strong : bool) (n : nat) (I : ideal) (i : nat) : nat :=
  length (filter (fun j => conflict strong n I (nth j I []) (nth i I [])) (seq 0 i)) +
  length (filter (fun j => conflict strong n I (nth i I []) (nth j I [])) (seq (S i) (length I - S i))).
(** IdealOrderer.cpp:165-166: a stable sort of the generators by their degeneracy *)
Definition o_genericity (strong : bool) (n : nat) (I : ideal) : ideal :=
  map (fun i => nth i I []) (std_sort (fun i j => degeneracy strong n I i <? degeneracy strong n I j) (seq 0 (length I))).
(** doOrder of the classes with a name.  [shuffle] is what std::shuffle does.  The insertion sort [std_sort] is stable, as
    std::stable_sort is.  [None]: reads a[0] of a term without variables. *)
Definition o_key (key : term -> nat) (I : ideal) : ideal := std_sort (fun a b => key a <? key b) I.
Definition o_base (shuffle : ideal -> ideal) (n : nat) (k : okind) (I : ideal) : option ideal :=
  match k with
  | KRandom => Some (shuffle I)                                                                            (* 52-66 *)
  | KNull => Some I                                                                                        (* 189-194 *)
  | KLex => Some (std_sort (t_lexLess n) I)
  | KRevLex => Some (std_sort (t_revLexLess n) I)
  | KTdeg => if (n =? 0) && (2 <=? length I) then None else Some (o_key (x_totalDegree n) I)               (* 68-80 *)
  | KMedian => Some (o_key (x_median n) I)                                                                 (* 82-90 *)
  | KPosMedian => Some (o_key (x_medianPositive n) I)                                                      (* 92-101 *)
  | KMinPos => Some (o_key (x_minimumPositive n) I)                                                        (* 103-112 *)
  | KMax => Some (o_key (x_maximum n) I)                                                                   (* 114-122 *)
  | KSupport => Some (o_key (t_sizeOfSupport n) I)                                                         (* 124-133 *)
  | KStrong => Some (o_genericity true n I)                                                                (* 172-174 *)
  | KWeak => Some (o_genericity false n I)                                                                 (* 201-203 *)
  end.
(** A class with a name or the class ReverseOrderer around one *)
Inductive osimple := SBase (k : okind) | SReverse (k : okind).
(** IdealOrderer.cpp:213-220 ReverseOrderer::doOrder *)
Definition o_simple (shuffle : ideal -> ideal) (n : nat) (s : osimple) (I : ideal) : option ideal :=
  match s with
  | SBase k => o_base shuffle n k I
  | SReverse k => match o_base shuffle n k (rev I) with Some r => Some (rev r) | None => None end
  end.
(** What createIdealOrderer makes *)
Inductive orderer := OSingle (s : osimple) | OComposite (l : list osimple).
(** IdealOrderer.cpp:236-245 CompositeOrderer::doOrder: from the last orderer to the first.  [shuffle] is numbered from the
    last orderer on. *)
Fixpoint o_composite (shuffle : nat -> ideal -> ideal) (n : nat) (l : list osimple) (I : ideal) : option ideal :=
  match l with
  | [] => Some I
  | s :: l' => match o_composite shuffle n l' I with Some r => o_simple (shuffle (length l')) n s r | None => None end
  end.
Definition o_order (shuffle : nat -> ideal -> ideal) (n : nat) (o : orderer) (I : ideal) : option ideal :=
  match o with OSingle s => o_simple (shuffle 0) n s I | OComposite l => o_composite shuffle n l I end.

(** ** Names *)
Local Open Scope char_scope.
Definition n_rev : str := ["r"; "e"; "v"].
Definition n_random : str := ["r"; "a"; "n"; "d"; "o"; "m"].
Definition n_null : str := ["n"; "u"; "l"; "l"].
Definition n_lex : str := ["l"; "e"; "x"].
Definition n_revlex : str := n_rev ++ n_lex.
Definition n_tdeg : str := ["t"; "d"; "e"; "g"].
Definition n_median : str := ["m"; "e"; "d"; "i"; "a"; "n"].
Definition n_posMedian : str := ["p"; "o"; "s"; "M"; "e"; "d"; "i"; "a"; "n"].
Definition n_minPos : str := ["m"; "i"; "n"; "P"; "o"; "s"].
Definition n_max : str := ["m"; "a"; "x"].
Definition n_support : str := ["s"; "u"; "p"; "p"; "o"; "r"; "t"].
Definition n_genericity : str := ["G"; "e"; "n"; "e"; "r"; "i"; "c"; "i"; "t"; "y"].
Definition n_strong : str := ["s"; "t"; "r"; "o"; "n"; "g"] ++ n_genericity.
Definition n_weak : str := ["w"; "e"; "a"; "k"] ++ n_genericity.
(** IdealOrderer.cpp:251-268 getOrdererFactory *)
Definition ordererFactory : list (str * okind) :=
  [(n_random, KRandom); (n_null, KNull); (n_lex, KLex); (n_revlex, KRevLex); (n_tdeg, KTdeg); (n_median, KMedian);
   (n_posMedian, KPosMedian); (n_minPos, KMinPos); (n_max, KMax); (n_support, KSupport); (n_strong, KStrong); (n_weak, KWeak)].
(** IdealOrderer.cpp:270-277 createNonCompositeOrderer; [inl None]: a null pointer; [inr]: an exception *)
Definition createNonCompositeOrderer (prefix : str) : option osimple + lookup :=
  if str_dec (firstn 3 prefix) n_rev then
    match createWithPrefix ordererFactory (skipn 3 prefix) with inl p => inl (option_map SReverse p) | inr e => inr e end
  else match createWithPrefix ordererFactory prefix with inl p => inl (option_map SBase p) | inr e => inr e end.
(** IdealOrderer.cpp:285-294: the parts between the underscores *)
Fixpoint split_underscore (s : str) : str * list str :=
  match s with
  | [] => ([], [])
  | c :: s' => let (p, ps) := split_underscore s' in if ascii_dec c "_" then ([], p :: ps) else (c :: p, ps)
  end.
Fixpoint createAll (parts : list str) : option (list osimple) + lookup :=
  match parts with
  | [] => inl (Some [])
  | p :: parts' =>
      match createNonCompositeOrderer p with
      | inr e => inr e
      | inl None => inl None
      | inl (Some s) =>
          match createAll parts' with inr e => inr e | inl None => inl None | inl (Some l) => inl (Some (s :: l)) end
      end
  end.
(** IdealOrderer.cpp:280-296 createIdealOrderer *)
Definition createIdealOrderer (prefix : str) : option orderer + lookup :=
  let (p, ps) := split_underscore prefix in
  match ps with
  | [] => match createNonCompositeOrderer p with inl r => inl (option_map OSingle r) | inr e => inr e end
  | _ => match createAll (p :: ps) with inl r => inl (option_map OComposite r) | inr e => inr e end
  end.
(** ScarfParams.cpp:29-33 the defaults of the options *)
Definition enumerationOrderDefault : str := n_revlex.
Definition deformationOrderDefault : str := n_tdeg ++ ["_"] ++ n_lex.
