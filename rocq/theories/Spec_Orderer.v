(** What the orders of generators mean. *)
From Coq Require Import List Arith Bool ZArith Ascii Sorted Permutation.
Import ListNotations.
From Verif Require Import Spec Spec_Slice Spec_Api Spec_Hilbert Spec_Scarf M_Names Spec_Names M_Orderer.

(** [r] is [l] sorted stably by [before]: it is made of the entries of [l] at the positions [ps], each position once, and an
    entry comes before another one only if it is before it in the order, or they are tied and it was first. *)
Definition stably_sorted (before : mono -> mono -> Prop) (l r : list mono) : Prop :=
  exists ps, Permutation ps (seq 0 (length l)) /\ r = at_positions l ps /\
    StronglySorted (fun i j => before (nth i l []) (nth j l []) \/ (~ before (nth j l []) (nth i l []) /\ i < j)) ps.

(** The number of entries that satisfy a test *)
Definition how_many {A} (f : A -> bool) (l : list A) : nat := length (filter f l).
(** The entry in the middle of the sorted list (the later one of two); 0 if there is none *)
Definition is_median (l : list nat) (m : nat) : Prop :=
  (l = [] /\ m = 0) \/ (In m l /\ how_many (fun e => e <? m) l <= length l / 2 < how_many (fun e => e <=? m) l).
Definition is_least_positive (l : list nat) (m : nat) : Prop :=
  (Forall (eq 0) l /\ m = 0) \/ (In m l /\ 0 < m /\ forall e, In e l -> 0 < e -> m <= e).
Definition is_greatest (l : list nat) (m : nat) : Prop :=
  (l = [] /\ m = 0) \/ (In m l /\ forall e, In e l -> e <= m).
(** Two generators have the same positive exponent of some variable. *)
Definition share_exponent (a b : mono) : Prop := exists v, nth v a 0 = nth v b 0 /\ 0 < nth v a 0.
(** In the weak version this does not count if some generator strictly divides the lcm. *)
Definition in_conflict (strong : bool) (I : list mono) (a b : mono) : Prop :=
  share_exponent a b /\ (strong = true \/ ~ exists g, In g I /\ strictly_divides g (pair_lcm a b)).
(** [k] is the number of other generators that are in conflict with [a]. *)
Definition conflicts (strong : bool) (I : list mono) (a : mono) (k : nat) : Prop :=
  exists L, NoDup L /\ (forall b, In b L <-> In b I /\ b <> a /\ in_conflict strong I a b) /\ k = length L.

(** The number by which a kind of order sorts *)
Definition key_of (k : okind) (I : list mono) (a : mono) (x : nat) : Prop :=
  match k with
  | KTdeg => x = degree a
  | KMedian => is_median a x
  | KPosMedian => is_median (filter (fun e => 0 <? e) a) x
  | KMinPos => is_least_positive a x
  | KMax => is_greatest a x
  | KSupport => x = how_many (fun e => negb (e =? 0)) a
  | KStrong => conflicts true I a x
  | KWeak => conflicts false I a x
  | KRandom | KNull | KLex | KRevLex => x = 0
  end.
(** The order that has a name; [random] and [null] have none *)
Definition kind_before (k : okind) (I : list mono) (a b : mono) : Prop :=
  match k with
  | KLex => lex_lt a b
  | KRevLex => lex_lt b a
  | _ => exists x y, key_of k I a x /\ key_of k I b y /\ x < y
  end.
(** rev: the other way round *)
Definition simple_before (I : list mono) (s : osimple) (a b : mono) : Prop :=
  match s with SBase k => kind_before k I a b | SReverse k => kind_before k I b a end.
(** The first one that tells the generators apart decides. *)
Fixpoint composite_before (I : list mono) (l : list osimple) (a b : mono) : Prop :=
  match l with
  | [] => False
  | s :: l' => simple_before I s a b \/ (~ simple_before I s b a /\ composite_before I l' a b)
  end.
Definition simples (o : orderer) : list osimple := match o with OSingle s => [s] | OComposite l => l end.
Definition orderer_before (I : list mono) (o : orderer) : mono -> mono -> Prop := composite_before I (simples o).
Definition kind_of (s : osimple) : okind := match s with SBase k | SReverse k => k end.
Definition not_random (o : orderer) : Prop := Forall (fun s => kind_of s <> KRandom) (simples o).

(** ** Names *)
(** The parts of a name, put together with underscores *)
Fixpoint joined (p : str) (ps : list str) : str :=
  match ps with [] => p | q :: ps' => p ++ "_"%char :: joined q ps' end.
(** What a part of a name without underscore stands for: "rev" and the name of an order, reversed, or the name of an order.
    Each name of an order may be abbreviated, if this is not ambiguous. *)
Definition stands_for (part : str) (s : osimple) : Prop :=
  match s with
  | SBase k => ~ prefix_of n_rev part /\ exists name, In (name, k) ordererFactory /\ getUniqueNameWithPrefix ordererFactory part = Found name
  | SReverse k => exists p name, part = n_rev ++ p /\ In (name, k) ordererFactory /\ getUniqueNameWithPrefix ordererFactory p = Found name
  end.
