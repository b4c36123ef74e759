(** Specification of Hilbert-Poincare series: textbook notions, independent of the code. *)
From Coq Require Import List Arith ZArith.
Import ListNotations.
From Verif Require Import Spec Spec_Slice Spec_Api M_Slice M_Msm M_Hilbert.

(** A polynomial is a list of (coefficient, monomial). *)
Definition poly := list (Z * mono).

(** The coefficient of the monomial [m] in the power series  p(x) / ((1-x_1)...(1-x_n)):  the sum of the
    coefficients of the terms of [p] whose monomial divides [m]. *)
Fixpoint divsb (a b : mono) : bool :=
  match a, b with
  | [], [] => true
  | x :: a', y :: b' => (x <=? y) && divsb a' b'
  | _, _ => false
  end.
Fixpoint series_coef (p : poly) (m : mono) : Z :=
  match p with
  | [] => 0
  | (c, d) :: p' => ((if divsb d m then c else 0) + series_coef p' m)%Z
  end.

(** [p] is the numerator of the multigraded Hilbert-Poincare series of R/<I>: the series
    p(x) / ((1-x_1)...(1-x_n)) has coefficient 1 at the monomials outside of <I> and 0 at those inside. *)
Definition multigraded_numerator (n : nat) (I : list mono) (p : poly) : Prop :=
  forall m, length m = n -> (in_ideal I m -> series_coef p m = 0%Z) /\ (~ in_ideal I m -> series_coef p m = 1%Z).

(** The monomials m/x^s for the sets s of variables with x^s dividing m, each with the sign (-1)^|s|. *)
Fixpoint signed_quotients (m : mono) : list (Z * mono) :=
  match m with
  | [] => [(1%Z, [])]
  | e :: m' =>
      map (fun t => (fst t, e :: snd t)) (signed_quotients m') ++
      match e with
      | 0 => []
      | S e' => map (fun t => (- fst t, e' :: snd t)%Z) (signed_quotients m')
      end
  end.
Definition in_idealb (I : list mono) (m : mono) : bool := existsb (fun g => divsb g m) I.
Fixpoint sum_signs (l : list (Z * mono)) : Z := match l with [] => 0 | t :: l' => (fst t + sum_signs l')%Z end.
(** The sum over those s of (-1)^|s| [m/x^s not in <I>]. *)
Definition alternating_sum (I : list mono) (m : mono) : Z :=
  sum_signs (filter (fun t => negb (in_idealb I (snd t))) (signed_quotients m)).

(** A polynomial in normal form: each monomial at most once, no zero coefficients. *)
Definition normal_poly (n : nat) (p : poly) : Prop :=
  NoDup (map snd p) /\ Forall (fun t => fst t <> 0%Z /\ length (snd t) = n) p.

(** The calls polynomialBegin(n), consume per term, polynomialEnd. *)
Definition poly_block (n : nat) (p : poly) : list pev :=
  PolynomialBegin n :: map (fun t => PConsume (fst t) (znat (snd t))) p ++ [PolynomialEnd].

(** Total degree. *)
Fixpoint degree (m : mono) : nat := match m with [] => 0 | e :: m' => e + degree m' end.

(** The sum of the coefficients of the terms of total degree [k]. *)
Fixpoint degree_coef (p : poly) (k : nat) : Z :=
  match p with
  | [] => 0
  | (c, d) :: p' => ((if (degree d =? k)%nat then c else 0) + degree_coef p' k)%Z
  end.

(** All monomials of degree [k] in [n] variables. *)
Fixpoint monos (n k : nat) : list mono :=
  match n with
  | 0 => if k =? 0 then [[]] else []
  | S n' => flat_map (fun e => map (cons e) (monos n' (k - e))) (seq 0 (S k))
  end.

(** The coefficient of t^k in the power series q(t) / (1-t)^n, where q is a list of (coefficient, degree):
    1/(1-t)^n has as coefficient of t^j the number of monomials of degree j. *)
Fixpoint uni_series (n : nat) (q : list (Z * nat)) (k : nat) : Z :=
  match q with
  | [] => 0
  | (c, j) :: q' => ((if (j <=? k)%nat then c * Z.of_nat (length (monos n (k - j)%nat)) else 0) + uni_series n q' k)%Z
  end.

(** [q] is the numerator of the univariate Hilbert-Poincare series of R/<I>: the coefficient of t^k in
    q(t) / (1-t)^n is the number of monomials of degree k outside of <I>. *)
Definition univariate_numerator (n : nat) (I : list mono) (q : list (Z * nat)) : Prop :=
  forall k, exists L, NoDup L /\ (forall m, In m L <-> length m = n /\ degree m = k /\ ~ in_ideal I m) /\
    uni_series n q k = Z.of_nat (length L).

(** A polynomial in one variable, written by descending degree without zero coefficients. *)
Fixpoint descending (q : list (Z * nat)) : Prop :=
  match q with
  | [] => True
  | (c, j) :: q' => c <> 0%Z /\ Forall (fun t => snd t < j) q' /\ descending q'
  end.
Definition uni_poly (q : list (Z * nat)) : poly := map (fun t => (fst t, [snd t])) q.

(** The states of a slice of the Hilbert algorithm between two operations. *)
Record hilbert_slice (s : slice) : Prop := {
  hs_ideal : in_ring (s_n s) (s_I s) /\ lists_minimal_generators (s_n s) (s_I s) (s_I s);
  hs_subtract : in_ring (s_n s) (s_S s) /\ lists_minimal_generators (s_n s) (s_S s) (s_S s);
  hs_multiply : length (s_q s) = s_n s;
  hs_lcm : s_upd s = true -> is_lcm (s_n s) (s_I s) (s_lcm s);
  hs_normal : forall x g, In x (s_S s) -> In g (s_I s) -> ~ strictly_divides x g;
  hs_hint : 0 < s_n s -> s_hint s < s_n s }.

(** A strategy that returns a legal pivot on every slice that is not a base case. *)
Definition legal_hilbert_rule (f : pivot_rule) : Prop :=
  forall rnd k s0 s, hilbert_slice s0 -> hil_baseCase s0 = (s, HNotBase) ->
  exists s' p k', f rnd k s = Some (s', p, k') /\ same_up_to_order s s' /\ legal_pivot s p.
Definition legal_hilbert_config (c : config) : Prop := exists f, c_split c = PivotSplit f /\ legal_hilbert_rule f.

(** The protocol of polynomial consumers: blocks polynomialBegin(n) consume* polynomialEnd, never nested. *)
Fixpoint poly_protocol (n : nat) (open : bool) (evs : list pev) : Prop :=
  match evs with
  | [] => open = false
  | PolynomialBegin m :: evs' => open = false /\ m = n /\ poly_protocol n true evs'
  | PConsume _ v :: evs' => open = true /\ length v = n /\ poly_protocol n open evs'
  | PolynomialEnd :: evs' => open = true /\ poly_protocol n false evs'
  end.
