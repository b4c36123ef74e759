(** Model of dynamicFrobeniusAlgorithm.cpp, readFrobeniusInstance of IOHandler.cpp and the action frobdyn. *)
From Coq Require Import String Ascii.
From Coq Require Import List Arith Bool ZArith.
Import ListNotations.
From Verif Require Import M_Names M_IO.

(** dynamicFrobeniusAlgorithm.cpp:35-55 the loop.  The set of representable numbers is a list.  representableRun is an int:
    [max_int] is the largest one, and exceeding it is undefined.  [fuel] bounds the number of rounds; it is excluded by C45 that it
    runs out. *)
Definition representableBy (numbers repr : list Z) (number : Z) : bool :=
  existsb (fun a => if in_dec Z.eq_dec (number - a)%Z repr then true else false) numbers.
Fixpoint frob_loop (fuel : nat) (max_int : Z) (numbers : list Z) (minNumber : Z) (repr : list Z) (maximumNotRepresentable run number : Z) : res Z :=
  if (run <? minNumber)%Z then
    match fuel with
    | O => OutOfFuel
    | S fuel' =>
        if representableBy numbers repr number then
          if (run =? max_int)%Z then Undefined
          else frob_loop fuel' max_int numbers minNumber (number :: repr) maximumNotRepresentable (run + 1) (number + 1)
        else frob_loop fuel' max_int numbers minNumber repr number 0 (number + 1)
    end
  else Ok maximumNotRepresentable.
(** dynamicFrobeniusAlgorithm.cpp:23-58; the least of no numbers is undefined *)
Definition dynamicFrobenius (fuel : nat) (max_int : Z) (numbers : list Z) : res Z :=
  match numbers with
  | [a; b] => Ok (a * b - a - b)%Z
  | [] => Undefined
  | a :: rest => frob_loop fuel max_int numbers (fold_left Z.min rest a) [0%Z] 0 0 1
  end.
(** IOHandler.cpp:165-177 the loop that reads the numbers *)
Fixpoint readNumbers (fuel : nat) (numbers : list Z) (s : text) : res (list Z * text) :=
  match fuel with
  | O => OutOfFuel
  | S fuel' =>
      match hasMoreInput s with
      | (false, s) => Ok (numbers, s)
      | (true, s) =>
          LET (n, s) := readInteger s IN
          if (n <=? 1)%Z then SyntaxError else readNumbers fuel' (numbers ++ [n]) s
      end
  end.
(** IOHandler.cpp:160-196 readFrobeniusInstance *)
Definition readFrobeniusInstance (s : text) : res (list Z * text) :=
  LET (numbers, s) := readNumbers (S (List.length s)) [] s IN
  match numbers with
  | [] => SyntaxError
  | a :: rest => if (fold_left Z.gcd rest a =? 1)%Z then Ok (numbers, s) else SyntaxError
  end.
(** DynamicFrobeniusAction.cpp:41-56 perform: what is printed *)
Definition frobdyn (fuel : nat) (max_int : Z) (file : text) : res text :=
  LET (numbers, s) := readFrobeniusInstance (" "%char :: file) IN
  LET _ := expectEOF s IN
  LET g := dynamicFrobenius fuel max_int numbers IN
  Ok (z_str g ++ [nl]).
