(** Model of randomDataGenerators.cpp and of what the actions genideal and genfrob do: GenerateDataFacade.cpp, GenerateIdealAction.cpp,
    GenerateFrobeniusAction.cpp and writeFrobeniusInstance of IOFacade.cpp. *)
From Coq Require Import String Ascii.
From Coq Require Import List Arith Bool ZArith.
Import ListNotations.
From Verif Require Import M_Term M_Ideal M_Names M_IO.
Local Open Scope list_scope.
Local Open Scope nat_scope.
Local Notation length := List.length.

(** An element of a vector that is given a value *)
Fixpoint put {A} (l : list A) (i : nat) (x : A) : list A :=
  match l, i with
  | [], _ => []
  | _ :: l', 0 => x :: l'
  | y :: l', S i' => y :: put l' i' x
  end.
(** BigIdeal.cpp:60-69 insert, into an ideal without generators *)
Definition big (I : ideal) : list (list Z) := map (map Z.of_nat) I.
(** What is generated: the names of the variables and the generators *)
Definition generated := (list str * list (list Z))%type.

(** randomDataGenerators.cpp:31-40 generateLinkedListIdeal *)
Definition generateLinkedListIdeal (n : nat) : generated :=
  (defaultNames n, big (map (fun var => t_set n (t_set n (t_identity n) var 1) (var - 1) 1) (seq 1 (n - 1)))).

(** randomDataGenerators.cpp:68-73, 75-80: the move leaves the board; [count] is the number of rows or columns and [delta] is not the least int *)
Definition off_board (count pos : nat) (delta : Z) : bool :=
  ((delta <? 0)%Z && (Z.of_nat pos <? - delta)%Z) || ((0 <? delta)%Z && (Z.of_nat (count - pos) <=? delta)%Z).
(** randomDataGenerators.cpp:42-100 generateChessIdeal; [max]: the largest size_t, [deltas]: the moves, deltaRow and deltaColumn *)
Definition chess_names (rows columns : nat) : list str :=
  flat_map (fun row => map (fun column => "r"%char :: nat_str (row + 1) ++ "c"%char :: nat_str (column + 1)) (seq 0 columns)) (seq 0 rows).
Definition chess_moves (rows columns : nat) (deltas : list (Z * Z)) : ideal :=
  flat_map (fun row => flat_map (fun column => flat_map (fun delta =>
    if off_board rows row (fst delta) then [] else if off_board columns column (snd delta) then [] else
    let targetRow := Z.to_nat (Z.of_nat row + fst delta) in
    let targetColumn := Z.to_nat (Z.of_nat column + snd delta) in
    let n := rows * columns in
    [t_set n (t_set n (t_identity n) (row * columns + column) 1) (targetRow * columns + targetColumn) 1]) deltas) (seq 0 columns)) (seq 0 rows).
Definition generateChessIdeal (max : Z) (rows columns : nat) (deltas : list (Z * Z)) : res generated :=
  if (max <? Z.of_nat rows * Z.of_nat columns)%Z then OtherError
  else Ok (chess_names rows columns, big (i_sortReverseLex (rows * columns) (chess_moves rows columns deltas))).
(** randomDataGenerators.cpp:102-111 *)
Definition generateKingChessIdeal (max : Z) (rowsAndColumns : nat) : res generated :=
  generateChessIdeal max rowsAndColumns rowsAndColumns (combine [-1; 0; 1; 1] [1; 1; 1; 0])%Z.
(** randomDataGenerators.cpp:113-122 *)
Definition generateKnightChessIdeal (max : Z) (rowsAndColumns : nat) : res generated :=
  generateChessIdeal max rowsAndColumns rowsAndColumns (combine [-1; 1; 2; 2] [2; 2; 1; -1])%Z.

(** randomDataGenerators.cpp:128-142 nextBitPattern; [None]: the result is false, and the pattern is all zeroes *)
Fixpoint nextBitPattern (pattern : list bool) : option (list bool) :=
  match pattern with
  | [] => None
  | true :: pattern' => option_map (cons false) (nextBitPattern pattern')
  | false :: pattern' => Some (true :: pattern')
  end.
(** randomDataGenerators.cpp:157-168 the generator of a pattern *)
Definition tree_term (n : nat) (pattern : list bool) : list Z :=
  let setSize := List.length (filter (fun b => b) pattern) in
  map (fun b : bool => if b then Z.of_nat (n - setSize + 1) else 0%Z) pattern.
(** randomDataGenerators.cpp:156-168 the loop; [fuel] bounds the number of rounds *)
Fixpoint tree_loop (fuel n : nat) (pattern : list bool) (terms : list (list Z)) : res (list (list Z)) :=
  match fuel with
  | 0 => OutOfFuel
  | S fuel' =>
      match nextBitPattern pattern with
      | None => Ok terms
      | Some pattern => tree_loop fuel' n pattern (terms ++ [tree_term n pattern])
      end
  end.
(** randomDataGenerators.cpp:145-169 generateTreeIdeal *)
Definition generateTreeIdeal (fuel n : nat) : res generated :=
  LET terms := tree_loop fuel n (repeat false n) [] IN Ok (defaultNames n, terms).

(** randomDataGenerators.cpp:186-217 the loop of generateRookChessIdeal *)
Fixpoint rook_loop (fuel n k : nat) (choice : list nat) (taken : list bool) (term : list nat) (level : nat) (I : ideal) : res ideal :=
  match fuel with
  | 0 => OutOfFuel
  | S fuel' =>
      let c := nth level choice 0 in
      if c =? k then
        match level with
        | 0 => Ok I
        | S level => let c := nth level choice 0 in
            rook_loop fuel' n k (put choice level (c + 1)) (put taken c false) (put term (level * k + c) 0) level I
        end
      else if nth c taken false then rook_loop fuel' n k (put choice level (c + 1)) taken term level I
      else
        let taken := put taken c true in
        let term := put term (level * k + c) 1 in
        if level <? n - 1 then rook_loop fuel' n k (put choice (S level) 0) taken term (S level) I
        else rook_loop fuel' n k (put choice level (c + 1)) (put taken c false) (put term (level * k + c) 0) level (i_insert I term)
  end.
(** randomDataGenerators.cpp:171-222 generateRookChessIdeal *)
Definition generateRookChessIdeal (fuel n k : nat) : res generated :=
  if (n =? 0) || (k =? 0) then OtherError
  else if (1000 <? Z.of_nat n)%Z || (1000 <? Z.of_nat k)%Z then OtherError
  else
    let (n, k) := if k <? n then (k, n) else (n, k) in
    LET J := rook_loop fuel n k (repeat 0 n) (repeat false k) (repeat 0 (n * k)) 0 [] IN
    Ok (defaultNames (n * k), big J).

(** randomDataGenerators.cpp:230-336 State; [None] is _notTaken *)
Record matching_state := MS { ms_nodes : list (option nat); ms_isAnchor : list bool; ms_term : list nat }.
(** randomDataGenerators.cpp:321-330 edgeToVar *)
Definition edgeToVar (a b : nat) : nat := let (a, b) := if a <? b then (b, a) else (a, b) in a * (a - 1) / 2 + b.
(** randomDataGenerators.cpp:232-237 *)
Definition ms_new (n : nat) : matching_state := MS (repeat None n) (repeat false n) (repeat 0 (n * (n - 1) / 2)).
(** randomDataGenerators.cpp:239-251 takeEdge, 253-258 takeNode, 260-266 dropNode, 268-280 dropEdge; [None] for the neighbor does not happen *)
Definition takeEdge (s : matching_state) (anchor other : nat) : matching_state :=
  MS (put (put (ms_nodes s) anchor (Some other)) other (Some anchor)) (put (ms_isAnchor s) anchor true) (put (ms_term s) (edgeToVar anchor other) 1).
Definition takeNode (s : matching_state) (node : nat) : matching_state := MS (put (ms_nodes s) node (Some node)) (ms_isAnchor s) (ms_term s).
Definition dropNode (s : matching_state) (node : nat) : matching_state := MS (put (ms_nodes s) node None) (ms_isAnchor s) (ms_term s).
Definition getNeighbor (s : matching_state) (node : nat) : res nat := match nth node (ms_nodes s) None with Some other => Ok other | None => Undefined end.
Definition dropEdge (s : matching_state) (anchor : nat) : res matching_state :=
  LET other := getNeighbor s anchor IN
  Ok (MS (put (put (ms_nodes s) other None) anchor None) (put (ms_isAnchor s) anchor false) (put (ms_term s) (edgeToVar anchor other) 0)).
(** randomDataGenerators.cpp:292-295 isTaken *)
Definition isTaken (s : matching_state) (node : nat) : bool := match nth node (ms_nodes s) None with Some _ => true | None => false end.
(** randomDataGenerators.cpp:302-308 getAnchorLeft; [None]: -1 *)
Fixpoint getAnchorLeft (s : matching_state) (node : nat) : option nat :=
  match node with
  | 0 => None
  | S node => if nth node (ms_isAnchor s) false then Some node else getAnchorLeft s node
  end.
(** randomDataGenerators.cpp:312-318 getNotTakenRight: the first node to the right that is not taken, or the number of nodes *)
Definition getNotTakenRight (n : nat) (s : matching_state) (node : nat) : nat :=
  match find (fun v => negb (isTaken s v)) (seq (S node) (n - S node)) with Some v => v | None => n end.
(** randomDataGenerators.cpp:349-385 the loop of generateMatchingIdeal; [None] for [node]: -1 *)
Fixpoint matching_loop (fuel n : nat) (s : matching_state) (node : option nat) (notUsed : nat) (I : ideal) : res ideal :=
  match fuel with
  | 0 => OutOfFuel
  | S fuel' =>
      match (match node with
             | Some node => Some (s, node, notUsed)
             | None =>
                 let (s, notUsed) := if notUsed <? n then (dropNode s notUsed, S notUsed) else (s, notUsed) in
                 if notUsed =? n then None else Some (takeNode s notUsed, 0, notUsed)
             end) with
      | None => Ok I
      | Some (s, node, notUsed) =>
          if node =? n then matching_loop fuel' n s (getAnchorLeft s node) notUsed (i_insert I (ms_term s))
          else if negb (isTaken s node) then
            let neighbor := getNotTakenRight n s node in
            if neighbor =? n then matching_loop fuel' n s (getAnchorLeft s node) notUsed I
            else let s := takeEdge s node neighbor in matching_loop fuel' n s (Some (getNotTakenRight n s neighbor)) notUsed I
          else
            LET neighbor := getNeighbor s node IN
            let nextNeighbor := getNotTakenRight n s neighbor in
            LET s := dropEdge s node IN
            if nextNeighbor =? n then matching_loop fuel' n s (getAnchorLeft s node) notUsed I
            else let s := takeEdge s node nextNeighbor in matching_loop fuel' n s (Some (getNotTakenRight n s node)) notUsed I
      end
  end.
(** randomDataGenerators.cpp:224-390 generateMatchingIdeal *)
Definition generateMatchingIdeal (fuel n : nat) : res generated :=
  if n =? 0 then OtherError
  else if (1000 <? Z.of_nat n)%Z then OtherError
  else
    LET J := (if n mod 2 =? 1 then matching_loop fuel n (takeNode (ms_new n) 0) (Some 1) 0 [] else matching_loop fuel n (ms_new n) (Some 0) n []) IN
    Ok (defaultNames (n * (n - 1) / 2), big J).

(** randomDataGenerators.cpp:398-419 the loop of generateRandomEdgeIdeal.  [max]: the largest size_t, [rand]: the random numbers, and [i] is the
    number of them that have been used; the result has the number of generators that are missing.  A number modulo 0 is undefined.
    triesLeft is a size_t, so that 0 - 1 is [max]. *)
Fixpoint edge_loop (fuel : nat) (max : Z) (rand : nat -> nat) (n i generatorsToGo : nat) (triesLeft : Z) (I : ideal) : res (ideal * nat) :=
  if (generatorsToGo =? 0) || (triesLeft =? 0)%Z then Ok (I, generatorsToGo)
  else
    match fuel with
    | 0 => OutOfFuel
    | S fuel' =>
        let triesLeft := ((triesLeft - 1) mod (max + 1))%Z in
        if n =? 0 then Undefined
        else
          let a := rand i mod n in
          let b := rand (i + 1) mod n in
          if a =? b then edge_loop fuel' max rand n (i + 2) generatorsToGo triesLeft I
          else
            let term := t_set n (t_set n (t_identity n) a 1) b 1 in
            let (I, generatorsToGo) := if i_isIncomparable n I term then (i_insert I term, generatorsToGo - 1) else (I, generatorsToGo) in
            edge_loop fuel' max rand n (i + 2) generatorsToGo ((triesLeft - 1) mod (max + 1))%Z I
    end.
(** randomDataGenerators.cpp:392-426 generateRandomEdgeIdeal *)
Definition generateRandomEdgeIdeal (fuel : nat) (max : Z) (rand : nat -> nat) (n count : nat) : res (generated * bool) :=
  LET (J, toGo) := edge_loop fuel max rand n 0 count (4 * 1000 * 1000)%Z [] IN
  Ok (defaultNames n, big J, toGo =? 0).

(** randomDataGenerators.cpp:441-445: the exponents; [max]: the largest size_t *)
Definition random_exponent (max : Z) (range r : nat) : nat := if (Z.of_nat range =? max)%Z then r else r mod (range + 1).
(** randomDataGenerators.cpp:438-451 the loop of generateRandomIdeal *)
Fixpoint random_loop (triesLeft : nat) (max : Z) (rand : nat -> nat) (range n i generatorsToGo : nat) (I : ideal) : ideal * nat :=
  if generatorsToGo =? 0 then (I, generatorsToGo)
  else
    match triesLeft with
    | 0 => (I, generatorsToGo)
    | S triesLeft' =>
        let term := tabulate n (fun var => random_exponent max range (rand (i + var))) in
        let (I, generatorsToGo) := if i_isIncomparable n I term then (i_insert I term, generatorsToGo - 1) else (I, generatorsToGo) in
        random_loop triesLeft' max rand range n (i + n) generatorsToGo I
    end.
(** randomDataGenerators.cpp:429-458 generateRandomIdeal *)
Definition generateRandomIdeal (max : Z) (rand : nat -> nat) (range n count : nat) : generated * bool :=
  let (J, toGo) := random_loop (Z.to_nat (4 * 1000 * 1000)) max rand range n 0 count [] in
  (defaultNames n, big J, toGo =? 0).

(** std::sort of integers (external) *)
Fixpoint z_insert (x : Z) (l : list Z) : list Z :=
  match l with
  | [] => [x]
  | y :: l' => if (x <=? y)%Z then x :: l else y :: z_insert x l'
  end.
Definition z_sort (l : list Z) : list Z := fold_right z_insert [] l.
(** randomDataGenerators.cpp:460-490 generateRandomFrobeniusInstance.  gmp_randclass::get_z_range(m) (external) gives some number that is at
    least 0 and less than m: here a random number modulo m. *)
Definition generateRandomFrobeniusInstance (rand : nat -> nat) (entryCount : nat) (maxEntry : Z) : list Z :=
  match map (fun i => (Z.of_nat (rand i) mod maxEntry + 1)%Z) (seq 0 entryCount) with
  | [] => []
  | a :: rest => z_sort ((a / fold_left Z.gcd rest a)%Z :: rest)
  end.
(** IOFacade.cpp:304-316 writeFrobeniusInstance *)
Fixpoint writeFrobeniusInstance (instance : list Z) : text :=
  match instance with
  | [] => [nl]
  | [a] => z_str a ++ [nl]
  | a :: rest => z_str a ++ " "%char :: writeFrobeniusInstance rest
  end.

(** GenerateIdealAction.cpp:66-90 with GenerateDataFacade.cpp:27-115 (the notes about missing generators go to stderr): [type] is the option
    -type.  An unsigned int is passed to each generator. *)
Definition generate (fuel : nat) (max : Z) (rand : nat -> nat) (type : str) (range vars gens : nat) : res generated :=
  if str_dec type (lit "random") then Ok (fst (generateRandomIdeal max rand range vars gens))
  else if str_dec type (lit "list") then Ok (generateLinkedListIdeal vars)
  else if str_dec type (lit "edge") then LET r := generateRandomEdgeIdeal fuel max rand vars gens IN Ok (fst r)
  else if str_dec type (lit "king") then generateKingChessIdeal max vars
  else if str_dec type (lit "knight") then generateKnightChessIdeal max vars
  else if str_dec type (lit "rook") then generateRookChessIdeal fuel vars gens
  else if str_dec type (lit "matching") then generateMatchingIdeal fuel vars
  else if str_dec type (lit "tree") then generateTreeIdeal fuel vars
  else OtherError.
(** GenerateIdealAction.cpp:66-96 after validateFormats *)
Definition genideal_action (fuel : nat) (max : Z) (rand : nat -> nat) (f : format) (type : str) (range vars gens : nat) : res text :=
  LET (names, J) := generate fuel max rand type range vars gens IN write_ideal f names J.
(** GenerateFrobeniusAction.cpp:51-68 perform *)
Definition genfrob_action (rand : nat -> nat) (entryCount maxEntryDigits : nat) : res text :=
  if entryCount <? 1 then OtherError
  else if maxEntryDigits <? 1 then OtherError
  else Ok (writeFrobeniusInstance (generateRandomFrobeniusInstance rand entryCount (10 ^ Z.of_nat maxEntryDigits))).
