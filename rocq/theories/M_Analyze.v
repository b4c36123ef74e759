(** Model of the action that displays information about an ideal: AnalyzeAction.cpp and IdealFacade.cpp:253-275. *)
From Coq Require Import String Ascii.
From Coq Require Import List Arith Bool ZArith.
Import ListNotations.
From Verif Require Import M_Term M_Ideal M_Api M_Names M_IO M_Intersect M_Transform M_Actions M_Bigatti M_Cli.

(** AnalyzeAction.h:43-49 and IOParameters.h, see options in M_Cli *)
Record analyze_options := AO { ao_max : Z; ao_in : option format; ao_out : option format; ao_summary : nat;
  ao_lcm : bool; ao_varCount : bool; ao_genCount : bool; ao_maxExp : bool; ao_minimal : bool }.

(** AnalyzeAction.cpp:80-83 the fields of AnalyzeConsumer *)
Record analysis := AC { ac_names : list str; ac_count : nat; ac_lcm : list Z }.
(** AnalyzeAction.cpp:36-40 consumeRing *)
Definition ac_ring (names : list str) (a : analysis) : analysis := AC names (ac_count a) (map (fun _ => 0%Z) names).
(** AnalyzeAction.cpp:51-58 consume *)
Definition ac_term (a : analysis) (t : list Z) : analysis :=
  AC (ac_names a) (S (ac_count a)) (map (fun p => if (fst p <? snd p)%Z then snd p else fst p) (combine (ac_lcm a) t)).
(** BigTermConsumer.cpp:50-61 consume of an ideal, with a new AnalyzeConsumer; consumeRing is called twice *)
Definition ac_ideal (J : list str * list (list Z)) : analysis :=
  fold_left ac_term (snd J) (ac_ring (fst J) (ac_ring (fst J) (AC [] 0 []))).
(** AnalyzeAction.cpp:75-78 getMaximumExponent *)
Fixpoint max_element (e : Z) (l : list Z) : Z :=
  match l with [] => e | x :: l' => max_element (if (e <? x)%Z then x else e) l' end.

Definition line (s : text) : text := s ++ [nl].
(** AnalyzeAction.cpp:190-218 analyzeStreaming; [f] is the output format *)
Definition analyzeStreaming (o : analyze_options) (f : format) (a : analysis) : text :=
  (if ao_lcm o then line (fmt_writeTerm f (ac_names a) (ac_lcm a)) else []) ++
  (if ao_varCount o then line (nat_str (List.length (ac_names a))) else []) ++
  (if ao_genCount o then line (nat_str (ac_count a)) else []) ++
  (if ao_maxExp o then
     if List.length (ac_names a) =? 0 then line (lit "0")
     else line (z_str (match ac_lcm a with e :: l => max_element e l | [] => 0%Z end))
   else []) ++
  (if ao_summary o =? 1 then line (nat_str (ac_count a) ++ lit " generators") ++ line (nat_str (List.length (ac_names a)) ++ lit " variables") else []).

(** IdealFacade.cpp:253-275 printAnalysis *)
Definition yes_no (b : bool) : text := if b then lit "yes" else lit "no".
Definition printAnalysis (J : nideal) : text :=
  let n := List.length (fst J) in
  let I := shrinkBigIdeal n (tr_initialize n (snd J)) (snd J) in
  let M := i_minimize n I in
  line (lit "generators: " ++ nat_str (List.length I)) ++
  line (lit "variables:  " ++ nat_str n) ++
  line (lit "minimally generated: " ++ yes_no (List.length M =? List.length I)) ++
  line (lit "strongly generic: " ++ yes_no (i_isStronglyGeneric n M)) ++
  line (lit "weakly generic: " ++ yes_no (i_isWeaklyGeneric n M)).
(** AnalyzeAction.cpp:173-188 analyzeIdeal; [None]: an index is outside its table *)
Definition analyzeIdeal (o : analyze_options) (J : nideal) : option text :=
  bind (if ao_minimal o then bind (if_minimize J) (fun R => Some (R, line (if List.length (snd J) =? List.length (snd R) then lit "1" else lit "0")))
        else Some (J, [])) (fun '(J, out) =>
  Some (out ++ if 2 <=? ao_summary o then printAnalysis J else [])).

Definition ao_input (o : analyze_options) (file : text) : format := match ao_in o with Some f => f | None => autoDetect file end.
Definition ao_output (o : analyze_options) (file : text) : format := match ao_out o with Some f => f | None => ao_input o file end.
(** AnalyzeAction.cpp:143-167 perform, 169-171 requiresWholeIdeal.  The reader without the whole ideal stores it as well
    (IOFacade.cpp:81-96). *)
Definition analyze_action (o : analyze_options) (file : text) : res text :=
  LET J := read_ideal (ao_max o) (ao_input o file) file IN
  let out := analyzeStreaming o (ao_output o file) (ac_ideal J) in
  if ao_minimal o || (1 <? ao_summary o) then
    match analyzeIdeal o (to_nideal J) with
    | None => Undefined
    | Some out' => Ok (out ++ out')
    end
  else Ok out.
