(** The actions that generate ideals and instances of the Frobenius problem. *)
From Coq Require Import String Ascii.
From Coq Require Import List Arith Bool ZArith Lia Permutation.
Import ListNotations.
From Verif Require Import M_Term M_Ideal M_Names M_IO Spec_IO M_Frob M_Generate M_Cli3 Spec_Names Spec_Cli3 M_Main Spec_Hilbert P_Term P_Names P_Cli12 P_IO P_IO6 P_IO7 P_IO8 P_Frob2 P_Main P_Main2 P_Generate P_Generate2 P_Generate3 P_Generate4.
From Verif Require Import Spec Spec_Api Spec_Frob Spec_Main Spec_Generate.
Local Open Scope list_scope.
Local Open Scope nat_scope.
Local Notation length := List.length.

(** ** Names *)
Lemma split_digits c : isdigit c = false -> forall l1 l2 t1 t2, Forall (fun c => isdigit c = true) l1 -> Forall (fun c => isdigit c = true) l2 -> l1 ++ c :: t1 = l2 ++ c :: t2 -> l1 = l2 /\ t1 = t2.
Proof.
  intros C. induction l1 as [|x l1 IH]; intros [|y l2] t1 t2 F1 F2 E; cbn in E; inversion E; subst; auto.
  - inversion F2; congruence.
  - inversion F1; congruence.
  - inversion F1; inversion F2; subst. destruct (IH l2 t1 t2) as [-> ->]; auto.
Qed.
Lemma chess_legal n names : chess_variables n names -> legal_names names.
Proof.
  intros [L H]. assert (D : forall v, v < n * n -> exists r c, r < n /\ c < n /\ v = r * n + c).
  { intros v Hv. assert (n <> 0) by nia. exists (v / n), (v mod n). split; [apply Nat.div_lt_upper_bound; auto|]. split; [apply Nat.mod_upper_bound; auto|]. rewrite Nat.mul_comm. apply Nat.div_mod; auto. }
  split.
  - rewrite (NoDup_nth names []). intros i j Hi Hj E. rewrite L in Hi, Hj. destruct (D i Hi) as (r & c & R & C & ->). destruct (D j Hj) as (r' & c' & R' & C' & ->). rewrite !H in E by auto. inversion E as [E'].
    apply split_digits in E'; [|reflexivity|apply nat_str_digits|apply nat_str_digits]. destruct E' as [E1 E2]. apply nat_str_inj in E1, E2. f_equal; [f_equal|]; lia.
  - apply Forall_forall. intros x Hx. apply (In_nth _ _ []) in Hx. destruct Hx as (v & Hv & <-). rewrite L in Hv. destruct (D v Hv) as (r & c & R & C & ->). rewrite H by auto.
    assert (Q : forall k, Forall (fun d => letter d \/ Spec_IO.digit d \/ d = "_"%char) (nat_str k)). { intros k. destruct (nat_str_digits k) as [A _]. eapply Forall_impl; [|exact A]. intros d Hd. right. left. now apply P_IO.digit_iff. }
    cbn [legal_name]. split; [right; cbn; lia|]. apply Forall_app. split; auto. constructor; auto. left. right. cbn. lia.
Qed.
(** ** With more steps *)
Lemma tree_more n : forall fuel pattern terms J, tree_loop fuel n pattern terms = Ok J -> forall k, tree_loop (fuel + k) n pattern terms = Ok J.
Proof. induction fuel as [|fuel IH]; intros pattern terms J H k; [discriminate|]. revert H. cbn. destruct (nextBitPattern pattern); auto. Qed.
Lemma rook_more n k : forall fuel choice taken term level I J, rook_loop fuel n k choice taken term level I = Ok J -> forall j, rook_loop (fuel + j) n k choice taken term level I = Ok J.
Proof.
  induction fuel as [|fuel IH]; intros choice taken term level I J H j; [discriminate|]. revert H. cbn [Nat.add rook_loop]. cbv zeta. destruct (_ =? k); [destruct level; auto|]. destruct (nth _ taken false); auto. destruct (level <? n - 1); auto.
Qed.
Lemma enough_tree n fuel r : generateTreeIdeal fuel n = Ok r -> forall k, generateTreeIdeal (fuel + k) n = Ok r.
Proof.
  unfold generateTreeIdeal. intros H k. destruct (tree_loop fuel n _ _) eqn:E; cbn [rbind] in H; try discriminate. rewrite (tree_more _ _ _ _ _ E). exact H.
Qed.
Lemma enough_rook n m fuel r : generateRookChessIdeal fuel n m = Ok r -> forall k, generateRookChessIdeal (fuel + k) n m = Ok r.
Proof.
  unfold generateRookChessIdeal. intros H k. destruct ((n =? 0) || (m =? 0)); auto. destruct ((1000 <? _)%Z || _); auto. destruct (if m <? n then _ else _) as [a b].
  destruct (rook_loop fuel a b _ _ _ _ _) eqn:E; cbn [rbind] in H; try discriminate. rewrite (rook_more _ _ _ _ _ _ _ _ _ E). exact H.
Qed.
Lemma enough_matching n fuel r : generateMatchingIdeal fuel n = Ok r -> forall k, generateMatchingIdeal (fuel + k) n = Ok r.
Proof.
  unfold generateMatchingIdeal. intros H k. destruct (n =? 0); auto. destruct (1000 <? _)%Z; auto. destruct (n mod 2 =? 1).
  - destruct (matching_loop fuel n (takeNode _ _) _ _ _) eqn:E; cbn [rbind] in H; try discriminate. rewrite (more_fuel _ _ _ _ _ _ _ E). exact H.
  - destruct (matching_loop fuel n (ms_new n) _ _ _) eqn:E; cbn [rbind] in H; try discriminate. rewrite (more_fuel _ _ _ _ _ _ _ E). exact H.
Qed.
(** ** Generating *)
Definition generated_well (max : Z) (rand : nat -> nat) (type : string) (range n k : nat) (r : generated) : Prop :=
  exists gens, snd r = map znat gens /\ family rand range n k type (fst r) gens /\ lists_minimal_generators (length (fst r)) gens gens /\ legal_names (fst r).
Lemma x_length n : length (x_names n) = n. Proof. unfold x_names. now rewrite map_length, seq_length. Qed.
Lemma x_legal n : legal_names (x_names n). Proof. exact (default_legal n). Qed.
Lemma generate_well fuel max rand type range n k r : In type family_types -> (type = "random"%string -> (Z.of_nat range < max)%Z) ->
  generate fuel max rand (lit type) range n k = Ok r -> generated_well max rand type range n k r.
Proof.
  intros Ty Ra. unfold family_types in Ty. cbn [In] in Ty. destruct Ty as [<-|[<-|[<-|[<-|[<-|[<-|[<-|[<-|[]]]]]]]]].
  - intros H. destruct (p_random max rand range n k (Ra eq_refl)) as (gens & full & E & M & L & _ & C & _).
    change (Ok (fst (generateRandomIdeal max rand range n k)) = Ok r) in H. rewrite E in H. inversion H; subst. exists gens. cbn [fst snd]. rewrite x_length. split; auto. split; [|split; auto using x_legal].
    constructor; auto. apply Forall_forall. intros m Hm. destruct (C m Hm) as (t & _ & ->). eauto.
  - intros H. change ((LET r := generateRandomEdgeIdeal fuel max rand n k IN Ok (fst r)) = Ok r) in H. destruct (generateRandomEdgeIdeal fuel max rand n k) as [q| | | | |] eqn:E; cbn [rbind] in H; try discriminate. inversion H; subst.
    destruct (p_edge _ _ _ _ _ _ E) as (gens & full & -> & F & M & L & _). exists gens. cbn [fst snd]. rewrite x_length. split; auto. split; [now constructor|]. split; auto using x_legal.
  - intros H. change (Ok (generateLinkedListIdeal n) = Ok r) in H. destruct (p_list n) as (gens & E & L & P & M). rewrite E in H. inversion H; subst. exists gens. cbn [fst snd]. rewrite x_length.
    split; auto. split; [|split; auto using x_legal]. constructor. split; [apply M|]. intros m. split.
    + intros Hm. apply (In_nth _ _ []) in Hm. destruct Hm as (i & Hi & <-). assert (Hi' : S i < n) by (unfold mono in *; lia). exists i. split; [auto|]. apply P. lia.
    + intros (i & Hi & Pm). assert (m = nth i gens []); [|subst; apply nth_In; unfold mono in *; lia]. apply (product_ext n (fun v => v = i \/ v = S i)); auto. intros v. destruct (Nat.eq_dec v i); auto. destruct (Nat.eq_dec v (S i)); auto. right. tauto.
  - intros H. change (generateKingChessIdeal max n = Ok r) in H. destruct (p_king max n) as (names & gens & E & V & X & M & _). rewrite E in H. destruct (max <? _)%Z; inversion H; subst. exists gens. cbn [fst snd].
    split; auto. split; [now constructor|]. split; [|eapply chess_legal; eauto]. destruct V as [-> _]. auto.
  - intros H. change (generateKnightChessIdeal max n = Ok r) in H. destruct (p_knight max n) as (names & gens & E & V & X & M & _). rewrite E in H. destruct (max <? _)%Z; inversion H; subst. exists gens. cbn [fst snd].
    split; auto. split; [now constructor|]. split; [|eapply chess_legal; eauto]. destruct V as [-> _]. auto.
  - intros H. change (generateRookChessIdeal fuel n k = Ok r) in H. assert (B : 1 <= n <= 1000 /\ 1 <= k <= 1000).
    { destruct (Nat.eq_dec n 0); [rewrite p_rook_errors in H by lia; discriminate|]. destruct (Nat.eq_dec k 0); [rewrite p_rook_errors in H by lia; discriminate|].
      destruct (Nat.lt_ge_cases 1000 n); [rewrite p_rook_errors in H by lia; discriminate|]. destruct (Nat.lt_ge_cases 1000 k); [rewrite p_rook_errors in H by lia; discriminate|]. lia. }
    destruct (p_rook n k (proj1 B) (proj2 B)) as (gens & (s & R) & X & M). pose proof (enough_rook _ _ _ _ H s) as H'. rewrite R in H' by lia. inversion H'; subst. exists gens. cbn [fst snd]. rewrite x_length.
    split; auto. split; [constructor; tauto|]. split; auto using x_legal.
  - intros H. change (generateMatchingIdeal fuel n = Ok r) in H. assert (B : 1 <= n <= 1000).
    { destruct (Nat.eq_dec n 0); [rewrite p_matching_errors in H by lia; discriminate|]. destruct (Nat.lt_ge_cases 1000 n); [rewrite p_matching_errors in H by lia; discriminate|]. lia. }
    destruct (p_matching n B) as (gens & (s & R) & X & M). pose proof (enough_matching _ _ _ H s) as H'. rewrite R in H' by lia. inversion H'; subst. exists gens. cbn [fst snd]. rewrite x_length.
    split; auto. split; [constructor; tauto|]. split; auto using x_legal.
  - intros H. change (generateTreeIdeal fuel n = Ok r) in H. destruct (p_tree n) as (gens & (s & R) & X & M & _). pose proof (enough_tree _ _ _ H s) as H'. rewrite R in H' by lia. inversion H'; subst. exists gens. cbn [fst snd]. rewrite x_length.
    split; auto. split; [constructor; tauto|]. split; auto using x_legal.
Qed.
Lemma generate_ends max rand type range n k : In type ["random"; "list"; "tree"]%string \/ (In type ["king"; "knight"]%string /\ (Z.of_nat (n * n) <= max)%Z) \/
    (type = "rook"%string /\ 1 <= n <= 1000 /\ 1 <= k <= 1000) \/ (type = "matching"%string /\ 1 <= n <= 1000) ->
  exists enough, forall fuel, enough <= fuel -> exists r, generate fuel max rand (lit type) range n k = Ok r.
Proof.
  intros [[<-|[<-|[<-|[]]]]|[[[<-|[<-|[]]] B]|[(-> & B1 & B2)|(-> & B1)]]].
  - exists 0. intros fuel _. eexists. reflexivity.
  - exists 0. intros fuel _. eexists. reflexivity.
  - destruct (p_tree n) as (gens & (s & R) & _). exists s. intros fuel F. eexists. exact (R fuel F).
  - destruct (p_king max n) as (names & gens & E & _). destruct (Z.ltb_spec max (Z.of_nat (n * n))); [lia|]. exists 0. intros fuel _. eexists. exact E.
  - destruct (p_knight max n) as (names & gens & E & _). destruct (Z.ltb_spec max (Z.of_nat (n * n))); [lia|]. exists 0. intros fuel _. eexists. exact E.
  - destruct (p_rook n k B1 B2) as (gens & (s & R) & _). exists s. intros fuel F. eexists. exact (R fuel F).
  - destruct (p_matching n B1) as (gens & (s & R) & _). exists s. intros fuel F. eexists. exact (R fuel F).
Qed.
Lemma generate_unknown fuel max rand type range n k : ~ In type (map lit family_types) -> generate fuel max rand type range n k = OtherError.
Proof.
  intros H. unfold generate. repeat match goal with |- context [str_dec type ?x] => destruct (str_dec type x) as [E|_]; [exfalso; apply H; rewrite E; vm_compute; tauto|] end. reflexivity.
Qed.
(** ** The program *)
Lemma create_format name f : names_format name f -> createIOHandler name = Ok f.
Proof.
  intros N. pose proof (format_or_choice "input" name (Some f) (not_prefix format_names (lit "input") eq_refl) N) as H. unfold format_or in H.
  destruct (str_dec name (lit "input")); [discriminate|]. destruct (createIOHandler name); cbn [rbind] in H; congruence.
Qed.
Lemma create_unknown name : (forall x, ~ abbreviates format_names name x) -> createIOHandler name = OtherError.
Proof.
  intros U. unfold createIOHandler. pose proof (created_spec formatFactory name format_nodup) as C. rewrite format_factory in C. destruct (created_with_prefix formatFactory name) as [g| | | | |]; try destruct C; auto.
  exfalso. eapply U. destruct H. eauto.
Qed.
Lemma p_genideal w args v f file : command args "genideal" v -> names_format (word v "oformat") f ->
  frobby w args file = genideal_action (w_fuel w) (w_max w) (w_rand w) f (word v "type") (amount v "expRange") (amount v "varCount") (amount v "genCount").
Proof.
  intros C F. the_action C w file p R. unfold genideal_perform. values. rewrite (create_format _ _ F). cbn [rbind]. reflexivity.
Qed.
Lemma p_genideal_format w args v file : command args "genideal" v -> (forall x, ~ abbreviates format_names (word v "oformat") x) -> frobby w args file = OtherError.
Proof. intros C F. the_action C w file p R. unfold genideal_perform. values. now rewrite (create_unknown _ F). Qed.
Lemma p_genfrob_main w args v file : command args "genfrob" v -> frobby w args file = genfrob_action (w_rand w) (amount v "entryCount") (amount v "maxEntryDigits").
Proof. intros C. the_action C w file p R. unfold genfrob_perform. values. reflexivity. Qed.

Theorem e_genideal w args v f file type out : command args "genideal" v -> names_format (word v "oformat") f -> word v "type" = lit type ->
  (type = "random"%string -> (Z.of_nat (amount v "expRange") < w_max w)%Z) -> frobby w args file = Ok out ->
  exists names gens, family (w_rand w) (amount v "expRange") (amount v "varCount") (amount v "genCount") type names gens /\
    lists_minimal_generators (length names) gens gens /\ legal_names names /\ write_ideal f names (map znat gens) = Ok out /\
    (format_fits (w_max w) f names (map znat gens) -> read_ideal (w_max w) f out = Ok (names, map znat gens)).
Proof.
  intros C F T Ra. rewrite (p_genideal w args v f file C F). unfold genideal_action. rewrite T.
  assert (Ty : In type family_types \/ ~ In (lit type) (map lit family_types)).
  { destruct (in_dec string_dec type family_types) as [I|N]; auto. right. intros X. apply N. apply in_map_iff in X. destruct X as (x & X & Hx).
    assert (x = type); [|subst; auto]. rewrite <- (string_of_list_ascii_of_string x), <- (string_of_list_ascii_of_string type). f_equal. exact X. }
  destruct Ty as [Ty|Ty]; [|rewrite generate_unknown by auto; discriminate].
  destruct (generate _ _ _ _ _ _ _) as [[names J]| | | | |] eqn:G; cbn [rbind]; try discriminate. intros W.
  destruct (generate_well _ _ _ _ _ _ _ _ Ty Ra G) as (gens & E & Fa & M & L). cbn [fst snd] in *. subst J. exists names, gens. split; auto. split; auto. split; auto. split; auto.
  intros Fi. destruct (ideal_round (w_max w) f names (map znat gens)) as (out' & W' & Rd); auto.
  - split; auto. cbn [fst snd]. apply Forall_forall. intros t Ht. apply in_map_iff in Ht. destruct Ht as (g & <- & Hg). apply M in Hg. destruct Hg as (Hl & _). unfold znat. rewrite map_length. split; auto.
    apply Forall_forall. intros e He. apply in_map_iff in He. destruct He as (x & <- & _). lia.
  - rewrite W in W'. inversion W'. subst. exact Rd.
Qed.
Theorem e_genideal_ends w args v f file type : command args "genideal" v -> names_format (word v "oformat") f -> word v "type" = lit type ->
  let n := amount v "varCount" in let k := amount v "genCount" in
  In type ["random"; "list"; "tree"]%string \/ (In type ["king"; "knight"]%string /\ (Z.of_nat (n * n) <= w_max w)%Z) \/
    (type = "rook"%string /\ 1 <= n <= 1000 /\ 1 <= k <= 1000) \/ (type = "matching"%string /\ 1 <= n <= 1000) ->
  exists enough, forall fuel, enough <= fuel -> exists out, frobby (with_fuel w fuel) args file = Ok out.
Proof.
  intros C F T n k H. destruct (generate_ends (w_max w) (w_rand w) type (amount v "expRange") n k H) as (s & R). exists s. intros fuel Hf. rewrite (p_genideal (with_fuel w fuel) args v f file C F). unfold genideal_action. rewrite T.
  destruct (R fuel Hf) as ([names J] & E). unfold w_fuel. cbn [with_fuel w_machine w_max w_rand]. change (m_fuel (with_steps (w_machine w) fuel)) with fuel. fold n k. rewrite E. cbn [rbind].
  exists (P_IO6.itext f names J). apply P_IO6.write_ideal_text.
Qed.
Theorem e_genideal_unknown w args v f file : command args "genideal" v -> names_format (word v "oformat") f -> ~ In (word v "type") (map lit family_types) -> frobby w args file = OtherError.
Proof. intros C F T. rewrite (p_genideal w args v f file C F). unfold genideal_action. now rewrite generate_unknown. Qed.
Theorem e_genideal_sizes w args v f file : command args "genideal" v -> names_format (word v "oformat") f ->
  let n := amount v "varCount" in let k := amount v "genCount" in
  (In (word v "type") (map lit ["king"; "knight"]%string) /\ (w_max w < Z.of_nat (n * n))%Z) \/
  (word v "type" = lit "rook" /\ (n = 0 \/ k = 0 \/ 1000 < n \/ 1000 < k)) \/ (word v "type" = lit "matching" /\ (n = 0 \/ 1000 < n)) ->
  frobby w args file = OtherError.
Proof.
  intros C F n k H. rewrite (p_genideal w args v f file C F). unfold genideal_action. fold n k. destruct H as [[[T|[T|[]]] H]|[[T H]|[T H]]]; [symmetry in T|symmetry in T| |]; rewrite T.
  - destruct (p_king (w_max w) n) as (names & gens & E & _). destruct (Z.ltb_spec (w_max w) (Z.of_nat (n * n))); [|lia]. change (generate _ _ _ (lit "king") _ n k) with (generateKingChessIdeal (w_max w) n). now rewrite E.
  - destruct (p_knight (w_max w) n) as (names & gens & E & _). destruct (Z.ltb_spec (w_max w) (Z.of_nat (n * n))); [|lia]. change (generate _ _ _ (lit "knight") _ n k) with (generateKnightChessIdeal (w_max w) n). now rewrite E.
  - change (generate (w_fuel w) _ _ (lit "rook") _ n k) with (generateRookChessIdeal (w_fuel w) n k). now rewrite p_rook_errors.
  - change (generate (w_fuel w) _ _ (lit "matching") _ n k) with (generateMatchingIdeal (w_fuel w) n). now rewrite p_matching_errors.
Qed.

(** ** Instances *)
Lemma line_written l : writeFrobeniusInstance l = number_line l.
Proof. induction l as [|a [|b l] IH]; auto. cbn [number_line] in *. change (writeFrobeniusInstance (a :: b :: l)) with (z_str a ++ " "%char :: writeFrobeniusInstance (b :: l)). now rewrite IH. Qed.
Fixpoint blanks (l : list Z) : list text := match l with [] => [] | [a] => [[nl]] | a :: rest => [" "%char] :: blanks rest end.
Lemma line_blanks l : l <> [] -> number_line l = concat (map (fun p => z_str (fst p) ++ snd p) (combine l (blanks l))) /\ length (blanks l) = length l /\ Forall blank (blanks l).
Proof.
  induction l as [|a [|b l] IH]; intros N; [congruence| |].
  - cbn. rewrite app_nil_r. repeat split; auto. constructor; auto. split; [discriminate|]. constructor; auto. right. cbn. lia.
  - destruct (IH ltac:(discriminate)) as (E & L & F). change (blanks (a :: b :: l)) with ([" "%char] :: blanks (b :: l)). change (number_line (a :: b :: l)) with (z_str a ++ " "%char :: number_line (b :: l)).
    cbn [combine map concat fst snd]. rewrite E. split; [now rewrite <- app_assoc|]. split; [cbn [length] in *; lia|]. constructor; auto. split; [discriminate|]. constructor; auto.
Qed.
Theorem e_genfrob w args v file : command args "genfrob" v -> let count := amount v "entryCount" in let digits := amount v "maxEntryDigits" in
  1 <= count -> 1 <= digits -> exists instance, frobby w args file = Ok (number_line instance) /\
    length instance = count /\ increasing instance /\ (forall a, In a instance -> (1 <= a <= 10 ^ Z.of_nat digits)%Z) /\
    exists a rest g, drawn (w_rand w) count digits = a :: rest /\ greatest_divisor (a :: rest) g /\ Permutation instance ((a / g)%Z :: rest).
Proof.
  intros C count digits H1 H2. rewrite (p_genfrob_main w args v file C). fold count digits. destruct (p_genfrob (w_rand w) count digits H1 H2) as (l & E & L & S & B & _ & rest & a & g & Q & G1 & G2 & G3 & P).
  exists l. rewrite E, line_written. split; auto. split; auto. split; auto. split; auto. exists a, rest, g. unfold drawn. rewrite Q in *. repeat split; auto.
Qed.
Theorem e_genfrob_errors w args v file : command args "genfrob" v -> amount v "entryCount" = 0 \/ amount v "maxEntryDigits" = 0 -> frobby w args file = OtherError.
Proof. intros C H. rewrite (p_genfrob_main w args v file C). now apply p_genfrob_errors. Qed.
(** The instance can be solved *)
Theorem e_genfrob_solved w args v file w' args' v' : command args "genfrob" v -> command args' "frobdyn" v' ->
  let count := amount v "entryCount" in let digits := amount v "maxEntryDigits" in let numbers := drawn (w_rand w) count digits in
  1 <= digits -> coprime numbers -> Forall (fun a => (1 < a)%Z) numbers -> Exists (fun a => (a <= w_max_int w')%Z) numbers ->
  exists line g, frobby w args file = Ok line /\ frobenius_number numbers g /\
    exists enough, forall fuel, enough <= fuel -> frobby (with_fuel w' fuel) args' line = Ok (z_str g ++ [nl]).
Proof.
  intros C C' count digits numbers H2 Co F X. assert (H1 : 1 <= count). { destruct count eqn:E; [|lia]. inversion X. }
  rewrite (p_genfrob_main w args v file C). fold count digits. destruct (p_genfrob (w_rand w) count digits H1 H2) as (l & E & L & S & B & P & _). specialize (P Co).
  destruct (line_blanks l) as (W & Lb & Fb); [intros ->; cbn in L; lia|]. fold (drawn (w_rand w) count digits) in P. fold numbers in P.
  assert (Co' : coprime l). { intros d D Fd. apply Co; auto. eapply Permutation_Forall; eauto. }
  assert (F' : Forall (fun a => (1 < a)%Z) l) by (eapply Permutation_Forall; [symmetry; exact P|auto]).
  assert (X' : Exists (fun a => (a <= w_max_int w')%Z) l) by (eapply Permutation_Exists; [symmetry; exact P|auto]).
  destruct (frobdyn_text (w_max_int w') l (blanks l) F' Co' Lb Fb X') as (g & G & n & R). exists (number_line l), g. rewrite E, line_written. split; auto. split.
  - assert (Rp : forall l l', Permutation l l' -> forall z, representable l z -> representable l' z).
    { clear. induction 1; intros z (cs & Lc & Fc & ->).
      - exists cs. auto.
      - destruct cs as [|c cs]; [discriminate|]. inversion Fc; subst. destruct (IHPermutation (inner cs l)) as (ds & Ld & Fd & Ed); [exists cs; cbn in Lc; auto|]. exists (c :: ds). cbn. repeat split; auto. lia.
      - destruct cs as [|c [|d cs]]; try discriminate. inversion Fc as [|? ? F1 F2]; inversion F2; subst. exists (d :: c :: cs). cbn in *. repeat split; auto. lia.
      - apply IHPermutation2, IHPermutation1. exists cs. auto. }
    destruct G as [G1 G2]. split.
    + intros Rg. apply G1. eapply Rp; [symmetry; exact P|auto].
    + intros z Hz. eapply Rp; [exact P|auto].
  - exists n. intros fuel Hf. the_action C' (with_fuel w' fuel) (number_line l) p Rd. unfold frobdyn_perform, w_fuel. cbn [with_fuel w_machine w_max_int]. change (m_fuel (with_steps (w_machine w') fuel)) with fuel. rewrite W. now apply R.
Qed.
