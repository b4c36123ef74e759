(** The actions frobgrob and latformat with their options. *)
From Coq Require Import String Ascii.
From Coq Require Import List Arith Bool ZArith Lia.
Import ListNotations.
From Verif Require Import M_Term M_Msm M_Names M_IO M_Opt M_Cli M_Cli2 M_Cli3 M_Lattice Spec_Opt Spec_Names Spec_Cli3 P_Names P_Cli12 P_Lattice3 P_Lattice4 P_Lattice5 M_Main Spec_Main P_Main P_Main2.
From Verif Require Import Spec Spec_Api Spec_Frob Spec_Cli2 Spec_Lattice.
Local Open Scope nat_scope.
Local Notation length := List.length.
Lemma run_frobgrob w args v file : command args "frobgrob" v -> (exists x, abbreviates split_names (word v "split") x) ->
  exists q, legal_oparams q /\ op_simp q = on v "simplify" /\ op_elim q = on v "boundSimplify" /\ op_bsimp q = true /\
    frobby w args file = frobgrob_print (FG (w_max w) (on v "minimal") (on v "canon") q (on v "vector")) (w_rand w) file.
Proof.
  intros C [x A]. the_action C w file p R. unfold frobgrob_perform. values.
  pose proof (slice_oparams_spec (on v "simplify") (on v "boundSimplify") true (word v "split")) as S.
  destruct (slice_oparams _ _ _ _) as [q| | | | |]; [|destruct S|exfalso; eapply S, A|destruct S|destruct S|destruct S].
  destruct S as (S1 & S2 & S3 & S4 & _). exists q. auto.
Qed.
Lemma run_frobgrob_error w args v file : command args "frobgrob" v -> (forall x, ~ abbreviates split_names (word v "split") x) -> frobby w args file = OtherError.
Proof.
  intros C A. the_action C w file p R. unfold frobgrob_perform. values.
  pose proof (slice_oparams_spec (on v "simplify") (on v "boundSimplify") true (word v "split")) as S.
  destruct (slice_oparams _ _ _ _) as [q| | | | |]; [|destruct S|reflexivity|destruct S|destruct S|destruct S].
  destruct S as (_ & _ & _ & _ & x & B). exfalso. eapply A, B.
Qed.
Lemma run_latformat w args v file : command args "latformat" v -> frobby w args file = latformat_print (w_max w) (word v "iformat") (word v "oformat") (on v "zero") file.
Proof. intros C. the_action C w file p R. unfold latformat_perform. values. reflexivity. Qed.

Lemma e_frobgrob w args v a G file : command args "frobgrob" v -> (exists x, abbreviates split_names (word v "split") x) ->
  Forall (fun x => 1 < x)%Z a -> coprime a -> grobner_basis a G ->
  number_text (Z.of_nat (length G) :: Z.of_nat (length a) :: concat G ++ a) file -> (Z.of_nat (length G) <= w_max w)%Z -> (Z.of_nat (length a) <= w_max w)%Z ->
  (on v "minimal" = true -> lists_minimal_generators (length a - 1) (leading_monomials G) (leading_monomials G)) -> (on v "canon" = true -> length a <= 10) ->
  exists g u, frobenius_number a g /\ frobby w args file = Ok ((if on v "vector" then vector_line u else []) ++ line_with g) /\
    length u + 1 = length a /\ Forall (fun z => 0 <= z)%Z u /\ inner (-1 :: u)%Z a = g.
Proof.
  intros C A H1 H2 H3 H4 H5 H6 H7 H8. destruct (run_frobgrob w args v file C A) as (q & L & _ & _ & _ & ->).
  exact (p_frobgrob (FG (w_max w) (on v "minimal") (on v "canon") q (on v "vector")) (w_rand w) a G file H1 H2 H3 H4 H5 H6 L H7 H8).
Qed.
Lemma e_frobgrob_any w args v file : command args "frobgrob" v -> on v "minimal" = false -> on v "canon" = false ->
  (frobby w args file = SyntaxError \/ frobby w args file = OtherError) \/
  exists a0 b gens, Forall (fun x => 1 < x)%Z (a0 :: b) /\ coprime (a0 :: b) /\ in_ring (length b) gens /\
    ((frobby w args file = Undefined /\ forall m, ~ max_standard (length b) gens m) \/
     exists m, optimal (max_standard (length b) gens) b m /\ frobby w args file = Ok ((if on v "vector" then vector_line (znat m) else []) ++ line_with (inner_product b m - a0)%Z)).
Proof.
  intros C M K. pose proof (slice_oparams_spec (on v "simplify") (on v "boundSimplify") true (word v "split")) as S.
  destruct (slice_oparams _ _ _ _) as [q0| | | | |]; [|destruct S| |destruct S|destruct S|destruct S].
  - destruct S as (_ & _ & _ & _ & A). destruct (run_frobgrob w args v file C A) as (q & L & _ & _ & _ & ->).
    exact (p_frobgrob_any (FG (w_max w) (on v "minimal") (on v "canon") q (on v "vector")) (w_rand w) file L M K).
  - left. right. now apply (run_frobgrob_error w args v).
Qed.
Lemma e_latformat w args v file n rows : command args "latformat" v -> on v "zero" = false -> In (word v "iformat") lattice_formats ->
  In (output_lattice_format (word v "iformat") (word v "oformat")) lattice_formats ->
  shape_known (w_max w) (word v "iformat") n rows -> lattice_file (word v "iformat") n rows file ->
  frobby w args file = Ok (lattice_text (output_lattice_format (word v "iformat") (word v "oformat")) n rows).
Proof. intros C Z I O H F. rewrite (run_latformat w args v file C), Z. now apply p_latformat. Qed.
Lemma e_latformat_zero w args v file n rows : command args "latformat" v -> on v "zero" = true -> In (word v "iformat") lattice_formats ->
  In (output_lattice_format (word v "iformat") (word v "oformat")) lattice_formats ->
  shape_known (w_max w) (word v "iformat") n rows -> lattice_file (word v "iformat") n rows file -> rows <> [] -> n <> 0 ->
  exists rows', frobby w args file = Ok (lattice_text (output_lattice_format (word v "iformat") (word v "oformat")) n rows') /\
    length rows' = length rows /\ has_columns n rows' /\ (forall u, in_lattice n rows u <-> in_lattice n rows' u) /\ (independent_rows n rows <-> independent_rows n rows').
Proof.
  intros C Z I O H F R N. rewrite (run_latformat w args v file C), Z. destruct (p_latformat_zero (w_max w) _ _ file n rows I O H F R N) as (rows' & H1 & H2 & H3 & H4 & H5 & _).
  exists rows'. auto.
Qed.
Lemma e_latformat_unknown w args v file : command args "latformat" v ->
  ~ In (word v "iformat") lattice_formats \/ ~ In (output_lattice_format (word v "iformat") (word v "oformat")) lattice_formats -> frobby w args file = OtherError.
Proof. intros C H. rewrite (run_latformat w args v file C). now apply p_latformat_unknown. Qed.
Lemma e_latformat_reports w args v file : command args "latformat" v -> on v "zero" = false -> reports (frobby w args file).
Proof.
  intros C Z. rewrite (run_latformat w args v file C), Z.
  destruct (in_dec str_dec (word v "iformat") lattice_formats) as [I|I]; [|rewrite p_latformat_unknown by auto; exact Logic.I].
  destruct (in_dec str_dec (output_lattice_format (word v "iformat") (word v "oformat")) lattice_formats) as [O|O]; [|rewrite p_latformat_unknown by auto; exact Logic.I].
  destruct (p_latformat_any (w_max w) _ _ file I O) as [->|(n & rows & _ & ->)]; exact Logic.I.
Qed.
