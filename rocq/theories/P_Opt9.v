(** The optimize action. *)
From Coq Require Import List Arith Bool ZArith Lia Permutation.
Import ListNotations.
From Verif Require Import Spec Spec_Slice Spec_Run Spec_Api M_Term M_Ideal M_Slice M_Msm M_Api M_Opt P_Bridge P_Ideal Spec_Opt P_Opt6 P_Opt7.

Lemma inner_opp : forall l m, inner_product (map Z.opp l) m = (- inner_product l m)%Z.
Proof. induction l as [|x l IH]; intros [|e m]; auto. cbn [map inner_product]. rewrite IH. lia. Qed.

Lemma optimal_opp : forall P l m, optimal P (map Z.opp l) m <-> optimal_min P l m.
Proof.
  intros P l m. unfold optimal, optimal_min. split; intros [A B]; split; auto; intros m' H; specialize (B m' H); rewrite !inner_opp in *; lia.
Qed.

Lemma p_optimize_core : forall p rnd n I v level std (min : bool), legal_oparams p -> in_ring n I -> length v = n ->
  exists L x, optimize_action (mkOo level std false min) p rnd n I v = Some (if level =? 0 then [] else block n L, x) /\
    (level <= 1 -> length L <= 1) /\
    match x with
    | None => L = [] /\ forall m, ~ program_set std n I m
    | Some y => L <> [] /\ NoDup L /\ (forall m, In m L -> program_optimal min (program_set std n I) v m /\ inner_product v m = y) /\
        (2 <= level -> y <> 0%Z -> forall m, program_optimal min (program_set std n I) v m -> In m L)
    end.
Proof.
  intros p rnd n I v level std min Hp Hr Hv. unfold optimize_action. cbn [oo_chop oo_min oo_level oo_maxStandard andb].
  set (v2 := if min then map Z.opp v else v). assert (Hv2 : length v2 = n) by (unfold v2; destruct min; rewrite ?map_length; auto).
  set (all := 2 <=? level).
  assert (H : exists L x, (if std then solveStandardProgram p rnd (setIdeal false n I) v2 all
     else solveIrreducibleDecompositionProgram p rnd (setIdeal false n I) v2 all) = Some (block n L, x) /\
     optimum_reported (program_set std n I) v2 L x /\ (all = false -> length L <= 1) /\
     (all = true -> x <> Some 0%Z -> forall m, optimal (program_set std n I) v2 m -> In m L)).
  { unfold program_set. destruct std; [apply p_standard_program|apply p_decomposition_program]; auto. }
  destruct H as [L [x [E [R [One All]]]]]. rewrite E. cbn [bind fst snd].
  exists L, (match x with None => None | Some y => Some (if min then - y else y)%Z end). split; [|split].
  - f_equal. f_equal; [destruct level; reflexivity|]. destruct x; auto. f_equal. destruct min; lia.
  - intros Hl. apply One. apply Nat.leb_gt. lia.
  - assert (Ho : forall m, program_optimal min (program_set std n I) v m <-> optimal (program_set std n I) v2 m).
    { intros m. unfold program_optimal, v2. destruct min; [symmetry; apply optimal_opp|tauto]. }
    assert (Hi : forall m, inner_product v2 m = if min then (- inner_product v m)%Z else inner_product v m).
    { intros m. unfold v2. destruct min; auto. apply inner_opp. }
    destruct x as [y|]; [|exact R]. destruct R as [R1 [R2 R3]]. split; auto. split; auto. split.
    + intros m Hm. rewrite Ho. destruct (R3 m Hm) as [X Y]. split; auto. rewrite Hi in Y. destruct min; lia.
    + intros Hl Hy m Hm. apply All; [apply Nat.leb_le; auto| |apply Ho; auto]. destruct min; intros X; inversion X; subst; lia.
Qed.

Lemma p_optimize_chop : forall p rnd n I w v level std (min : bool) out x,
  optimize_action (mkOo level std false min) p rnd n (drop_first I) v = Some (out, x) ->
  optimize_action (mkOo level std true min) p rnd (S n) I (w :: v) = Some (out, match x with None => None | Some y => Some (y - w)%Z end).
Proof.
  intros p rnd n I w v level std min out x. unfold optimize_action. cbn [oo_chop oo_min oo_level oo_maxStandard length Nat.eqb negb andb nth].
  assert (E : map (skipn 1) I = drop_first I). { unfold drop_first. apply map_ext. intros [|e g]; auto. }
  rewrite E. cbn [skipn]. replace (S n - 1) with n by lia.
  destruct (if std then _ else _) as [[evs y]|]; cbn [bind fst snd]; [|discriminate]. intros H. inversion H; subst. destruct y; f_equal; f_equal; f_equal; lia.
Qed.
