(** The actions that compute decompositions, from text to text. *)
From Coq Require Import String Ascii.
From Coq Require Import List Arith Bool ZArith Lia Sorted Permutation.
Import ListNotations.
From Verif Require Import M_Term M_Ideal M_Slice M_Msm M_Api M_Names M_IO Spec_IO P_Names P_IO P_IO2 P_IO3 P_IO4 P_IO5 P_IO6 P_IO7 P_IO8 P_IO9 P_IO10 M_Intersect M_Transform M_Actions M_Cli P_Cli2 P_Cli3 P_Cli4.
From Verif Require Import Spec_Names P_Names2 P_Transform4 P_Cli1 Spec_Slice Spec_Run P_Term P_Ideal P_Decomp P_Internal P_Api P_Api2 P_Api3 P_Api4 P_Api5.
From Verif Require Import Spec Spec_Api Spec_Cli.
Local Notation length := List.length.

(** ** Reading the output back *)
Lemma znat_monomials n L : in_ring n L -> monomials n (map znat L).
Proof.
  intros R. unfold monomials. apply Forall_forall. intros t Ht. apply in_map_iff in Ht. destruct Ht as [m [<- Hm]]. unfold in_ring in R. rewrite Forall_forall in R.
  split; [unfold znat; rewrite map_length; now apply R|]. apply Forall_forall. intros e He. apply in_map_iff in He. destruct He as [k [<- _]]. lia.
Qed.
Lemma stext_shows m f names L : legal_names names -> in_ring (length names) L -> shows_ideal m f names L (stext f names (map znat L)).
Proof. intros N R F. apply stream_read; auto. split; auto. now apply znat_monomials. Qed.
Lemma ltext_ok f names Ls : exists out, ltext f names Ls = Ok out.
Proof.
  unfold ltext. destruct f; eauto; try (match goal with |- context [write_ideals ?g ?a ?b] => destruct (write_ideals_common g a b) as [fg ->]; [solve [unfold is_common; auto]|]; eauto end).
  - rewrite nm_write. eauto.
  - rewrite f4_write. eauto.
Qed.
Lemma ltext_shows m f names Ls out : legal_names names -> Forall (in_ring (length names)) Ls -> ltext f names Ls = Ok out -> shows_ideals m f names Ls out.
Proof.
  intros N R E M FN F.
  assert (G : Forall (fun J => readable m f (names, J)) (map (map znat) Ls)).
  { apply Forall_forall. intros J H. apply in_map_iff in H. destruct H as [L [<- H]]. rewrite Forall_forall in R, F. split; [|now apply F]. split; auto. apply znat_monomials. now apply R. }
  assert (f = CoCoA4 \/ f <> CoCoA4) as [-> | X] by (destruct f; auto; right; discriminate).
  - pose proof (cocoa_list m names _ N FN G) as Q. cbn [ltext] in E. injection E as <-. rewrite map_map in Q. now destruct Ls.
  - assert (EL : ltext f names Ls = write_ideals f names (map (pair names) (map (map znat) Ls))) by (destruct f; auto; congruence). rewrite EL in E.
    destruct (list_round m f names (map (pair names) (map (map znat) Ls))) as [out' [W Q]]; auto; [congruence| |].
    + apply Forall_forall. intros J H. apply in_map_iff in H. destruct H as [K [<- H]]. rewrite Forall_forall in G. exact (G K H).
    + rewrite E in W. injection W as ->. rewrite Q. rewrite map_map. do 2 f_equal. unfold last_names. apply last_same. intros y H. apply in_map_iff in H. destruct H as [K [<- H]]. apply in_map_iff in H. now destruct H as [K' [<- _]].
Qed.

(** ** The input *)
Lemma read_good m f file J : read_ideal m f file = Ok J -> good_ideal J.
Proof. intros E. destruct (reading_total m f file) as [H _]. now rewrite E in H. Qed.
Lemma good_znat names gens : good_ideal (names, map znat gens) -> legal_names names /\ in_ring (length names) gens.
Proof.
  intros [N M]. split; auto. cbn [fst snd] in M. unfold monomials in M. rewrite Forall_forall in M. apply Forall_forall. intros g H. destruct (M _ (in_map znat _ _ H)) as [L _]. unfold znat in L. now rewrite map_length in L.
Qed.
Lemma good_form J : good_ideal J -> exists gens, J = (fst J, map znat gens).
Proof.
  destruct J as [names Z0]. intros [_ M]. cbn [fst snd] in *. unfold monomials in M. exists (map (map Z.to_nat) Z0). f_equal. rewrite map_map. rewrite <- (map_id Z0) at 1. apply map_ext_in. intros t Ht.
  rewrite Forall_forall in M. destruct (M t Ht) as [_ P]. unfold znat. rewrite map_map. rewrite <- (map_id t) at 1. apply map_ext_in. intros e He. rewrite Forall_forall in P. specialize (P e He). lia.
Qed.
Lemma nideal_znat names gens : snd (to_nideal (names, map znat gens)) = gens.
Proof.
  cbn [to_nideal snd]. rewrite map_map. rewrite <- (map_id gens) at 2. apply map_ext. intros t. unfold znat. rewrite map_map. rewrite <- (map_id t) at 2. apply map_ext. intros e. apply Nat2Z.id.
Qed.
Lemma legal_perm names names' : Permutation names names' -> legal_names names -> legal_names names'.
Proof. intros P [A B]. split; [eapply Permutation_NoDup; eauto|eapply Permutation_Forall; eauto]. Qed.
Lemma output_legal canon names gens names' gens' : output_ring canon names gens names' gens' -> legal_names names -> legal_names names'.
Proof. destruct canon; cbn [output_ring]; [intros [P _]; now apply legal_perm|intros [-> _]; auto]. Qed.
Lemma cli_set_legal minimal canon names gens : legal_names names -> in_ring (length names) gens -> (minimal = true -> lists_minimal_generators (length names) gens gens) ->
  exists names' gens' J, cli_setIdeal minimal canon names gens = Some (names', co_of (length names') gens' J) /\ legal_names names' /\
    in_ring (length names') gens' /\ internal (length names') gens' J /\ output_ring canon names gens names' gens'.
Proof.
  intros N R M. destruct (cli_set minimal canon names gens (proj1 N) R M) as [names' [gens' [J [A [B [C D]]]]]]. exists names', gens', J. split; auto. split; auto. eapply output_legal; eauto.
Qed.
Lemma cli_read_ok o file names gens : input_is o file names gens -> exists names' gens' J, cli_read o file = Ok (names', co_of (length names') gens' J) /\ legal_names names' /\
  in_ring (length names') gens' /\ internal (length names') gens' J /\ output_ring (o_canon o) names gens names' gens'.
Proof.
  intros [_ [E M]]. pose proof (read_good _ _ _ _ E) as G. apply good_znat in G. destruct G as [N R].
  destruct (cli_set_legal (o_minimal o) (o_canon o) names gens N R M) as [names' [gens' [J [A B]]]]. exists names', gens', J. split; auto. unfold cli_read. rewrite E. cbn [rbind].
  rewrite nideal_znat. cbn [fst]. now rewrite A.
Qed.

(** ** The text of each action *)
Lemma has_list f : has_lists f = true <-> list_format f.
Proof. unfold list_format. destruct f; cbn; split; auto; try discriminate; intros [H|[H|H]]; discriminate. Qed.
Lemma no_list f : ~ list_format f -> has_lists f = false.
Proof. intros H. destruct (has_lists f) eqn:E; auto. now apply has_list in E. Qed.
(** If lists can be written, and else the error *)
Definition if_list (f : format) (r : res text) : res text := if has_lists f then r else OtherError.
Lemma if_list_eq o file r : rbind (list_writer o file) (fun _ => r) = if_list (out_format o file) r.
Proof. unfold list_writer, if_list. destruct (has_lists _); reflexivity. Qed.
Lemma if_list_ok f r : list_format f -> if_list f r = r.
Proof. intros H. unfold if_list. now rewrite (proj2 (has_list f) H). Qed.
Definition irr_text (encode : bool) (f : format) (names : list str) (D : list mono) : res text :=
  if encode then Ok (stext f names (map znat D)) else ltext f names (map (irreducible_generators (length names)) D).
Lemma irr_run o encode rnd file names gens : input_is o file names gens -> exists names' gens' D,
  output_ring (o_canon o) names gens names' gens' /\ legal_names names' /\ in_ring (length names') gens' /\ irreducible_decomposition (length names') gens' D /\
  irrdecom_action o encode rnd file = (let t := irr_text encode (out_format o file) names' (canon1 (o_canon o) D) in if encode then t else if_list (out_format o file) t).
Proof.
  intros H. destruct (cli_read_ok o file names gens H) as [names' [gens' [J [A [B [C [D E]]]]]]]. pose proof H as [Hc _].
  destruct (told_irr (o_config o) rnd (length names') gens' J Hc C D) as [ts [Dec [X [V Y]]]]. exists names', gens', Dec. split; auto. split; auto. split; auto. split; auto.
  unfold irrdecom_action. rewrite A. cbn [rbind]. unfold told_irrDecom. rewrite X. cbn [bind co_of co_tr cli_write]. unfold irr_text. cbv zeta. destruct encode; cbn [negb rbind].
  - apply (output_one (length names')); auto.
  - rewrite if_list_eq. f_equal. apply (output_split (length names')); auto. apply tr_zero_first.
Qed.
Lemma msm_text o (increment : bool) rnd file names gens : input_is o file names gens -> exists names' gens' L,
  output_ring (o_canon o) names gens names' gens' /\ legal_names names' /\ in_ring (length names') gens' /\
  in_ring (length names') (if increment then map (map S) L else L) /\ NoDup L /\ (forall m, In m L <-> max_standard (length names') gens' m) /\
  maxstandard_action o increment rnd file = if_list (out_format o file) (Ok (stext (out_format o file) names' (map znat (canon1 (o_canon o) (if increment then map (map S) L else L))))).
Proof.
  intros H. destruct (cli_read_ok o file names gens H) as [names' [gens' [J [A [B [C [D E]]]]]]]. pose proof H as [Hc _].
  destruct (told_msm increment (o_config o) rnd (length names') gens' J Hc C D) as [ts [L [X [V [Y Z]]]]]. exists names', gens', L. split; auto. split; auto. split; auto.
  split; [eapply valued_ring; eauto|]. split; auto. split; auto.
  unfold maxstandard_action. rewrite A. cbn [rbind]. unfold told_maxStandard. cbn [co_of co_n co_ideal co_tr]. rewrite X. cbn [bind cli_write]. rewrite if_list_eq. f_equal. apply (output_one (length names')); auto.
Qed.
Lemma ass_text o rnd file names gens : input_is o file names gens -> exists names' gens' Ss,
  output_ring (o_canon o) names gens names' gens' /\ legal_names names' /\ in_ring (length names') gens' /\
  in_ring (length names') Ss /\ NoDup Ss /\ (forall s, In s Ss <-> associated_prime (length names') gens' s) /\
  assoprimes_action o rnd file = if_list (out_format o file) (Ok (stext (out_format o file) names' (map znat (canon1 (o_canon o) Ss)))).
Proof.
  intros H. destruct (cli_read_ok o file names gens H) as [names' [gens' [J [A [B [C [D E]]]]]]]. pose proof H as [Hc _].
  destruct (told_ass (o_config o) rnd (length names') gens' J names' Hc C D) as [ts [L [X [V [Y Z]]]]]. exists names', gens', L. split; auto. split; auto. split; auto.
  split; [eapply valued_ring; eauto|]. split; auto. split; auto.
  unfold assoprimes_action. rewrite A. cbn [rbind]. rewrite X. cbn [cli_write]. rewrite if_list_eq. f_equal. apply (output_one (length names')); auto.
Qed.
Lemma primary_text o rnd file names gens : input_is o file names gens -> exists names' gens' D Gs Bs,
  output_ring (o_canon o) names gens names' gens' /\ legal_names names' /\ in_ring (length names') gens' /\
  Forall (in_ring (length names')) Bs /\ irreducible_decomposition (length names') gens' D /\ descending D /\ support_runs (length names') D Gs /\
  Forall2 (same_support_intersection (length names')) Gs Bs /\ (forall m, length m = length names' -> (in_ideal gens' m <-> forall B, In B Bs -> in_ideal B m)) /\
  primdecom_action o rnd file = if_list (out_format o file) (ltext (out_format o file) names' (canon2 (o_canon o) Bs)).
Proof.
  intros H. destruct (cli_read_ok o file names gens H) as [names' [gens' [J [A [B [C [D E]]]]]]]. pose proof H as [Hc _].
  destruct (told_primary_ok (o_config o) rnd (length names') gens' J names' Hc C D) as [parts [Dec [Gs [Bs [X [V [Y1 [Y2 [Y3 [Y4 Y5]]]]]]]]]]. exists names', gens', Dec, Gs, Bs. split; auto. split; auto. split; auto.
  split; [clear -V; induction V; constructor; auto; eapply valued_ring; eauto|]. split; auto. split; auto. split; auto. split; auto. split; auto.
  unfold primdecom_action. rewrite A. cbn [rbind]. rewrite X. cbn [cli_write]. rewrite if_list_eq. f_equal. apply (output_list (length names')); auto. apply tr_length.
Qed.

(** ** What is printed *)
Lemma decomposition_perm n G D D' : Permutation D D' -> irreducible_decomposition n G D -> irreducible_decomposition n G D'.
Proof.
  intros P [A [B [C E]]]. assert (Q : forall c, In c D <-> In c D') by (intros c; split; apply Permutation_in; auto using Permutation_sym). split; [eapply Permutation_Forall; eauto|]. split; [eapply Permutation_NoDup; eauto|].
  split.
  - intros m Hm. rewrite C by auto. split; intros H c Hc; apply H, Q, Hc.
  - intros c Hc. apply Q in Hc. destruct (E c Hc) as [m [X [Y Z]]]. exists m. split; auto. split; auto. intros c' Hc'. apply Z. now apply Q.
Qed.
Lemma canon1_perm canon L : Permutation L (canon1 canon L).
Proof. destruct canon; cbn [canon1]; [apply Permutation_sym, lexsort_perm|apply Permutation_refl]. Qed.
Lemma canon1_ring n canon L : in_ring n L -> in_ring n (canon1 canon L).
Proof. intros R. eapply Permutation_Forall; [apply canon1_perm|exact R]. Qed.
Lemma canon1_descending n (canon : bool) L : in_ring n L -> NoDup L -> canon = true -> descending (canon1 canon L).
Proof. intros R N ->. now apply (lexsort_descending n). Qed.
Lemma generators_ring n c : in_ring n (irreducible_generators n c).
Proof. apply Forall_forall. intros g H. apply in_map_iff in H. destruct H as [i [<- _]]. unfold var_power. now rewrite map_length, seq_length. Qed.

Lemma irr_printed o (encode : bool) rnd file names gens : input_is o file names gens -> encode = true \/ list_format (out_format o file) -> exists names' gens' D out,
  output_ring (o_canon o) names gens names' gens' /\ irreducible_decomposition (length names') gens' D /\ (o_canon o = true -> descending D) /\
  irrdecom_action o encode rnd file = Ok out /\
  if encode then shows_ideal (o_max o) (out_format o file) names' D out
  else shows_ideals (o_max o) (out_format o file) names' (map (irreducible_generators (length names')) D) out.
Proof.
  intros H HF. destruct (irr_run o encode rnd file names gens H) as [names' [gens' [D [A [B [C [E F]]]]]]]. exists names', gens', (canon1 (o_canon o) D).
  pose proof (decomposition_perm _ _ _ _ (canon1_perm (o_canon o) D) E) as E'. pose proof E as [R [N _]]. pose proof E' as [R' _]. unfold irr_text in F. cbv zeta in F. destruct encode.
  - eexists. split; [exact A|]. split; [exact E'|]. split; [now apply (canon1_descending (length names'))|]. split; [exact F|]. now apply stext_shows.
  - destruct (ltext_ok (out_format o file) names' (map (irreducible_generators (length names')) (canon1 (o_canon o) D))) as [out W]. exists out. destruct HF as [HF|HF]; [discriminate|]. rewrite if_list_ok, W in F by exact HF.
    split; [exact A|]. split; [exact E'|]. split; [now apply (canon1_descending (length names'))|]. split; [exact F|]. apply ltext_shows; auto.
    apply Forall_forall. intros L HL. apply in_map_iff in HL. destruct HL as [c [<- _]]. apply generators_ring.
Qed.
Lemma map_S_inj (a b : mono) : map S a = map S b -> a = b.
Proof. revert b. induction a as [|x a IH]; intros [|y b] E; try discriminate; auto. cbn in E. injection E as -> E. f_equal. auto. Qed.
Lemma max_printed o (increment : bool) rnd file names gens : input_is o file names gens -> list_format (out_format o file) -> exists names' gens' L out,
  output_ring (o_canon o) names gens names' gens' /\ NoDup L /\
  (forall m, In m L <-> if increment then exists s, max_standard (length names') gens' s /\ m = map S s else max_standard (length names') gens' m) /\
  (o_canon o = true -> descending L) /\
  maxstandard_action o increment rnd file = Ok out /\ shows_ideal (o_max o) (out_format o file) names' L out.
Proof.
  intros H HF. destruct (msm_text o increment rnd file names gens H) as [names' [gens' [L [A [B [C [R [E [F G]]]]]]]]]. rewrite if_list_ok in G by exact HF. set (L' := if increment then map (map S) L else L) in *.
  assert (N' : NoDup L') by (unfold L'; destruct increment; auto; apply NoDup_map_on; auto; intros; now apply map_S_inj).
  exists names', gens', (canon1 (o_canon o) L'). eexists. split; [exact A|]. split; [eapply Permutation_NoDup; [apply canon1_perm|exact N']|]. split; [|split; [now apply (canon1_descending (length names'))|]].
  - intros m. transitivity (In m L'); [split; apply Permutation_in; auto using canon1_perm, Permutation_sym|]. unfold L'. destruct increment; [|apply F].
    rewrite in_map_iff. split; intros [s [X Y]]; exists s; [split; [now apply F|auto]|split; [auto|now apply F]].
  - split; [exact G|]. apply stext_shows; auto. now apply canon1_ring.
Qed.
Lemma ass_printed o rnd file names gens : input_is o file names gens -> list_format (out_format o file) -> exists names' gens' Ss out,
  output_ring (o_canon o) names gens names' gens' /\ NoDup Ss /\ (forall s, In s Ss <-> associated_prime (length names') gens' s) /\ (o_canon o = true -> descending Ss) /\
  assoprimes_action o rnd file = Ok out /\ shows_ideal (o_max o) (out_format o file) names' Ss out.
Proof.
  intros H HF. destruct (ass_text o rnd file names gens H) as [names' [gens' [L [A [B [C [R [E [F G]]]]]]]]]. rewrite if_list_ok in G by exact HF.
  exists names', gens', (canon1 (o_canon o) L). eexists. split; [exact A|]. split; [eapply Permutation_NoDup; [apply canon1_perm|exact E]|]. split; [|split; [now apply (canon1_descending (length names'))|]].
  - intros m. rewrite <- F. split; apply Permutation_in; auto using canon1_perm, Permutation_sym.
  - split; [exact G|]. apply stext_shows; auto. now apply canon1_ring.
Qed.
Lemma list_before_iff n : forall L K, in_ring n L -> in_ring n K -> (list_before L K <-> terms_less L K = true).
Proof.
  induction L as [|x L IH]; intros [|y K] R R'; cbn [list_before terms_less]; try (split; auto; discriminate); try (split; [tauto|discriminate]). rewrite term_order_eq.
  inversion R as [|? ? R1 R2]; subst. inversion R' as [|? ? R1' R2']; subst. specialize (IH K R2 R2'). rewrite <- (greater_lex x y) by congruence.
  destruct (term_greater x y) eqn:E; [split; auto|]. destruct (term_greater y x) eqn:F.
  - split; [|discriminate]. intros [H|[-> H]]; congruence.
  - rewrite <- IH. split; [intros [H|[_ H]]; [discriminate|exact H]|]. intros H. right. split; auto. apply (tg_tot_n (length x)); auto.
Qed.
Lemma listsort_sorted n Ls : Forall (in_ring n) Ls -> StronglySorted (fun L K => ~ list_before K L) (listsort Ls).
Proof.
  intros R.
  assert (Q : StronglySorted (before terms_less) (listsort Ls)).
  { apply (strict_sorted terms_less (in_ring n)); auto.
    - apply tl_asym.
    - intros x y z X Y Z0. apply in_ring_wf in X, Y, Z0. now apply (tl_trans n).
    - intros x y X Y. apply in_ring_wf in X, Y. now apply (tl_tot n). }
  assert (R' : Forall (in_ring n) (listsort Ls)) by (eapply Permutation_Forall; [apply Permutation_sym, std_sort_perm|exact R]).
  induction Q as [|x l Q IH F]; [constructor|]. inversion R' as [|? ? R1 R2]; subst. constructor; auto. rewrite Forall_forall in *. intros y Hy X. apply (list_before_iff n) in X; auto. specialize (F y Hy). unfold before in F. congruence.
Qed.
Lemma canon2_same n canon Ls : Forall (in_ring n) Ls -> same_lists Ls (canon2 canon Ls) /\ Forall (in_ring n) (canon2 canon Ls).
Proof.
  intros R. destruct canon; cbn [canon2].
  - assert (P : Permutation (listsort (map lexsort (rev Ls))) (map lexsort (rev Ls))) by apply std_sort_perm. destruct (Permutation_map_inv _ _ P) as [Ms [E P']]. split.
    + exists Ms. split; [eapply Permutation_trans; [apply Permutation_rev|exact P']|]. match goal with |- Forall2 _ _ ?k => assert (Ek : k = map lexsort Ms) by exact E; rewrite Ek end. clear. induction Ms; cbn; constructor; auto. apply Permutation_sym, lexsort_perm.
    + eapply Permutation_Forall; [apply Permutation_sym; exact P|]. apply Forall_forall. intros L HL. apply in_map_iff in HL. destruct HL as [K [<- HK]]. apply in_rev in HK. rewrite Forall_forall in R. now apply lexsort_ring, R.
  - split; auto. exists Ls. split; auto. clear. induction Ls; constructor; auto.
Qed.
Lemma primary_printed o rnd file names gens : input_is o file names gens -> list_format (out_format o file) -> exists names' gens' D Gs Bs Cs out, let n := length names' in
  output_ring (o_canon o) names gens names' gens' /\ irreducible_decomposition n gens' D /\ descending D /\ support_runs n D Gs /\ Forall2 (same_support_intersection n) Gs Bs /\
  (forall m, length m = n -> (in_ideal gens' m <-> forall B, In B Bs -> in_ideal B m)) /\
  (forall s, associated_prime n gens' s <-> exists B, In B Bs /\ length s = n /\ (forall i, nth i s 0 <= 1) /\ radical_is n B s) /\
  (if o_canon o then same_lists Bs Cs /\ Forall descending Cs /\ StronglySorted (fun L K => ~ list_before K L) Cs else Cs = Bs) /\
  primdecom_action o rnd file = Ok out /\ shows_ideals (o_max o) (out_format o file) names' Cs out.
Proof.
  intros H HF. destruct (primary_text o rnd file names gens H) as [names' [gens' [D [Gs [Bs [A [B [C [R [E [F [G [J [K L]]]]]]]]]]]]]]. rewrite if_list_ok in L by exact HF.
  destruct (ltext_ok (out_format o file) names' (canon2 (o_canon o) Bs)) as [out W]. exists names', gens', D, Gs, Bs, (canon2 (o_canon o) Bs), out. cbv zeta. set (n := length names') in *.
  destruct (c12_extra n gens' D Gs Bs E G J) as [_ [AP _]]. destruct (canon2_same n (o_canon o) Bs R) as [S1 S2].
  split; [exact A|]. split; [exact E|]. split; [exact F|]. split; [exact G|]. split; [exact J|]. split; [exact K|]. split; [exact AP|]. split.
  - destruct (o_canon o); cbn [canon2] in *; auto. split; auto. assert (RS : Forall (in_ring n) (map lexsort (rev Bs))).
    { apply Forall_forall. intros X HX. apply in_map_iff in HX. destruct HX as [Y [<- HY]]. apply in_rev in HY. rewrite Forall_forall in R. now apply lexsort_ring, R. }
    split; [|now apply (listsort_sorted n)]. eapply Permutation_Forall; [apply Permutation_sym, std_sort_perm|]. apply Forall_forall. intros X HX. apply in_map_iff in HX. destruct HX as [Y [<- HY]]. apply in_rev in HY.
    apply (lexsort_descending n); [rewrite Forall_forall in R; now apply R|]. clear -J HY. induction J as [|? ? ? ? J1 J IH]; [destruct HY|]. destruct HY as [<-|HY]; auto. apply J1.
  - rewrite W in L. split; [exact L|]. apply ltext_shows; auto.
Qed.
