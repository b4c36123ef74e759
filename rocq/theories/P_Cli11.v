(** The numerators of Hilbert-Poincare series as the writer of polynomials gets them. *)
From Coq Require Import String Ascii.
From Coq Require Import List Arith Bool ZArith Lia Permutation Sorted.
Import ListNotations.
From Verif Require Import Spec_IO Spec_Names Spec_Poly Spec_IOPoly Spec_Bigatti Spec_Scarf M_Term M_Ideal M_Slice M_Msm M_Api M_Hilbert M_Names M_IO M_Opt M_Poly M_IOPoly M_Tasks M_Bigatti M_Scarf M_Orderer M_ScarfFacade
  P_Term P_Ideal P_Bridge P_Msm3 P_Corner P_Decomp P_Translator P_Internal P_IO10 P_IO4 P_IOPoly3 P_Hil1 P_Hil6 P_Hil7 P_Hil8 P_Api P_Api3 P_Api4 P_Poly P_Poly2 P_Valid P_Scarf1 P_Bigatti1 P_Bigatti2 P_Bigatti3 P_Bigatti4 P_Bigatti5 P_Finish P_Bigatti6 P_Deform1 P_Deform2 P_Scarf3 P_Scarf4.
From Verif Require Import M_Cli3 P_Cli4 Spec Spec_Api Spec_Hilbert.
Local Open Scope nat_scope.
Local Notation length := List.length.

(** ** Terms with indices inside the tables *)
Definition values (n : nat) (I : big_ideal) (ts : list cterm) : poly := map (fun t => (fst t, image n (phi I) (snd t))) ts.
Definition inside (n : nat) (I : big_ideal) (ts : list cterm) : Prop := Forall (fun t => okt n (K I) (snd t)) ts.
Lemma inside_translate n I t : okt n (K I) t -> translate n (tr_initialize n I) t = Some (znat (image n (phi I) t)).
Proof.
  intros [L B]. rewrite (translate_spec n _ _ (fun v => Z.of_nat (phi I v (t @ v)))).
  - unfold znat, image. rewrite of_nat_tabulate. auto.
  - intros v Hv. rewrite getExponent_eq by auto. rewrite (proj2 (Nat.ltb_lt _ _)); auto.
Qed.
Lemma inside_values n I ts : inside n I ts -> translate_coefs n (tr_initialize n I) ts = Some (received (values n I ts)).
Proof.
  intros H. rewrite (translate_coefs_spec n _ ts (image n (phi I))).
  - unfold received, values. rewrite map_map. auto.
  - intros t Ht. apply inside_translate. unfold inside in H. rewrite Forall_forall in H. auto.
Qed.
Lemma entry n I v i : v < n -> i < K I v -> nth i (nth v (tr_initialize n I) []) 0%Z = Z.of_nat (phi I v i).
Proof.
  intros Hv Hi. rewrite tr_nth by auto. apply nth_error_nth. rewrite table_nth. now rewrite (proj2 (Nat.ltb_lt _ _)) by auto.
Qed.
Lemma inside_looked n I t : okt n (K I) t -> looked_up (tr_initialize n I) t (znat (image n (phi I) t)).
Proof.
  intros [L B]. split; [unfold znat; rewrite map_length; unfold image; now rewrite tabulate_length|]. intros v Hv. rewrite L in Hv. rewrite znat_nth, image_nth by auto. rewrite entry; auto.
Qed.
Lemma inside_proper n I t : okt n (K I) t -> proper_indices (tr_initialize n I) t.
Proof.
  intros [L B] v Hv. rewrite tr_length in Hv. specialize (B v Hv). rewrite entry by auto. split; [rewrite tr_nth by auto; rewrite table_length; lia|].
  split; [|intros ->; now rewrite phi_0]. intros H. destruct (Nat.eq_dec (t @ v) 0) as [E|E]; auto. exfalso. pose proof (phi_lt I v 0 (t @ v) ltac:(lia) B). lia.
Qed.
Lemma inside_translated n I ts : inside n I ts -> Forall2 (translated (tr_initialize n I)) ts (received (values n I ts)) /\ Forall (fun ct => proper_indices (tr_initialize n I) (snd ct)) ts.
Proof.
  intros H. unfold inside in H. split; [|eapply Forall_impl; [|exact H]; intros t; apply inside_proper]. induction H as [|[c t] ts Ht H IH]; cbn; constructor; auto.
  cbn [snd] in Ht. split; auto. cbn [fst snd]. split; [|now apply inside_looked]. rewrite tr_length. apply Ht.
Qed.
Lemma received_inj p q : received p = received q -> p = q.
Proof.
  revert q. induction p as [|[c m] p IH]; intros [|[d k] q] E; try discriminate; auto. cbn in E. injection E as -> E1 E2. apply znat_inj in E1. rewrite E1, (IH q E2). auto.
Qed.

(** ** The text *)
Definition streamed (f : format) (names : list str) (q : list (Z * list Z)) : res text :=
  match f with
  | CoCoA4 => rbind (p_header f names 0) (fun head => Ok (head ++
      p_terms (fun first ct => newline ++ writeCoef [] (is_identity (snd ct)) first (fst ct) (pbody (every (snd ct)))) true q ++ p_footer f names (is_empty q)))
  | _ => write_polynomial f names q
  end.
Lemma stream_text f names tr p q : polynomial_format f -> length tr = length names -> Forall2 (translated tr) p q -> Forall (fun ct => proper_indices tr (snd ct)) p ->
  write_poly_stream f names tr p = streamed f names q.
Proof.
  intros Ff L H T. destruct (Nat.eq_dec 0 0) as [_|N]; [|congruence].
  assert (D : f = CoCoA4 \/ f <> CoCoA4) by (destruct f; auto; right; discriminate). destruct D as [-> | D].
  - unfold write_poly_stream, streamed. cbn [p_header rbind].
    assert (G : forall first, p_terms (p_t_term CoCoA4 names tr) first p =
      p_terms (fun first ct => newline ++ writeCoef [] (is_identity (snd ct)) first (fst ct) (pbody (every (snd ct)))) first q).
    { induction H as [|[c t] [d e] p q [A [B E]] H IH]; intros first; auto. cbn [p_terms fst snd] in *. inversion T as [|? ? T1 T2]; subst. rewrite IH by auto. f_equal. cbn [p_t_term fst snd] in *.
      rewrite cocoa_t_body by auto. rewrite (identity_value tr t B T1). now rewrite (P_IO10.looked_up_value tr t e B E). }
    assert (Em : is_empty p = is_empty q) by (destruct H; reflexivity). rewrite G, Em. reflexivity.
  - rewrite (stream_same f names tr Ff L p q H T) by (intros; congruence). destruct f; auto. congruence.
Qed.
Lemma streamed_full f names q : polynomial_format f -> (f = CoCoA4 -> Forall (fun ct => full_or_one (snd ct)) q) -> streamed f names q = write_polynomial f names q.
Proof.
  intros Ff C. destruct f; auto. specialize (C eq_refl). unfold streamed, write_polynomial. cbn [p_header rbind].
  assert (G : forall first, p_terms (fun first ct => newline ++ writeCoef [] (is_identity (snd ct)) first (fst ct) (pbody (every (snd ct)))) first q = p_terms (p_term CoCoA4 names) first q).
  { induction C as [|[c e] q [A|A] C IH]; intros first; auto; cbn [p_terms fst snd p_term] in *; rewrite IH; f_equal; f_equal.
    - unfold every. rewrite every_pairs by auto. now rewrite <- (cocoa_body names).
    - assert (is_identity e = true) as ->; [|reflexivity]. apply forallb_forall. intros x Hx. rewrite Forall_forall in A. apply Z.eqb_eq. symmetry. auto. }
  f_equal. f_equal. f_equal. apply G.
Qed.
(** ** What a consumer is fed *)
Record fed (n : nat) (I : big_ideal) (canon : bool) (ts : list cterm) (p : poly) : Prop := mk_fed {
  fed_inside : inside n I ts;
  fed_values : p = values n I ts;
  fed_normal : normal_poly n p;
  fed_numerator : multigraded_numerator n I p;
  fed_sorted : canon = true -> descending_terms p }.
Lemma output_fed f names n I J canon ts p : polynomial_format f -> length names = n -> fed n I canon ts p ->
  multigraded_output f names (co_of n I J) (Some ts) = streamed f names (received p).
Proof.
  intros Ff L [A B C D E]. unfold multigraded_output. cbn [bind co_of co_n co_tr]. rewrite (inside_values n I ts A). cbn [bind]. rewrite B.
  destruct (inside_translated n I ts A) as [X Y]. apply stream_text; auto. rewrite tr_length. auto.
Qed.
(** From a translated polynomial *)
Lemma fed_intro n I canon ts p : inside n I ts -> translate_coefs n (tr_initialize n I) ts = Some (map (fun t => (fst t, znat (snd t))) p) ->
  normal_poly n p -> multigraded_numerator n I p -> (canon = true -> descending_terms p) -> fed n I canon ts p.
Proof.
  intros A B C D E. rewrite (inside_values n I ts A) in B. constructor; auto. injection B as B. apply received_inj. symmetry. exact B.
Qed.
Lemma hash_inside n I arr ops canonical : rearranges arr -> Forall (op_in_ring n) ops -> no_clear ops -> Forall (fun x => okt n (K I) (snd x)) (flat_map op_pair ops) ->
  inside n I (hash_polynomial n arr ops canonical).
Proof.
  intros Ha Hr NC F. destruct (p_hash n arr ops canonical Ha Hr) as (A & B & C). apply Forall_forall. intros [c m] Hi. cbn [snd]. apply B in Hi. destruct Hi as [-> Hi].
  assert (Q : added mdec ops m = kat mdec (flat_map op_pair ops) m) by apply added_kat, NC. unfold mdec in Q at 1. rewrite Q in Hi. apply kat_nz in Hi. apply in_map_iff in Hi. destruct Hi as [y [<- Hy]].
  rewrite Forall_forall in F. now apply F.
Qed.
Lemma signed_ops n I (o : list (bool * term)) : Forall (fun x => okt n (K I) (snd x)) o ->
  let ops := map (fun x : bool * term => OpSigned (fst x) (snd x)) o in Forall (op_in_ring n) ops /\ no_clear ops /\ Forall (fun x => okt n (K I) (snd x)) (flat_map op_pair ops).
Proof.
  intros H. cbv zeta. induction H as [|[b t] o Ht H IH]; cbn [map flat_map op_pair app fst snd no_clear] in *; [now repeat split|].
  destruct IH as [A [B C]]. split; [constructor; auto; apply Ht|]. split; auto.
Qed.
Lemma added_ops n I (o : list (bool * term)) : Forall (fun x => okt n (K I) (snd x)) o ->
  let ops := map (fun x : bool * term => OpAdd (sign (fst x)) (snd x)) o in Forall (op_in_ring n) ops /\ no_clear ops /\ Forall (fun x => okt n (K I) (snd x)) (flat_map op_pair ops).
Proof.
  intros H. cbv zeta. induction H as [|[b t] o Ht H IH]; cbn [map flat_map op_pair app fst snd no_clear] in *; [now repeat split|].
  destruct IH as [A [B C]]. split; [constructor; auto; apply Ht|]. split; auto.
Qed.

Section Runs.
  Context (n : nat) (I : list mono) (J : ideal) (HR : in_ring n I) (HJ : internal n I J).
  Lemma bigatti_fed simplify generic pv arr canonical : progressing_pivot n pv -> rearranges arr -> exists steps, forall fuel, steps <= fuel ->
    exists ts p, bigatti_terms fuel simplify generic pv arr canonical (co_of n I J) = Some ts /\ fed n I canonical ts p.
  Proof.
    intros Hp Ha. destruct (run_internal n I J (mkBP simplify generic false) pv HJ (progressing_legal n pv Hp)) as [steps Hrun]. exists steps. intros fuel Hf.
    destruct (Hrun fuel Hf) as (out & o & E & R & V). destruct R as [R1 R2 R3 R4].
    destruct (finish_multi n I J o (int_below _ _ _ HJ) (int_ideal _ _ _ HJ) R3 V arr canonical Ha) as (p & T & A & B & C & D).
    destruct (signed_ops n I o R3) as [X [Y Z]]. eexists. exists p. split.
    - unfold bigatti_terms. cbn [co_of co_n co_tr co_ideal]. rewrite E. cbn [bind]. rewrite (R1 eq_refl), multi_ops_bouts. cbn [bind]. reflexivity.
    - apply fed_intro; auto. now apply hash_inside.
  Qed.
  Lemma bigatti_uni simplify generic pv arr canonical : progressing_pivot n pv -> rearranges arr -> exists steps, forall fuel, steps <= fuel ->
    exists q, uni_series_output n I canonical (bigatti_univariate fuel simplify generic pv arr canonical (co_of n I J)) q.
  Proof.
    intros Hp Ha. destruct (run_internal n I J (mkBP simplify generic true) pv HJ (progressing_legal n pv Hp)) as [steps Hrun]. exists steps. intros fuel Hf.
    destruct (Hrun fuel Hf) as (out & o & E & R & V). destruct R as [R1 R2 R3 R4].
    destruct (uni_ops_spec n I out R2) as (ops & EO & NC & PO & W).
    destruct (finish_uni n I J o (int_below _ _ _ HJ) (int_ideal _ _ _ HJ) R3 V arr ops canonical Ha NC PO) as (q & T & A & B & C & D).
    { intros w. rewrite W. apply R4. }
    exists q. constructor; auto. unfold bigatti_univariate. cbn [co_of co_n co_tr co_ideal]. rewrite E. cbn [bind]. rewrite EO. cbn [bind]. rewrite T. f_equal.
    unfold received, uni_poly. rewrite map_map. apply map_ext. intros. reflexivity.
  Qed.
  Lemma slice_fed c rnd canonical : legal_hilbert_config c -> exists ts p, slice_terms c rnd canonical (co_of n I J) = Some ts /\ fed n I canonical ts p.
  Proof.
    intros Hc. destruct (hil_api c rnd n I J Hc HR HJ) as [out [E [T [N M]]]].
    destruct (hil_run_spec c rnd n J (legal_hconf c Hc) (int_wf _ _ _ HJ) (int_minl _ _ _ HJ)) as [out' [E' [T' B]]]. rewrite E in E'. injection E' as <-.
    assert (HN : Forall (fun t => length (snd t) = n) out) by (apply Forall_forall; intros [x d] Hi; apply T' in Hi; apply Hi).
    assert (HB : inside n I out).
    { unfold inside. rewrite Forall_forall in *. intros [x d] Hi. split; [apply (HN _ Hi)|]. intros v Hv. cbn [snd]. destruct (B x d v Hi Hv) as [->|[g [Hg ->]]]; [apply K_bounds|apply (int_below _ _ _ HJ); auto]. }
    unfold slice_terms. cbn [co_of co_n co_ideal]. rewrite E. cbn [bind]. destruct canonical.
    - destruct (p_canonical_normal n out) as [P S].
      + exact HN.
      + apply T'.
      + clear -N. destruct N as [_ N]. rewrite Forall_map in N. eapply Forall_impl; [|exact N]. cbn. tauto.
      + set (ts := canonical_coefs n out) in *. assert (HB' : inside n I ts) by (eapply Permutation_Forall; [apply Permutation_sym; exact P|exact HB]).
        exists ts, (values n I ts). split; auto. assert (PV : Permutation (values n I out) (values n I ts)) by (apply Permutation_map, Permutation_sym, P). constructor; auto.
        * destruct N as [N1 N2]. split; [eapply Permutation_NoDup; [apply Permutation_map; exact PV|exact N1]|eapply Permutation_Forall; [exact PV|exact N2]].
        * intros m Hm. specialize (M m Hm). fold (values n I out) in M.
          assert (Q : series_coef (values n I ts) m = series_coef (values n I out) m); [|rewrite Q; exact M].
          clear -PV. induction PV as [|[c x] l l' H IH|[c x] [d y] l|l l' l'' H IH H' IH']; cbn [series_coef]; try lia.
        * intros _. unfold descending_terms in *. clear -S HB'. unfold values. induction S as [|[c d] P C IH F]; cbn [map]; [constructor|]. inversion HB' as [|? ? H1 H2]; subst. constructor; [auto|].
          rewrite Forall_forall in *. intros t Ht. apply in_map_iff in Ht. destruct Ht as [[c' d'] [<- Ht]]. cbn [fst snd]. apply P_Finish.lex_image; [apply (H2 _ Ht)|exact H1|]. apply (F (c', d')); auto.
    - exists out, (values n I out). split; auto. constructor; auto; discriminate.
  Qed.
  Lemma slice_uni c rnd canonical : legal_hilbert_config c -> exists q, uni_series_output n I canonical (slice_univariate c rnd (co_of n I J)) q.
  Proof.
    intros Hc. destruct (hil_univariate c rnd n I J Hc HR HJ) as (out & p & q & A & B & C & D & E & F & G & H). exists q. unfold slice_univariate. cbn [co_of co_n co_ideal co_tr]. rewrite A. cbn [bind]. rewrite B. cbn [bind].
    rewrite E. constructor; auto.
    - clear -F. induction q as [|[c j] q IH]; cbn [map snd]; [constructor|]. destruct F as [_ [F1 F2]]. constructor; auto. intros X. apply in_map_iff in X. destruct X as [[d k] [<- X]]. rewrite Forall_forall in F1. apply F1 in X. cbn in X. lia.
    - intros p' N' M' x k. rewrite G. assert (P : Permutation p' p) by (eapply p_numerator_unique; eauto).
      assert (Q : degree_coef p' k = degree_coef p k); [|rewrite Q; tauto].
      clear -P. induction P as [|[c x] l l' H IH|[c x] [d y] l|l l' l'' H IH H' IH']; cbn [degree_coef]; lia.
  Qed.
  Lemma scarf_fed strong dord eord arr canonical : (forall l, Permutation (dord l) l) -> (forall l, Permutation (eord l) l) -> rearranges arr ->
    strong = true \/ exponents_of_minimal_generators n I -> exists steps, forall fuel, steps <= fuel ->
    exists ts p, scarf_feed fuel strong dord eord arr canonical (co_of n I J) = Some ts /\ fed n I canonical ts p.
  Proof.
    intros Hd He Ha HG. exists (cost (length J)). intros fuel Hf.
    destruct (scarf_terms_spec n J (K I) strong dord eord) with (fuel := fuel) as (o & E & R & V); auto; try apply HJ.
    - intros w _. apply K_bounds.
    - destruct HG as [HG|HG]; auto. right. eapply internal_gap_free; eauto.
    - destruct (finish_adds n I J o (int_below _ _ _ HJ) (int_ideal _ _ _ HJ) R V arr canonical Ha) as (p & T & A & B & C & D). destruct (added_ops n I o R) as [X [Y Z]].
      eexists. exists p. split; [unfold scarf_feed; cbn [co_of co_n co_ideal]; rewrite E; reflexivity|]. apply fed_intro; auto. now apply hash_inside.
  Qed.
  Lemma scarf_uni strong dord eord arr canonical : (forall l, Permutation (dord l) l) -> (forall l, Permutation (eord l) l) -> rearranges arr ->
    strong = true \/ exponents_of_minimal_generators n I -> exists steps, forall fuel, steps <= fuel ->
    exists q, uni_series_output n I canonical (scarf_univariate fuel strong dord eord arr canonical (co_of n I J)) q.
  Proof.
    intros Hd He Ha HG. exists (cost (length J)). intros fuel Hf.
    destruct (scarf_terms_spec n J (K I) strong dord eord) with (fuel := fuel) as (o & E & R & V); auto; try apply HJ.
    - intros w _. apply K_bounds.
    - destruct HG as [HG|HG]; auto. right. eapply internal_gap_free; eauto.
    - set (ops := map (fun x : bool * Z => OpAdd (sign (fst x)) (snd x)) (map (fun x => (fst x, tdeg n (phi I) (snd x))) o)).
      assert (FP : flat_map op_pair ops = map (fun x => (sign (fst x), tdeg n (phi I) (snd x))) o) by (unfold ops; clear; induction o as [|x l IH]; cbn; auto; f_equal; auto).
      destruct (finish_uni n I J o (int_below _ _ _ HJ) (int_ideal _ _ _ HJ) R V arr ops canonical Ha) as (q & T & A & B & C & D).
      + unfold ops. clear. induction o as [|x l IH]; cbn; auto.
      + intros c e Hi. rewrite FP in Hi. apply in_map_iff in Hi. destruct Hi as [x [Q _]]. injection Q as _ <-. rewrite tdeg_degree. lia.
      + intros w. rewrite FP. unfold ksum, fsum. rewrite map_map. auto.
      + exists q. constructor; auto. unfold scarf_univariate. cbn [co_of co_n co_tr co_ideal]. rewrite E. cbn [bind]. rewrite degrees_all_eq by auto. cbn [bind]. fold ops. rewrite T. f_equal.
        unfold received, uni_poly. rewrite map_map. apply map_ext. intros. reflexivity.
  Qed.
End Runs.
