(** The action that transforms polynomials. *)
From Coq Require Import String Ascii.
From Coq Require Import List Arith Bool ZArith Lia Sorted Permutation.
Import ListNotations.
From Verif Require Import M_Term M_Api M_Names M_IO M_Poly M_IOPoly Spec_IO Spec_Names Spec_Poly Spec_IOPoly P_Names P_Names2 P_Poly3 P_Intersect P_IO P_IOPoly P_IOPoly2 P_IOPoly3.

Definition newnames (names : list str) : list str := map (fun i => nth i names []) (sorter names).
Definition arrange (names : list str) (ct : Z * list Z) : Z * list Z := (fst ct, map (fun i => nth i (snd ct) 0%Z) (sorter names)).
Lemma permute_poly_spec l : forall p old, List.length old = List.length l -> Forall (fun ct => List.length (snd ct) = List.length l) p ->
  permute_poly (sorter l) old p = Some (map (arrange l) p).
Proof.
  induction p as [|[c t] p IH]; intros old O F; cbn [permute_poly map]; auto. inversion F as [|x y Ft Fr]; subst. cbn [snd] in Ft. unfold permute_big.
  destruct (permute_loop_map 0%Z (sorter l) old t) as [tmp' [E L]].
  - apply sorter_nodup.
  - rewrite Ft. apply sorter_range.
  - rewrite sorter_length. auto.
  - rewrite E. cbn [bind fst snd]. rewrite IH; auto. congruence.
Qed.
Lemma newnames_ok names : NoDup names -> ascending (newnames names) /\ Permutation (newnames names) names.
Proof. intros N. split; [now apply sorted_names_asc | apply sorted_names_perm]. Qed.
Lemma newnames_length names : List.length (newnames names) = List.length names.
Proof. unfold newnames. now rewrite map_length, sorter_length. Qed.
Lemma newnames_perm a b : NoDup a -> Permutation a b -> newnames a = newnames b.
Proof.
  intros N P. assert (N' : NoDup b) by (eapply Permutation_NoDup; eauto). destruct (newnames_ok a N) as [A1 P1]. destruct (newnames_ok b N') as [A2 P2].
  apply ascending_unique; auto. etransitivity; [exact P1|]. etransitivity; [exact P|]. now apply Permutation_sym.
Qed.
Lemma newnames_legal names : legal_names names -> legal_names (newnames names).
Proof.
  intros [D L]. destruct (newnames_ok names D) as [_ P]. split; [eapply Permutation_NoDup; [apply Permutation_sym; exact P | auto]|].
  eapply Permutation_Forall; [apply Permutation_sym; exact P | auto].
Qed.
Lemma arrange_same names ct : NoDup names -> same_coef_term names (newnames names) ct (arrange names ct).
Proof.
  intros N. split; auto. cbn [arrange snd]. split; [unfold newnames; now rewrite !map_length|]. intros s. apply (exponent_map 0%Z); auto. apply sorter_perm.
Qed.
Lemma arrange_eq a b t u : NoDup a -> Permutation a b -> same_coef_term a b t u -> arrange a t = arrange b u.
Proof.
  intros N P [C [L S]]. assert (N' : NoDup b) by (eapply Permutation_NoDup; eauto).
  destruct (arrange_same a t N) as [_ [L1 S1]]. destruct (arrange_same b u N') as [_ [L2 S2]]. pose proof (newnames_perm a b N P) as E.
  unfold arrange in *. cbn [fst snd] in *. f_equal; auto. apply (exponent_ext 0%Z (newnames a)); auto; [|congruence|].
  - destruct (newnames_ok a N) as [A _]. now apply ascending_nodup.
  - intros s. rewrite S1. rewrite E, S2. symmetry. apply S.
Qed.
Lemma arrange_length names ct : List.length (snd (arrange names ct)) = List.length names.
Proof. cbn. now rewrite map_length, sorter_length. Qed.
Lemma arrange_fine names ct : pfine (List.length names) (snd ct) -> pfine (List.length names) (snd (arrange names ct)).
Proof.
  intros [L F]. split; [apply arrange_length|]. cbn [arrange snd]. apply Forall_map, Forall_forall. intros i _.
  destruct (nth_in_or_default i (snd ct) 0%Z) as [H| ->]; [|lia]. rewrite Forall_forall in F. auto.
Qed.
Lemma fine_length n p : Forall (fun ct : Z * list Z => pfine n (snd ct)) p -> Forall (fun ct => List.length (snd ct) = n) p.
Proof. apply Forall_impl. intros ct [A _]. exact A. Qed.
Definition changed (canon sort : bool) (names : list str) (p : list (Z * list Z)) : list str * list (Z * list Z) :=
  (if canon then newnames names else names,
   let p' := if canon then map (arrange names) p else p in if sort || canon then bigPoly_sort p' else p').
Lemma change_spec canon sort names p : Forall (fun ct => List.length (snd ct) = List.length names) p -> ptransform_change canon sort names p = Ok (changed canon sort names p).
Proof.
  intros F. unfold ptransform_change, changed. destruct canon; [|reflexivity]. unfold poly_sortVariables. rewrite permute_poly_spec by (auto; now rewrite map_length). reflexivity.
Qed.
Lemma sort_fine n p : Forall (fun ct : Z * list Z => pfine n (snd ct)) p -> Forall (fun ct : Z * list Z => pfine n (snd ct)) (bigPoly_sort p).
Proof. intros F. eapply Permutation_Forall; [|exact F]. apply Permutation_sym. apply (p_bigPoly_sort n). now apply fine_length. Qed.
Lemma changed_ok canon sort names p names' q : legal_names names -> terms_of (List.length names) p -> changed canon sort names p = (names', q) ->
  transformed canon sort names p names' q /\ legal_names names' /\ terms_of (List.length names') q /\ List.length names' = List.length names /\ List.length q = List.length p.
Proof.
  intros L T E. apply fine_of in T. pose proof (proj1 L) as N. unfold changed in E. injection E as E1 E2.
  set (p' := if canon then map (arrange names) p else p) in *.
  assert (F' : Forall (fun ct : Z * list Z => pfine (List.length names) (snd ct)) p').
  { unfold p'. destruct canon; auto. apply Forall_map. eapply Forall_impl; [|exact T]. intros ct. apply arrange_fine. }
  assert (LN : List.length names' = List.length names) by (rewrite <- E1; destruct canon; auto; apply newnames_length).
  assert (S : bigPoly_sort p' = bigPoly_sort p') by auto. destruct (p_bigPoly_sort (List.length names) p' (fine_length _ _ F')) as [SP SS].
  repeat split.
  - exists p'. split.
    + unfold p'. destruct canon; [|auto]. subst names'. destruct (newnames_ok names N) as [A B]. split; [|split]; auto.
      clear - N. induction p as [|ct p IH]; cbn [map]; constructor; auto. now apply arrange_same.
    + subst q. destruct (sort || canon); auto.
  - subst names'. destruct canon; [apply newnames_legal; auto | apply L].
  - subst names'. destruct canon; [apply newnames_legal; auto | apply L].
  - rewrite LN. apply of_fine. subst q. destruct (sort || canon); auto. now apply sort_fine.
  - exact LN.
  - transitivity (List.length p'); [|unfold p'; destruct canon; auto; apply map_length]. subst q. destruct (sort || canon); auto. now apply Permutation_length.
Qed.
Definition in_format (fin : option format) (file : text) : format := match fin with Some f => f | None => autoDetect file end.
Definition out_format (fin fout : option format) (file : text) : format := match fout with Some g => g | None => in_format fin file end.
Lemma ptransform_all max canon sort fin fout file names p :
  read_polynomial max (in_format fin file) file = Ok (names, p) -> polynomial_format (out_format fin fout file) -> polynomial_fits max (out_format fin fout file) names p ->
  exists out names' q q', ptransform max canon sort fin fout file = Ok out /\ transformed canon sort names p names' q /\
    read_polynomial max (out_format fin fout file) out = Ok (names', q') /\ same_polynomial q' q /\ (q <> [] \/ out_format fin fout file = Fourti2 -> q' = q) /\
    autoDetect out = out_format fin fout file.
Proof.
  intros R G FT. set (g := out_format fin fout file) in *. pose proof (poly_reading max (in_format fin file) file) as W. rewrite R in W. destruct W as [L T].
  destruct (changed canon sort names p) as [names' q] eqn:E. destruct (changed_ok canon sort names p names' q L T E) as [A [B [C [D1 D2]]]].
  destruct (write_polynomial_ok g names' q G) as [out O].
  assert (FT' : polynomial_fits max g names' q) by (unfold polynomial_fits in *; rewrite D1, D2; exact FT).
  destruct (poly_roundtrip max g names' q out G B C FT' O) as [RT AD].
  exists out, names', q, (as_read names' g q). repeat split; auto.
  - unfold ptransform. cbv zeta. fold (in_format fin file). rewrite R. cbn [rbind]. rewrite change_spec by (apply fine_length, fine_of; auto). rewrite E. cbn [rbind]. exact O.
  - apply as_read_same.
  - intros [H|H]; [|rewrite H; reflexivity]. unfold as_read. destruct g, q; auto; congruence.
Qed.
Lemma ptransform_errors max canon sort fin fout file : 
  (forall r, read_polynomial max (in_format fin file) file <> Ok r) \/ ~ polynomial_format (out_format fin fout file) -> forall out, ptransform max canon sort fin fout file <> Ok out.
Proof.
  intros H out E. unfold ptransform in E. cbv zeta in E. fold (in_format fin file) in E. destruct (read_polynomial max (in_format fin file) file) as [[names p]| | | | |] eqn:R; try discriminate.
  cbn [rbind] in E. destruct H as [H|H]; [now apply (H (names, p))|].
  destruct (ptransform_change canon sort names p) as [[n q]| | | | |]; try discriminate. cbn [rbind] in E. fold (out_format fin fout file) in E.
  apply H. unfold write_polynomial in E. unfold polynomial_format. destruct (out_format fin fout file); auto; discriminate.
Qed.
Lemma ptransform_outcome max canon sort fin fout file :
  match ptransform max canon sort fin fout file with
  | Ok _ => exists names p, read_polynomial max (in_format fin file) file = Ok (names, p)
  | SyntaxError => read_polynomial max (in_format fin file) file = SyntaxError
  | OtherError => read_polynomial max (in_format fin file) file = OtherError \/ ~ polynomial_format (out_format fin fout file)
  | Undefined => read_polynomial max (in_format fin file) file = Undefined /\ in_format fin file = Fourti2
  | OutOfFuel | InvalidArgument => False
  end.
Proof.
  pose proof (poly_reading max (in_format fin file) file) as W. unfold ptransform. cbv zeta. fold (in_format fin file).
  destruct (read_polynomial max (in_format fin file) file) as [[n q]| | | | |] eqn:R; cbn [rbind]; auto.
  destruct W as [L T]. rewrite change_spec by (apply fine_length, fine_of; auto). destruct (changed canon sort n q) as [n' q']. cbn [rbind]. fold (out_format fin fout file).
  unfold write_polynomial, polynomial_format. destruct (out_format fin fout file); cbn [p_header rbind]; eauto; try (right; intuition discriminate).
  unfold m2_writeRing. destruct (P_IO3.ring_name_ok n') as [-> _]. cbn [rbind]. eauto.
Qed.
Lemma forall2_arrange l l' : NoDup l -> Permutation l l' -> forall p q, Forall2 (same_coef_term l l') p q -> map (arrange l) p = map (arrange l') q.
Proof. intros N P p q H. induction H; cbn [map]; auto. f_equal; auto. now apply arrange_eq. Qed.
Lemma changed_canonical s1 s2 n1 p1 n2 p2 : NoDup n1 -> rearranged n1 p1 n2 p2 -> changed true s1 n1 p1 = changed true s2 n2 p2.
Proof.
  intros N [P [p' [P1 F]]]. unfold changed. rewrite !orb_true_r. f_equal; [now apply newnames_perm|]. cbv zeta.
  rewrite <- (forall2_arrange n1 n2 N P p' p2 F). apply (p_bigPoly_function (List.length n1)).
  - apply Forall_map, Forall_forall. intros ct _. apply arrange_length.
  - now apply Permutation_map.
Qed.
Lemma ptransform_canonical max s1 s2 fin1 fin2 g file1 file2 n1 p1 n2 p2 :
  read_polynomial max (in_format fin1 file1) file1 = Ok (n1, p1) -> read_polynomial max (in_format fin2 file2) file2 = Ok (n2, p2) -> rearranged n1 p1 n2 p2 ->
  ptransform max true s1 fin1 (Some g) file1 = ptransform max true s2 fin2 (Some g) file2.
Proof.
  intros R1 R2 H. unfold ptransform. cbv zeta. fold (in_format fin1 file1). fold (in_format fin2 file2). rewrite R1, R2. cbn [rbind].
  pose proof (poly_reading max (in_format fin1 file1) file1) as W1. rewrite R1 in W1. destruct W1 as [L1 T1].
  pose proof (poly_reading max (in_format fin2 file2) file2) as W2. rewrite R2 in W2. destruct W2 as [L2 T2].
  rewrite !change_spec by (apply fine_length, fine_of; auto). rewrite (changed_canonical s1 s2 n1 p1 n2 p2); auto. apply L1.
Qed.
(** Once more *)
Lemma ascending_newnames names : NoDup names -> ascending names -> newnames names = names.
Proof. intros N A. destruct (newnames_ok names N) as [B P]. now apply ascending_unique. Qed.
Lemma same_coef_refl l ct : NoDup l -> List.length (snd ct) = List.length l -> same_coef_term l l ct ct.
Proof. intros N L. repeat split; auto. Qed.
Lemma arrange_id names ct : NoDup names -> ascending names -> List.length (snd ct) = List.length names -> arrange names ct = ct.
Proof.
  intros N A L. destruct (arrange_same names ct N) as [_ [L1 S1]]. rewrite (ascending_newnames names N A) in *. destruct ct as [c t]. unfold arrange in *. cbn [fst snd] in *. f_equal.
  apply (exponent_ext 0%Z names); auto.
Qed.
Lemma changed_idem s1 s2 names p names' q : legal_names names -> Forall (fun ct => List.length (snd ct) = List.length names) p -> changed true s1 names p = (names', q) ->
  changed true s2 names' q = (names', q).
Proof.
  intros [N _] F E. unfold changed in E. rewrite orb_true_r in E. injection E as E1 E2. destruct (newnames_ok names N) as [A P]. subst names'.
  assert (N' : NoDup (newnames names)) by (eapply Permutation_NoDup; [apply Permutation_sym; exact P | auto]).
  set (p' := map (arrange names) p) in *. assert (F' : Forall (fun ct => List.length (snd ct) = List.length names) p') by (apply Forall_map, Forall_forall; intros ct _; apply arrange_length).
  destruct (p_bigPoly_sort (List.length names) p' F') as [SP SS].
  assert (Fq : Forall (fun ct => List.length (snd ct) = List.length names) q) by (subst q; eapply Permutation_Forall; [apply Permutation_sym; exact SP | exact F']).
  unfold changed. rewrite orb_true_r. rewrite (ascending_newnames _ N' A). f_equal. cbv zeta.
  assert (map (arrange (newnames names)) q = q) as ->.
  { rewrite <- (map_id q) at 2. apply map_ext_in. intros ct H. apply arrange_id; auto. rewrite Forall_forall in Fq. rewrite newnames_length. auto. }
  subst q. apply (p_bigPoly_function (List.length names)); auto.
Qed.
Lemma ptransform_idem max s1 s2 fin fout file out names p g : g = out_format fin fout file -> polynomial_fits max g names p ->
  read_polynomial max (in_format fin file) file = Ok (names, p) -> ptransform max true s1 fin fout file = Ok out -> ptransform max true s2 (Some g) (Some g) out = Ok out /\ ptransform max true s2 None None out = Ok out.
Proof.
  intros -> FT R E. set (g := out_format fin fout file) in *.
  assert (G : polynomial_format g).
  { destruct g eqn:X; unfold polynomial_format; auto; exfalso; (eapply (ptransform_errors max true s1 fin fout file); [right; fold g; rewrite X; unfold polynomial_format; intuition discriminate | exact E]). }
  unfold ptransform in E. cbv zeta in E. fold (in_format fin file) in E. rewrite R in E. cbn [rbind] in E.
  pose proof (poly_reading max (in_format fin file) file) as W. rewrite R in W. destruct W as [L T].
  rewrite change_spec in E by (apply fine_length, fine_of; auto). destruct (changed true s1 names p) as [names' q] eqn:C. cbn [rbind] in E. fold (out_format fin fout file) in E. fold g in E.
  destruct (changed_ok true s1 names p names' q L T C) as [A [B [D [D1 D2]]]].
  assert (FT' : polynomial_fits max g names' q) by (unfold polynomial_fits in *; rewrite D1, D2; exact FT).
  destruct (poly_roundtrip max g names' q out G B D FT' E) as [RT AD].
  assert (M : ptransform max true s2 (Some g) (Some g) out = Ok out).
  { unfold ptransform. cbv zeta. rewrite RT. cbn [rbind].
    pose proof (changed_idem s1 s2 names p names' q L (fine_length _ _ (fine_of _ _ T)) C) as CI.
    assert (Z0 : q = [] -> g <> Fourti2 -> changed true s2 names' (zero_terms names') = (names', zero_terms names')).
    { intros -> _. unfold changed in CI |- *. rewrite orb_true_r in *. injection CI as CI. rewrite CI. f_equal. unfold zero_terms. cbn [map].
      assert (arrange names' (0%Z, map (fun _ => 0%Z) names') = (0%Z, map (fun _ => 0%Z) names')) as ->; [|reflexivity].
      apply arrange_id; [apply B | | cbn; apply map_length]. rewrite <- CI. apply newnames_ok. apply B. }
    assert (LZ : forall n, Forall (fun ct : Z * list Z => List.length (snd ct) = List.length n) (zero_terms n)) by (intros n; repeat constructor; cbn; apply map_length).
    destruct q as [|ct q].
    - destruct (Bool.bool_dec (match g with Fourti2 => true | _ => false end) true) as [X|X].
      + destruct g; try discriminate. cbn [as_read]. rewrite change_spec, CI by constructor. exact E.
      + assert (X' : g <> Fourti2) by (intros Y; apply X; now rewrite Y). assert (as_read names' g [] = zero_terms names') as -> by (destruct g; auto; congruence).
        rewrite change_spec by apply LZ. rewrite Z0 by auto. cbn [rbind]. rewrite <- write_zero; auto. destruct G as [Y|[Y|[Y|Y]]]; auto. congruence.
    - assert (as_read names' g (ct :: q) = ct :: q) as -> by (destruct g; reflexivity). rewrite change_spec by (apply fine_length, fine_of; auto). rewrite CI. exact E. }
  split; auto. unfold ptransform in *. cbv zeta in *. rewrite AD. exact M.
Qed.
(** ** Packages for the theorems *)
Lemma poly_round_trip max f names p : polynomial_format f -> legal_names names -> terms_of (List.length names) p -> polynomial_fits max f names p ->
  exists file q, write_polynomial f names p = Ok file /\ read_polynomial max f file = Ok (names, q) /\ autoDetect file = f /\
    same_polynomial q p /\ (p <> [] \/ f = Fourti2 -> q = p).
Proof.
  intros F L T FT. destruct (write_polynomial_ok f names p F) as [file W]. destruct (poly_roundtrip max f names p file F L T FT W) as [A B].
  exists file, (as_read names f p). repeat split; auto; [apply as_read_same|]. intros [H| ->]; auto. unfold as_read. destruct f, p; auto; congruence.
Qed.
Lemma stream_round_trip max f names tr p q : polynomial_format f -> legal_names names -> terms_of (List.length names) q -> polynomial_fits max f names q ->
  List.length tr = List.length names -> Forall2 (translated tr) p q -> Forall (fun ct => proper_indices tr (snd ct)) p ->
  (f = CoCoA4 -> Forall (fun ct => Forall (fun e => e <> 0%Z) (snd ct) \/ Forall (fun e => e = 0%Z) (snd ct)) q) ->
  exists file r, write_poly_stream f names tr p = Ok file /\ read_polynomial max f file = Ok (names, r) /\ autoDetect file = f /\
    same_polynomial r q /\ (q <> [] \/ f = Fourti2 -> r = q).
Proof.
  intros F L T FT LT H I C. rewrite (stream_same f names tr F LT p q H I C). now apply poly_round_trip.
Qed.
