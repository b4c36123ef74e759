(** The action frobgrob. *)
From Coq Require Import String Ascii.
From Coq Require Import List Arith Bool ZArith Lia Sorted Permutation.
Import ListNotations.
From Verif Require Import M_Term M_Ideal M_Slice M_Msm M_Api M_Names M_IO Spec_IO P_IO6 P_IO8 M_Actions M_Opt M_Cli M_Cli2 M_Frob P_Frob P_Frob2 Spec_Frob P_Cli2 P_Cli3 P_Cli4 P_Cli5 P_Cli7 P_Cli9 P_Names P_Names2 Spec_Names P_Api P_Api2 P_Api3 P_Api4 P_IOPoly3 M_Lattice P_Lattice P_Lattice2.
From Verif Require Import Spec Spec_Api Spec_Opt Spec_Cli Spec_Cli2 Spec_Lattice.
Local Notation length := List.length.

Lemma recorded_terms n tr : forall ts L acc, valued n tr ts L -> recorded (map (WTTerm tr) ts ++ [WDone]) (Some acc) = Some (acc ++ map znat L).
Proof.
  induction ts as [|t ts IH]; intros [|m L] acc (A & B & C); try discriminate; cbn [map app recorded]; [now rewrite app_nil_r|].
  inversion B as [|? ? (B1 & B2) B3]; subst. cbn [map] in C. injection C as C1 C2. destruct (translate (length tr) tr t) as [z|] eqn:E; [|congruence].
  assert (z = znat m) as -> by (rewrite <- C1; symmetry; eapply translate_value; eauto). rewrite (IH L) by (repeat split; auto). cbn [map]. now rewrite <- app_assoc.
Qed.
Lemma recorded_told n (canon : bool) names tr ts L : valued n tr ts L ->
  bind (bind (if canon then cc_run tr cc_new (told names ts) else Some (told names ts)) (mapO (translating tr))) (fun ws => recorded ws None) = Some (map znat (canon1 canon L)).
Proof.
  intros V. set (ts' := if canon then canonicalize tr ts else ts).
  assert (V' : valued n tr ts' (canon1 canon L)) by (unfold ts', canon1; destruct canon; auto using valued_sort).
  assert ((if canon then cc_run tr cc_new (told names ts) else Some (told names ts)) = Some (told names ts')) as -> by (unfold ts'; destruct canon; auto using cc_told).
  cbn [bind]. rewrite (told_events n tr names ts' _ V'). cbn [bind recorded]. unfold ideal_events. cbn [app recorded]. exact (recorded_terms n tr ts' _ [] V').
Qed.
Lemma combination_inner : forall m b, combination (znat m) b = inner_product b m.
Proof. induction m as [|e m IH]; intros [|x b]; cbn [znat map combination inner_product]; auto. rewrite <- IH. unfold znat. lia. Qed.
Lemma solution_line v : solution_text v = vector_line v.
Proof. reflexivity. Qed.

Lemma frobgrob_general o rnd file names gens a0 b : read_frobgrob (fg_max o) file = Ok (names, map znat gens, a0 :: b) -> legal_names names -> in_ring (length names) gens -> length b = length names ->
  legal_oparams (fg_params o) -> (fg_minimal o = true -> lists_minimal_generators (length names) gens gens) -> (fg_canon o = true -> ascending names) ->
  match frobgrob_print o rnd file with
  | Ok out => exists m, optimal (max_standard (length names) gens) b m /\
      out = (if fg_vector o then vector_line (znat m) else []) ++ line_with (inner_product b m - a0)%Z
  | Undefined => forall m, ~ max_standard (length names) gens m
  | _ => False
  end.
Proof.
  intros E N R Lb Hp Hm Ha. destruct (cli_set_legal (fg_minimal o) (fg_canon o) names gens N R Hm) as (names' & gens' & J & A & B & C & D & F).
  destruct (ascending_output _ _ _ _ _ (proj1 N) R Ha F) as (-> & ->).
  destruct (told_optimum_ok true (fg_params o) rnd (length names) gens J b false names Hp C D Lb) as (tr & ts & L & v & T & V & O & One & _).
  unfold frobgrob_print. rewrite E. cbn [rbind fst snd]. rewrite nideal_znat, A. cbn [bind skipn]. rewrite T. rewrite (recorded_told (length names)) with (L := L) by exact V.
  specialize (One eq_refl). unfold program_set, optimum_reported in O. destruct v as [x|].
  - destruct O as (O1 & _ & O2). destruct L as [|m [|m' L]]; try (cbn in One; lia); [congruence|].
    assert (canon1 (fg_canon o) [m] = [m]) as -> by (destruct (fg_canon o); reflexivity). cbn [map].
    destruct (O2 m (or_introl eq_refl)) as (X & _). exists m. split; auto. rewrite combination_inner, solution_line. f_equal. unfold number_line, line_with. cbn [nth]. do 2 f_equal. lia.
  - destruct O as (-> & O). destruct (fg_canon o); exact O.
Qed.

Lemma leading_znat G : map (fun g => map (Z.max 0) (tl g)) G = map znat (leading_monomials G).
Proof. unfold leading_monomials. rewrite map_map. apply map_ext. intros g. unfold znat. rewrite map_map. apply map_ext. intros z. lia. Qed.
Fixpoint sortedb (l : list str) : bool := match l with [] => true | x :: l' => forallb (str_less x) l' && sortedb l' end.
Lemma sortedb_ok : forall l, sortedb l = true -> ascending l.
Proof.
  induction l as [|x l IH]; intros H; [constructor|]. cbn [sortedb] in H. apply andb_true_iff in H. destruct H as (A & B). constructor; [apply IH; exact B|].
  rewrite forallb_forall in A. apply Forall_forall. intros y Hy. apply str_less_iff. now apply A.
Qed.
Lemma defaults_ascending n : n <= 9 -> ascending (defaultNames n).
Proof.
  intros H. apply sortedb_ok. assert (X : forallb (fun n => sortedb (defaultNames n)) (seq 0 10) = true) by (vm_compute; reflexivity). rewrite forallb_forall in X. apply X. apply in_seq. lia.
Qed.

Lemma p_frobgrob o rnd a G file : Forall (fun x => 1 < x)%Z a -> coprime a -> grobner_basis a G ->
  number_text (Z.of_nat (length G) :: Z.of_nat (length a) :: concat G ++ a) file -> (Z.of_nat (length G) <= fg_max o)%Z -> (Z.of_nat (length a) <= fg_max o)%Z ->
  legal_oparams (fg_params o) -> (fg_minimal o = true -> lists_minimal_generators (length a - 1) (leading_monomials G) (leading_monomials G)) -> (fg_canon o = true -> length a <= 10) ->
  exists g v, frobenius_number a g /\ frobgrob_print o rnd file = Ok ((if fg_vector o then vector_line v else []) ++ line_with g) /\
    length v + 1 = length a /\ Forall (fun z => 0 <= z)%Z v /\ inner (-1 :: v)%Z a = g.
Proof.
  intros F C (leading & Ord & Rel & All) T M1 M2 Hp Hm Hc. destruct a as [|a0 b].
  { exfalso. specialize (C 0%Z ltac:(lia) ltac:(constructor)). discriminate. }
  assert (Pos : Forall (fun x => 0 < x)%Z (a0 :: b)) by (eapply Forall_impl; [|exact F]; cbv beta; intros; lia).
  assert (FG : Forall (fun g => length g = length (a0 :: b) /\ (nth 0 g 0 <= 0)%Z) G).
  { apply Forall_forall. intros g Hg. destruct (Rel g Hg) as ((L & _) & _). split; auto. destruct g as [|x g]; [discriminate|]. cbn [nth].
    eapply (first_not_positive a0 b G leading Ord Rel); eauto. }
  pose proof (read_frobgrob_text (fg_max o) (a0 :: b) G file F ltac:(discriminate) C FG M1 M2 T) as E. rewrite leading_znat in E. cbn [length] in *. rewrite Nat.sub_succ, Nat.sub_0_r in *.
  pose proof (default_length (length b)) as Ln.
  pose proof (frobgrob_general o rnd file (defaultNames (length b)) (leading_monomials G) a0 b E (default_legal (length b))) as H. rewrite Ln in H.
  specialize (H (J_in_ring a0 b G leading Rel) eq_refl Hp Hm ltac:(intros X; apply defaults_ascending; specialize (Hc X); lia)).
  destruct (dynamic_frobenius a0 (a0 :: b) C F ltac:(constructor; lia)) as (g & Fg & _).
  assert (P : (0 <= g + a0)%Z).
  { destruct (Z.le_gt_cases 0 (g + a0)); auto. exfalso. inversion F; subst. pose proof (rep_nonneg (a0 :: b) (g + 1) Pos (proj2 Fg (g + 1) ltac:(lia)))%Z. lia. }
  destruct (best_standard a0 b G leading Pos Ord Rel All g Fg P) as ((m & Mm & Em) & Best).
  destruct (frobgrob_print o rnd file) as [out| | | | |]; try contradiction; [|exfalso; exact (H m Mm)].
  destruct H as (m' & (Mm' & Om') & ->). assert (inner_product b m' = g + a0)%Z as Eg. { specialize (Om' m Mm). specialize (Best m' Mm'). lia. }
  exists g, (znat m'). split; auto. split; [do 2 f_equal; f_equal; lia|]. split; [|split].
  - unfold znat. rewrite map_length. destruct Mm' as (-> & _). lia.
  - apply Forall_forall. intros z Hz. apply in_map_iff in Hz. destruct Hz as (e & <- & _). lia.
  - cbn [inner]. unfold znat. rewrite <- product_inner. lia.
Qed.

(** ** Every file *)
Lemma entries_gd : forall k s, gd (fun p => length (fst p) = k /\ Forall (fun z => 0 <= z)%Z (fst p)) (readEntries k s).
Proof.
  induction k as [|k IH]; intros s; cbn [readEntries]; [split; [reflexivity|constructor]|]. eapply gd_bind; [apply negzero_gd|]. intros [z r] _.
  eapply gd_bind; [apply IH|]. intros [v r'] (A & B). cbn [gd fst length] in *. split; [congruence|]. constructor; auto. destruct (Z.ltb_spec 0 z); lia.
Qed.
Lemma terms_gd n : forall k s, gd (fun p => monomials n (fst p)) (grobner_readTerms k n s).
Proof.
  induction k as [|k IH]; intros s; cbn [grobner_readTerms]; [constructor|]. eapply gd_bind with (Q := fun p => length (fst p) = n /\ Forall (fun z => 0 <= z)%Z (fst p)).
  - unfold grobner_readTerm. eapply gd_bind; [apply negzero_gd|]. intros [z r] _. destruct (0 <? z)%Z; [exact I|apply entries_gd].
  - intros [t r] A. eapply gd_bind; [apply IH|]. intros [ts r'] B. cbn [gd fst] in *. constructor; auto.
Qed.
Definition good_frobgrob (p : list str * list (list Z) * list Z) : Prop :=
  good_ideal (fst p) /\ length (snd p) = length (fst (fst p)) + 1 /\ fst (fst p) = defaultNames (length (snd p) - 1) /\ Forall (fun x => 1 < x)%Z (snd p) /\ coprime (snd p).
Lemma read_frobgrob_gd max file : gd good_frobgrob (read_frobgrob max file).
Proof.
  unfold read_frobgrob. eapply gd_bind with (Q := fun p => exists n, fst (fst p) = defaultNames n /\ monomials n (snd (fst p))).
  - unfold readGrobnerBasis. eapply gd_bind; [apply readSizeT_gd|]. intros [k r] _. eapply gd_bind; [apply readSizeT_gd|]. intros [v r'] _. destruct v as [|n]; [exact I|].
    eapply gd_bind; [apply terms_gd|]. intros [ts q] H. cbn [gd fst snd] in *. exists n. auto.
  - intros [[names J] r] (n & H1 & H2). cbn [fst snd] in *. eapply gd_bind; [apply readInstance_gd|]. intros [a q] (F & C & _). cbn [fst snd] in *.
    destruct (Nat.eqb_spec (length a) (length names + 1)) as [E|E]; [|exact I]. eapply gd_bind; [apply expectEOF_gd|]. intros _ _. cbn [gd]. unfold good_frobgrob, good_ideal. cbn [fst snd].
    subst names. rewrite default_length in *. replace (length a - 1) with n by lia. split; [split; auto using default_legal|auto].
Qed.
Lemma np_entries : forall k s, np (readEntries k s).
Proof. induction k as [|k IH]; intros s; [discriminate|]. cbn [readEntries]. npp; apply IH. Qed.
Lemma np_grobner : forall k n s, np (grobner_readTerms k n s).
Proof. induction k as [|k IH]; intros n s; [discriminate|]. cbn [grobner_readTerms]. unfold grobner_readTerm. npp; try apply np_entries; apply IH. Qed.
Lemma np_numbers : forall fuel acc s, np (readNumbers fuel acc s).
Proof. induction fuel as [|fuel IH]; intros acc s; [discriminate|]. cbn [readNumbers]. npp. apply IH. Qed.
Lemma np_frobgrob max file : np (read_frobgrob max file).
Proof.
  unfold read_frobgrob, readGrobnerBasis, readFrobeniusInstance, expectEOF. npp; try apply np_grobner; apply np_numbers.
Qed.
Lemma p_frobgrob_any o rnd file : legal_oparams (fg_params o) -> fg_minimal o = false -> fg_canon o = false ->
  (frobgrob_print o rnd file = SyntaxError \/ frobgrob_print o rnd file = OtherError) \/
  exists a0 b gens, Forall (fun x => 1 < x)%Z (a0 :: b) /\ coprime (a0 :: b) /\ in_ring (length b) gens /\
    ((frobgrob_print o rnd file = Undefined /\ forall m, ~ max_standard (length b) gens m) \/
     exists m, optimal (max_standard (length b) gens) b m /\ frobgrob_print o rnd file = Ok ((if fg_vector o then vector_line (znat m) else []) ++ line_with (inner_product b m - a0)%Z)).
Proof.
  intros Hp Hm Hc. pose proof (read_frobgrob_gd (fg_max o) file) as G. pose proof (np_frobgrob (fg_max o) file) as P.
  destruct (read_frobgrob (fg_max o) file) as [[[names J] a]| | | | |] eqn:E; cbn [gd] in G; try contradiction; try (exfalso; apply P; reflexivity).
  - right. destruct G as (Gd & L & Nm & F & C). cbn [fst snd] in *. destruct (good_form _ Gd) as (gens & Eg). cbn [fst] in Eg. injection Eg as ->.
    destruct (good_znat _ _ Gd) as (N & R). destruct a as [|a0 b]; [cbn in L; lia|]. cbn [length] in L. assert (Lb : length b = length names) by lia.
    exists a0, b, gens. split; auto. split; auto. rewrite Lb. split; auto.
    pose proof (frobgrob_general o rnd file names gens a0 b E N R Lb Hp ltac:(congruence) ltac:(congruence)) as H.
    destruct (frobgrob_print o rnd file); try contradiction; [right|left; auto]. destruct H as (m & A & ->). eauto.
  - left. left. unfold frobgrob_print. now rewrite E.
  - left. right. unfold frobgrob_print. now rewrite E.
Qed.

(** ** The reverse lexicographic order *)
(** The last entry that is not zero is positive *)
Fixpoint last_positive (u : list Z) : Prop :=
  match u with [] => False | x :: u' => last_positive u' \/ (Forall (fun y => y = 0%Z) u' /\ (0 < x)%Z) end.
Definition revlex (u : list Z) : Prop := match u with [] => False | x :: u' => (x < 0)%Z \/ (x = 0%Z /\ last_positive u') end.
Lemma last_cases : forall u, Forall (fun y => y = 0%Z) u \/ last_positive u \/ last_positive (map Z.opp u).
Proof.
  induction u as [|x u IH]; [left; constructor|]. cbn [map last_positive]. destruct IH as [IH|[IH|IH]]; auto.
  assert (Forall (fun y => y = 0%Z) (map Z.opp u)) by (clear - IH; induction IH; cbn [map]; constructor; auto; lia).
  destruct (Z.lt_trichotomy x 0) as [H1|[H1|H1]]; [right; right; right; split; auto; lia|left; constructor; auto|right; left; right; auto].
Qed.
Lemma last_zero : forall u, Forall (fun y => y = 0%Z) u -> ~ last_positive u.
Proof. induction u as [|x u IH]; intros F H; [exact H|]. inversion F; subst. destruct H as [H|(_ & H)]; [now apply IH|lia]. Qed.
Lemma zero_sum : forall u v, Forall (fun y => y = 0%Z) u -> Forall (fun y => y = 0%Z) v -> Forall (fun y => y = 0%Z) (vector_sum u v).
Proof. unfold vector_sum. induction u as [|x u IH]; intros [|y v] F F'; cbn [combine map]; constructor; inversion F; inversion F'; subst; cbn [fst snd]; [lia|apply IH; auto]. Qed.
Lemma sum_zero_l : forall u v, length u = length v -> Forall (fun y => y = 0%Z) u -> vector_sum u v = v.
Proof. unfold vector_sum. induction u as [|x u IH]; intros [|y v] L F; try discriminate; auto. cbn [combine map fst snd]. inversion F; subst. rewrite IH; auto. Qed.
Lemma sum_zero_r : forall u v, length u = length v -> Forall (fun y => y = 0%Z) v -> vector_sum u v = u.
Proof. unfold vector_sum. induction u as [|x u IH]; intros [|y v] L F; try discriminate; auto. cbn [combine map fst snd]. inversion F; subst. rewrite IH; auto. f_equal. lia. Qed.
Lemma last_sum : forall u v, length u = length v -> last_positive u -> last_positive v -> last_positive (vector_sum u v).
Proof.
  induction u as [|x u IH]; intros [|y v] L A B; try discriminate; [destruct A|]. cbn in L. injection L as L. unfold vector_sum. cbn [combine map fst snd last_positive]. fold (vector_sum u v).
  destruct A as [A|(A & A')], B as [B|(B & B')].
  - left. auto.
  - left. now rewrite sum_zero_r.
  - left. now rewrite sum_zero_l.
  - right. split; [now apply zero_sum|lia].
Qed.
Lemma revlex_order a : reverse_order a revlex.
Proof.
  split.
  - intros u (L & E). destruct u as [|x u], a as [|y a]; try discriminate; [left; auto|]. cbn [revlex map]. destruct (Z.lt_trichotomy x 0) as [H1|[H1|H1]]; auto; [|right; right; left; lia].
    subst x. destruct (last_cases u) as [H|[H|H]]; auto. left. cbn [length repeat] in *. injection L as <-. f_equal. clear - H. induction H; cbn [length repeat]; congruence.
  - destruct a as [|y a]; cbn [length repeat revlex]; auto. intros [H|(_ & H)]; [lia|]. revert H. apply last_zero. clear. induction a; cbn; constructor; auto.
  - intros u v (L & _) (L' & _). rewrite <- L' in L. clear L'. destruct u as [|x u], v as [|y v]; try discriminate; cbn [revlex]; try tauto. cbn in L. injection L as L.
    unfold vector_sum. cbn [combine map fst snd revlex]. fold (vector_sum u v). intros [A|(A & A')] [B|(B & B')]; try (left; lia). right. split; [lia|]. now apply last_sum.
  - intros x u _ H. left. exact H.
Qed.

(** ** Small Grobner bases *)
Lemma basis_357 : grobner_basis [3; 5; 7]%Z [[-1; 2; -1]; [-4; 1; 1]; [-3; -1; 2]]%Z.
Proof.
  exists revlex. split; [apply revlex_order|]. split.
  - intros g [<-|[<-|[<-|[]]]]; (split; [split; reflexivity|cbn; lia]).
  - intros u (L & E) H. destruct u as [|x [|y [|z [|]]]]; try discriminate. cbn [inner] in E. cbn [revlex last_positive] in H.
    assert (K : (2 <= y \/ 1 <= y /\ 1 <= z \/ 2 <= z)%Z).
    { destruct H as [H|(-> & [[[]|(_ & H)]|(H & H')])]; lia. }
    destruct K as [K|[K|K]]; eexists; (split; [|repeat (apply Forall2_cons); [..|apply Forall2_nil]]).
    + left. reflexivity.
    + cbn. lia.
    + cbn. lia.
    + cbn. lia.
    + right. left. reflexivity.
    + cbn; lia.
    + cbn; lia.
    + cbn; lia.
    + right. right. left. reflexivity.
    + cbn; lia.
    + cbn; lia.
    + cbn; lia.
Qed.

(** Eleven numbers, for which the variables are not in the order of their names *)
Definition eleven : list Z := [2; 4; 3; 6; 8; 10; 12; 14; 16; 18; 20]%Z.
Definition eleven_basis : list (list Z) :=
  [[-2; 1; 0; 0; 0; 0; 0; 0; 0; 0; 0]; [-3; 0; 2; 0; 0; 0; 0; 0; 0; 0; 0]; [-3; 0; 0; 1; 0; 0; 0; 0; 0; 0; 0]; [-4; 0; 0; 0; 1; 0; 0; 0; 0; 0; 0];
   [-5; 0; 0; 0; 0; 1; 0; 0; 0; 0; 0]; [-6; 0; 0; 0; 0; 0; 1; 0; 0; 0; 0]; [-7; 0; 0; 0; 0; 0; 0; 1; 0; 0; 0]; [-8; 0; 0; 0; 0; 0; 0; 0; 1; 0; 0];
   [-9; 0; 0; 0; 0; 0; 0; 0; 0; 1; 0]; [-10; 0; 0; 0; 0; 0; 0; 0; 0; 0; 1]]%Z.
Lemma basis_eleven : grobner_basis eleven eleven_basis.
Proof.
  exists revlex. split; [apply revlex_order|]. split.
  - intros g Hg. cbn [In eleven_basis] in Hg. repeat (destruct Hg as [<-|Hg]; [split; [split; reflexivity|left; lia]|]). destruct Hg.
  - intros u (L & E) H. do 11 (destruct u as [|? u]; [discriminate|]). destruct u; [|discriminate]. unfold eleven in E. cbn [inner] in E.
    assert (K : (1 <= z0 \/ 2 <= z1 \/ 1 <= z2 \/ 1 <= z3 \/ 1 <= z4 \/ 1 <= z5 \/ 1 <= z6 \/ 1 <= z7 \/ 1 <= z8 \/ 1 <= z9)%Z).
    { destruct H as [H|(-> & H)]; [lia|]. cbn [last_positive] in H.
      repeat (destruct H as [H|(H & ?)]; [|lia]). destruct H. }
    repeat (destruct K as [K|K]);
      [exists (nth 0 eleven_basis [])|exists (nth 1 eleven_basis [])|exists (nth 2 eleven_basis [])|exists (nth 3 eleven_basis [])|exists (nth 4 eleven_basis [])|exists (nth 5 eleven_basis [])
      |exists (nth 6 eleven_basis [])|exists (nth 7 eleven_basis [])|exists (nth 8 eleven_basis [])|exists (nth 9 eleven_basis [])];
      (split; [apply nth_In; cbn; lia|]); cbn [nth eleven_basis]; repeat (apply Forall2_cons); try apply Forall2_nil; lia.
Qed.

(** ** optimize *)
Lemma p_optimize_frobenius o rnd file names gens a G : optimize_input_is o file names gens a -> oo_canon o = false -> oo_display o = true ->
  oo_chop (oo_what o) = true -> oo_maxStandard (oo_what o) = true -> oo_min (oo_what o) = false -> oo_level (oo_what o) = 0 ->
  Forall (fun x => 1 < x)%Z a -> coprime a -> grobner_basis a G -> drop_first gens = leading_monomials G ->
  (oo_minimal o = true -> lists_minimal_generators (length a - 1) (leading_monomials G) (leading_monomials G)) ->
  exists g, frobenius_number a g /\ optimize_print o rnd file = Ok (line_with g).
Proof.
  intros In Hc Hd H1 H2 H3 H4 F C (leading & Ord & Rel & All) Dg Hm. destruct a as [|a0 b].
  { exfalso. specialize (C 0%Z ltac:(lia) ltac:(constructor)). discriminate. }
  assert (Pos : Forall (fun x => 0 < x)%Z (a0 :: b)) by (eapply Forall_impl; [|exact F]; cbv beta; intros; lia).
  pose proof (read_optimize_good _ _ _ _ _ _ (proj2 In)) as (N & R & L). destruct names as [|x names]; [discriminate|]. cbn [length] in *. injection L as L. rewrite Nat.sub_succ, Nat.sub_0_r in *.
  assert (A : asked_for o (x :: names) gens (a0 :: b) = (names, leading_monomials G, b, a0)) by (unfold asked_for; rewrite H1, Dg; reflexivity).
  destruct (optimize_general o rnd file _ _ _ _ _ _ _ In A ltac:(rewrite <- L; exact Hm)) as (names' & gens' & L0 & Ls & value & out & _ & O & _ & _ & _ & _ & S & E & X).
  rewrite H2, H3, H4 in *. rewrite Hc in O. destruct O as (-> & ->). cbn [Nat.ltb Nat.leb] in X. subst out. rewrite Hd in E. cbn [app] in E.
  destruct (dynamic_frobenius a0 (a0 :: b) C F ltac:(constructor; lia)) as (g & Fg & _).
  assert (P : (0 <= g + a0)%Z).
  { destruct (Z.le_gt_cases 0 (g + a0)); auto. exfalso. inversion F; subst. pose proof (rep_nonneg (a0 :: b) (g + 1) Pos (proj2 Fg (g + 1) ltac:(lia)))%Z. lia. }
  destruct (best_standard a0 b G leading Pos Ord Rel All g Fg P) as ((m & Mm & Em) & Best). rewrite L in *. destruct S as (_ & S). cbn [program_set] in S.
  destruct value as [y|]; [|exfalso; destruct S as (_ & S); exact (S m Mm)]. destruct S as (S1 & _ & S2 & _). destruct Ls as [|m' Ls]; [congruence|].
  destruct (S2 m' (or_introl eq_refl)) as ((Mm' & Om') & Ey). cbn [program_optimal] in *. exists g. split; auto. rewrite E. cbn [value_line]. do 2 f_equal.
  specialize (Om' m Mm). specialize (Best m' Mm'). lia.
Qed.
