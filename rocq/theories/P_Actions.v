(** Whole actions. *)
From Coq Require Import List Arith Bool ZArith Lia Ascii Sorted Permutation.
Import ListNotations.
From Verif Require Import Spec M_Term M_Ideal M_Api M_Names Spec_Names M_Intersect Spec_Intersect M_Transform Spec_Transform M_IO Spec_IO M_Actions Spec_Actions
  P_Term P_Ideal P_Names P_Names2 P_Intersect P_Intersect3 P_Transform P_Transform4 P_Transform6 P_IO P_IO7 P_IO8 P_IO9.

Lemma to_good J : good_ideal J -> good_named (to_nideal J).
Proof.
  destruct J as [nm I]. intros [[N _] M]. cbn [fst snd] in *. split; auto. cbn [to_nideal fst snd]. unfold monomials in M. apply Forall_forall. intros g H. apply in_map_iff in H as [t [<- Ht]]. rewrite map_length. rewrite Forall_forall in M. now apply M.
Qed.
Lemma of_good J : good_named J -> Forall legal_name (fst J) -> good_ideal (of_nideal J).
Proof.
  destruct J as [nm I]. intros [N F] L. cbn [fst snd] in *. split; [split; auto|]. cbn [of_nideal fst snd]. unfold monomials. apply Forall_forall. intros g H. apply in_map_iff in H as [t [<- Ht]]. rewrite map_length. rewrite Forall_forall in F. split; [now apply F|]. apply Forall_forall. intros e He. apply in_map_iff in He as [x [<- _]]. lia.
Qed.
Lemma in_z_nat J m : good_ideal J -> (forall s, 0 <= m s)%Z -> (in_zideal J m <-> in_named (to_nideal J) (fun s => Z.to_nat (m s))).
Proof.
  destruct J as [nm I]. intros [_ M] P. cbn [fst snd] in *. unfold monomials in M. rewrite Forall_forall in M. unfold in_zideal, in_named, to_nideal. cbn [fst snd]. split.
  - intros [g [Hg H]]. exists (map Z.to_nat g). split; [apply in_map_iff; eauto|]. intros i L. specialize (H i L). change 0 with (Z.to_nat 0). rewrite map_nth. lia.
  - intros [g' [Hg H]]. apply in_map_iff in Hg as [g [<- Hg]]. exists g. split; auto. intros i L. specialize (H i L). change 0 with (Z.to_nat 0) in H. rewrite map_nth in H. specialize (P (nth i nm [])). lia.
Qed.
Lemma in_of_nat J m : (forall s, 0 <= m s)%Z -> (in_zideal (of_nideal J) m <-> in_named J (fun s => Z.to_nat (m s))).
Proof.
  destruct J as [nm I]. intros P. unfold in_zideal, in_named, of_nideal. cbn [fst snd]. split.
  - intros [g' [Hg H]]. apply in_map_iff in Hg as [g [<- Hg]]. exists g. split; auto. intros i L. specialize (H i L). change 0%Z with (Z.of_nat 0) in H. rewrite map_nth in H. specialize (P (nth i nm [])). lia.
  - intros [g [Hg H]]. exists (map Z.of_nat g). split; [apply in_map_iff; eauto|]. intros i L. specialize (H i L). change 0%Z with (Z.of_nat 0). rewrite map_nth. specialize (P (nth i nm [])). lia.
Qed.
Lemma write_ok f K : good_ideal K -> exists out, write_ideal f (fst K) (snd K) = Ok out.
Proof.
  destruct K as [nm J]. intros G. destruct (ideal_round (Z.of_nat (length nm) + Z.of_nat (length J)) f nm J G) as [out [W _]]; [|eauto]. destruct f; cbn; auto; unfold Spec_IO.fits; try split; lia.
Qed.
Lemma write_back max f K out : good_ideal K -> write_ideal f (fst K) (snd K) = Ok out -> format_fits max f (fst K) (snd K) -> read_ideal max f out = Ok K.
Proof. destruct K as [nm J]. intros G W F. destruct (ideal_round max f nm J G F) as [o [W' R]]. cbn [fst snd] in *. congruence. Qed.

Lemma arranged_nth nm t j : j < length nm -> nth j (arranged nm t) 0 = nth (nth j (sorter nm) 0) t 0.
Proof. intros L. unfold arranged. rewrite nth_indep with (d' := (fun i => nth i t 0) 0) by (rewrite map_length, sorter_length; auto). exact (map_nth (fun i => nth i t 0) (sorter nm) 0 j). Qed.
Lemma ordered_nth nm j : j < length nm -> nth j (ordered nm) [] = nth (nth j (sorter nm) 0) nm [].
Proof. intros L. unfold ordered. rewrite nth_indep with (d' := (fun p => nth p nm []) 0) by (rewrite map_length, sorter_length; auto). exact (map_nth (fun p => nth p nm []) (sorter nm) 0 j). Qed.
Lemma sorter_onto nm v : v < length nm -> exists j, j < length nm /\ nth j (sorter nm) 0 = v.
Proof.
  intros L. assert (X : In v (sorter nm)) by (eapply Permutation_in; [apply Permutation_sym, sorter_perm|apply in_seq; lia]). apply In_nth with (d := 0) in X as [j [Lj E]]. rewrite sorter_length in Lj. eauto.
Qed.
(** Sorting the variables and generators of one ideal *)
Lemma in_named_canon J : good_named J -> forall m, in_named (canon1 false J) m <-> in_named J m.
Proof.
  destruct J as [nm I]. intros G m. apply good_wf in G as [N W]. destruct (ordered_ok nm N) as [A [P L]]. destruct (sortGenerators_eq _ _ (arranged_wf nm I)) as [_ [S Q]]. unfold canon1, in_named. cbn [fst snd].
  assert (T : forall t, In t I -> ((forall i, i < length (ordered nm) -> nth i (arranged nm t) 0 <= m (nth i (ordered nm) [])) <-> (forall i, i < length nm -> nth i t 0 <= m (nth i nm [])))).
  { intros t Ht. rewrite L. split.
    - intros H i Li. destruct (sorter_onto nm i Li) as [j [Lj E]]. specialize (H j Lj). rewrite arranged_nth, ordered_nth, E in H by auto. exact H.
    - intros H i Li. rewrite arranged_nth, ordered_nth by auto. apply H. pose proof (sorter_range nm) as Y. rewrite Forall_forall in Y. apply Y, nth_In. now rewrite sorter_length. }
  split.
  - intros [g [Hg H]]. eapply Permutation_in in Hg; [|exact Q]. apply in_map_iff in Hg as [t [<- Ht]]. exists t. split; auto. now apply T.
  - intros [t [Ht H]]. exists (arranged nm t). split; [eapply Permutation_in; [apply Permutation_sym; exact Q|apply in_map_iff; eauto]|]. now apply T.
Qed.

Definition antichain (n : nat) (I : list (list nat)) : Prop := NoDup I /\ forall g h, In g I -> In h I -> (forall v, v < n -> nth v g 0 <= nth v h 0) -> g = h.
Lemma minl_antichain n B : wf n B -> lists_minimal_generators n B B -> antichain n B.
Proof.
  intros W [N M]. split; auto. intros g h Hg Hh H. pose proof (W g Hg) as Lg. pose proof (W h Hh) as Lh. apply M in Hh as [_ [_ K]]. apply K; [exists g; split; auto; apply (divs_pt n); auto|]. apply (divs_pt n); auto.
Qed.
Lemma antichain_canon nm I : NoDup nm -> wf (length nm) I -> antichain (length nm) I -> antichain (length (ordered nm)) (snd (canon1 false (nm, I))).
Proof.
  intros N W [D H]. destruct (ordered_ok nm N) as [_ [_ L]]. unfold canon1. cbn [fst snd]. destruct (sortGenerators_eq _ _ (arranged_wf nm I)) as [_ [_ Q]]. rewrite L.
  assert (Inj : forall g h, In g I -> In h I -> (forall v, v < length nm -> nth v (arranged nm g) 0 <= nth v (arranged nm h) 0) -> g = h).
  { intros g h Hg Hh K. apply H; auto. intros v Hv. destruct (sorter_onto nm v Hv) as [j [Lj E]]. specialize (K j Lj). rewrite !arranged_nth, E in K by auto. auto. }
  split.
  - eapply Permutation_NoDup; [apply Permutation_sym; exact Q|]. clear Q W H. induction D as [|t I Ht D IH]; cbn [map]; constructor.
    + intros C. apply in_map_iff in C as [u [E Hu]]. apply Ht. rewrite (Inj t u); auto; [left; auto|right; auto|]. intros v _. now rewrite E.
    + apply IH. intros g h Hg Hh. apply Inj; right; auto.
  - intros g h Hg Hh K. eapply Permutation_in in Hg; [|exact Q]. eapply Permutation_in in Hh; [|exact Q]. apply in_map_iff in Hg as [t [<- Ht]]. apply in_map_iff in Hh as [u [<- Hu]]. f_equal. now apply Inj.
Qed.
Lemma antichain_z J : antichain (length (fst J)) (snd J) -> no_redundant (of_nideal J).
Proof.
  destruct J as [nm I]. intros [D H] i j Li Lj K. cbn [of_nideal fst snd] in *. rewrite map_length in Li, Lj.
  assert (E : forall i v, nth v (nth i (map (map Z.of_nat) I) []) 0%Z = Z.of_nat (nth v (nth i I []) 0)).
  { intros a v. change (@nil Z) with (map Z.of_nat []). rewrite map_nth. change 0%Z with (Z.of_nat 0). now rewrite map_nth. }
  apply (proj1 (NoDup_nth I []) D); auto. apply H; try now apply nth_In. intros v Hv. specialize (K v Hv). rewrite !E in K. lia.
Qed.

Lemma strictly : forall l : list mono, StronglySorted (fun a b => a = b \/ lex_greater a b) l -> NoDup l -> StronglySorted lex_greater l.
Proof.
  induction 1 as [|a l S IH H]; intros D; [constructor|]. inversion D as [|? ? X Y]; subst. constructor; [auto|]. rewrite Forall_forall in *. intros b Hb. destruct (H b Hb) as [Eb|Eb]; [rewrite Eb in X; contradiction|exact Eb].
Qed.

Theorem p_intersection_action max input output canon file :
  match intersection_action max input output canon file with
  | Ok out => exists names Js K, read_ideals max input file = Ok (names, Js) /\ good_ideal K /\ no_redundant K /\
      (Js = [] -> forall s, In s (fst K) <-> In s names) /\
      (Js <> [] -> forall s, In s (fst K) <-> exists J, In J Js /\ In s (fst J)) /\
      (forall m, (forall s, 0 <= m s)%Z -> (in_zideal K m <-> Forall (fun J => in_zideal J m) Js)) /\
      (canon = true -> ascending (fst K) /\ StronglySorted lex_greater (map (map Z.to_nat) (snd K))) /\
      write_ideal output (fst K) (snd K) = Ok out /\ (format_fits max output (fst K) (snd K) -> read_ideal max output out = Ok K)
  | SyntaxError => read_ideals max input file = SyntaxError
  | OtherError => read_ideals max input file = OtherError
  | InvalidArgument => read_ideals max input file = InvalidArgument
  | OutOfFuel | Undefined => False
  end.
Proof.
  unfold intersection_action. destruct (reading_total max input file) as [_ [R _]]. destruct (read_ideals max input file) as [[names Js]| | | | |]; cbn [rbind]; auto. destruct R as [LN GJ].
  assert (G : Forall good_named (map to_nideal Js)) by (apply Forall_forall; intros J H; apply in_map_iff in H as [K [<- HK]]; apply to_good; rewrite Forall_forall in GJ; auto).
  destruct (p_intersect (map to_nideal Js) names G (proj1 LN)) as [nm [B [E [GB [X1 [X2 [X3 X4]]]]]]]. pose proof GB as GB'. apply good_wf in GB' as [N W].
  assert (LG : Forall legal_name nm).
  { destruct Js as [|J Js]; [rewrite X1 by auto; apply LN|]. destruct X2 as [_ X2]; [discriminate|]. apply Forall_forall. intros s Hs. apply X2 in Hs as [K [HK Hs]]. apply in_map_iff in HK as [K' [<- HK]]. rewrite Forall_forall in GJ. destruct (GJ K' HK) as [[_ F] _]. rewrite Forall_forall in F. apply F. auto. }
  set (F := if canon then canon1 false (nm, B) else (nm, B) : nideal).
  assert (EI : intersection canon names (map to_nideal Js) = Some F).
  { unfold intersection. rewrite E. cbn [bind]. unfold F. destruct canon; auto. rewrite sortVariables_spec by auto. reflexivity. }
  rewrite EI. destruct (ordered_ok nm N) as [A [P L]].
  assert (PF : Permutation (fst F) nm) by (unfold F; destruct canon; [exact P|apply Permutation_refl]).
  assert (NF : NoDup (fst F)) by (eapply Permutation_NoDup; [apply Permutation_sym; exact PF|auto]).
  assert (GF : good_named F) by (unfold F in *; destruct canon; auto; split; auto; pose proof (canon1_fits false (nm, B)) as Y; unfold P_Transform4.fits in Y; apply Forall_forall; auto).
  assert (LF : Forall legal_name (fst F)) by (eapply Permutation_Forall; [apply Permutation_sym; exact PF|auto]).
  assert (GK : good_ideal (of_nideal F)) by now apply of_good.
  destruct (write_ok output _ GK) as [out WO]. rewrite WO. exists names, Js, (of_nideal F). split; auto. split; auto. split; [|split; [|split; [|split; [|split; [|split]]]]].
  - apply antichain_z. pose proof (minl_antichain _ _ W X4) as AC. unfold F. destruct canon; auto. exact (antichain_canon nm B N W AC).
  - intros EJ s. rewrite <- (X1 ltac:(now rewrite EJ)). cbn [of_nideal fst]. split; apply Permutation_in; [exact PF|apply Permutation_sym; exact PF].
  - intros EJ s. destruct X2 as [_ X2]; [destruct Js; [congruence|discriminate]|]. cbn [of_nideal fst]. transitivity (In s nm); [split; apply Permutation_in; [exact PF|apply Permutation_sym; exact PF]|]. rewrite X2. split.
    + intros [K [HK Hs]]. apply in_map_iff in HK as [J [<- HJ]]. exists J. auto.
    + intros [J [HJ Hs]]. exists (to_nideal J). split; auto. now apply in_map.
  - intros m Pm. rewrite in_of_nat by auto. transitivity (in_named (nm, B) (fun s => Z.to_nat (m s))); [unfold F; destruct canon; [now apply in_named_canon|reflexivity]|]. rewrite X3. rewrite Forall_map. rewrite !Forall_forall. rewrite Forall_forall in GJ. split; intros H J HJ; apply in_z_nat; auto.
  - intros ->. unfold F. split; [exact A|]. cbn [of_nideal snd].
    assert (X : map (map Z.to_nat) (map (map Z.of_nat) (snd (canon1 false (nm, B)))) = snd (canon1 false (nm, B))).
    { rewrite map_map. rewrite <- (map_id (snd (canon1 false (nm, B)))) at 2. apply map_ext. intros t. rewrite map_map. rewrite <- (map_id t) at 2. apply map_ext. intros e. apply Nat2Z.id. }
    rewrite X. destruct (canon1_ok (nm, B) GB) as [_ [_ S]]. destruct (antichain_canon nm B N W (minl_antichain _ _ W X4)) as [D _]. exact (strictly _ S D).
  - auto.
  - intros FF. eapply write_back; eauto.
Qed.
Lemma back_forth J : good_ideal J -> of_nideal (to_nideal J) = J.
Proof.
  destruct J as [nm I]. intros [_ M]. unfold of_nideal, to_nideal. cbn [fst snd] in *. f_equal. rewrite map_map. rewrite <- (map_id I) at 2. apply map_ext_in. intros t Ht. unfold monomials in M. rewrite Forall_forall in M. destruct (M t Ht) as [_ F]. rewrite map_map. rewrite <- (map_id t) at 2. apply map_ext_in. intros e He. rewrite Forall_forall in F. specialize (F e He). lia.
Qed.
Theorem p_transform_action max input output o file names Js : (42 <= max)%Z ->
  read_ideals max input file = Ok (names, Js) -> Forall (fun J => fst J = names) Js ->
  (o_transpose o = true -> forall J K, In J Js -> In K Js -> length (snd J) = length (snd K)) ->
  exists out names' Rs, transform_action max input output o file = Ok out /\
    transform o names (map to_nideal Js) = TOk (names', Rs) /\
    Forall (fun R => fst R = names') Rs /\
    ((output = CoCoA4 -> Spec_IO.fits max (length names')) -> Forall (fun R => format_fits max output (fst R) (map (map Z.of_nat) (snd R))) Rs ->
      read_ideals max output out = Ok (names', map of_nideal Rs)).
Proof.
  intros M E F T. unfold transform_action. destruct (reading_total max input file) as [_ [R _]]. rewrite E in *. destruct R as [LN GJ]. cbn [rbind].
  assert (G : Forall (fun J => fst J = names /\ good_named J) (map to_nideal Js)).
  { apply Forall_forall. intros J H. apply in_map_iff in H as [K [<- HK]]. rewrite Forall_forall in F, GJ. split; [exact (F K HK)|now apply to_good, GJ]. }
  destruct (p_total o names (map to_nideal Js) (proj1 LN) G) as [names' [Rs [A [[N' F'] [c U]]]]].
  { intros TT J K HJ HK. apply in_map_iff in HJ as [J' [<- HJ]]. apply in_map_iff in HK as [K' [<- HK]]. cbn [to_nideal snd]. rewrite !map_length. now apply T. }
  assert (LG : Forall legal_name names').
  { apply Forall_forall. intros s Hs. apply U in Hs. destruct (o_transpose o); [|destruct LN as [_ L]; rewrite Forall_forall in L; auto]. destruct (default_legal c) as [_ L]. rewrite Forall_forall in L. auto. }
  assert (GR : Forall good_ideal (map of_nideal Rs)).
  { apply Forall_forall. intros J H. apply in_map_iff in H as [K [<- HK]]. rewrite Forall_forall in F'. destruct (F' K HK) as [E' G']. apply of_good; auto. now rewrite E'. }
  assert (RT : forall m f, (42 <= m)%Z -> (f = CoCoA4 -> Spec_IO.fits m (length names')) -> Forall (fun R => format_fits m f (fst R) (map (map Z.of_nat) (snd R))) Rs -> exists out, write_ideals f names' (map of_nideal Rs) = Ok out /\ read_ideals m f out = Ok (names', map of_nideal Rs)).
  { intros m f Hm C FF. destruct (list_round m f names' (map of_nideal Rs) Hm (conj N' LG) C) as [out [W X]].
    - apply Forall_forall. intros J H. apply in_map_iff in H as [K [<- HK]]. rewrite Forall_forall in GR, FF. split; [apply GR, in_map; auto|]. exact (FF K HK).
    - exists out. split; auto. rewrite X. do 2 f_equal. clear -F'. induction Rs as [|R Rs IH]; auto. inversion F' as [|? ? [E _] F'']; subst. destruct Rs as [|R' Rs]; [reflexivity|]. change (last (map fst (map of_nideal (R :: R' :: Rs))) (fst R)) with (last (map fst (map of_nideal (R' :: Rs))) (fst R)). auto. }
  assert (big : exists m, (42 <= m)%Z /\ Spec_IO.fits m (length names') /\ Forall (fun R : nideal => forall f, format_fits m f (fst R) (map (map Z.of_nat) (snd R))) Rs).
  { exists (42 + Z.of_nat (length names') + Z.of_nat (list_max (map (fun R : nideal => length (snd R)) Rs)))%Z. split; [lia|]. split; [unfold Spec_IO.fits; lia|]. apply Forall_forall. intros R HR f. rewrite Forall_forall in F'. destruct (F' R HR) as [ER _].
    assert (length (snd R) <= list_max (map (fun R : nideal => length (snd R)) Rs)) by (pose proof (proj1 (list_max_le (map (fun R : nideal => length (snd R)) Rs) _) (Nat.le_refl _)) as Y; rewrite Forall_forall in Y; apply Y; now apply (in_map (fun R : nideal => length (snd R)))).
    assert (LL : length (map (map Z.of_nat) (snd R)) = length (snd R)) by apply map_length. assert (LE : length (fst R) = length names') by exact (f_equal (@length str) ER).
    assert (FN : Spec_IO.fits (42 + Z.of_nat (length names') + Z.of_nat (list_max (map (fun R : nideal => length (snd R)) Rs))) (length (fst R))) by (unfold Spec_IO.fits; rewrite LE; lia).
    assert (FI : Spec_IO.fits (42 + Z.of_nat (length names') + Z.of_nat (list_max (map (fun R : nideal => length (snd R)) Rs))) (length (map (map Z.of_nat) (snd R)))) by (unfold Spec_IO.fits; rewrite LL; lia).
    destruct f; cbn [format_fits]; auto. }
  destruct big as [m [Hm [Fm FR]]]. destruct (RT m output Hm (fun _ => Fm)) as [out [W _]]; [eapply Forall_impl; [|exact FR]; cbv beta; auto|].
  exists out, names', Rs. rewrite A, W. split; auto. split; auto. split; [eapply Forall_impl; [|exact F']; intros R' [E' _]; auto|].
  intros C FF. destruct (RT max output M C FF) as [out' [W' X]]. congruence.
Qed.

Theorem p_transform_errors max input output file :
  (forall o, match read_ideals max input file with
             | Ok _ => True
             | SyntaxError => transform_action max input output o file = SyntaxError
             | OtherError => transform_action max input output o file = OtherError
             | InvalidArgument => transform_action max input output o file = InvalidArgument
             | _ => False
             end) /\
  (forall names Js, read_ideals max input file = Ok (names, Js) -> Exists (fun J => fst J <> names) Js ->
     transform_action max input output (only_product true) file = OtherError).
Proof.
  destruct (reading_total max input file) as [_ [R _]]. unfold transform_action. split.
  - intros o. destruct (read_ideals max input file) as [[names Js]| | | | |]; cbn [rbind]; auto.
  - intros names Js E X. rewrite E in *. cbn [rbind]. destruct R as [LN GJ].
    destruct (t_p_product names (map to_nideal Js) (proj1 LN)) as [_ H]. rewrite H; auto.
    apply Exists_exists in X as [J [HJ X]]. apply Exists_exists. exists (to_nideal J). split; [now apply in_map|exact X].
Qed.
