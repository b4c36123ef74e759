(** From signed terms inside to the polynomial that the consumer receives. *)
From Coq Require Import List Arith Bool ZArith Lia Permutation Sorted.
Import ListNotations.
From Verif Require Import Spec Spec_Api Spec_Hilbert Spec_Poly M_Term M_Ideal M_Slice M_Msm M_Api M_Hilbert M_Poly M_Tasks M_Scarf M_Bigatti
  P_Term P_Ideal P_Bridge P_Msm3 P_Corner P_Decomp P_Translator P_Hil1 P_Hil6 P_Hil7 P_Hil8 P_Api3 P_Poly P_Poly2 P_Scarf1 P_Bigatti1 P_Bigatti2 P_Bigatti3.
Local Open Scope nat_scope.

(** ** Sums by keys *)
Section Keys.
Variable X : Type.
Variable dec : forall a b : X, {a = b} + {a <> b}.
Definition ksum (w : X -> Z) (Y : list (Z * X)) : Z := zsum (map (fun y => (fst y * w (snd y))%Z) Y).
Definition kat (Y : list (Z * X)) (e : X) : Z := ksum (fun x => if dec x e then 1%Z else 0%Z) Y.
Lemma single_sum : forall (w : X -> Z) k c E, NoDup E -> In k E -> zsum (map (fun e => ((if dec k e then c else 0) * w e)%Z) E) = (c * w k)%Z.
Proof.
  intros w k c E. induction E as [|e E IH]; intros N Hi; [destruct Hi|]. inversion N as [|? ? Ne NE]; subst. cbn [map]. change (zsum (?a :: ?l)) with (a + zsum l)%Z.
  destruct (dec k e) as [->|D].
  - rewrite (zsum_ext _ (fun _ => 0%Z)), zsum_zero; [lia|]. intros x Hx. destruct (dec e x) as [->|]; [contradiction|lia].
  - destruct Hi as [->|Hi]; [congruence|]. rewrite IH; auto; lia.
Qed.
Lemma ksum_keys : forall Y E w, NoDup E -> (forall y, In y Y -> In (snd y) E) -> ksum w Y = zsum (map (fun e => (kat Y e * w e)%Z) E).
Proof.
  intros Y E w N. induction Y as [|[c k] Y IH]; intros H.
  - rewrite (zsum_ext _ (fun _ => 0%Z)), zsum_zero; auto.
  - change (ksum w ((c, k) :: Y)) with (c * w k + ksum w Y)%Z. rewrite IH by (intros; apply H; simpl; auto).
    rewrite <- (single_sum w k c E N) by (apply (H (c, k)); simpl; auto). rewrite <- zsum_add. apply zsum_ext. intros e _.
    change (kat ((c, k) :: Y) e) with (c * (if dec k e then 1 else 0) + kat Y e)%Z. destruct (dec k e); lia.
Qed.
Lemma ksum_eq : forall Y Y' w, (forall e, kat Y e = kat Y' e) -> ksum w Y = ksum w Y'.
Proof.
  intros Y Y' w H. set (E := nodup dec (map snd Y ++ map snd Y')). assert (N : NoDup E) by apply NoDup_nodup.
  rewrite (ksum_keys Y E w N), (ksum_keys Y' E w N).
  - apply zsum_ext. intros e _. rewrite H. auto.
  - intros y Hy. apply nodup_In, in_or_app. right. apply in_map; auto.
  - intros y Hy. apply nodup_In, in_or_app. left. apply in_map; auto.
Qed.
Lemma kat_in : forall Y c e, NoDup (map snd Y) -> In (c, e) Y -> kat Y e = c.
Proof.
  intros Y c e. induction Y as [|[c' k] Y IH]; intros N Hi; [destruct Hi|]. cbn [map snd] in N. inversion N as [|? ? Nk NY]; subst.
  change (kat ((c', k) :: Y) e) with (c' * (if dec k e then 1 else 0) + kat Y e)%Z. destruct Hi as [Q|Hi].
  - injection Q as -> ->. destruct (dec e e); [|congruence]. assert (Z0 : kat Y e = 0%Z); [|lia].
    unfold kat, ksum. rewrite (zsum_ext _ (fun _ => 0%Z)), zsum_zero; auto. intros [a b] Hab. cbn [fst snd]. destruct (dec b e) as [->|]; [|lia].
    exfalso. apply Nk. apply in_map_iff. exists (a, e). auto.
  - rewrite (IH NY Hi). destruct (dec k e) as [->|]; [|lia]. exfalso. apply Nk. apply in_map_iff. exists (c, e). auto.
Qed.
Lemma kat_nz : forall Y e, kat Y e <> 0%Z -> In e (map snd Y).
Proof.
  intros Y e H. destruct (in_dec dec e (map snd Y)) as [|N]; auto. exfalso. apply H. unfold kat, ksum. rewrite (zsum_ext _ (fun _ => 0%Z)), zsum_zero; auto.
  intros [a b] Hab. cbn [fst snd]. destruct (dec b e) as [->|]; [|lia]. exfalso. apply N. apply in_map_iff. exists (a, e). auto.
Qed.
(** a collected list *)
Lemma kat_collected : forall p Y, NoDup (map snd p) -> (forall c e, In (c, e) p <-> c = kat Y e /\ c <> 0%Z) -> forall e, kat p e = kat Y e.
Proof.
  intros p Y N H e. destruct (Z.eq_dec (kat Y e) 0) as [E|E].
  - destruct (Z.eq_dec (kat p e) 0) as [E'|E']; [congruence|]. apply kat_nz in E'. apply in_map_iff in E'. destruct E' as [[c k] [Q Hi]]. cbn [snd] in Q. subst k.
    apply H in Hi. lia.
  - apply kat_in; auto. apply H. auto.
Qed.
Fixpoint no_clear (ops : list (accum_op X)) : Prop :=
  match ops with [] => True | OpClear :: _ => False | _ :: ops' => no_clear ops' end.
Definition op_pair (op : accum_op X) : list (Z * X) :=
  match op with OpAdd c k => [(c, k)] | OpSigned plus k => [(sign plus, k)] | OpClear => [] end.
Lemma added_kat : forall ops k, no_clear ops -> added dec ops k = kat (flat_map op_pair ops) k.
Proof.
  intros ops k H. unfold added.
  assert (G : forall ops s, no_clear ops -> fold_left (fun s op => match op with
                         | OpClear => 0 | OpAdd c k' => if dec k' k then s + c else s
                         | OpSigned plus k' => if dec k' k then (if plus then s + 1 else s - 1) else s end%Z) ops s = (s + kat (flat_map op_pair ops) k)%Z).
  { clear. induction ops as [|[c k'|plus k'|] ops IH]; intros s H; cbn [fold_left].
    - change (kat (flat_map op_pair []) k) with 0%Z. lia.
    - rewrite IH by auto. change (kat (flat_map op_pair (OpAdd c k' :: ops)) k) with (c * (if dec k' k then 1 else 0) + kat (flat_map op_pair ops) k)%Z. destruct (dec k' k); lia.
    - rewrite IH by auto. change (kat (flat_map op_pair (OpSigned plus k' :: ops)) k) with (sign plus * (if dec k' k then 1 else 0) + kat (flat_map op_pair ops) k)%Z.
      destruct (dec k' k), plus; cbn [sign]; lia.
    - destruct H. }
  rewrite G by auto. lia.
Qed.
End Keys.
Arguments ksum {X}.
Arguments kat {X}.
Arguments no_clear {X}.
Arguments op_pair {X}.

Definition mdec := list_eq_dec Nat.eq_dec.
Lemma coef_at_kat : forall p d, coef_at p d = kat mdec p d.
Proof.
  induction p as [|[c e] p IH]; intros d; auto. cbn [coef_at]. rewrite IH. change (kat mdec ((c, e) :: p) d) with (c * (if mdec e d then 1 else 0) + kat mdec p d)%Z.
  unfold mdec. destruct (list_eq_dec Nat.eq_dec d e), (list_eq_dec Nat.eq_dec e d); try congruence; lia.
Qed.
Lemma series_ksum : forall p m, series_coef p m = ksum (fun d => if divsb d m then 1%Z else 0%Z) p.
Proof.
  induction p as [|[c e] p IH]; intros m; auto. cbn [series_coef]. rewrite IH.
  change (ksum (fun d => if divsb d m then 1%Z else 0%Z) ((c, e) :: p)) with (c * (if divsb e m then 1 else 0) + ksum (fun d => if divsb d m then 1%Z else 0%Z) p)%Z.
  destruct (divsb e m); lia.
Qed.
Lemma degree_ksum : forall p k, degree_coef p k = ksum (fun d => if (degree d =? k)%nat then 1%Z else 0%Z) p.
Proof. intros. apply degree_coef_sum. Qed.

Lemma desc_nat : forall P : list (Z * Z), StronglySorted (fun a b => (snd b < snd a)%Z) P -> (forall c e, In (c, e) P -> c <> 0%Z /\ (0 <= e)%Z) ->
  descending (map (fun x => (fst x, Z.to_nat (snd x))) P).
Proof.
  induction P as [|[c e] P IH]; intros C H; [exact Logic.I|]. inversion C as [|? ? C' F]; subst. cbn [map descending fst snd].
  assert (H0 : forall c e, In (c, e) P -> c <> 0%Z /\ (0 <= e)%Z) by (intros c0 e0 Hi; apply H; simpl; auto).
  split; [apply (H c e); simpl; auto|]. split; [|apply IH; auto].
  rewrite Forall_forall in *. intros t Ht. apply in_map_iff in Ht. destruct Ht as [[c' e'] [<- Ht]]. cbn [snd fst].
  specialize (F _ Ht). cbn [snd] in F. destruct (H c e ltac:(simpl; auto)), (H0 c' e' Ht). lia.
Qed.

Section Finish.
Variables (n : nat) (I J : ideal) (O : list (bool * term)).
Hypothesis Hw : wf n I.
Hypothesis HB : below n (K I) J.
Hypothesis HJ : forall m, length m = n -> (in_ideal I m <-> exists g, In g J /\ forall v, v < n -> phi I v (g @ v) <= m @ v).
Hypothesis HO : Forall (fun x => okt n (K I) (snd x)) O.
Hypothesis HS : forall m, length m = n -> fsum (fun x => dvd n x m) O = (1 - ind n J m)%Z.

Definition pol : poly := map (fun x => (sign (fst x), image n (phi I) (snd x))) O.
Lemma ok_in : forall b d, In (b, d) O -> okt n (K I) d.
Proof. intros b d Hi. rewrite Forall_forall in HO. apply (HO (b, d) Hi). Qed.
Lemma pol_length : forall c d, In (c, d) pol -> length d = n.
Proof. intros c d Hi. apply in_map_iff in Hi. destruct Hi as [x [E _]]. injection E as _ <-. apply tabulate_length. Qed.
Lemma pol_series : forall m, length m = n -> (in_ideal I m -> series_coef pol m = 0%Z) /\ (~ in_ideal I m -> series_coef pol m = 1%Z).
Proof.
  intros m Hm. pose proof (phi_embedding n I) as HE. destruct (emb_floor n (K I) (phi I) m HE) as [t [Ht Hf]].
  assert (L : forall d, (forall v, v < n -> d @ v < K I v) -> (forall v, v < n -> phi I v (d @ v) <= m @ v) <-> le_n n d t).
  { intros d Hd. split; intros H v Hv.
    - apply Hf; auto.
    - destruct (Hf v Hv) as [F1 [F2 _]]. apply Nat.le_trans with (phi I v (t @ v)); auto. apply (emb_le n (K I)); auto. }
  assert (ES : series_coef pol m = (1 - ind n J t)%Z).
  { rewrite <- HS by auto. rewrite series_ksum. unfold ksum, pol, fsum. rewrite map_map. apply zsum_ext. intros [b d] Hi. cbn [fst snd]. f_equal.
    destruct (ok_in b d Hi) as [Ld Kd]. specialize (L d Kd).
    assert (Q : divsb (image n (phi I) d) m = true <-> le_n n d t).
    { rewrite divsb_iff, <- L. unfold image. rewrite tabulate_length. fold (image n (phi I) d). split.
      - intros [_ H] v Hv. specialize (H v Hv). rewrite image_nth in H by auto. auto.
      - intros H. split; [lia|]. intros v Hv. rewrite image_nth by auto. auto. }
    destruct (le_n_dec n d t) as [D|D]; [rewrite dvd_1 by auto|rewrite dvd_0 by auto].
    - apply Q in D. rewrite D. auto.
    - destruct (divsb (image n (phi I) d) m); auto. exfalso. apply D, Q; auto. }
  assert (EI : in_ideal I m <-> inI n J t).
  { rewrite (HJ m Hm). split; intros [g [Hg Hle]]; exists g; split; auto; apply L; auto; intros v Hv; apply HB; auto. }
  rewrite ES, EI. split; intros H; [rewrite ind_1 by auto|rewrite ind_0 by auto]; lia.
Qed.
Lemma pol_coef : forall m, length m = n -> kat mdec pol m = alternating_sum I m.
Proof.
  intros m Hm. rewrite <- coef_at_kat, <- bd_series, alternating_bd. apply bd_ext. intros x Hx. destruct (pol_series x ltac:(congruence)) as [C1 C2].
  destruct (in_idealb I x) eqn:Q; [apply C1, in_idealb_iff; auto|]. apply C2. intros H. apply in_idealb_iff in H. congruence.
Qed.
Lemma image_inj : forall a b, okt n (K I) a -> okt n (K I) b -> image n (phi I) a = image n (phi I) b -> a = b.
Proof.
  intros a b [La Ka] [Lb Kb] E. apply term_ext with n; auto. intros v Hv. apply (emb_inj n (K I) (phi I) v); auto using phi_embedding.
  rewrite <- !image_nth with (n := n) by auto. rewrite E. auto.
Qed.
Definition ipol : poly := map (fun x => (sign (fst x), snd x)) O.
Lemma pol_image : forall t, okt n (K I) t -> kat mdec pol (image n (phi I) t) = kat mdec ipol t.
Proof.
  intros t Ht. unfold kat, ksum, pol, ipol. rewrite !map_map. apply zsum_ext. intros [b d] Hi. cbn [fst snd]. f_equal. apply ok_in in Hi.
  destruct (mdec (image n (phi I) d) (image n (phi I) t)) as [E|E], (mdec d t) as [E'|E']; auto; [|congruence]. exfalso. apply E'. apply image_inj; auto.
Qed.
(** a polynomial with these coefficients *)
Lemma numerator_of : forall p, (forall d, kat mdec p d = kat mdec pol d) -> multigraded_numerator n I p.
Proof. intros p H m Hm. rewrite series_ksum, (ksum_eq _ mdec p pol) by auto. rewrite <- series_ksum. apply pol_series; auto. Qed.

Lemma lex_image : forall a b, okt n (K I) a -> okt n (K I) b -> lex_lt a b -> lex_lt (image n (phi I) a) (image n (phi I) b).
Proof.
  intros a b [La Ka] [Lb Kb]. pose proof (phi_embedding n I) as HE. unfold image, tabulate.
  assert (G : forall k s x y, s + k = n -> length x = k -> length y = k -> (forall v, v < k -> x @ v = a @ (s + v) /\ y @ v = b @ (s + v)) -> lex_lt x y ->
    lex_lt (map (fun v => phi I v (a @ v)) (seq s k)) (map (fun v => phi I v (b @ v)) (seq s k))).
  { induction k as [|k IH]; intros s x y Hs Hx Hy H L.
    - destruct x; [destruct L|discriminate].
    - destruct x as [|x0 x]; [discriminate|]. destruct y as [|y0 y]; [discriminate|]. cbn [seq map lex_lt] in *.
      destruct (H 0 ltac:(lia)) as [E1 E2]. cbn [nth] in E1, E2. rewrite Nat.add_0_r in E1, E2. destruct L as [L|[L1 L2]].
      + left. apply (emb_lt n (K I)); auto; [lia|apply Ka; lia|apply Kb; lia|lia].
      + right. split; [f_equal; lia|]. apply (IH (S s) x y); auto; try lia. intros v Hv. destruct (H (S v) ltac:(lia)) as [F1 F2]. cbn [nth] in F1, F2.
        replace (S s + v) with (s + S v) by lia. auto. }
  apply (G n 0 a b); auto.
Qed.

Lemma finish_ops : forall arr ops canonical, rearranges arr -> Forall (op_in_ring n) ops -> no_clear ops -> flat_map op_pair ops = ipol -> exists p,
  translate_coefs n (tr_initialize n I) (hash_polynomial n arr ops canonical) =
    Some (map (fun t => (fst t, znat (snd t))) p) /\
  normal_poly n p /\ (forall x m, In (x, m) p <-> length m = n /\ x = alternating_sum I m /\ x <> 0%Z) /\
  multigraded_numerator n I p /\ (canonical = true -> descending_terms p).
Proof.
  intros arr ops canonical Ha Hr NC FP.
  destruct (p_hash n arr ops canonical Ha Hr) as (A & B & C). set (P := hash_polynomial n arr ops canonical) in *.
  assert (B' : forall c m, In (c, m) P <-> c = kat mdec ipol m /\ c <> 0%Z).
  { intros c m. rewrite B. assert (Q : added mdec ops m = kat mdec ipol m) by (etransitivity; [exact (added_kat _ mdec ops m NC)|exact (f_equal (fun l => kat mdec l m) FP)]). rewrite <- Q. reflexivity. }
  assert (Pok : forall c m, In (c, m) P -> okt n (K I) m).
  { intros c m Hi. apply B' in Hi. destruct Hi as [-> Hi]. apply kat_nz in Hi. apply in_map_iff in Hi. destruct Hi as [[c' d] [<- Hi]].
    unfold ipol in Hi. apply in_map_iff in Hi. destruct Hi as [[b d'] [E Hi]]. injection E as _ <-. apply (ok_in b); auto. }
  set (p := map (fun t : Z * term => (fst t, image n (phi I) (snd t))) P).
  assert (Np : NoDup (map snd p)).
  { unfold p. rewrite map_map. cbn [snd]. rewrite <- (map_map snd (image n (phi I))). apply NoDup_map_on; auto.
    intros a b Xa Xb E. apply in_map_iff in Xa, Xb. destruct Xa as [[c a'] [<- Xa]], Xb as [[c' b'] [<- Xb]]. apply image_inj; eauto. }
  assert (Ip : forall c m, In (c, m) p <-> c = kat mdec pol m /\ c <> 0%Z).
  { intros c m. split.
    - intros Hi. apply in_map_iff in Hi. destruct Hi as [[c' t] [E Hi]]. cbn [fst snd] in E. injection E as -> <-. pose proof (Pok _ _ Hi). rewrite pol_image by auto. apply B'. auto.
    - intros [E Hn]. pose proof Hn as Hn'. rewrite E in Hn'. apply kat_nz in Hn'. apply in_map_iff in Hn'. destruct Hn' as [[c' d] [Q Hi]]. cbn [snd] in Q. subst d.
      unfold pol in Hi. apply in_map_iff in Hi. destruct Hi as [[b t] [Q Hi]]. cbn [fst snd] in Q. injection Q as _ <-. apply in_map_iff. exists (c, t). split; auto.
      apply B'. rewrite <- pol_image by (apply (ok_in b); auto). auto. }
  exists p. split; [|split; [|split; [|split]]].
  - rewrite (translate_coefs_spec n _ P (image n (phi I))); [unfold p; rewrite map_map; auto|].
    intros [x d] Hi. cbn [snd]. rewrite (translate_spec n _ _ (fun v => Z.of_nat (phi I v (d @ v)))).
    + unfold znat, image. rewrite of_nat_tabulate. auto.
    + intros v Hv. rewrite getExponent_eq by auto. pose proof (proj2 (Pok x d Hi) v Hv) as Hl. rewrite (proj2 (Nat.ltb_lt _ _)); auto.
  - split; auto. apply Forall_forall. intros [c m] Hi. cbn [fst snd]. split; [apply Ip in Hi; tauto|].
    unfold p in Hi. apply in_map_iff in Hi. destruct Hi as [x [E _]]. injection E as _ <-. apply tabulate_length.
  - intros x m. rewrite Ip. split.
    + intros [E Hn]. assert (Hm : length m = n).
      { rewrite E in Hn. apply kat_nz in Hn. apply in_map_iff in Hn. destruct Hn as [[c d] [<- Hi]]. apply (pol_length c d); auto. }
      split; auto. rewrite <- pol_coef by auto. auto.
    + intros [Hm E]. rewrite pol_coef by auto. auto.
  - apply numerator_of. apply kat_collected; auto.
  - intros Hc. specialize (C Hc). unfold descending_terms in *. unfold p. clear - C Pok.
    induction C as [|[c d] P C IH F]; cbn [map]; [constructor|]. constructor; [apply IH; intros; eapply Pok; simpl; eauto|].
    rewrite Forall_forall in *. intros t Ht. apply in_map_iff in Ht. destruct Ht as [[c' d'] [<- Ht]]. cbn [fst snd].
    apply lex_image; [apply (Pok c'); simpl; auto|apply (Pok c); simpl; auto|]. apply (F (c', d')); auto.
Qed.

Lemma finish_multi : forall arr canonical, rearranges arr -> exists p,
  translate_coefs n (tr_initialize n I) (hash_polynomial n arr (map (fun x => OpSigned (fst x) (snd x)) O) canonical) =
    Some (map (fun t => (fst t, znat (snd t))) p) /\
  normal_poly n p /\ (forall x m, In (x, m) p <-> length m = n /\ x = alternating_sum I m /\ x <> 0%Z) /\
  multigraded_numerator n I p /\ (canonical = true -> descending_terms p).
Proof.
  intros arr canonical Ha. apply finish_ops; auto.
  - apply Forall_forall. intros op Hop. apply in_map_iff in Hop. destruct Hop as [[b d] [<- Hi]]. cbn. apply (ok_in b d Hi).
  - clear. induction O as [|x l IH]; cbn; auto.
  - unfold ipol. clear. induction O as [|x l IH]; cbn; auto; f_equal; auto.
Qed.
Lemma finish_adds : forall arr canonical, rearranges arr -> exists p,
  translate_coefs n (tr_initialize n I) (hash_polynomial n arr (map (fun x => OpAdd (sign (fst x)) (snd x)) O) canonical) =
    Some (map (fun t => (fst t, znat (snd t))) p) /\
  normal_poly n p /\ (forall x m, In (x, m) p <-> length m = n /\ x = alternating_sum I m /\ x <> 0%Z) /\
  multigraded_numerator n I p /\ (canonical = true -> descending_terms p).
Proof.
  intros arr canonical Ha. apply finish_ops; auto.
  - apply Forall_forall. intros op Hop. apply in_map_iff in Hop. destruct Hop as [[b d] [<- Hi]]. cbn. apply (ok_in b d Hi).
  - clear. induction O as [|x l IH]; cbn; auto.
  - unfold ipol. clear. induction O as [|x l IH]; cbn; auto; f_equal; auto.
Qed.

Lemma tdeg_degree : forall t, tdeg n (phi I) t = Z.of_nat (degree (image n (phi I) t)).
Proof.
  intros t. unfold tdeg, image, tabulate. induction (seq 0 n) as [|v l IH]; auto. cbn [map degree]. change (zsum (?a :: ?l)) with (a + zsum l)%Z. rewrite IH. lia.
Qed.
Lemma tr_degree_ok : forall t, okt n (K I) t -> tr_degree n (tr_initialize n I) t = Some (tdeg n (phi I) t).
Proof.
  intros t [L H]. unfold tr_degree. rewrite (translate_spec n _ _ (fun v => Z.of_nat (phi I v (t @ v)))).
  - cbn [bind]. rewrite tdeg_degree. unfold image. rewrite of_nat_tabulate. fold (znat (tabulate n (fun v => phi I v (t @ v)))). rewrite total_degree_znat. auto.
  - intros v Hv. rewrite getExponent_eq by auto. specialize (H v Hv). rewrite (proj2 (Nat.ltb_lt _ _)); auto.
Qed.
Lemma finish_uni : forall arr ops canonical, rearranges arr -> no_clear ops -> (forall c e, In (c, e) (flat_map op_pair ops) -> (0 <= e)%Z) ->
  (forall w, ksum w (flat_map op_pair ops) = fsum (fun t => w (tdeg n (phi I) t)) O) ->
  exists q, map (fun x => (fst x, [snd x])) (uni_hash_polynomial arr ops canonical) = map (fun x => (fst x, [Z.of_nat (snd x)])) q /\
    NoDup (map snd q) /\ (forall p, normal_poly n p -> multigraded_numerator n I p -> forall x k, In (x, k) q <-> x = degree_coef p k /\ x <> 0%Z) /\
    univariate_numerator n I q /\ (canonical = true -> descending q).
Proof.
  intros arr ops canonical Ha NC Hpos Hsum. destruct (p_uni_hash arr ops canonical Ha) as (A & B & C). set (P := uni_hash_polynomial arr ops canonical) in *.
  assert (B' : forall c e, In (c, e) P <-> c = kat Z.eq_dec (flat_map op_pair ops) e /\ c <> 0%Z) by (intros; rewrite B, (added_kat _ Z.eq_dec) by auto; tauto).
  assert (Ppos : forall c e, In (c, e) P -> (0 <= e)%Z).
  { intros c e Hi. apply B' in Hi. destruct Hi as [-> Hi]. apply kat_nz in Hi. apply in_map_iff in Hi. destruct Hi as [[c' d] [<- Hi]]. eapply Hpos; eauto. }
  assert (W : forall w : Z -> Z, ksum w P = ksum (fun d => w (Z.of_nat (degree d))) pol).
  { intros w. rewrite (ksum_eq _ Z.eq_dec P (flat_map op_pair ops)) by (apply kat_collected; auto). rewrite Hsum.
    unfold fsum, ksum, pol. rewrite map_map. apply zsum_ext. intros [b d] _. cbn [fst snd]. rewrite tdeg_degree. auto. }
  set (q := map (fun x : Z * Z => (fst x, Z.to_nat (snd x))) P).
  assert (Wq : forall w : nat -> Z, ksum w q = ksum (fun d => w (degree d)) pol).
  { intros w. transitivity (ksum (fun e => w (Z.to_nat e)) P).
    - unfold ksum, q. rewrite map_map. auto.
    - rewrite W. unfold ksum. apply zsum_ext. intros. rewrite Nat2Z.id. auto. }
  assert (Nq : NoDup (map snd q)).
  { unfold q. rewrite map_map. cbn [snd]. rewrite <- (map_map snd Z.to_nat). apply NoDup_map_on; auto.
    intros a b Xa Xb E. apply in_map_iff in Xa, Xb. destruct Xa as [[c a'] [<- Xa]], Xb as [[c' b'] [<- Xb]]. cbn [snd] in *. apply Ppos in Xa, Xb. lia. }
  exists q. split; [|split; [|split; [|split]]]; auto.
  - unfold q. rewrite map_map. apply map_ext_in. intros [c e] Hi. cbn [fst snd]. rewrite Z2Nat.id by (eapply Ppos; eauto). auto.
  - intros p Hp Hn x k.
    assert (E : degree_coef p k = kat Nat.eq_dec q k).
    { rewrite degree_ksum. unfold kat. rewrite Wq. rewrite (ksum_eq _ mdec p pol).
      - unfold ksum. apply zsum_ext. intros [c d] _. cbn [fst snd]. f_equal. destruct (Nat.eqb_spec (degree d) k), (Nat.eq_dec (degree d) k); auto; congruence.
      - intros d. rewrite <- !coef_at_kat. destruct (Nat.eq_dec (length d) n) as [L|L].
        + rewrite <- !bd_series. apply bd_ext. intros m Hm. rewrite L in Hm. destruct (Hn m Hm) as [H1 H2], (pol_series m Hm) as [H3 H4].
          destruct (in_ideal_dec I m) as [X|X]; [rewrite H1, H3|rewrite H2, H4]; auto.
        + assert (Z1 : forall p', (forall c e, In (c, e) p' -> length e = n) -> coef_at p' d = 0%Z).
          { intros p' H. destruct (Z.eq_dec (coef_at p' d) 0) as [|X]; auto. apply coef_at_nz in X. apply in_map_iff in X. destruct X as [[c e] [<- X]]. apply H in X. cbn in L. congruence. }
          rewrite !Z1; auto; [apply pol_length|]. intros c e Hi. destruct Hp as [_ Hp]. rewrite Forall_forall in Hp. apply (Hp (c, e) Hi). }
    rewrite E. split.
    + intros Hi. rewrite (kat_in _ Nat.eq_dec q x k Nq Hi). split; auto. unfold q in Hi. apply in_map_iff in Hi. destruct Hi as [[c e] [Q Hi]]. injection Q as <- _. apply B' in Hi. tauto.
    + intros [-> Hx]. pose proof Hx as Hx'. apply kat_nz in Hx'. apply in_map_iff in Hx'. destruct Hx' as [[c e] [Q Hi]]. cbn [snd] in Q. subst e.
      rewrite (kat_in _ Nat.eq_dec q c k Nq Hi). auto.
  - intros k. set (std := fun m => (series_coef pol m =? 1)%Z). exists (filter std (monos n k)).
    assert (HS' : forall m, length m = n -> (series_coef pol m = if std m then 1%Z else 0%Z) /\ (std m = true <-> ~ in_ideal I m)).
    { intros m Hm. destruct (pol_series m Hm) as [D1 D2]. unfold std. destruct (in_ideal_dec I m) as [H|H].
      - rewrite (D1 H). split; auto. cbn. intuition discriminate.
      - rewrite (D2 H). cbn. intuition. }
    split; [apply NoDup_filter, monos_nodup|]. split.
    + intros m. rewrite filter_In, monos_iff. split.
      * intros [[M1 M2] M3]. split; auto. split; auto. apply HS'; auto.
      * intros [M1 [M2 M3]]. split; auto. apply HS'; auto.
    + rewrite uni_series_sum. etransitivity; [exact (Wq (shifted n k))|]. unfold ksum. rewrite <- series_sum.
      * rewrite (zsum_ext _ (fun m => if std m then 1%Z else 0%Z)).
        -- rewrite zsum_indicator. rewrite Z.mul_1_l. reflexivity.
        -- intros m Hm. apply monos_iff in Hm. apply HS'. tauto.
      * apply Forall_forall. intros [c d] Hi. apply (pol_length c d Hi).
  - intros Hc. apply desc_nat; auto. intros c e Hi. split; [apply B' in Hi; tauto|]. eapply Ppos; eauto.
Qed.
End Finish.
