(** The tasks of the algorithm by Bigatti et al. *)
From Coq Require Import List Arith Bool ZArith Lia Permutation.
Import ListNotations.
From Verif Require Import Spec Spec_Hilbert M_Term M_Ideal M_Slice M_Msm M_Api M_Hilbert M_Poly M_Tasks M_Scarf M_Bigatti
  P_Term P_Ideal P_Msm2 P_Msm3 P_Hil1 P_Hil6 P_Scarf1 P_Bigatti1 P_Bigatti2 P_Bigatti3.
Local Open Scope nat_scope.

Definition legal (n : nat) (pv : bpivot) : Prop := forall I, wf n I -> minl n I -> shares n I ->
  exists J p, pv n I = Some (J, p) /\ Permutation I J /\ length p = n /\ (exists v, v < n /\ 0 < p @ v) /\ ~ inI n I p /\ exists g, In g I /\ le_n n p g.

Lemma inI_perm : forall n I J m, Permutation I J -> inI n I m <-> inI n J m.
Proof. intros n I J m P. split; intros [g [Hg H]]; exists g; split; auto; [apply (Permutation_in _ P)|apply (Permutation_in _ (Permutation_sym P))]; auto. Qed.
Lemma ind_perm : forall n I J m, Permutation I J -> ind n I m = ind n J m.
Proof.
  intros n I J m P. destruct (i_contains_dec n I m) as [A|A].
  - rewrite !ind_1; auto. apply (inI_perm n I J); auto.
  - rewrite !ind_0; auto. rewrite <- (inI_perm n I J); auto.
Qed.

Section Run.
Variables (n : nat) (tr : translator) (K : nat -> nat) (phi : nat -> nat -> nat).
Hypothesis Htr : forall t, okt n K t -> tr_degree n tr t = Some (tdeg n phi t).
Hypothesis phi_mono : forall v i j, v < n -> i <= j -> j < K v -> phi v i <= phi v j.
Variables (fuel : nat) (prm : bparams) (pv : bpivot).
Hypothesis Hf : cost (length (Kbox n K)) <= fuel.
Hypothesis Hpv : legal n pv.

Lemma perm_sok : forall I J q, Permutation I J -> sok n K (mkBS I q) -> sok n K (mkBS J q).
Proof.
  intros I J q P [A B C D E]. cbn [bs_I bs_q] in *. pose proof (fun x => Permutation_in x (Permutation_sym P)) as Q.
  constructor; cbn [bs_I bs_q]; auto.
  - intros g Hg. auto.
  - destruct B as [B1 B2]. split; [apply (Permutation_NoDup P); auto|]. intros g h Hg Hh. apply B2; auto.
Qed.
Lemma perm_sval : forall I J q m, Permutation I J -> sval n (mkBS I q) m = sval n (mkBS J q) m.
Proof. intros I J q m P. unfold sval. cbn [bs_I bs_q]. rewrite (ind_perm n _ (i_product n J q)); auto. apply Permutation_map; auto. Qed.
Definition tasks_val (ts : list bstate) (m : term) : Z := zsum (map (fun s => sval n s m) ts).
Definition serie (o : list (bool * term)) (m : term) : Z := fsum (fun x => dvd n x m) o.

(** simplify *)
Lemma simplify_spec : forall s, sok n K s -> exists s1 o1 o,
  (if bp_simplify prm then b_simplify n s else (s, [])) = (s1, o1) /\ sok n K s1 /\ rep n K phi (bp_uni prm) o1 o /\
  (forall m, sval n s m = serie o m + sval n s1 m)%Z /\ (forall m, 0 <= serie o m)%Z.
Proof.
  intros s Hs.
  assert (Triv : exists s1 o1 o, (s, []) = (s1, o1) /\ sok n K s1 /\ rep n K phi (bp_uni prm) o1 o /\
    (forall m, sval n s m = serie o m + sval n s1 m)%Z /\ (forall m, 0 <= serie o m)%Z).
  { exists s, [], []. split; auto. split; auto. split; [apply (rep_bouts n K phi (bp_uni prm) []); constructor|]. split; intros m; unfold serie, fsum; cbn; lia. }
  destruct (bp_simplify prm); auto. unfold b_simplify. cbv zeta. rewrite i_gcd_eq. destruct (t_isIdentity n (gcd_of n (bs_I s))) eqn:E; auto.
  destruct (gcd_of_spec n (bs_I s) (sok_wf _ _ _ Hs)) as (A & B & _).
  destruct (bs_I s) as [|g0 I'] eqn:EI.
  { exfalso. cbn [gcd_of] in E. assert (t_isIdentity n (t_identity n) = true); [|congruence]. apply t_isIdentity_iff. intros v Hv. apply t_identity_nth; auto. }
  rewrite <- EI in *. assert (H0 : In g0 (bs_I s)) by (rewrite EI; simpl; auto).
  set (p := gcd_of n (bs_I s)) in *. pose proof (colon_sok n K s p g0 Hs A H0 (B g0 H0)) as Hs1.
  eexists. eexists. exists [(true, bs_q s); (false, bs_q (bs_colon n s p))]. split; [reflexivity|]. split; [exact Hs1|]. split; [|split].
  - apply (rep_bouts n K phi (bp_uni prm) [(true, bs_q s); (false, bs_q (bs_colon n s p))]). apply Forall_cons; [|apply Forall_cons; [|constructor]]; cbn [snd].
    + apply (okt_q n K s Hs).
    + apply (okt_q n K _ Hs1).
  - intros m. rewrite (simplify_value n s p m (sok_wf _ _ _ Hs) (sok_minl _ _ _ Hs) A B). unfold serie, fsum. cbn [map fst snd sign].
    change (zsum [?x; ?y]) with (x + (y + 0))%Z. lia.
  - intros m. unfold serie, fsum. cbn [map fst snd sign]. change (zsum [?x; ?y]) with (x + (y + 0))%Z.
    destruct (le_n_dec n (bs_q (bs_colon n s p)) m) as [H|H].
    + rewrite (dvd_1 n _ m H). rewrite (dvd_1 n (bs_q s)); [lia|]. cbn [bs_colon bs_q] in H. intros v Hv. specialize (H v Hv). rewrite t_product_nth in H by auto. lia.
    + rewrite (dvd_0 n (bs_q (bs_colon n s p))) by auto. unfold dvd. destruct (t_dominates n m (bs_q s)); lia.
Qed.

Lemma process_spec : forall s out, sok n K s -> exists o1 ts o,
  b_process fuel n prm pv tr s out = Some (out ++ o1, ts) /\ rep n K phi (bp_uni prm) o1 o /\ Forall (sok n K) ts /\
  (forall m, sval n s m = serie o m + tasks_val ts m)%Z /\
  (ts = [] \/ exists a b, ts = [a; b] /\ (1 <= vol n K a)%Z /\ (1 <= vol n K b)%Z /\ (vol n K a + vol n K b <= vol n K s)%Z).
Proof.
  intros s out Hs. destruct (simplify_spec s Hs) as (s1 & o1 & o & E1 & Hs1 & R1 & V1 & N1). unfold b_process. rewrite E1.
  pose proof (gens_bound n K s1 Hs1) as Lb. pose proof (cost_mono _ _ Lb) as Cb.
  destruct (base_spec n tr K phi Htr phi_mono fuel (bp_generic prm) (bp_uni prm) s1 Hs1 ltac:(lia)) as [[E2 Sh]|(o2 & o' & E2 & R2 & B2)];
    rewrite E2; cbn [bind].
  - destruct (Hpv (bs_I s1) (sok_wf _ _ _ Hs1) (sok_minl _ _ _ Hs1) Sh) as (J & p & E3 & P & Lp & Np & Ip & g0 & Hg0 & Lg0).
    rewrite E3. cbn [bind fst snd]. set (s2 := mkBS J (bs_q s1)).
    assert (Hs2 : sok n K s2) by (apply (perm_sok (bs_I s1)); auto; destruct s1; auto).
    assert (H0 : In g0 (bs_I s2)) by (apply (Permutation_in _ P); auto).
    pose proof (colon_sok n K s2 p g0 Hs2 Lp H0 Lg0) as Ha. pose proof (add_sok n K s2 p g0 Hs2 Lp H0 Lg0) as Hb.
    assert (V2 : forall m, sval n s1 m = (sval n (bs_colon n s2 p) m + sval n (bs_add n s2 p) m)%Z).
    { intros m. rewrite <- (split_value n s2 p m (sok_wf _ _ _ Hs2) (sok_minl _ _ _ Hs2) Lp). unfold s2.
      rewrite <- (perm_sval (bs_I s1)); auto; destruct s1; auto. }
    exists o1, [bs_colon n s2 p; bs_add n s2 p], o. split; [auto|]. split; [auto|]. split; [apply Forall_cons; [|apply Forall_cons; [|constructor]]; auto|]. split.
    + intros m. unfold tasks_val. cbn [map]. change (zsum [?x; ?y]) with (x + (y + 0))%Z. rewrite V1, V2. lia.
    + right. exists (bs_colon n s2 p), (bs_add n s2 p). split; auto.
      assert (I2 : ~ inI n J p) by (rewrite <- (inI_perm n (bs_I s1)); auto).
      assert (Nb : forall h v, In h J -> (forall v, v < n -> h @ v = 0) -> v < n -> 0 < p @ v -> False).
      { intros h v Hh Hz Hv Hp. apply I2. exists h. split; auto. intros u Hu. rewrite Hz by auto. lia. }
      split; [|split].
      * apply vol_pos; auto. cbn [bs_colon bs_I]. unfold s2. cbn [bs_I].
        rewrite (colon_inI n J p (t_identity n) (sok_wf _ _ _ Hs2) (sok_minl _ _ _ Hs2) Lp). rewrite product_id by auto. auto.
      * apply vol_pos; auto. cbn [bs_add bs_I]. unfold s2. cbn [bs_I]. rewrite (insert_inI n J p (t_identity n) (sok_wf _ _ _ Hs2) (sok_minl _ _ _ Hs2) Lp).
        destruct Np as [v [Hv Hp]]. intros [[h [Hh Hle]]|Hle].
        -- apply (Nb h v); auto. intros u Hu. specialize (Hle u Hu). rewrite t_identity_nth in Hle by auto. lia.
        -- specialize (Hle v Hv). rewrite t_identity_nth in Hle by auto. lia.
      * unfold vol. rewrite <- zsum_add. apply zsum_le. intros m _. rewrite <- V2. specialize (V1 m). specialize (N1 m). lia.
  - exists (o1 ++ o2), [], (o ++ o'). split; [auto|]. split; [apply rep_app; auto|]. split; [constructor|]. split; auto.
    intros m. unfold serie. rewrite fsum_app. rewrite (base_series n s1 o' m (sok_q _ _ _ Hs1) (sok_wf _ _ _ Hs1) B2). rewrite V1. unfold serie, tasks_val. cbn. lia.
Qed.

(** the number of tasks needed *)
Definition need (s : bstate) : nat := Z.to_nat (Z.max 1 (2 * vol n K s - 1)).
Lemma engine_spec : forall k out stack next log o V, list_sum (map (fun x => need (snd x)) stack) <= k ->
  Forall (fun x => sok n K (snd x)) stack -> rep n K phi (bp_uni prm) out o ->
  (forall m, serie o m + tasks_val (map snd stack) m = V m)%Z ->
  exists out' o' nx lg, engine (b_process fuel n prm pv tr) k out stack next log = Some (out', nx, lg) /\
    rep n K phi (bp_uni prm) out' o' /\ forall m, serie o' m = V m.
Proof.
  induction k as [|k IH]; intros out stack next log o V Hk Hs R HV.
  - destruct stack as [|[id s] stack].
    + exists out, o, next, log. split; auto. split; auto. intros m. rewrite <- HV. unfold tasks_val. cbn. lia.
    + exfalso. cbn [map list_sum fold_right snd] in Hk. unfold need in Hk at 1. lia.
  - destruct stack as [|[id s] stack].
    + exists out, o, next, log. split; auto. split; auto. intros m. rewrite <- HV. unfold tasks_val. cbn. lia.
    + cbn [engine]. inversion Hs as [|? ? Hs0 Hst]; subst. cbn [snd] in Hs0.
      destruct (process_spec s out Hs0) as (o1 & ts & o2 & E & R2 & Hts & HV2 & Hv). rewrite E.
      apply (IH _ _ _ _ (o ++ o2)).
      * assert (Hk' : need s + list_sum (map (fun x => need (snd x)) stack) <= S k) by exact Hk.
        destruct Hv as [->|(a & b & -> & Va & Vb & Vs)]; cbn [add_tasks].
        -- assert (1 <= need s) by (unfold need; lia). lia.
        -- assert (need a + need b + 1 <= need s) by (unfold need; lia).
           change (need b + (need a + list_sum (map (fun x => need (snd x)) stack)) <= k). lia.
      * destruct Hv as [->|(a & b & -> & Va & Vb & Vs)]; cbn [add_tasks]; auto. inversion Hts as [|? ? Ha Hb']; subst. inversion Hb'; subst. repeat (apply Forall_cons; cbn [snd]; auto).
      * apply rep_app; auto.
      * intros m. rewrite <- HV. unfold serie in *. rewrite fsum_app. specialize (HV2 m).
        assert (E0 : tasks_val (map snd ((id, s) :: stack)) m = (sval n s m + tasks_val (map snd stack) m)%Z) by reflexivity.
        rewrite E0, HV2. destruct Hv as [->|(a & b & -> & _)]; cbn [add_tasks].
        -- change (tasks_val [] m) with 0%Z. lia.
        -- assert (E1 : tasks_val (map snd ((S next, b) :: (next, a) :: stack)) m = (sval n b m + (sval n a m + tasks_val (map snd stack) m))%Z) by reflexivity.
           rewrite E1. assert (E2 : tasks_val [a; b] m = (sval n a m + (sval n b m + 0))%Z) by reflexivity. rewrite E2. lia.
Qed.
Lemma run_spec : forall I, sok n K (mkBS I (t_identity n)) -> need (mkBS I (t_identity n)) <= fuel ->
  exists out o, b_run fuel n prm pv tr I = Some out /\ rep n K phi (bp_uni prm) out o /\ forall m, length m = n -> (serie o m = 1 - ind n I m)%Z.
Proof.
  intros I Hs Hn. unfold b_run, run_engine. cbn [add_tasks].
  destruct (engine_spec fuel [] [(0, mkBS I (t_identity n))] 1 [Added 0] [] (fun m => sval n (mkBS I (t_identity n)) m)) as (out & o & nx & lg & E & R & V).
  - cbn [map list_sum fold_right snd]. lia.
  - apply Forall_cons; auto.
  - apply (rep_bouts n K phi (bp_uni prm) []). constructor.
  - intros m. unfold serie, fsum, tasks_val. cbn [map snd]. change (zsum []) with 0%Z. change (zsum [?x]) with (x + 0)%Z. lia.
  - cbn [length seq map] in *. rewrite E. cbn [bind fst]. exists out, o. split; auto. split; auto. intros m Hm. rewrite V. unfold sval. cbn [bs_I bs_q].
    rewrite dvd_1 by (intros v Hv; rewrite t_identity_nth by auto; lia). rewrite Z.mul_1_l. f_equal.
    f_equal. unfold i_product. transitivity (map (fun g : term => g) I); [|apply map_id]. apply map_ext_in. intros g Hg. rewrite product_comm. apply product_id. apply (sok_wf _ _ _ Hs g Hg).
Qed.
End Run.
