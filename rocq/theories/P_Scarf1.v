(** Sums over the faces of the Scarf complex. *)
From Coq Require Import List Arith Bool ZArith Lia Permutation.
Import ListNotations.
From Verif Require Import Spec Spec_Hilbert M_Term M_Ideal M_Slice M_Msm M_Api M_Hilbert M_Poly M_Scarf P_Term P_Ideal P_Hil1 P_Hil6.
Local Open Scope nat_scope.

(** the sum of [h] over the faces of the simplex on L, with signs *)
Fixpoint taylor (n : nat) (h : term -> Z) (t : term) (L : list term) : Z :=
  match L with
  | [] => h t
  | g :: L' => (taylor n h t L' - taylor n h (t_lcm n t g) L')%Z
  end.
Definition fsum (h : term -> Z) (l : list (bool * term)) : Z := zsum (map (fun x => (sign (fst x) * h (snd x))%Z) l).
Lemma fsum_app : forall h a b, fsum h (a ++ b) = (fsum h a + fsum h b)%Z.
Proof. intros. unfold fsum. rewrite map_app, zsum_app. auto. Qed.

Lemma taylor_ext : forall n h h' L t, length t = n -> (forall x, length x = n -> h x = h' x) -> taylor n h t L = taylor n h' t L.
Proof.
  intros n h h' L. induction L as [|g L IH]; intros t Ht H; cbn [taylor]; auto.
  rewrite (IH t), (IH (t_lcm n t g)); auto using t_lcm_length.
Qed.
Lemma taylor_add : forall n h h' L t, taylor n (fun x => h x + h' x)%Z t L = (taylor n h t L + taylor n h' t L)%Z.
Proof. intros n h h' L. induction L as [|g L IH]; intros t; cbn [taylor]; auto. rewrite !IH. lia. Qed.
Lemma taylor_zero : forall n L t, taylor n (fun _ => 0%Z) t L = 0%Z.
Proof. intros n L. induction L as [|g L IH]; intros t; cbn [taylor]; auto. rewrite !IH. lia. Qed.

Lemma t_lcm_comm3 : forall n t a b, t_lcm n (t_lcm n t a) b = t_lcm n (t_lcm n t b) a.
Proof. intros. apply term_ext with n; auto using t_lcm_length. intros v Hv. rewrite !t_lcm_nth by auto. lia. Qed.
Lemma t_lcm_idem : forall n t a, t_lcm n (t_lcm n t a) a = t_lcm n t a.
Proof. intros. apply term_ext with n; auto using t_lcm_length. intros v Hv. rewrite !t_lcm_nth by auto. lia. Qed.

(** a generator that does not matter *)
Lemma taylor_toggle : forall n h g L t, In g L -> length t = n -> (forall x, length x = n -> h (t_lcm n x g) = h x) -> taylor n h t L = 0%Z.
Proof.
  intros n h g L. induction L as [|a L IH]; intros t Hi Ht H; [destruct Hi|]. cbn [taylor].
  destruct Hi as [->|Hi].
  - assert (E : taylor n h (t_lcm n t g) L = taylor n h t L); [|lia].
    clear IH. revert t Ht. induction L as [|b L IH]; intros t Ht; cbn [taylor]; auto.
    rewrite t_lcm_comm3, (IH t), (IH (t_lcm n t b)); auto using t_lcm_length.
  - rewrite !IH; auto using t_lcm_length.
Qed.

Lemma sdiv_lcm : forall n c t, length t = n -> (t_strictlyDivides n c (t_lcm n t c) = true <-> t_strictlyDivides n c t = true) /\
  (t_strictlyDivides n c t = true -> t_lcm n t c = t).
Proof.
  intros n c t Ht. rewrite !t_strictlyDivides_iff. unfold sdiv_n. split; [split|].
  - intros [A [w [Hw B]]]. split.
    + intros v Hv. specialize (A v Hv). rewrite t_lcm_nth in A by auto. lia.
    + exists w. split; auto. rewrite t_lcm_nth in B by auto. specialize (A w Hw). rewrite t_lcm_nth in A by auto. lia.
  - intros [A [w [Hw B]]]. split.
    + intros v Hv. specialize (A v Hv). rewrite t_lcm_nth by auto. lia.
    + exists w. split; auto. rewrite t_lcm_nth by auto. lia.
  - intros [A _]. apply term_ext with n; auto using t_lcm_length. intros v Hv. rewrite t_lcm_nth by auto. specialize (A v Hv). lia.
Qed.

(** the faces whose lcm is strictly contained cancel *)
Lemma taylor_strict : forall n L C h t, incl C L -> length t = n ->
  taylor n (fun x => if existsb (fun g => t_strictlyDivides n g x) C then h x else 0%Z) t L = 0%Z.
Proof.
  intros n L C. induction C as [|c C IH]; intros h t Hin Ht; cbn [existsb]; [apply taylor_zero|].
  assert (HC : incl C L) by (intros x Hx; apply Hin; right; auto).
  rewrite (taylor_ext n _ (fun x => (if t_strictlyDivides n c x then h x else 0) +
    (if existsb (fun g => t_strictlyDivides n g x) C then (if t_strictlyDivides n c x then 0 else h x) else 0))%Z); auto.
  - rewrite taylor_add, IH by auto. rewrite (taylor_toggle n _ c); auto; [apply Hin; left; auto|].
    intros x Hx. destruct (sdiv_lcm n c x Hx) as [A B]. destruct (t_strictlyDivides n c x) eqn:E.
    + rewrite B by auto. rewrite E. auto.
    + destruct (t_strictlyDivides n c (t_lcm n x c)) eqn:E2; auto. exfalso. destruct A as [A _]. specialize (A eq_refl). discriminate.
  - intros x Hx. destruct (t_strictlyDivides n c x), (existsb _ C); cbn; lia.
Qed.

(** ** The enumeration as a recursion *)
Fixpoint faces (n : nat) (bad : term -> bool) (plus : bool) (t : term) (L : list term) : list (bool * term) :=
  match L with
  | [] => [(plus, t)]
  | g :: L' =>
      (if bad (t_lcm n t g) then [] else faces n bad (negb plus) (t_lcm n t g) L') ++ faces n bad plus t L'
  end.
Lemma sign_negb : forall b, sign (negb b) = (- sign b)%Z.
Proof. destruct b; reflexivity. Qed.

Definition upward (n : nat) (bad : term -> bool) : Prop := forall a b, le_n n a b -> bad a = true -> bad b = true.
Lemma upward_strict : forall n C, upward n (fun x => existsb (fun g => t_strictlyDivides n g x) C).
Proof.
  intros n C a b Hab H. apply existsb_exists in H. destruct H as [g [Hg H]]. apply existsb_exists. exists g. split; auto.
  apply t_strictlyDivides_iff in H. apply t_strictlyDivides_iff. destruct H as [A [w [Hw B]]]. split.
  - intros v Hv. specialize (A v Hv). specialize (Hab v Hv). lia.
  - exists w. split; auto. specialize (Hab w Hw). lia.
Qed.
Lemma le_lcm_l : forall n a b, le_n n a (t_lcm n a b).
Proof. intros n a b v Hv. rewrite t_lcm_nth by auto. lia. Qed.

Lemma taylor_bad : forall n bad h L t, upward n bad -> bad t = true -> taylor n (fun x => if bad x then 0%Z else h x) t L = 0%Z.
Proof.
  intros n bad h L. induction L as [|g L IH]; intros t U H; cbn [taylor].
  - rewrite H. auto.
  - rewrite (IH t U H), (IH (t_lcm n t g) U); [lia|]. apply (U t); auto using le_lcm_l.
Qed.
Lemma faces_taylor : forall n bad h L plus t, upward n bad -> bad t = false ->
  fsum h (faces n bad plus t L) = (sign plus * taylor n (fun x => if bad x then 0%Z else h x) t L)%Z.
Proof.
  intros n bad h L. induction L as [|g L IH]; intros plus t U H; cbn [faces taylor].
  - unfold fsum. simpl. rewrite H. lia.
  - rewrite fsum_app, (IH plus t U H). destruct (bad (t_lcm n t g)) eqn:E.
    + rewrite (taylor_bad n bad h L (t_lcm n t g) U E). unfold fsum. simpl. lia.
    + rewrite (IH _ _ U E), sign_negb. lia.
Qed.

Lemma t_strict_identity : forall n g, t_strictlyDivides n g (t_identity n) = false.
Proof.
  intros n g. apply not_true_false. rewrite t_strictlyDivides_iff. intros [_ [w [Hw H]]]. rewrite t_identity_nth in H. lia.
Qed.
Lemma strictly_identity : forall n C, existsb (fun g => t_strictlyDivides n g (t_identity n)) C = false.
Proof. intros n C. induction C as [|c C IH]; cbn [existsb]; auto. rewrite t_strict_identity, IH. auto. Qed.

(** the faces of the Scarf complex can be summed instead of all faces *)
Theorem scarf_sum : forall n C L h, incl C L ->
  fsum h (faces n (fun x => existsb (fun g => t_strictlyDivides n g x) C) true (t_identity n) L) = taylor n h (t_identity n) L.
Proof.
  intros n C L h Hin. rewrite faces_taylor; [|apply upward_strict|apply strictly_identity].
  cbn [sign]. rewrite Z.mul_1_l.
  pose proof (taylor_strict n L C h (t_identity n) Hin (t_identity_length n)) as E.
  rewrite <- (Z.add_0_r (taylor n _ _ L)), <- E, <- taylor_add.
  apply taylor_ext; [apply t_identity_length|]. intros x Hx. destruct (existsb _ C); lia.
Qed.
Theorem all_sum : forall n L h, fsum h (faces n (fun _ => false) true (t_identity n) L) = taylor n h (t_identity n) L.
Proof.
  intros n L h. rewrite faces_taylor; auto; [|intros a b _ H; discriminate]. cbn [sign]. rewrite Z.mul_1_l. reflexivity.
Qed.

(** ** The series *)
Definition dvd (n : nat) (a m : term) : Z := if t_dominates n m a then 1%Z else 0%Z.
Lemma taylor_series : forall n m L (t : term), taylor n (fun x => dvd n x m) t L = (dvd n t m * (1 - ind n L m))%Z.
Proof.
  intros n m L. induction L as [|g L IH]; intros t; cbn [taylor].
  - rewrite ind_0; [lia|]. intros [g [[] _]].
  - rewrite !IH.
    assert (E : dvd n (t_lcm n t g) m = (dvd n t m * dvd n g m)%Z).
    { unfold dvd. destruct (t_dominates n m t) eqn:A, (t_dominates n m g) eqn:B, (t_dominates n m (t_lcm n t g)) eqn:D; auto; exfalso;
        rewrite ?not_true_false, ?t_dominates_iff in *.
      - apply D. intros v Hv. rewrite t_lcm_nth by auto. specialize (A v Hv). specialize (B v Hv). lia.
      - apply B. intros v Hv. specialize (D v Hv). rewrite t_lcm_nth in D by auto. lia.
      - apply A. intros v Hv. specialize (D v Hv). rewrite t_lcm_nth in D by auto. lia.
      - apply A. intros v Hv. specialize (D v Hv). rewrite t_lcm_nth in D by auto. lia. }
    rewrite E. unfold ind. cbn [i_contains existsb]. unfold i_contains. cbn [existsb]. unfold dvd.
    destruct (t_dominates n m t), (t_dominates n m g), (existsb _ L); simpl; lia.
Qed.
