(** Projecting a slice onto two blocks of variables that no generator connects: the content is the product. *)
From Coq Require Import List Arith Bool Lia Permutation.
Import ListNotations.
From Verif Require Import M_Term M_Ideal M_Slice M_Partition M_Msm P_Term P_Ideal P_Msm1 P_Msm2 P_Msm3 P_Msm4 P_Msm5 P_Indep.

(** ** Blocks of variables *)
Section Block.
Variable n : nat.
Variable f : nat -> bool.
Definition off : list nat := filter f (seq 0 n).
Definition idx (v : nat) : nat := length (filter f (seq 0 v)).
Definition blen : nat := length off.

Lemma off_in : forall v, In v off <-> v < n /\ f v = true.
Proof. intros v. unfold off. rewrite filter_In, in_seq. intuition lia. Qed.

Lemma off_idx : forall v, v < n -> f v = true -> idx v < blen /\ nth (idx v) off 0 = v.
Proof.
  intros v Hv Hf. assert (E : off = filter f (seq 0 v) ++ v :: filter f (seq (S v) (n - S v))).
  { unfold off. replace n with (v + S (n - S v)) at 1 by lia. rewrite seq_app, filter_app. cbn [seq filter plus].
    rewrite Hf. auto. }
  unfold blen. rewrite E. unfold idx. split.
  - rewrite app_length. simpl. lia.
  - rewrite app_nth2, Nat.sub_diag by lia. auto.
Qed.

Lemma off_nth : forall k, k < blen -> nth k off 0 < n /\ f (nth k off 0) = true /\ idx (nth k off 0) = k.
Proof.
  intros k Hk. assert (Hin : In (nth k off 0) off) by (apply nth_In; auto). apply off_in in Hin. destruct Hin as [A B].
  split; auto. split; auto. destruct (off_idx _ A B) as [C D].
  apply (proj1 (NoDup_nth off 0)); auto. apply NoDup_filter, seq_NoDup.
Qed.

Definition P (m : term) : term := proj_project off m.
Lemma P_length : forall m, length (P m) = blen.
Proof. intros m. unfold P, proj_project. rewrite map_length. auto. Qed.
Lemma P_nth : forall m k, k < blen -> (P m) @ k = m @ (nth k off 0).
Proof.
  intros m k Hk. unfold P, proj_project. rewrite (nth_indep _ 0 (m @ 0)) by (rewrite map_length; auto).
  rewrite (map_nth (fun o => m @ o) off 0 k). auto.
Qed.
Lemma P_idx : forall m v, v < n -> f v = true -> (P m) @ (idx v) = m @ v.
Proof. intros m v Hv Hf. destruct (off_idx v Hv Hf) as [A B]. rewrite P_nth, B; auto. Qed.

Definition on (g : term) : Prop := forall v, v < n -> 0 < g @ v -> f v = true.

Lemma on_le : forall g m, on g -> (le_n blen (P g) (P m) <-> le_n n g m).
Proof.
  intros g m Ho. split; intros H.
  - intros v Hv. destruct (Nat.eq_dec (g @ v) 0) as [E|E]; [lia|]. assert (Hf : f v = true) by (apply Ho; auto; lia).
    destruct (off_idx v Hv Hf) as [A B]. specialize (H _ A). rewrite !P_idx in H by auto. auto.
  - intros k Hk. rewrite !P_nth by auto. apply H. apply off_nth; auto.
Qed.

Lemma keep_on : forall g, (exists v, v < n /\ 0 < g @ v) -> one_side n f g -> (proj_keep n off g = true <-> on g).
Proof.
  intros g [v [Hv Gv]] Hs. unfold proj_keep. cbv zeta.
  destruct (t_firstNonZero_spec n g) as [[A [B C]]|[A B]]; [|rewrite B in Gv by auto; lia].
  rewrite (proj2 (Nat.eqb_neq _ _)) by lia. cbn [orb]. unfold proj_has. rewrite existsb_exists. split.
  - intros [x [Hx E]]. apply Nat.eqb_eq in E. subst x. apply off_in in Hx. destruct Hx as [_ Hf].
    destruct Hs as [Hs|Hs]; [exact Hs|]. rewrite (Hs _ A B) in Hf. discriminate.
  - intros Ho. exists (t_firstNonZero n g). split; [|apply Nat.eqb_refl]. apply off_in. split; auto.
Qed.

Lemma P_up : forall m v, v < n -> f v = true -> P (up n m v) = up blen (P m) (idx v).
Proof.
  intros m v Hv Hf. destruct (off_idx v Hv Hf) as [A B]. apply term_ext with blen; [apply P_length|apply t_set_length|].
  intros k Hk. destruct (off_nth k Hk) as [C [D E]]. rewrite P_nth, !up_nth by auto. rewrite !P_nth, B by auto.
  destruct (Nat.eqb_spec (nth k off 0) v) as [Ev|N].
  - rewrite <- Ev, E, Nat.eqb_refl. auto.
  - rewrite (proj2 (Nat.eqb_neq k (idx v))); auto. intros ->. auto.
Qed.

Lemma P_up_other : forall m v, v < n -> f v = false -> P (up n m v) = P m.
Proof.
  intros m v Hv Hf. apply term_ext with blen; try apply P_length.
  intros k Hk. destruct (off_nth k Hk) as [C [D E]]. rewrite !P_nth, up_nth by auto.
  rewrite (proj2 (Nat.eqb_neq _ v)); auto. intros Hx. rewrite Hx in D. congruence.
Qed.

Lemma P_product : forall a b, P (t_product n a b) = t_product blen (P a) (P b).
Proof.
  intros a b. apply term_ext with blen; [apply P_length|apply t_product_length|].
  intros k Hk. destruct (off_nth k Hk) as [C [D E]]. rewrite t_product_nth, !P_nth, t_product_nth by auto. auto.
Qed.

(** the ideal on the block *)
Definition PI_ (I : ideal) : ideal := map P (filter (proj_keep n off) I).

Definition sided (I : ideal) : Prop := forall g, In g I -> (exists v, v < n /\ 0 < g @ v) /\ one_side n f g.

Lemma PI_in : forall I k, sided I -> (In k (PI_ I) <-> exists g, In g I /\ on g /\ k = P g).
Proof.
  intros I k Hs. unfold PI_. rewrite in_map_iff. split.
  - intros [g [<- Hg]]. apply filter_In in Hg. destruct Hg as [A B]. destruct (Hs g A) as [C D].
    exists g. split; auto. split; auto. apply keep_on; auto.
  - intros [g [A [B ->]]]. exists g. split; auto. apply filter_In. split; auto. destruct (Hs g A). apply keep_on; auto.
Qed.

Lemma PI_inI : forall I m, sided I -> (inI blen (PI_ I) (P m) <-> exists g, In g I /\ on g /\ le_n n g m).
Proof.
  intros I m Hs. split.
  - intros [k [Hk Hle]]. apply PI_in in Hk; auto. destruct Hk as [g [A [B ->]]]. exists g. split; auto. split; auto. apply on_le; auto.
  - intros [g [A [B C]]]. exists (P g). split; [apply PI_in; eauto|]. apply on_le; auto.
Qed.

Lemma PI_wf : forall I, wf blen (PI_ I).
Proof. intros I g Hg. apply in_map_iff in Hg. destruct Hg as [h [<- _]]. apply P_length. Qed.

Lemma PI_minl : forall I, sided I -> minl n I -> minl blen (PI_ I).
Proof.
  intros I Hs [HN Hm].
  assert (Hk : forall g, In g (filter (proj_keep n off) I) -> In g I /\ on g).
  { intros g Hg. apply filter_In in Hg. destruct Hg as [A B]. destruct (Hs g A). split; auto. apply keep_on; auto. }
  split.
  - apply NoDup_map_inj; [apply NoDup_filter; auto|]. intros x y Hx Hy E. destruct (Hk x Hx), (Hk y Hy).
    apply Hm; auto. apply on_le; auto. rewrite E. apply le_n_refl.
  - intros g h Hg Hh Hle. apply PI_in in Hg, Hh; auto. destruct Hg as [x [A [B ->]]], Hh as [y [C [D ->]]].
    f_equal. apply Hm; auto. apply on_le; auto.
Qed.

Lemma PI_lcm : forall I, sided I -> i_lcm blen (PI_ I) = P (i_lcm n I).
Proof.
  intros I Hs. apply term_ext with blen; [apply i_lcm_length|apply P_length|]. intros k Hk.
  destruct (off_nth k Hk) as [A [B C]]. rewrite P_nth by auto. apply Nat.le_antisymm.
  - apply i_lcm_lub; auto. intros g Hg. apply PI_in in Hg; auto. destruct Hg as [h [D [E ->]]].
    rewrite P_nth by auto. apply i_lcm_ge; auto.
  - destruct (Nat.eq_dec ((i_lcm n I) @ (nth k off 0)) 0) as [Z|Z]; [lia|].
    destruct (i_lcm_attained n I (nth k off 0) A ltac:(lia)) as [g [Hg E]]. rewrite <- E. rewrite <- P_nth by auto.
    apply i_lcm_ge; auto. apply PI_in; auto. exists g. split; auto. split; auto.
    destruct (Hs g Hg) as [_ [O|O]]; [exact O|]. rewrite (O _ A) in B by lia. discriminate.
Qed.

Lemma sided_on : forall I g v, sided I -> In g I -> v < n -> f v = true -> 0 < g @ v -> on g.
Proof. intros I g v Hs Hg Hv Hf Hp. destruct (Hs g Hg) as [_ [O|O]]; [exact O|]. rewrite (O v Hv Hp) in Hf. discriminate. Qed.

Lemma PI_norm : forall I S, sided I -> sided S -> normalized n S I -> normalized blen (PI_ S) (PI_ I).
Proof.
  intros I S HI HS H a b Ha Hb Hd. apply PI_in in Ha, Hb; auto. destruct Ha as [x [A1 [A2 ->]]], Hb as [y [B1 [B2 ->]]].
  destruct Hd as [Hd _].
  apply (H x y); auto. split; [|destruct (HI y B1) as [[v [Hv Hp]] _]; exists v; split; auto; lia].
  intros v Hv. destruct (Nat.eq_dec (x @ v) 0) as [E|E]; [left; auto|].
  assert (Hf : f v = true) by (apply A2; auto; lia). destruct (off_idx v Hv Hf) as [C D].
  specialize (Hd _ C). rewrite !P_idx in Hd by auto. auto.
Qed.

Lemma PI_ndl : forall I, sided I -> full n (i_lcm n I) -> ndl n I -> ndl blen (PI_ I).
Proof.
  intros I Hs Hf Hd _ g Hg. rewrite PI_lcm by auto. apply PI_in in Hg; auto. destruct Hg as [h [A [B ->]]].
  specialize (Hd Hf h A). apply not_true_false. apply not_true_false in Hd. intros Hc. apply Hd.
  apply doubleLcm_iff in Hc. destruct Hc as [k [k' [H1 [H2 [H3 [H4 H5]]]]]]. apply doubleLcm_iff.
  destruct (off_nth k H1) as [C1 [D1 E1]]. destruct (off_nth k' H2) as [C2 [D2 E2]]. rewrite !P_nth in * by auto.
  exists (nth k off 0), (nth k' off 0). split; auto. split; auto. split; auto. congruence.
Qed.

Lemma PI_cand : forall I g k, k < blen -> cand n (i_lcm n I) (nth k off 0) g -> cand blen (P (i_lcm n I)) k (P g).
Proof.
  intros I g k Hk [A B]. destruct (off_nth k Hk) as [C [D E]]. split; [rewrite P_nth; auto|].
  intros w Hw Hne. destruct (off_nth w Hw) as [C' [D' E']]. rewrite !P_nth by auto. apply B; auto. congruence.
Qed.

Lemma PI_SI : forall I, sided I -> SI n I -> SI blen (PI_ I).
Proof.
  intros I Hs H k Hk. destruct (off_nth k Hk) as [C [D E]]. destruct (H _ C) as [[g [A1 [A2 A3]]] B].
  assert (Hin : forall g, In g I -> cand n (i_lcm n I) (nth k off 0) g -> In (P g) (PI_ I)).
  { intros h Hh [Hc _]. apply PI_in; auto. exists h. split; auto. split; auto.
    apply (sided_on I h (nth k off 0)); auto. lia. }
  split.
  - exists (P g). split; auto. split; [rewrite PI_lcm by auto; apply PI_cand; auto|]. rewrite P_nth; auto.
  - intros w Hw Hne. destruct (off_nth w Hw) as [C' [D' E']].
    destruct (B (nth w off 0) C' ltac:(congruence)) as [h [B1 [B2 B3]]].
    exists (P h). split; auto. split; [rewrite PI_lcm by auto; apply PI_cand; auto|]. rewrite P_nth; auto.
Qed.

Lemma PI_adjusted : forall I, sided I -> adjusted n I -> adjusted blen (PI_ I).
Proof.
  intros I Hs H k h Hk Hh Hp. destruct (off_nth k Hk) as [C [D E]]. apply PI_in in Hh; auto. destruct Hh as [g [A [B ->]]].
  rewrite P_nth in Hp by auto. destruct (H _ g C A Hp) as [g' [G1 G2]]. exists (P g'). rewrite P_nth by auto. split; auto.
  apply PI_in; auto. exists g'. split; auto. split; auto. apply (sided_on I g' (nth k off 0)); auto. lia.
Qed.

(** extension by ones *)
Definition ext1 (y : term) : term := tabulate n (fun v => if f v then y @ (idx v) else 0).
Lemma P_ext1 : forall y, length y = blen -> P (ext1 y) = y.
Proof.
  intros y Hy. apply term_ext with blen; [apply P_length|auto|]. intros k Hk. destruct (off_nth k Hk) as [C [D E]].
  rewrite P_nth by auto. unfold ext1. rewrite tabulate_nth by auto. rewrite D, E. auto.
Qed.
End Block.

Lemma proj_inverse_spec : forall n offs to from, length to = n -> NoDup offs -> (forall o, In o offs -> o < n) ->
  length from = length offs ->
  length (proj_inverse n offs to from) = n /\
  (forall k, k < length offs -> (proj_inverse n offs to from) @ (nth k offs 0) = from @ k) /\
  (forall v, v < n -> ~ In v offs -> (proj_inverse n offs to from) @ v = to @ v).
Proof.
  intros n. induction offs as [|o offs IH]; intros to from Ht HN Ho Hl.
  - destruct from; simpl in Hl; [|lia]. simpl. split; auto. split; auto. intros k Hk. lia.
  - destruct from as [|e from]; simpl in Hl; [lia|]. cbn [proj_inverse].
    inversion HN as [|? ? Hno HN']; subst.
    destruct (IH (t_set (length to) to o e) from) as [A [B C]]; auto.
    { apply t_set_length. } { intros x Hx. apply Ho; right; auto. }
    split; auto. split.
    + intros [|k] Hk; simpl in Hk |- *.
      * rewrite C; auto; [|apply Ho; left; auto]. rewrite t_set_nth by (apply Ho; left; auto). rewrite Nat.eqb_refl. auto.
      * apply B. lia.
    + intros v Hv Hni. rewrite C; auto; [|intros H; apply Hni; right; auto]. rewrite t_set_nth by auto.
      rewrite (proj2 (Nat.eqb_neq v o)); auto. intros ->. apply Hni; left; auto.
Qed.

(** ** Two complementary blocks *)
Section Two.
Variable n : nat.
Variable f : nat -> bool.
Let f' := fun i => negb (f i).
Notation Pf := (P n f).
Notation Pg := (P n f').
Notation nf := (blen n f).
Notation ng := (blen n f').

Definition mix (x y : term) : term := tabulate n (fun v => if f v then x @ (idx f v) else y @ (idx f' v)).

Lemma mix_eq : forall m, length m = n -> m = mix (Pf m) (Pg m).
Proof.
  intros m Hm. apply term_ext with n; auto; [apply tabulate_length|]. intros v Hv. unfold mix. rewrite tabulate_nth by auto.
  destruct (f v) eqn:E.
  - rewrite P_idx; auto.
  - rewrite (P_idx n f'); auto. unfold f'. rewrite E. auto.
Qed.
Lemma mix_length : forall x y, length (mix x y) = n. Proof. intros. apply tabulate_length. Qed.
Lemma mix_Pf : forall x y, length x = nf -> Pf (mix x y) = x.
Proof.
  intros x y Hx. apply term_ext with nf; [apply P_length|auto|]. intros k Hk. destruct (off_nth n f k Hk) as [A [B C]].
  rewrite P_nth by auto. unfold mix. rewrite tabulate_nth by auto. rewrite B, C. auto.
Qed.
Lemma mix_Pg : forall x y, length y = ng -> Pg (mix x y) = y.
Proof.
  intros x y Hy. apply term_ext with ng; [apply P_length|auto|]. intros k Hk. destruct (off_nth n f' k Hk) as [A [B C]].
  rewrite P_nth by auto. unfold mix. rewrite tabulate_nth by auto. rewrite C.
  assert (B' : f (nth k (off n f') 0) = false) by (apply negb_true_iff; exact B). rewrite B'. auto.
Qed.

Lemma one_side_swap : forall g, one_side n f g -> one_side n f' g.
Proof. intros g [H|H]; [right|left]; intros v Hv Hp; unfold f'; rewrite (H v Hv Hp); auto. Qed.
Lemma sided_swap : forall I, sided n f I -> sided n f' I.
Proof. intros I H g Hg. destruct (H g Hg) as [A B]. split; auto. apply one_side_swap; auto. Qed.

Lemma inI_two : forall I m, sided n f I ->
  (inI n I m <-> inI nf (PI_ n f I) (Pf m) \/ inI ng (PI_ n f' I) (Pg m)).
Proof.
  intros I m Hs. rewrite (PI_inI n f I m Hs), (PI_inI n f' I m (sided_swap I Hs)). split.
  - intros [g [Hg Hle]]. destruct (Hs g Hg) as [_ [O|O]].
    + left. exists g. auto.
    + right. exists g. split; auto. split; auto. intros v Hv Hp. unfold f'. rewrite (O v Hv Hp). auto.
  - intros [[g [A [B C]]]|[g [A [B C]]]]; exists g; auto.
Qed.

Lemma msm_two : forall I m, sided n f I -> length m = n ->
  (msm n I m <-> msm nf (PI_ n f I) (Pf m) /\ msm ng (PI_ n f' I) (Pg m)).
Proof.
  intros I m Hs Hm. unfold msm. rewrite (inI_two I m Hs). split.
  - intros [_ [A B]]. assert (A1 : ~ inI nf (PI_ n f I) (Pf m)) by tauto. assert (A2 : ~ inI ng (PI_ n f' I) (Pg m)) by tauto.
    split; (split; [apply P_length|]; split; [assumption|]).
    + intros k Hk. destruct (off_nth n f k Hk) as [C [D E]]. specialize (B _ C). apply (inI_two I _ Hs) in B.
      rewrite P_up, E in B by auto. destruct B as [B|B]; auto. exfalso. apply A2.
      rewrite P_up_other in B; auto. unfold f'. rewrite D. auto.
    + intros k Hk. destruct (off_nth n f' k Hk) as [C [D E]]. specialize (B _ C). apply (inI_two I _ Hs) in B.
      rewrite (P_up n f'), E in B by auto. destruct B as [B|B]; auto. exfalso. apply A1.
      rewrite P_up_other in B; auto. unfold f' in D. apply negb_true_iff in D. auto.
  - intros [[_ [A1 B1]] [_ [A2 B2]]]. split; auto. split; [tauto|]. intros v Hv. apply (inI_two I _ Hs).
    destruct (f v) eqn:E.
    + left. rewrite P_up by auto. apply B1. apply off_idx; auto.
    + right. assert (E' : f' v = true) by (unfold f'; rewrite E; auto). rewrite P_up by auto. apply B2. apply off_idx; auto.
Qed.

Lemma ker_two : forall I S m, sided n f I -> sided n f S -> length m = n ->
  (ker n I S m <-> ker nf (PI_ n f I) (PI_ n f S) (Pf m) /\ ker ng (PI_ n f' I) (PI_ n f' S) (Pg m)).
Proof.
  intros I S m HI HS Hm. unfold ker. rewrite (msm_two I m HI Hm), (inI_two S m HS). tauto.
Qed.

(** ** Combining the outputs of the two projections *)
Lemma inv_f : forall tmp x, length tmp = n -> length x = nf ->
  length (proj_inverse n (off n f) tmp x) = n /\ Pf (proj_inverse n (off n f) tmp x) = x /\
  Pg (proj_inverse n (off n f) tmp x) = Pg tmp.
Proof.
  intros tmp x Ht Hx. destruct (proj_inverse_spec n (off n f) tmp x) as [A [B C]]; auto.
  { apply NoDup_filter, seq_NoDup. } { intros o Ho. apply off_in in Ho. apply Ho. }
  split; auto. split.
  - apply term_ext with nf; [apply P_length|auto|]. intros k Hk. rewrite P_nth by auto. apply B; auto.
  - apply term_ext with ng; try apply P_length. intros k Hk. rewrite !P_nth by auto.
    destruct (off_nth n f' k Hk) as [D [E F]]. apply C; auto. intros Hin. apply off_in in Hin.
    destruct Hin as [_ Hin]. assert (E' : f (nth k (off n f') 0) = false) by (apply negb_true_iff; exact E). congruence.
Qed.
Lemma inv_g : forall tmp y, length tmp = n -> length y = ng ->
  length (proj_inverse n (off n f') tmp y) = n /\ Pg (proj_inverse n (off n f') tmp y) = y /\
  Pf (proj_inverse n (off n f') tmp y) = Pf tmp.
Proof.
  intros tmp y Ht Hx. destruct (proj_inverse_spec n (off n f') tmp y) as [A [B C]]; auto.
  { apply NoDup_filter, seq_NoDup. } { intros o Ho. apply off_in in Ho. apply Ho. }
  split; auto. split.
  - apply term_ext with ng; [apply P_length|auto|]. intros k Hk. rewrite P_nth by auto. apply B; auto.
  - apply term_ext with nf; try apply P_length. intros k Hk. rewrite !P_nth by auto.
    destruct (off_nth n f k Hk) as [D [E F]]. apply C; auto. intros Hin. apply off_in in Hin.
    destruct Hin as [_ Hin]. assert (E' : f (nth k (off n f) 0) = false) by (apply negb_true_iff; exact Hin). congruence.
Qed.

Lemma combine_right_spec : forall ys tmp, length tmp = n -> (forall y, In y ys -> length y = ng) ->
  fst (combine_right n (off n f') tmp ys) = map (mix (Pf tmp)) ys /\
  length (snd (combine_right n (off n f') tmp ys)) = n.
Proof.
  induction ys as [|y ys IH]; intros tmp Ht Hy; simpl; auto.
  destruct (inv_g tmp y Ht (Hy y ltac:(left; auto))) as [A [B C]].
  specialize (IH (proj_inverse n (off n f') tmp y) A ltac:(intros; apply Hy; right; auto)).
  destruct (combine_right n (off n f') (proj_inverse n (off n f') tmp y) ys) as [out tmp2]. simpl in *.
  destruct IH as [IH1 IH2]. split; auto. rewrite IH1, C. f_equal. rewrite <- B at 2. rewrite <- C. apply mix_eq; auto.
Qed.

Lemma combine_left_spec : forall xs ys tmp, length tmp = n ->
  (forall x, In x xs -> length x = nf) -> (forall y, In y ys -> length y = ng) ->
  combine_left n (off n f) (off n f') tmp xs ys = flat_map (fun x => map (mix x) ys) xs.
Proof.
  induction xs as [|x xs IH]; intros ys tmp Ht Hx Hy; simpl; auto.
  destruct (inv_f tmp x Ht (Hx x ltac:(left; auto))) as [A [B C]].
  destruct (combine_right_spec ys (proj_inverse n (off n f) tmp x) A Hy) as [D E].
  destruct (combine_right n (off n f') (proj_inverse n (off n f) tmp x) ys) as [out tmp2]. simpl in *.
  rewrite D, B. f_equal. apply IH; auto.
Qed.
End Two.

(** ** Projected slices *)
Lemma not_one_sided : forall n f I, (forall g, In g I -> one_side n f g) -> ~ inI n I (t_identity n) -> sided n f I.
Proof.
  intros n f I Ho H1 g Hg. split; auto.
  destruct (t_firstNonZero_spec n g) as [[A [B C]]|[A B]]; [exists (t_firstNonZero n g); auto|].
  exfalso. apply H1. exists g. split; auto. intros v Hv. rewrite B by auto. lia.
Qed.

Lemma proj_slice_ok1 : forall s f, slice_ok s -> s_lcm s = slcm s ->
  sided (s_n s) f (s_I s) -> sided (s_n s) f (s_S s) -> 0 < blen (s_n s) f ->
  slice_ok (sl_setToProjOf s (off (s_n s) f)).
Proof.
  intros s f Hok Hl HI HS Hn.
  constructor; cbn [sl_setToProjOf s_n s_I s_S s_q s_lcm s_upd s_hint].
  - apply PI_wf.
  - apply PI_wf.
  - apply PI_minl; auto. apply Hok.
  - apply PI_minl; auto. apply Hok.
  - apply P_length.
  - intros _. rewrite Hl. symmetry. apply PI_lcm; auto.
  - apply PI_norm; auto. apply Hok.
  - auto.
Qed.
Lemma proj_slice_ok : forall s f, slice_ok s -> full (s_n s) (slcm s) -> sndl s -> s_lcm s = slcm s ->
  sided (s_n s) f (s_I s) -> sided (s_n s) f (s_S s) -> 0 < blen (s_n s) f ->
  slice_ok (sl_setToProjOf s (off (s_n s) f)) /\ sndl (sl_setToProjOf s (off (s_n s) f)).
Proof.
  intros s f Hok Hf Hd Hl HI HS Hn. split.
  - apply proj_slice_ok1; auto.
  - apply PI_ndl; auto.
Qed.

Lemma proj_smu : forall s f, full (s_n s) (slcm s) -> sB s (t_identity (s_n s)) ->
  sided (s_n s) f (s_I s) -> sided (s_n s) f (s_S s) ->
  smu (sl_setToProjOf s (off (s_n s) f)) <= smu s.
Proof.
  intros s f Hf [_ [_ [H1 H2]]] HI HS. unfold smu, sl_setToProjOf. cbn [s_n s_I s_S]. set (n := s_n s) in *.
  apply (mu_le _ _ _ _ _ _ (ext1 n f)).
  - intros m [A [B [C D]]].
    assert (Hother : forall J, sided n f J -> ~ inI n J (t_identity n) ->
       ~ inI (blen n (fun i => negb (f i))) (PI_ n (fun i => negb (f i)) J) (P n (fun i => negb (f i)) (ext1 n f m))).
    { intros J HJ HJ1 Hc. apply (PI_inI n _ J _ (sided_swap n f J HJ)) in Hc. destruct Hc as [g [G1 [G2 G3]]].
      apply HJ1. exists g. split; auto. intros v Hv. rewrite t_identity_nth.
      destruct (Nat.eq_dec (g @ v) 0) as [Z|Z]; [lia|]. assert (Hp : negb (f v) = true) by (apply G2; auto; lia).
      specialize (G3 v Hv). unfold ext1 in G3. rewrite tabulate_nth in G3 by auto. apply negb_true_iff in Hp. rewrite Hp in G3. auto. }
    split; [apply tabulate_length|]. split; [|split].
    + intros v Hv. unfold ext1. rewrite tabulate_nth by auto. destruct (f v) eqn:E.
      * destruct (off_idx n f v Hv E) as [Q1 Q2]. specialize (B _ Q1).
        change (map (proj_project (off n f)) (filter (proj_keep n (off n f)) (s_I s))) with (PI_ n f (s_I s)) in B.
        change (length (off n f)) with (blen n f) in B. rewrite (PI_lcm n f (s_I s) HI), P_idx in B; auto.
      * apply Hf; auto.
    + intros Hc. apply (inI_two n f _ _ HI) in Hc. destruct Hc as [Hc|Hc]; [|exact (Hother _ HI H1 Hc)].
      rewrite P_ext1 in Hc by exact A. exact (C Hc).
    + intros Hc. apply (inI_two n f _ _ HS) in Hc. destruct Hc as [Hc|Hc]; [|exact (Hother _ HS H2 Hc)].
      rewrite P_ext1 in Hc by exact A. exact (D Hc).
  - intros a b [A _] [B _] E. rewrite <- (P_ext1 n f a A), <- (P_ext1 n f b B), E. auto.
Qed.

Lemma con_two : forall s f m, slice_ok s -> sided (s_n s) f (s_I s) -> sided (s_n s) f (s_S s) -> length m = s_n s ->
  (con s m <-> con (sl_setToProjOf s (off (s_n s) f)) (P (s_n s) f m) /\
     con (sl_setToProjOf s (off (s_n s) (fun i => negb (f i)))) (P (s_n s) (fun i => negb (f i)) m)).
Proof.
  intros s f m Hok HI HS Hm. unfold con, sker, sl_setToProjOf. cbn [s_n s_I s_S s_q]. set (n := s_n s) in *.
  set (f' := fun i => negb (f i)).
  change (length (off n f)) with (blen n f). change (length (off n f')) with (blen n f').
  change (map (proj_project (off n f)) (filter (proj_keep n (off n f)) (s_I s))) with (PI_ n f (s_I s)).
  change (map (proj_project (off n f)) (filter (proj_keep n (off n f)) (s_S s))) with (PI_ n f (s_S s)).
  change (map (proj_project (off n f')) (filter (proj_keep n (off n f')) (s_I s))) with (PI_ n f' (s_I s)).
  change (map (proj_project (off n f')) (filter (proj_keep n (off n f')) (s_S s))) with (PI_ n f' (s_S s)).
  change (proj_project (off n f) (s_q s)) with (P n f (s_q s)). change (proj_project (off n f') (s_q s)) with (P n f' (s_q s)).
  split.
  - intros [m' [Hk ->]]. assert (Hl : length m' = n) by apply Hk. apply (ker_two n f _ _ _ HI HS Hl) in Hk. destruct Hk as [K1 K2].
    split; eexists; (split; [eassumption|]); apply P_product.
  - intros [[m1 [K1 E1]] [m2 [K2 E2]]].
    assert (L1 : length m1 = blen n f) by apply K1. assert (L2 : length m2 = blen n f') by apply K2.
    exists (mix n f m1 m2). split.
    + apply (ker_two n f _ _ _ HI HS (mix_length n f m1 m2)). rewrite mix_Pf by auto.
      assert (Eg : P n f' (mix n f m1 m2) = m2) by (apply mix_Pg; auto). fold f'. rewrite Eg. auto.
    + rewrite (mix_eq n f m Hm). fold f'. rewrite E1, E2. apply term_ext with n; [apply mix_length|apply t_product_length|].
      intros v Hv. rewrite t_product_nth by auto. unfold mix. rewrite !tabulate_nth by auto. fold f'.
      destruct (f v) eqn:E.
      * destruct (off_idx n f v Hv E) as [Q1 Q2]. rewrite t_product_nth by auto. rewrite P_idx by auto. auto.
      * assert (E' : f' v = true) by (unfold f'; rewrite E; auto).
        destruct (off_idx n f' v Hv E') as [Q1 Q2]. rewrite t_product_nth by auto. rewrite P_idx by auto. auto.
Qed.

Lemma con_length : forall s m, con s m -> length m = s_n s.
Proof. intros s m [m' [_ ->]]. apply t_product_length. Qed.

Lemma combine_emits : forall s f xs ys, slice_ok s -> sided (s_n s) f (s_I s) -> sided (s_n s) f (s_S s) ->
  emits (sl_setToProjOf s (off (s_n s) f)) xs ->
  emits (sl_setToProjOf s (off (s_n s) (fun i => negb (f i)))) ys ->
  emits s (combine_left (s_n s) (off (s_n s) f) (off (s_n s) (fun i => negb (f i))) (t_identity (s_n s)) xs ys).
Proof.
  intros s f xs ys Hok HI HS [NX EX] [NY EY]. set (n := s_n s) in *. set (f' := fun i => negb (f i)) in *.
  assert (Lx : forall x, In x xs -> length x = blen n f).
  { intros x Hx. apply EX in Hx. apply con_length in Hx. exact Hx. }
  assert (Ly : forall y, In y ys -> length y = blen n f').
  { intros y Hy. apply EY in Hy. apply con_length in Hy. exact Hy. }
  pose proof (combine_left_spec n f xs ys (t_identity n) (t_identity_length n) Lx Ly) as E. fold f' in E. rewrite E.
  split.
  - apply NoDup_flat_map; auto.
    + intros x Hx. apply NoDup_map_inj; auto. intros y y' Hy Hy' Em.
      rewrite <- (mix_Pg n f x y (Ly y Hy)), <- (mix_Pg n f x y' (Ly y' Hy')), Em. auto.
    + intros x x' m Hx Hx' Hm Hm'. apply in_map_iff in Hm, Hm'. destruct Hm as [y [E1 _]], Hm' as [y' [E2 _]].
      rewrite <- (mix_Pf n f x y (Lx x Hx)), <- (mix_Pf n f x' y' (Lx x' Hx')). congruence.
  - intros m. rewrite in_flat_map. split.
    + intros [x [Hx Hm]]. apply in_map_iff in Hm. destruct Hm as [y [<- Hy]].
      apply (con_two s f _ Hok HI HS); [apply mix_length|]. fold n f'.
      rewrite mix_Pf by auto. assert (Eg : P n f' (mix n f x y) = y) by (apply mix_Pg; auto). rewrite Eg.
      split; [apply EX|apply EY]; auto.
    + intros Hc. assert (Hl : length m = n) by (apply con_length in Hc; exact Hc).
      apply (con_two s f m Hok HI HS Hl) in Hc. destruct Hc as [C1 C2]. fold n f' in C1, C2. apply EX in C1. apply EY in C2.
      exists (P n f m). split; auto. apply in_map_iff. exists (P n f' m). split; auto. symmetry. apply mix_eq; auto.
Qed.
