(** The theorem about intersect. *)
From Coq Require Import List Arith Bool ZArith Lia Ascii Sorted Permutation.
Import ListNotations.
From Verif Require Import Spec M_Term M_Ideal M_Api M_Names Spec_Names M_Intersect Spec_Intersect P_Term P_Ideal P_Corner P_Translator P_Names P_Names2 P_Intersect P_Intersect2.

Lemma over_le names nm g (m : str -> nat) : NoDup names -> NoDup nm -> (forall s, In s nm -> In s names) ->
  ((forall v, v < length names -> nth v (over names nm g) 0 <= m (nth v names [])) <-> forall i, i < length nm -> nth i g 0 <= m (nth i nm [])).
Proof.
  intros N1 N2 Sub. split; intros H.
  - intros i L. destruct (name_index_some (nth i nm []) names N1) as [v [A [B _]]]; [apply Sub, nth_In; auto|]. specialize (H v A). rewrite over_nth, B, name_index_nth in H by auto. auto.
  - intros v L. rewrite over_nth by auto. destruct (in_dec str_dec (nth v names []) nm) as [I|I].
    + destruct (name_index_some _ nm N2 I) as [i [A [B ->]]]. rewrite <- B. auto.
    + rewrite name_index_none by auto. lia.
Qed.
Lemma shrink_zero n C v : v < n -> shrinkExponent (tr_initialize n C) v 0 = 0.
Proof.
  intros Hv. assert (I : In 0 (U C v)) by (apply U_in; auto). destruct (shrink_spec n C v 0 Hv I) as [A B]. pose proof (phi_embedding n C) as E.
  apply (emb_inj n (K C) (phi C) v); auto; [destruct (E v Hv); auto|]. destruct (E v Hv) as [_ [-> _]]. auto.
Qed.
Lemma insert_ok n C : forall r, below n (K C) r -> insert_translated n (tr_initialize n C) r = Some (map (image n (phi C)) r).
Proof.
  induction r as [|g r IH]; intros B; cbn [insert_translated map]; auto.
  rewrite (translate_spec n _ g (fun v => Z.of_nat (phi C v (nth v g 0)))).
  - cbn [bind]. rewrite IH by (intros x v Hx Hv; apply B; auto; right; auto). cbn [bind]. do 2 f_equal. rewrite of_nat_tabulate, map_map. unfold image. erewrite map_ext; [apply map_id|]. intros x. apply Nat2Z.id.
  - intros v Hv. rewrite getExponent_eq by auto. assert (nth v g 0 < K C v) by (apply B; auto; left; auto). destruct (Nat.ltb_spec (nth v g 0) (K C v)); [auto|lia].
Qed.
Lemma image_minl n K ph r : embedding n K ph -> wf n r -> below n K r -> minl n r -> minl n (map (image n ph) r).
Proof.
  intros E W B [N M]. assert (L : forall g h, In g r -> In h r -> le_n n (image n ph g) (image n ph h) -> g = h).
  { intros g h Hg Hh L. apply M; auto. intros v Hv. specialize (L v Hv). rewrite !image_nth in L by auto. apply (emb_le n K ph v (nth v g 0) (nth v h 0) E Hv (B g v Hg Hv) (B h v Hh Hv)). exact L. }
  split.
  - assert (G : forall l, incl l r -> NoDup l -> NoDup (map (image n ph) l)); [|apply G; auto; apply incl_refl]. induction l as [|x l IH]; intros I D; cbn [map]; [constructor|]. inversion D; subst. constructor.
    + intros X. apply in_map_iff in X as [y [Ey Hy]]. assert (x = y); [|congruence]. apply L; [apply I; left; auto | apply I; right; auto |]. rewrite Ey. apply le_n_refl.
    + apply IH; auto. intros z Hz. apply I. right. auto.
  - intros x y Hx Hy H. apply in_map_iff in Hx as [g [<- Hg]]. apply in_map_iff in Hy as [h [<- Hh]]. f_equal. apply L; auto.
Qed.
Theorem p_intersect ideals emptyNames : Forall good_named ideals -> NoDup emptyNames ->
  exists names B, intersect_ideals ideals emptyNames = Some (names, B) /\ good_named (names, B) /\
    (ideals = [] -> names = emptyNames) /\
    (ideals <> [] -> ascending names /\ forall s, In s names <-> exists J, In J ideals /\ In s (fst J)) /\
    (forall m, in_named (names, B) m <-> Forall (fun J => in_named J m) ideals) /\
    lists_minimal_generators (length names) B B.
Proof.
  intros G Ne. destruct ideals as [|J0 ideals0].
  - cbn [intersect_ideals]. exists emptyNames, [repeat 0 (length emptyNames)]. split; auto. assert (W : wf (length emptyNames) [repeat 0 (length emptyNames)]) by (intros g [<-|[]]; apply repeat_length).
    split; [split; auto; repeat constructor; cbn; apply repeat_length|]. split; auto. split; [congruence|]. split.
    + intros m. split; [constructor|]. intros _. exists (repeat 0 (length emptyNames)). split; [left; auto|]. intros i L. rewrite nth_repeat. lia.
    + apply minl_lists_minimal; auto; [|intros x; reflexivity]. split; [repeat constructor; intros [] | intros x y [<-|[]] [<-|[]] _; auto].
  - set (ideals := J0 :: ideals0) in *. destruct (union_spec ideals) as [As Iu]. set (names := union_names ideals) in *. set (n := length names). pose proof (ascending_nodup names As) as Nn.
    set (C := concat (map (over_all names) ideals)). rewrite Forall_forall in G.
    assert (Q : intersect_ideals ideals emptyNames = bind (mapO (shrink_named names (tr_initialize n C)) ideals) (fun ideals2 =>
      let intersection := fold_left (fun a b => intersect n a (i_minimize n b)) ideals2 [t_identity n] in
      bind (insert_translated n (tr_initialize n C) intersection) (fun r => Some (names, r)))).
    { change (intersect_ideals ideals emptyNames) with (let tr := tr_initialize_all names ideals in bind (mapO (shrink_named names tr) ideals) (fun ideals2 =>
        let intersection := fold_left (fun a b => intersect n a (i_minimize n b)) ideals2 [t_identity n] in bind (insert_translated n tr intersection) (fun r => Some (names, r)))). now rewrite tables_eq. }
    rewrite Q. clear Q. set (sh := fun J => shrinkBigIdeal n (tr_initialize n C) (over_all names J)).
    assert (Sub : forall J s, In J ideals -> In s (fst J) -> In s names) by (intros J s HJ Hs; apply Iu; eauto).
    rewrite (mapO_some _ sh).
    2:{ apply Forall_forall. intros [nm I] HJ. destruct (G _ HJ) as [Nm _]. apply shrink_named_ok; auto; [intros s Hs; apply (Sub (nm, I)); auto | apply shrink_zero]. }
    cbn [bind]. pose proof (phi_embedding n C) as E.
    assert (InC : forall J g v, In J ideals -> In g (snd J) -> In (nth v (over names (fst J) g) 0) (U C v)).
    { intros J g v HJ Hg. apply U_in. right. exists (over names (fst J) g). split; auto. apply in_concat. exists (over_all names J). split; [now apply in_map|]. unfold over_all. now apply in_map. }
    assert (F : Forall (fine n (K C)) (map sh ideals)).
    { apply Forall_forall. intros x Hx. apply in_map_iff in Hx as [J [<- HJ]]. split.
      - intros g Hg. unfold sh, shrinkBigIdeal in Hg. apply in_map_iff in Hg as [h [<- _]]. apply tabulate_length.
      - intros g v Hg Hv. unfold sh, shrinkBigIdeal, over_all in Hg. rewrite map_map in Hg. apply in_map_iff in Hg as [h [<- Hh]]. rewrite tabulate_nth by auto. apply shrink_spec; auto. }
    destruct (identity_fine n (K C) (phi C) E) as [F0 [M0 E0]]. destruct (fold_meet n (K C) (phi C) E (map sh ideals) [t_identity n] F0 M0 F) as [[Wr Br] [Mr Er]].
    cbv zeta. set (r := fold_left _ _ _) in *. rewrite insert_ok by auto. cbn [bind]. exists names, (map (image n (phi C)) r). split; auto.
    assert (Wi : wf n (map (image n (phi C)) r)) by (intros g Hg; apply in_map_iff in Hg as [h [<- _]]; apply tabulate_length).
    split; [split; [auto|apply Forall_forall; exact Wi]|]. split; [discriminate|]. split; [split; auto|]. split.
    + intros m. transitivity (inP n (phi C) r (fun v => m (nth v names []))).
      * split.
        -- intros [g [Hg H]]. cbn [fst snd] in *. apply in_map_iff in Hg as [h [<- Hh]]. exists h. split; auto. intros v Hv. specialize (H v Hv). now rewrite image_nth in H.
        -- intros [h [Hh H]]. exists (image n (phi C) h). cbn [fst snd]. split; [now apply in_map|]. intros v Hv. rewrite image_nth by auto. auto.
      * rewrite Er. transitivity (Forall (fun J => inP n (phi C) J (fun v => m (nth v names []))) (map sh ideals)); [split; [tauto | intros H; split; auto]|]. rewrite Forall_map.
        assert (One : forall J, In J ideals -> (inP n (phi C) (sh J) (fun v => m (nth v names [])) <-> in_named J m)).
        { intros J HJ. destruct (G _ HJ) as [Nm _]. split.
          - intros [x [Hx H]]. unfold sh, shrinkBigIdeal, over_all in Hx. rewrite map_map in Hx. apply in_map_iff in Hx as [g [<- Hg]]. exists g. split; auto. apply (over_le names); auto; [intros s Hs; now apply (Sub J)|].
            intros v Hv. specialize (H v Hv). rewrite tabulate_nth in H by auto. destruct (shrink_spec n C v _ Hv (InC J g v HJ Hg)) as [_ P]. etransitivity; [apply Nat.eq_le_incl; symmetry; exact P | exact H].
          - intros [g [Hg H]]. exists (tabulate n (fun v => shrinkExponent (tr_initialize n C) v (nth v (over names (fst J) g) 0))). split.
            + unfold sh, shrinkBigIdeal, over_all. rewrite map_map. apply in_map_iff. exists g. auto.
            + intros v Hv. rewrite tabulate_nth by auto. destruct (shrink_spec n C v _ Hv (InC J g v HJ Hg)) as [_ P]. etransitivity; [apply Nat.eq_le_incl; exact P|]. apply (over_le names (fst J)); auto. intros s Hs. now apply (Sub J). }
        rewrite !Forall_forall. split; intros H J HJ; apply One; auto.
    + apply minl_lists_minimal; auto; [|intros x; reflexivity]. apply (image_minl n (K C)); auto.
Qed.
