(** Proofs about rook ideals. *)
From Coq Require Import String Ascii.
From Coq Require Import List Arith Bool ZArith Lia Permutation.
Import ListNotations.
From Verif Require Import M_Term M_Ideal M_Names M_IO M_Generate P_Term P_Ideal P_Msm3 P_Generate.
From Verif Require Import Spec Spec_Api Spec_Generate.
Local Open Scope list_scope.
Local Open Scope nat_scope.
Local Notation length := List.length.

(** ** Vectors *)
Lemma put_length {A} (l : list A) : forall i x, length (put l i x) = length l.
Proof. induction l; intros [|i] x; cbn; auto. Qed.
Lemma put_nth {A} (d : A) (l : list A) : forall i x j, i < length l -> nth j (put l i x) d = if j =? i then x else nth j l d.
Proof.
  induction l as [|y l IH]; intros [|i] x [|j] H; cbn in *; try lia; auto. apply IH. lia.
Qed.
Lemma put_firstn {A} (l : list A) : forall i j x, j <= i -> firstn j (put l i x) = firstn j l.
Proof. induction l as [|y l IH]; intros [|i] [|j] x H; cbn; auto; try lia. f_equal. apply IH. lia. Qed.
Lemma firstn_last {A} (d : A) (l : list A) : forall i, i < length l -> firstn (S i) l = firstn i l ++ [nth i l d].
Proof. induction l as [|y l IH]; intros [|i] H; cbn in *; try lia; auto. f_equal. apply IH. lia. Qed.
Lemma put_map {A} (f : nat -> A) n i x : i < n -> put (map f (seq 0 n)) i x = map (fun v => if v =? i then x else f v) (seq 0 n).
Proof.
  intros H. apply nth_ext with (d := x) (d' := x); [rewrite put_length, !map_length; auto|]. intros j Hj. rewrite put_length, map_length, seq_length in Hj.
  rewrite put_nth by (now rewrite map_length, seq_length). set (h := fun v => if v =? i then x else f v).
  rewrite (nth_indep (map h _) x (h 0)) by (now rewrite map_length, seq_length). rewrite map_nth, seq_nth by auto. unfold h. cbn [Nat.add]. destruct (j =? i) eqn:E; auto.
  rewrite (nth_indep _ x (f 0)) by (now rewrite map_length, seq_length). now rewrite map_nth, seq_nth.
Qed.
Lemma map_seq_nth {A} (f : nat -> A) d n v : v < n -> nth v (map f (seq 0 n)) d = f v.
Proof. intros H. rewrite (nth_indep _ d (f 0)) by (now rewrite map_length, seq_length). now rewrite map_nth, seq_nth. Qed.
Lemma map_seq_eq {A} (f g : nat -> A) n : (forall v, v < n -> f v = g v) -> map f (seq 0 n) = map g (seq 0 n).
Proof. intros H. apply map_ext_in. intros v Hv. apply H. apply in_seq in Hv. lia. Qed.
Lemma repeat_map {A} (x : A) n : repeat x n = map (fun _ => x) (seq 0 n).
Proof. generalize 0. induction n; intros s; cbn; f_equal; auto. Qed.

Section Rook.
  Variables n k : nat.
  Definition tk (cs : list nat) : list bool := map (fun v => if in_dec Nat.eq_dec v cs then true else false) (seq 0 k).
  Definition tm (cs : list nat) : mono := map (fun v => if (v / k <? length cs) && (nth (v / k) cs 0 =? v mod k) then 1 else 0) (seq 0 (n * k)).
  Lemma tk_nth cs c : c < k -> nth c (tk cs) false = if in_dec Nat.eq_dec c cs then true else false.
  Proof. intros H. unfold tk. now rewrite map_seq_nth. Qed.
  Lemma tk_take cs c : c < k -> put (tk cs) c true = tk (cs ++ [c]).
  Proof.
    intros H. unfold tk. rewrite put_map by auto. apply map_seq_eq. intros v _. destruct (Nat.eqb_spec v c), (in_dec Nat.eq_dec v cs), (in_dec Nat.eq_dec v (cs ++ [c])) as [I|I]; auto;
      rewrite in_app_iff in I; cbn in I; intuition congruence.
  Qed.
  Lemma tk_drop cs c : c < k -> ~ In c cs -> put (tk (cs ++ [c])) c false = tk cs.
  Proof.
    intros H N. unfold tk. rewrite put_map by auto. apply map_seq_eq. intros v _. destruct (Nat.eqb_spec v c), (in_dec Nat.eq_dec v cs), (in_dec Nat.eq_dec v (cs ++ [c])) as [I|I]; auto;
      try rewrite in_app_iff in I; cbn in I; subst; intuition congruence.
  Qed.
  Lemma cell v r c : c < k -> (v = r * k + c <-> v / k = r /\ v mod k = c).
  Proof.
    intros H. split.
    - intros ->. rewrite Nat.div_add_l, Nat.div_small by lia. rewrite (Nat.add_comm (r * k)), Nat.mod_add, Nat.mod_small by lia. lia.
    - intros [<- <-]. rewrite (Nat.div_mod v k) at 1 by lia. lia.
  Qed.
  Lemma tm_put cs c : c < k -> length cs < n -> put (tm cs) (length cs * k + c) 1 = tm (cs ++ [c]) /\ put (tm (cs ++ [c])) (length cs * k + c) 0 = tm cs.
  Proof.
    intros H L. unfold tm. rewrite !put_map by (apply position_lt; auto). rewrite app_length. cbn [length].
    split; apply map_seq_eq; intros v Hv; (destruct (Nat.eqb_spec v (length cs * k + c)) as [E|E]; rewrite cell in E by auto).
    - destruct E as [-> ->]. rewrite app_nth2, Nat.sub_diag by lia. cbn [nth]. rewrite Nat.eqb_refl. destruct (Nat.ltb_spec (length cs) (length cs + 1)); [reflexivity|lia].
    - destruct (Nat.ltb_spec (v / k) (length cs)).
      + rewrite app_nth1 by auto. destruct (Nat.ltb_spec (v / k) (length cs + 1)); [reflexivity|lia].
      + destruct (Nat.ltb_spec (v / k) (length cs + 1)); [|reflexivity]. assert (v / k = length cs) by lia. rewrite app_nth2, H2, Nat.sub_diag by lia. cbn [nth].
        destruct (Nat.eqb_spec c (v mod k)); [|reflexivity]. exfalso. apply E. auto.
    - destruct E as [-> ->]. rewrite Nat.ltb_irrefl. reflexivity.
    - destruct (Nat.ltb_spec (v / k) (length cs)).
      + rewrite app_nth1 by auto. destruct (Nat.ltb_spec (v / k) (length cs + 1)); [reflexivity|lia].
      + destruct (Nat.ltb_spec (v / k) (length cs + 1)); [|reflexivity]. assert (v / k = length cs) by lia. rewrite app_nth2, H2, Nat.sub_diag by lia. cbn [nth].
        destruct (Nat.eqb_spec c (v mod k)); [|reflexivity]. exfalso. apply E. auto.
  Qed.
  (** the ways to go on after the choices [cs] *)
  Fixpoint paths (d : nat) (cs : list nat) : list (list nat) :=
    match d with
    | 0 => [cs]
    | S d' => flat_map (fun c => if in_dec Nat.eq_dec c cs then [] else paths d' (cs ++ [c])) (seq 0 k)
    end.
  Definition from (d : nat) (cs : list nat) (c j : nat) : list (list nat) := flat_map (fun c => if in_dec Nat.eq_dec c cs then [] else paths d (cs ++ [c])) (seq c j).
  Lemma rook_run : forall d j c cs choice I, length cs + S d = n -> c + j = k -> length choice = n -> firstn (length cs) choice = cs -> nth (length cs) choice 0 = c ->
    exists steps choice', length choice' = n /\ firstn (length cs) choice' = cs /\ nth (length cs) choice' 0 = k /\
      forall fuel, rook_loop (steps + fuel) n k choice (tk cs) (tm cs) (length cs) I = rook_loop fuel n k choice' (tk cs) (tm cs) (length cs) (I ++ map tm (from d cs c j)).
  Proof.
    induction d as [|d IHd]; induction j as [|j IHj]; intros c cs choice I E1 E2 Lc F N.
    1, 3: exists 0, choice; repeat split; auto; [lia|]; intros fuel; cbn [from seq flat_map map]; unfold from; cbn; now rewrite app_nil_r.
    - assert (Hc : c < k) by lia. destruct (in_dec Nat.eq_dec c cs) as [Y|Y].
      + destruct (IHj (S c) cs (put choice (length cs) (c + 1)) I) as (steps & choice' & A1 & A2 & A3 & A4); auto; try lia.
        { now rewrite put_length. } { rewrite put_firstn; auto. } { rewrite put_nth, Nat.eqb_refl by lia. lia. }
        exists (S steps), choice'. repeat split; auto. intros fuel. cbn [Nat.add rook_loop]. rewrite N. destruct (Nat.eqb_spec c k); [lia|]. rewrite tk_nth by auto.
        destruct (in_dec Nat.eq_dec c cs); [|tauto]. rewrite A4. unfold from. cbn [seq flat_map]. destruct (in_dec Nat.eq_dec c cs); [reflexivity|tauto].
      + destruct (tm_put cs c Hc ltac:(lia)) as [T1 T2].
        destruct (IHj (S c) cs (put choice (length cs) (c + 1)) (I ++ [tm (cs ++ [c])])) as (steps & choice' & A1 & A2 & A3 & A4); auto; try lia.
        { now rewrite put_length. } { rewrite put_firstn; auto. } { rewrite put_nth, Nat.eqb_refl by lia. lia. }
        exists (S steps), choice'. repeat split; auto. intros fuel. cbn [Nat.add rook_loop]. rewrite N. destruct (Nat.eqb_spec c k); [lia|]. rewrite tk_nth by auto.
        destruct (in_dec Nat.eq_dec c cs); [tauto|]. destruct (Nat.ltb_spec (length cs) (n - 1)); [lia|]. rewrite T1, T2, tk_take, tk_drop by auto. unfold i_insert. rewrite A4.
        unfold from. cbn [seq flat_map]. destruct (in_dec Nat.eq_dec c cs); [tauto|]. cbn [paths app map]. now rewrite <- app_assoc.
    - assert (Hc : c < k) by lia. destruct (in_dec Nat.eq_dec c cs) as [Y|Y].
      + destruct (IHj (S c) cs (put choice (length cs) (c + 1)) I) as (steps & choice' & A1 & A2 & A3 & A4); auto; try lia.
        { now rewrite put_length. } { rewrite put_firstn; auto. } { rewrite put_nth, Nat.eqb_refl by lia. lia. }
        exists (S steps), choice'. repeat split; auto. intros fuel. cbn [Nat.add rook_loop]. rewrite N. destruct (Nat.eqb_spec c k); [lia|]. rewrite tk_nth by auto.
        destruct (in_dec Nat.eq_dec c cs); [|tauto]. rewrite A4. unfold from. cbn [seq flat_map]. destruct (in_dec Nat.eq_dec c cs); [reflexivity|tauto].
      + destruct (tm_put cs c Hc ltac:(lia)) as [T1 T2].
        assert (L1 : length (cs ++ [c]) = S (length cs)) by (rewrite app_length; cbn; lia).
        destruct (IHd k 0 (cs ++ [c]) (put choice (S (length cs)) 0) I) as (steps1 & choice1 & B1 & B2 & B3 & B4); rewrite ?L1; auto; try lia.
        { now rewrite put_length. } { rewrite put_firstn by lia. rewrite (firstn_last 0) by lia. now rewrite F, N. } { rewrite put_nth, Nat.eqb_refl by lia. auto. }
        rewrite L1 in B2, B3, B4. rewrite (firstn_last 0) in B2 by lia. apply app_inj_tail in B2. destruct B2 as [B2 B2'].
        destruct (IHj (S c) cs (put choice1 (length cs) (c + 1)) (I ++ map tm (from d (cs ++ [c]) 0 k))) as (steps & choice' & A1 & A2 & A3 & A4); auto; try lia.
        { now rewrite put_length. } { rewrite put_firstn; auto. } { rewrite put_nth, Nat.eqb_refl by lia. lia. }
        exists (S (steps1 + S steps)), choice'. repeat split; auto. intros fuel. cbn [Nat.add rook_loop]. rewrite N. destruct (Nat.eqb_spec c k); [lia|]. rewrite tk_nth by auto.
        destruct (in_dec Nat.eq_dec c cs); [tauto|]. destruct (Nat.ltb_spec (length cs) (n - 1)); [|lia]. rewrite T1, tk_take by auto. rewrite <- Nat.add_assoc, B4. cbn [Nat.add rook_loop].
        rewrite B3, Nat.eqb_refl, B2', T2, tk_drop by auto. rewrite A4. f_equal. rewrite <- app_assoc. f_equal. rewrite <- map_app. f_equal. unfold from at 3. cbn [seq flat_map].
        destruct (in_dec Nat.eq_dec c cs); [tauto|]. reflexivity.
  Qed.
  Lemma paths_in : forall d cs p, In p (paths d cs) <-> exists l, length l = d /\ (forall c, In c l -> c < k) /\ NoDup l /\ (forall c, In c l -> ~ In c cs) /\ p = cs ++ l.
  Proof.
    induction d as [|d IH]; intros cs p; cbn [paths].
    - cbn. split; [intros [<-|[]]; exists []; rewrite app_nil_r; repeat split; auto; try constructor; intros c []|]. intros ([|] & L & _ & _ & _ & ->); [now rewrite app_nil_r; auto|discriminate].
    - rewrite in_flat_map. split.
      + intros (c & Hc & H). apply in_seq in Hc. destruct (in_dec Nat.eq_dec c cs) as [|N]; [destruct H|]. apply IH in H. destruct H as (l & L & B & ND & O & ->).
        exists (c :: l). cbn [length]. split; [lia|]. split; [intros x [<-|Hx]; [lia|auto]|]. split; [constructor; auto; intros Hx; apply (O c Hx); apply in_app_iff; cbn; auto|].
        split; [|now rewrite <- app_assoc]. intros x [<-|Hx]; auto. intros Hx'. apply (O x Hx). apply in_app_iff. auto.
      + intros ([|c l] & L & B & ND & O & ->); [discriminate|]. inversion ND as [|? ? NI ND']; subst. exists c. split; [apply in_seq; specialize (B c (or_introl eq_refl)); lia|].
        destruct (in_dec Nat.eq_dec c cs) as [Y|_]; [exfalso; apply (O c (or_introl eq_refl) Y)|]. apply IH. exists l. cbn in L. split; [lia|]. split; [intros x Hx; apply B; cbn; auto|]. split; auto.
        split; [|now rewrite <- app_assoc]. intros x Hx H. apply in_app_iff in H. destruct H as [H|[<-|[]]]; [apply (O x); cbn; auto|tauto].
  Qed.
  Lemma paths_nodup : forall d cs, NoDup (paths d cs).
  Proof.
    induction d as [|d IH]; intros cs; cbn [paths]; [repeat constructor; intros []|]. apply NoDup_flat_map; [apply seq_NoDup| |].
    - intros c _. destruct (in_dec Nat.eq_dec c cs); [constructor|apply IH].
    - intros c c' p _ _ H H'. destruct (in_dec Nat.eq_dec c cs); [destruct H|]. destruct (in_dec Nat.eq_dec c' cs); [destruct H'|]. apply paths_in in H, H'.
      destruct H as (l & _ & _ & _ & _ & ->), H' as (l' & _ & _ & _ & _ & E). rewrite <- !app_assoc in E. apply app_inv_head in E. cbn in E. congruence.
  Qed.
  Lemma tm_length cs : length (tm cs) = n * k. Proof. unfold tm. now rewrite map_length, seq_length. Qed.
  Lemma tm_nth cs r c : length cs = n -> r < n -> c < k -> nth (r * k + c) (tm cs) 0 = if nth r cs 0 =? c then 1 else 0.
  Proof.
    intros L Hr Hc. unfold tm. rewrite map_seq_nth by (apply position_lt; auto). destruct (proj1 (cell (r * k + c) r c Hc) eq_refl) as [-> ->].
    destruct (Nat.ltb_spec r (length cs)); [reflexivity|lia].
  Qed.
  Lemma tm_divs p q : length p = n -> length q = n -> (forall c, In c p -> c < k) -> divs (tm p) (tm q) -> p = q.
  Proof.
    intros L L' B D. apply nth_ext with (d := 0) (d' := 0); [lia|]. intros r Hr. assert (C : nth r p 0 < k) by (apply B, nth_In; auto).
    pose proof (divs_nth _ _ (r * k + nth r p 0) D) as H. rewrite !tm_nth in H by (auto; lia). rewrite Nat.eqb_refl in H. destruct (Nat.eqb_spec (nth r q 0) (nth r p 0)); [auto|lia].
  Qed.
  Lemma rook_is m : rook_generator n k m <-> exists p, In p (paths n []) /\ m = tm p.
  Proof.
    split.
    - intros (f & B & J & P). set (p := map f (seq 0 n)). assert (Lp : length p = n) by (unfold p; now rewrite map_length, seq_length).
      assert (Np : forall r, r < n -> nth r p 0 = f r) by (intros r Hr; unfold p; now apply map_seq_nth).
      exists p. split.
      + apply paths_in. exists p. split; auto. split; [intros c Hc; apply in_map_iff in Hc; destruct Hc as (r & <- & Hr); apply in_seq in Hr; apply B; lia|].
        split; [|split; [intros c _ []|reflexivity]]. apply NoDup_map_inj; [apply seq_NoDup|]. intros r r' Hr Hr'. apply in_seq in Hr, Hr'. apply J; lia.
      + destruct P as [L P]. apply term_ext with (n * k); [auto|apply tm_length|]. intros v Hv. destruct (P v Hv) as [P1 P2]. assert (Hk : 0 < k) by nia.
        assert (E : v = (v / k) * k + v mod k) by (apply cell; auto; apply Nat.mod_upper_bound; lia). assert (Hr : v / k < n) by (apply Nat.div_lt_upper_bound; lia).
        assert (Hc : v mod k < k) by (apply Nat.mod_upper_bound; lia). rewrite E at 2. rewrite tm_nth by auto. rewrite Np by auto. destruct (Nat.eqb_spec (f (v / k)) (v mod k)) as [Q|Q].
        * apply P1. exists (v / k). split; auto. now rewrite Q.
        * apply P2. intros (r & Hr' & H). apply (cell v r (f r)) in H; [|auto]. destruct H as [<- H]. auto.
    - intros (p & Hp & ->). apply paths_in in Hp. destruct Hp as (l & L & B & ND & _ & ->). cbn [app]. exists (fun r => nth r l 0). split; [|split].
      + intros r Hr. apply B, nth_In. lia.
      + intros r r' Hr Hr' E. apply (proj1 (NoDup_nth l 0) ND); auto; lia.
      + split; [apply tm_length|]. intros v Hv. assert (Hk : 0 < k) by nia. assert (E : v = (v / k) * k + v mod k) by (apply cell; auto; apply Nat.mod_upper_bound; lia).
        assert (Hr : v / k < n) by (apply Nat.div_lt_upper_bound; lia). assert (Hc : v mod k < k) by (apply Nat.mod_upper_bound; lia).
        assert (T : nth v (tm l) 0 = if nth (v / k) l 0 =? v mod k then 1 else 0) by (rewrite E at 1; apply tm_nth; auto). rewrite T. destruct (Nat.eqb_spec (nth (v / k) l 0) (v mod k)) as [Q|Q]; split; auto; intros H; exfalso.
        * apply H. exists (v / k). split; auto. now rewrite Q.
        * destruct H as (r & Hr' & H). apply (cell v r (nth r l 0)) in H; [|apply B, nth_In; lia]. destruct H as [<- H]. auto.
  Qed.
  Lemma rook_all : 1 <= n -> exists enough, forall fuel, enough <= fuel -> rook_loop fuel n k (repeat 0 n) (repeat false k) (repeat 0 (n * k)) 0 [] = Ok (map tm (paths n [])).
  Proof.
    intros Hn. destruct n as [|n'] eqn:En; [lia|]. rewrite <- En in *.
    destruct (rook_run n' k 0 [] (repeat 0 n) []) as (steps & choice' & A1 & A2 & A3 & A4); cbn [length]; try lia; auto.
    { apply repeat_length. } { rewrite En. reflexivity. }
    exists (S steps). intros fuel F. replace fuel with (steps + S (fuel - S steps)) by lia.
    replace (repeat false k) with (tk []) by (rewrite repeat_map; reflexivity).
    replace (repeat 0 (n * k)) with (tm []). 2: { rewrite repeat_map. unfold tm. apply map_seq_eq. intros v _. reflexivity. }
    specialize (A4 (S (fuel - S steps))). cbn [length] in A3, A4. rewrite A4. cbn [rook_loop]. rewrite A3, Nat.eqb_refl. cbn [app].
    assert (Q : paths n [] = from n' [] 0 k) by (rewrite En; reflexivity). now rewrite Q.
  Qed.
End Rook.

Lemma p_rook n k : 1 <= n <= 1000 -> 1 <= k <= 1000 -> exists gens,
  (exists enough, forall fuel, enough <= fuel -> generateRookChessIdeal fuel n k = Ok (x_names (n * k), map znat gens)) /\
  exactly (rook_generator (Nat.min n k) (Nat.max n k)) gens /\ lists_minimal_generators (n * k) gens gens.
Proof.
  intros Hn Hk. remember (Nat.min n k) as a eqn:Ha. remember (Nat.max n k) as b eqn:Hb. assert (Eab : a * b = n * k) by nia. exists (map (tm a b) (paths b a [])).
  assert (E : exactly (rook_generator a b) (map (tm a b) (paths b a []))).
  { split.
    - apply NoDup_map_inj; [apply paths_nodup|]. intros p q Hp Hq H. apply paths_in in Hp, Hq. destruct Hp as (l & L & B & _ & _ & ->), Hq as (l' & L' & B' & _ & _ & ->). cbn [app] in *.
      apply (tm_divs a b); auto. rewrite H. apply divs_refl'.
    - intros m. rewrite rook_is, in_map_iff. split; intros (p & A & B); exists p; auto. }
  split; [|split; auto].
  - destruct (rook_all a b ltac:(lia)) as (enough & R). exists enough. intros fuel F. unfold generateRookChessIdeal.
    destruct (Nat.eqb_spec n 0); [lia|]. destruct (Nat.eqb_spec k 0); [lia|]. cbn [orb]. destruct (Z.ltb_spec 1000 (Z.of_nat n)); [lia|]. destruct (Z.ltb_spec 1000 (Z.of_nat k)); [lia|]. cbn [orb].
    destruct (Nat.ltb_spec k n).
    + assert (A : k = a) by lia. assert (B : n = b) by lia. rewrite <- Eab, A, B, R by auto. reflexivity.
    + assert (A : n = a) by lia. assert (B : k = b) by lia. rewrite <- Eab, A, B, R by auto. reflexivity.
  - apply g_minimal; [|apply E|].
    + eapply g_ring_exactly; [exact E|]. intros m (f & _ & _ & P & _). now rewrite P.
    + intros x y Hx Hy D. apply in_map_iff in Hx, Hy. destruct Hx as (p & <- & Hp), Hy as (q & <- & Hq). f_equal. apply paths_in in Hp, Hq.
      destruct Hp as (l & L & B & _ & _ & ->), Hq as (l' & L' & B' & _ & _ & ->). cbn [app] in *. apply (tm_divs a b); auto.
Qed.
Lemma p_rook_errors fuel n k : n = 0 \/ k = 0 \/ 1000 < n \/ 1000 < k -> generateRookChessIdeal fuel n k = OtherError.
Proof.
  intros H. unfold generateRookChessIdeal. destruct (Nat.eqb_spec n 0); auto. destruct (Nat.eqb_spec k 0); [rewrite orb_true_r; auto|]. cbn [orb].
  destruct (Z.ltb_spec 1000 (Z.of_nat n)); auto. destruct (Z.ltb_spec 1000 (Z.of_nat k)); auto. lia.
Qed.
