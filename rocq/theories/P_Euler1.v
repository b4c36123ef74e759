(** Terms as lists of booleans, and the sum that the algorithm computes. *)
From Coq Require Import List Arith Bool ZArith Lia Permutation.
Import ListNotations.
From Verif Require Import M_Euler Spec_Euler.

Lemma zip_length f a : forall b, length a = length b -> length (e_zip f a b) = length a.
Proof. induction a as [|x a IH]; intros [|y b] H; cbn in *; try lia. rewrite IH; lia. Qed.
Lemma get_zip f a : f false false = false -> forall b v, length a = length b -> e_get (e_zip f a b) v = f (e_get a v) (e_get b v).
Proof.
  intros F. induction a as [|x a IH]; intros [|y b] v H; cbn in H; try lia.
  - unfold e_get; destruct v; cbn; now rewrite F.
  - destruct v; [reflexivity|]. unfold e_get in *. cbn. apply IH. lia.
Qed.
Lemma get_lcm a b v : length a = length b -> e_get (e_lcm a b) v = e_get a v || e_get b v.
Proof. now apply get_zip. Qed.
Lemma get_gcd a b v : length a = length b -> e_get (e_gcd a b) v = e_get a v && e_get b v.
Proof. now apply get_zip. Qed.
Lemma get_colon a b v : length a = length b -> e_get (e_colon a b) v = e_get a v && negb (e_get b v).
Proof. now apply (get_zip (fun x y => x && negb y)). Qed.
Lemma get_out t v : length t <= v -> e_get t v = false.
Proof. intros. now apply nth_overflow. Qed.
Lemma get_lt t v : e_get t v = true -> v < length t.
Proof. intros H. destruct (Nat.lt_ge_cases v (length t)); auto. rewrite get_out in H; congruence. Qed.
Lemma get_ext a b : length a = length b -> (forall v, v < length a -> e_get a v = e_get b v) -> a = b.
Proof. intros L H. apply (nth_ext _ _ false false L). exact H. Qed.
Lemma divides_iff a b : length a = length b -> (e_divides a b = true <-> forall v, e_get a v = true -> e_get b v = true).
Proof.
  revert b. induction a as [|x a IH]; intros [|y b] H; cbn in H; try lia.
  - split; intros; auto. 
  - unfold e_divides in *. cbn. rewrite andb_true_iff, IH by lia. split.
    + intros [A B] [|v]; cbn; [destruct x, y; cbn in *; auto|apply B].
    + intros B. split; [specialize (B 0); cbn in B; destruct x, y; cbn; auto|intros v; apply (B (S v))].
Qed.
Lemma prime_iff a b : length a = length b -> (e_prime a b = true <-> forall v, e_get a v = true -> e_get b v = false).
Proof.
  revert b. induction a as [|x a IH]; intros [|y b] H; cbn in H; try lia.
  - split; intros; auto. now destruct v.
  - unfold e_prime in *. cbn. rewrite andb_true_iff, IH by lia. split.
    + intros [A B] [|v]; cbn; [destruct x, y; cbn in *; auto|apply B].
    + intros B. split; [specialize (B 0); cbn in B; destruct x, y; cbn; auto|intros v; apply (B (S v))]. cbn in B. now discriminate B.
Qed.
Lemma full_iff t : e_full t = true <-> forall v, v < length t -> e_get t v = true.
Proof.
  unfold e_full. rewrite forallb_forall. split.
  - intros H v L. apply H. now apply nth_In.
  - intros H x I. apply (In_nth _ _ false) in I as [v [L E]]. subst x. now apply H.
Qed.
Lemma set_length t : forall v b, length (e_set t v b) = length t.
Proof. induction t; intros [|v] b; cbn; auto. Qed.
Lemma get_set t : forall v b u, v < length t -> e_get (e_set t v b) u = if u =? v then b else e_get t u.
Proof. induction t as [|x t IH]; intros [|v] b u H; cbn in H; try lia; destruct u; try reflexivity. exact (IH v b u ltac:(lia)). Qed.
Lemma get_set_false t : forall v u, e_get (e_set t v false) u = if u =? v then false else e_get t u.
Proof.
  intros v u. destruct (Nat.lt_ge_cases v (length t)) as [L|L]; [now apply get_set|].
  assert (e_set t v false = t) as ->.
  { revert v L. clear. induction t; intros [|v] L; cbn in *; auto; try lia. f_equal. apply IHt. lia. }
  destruct (Nat.eqb_spec u v); auto. subst. now apply get_out.
Qed.
Lemma one_length n : length (e_one n) = n. Proof. apply repeat_length. Qed.
Lemma all_length n : length (e_all n) = n. Proof. apply repeat_length. Qed.
Lemma get_one n v : e_get (e_one n) v = false.
Proof. unfold e_get, e_one. apply nth_repeat. Qed.
Lemma get_all n v : v < n -> e_get (e_all n) v = true.
Proof.
  unfold e_get, e_all. revert v. induction n; intros [|v] H; cbn; try lia; auto. apply IHn. lia.
Qed.
Lemma colon_length a b : length a = length b -> length (e_colon a b) = length a. Proof. apply zip_length. Qed.
Lemma lcm_length a b : length a = length b -> length (e_lcm a b) = length a. Proof. apply zip_length. Qed.
Lemma gcd_length a b : length a = length b -> length (e_gcd a b) = length a. Proof. apply zip_length. Qed.

(** ** Sizes *)
Lemma size_cons x t : e_size (x :: t) = (if x then 1 else 0) + e_size t.
Proof. unfold e_size. cbn. now destruct x. Qed.
Lemma size_le t : e_size t <= length t.
Proof. induction t as [|x t IH]; [auto|]. rewrite size_cons. cbn. destruct x; lia. Qed.
Lemma size_mono a : forall b, length a = length b -> (forall v, e_get a v = true -> e_get b v = true) -> e_size a <= e_size b.
Proof.
  induction a as [|x a IH]; intros [|y b] L H; cbn in L; try lia. rewrite !size_cons.
  assert (e_size a <= e_size b). { apply IH; [lia|]. intros v. apply (H (S v)). }
  specialize (H 0). cbn in H. destruct x, y; try lia.
Qed.
Lemma size_lt a : forall b, length a = length b -> (forall v, e_get a v = true -> e_get b v = true) ->
  (exists v, e_get a v = false /\ e_get b v = true) -> e_size a < e_size b.
Proof.
  induction a as [|x a IH]; intros [|y b] L H [v [A B]]; cbn in L; try lia.
  - now destruct v.
  - rewrite !size_cons. assert (M : e_size a <= e_size b). { apply size_mono; [lia|]. intros u. apply (H (S u)). }
    destruct v as [|v]; cbn in A, B.
    + subst x y. lia.
    + assert (e_size a < e_size b). { apply IH; [lia| |]. intros u. apply (H (S u)). now exists v. }
      specialize (H 0). cbn in H. destruct x, y; try lia.
Qed.
Lemma size_zero t : e_size t = 0 <-> forall v, e_get t v = false.
Proof.
  induction t as [|x t IH]; [split; auto; now destruct v|]. rewrite size_cons. split.
  - intros H. destruct x; [lia|]. intros [|v]; auto. apply IH. lia.
  - intros H. pose proof (H 0) as H0. cbn in H0. subst x. cbn. apply IH. intros v. apply (H (S v)).
Qed.
Lemma size_full t : e_size t = length t <-> forall v, v < length t -> e_get t v = true.
Proof.
  induction t as [|x t IH]; [split; auto; cbn; lia|]. rewrite size_cons. pose proof (size_le t). cbn [length]. split.
  - intros E [|v] L. destruct x; auto; lia. apply IH; [destruct x; lia|lia].
  - intros E. pose proof (E 0 ltac:(lia)) as E0. cbn in E0. subst x. cbn. f_equal. apply IH. intros v L. apply (E (S v)). lia.
Qed.

(** ** The sum *)
Lemma sum_cons {A} (f : A -> Z) x l : sum_of f (x :: l) = (f x + sum_of f l)%Z.
Proof. reflexivity. Qed.
Lemma sum_nil {A} (f : A -> Z) : sum_of f [] = 0%Z.
Proof. reflexivity. Qed.
Lemma sum_app {A} (f : A -> Z) l l' : sum_of f (l ++ l') = (sum_of f l + sum_of f l')%Z.
Proof. induction l; cbn [app]; rewrite ?sum_cons, ?sum_nil; lia. Qed.
Lemma sum_map {A B} (f : B -> Z) (g : A -> B) l : sum_of f (map g l) = sum_of (fun x => f (g x)) l.
Proof. induction l; cbn [map]; rewrite ?sum_cons; auto. now rewrite IHl. Qed.
Lemma sum_ext {A} (f g : A -> Z) l : (forall x, In x l -> f x = g x) -> sum_of f l = sum_of g l.
Proof.
  induction l as [|x l IH]; intros H; auto. rewrite !sum_cons. rewrite H by now left. rewrite IH; auto.
  intros; apply H; now right.
Qed.
Lemma sum_add {A} (f g : A -> Z) l : sum_of (fun x => f x + g x)%Z l = (sum_of f l + sum_of g l)%Z.
Proof. induction l; rewrite ?sum_cons, ?sum_nil; lia. Qed.
Lemma sum_sub {A} (f g : A -> Z) l : sum_of (fun x => f x - g x)%Z l = (sum_of f l - sum_of g l)%Z.
Proof. induction l; rewrite ?sum_cons, ?sum_nil; lia. Qed.
Lemma sum_opp {A} (f : A -> Z) l : sum_of (fun x => - f x)%Z l = (- sum_of f l)%Z.
Proof. induction l; rewrite ?sum_cons, ?sum_nil; lia. Qed.
Lemma sum_zero {A} (f : A -> Z) l : (forall x, In x l -> f x = 0%Z) -> sum_of f l = 0%Z.
Proof.
  induction l as [|x l IH]; intros H; auto. rewrite sum_cons, H by now left. rewrite IH; auto. intros; apply H; now right.
Qed.
Lemma vectors_length n : forall F, In F (vectors n) <-> length F = n.
Proof.
  induction n as [|n IH]; intros F; cbn.
  - split; [intros [<-|[]]; auto|destruct F; auto; discriminate].
  - rewrite in_app_iff, !in_map_iff. split.
    + intros [[x [<- I]]|[x [<- I]]]; cbn; f_equal; now apply IH.
    + destruct F as [|b F]; [discriminate|]. intros [= L]. apply IH in L. destruct b; [right|left]; eauto.
Qed.
Lemma alt_S k : alt (S k) = (- alt k)%Z.
Proof. unfold alt. rewrite Nat.even_succ, <- Nat.negb_even. now destruct (Nat.even k). Qed.

(** F hits g *)
Definition hits (F g : eterm) : bool := negb (e_prime F g).
Definition hits_all (G : list eterm) (F : eterm) : bool := forallb (hits F) G.
(** The sum over the subsets F of v that hit all elements of G *)
Definition E (G : list eterm) (v : eterm) : Z :=
  sum_of (fun F => if e_divides F v && hits_all G F then alt (card F) else 0%Z) (vectors (length v)).

Lemma hits_iff F g : length F = length g -> (hits F g = true <-> exists v, e_get F v = true /\ e_get g v = true).
Proof.
  intros L. unfold hits. rewrite negb_true_iff. split.
  - intros H. revert g L H. induction F as [|x F IH]; intros [|y g] L H; cbn in L; try lia; [discriminate|].
    unfold e_prime in *. cbn in H. apply andb_false_iff in H as [H|H].
    + exists 0. destruct x, y; try discriminate; auto.
    + destruct (IH g ltac:(lia) H) as [v V]. now exists (S v).
  - intros [v [A B]]. destruct (e_prime F g) eqn:P; auto. rewrite prime_iff in P by auto. rewrite (P v A) in B. discriminate.
Qed.

Lemma divides_colon F v g : length F = length v -> length g = length v ->
  e_divides F (e_colon v g) = e_divides F v && e_prime F g.
Proof.
  intros L1 L2. apply eq_true_iff_eq. rewrite andb_true_iff, divides_iff, divides_iff, prime_iff by (rewrite ?colon_length; lia).
  split.
  - intros H. split; intros u U; specialize (H u U); rewrite get_colon in H by lia; apply andb_true_iff in H as [A B]; auto.
    now apply negb_true_iff.
  - intros [A B] u U. rewrite get_colon by lia. rewrite (A u U), (B u U). auto.
Qed.
Lemma E_cons g G v : length g = length v -> E (g :: G) v = (E G v - E G (e_colon v g))%Z.
Proof.
  intros L. unfold E. rewrite colon_length by lia. rewrite <- sum_sub. apply sum_ext. intros F I. apply vectors_length in I.
  rewrite divides_colon by lia. cbn [hits_all forallb]. unfold hits at 1. fold (hits_all G F).
  destruct (e_divides F v), (e_prime F g), (hits_all G F); cbn; lia.
Qed.
Lemma E_nil v : E [] v = if e_size v =? 0 then 1%Z else 0%Z.
Proof.
  unfold E. cbn [hits_all forallb]. induction v as [|x v IH]; [reflexivity|].
  cbn [length vectors]. rewrite sum_app, !sum_map.
  assert (A : sum_of (fun F => if e_divides (false :: F) (x :: v) && true then alt (card (false :: F)) else 0%Z) (vectors (length v)) =
              sum_of (fun F => if e_divides F v && true then alt (card F) else 0%Z) (vectors (length v))).
  { apply sum_ext. intros F _. unfold e_divides. reflexivity. }
  rewrite A, IH. destruct x.
  - rewrite size_cons. replace (1 + e_size v =? 0) with false by (destruct (e_size v); auto).
    erewrite (sum_ext _ (fun F => (- if e_divides F v && true then alt (card F) else 0)%Z)).
    + rewrite sum_opp, IH. destruct (e_size v =? 0); lia.
    + intros F _. cbv beta. replace (e_divides (true :: F) (true :: v)) with (e_divides F v) by reflexivity.
      change (card (true :: F)) with (S (card F)). rewrite alt_S. now destruct (e_divides F v && true).
  - rewrite sum_zero by (intros; reflexivity). rewrite size_cons. cbn. lia.
Qed.
(** Only the ideal matters. *)
Lemma E_ext G G' v : (forall F, length F = length v -> (forall u, e_get F u = true -> e_get v u = true) -> hits_all G F = hits_all G' F) -> E G v = E G' v.
Proof.
  intros H. apply sum_ext. intros F I. apply vectors_length in I.
  destruct (e_divides F v) eqn:D; auto. rewrite divides_iff in D by auto. now rewrite (H F I D).
Qed.
Lemma hits_all_iff G F : hits_all G F = true <-> forall g, In g G -> hits F g = true.
Proof. apply forallb_forall. Qed.
Lemma E_same G G' v : (forall g, In g G -> length g = length v) -> (forall g, In g G' -> length g = length v) ->
  (forall g, In g G -> exists h, In h G' /\ forall u, e_get v u = true -> e_get h u = true -> e_get g u = true) ->
  (forall g, In g G' -> exists h, In h G /\ forall u, e_get v u = true -> e_get h u = true -> e_get g u = true) -> E G v = E G' v.
Proof.
  intros L L' A B. apply E_ext. intros F LF SF. apply eq_true_iff_eq. rewrite !hits_all_iff. split; intros H g I.
  - destruct (B g I) as [h [I' D]]. specialize (H h I'). rewrite hits_iff in H |- * by (rewrite LF; symmetry; auto).
    destruct H as [u [U U']]. exists u. auto.
  - destruct (A g I) as [h [I' D]]. specialize (H h I'). rewrite hits_iff in H |- * by (rewrite LF; symmetry; auto).
    destruct H as [u [U U']]. exists u. auto.
Qed.
Lemma E_perm G G' v : Permutation G G' -> E G v = E G' v.
Proof.
  intros P. apply E_ext. intros F _ _. apply eq_true_iff_eq. rewrite !hits_all_iff.
  split; intros H g I; apply H; [exact (Permutation_in _ (Permutation_sym P) I)|exact (Permutation_in _ P I)].
Qed.
(** Exponents outside of v do not matter. *)
Lemma E_map f G v : (forall g, In g G -> length g = length v) -> (forall g, In g G -> length (f g) = length v) ->
  (forall g u, In g G -> e_get v u = true -> e_get (f g) u = e_get g u) -> E (map f G) v = E G v.
Proof.
  intros L L' H. apply E_ext. intros F LF SF. unfold hits_all.
  assert (Q : forall g, In g G -> hits F (f g) = hits F g).
  { intros g I. apply eq_true_iff_eq. rewrite !hits_iff by (rewrite LF; symmetry; auto).
    split; intros [u [U U']]; exists u; split; auto. rewrite <- H; auto. rewrite H; auto. }
  clear L L' H. induction G; cbn; auto. rewrite Q, IHG; auto. intros; apply Q; now right. now left.
Qed.

(** The rule for a variable *)
Lemma E_var G x : forall v, (forall g, In g G -> length g = length v) -> e_get v x = true ->
  E G v = (E G (e_set v x false) - E (filter (fun g => negb (e_get g x)) G) (e_set v x false))%Z.
Proof.
  assert (Q : forall v, e_get v x = true -> E [] v = 0%Z).
  { intros v X. rewrite E_nil. destruct (Nat.eqb_spec (e_size v) 0) as [e|e]; auto.
    rewrite size_zero in e. rewrite e in X. discriminate. }
  induction G as [|g G IH]; intros v L X.
  - cbn [filter]. rewrite Q by auto. symmetry. apply Z.sub_diag.
  - assert (Lg : length g = length v) by (apply L; now left).
    assert (LG : forall g, In g G -> length g = length v) by (intros; apply L; now right).
    rewrite E_cons by auto. cbn [filter]. rewrite (E_cons g G (e_set v x false)) by (rewrite set_length; auto).
    destruct (e_get g x) eqn:GX; cbn [negb].
    + replace (e_colon v g) with (e_colon (e_set v x false) g).
      2: { apply get_ext; [rewrite !colon_length; rewrite ?set_length; auto|]. intros u _.
           rewrite !get_colon by (rewrite ?set_length; auto). rewrite get_set by now apply get_lt.
           destruct (Nat.eqb_spec u x); [subst; rewrite GX; now destruct (e_get v x)|auto]. }
      rewrite (IH v) by auto. lia.
    + rewrite (IH v) by auto. rewrite (IH (e_colon v g)).
      2: { intros; rewrite colon_length; auto. }
      2: { rewrite get_colon by auto. now rewrite X, GX. }
      rewrite (E_cons g (filter _ G)) by (rewrite set_length; auto).
      replace (e_set (e_colon v g) x false) with (e_colon (e_set v x false) g).
      2: { apply get_ext; [rewrite ?set_length, !colon_length, ?set_length; rewrite ?set_length; auto|]. intros u _.
           rewrite get_set_false. rewrite !get_colon by (rewrite ?set_length; auto). rewrite get_set_false.
           destruct (Nat.eqb_spec u x); auto. }
      lia.
Qed.
Lemma E_unsupported G x v : (forall g, In g G -> length g = length v) -> e_get v x = true -> (forall g, In g G -> e_get g x = false) -> E G v = 0%Z.
Proof.
  intros L X H. rewrite (E_var G x v) by auto.
  replace (filter (fun g => negb (e_get g x)) G) with G; [lia|]. symmetry. clear L.
  induction G as [|g G IH]; auto. cbn. rewrite (H g) by now left. cbn. f_equal. apply IH. intros. apply H. now right.
Qed.
