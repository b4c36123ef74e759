(** A file that is read as a square free ideal is read as the same ideal without that requirement, and the requirement only adds
    one error. *)
From Coq Require Import String Ascii.
From Coq Require Import List Arith Bool ZArith Lia.
Import ListNotations.
From Verif Require Import M_Term M_Api M_Names M_IO Spec_IO P_Names P_IO P_IO2 P_IO3 P_IO4 P_IO5 P_IO6 P_IO7 P_IO8.

Definition unreq (ic : consumer) : consumer := IC (ic_names ic) (ic_cur ic) false (ic_ideals ic).
Definition un (p : consumer * text) : consumer * text := (unreq (fst p), snd p).
Definition rmap {A B} (f : A -> B) (r : res A) : res B := rbind r (fun a => Ok (f a)).
(** Either the first reports an error, or the second does the same *)
Definition sim {A B} (f : A -> B) (r1 : res A) (r0 : res B) : Prop := r1 = OtherError \/ r0 = rmap f r1.
Lemma sim_bind {A B C D} (f : A -> B) (g : C -> D) r1 r0 k1 k0 : sim f r1 r0 -> (forall a, sim g (k1 a) (k0 (f a))) -> sim g (rbind r1 k1) (rbind r0 k0).
Proof. intros [-> | ->] H; [left; reflexivity|]. destruct r1; cbn; auto; right; reflexivity. Qed.
Lemma sim_same {A C D} (g : C -> D) (r : res A) k1 k0 : (forall a, sim g (k1 a) (k0 a)) -> sim g (rbind r k1) (rbind r k0).
Proof. intros H. destruct r; cbn; auto; right; reflexivity. Qed.
Lemma sim_ok {A B} (f : A -> B) a b : b = f a -> sim f (Ok a) (Ok b).
Proof. intros ->. right. reflexivity. Qed.
Lemma sim_error {A B} (f : A -> B) : sim f SyntaxError SyntaxError.
Proof. right. reflexivity. Qed.
Lemma sim_fuel {A B} (f : A -> B) : sim f OutOfFuel OutOfFuel.
Proof. right. reflexivity. Qed.
Lemma sim_undef {A B} (f : A -> B) : sim f Undefined Undefined.
Proof. right. reflexivity. Qed.
Ltac walk := cbv beta iota;
  first [ apply sim_ok; reflexivity | apply sim_error | apply sim_fuel | apply sim_undef
        | apply sim_same; intros ?
        | match goal with |- sim _ (match ?x with _ => _ end) (match ?x with _ => _ end) => destruct x end
        | match goal with |- sim _ (let '(_, _) := ?x in _) (let '(_, _) := ?x in _) => destruct x end
        | match goal with |- context [let '(_, _) := ?x in _] => is_var x; destruct x end ].
Lemma ring_sim names ic : sim unreq (consumeRing names ic) (consumeRing names (unreq ic)).
Proof. destruct ic as [n [[o J]|] r d]; unfold consumeRing; cbn; repeat walk. Qed.
Lemma begin_sim ic : sim unreq (beginIdeal ic) (beginIdeal (unreq ic)).
Proof. destruct ic as [n [[o J]|] r d]; unfold beginIdeal; cbn; repeat walk. Qed.
Lemma end_sim ic : sim unreq (endIdeal ic) (endIdeal (unreq ic)).
Proof. destruct ic as [n [[o J]|] r d]; unfold endIdeal; cbn; repeat walk. Qed.
Lemma term_sim ic : sim unreq (beginTerm ic) (beginTerm (unreq ic)).
Proof. destruct ic as [n [[o J]|] r d]; unfold beginTerm; cbn; repeat walk. Qed.
Lemma one_sim var ic : sim unreq (consumeVarExponentOne var ic) (consumeVarExponentOne var (unreq ic)).
Proof. destruct ic as [n [[o [[|b B]|[|t T]]]|] r d]; unfold consumeVarExponentOne; cbn [unreq ic_cur]; repeat walk. Qed.
Lemma exp_sim var ic s : sim un (consumeVarExponent var ic s) (consumeVarExponent var (unreq ic) s).
Proof.
  destruct ic as [n [[o [[|b B]|[|t T]]]|] r d]; unfold consumeVarExponent; cbn [unreq ic_cur ic_require]; repeat walk.
  destruct r; [left; reflexivity | repeat walk].
Qed.
Ltac sb L := eapply sim_bind; [apply L | intros ?].
Lemma power_sim var ic p : sim un (match p with (true, s) => consumeVarExponent var ic s | (false, s) => LET ic := consumeVarExponentOne var ic IN Ok (ic, s) end)
  (match p with (true, s) => consumeVarExponent var (unreq ic) s | (false, s) => LET ic := consumeVarExponentOne var (unreq ic) IN Ok (ic, s) end).
Proof. destruct p as [[|] s]; [apply exp_sim|]. sb one_sim. walk. Qed.
Lemma product_sim : forall fuel ic s, sim un (consumeProduct fuel ic s) (consumeProduct fuel (unreq ic) s).
Proof.
  induction fuel as [|fuel IH]; intros ic s; [walk|]. cbn [consumeProduct]. change (consumeVar (unreq ic) s) with (consumeVar ic s). walk. walk.
  sb power_sim. destruct a as [ic' s']. cbn [un fst snd]. destruct (match_char "*" s') as [[|] r]; [apply IH | walk].
Qed.
Lemma tp_sim ic s : sim un (consumeTermProductNotation ic s) (consumeTermProductNotation (unreq ic) s).
Proof. unfold consumeTermProductNotation. sb term_sim. destruct (match_char "1" s) as [[|] r]; [walk | apply product_sim]. Qed.
Lemma m2t_sim ic s : sim un (m2_readTerm ic s) (m2_readTerm (unreq ic) s).
Proof. unfold m2_readTerm. sb tp_sim. destruct a as [ic' s']. cbn [un fst snd]. repeat walk. Qed.
Lemma cpowers_sim m : forall fuel ic s, sim un (cocoa_readPowers m fuel ic s) (cocoa_readPowers m fuel (unreq ic) s).
Proof.
  induction fuel as [|fuel IH]; intros ic s; [walk|]. cbn [cocoa_readPowers]. walk. walk. change (consumeVarNumber m (unreq ic) a0) with (consumeVarNumber m ic a0). walk. walk. walk.
  sb power_sim. destruct a2 as [ic' s']. cbn [un fst snd]. destruct (peek_char "x" s') as [[|] r]; [apply IH | walk].
Qed.
Lemma ct_sim m ic s : sim un (cocoa_readTerm m ic s) (cocoa_readTerm m (unreq ic) s).
Proof. unfold cocoa_readTerm. sb term_sim. destruct (match_char "1" s) as [[|] r]; [walk | apply cpowers_sim]. Qed.
Lemma terms_sim rt : (forall ic s, sim un (rt ic s) (rt (unreq ic) s)) -> forall fuel ic s, sim un (readTerms rt fuel ic s) (readTerms rt fuel (unreq ic) s).
Proof.
  intros RT. induction fuel as [|fuel IH]; intros ic s; [walk|]. cbn [readTerms]. sb RT. destruct a as [ic' s']. cbn [un fst snd]. destruct (match_char "," s') as [[|] r]; [apply IH | walk].
Qed.
Ltac fin_i := let a := fresh "p" in intros a; destruct a as [? ?]; cbn [un fst snd]; repeat (first [sb end_sim | walk]).
Lemma m2b_sim ic s : sim un (m2_readBareIdeal ic s) (m2_readBareIdeal (unreq ic) s).
Proof.
  unfold m2_readBareIdeal. sb begin_sim. do 4 walk. eapply sim_bind with (f := un); [|fin_i].
  destruct (match_char "0" a3) as [[|] r]; [repeat walk | apply terms_sim, m2t_sim].
Qed.
Lemma mb_sim ic s : sim un (monos_readBareIdeal ic s) (monos_readBareIdeal (unreq ic) s).
Proof.
  unfold monos_readBareIdeal. sb begin_sim. walk. eapply sim_bind with (f := un); [|fin_i].
  destruct (match_char "]" a0) as [[|] r]; [walk|]. eapply sim_bind; [apply terms_sim, tp_sim|]. intros [ic' s']. cbn [un fst snd]. repeat walk.
Qed.
Lemma sb_sim ic s : sim un (singular_readBareIdeal ic s) (singular_readBareIdeal (unreq ic) s).
Proof.
  unfold singular_readBareIdeal. sb begin_sim. do 3 walk. eapply sim_bind with (f := un); [|fin_i].
  destruct (match_char "0" a2) as [[|] r]; [walk|]. apply terms_sim, tp_sim.
Qed.
Lemma cb_sim m ic s : sim un (cocoa_readBareIdeal m ic s) (cocoa_readBareIdeal m (unreq ic) s).
Proof.
  unfold cocoa_readBareIdeal. sb begin_sim. do 4 walk. eapply sim_bind with (f := un).
  - destruct (match_char ")" a3) as [[|] r]; [walk|]. eapply sim_bind; [apply terms_sim, ct_sim|]. intros [ic' s']. cbn [un fst snd]. repeat walk.
  - intros [ic' s']. cbn [un fst snd]. cbv zeta. sb end_sim. walk.
Qed.
Lemma bare_sim m f ic s : sim un (fmt_readBareIdeal m f ic s) (fmt_readBareIdeal m f (unreq ic) s).
Proof. destruct f; cbn [fmt_readBareIdeal]; [apply m2b_sim | apply cb_sim | apply sb_sim | apply mb_sim | walk | walk]. Qed.
Lemma nmt_sim : forall fuel ic s, sim un (newmonos_readTerms fuel ic s) (newmonos_readTerms fuel (unreq ic) s).
Proof.
  induction fuel as [|fuel IH]; intros ic s; [walk|]. cbn [newmonos_readTerms]. destruct (match_char ")" s) as [[|] r]; [walk|]. sb tp_sim. destruct a as [ic' s']. apply IH.
Qed.
Lemma nmi_sim ic s : sim un (newmonos_readIdeal ic s) (newmonos_readIdeal (unreq ic) s).
Proof.
  unfold newmonos_readIdeal. walk. walk. walk. walk. sb ring_sim. sb begin_sim. sb nmt_sim. destruct a3 as [ic' s']. cbn [un fst snd]. sb end_sim. walk.
Qed.
Lemma f4t_sim : forall k var ic s, sim un (fourti2_readTerm k var ic s) (fourti2_readTerm k var (unreq ic) s).
Proof.
  induction k as [|k IH]; intros var ic s; cbn [fourti2_readTerm]; [walk|]. eapply sim_bind with (f := un).
  - destruct (match_char "-" s) as [[|] r]; [repeat walk | apply exp_sim].
  - intros [ic' s']. apply IH.
Qed.
Lemma f4ts_sim : forall gens vars ic s, sim un (fourti2_readTerms gens vars ic s) (fourti2_readTerms gens vars (unreq ic) s).
Proof.
  induction gens as [|gens IH]; intros vars ic s; cbn [fourti2_readTerms]; [walk|]. sb term_sim. sb f4t_sim. destruct a0 as [ic' s']. apply IH.
Qed.
Lemma f4i_sim m ic s : sim un (fourti2_readIdeal m ic s) (fourti2_readIdeal m (unreq ic) s).
Proof.
  unfold fourti2_readIdeal. walk. walk. walk. walk. unfold fourti2_readBody. sb ring_sim. sb begin_sim. eapply sim_bind; [apply f4ts_sim|]. intros [ic' s']. cbn [un fst snd].
  eapply sim_bind with (f := un); [|fin_i]. destruct (peekIdentifier s') as [[|] r]; [|walk]. walk. walk. sb ring_sim. walk.
Qed.
Lemma ideal_sim m f ic s : sim un (handler_readIdeal m f ic s) (handler_readIdeal m f (unreq ic) s).
Proof.
  assert (C : sim un (common_readIdeal m f ic s) (common_readIdeal m f (unreq ic) s)).
  { unfold common_readIdeal. walk. walk. sb ring_sim. apply bare_sim. }
  destruct f; cbn [handler_readIdeal]; auto; [walk; apply nmi_sim | apply f4i_sim].
Qed.

Lemma square_free_cases m f file :
  read_square_free m f file = OtherError \/
  (exists names B, read_square_free m f file = Ok (names, B) /\ read_ideal m f file = Ok (names, map (map b2z) B)) \/
  (forall p, read_square_free m f file <> Ok p) /\ (forall p, read_ideal m f file <> Ok p).
Proof.
  pose proof (ideal_sim m f (requireSquareFree ic_new) (" "%char :: file)) as S. change (unreq (requireSquareFree ic_new)) with ic_new in S.
  unfold read_square_free, read_ideal.
  assert (O : gd (ideal_post (requireSquareFree ic_new) (" "%char :: file)) (handler_readIdeal m f (requireSquareFree ic_new) (" "%char :: file))).
  { apply ideal_gd. split; [reflexivity|]. split; [apply legal_nil | constructor]. }
  destruct S as [-> | ->]; [left; reflexivity|]. right.
  destruct (handler_readIdeal m f (requireSquareFree ic_new) (" "%char :: file)) as [[ic s]| | | | |]; cbn [rmap rbind un fst snd];
    try (right; split; discriminate).
  destruct (expectEOF s) as [[]| | | | |]; cbn [rbind]; try (right; split; discriminate).
  destruct O as [[_ [_ P]] [Q [N _]]]. cbn [fst] in *. destruct ic as [n c r l]. cbn [ic_ideals ic_require requireSquareFree ic_new] in *. subst r.
  destruct l as [|[names J] [|? l]]; try discriminate. inversion P as [|? ? [_ [_ P3]] _]; subst. destruct P3 as [B E]; [reflexivity|]. cbn [snd] in E. subst J.
  left. exists names, (rev B). split; [reflexivity|]. unfold big_ideals, unreq. cbn [ic_ideals map rev app fst snd to_big]. now rewrite map_rev.
Qed.
Lemma square_free_sound m f file names B : read_square_free m f file = Ok (names, B) -> read_ideal m f file = Ok (names, map (map b2z) B).
Proof.
  intros H. destruct (square_free_cases m f file) as [E|[[n [B' [E1 E2]]]|[E _]]]; [congruence | | destruct (E _ H)].
  rewrite E1 in H. injection H as -> ->. exact E2.
Qed.
Lemma square_free_reject m f file names J : read_ideal m f file = Ok (names, J) -> Exists (Exists (fun e => 1 < e)%Z) J -> read_square_free m f file = OtherError.
Proof.
  intros H X. destruct (square_free_cases m f file) as [E|[[n [B' [E1 E2]]]|[_ E]]]; [exact E | | destruct (E _ H)].
  rewrite E2 in H. injection H as -> <-. exfalso. apply Exists_exists in X as [t [Ht X]]. apply in_map_iff in Ht as [b [<- _]].
  apply Exists_exists in X as [e [He X]]. apply in_map_iff in He as [c [<- _]]. destruct c; cbn in X; lia.
Qed.

Lemma reading_total max f file :
  (match read_ideal max f file with
   | Ok J => good_ideal J
   | OutOfFuel | Undefined => False
   | SyntaxError | OtherError | InvalidArgument => True
   end) /\
  (match read_ideals max f file with
   | Ok (names, Js) => legal_names names /\ Forall good_ideal Js
   | OutOfFuel | Undefined => False
   | SyntaxError | OtherError | InvalidArgument => True
   end) /\
  (match read_square_free max f file with
   | Ok (names, B) => legal_names names /\ Forall (fun b => List.length b = List.length names) B
   | OutOfFuel | Undefined => False
   | SyntaxError | OtherError | InvalidArgument => True
   end).
Proof.
  pose proof (read_ideal_gd max f file) as A. pose proof (read_ideals_gd max f file) as B. pose proof (read_square_free_gd max f file) as C.
  split; [exact A|]. split; [destruct (read_ideals max f file) as [[]| | | | |]; exact B | destruct (read_square_free max f file) as [[]| | | | |]; exact C].
Qed.
Lemma square_free_all max f :
  (forall file names B, read_square_free max f file = Ok (names, B) ->
     read_ideal max f file = Ok (names, map (map (fun b : bool => if b then 1 else 0)%Z) B)) /\
  (forall file names J, read_ideal max f file = Ok (names, J) -> Exists (Exists (fun e => 1 < e)%Z) J -> read_square_free max f file = OtherError) /\
  (forall names B, legal_names names -> Forall (fun b => List.length b = List.length names) B ->
     format_fits max f names (map (map (fun b : bool => if b then 1 else 0)%Z) B) ->
     exists file, write_ideal f names (map (map (fun b : bool => if b then 1 else 0)%Z) B) = Ok file /\ read_square_free max f file = Ok (names, B)).
Proof.
  split; [|split]; intros.
  - now apply square_free_sound.
  - now apply (square_free_reject max f file names J).
  - now apply sqf_round.
Qed.
