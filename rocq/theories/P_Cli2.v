(** The text of the ideals and of the lists of ideals that the actions write. *)
From Coq Require Import String Ascii.
From Coq Require Import List Arith Bool ZArith Lia.
Import ListNotations.
From Verif Require Import M_Term M_Ideal M_Api M_Names M_IO Spec_IO P_Names P_IO P_IO2 P_IO3 P_IO4 P_IO5 P_IO6 P_IO7 P_IO10 M_Intersect M_Transform M_Actions M_Cli.
Local Notation length := List.length.

Definition ok_terms (tr : translator) (ts : list term) : Prop := Forall (fun t => length t = length tr) ts.
Definition ideal_events (tr : translator) (ts : list term) : list w_event := WBegin :: map (WTTerm tr) ts ++ [WDone].
Definition list_events (names : list str) (tr : translator) (Tss : list (list term)) : list w_event :=
  WRing names :: WBeginList :: concat (map (ideal_events tr) Tss) ++ [WDoneList].

(** ** One ideal *)
Lemma consolidated_terms tr w names : forall ts I es, consolidated w names I (map (WTTerm tr) ts ++ es) = consolidated w names (rev (map (t_value tr) ts) ++ I) es.
Proof.
  induction ts as [|t ts IH]; intros I es; cbn [map app rev consolidated]; auto. rewrite IH. now rewrite <- app_assoc.
Qed.
Lemma written_one f names tr ts : length names = length tr -> ok_terms tr ts ->
  written f (WRing names :: ideal_events tr ts) = Ok (stext f names (map (t_value tr) ts)).
Proof.
  intros A F. rewrite <- (stream_text f names tr ts A F). unfold ideal_events. destruct f; auto.
  cbn [written write_stream]. cbn [consolidated]. destruct (ring_step Fourti2 iw_new names) as [fg ->]. cbn [rbind].
  rewrite consolidated_terms, app_nil_r. cbn [consolidated]. rewrite rev_involutive.
  destruct (f4_iw (IW names (again iw_new names) fg) names (map (t_value tr) ts)) as [fg' ->]. cbn [rbind]. now rewrite app_nil_r.
Qed.

(** ** Lists of ideals *)
Definition sbare (f : format) (names : list str) (J : list (list Z)) : text :=
  match f with
  | CoCoA4 => bare_head CoCoA4 ++ terms_text (fun t => pbody (every t)) true J ++ bare_foot CoCoA4 names (negb (nonempty J))
  | _ => baret f names J
  end.
Fixpoint stexts (f : format) (names : list str) (fi : bool) (Js : list (list (list Z))) : text :=
  match Js with
  | [] => []
  | J :: Js' => (if shown f fi then ringt f names else []) ++ sbare f names J ++ stexts f names false Js'
  end.
Lemma one_common f names tr ts fi fg : is_common f -> length names = length tr -> ok_terms tr ts ->
  exists fg', iw_run f (IW names fi fg) (ideal_events tr ts) = Ok (IW names false fg', (if shown f fi then ringt f names else []) ++ sbare f names (map (t_value tr) ts)).
Proof.
  intros C A F. unfold ideal_events. cbn [iw_run].
  assert (iw_step f (IW names fi fg) WBegin = Ok (IW names fi true, (if shown f fi then ringt f names else []) ++ bare_head f)) as ->.
  { pose proof (header_common f names fi 0 C) as H. destruct C as [-> | [-> | [-> | ->]]]; cbn [iw_step iw_names iw_firstIdeal]; rewrite H; reflexivity. }
  cbn [rbind]. rewrite run_app, run_t_terms by auto. cbn [rbind iw_run iw_step iw_names iw_firstGen andb]. rewrite footer_common by auto. cbn [rbind]. rewrite app_nil_r.
  eexists. do 2 f_equal. rewrite app_rest. f_equal. destruct C as [-> | [-> | [-> | ->]]]; cbn [sbare sbody]; unfold baret; rewrite nonempty_map; reflexivity.
Qed.
Lemma many_common f names tr : is_common f -> length names = length tr -> forall Tss fi fg, Forall (ok_terms tr) Tss ->
  exists w', iw_run f (IW names fi fg) (concat (map (ideal_events tr) Tss)) = Ok (w', stexts f names fi (map (map (t_value tr)) Tss)) /\
    iw_names w' = names /\ iw_firstIdeal w' = match Tss with [] => fi | _ => false end.
Proof.
  intros C A. induction Tss as [|ts Tss IH]; intros fi fg F.
  - eexists. split; [reflexivity|]. auto.
  - inversion F; subst. cbn [map concat stexts]. rewrite run_app. destruct (one_common f names tr ts fi fg C A) as [fg' ->]; auto. cbn [rbind].
    destruct (IH false fg') as [w' [-> [X Y]]]; auto. cbn [rbind]. exists w'. split; [now rewrite <- app_assoc|]. split; auto. rewrite Y. now destruct Tss.
Qed.
Lemma start_events f names : exists fg, iw_run f iw_new [WRing names; WBeginList] = Ok (IW names true fg, []).
Proof. cbn [iw_run]. destruct (ring_step f iw_new names) as [fg ->]. cbn. eauto. Qed.
Lemma list_common f names tr Tss : is_common f -> length names = length tr -> Forall (ok_terms tr) Tss ->
  written f (list_events names tr Tss) = Ok (match Tss with [] => ringt f names | _ => stexts f names true (map (map (t_value tr)) Tss) end).
Proof.
  intros C A F.
  assert (written f (list_events names tr Tss) = LET (_, out) := iw_run f iw_new (list_events names tr Tss) IN Ok out) as -> by (destruct C as [-> | [-> | [-> | ->]]]; reflexivity).
  unfold list_events. change (WRing names :: WBeginList :: concat (map (ideal_events tr) Tss) ++ [WDoneList]) with ([WRing names; WBeginList] ++ (concat (map (ideal_events tr) Tss) ++ [WDoneList])).
  rewrite run_app. destruct (start_events f names) as [fg ->]. cbn [rbind]. rewrite run_app. destruct (many_common f names tr C A Tss true fg F) as [w' [-> [X Y]]]. cbn [rbind].
  cbn [iw_run iw_step]. rewrite Y. destruct Tss as [|ts Tss].
  - rewrite X, empty_common by auto. cbn [rbind map stexts app]. now rewrite app_nil_r.
  - cbn [rbind app]. now rewrite !app_nil_r.
Qed.
Lemma is_common_dec f : {is_common f} + {~ is_common f}.
Proof. unfold is_common. destruct f; ((left; tauto) || (right; intuition discriminate)). Qed.
Lemma stexts_texts f names : is_common f -> f <> CoCoA4 -> forall Js fi fg, texts f (IW names fi fg) (map (pair names) Js) = stexts f names fi Js.
Proof.
  intros C N. induction Js as [|J Js IH]; intros fi fg; auto. cbn [map texts stexts fst snd]. rewrite IH.
  assert (again (IW names fi fg) names = fi) as -> by (unfold again; cbn [iw_names iw_firstIdeal]; destruct (list_eq_dec str_dec names names); congruence).
  f_equal. f_equal. destruct C as [-> | [-> | [-> | ->]]]; auto. congruence.
Qed.
Lemma nm_one names tr ts fi fg : length names = length tr -> ok_terms tr ts ->
  exists fg', iw_run NewMonos (IW names fi fg) (ideal_events tr ts) = Ok (IW names false fg', nm_text names (map (t_value tr) ts)).
Proof.
  intros A F. unfold ideal_events. cbn [iw_run iw_step iw_names iw_firstIdeal w_header rbind]. rewrite run_app.
  destruct (nm_t_run names tr fi A ts true F) as [fg' ->]. cbn [rbind iw_run iw_step w_footer iw_names iw_firstGen]. eexists. unfold nm_text. rewrite !app_rest. cbn [app]. now rewrite app_rest.
Qed.
Lemma nm_many names tr : length names = length tr -> forall Tss fi fg, Forall (ok_terms tr) Tss ->
  exists w', iw_run NewMonos (IW names fi fg) (concat (map (ideal_events tr) Tss)) = Ok (w', nm_texts (map (pair names) (map (map (t_value tr)) Tss))) /\
    iw_names w' = names /\ iw_firstIdeal w' = match Tss with [] => fi | _ => false end.
Proof.
  intros A. induction Tss as [|ts Tss IH]; intros fi fg F.
  - eexists. split; [reflexivity|]. auto.
  - inversion F; subst. cbn [map concat]. rewrite run_app. destruct (nm_one names tr ts fi fg A) as [fg' ->]; auto. cbn [rbind].
    destruct (IH false fg') as [w' [-> [X Y]]]; auto. cbn [rbind]. exists w'. split; [reflexivity|]. split; auto. rewrite Y. now destruct Tss.
Qed.
Lemma f4_many names tr : forall Tss fi fg, exists w', 
  (forall es, consolidated (IW names fi fg) names [] (concat (map (ideal_events tr) Tss) ++ es) = LET b := consolidated w' names [] es IN Ok (f4_texts (map (pair names) (map (map (t_value tr)) Tss)) ++ b)) /\
    iw_names w' = names /\ iw_firstIdeal w' = match Tss with [] => fi | _ => false end.
Proof.
  induction Tss as [|ts Tss IH]; intros fi fg.
  - exists (IW names fi fg). split; [intros es; cbn [map concat app]|cbn; auto]. destruct (consolidated (IW names fi fg) names [] es); reflexivity.
  - destruct (f4_iw (IW names fi fg) names (map (t_value tr) ts)) as [fg' W]. destruct (IH false fg') as [w' [E [X Y]]]. exists w'. split; [|split; auto; rewrite Y; now destruct Tss].
    intros es. cbn [map concat]. unfold ideal_events at 1. cbn [app consolidated]. rewrite <- !app_assoc, consolidated_terms, app_nil_r. cbn [app consolidated]. rewrite rev_involutive, W. cbn [rbind].
    rewrite E. destruct (consolidated w' names [] es); cbn [rbind]; auto. unfold f4_texts. cbn [map concat fst snd]. now rewrite <- app_assoc.
Qed.
Lemma list_text f names tr Tss : f <> CoCoA4 -> length names = length tr -> Forall (ok_terms tr) Tss ->
  written f (list_events names tr Tss) = write_ideals f names (map (pair names) (map (map (t_value tr)) Tss)).
Proof.
  intros N A F. destruct (is_common_dec f) as [C|C].
  - rewrite list_common by auto. destruct (write_ideals_common f names (map (pair names) (map (map (t_value tr)) Tss)) C) as [fg ->]. destruct Tss as [|ts Tss]; auto.
    cbn [map]. change (pair names (map (t_value tr) ts) :: map (pair names) (map (map (t_value tr)) Tss)) with (map (pair names) (map (map (t_value tr)) (ts :: Tss))). now rewrite stexts_texts.
  - assert (f = NewMonos \/ f = Fourti2) as [-> | ->] by (unfold is_common in C; destruct f; tauto).
    + rewrite nm_write. cbn [written]. unfold list_events. change (WRing names :: WBeginList :: concat (map (ideal_events tr) Tss) ++ [WDoneList]) with ([WRing names; WBeginList] ++ (concat (map (ideal_events tr) Tss) ++ [WDoneList])).
      rewrite run_app. destruct (start_events NewMonos names) as [fg ->]. cbn [rbind]. rewrite run_app. destruct (nm_many names tr A Tss true fg F) as [w' [-> [X Y]]]. cbn [rbind].
      cbn [iw_run iw_step]. rewrite Y, X. destruct Tss as [|ts Tss]; cbn [rbind map app w_emptyList]; now rewrite ?app_nil_r.
    + rewrite f4_write. cbn [written]. unfold list_events. cbn [consolidated]. destruct (ring_step Fourti2 iw_new names) as [fg ->]. cbn [rbind iw_step iw_names iw_firstGen].
      destruct (f4_many names tr Tss true fg) as [w' [E [X Y]]]. rewrite E. cbn [consolidated iw_step]. rewrite Y, X.
      destruct Tss as [|ts Tss]; cbn [rbind map app w_emptyList]; now rewrite ?app_nil_r.
Qed.

(** ** Reading the lists back *)
Lemma sbare_first names J rest : exists c r, sbare CoCoA4 names J ++ rest = c :: r /\ isspace c = false /\ forall s, eat s = c :: r -> fmt_peekRing CoCoA4 s = (false, c :: r).
Proof.
  cbn [sbare bare_head fmt_peekRing]. eexists. eexists. split; [reflexivity|]. split; [reflexivity|]. intros s E.
  unfold peek_two. rewrite peek_char_no by (rewrite E; discriminate). rewrite peek_char_no by (rewrite eat_idem, E; discriminate). now rewrite eat_idem, E.
Qed.
Lemma sbare_step m names J done s rest : readable m CoCoA4 (names, J) -> eat s = eat (sbare CoCoA4 names J ++ rest) ->
  exists done' r, fmt_readBareIdeal m CoCoA4 (IC names None false done) s = Ok (IC names None false done', r) /\
    big_ideals (IC names None false done') = big_ideals (IC names None false done) ++ [(names, J)] /\ eat r = eat rest.
Proof.
  intros [G F] E. pose proof (good_fine _ G) as FT. destruct G as [L M]. cbn [fst snd format_fits] in *.
  destruct (cocoa_bare_gen m names false done every J s rest) as [ic [r [A [B C]]]]; auto.
  - intros t Ft. split; [now apply every_good|]. split; [apply every_nodup|]. exact (every_set t []).
  - destruct (ended_form _ _ _ _ _ B) as [done' ->]. exists done', r. split; [exact A|]. split; [|exact C]. now rewrite (big_ideals_ended _ _ _ _ _ B).
Qed.
Lemma stexts_length names : forall Js fi, length Js <= length (stexts CoCoA4 names fi Js).
Proof.
  induction Js as [|J Js IH]; intros fi; cbn [stexts length]; auto. rewrite !app_length. specialize (IH false).
  destruct (sbare_first names J []) as [c [r [X _]]]. rewrite app_nil_r in X. rewrite X. cbn [length]. lia.
Qed.
Lemma stexts_eat names Js fi : eat (stexts CoCoA4 names fi Js) = stexts CoCoA4 names fi Js.
Proof.
  destruct Js as [|J Js]; auto. cbn [stexts shown]. destruct (ring_first CoCoA4 names (sbare CoCoA4 names J ++ stexts CoCoA4 names false Js)) as [c [q [Y1 [Y2 _]]]]; [unfold is_common; auto|].
  rewrite Y1. now apply eat_nonspace.
Qed.
Lemma more_cocoa m names : legal_names names -> format_fits m CoCoA4 names [] -> forall Js done s fuel, Forall (fun J => readable m CoCoA4 (names, J)) Js ->
  eat s = eat (stexts CoCoA4 names false Js) -> length Js < fuel ->
  exists done', common_readMore m CoCoA4 fuel (IC names None false done) s = Ok (IC names None false done', []) /\
    big_ideals (IC names None false done') = big_ideals (IC names None false done) ++ map (pair names) Js.
Proof.
  intros L N. induction Js as [|J Js IH]; intros done s fuel F E K; (destruct fuel as [|fuel]; [cbn in K; lia|]); cbn [common_readMore].
  - cbn [stexts] in E. unfold hasMoreInput. rewrite E. cbn. exists done. split; auto. now rewrite app_nil_r.
  - inversion F as [|? ? F1 F2]; subst. cbn [stexts shown] in E. set (rest := stexts CoCoA4 names false Js) in *.
    destruct (ring_first CoCoA4 names (sbare CoCoA4 names J ++ rest)) as [c [r [X1 [X2 X3]]]]; [unfold is_common; auto|]. rewrite X1, eat_nonspace in E by auto.
    unfold hasMoreInput. rewrite E. rewrite (X3 (c :: r)) by (now apply eat_nonspace).
    rewrite (ring_read m CoCoA4 names (c :: r) (sbare CoCoA4 names J ++ rest)); [|unfold is_common; auto|exact L|exact N|now rewrite X1]. cbn [rbind consumeRing ic_cur].
    destruct (sbare_step m names J done (nl :: sbare CoCoA4 names J ++ rest) rest F1 eq_refl) as [done' [r' [A [B D]]]].
    match goal with |- context [fmt_readBareIdeal ?a ?b ?c ?d] => rewrite (A : fmt_readBareIdeal a b c d = _) end. cbn [rbind].
    destruct (IH done' r' fuel F2) as [done'' [Z1 Z2]]; auto; [cbn in K; lia|]. exists done''. split; [exact Z1|]. rewrite Z2, B, <- app_assoc. reflexivity.
Qed.
Lemma cocoa_list m names Js : legal_names names -> format_fits m CoCoA4 names [] -> Forall (fun J => readable m CoCoA4 (names, J)) Js ->
  read_ideals m CoCoA4 (match Js with [] => ringt CoCoA4 names | _ => stexts CoCoA4 names true Js end) = Ok (names, map (pair names) Js).
Proof.
  intros L N R. unfold read_ideals.
  assert (C : is_common CoCoA4) by (unfold is_common; auto).
  assert (H : exists done, common_readIdeals m CoCoA4 ic_new (" "%char :: match Js with [] => ringt CoCoA4 names | _ => stexts CoCoA4 names true Js end)
     = Ok (IC names None false done, []) /\ big_ideals (IC names None false done) = map (pair names) Js).
  { unfold common_readIdeals. destruct Js as [|J Js].
    - rewrite (ring_read m CoCoA4 names _ []) by (rewrite ?app_nil_r; auto). cbn. exists []. auto.
    - inversion R as [|? ? R1 R2]; subst. cbn [stexts shown]. set (rest := stexts CoCoA4 names false Js).
      rewrite (ring_read m CoCoA4 names _ (sbare CoCoA4 names J ++ rest)); auto.
      cbn [rbind consumeRing ic_cur ic_new ic_require ic_ideals].
      destruct (sbare_first names J rest) as [c [r [X1 [X2 X3]]]].
      assert (hasMoreInput (nl :: sbare CoCoA4 names J ++ rest) = (true, sbare CoCoA4 names J ++ rest)) as ->.
      { unfold hasMoreInput. rewrite X1. change (eat (nl :: c :: r)) with (eat (c :: r)). now rewrite eat_nonspace. }
      destruct (sbare_step m names J [] (sbare CoCoA4 names J ++ rest) rest R1 eq_refl) as [done' [r' [A [B D]]]]. rewrite A. cbn [rbind].
      destruct (more_cocoa m names L N Js done' r' (S (length r')) R2) as [done'' [Z1 Z2]]; auto.
      + assert (EL : length Js <= length (eat rest)) by (unfold rest; rewrite stexts_eat; apply stexts_length). rewrite <- D in EL. pose proof (eat_le r'). lia.
      + exists done''. rewrite Z1. split; [reflexivity|]. rewrite Z2, B. reflexivity. }
  destruct H as [done [A B]]. unfold handler_readIdeals. rewrite A. cbn [rbind]. unfold expectEOF. cbn [eat rbind ic_names]. now rewrite B.
Qed.
Lemma last_same {A} (x : A) : forall l, (forall y, In y l -> y = x) -> last l x = x.
Proof. induction l as [|y l IH]; intros H; auto. cbn. destruct l; [apply H; cbn; auto|]. apply IH. intros z Hz. apply H. cbn; auto. Qed.
Lemma list_read m f names tr Tss : (42 <= m)%Z -> length names = length tr -> Forall (ok_terms tr) Tss -> legal_names names -> format_fits m f names [] ->
  Forall (fun J => readable m f (names, J)) (map (map (t_value tr)) Tss) ->
  exists out, written f (list_events names tr Tss) = Ok out /\ read_ideals m f out = Ok (names, map (pair names) (map (map (t_value tr)) Tss)).
Proof.
  intros M A F L N R. assert (f = CoCoA4 \/ f <> CoCoA4) as [-> | X] by (destruct f; auto; right; discriminate).
  - eexists. split; [rewrite list_common by (unfold is_common; auto); reflexivity|]. pose proof (cocoa_list m names _ L N R) as Q. now destruct Tss.
  - rewrite list_text by auto. destruct (list_round m f names (map (pair names) (map (map (t_value tr)) Tss))) as [out [W E]]; auto.
    + intros E. congruence.
    + rewrite Forall_forall in *. intros J H. apply in_map_iff in H. destruct H as [K [<- H]]. exact (R K H).
    + exists out. split; auto. rewrite E. do 2 f_equal. unfold last_names. apply last_same. intros y H. apply in_map_iff in H. destruct H as [K [<- H]]. apply in_map_iff in H. now destruct H as [K' [<- _]].
Qed.
