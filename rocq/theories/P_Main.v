(** The command line. *)
From Coq Require Import String Ascii.
From Coq Require Import List Arith Bool ZArith Lia.
Import ListNotations.
From Verif Require Import M_Names M_IO Spec_Names Spec_Cli3 P_Names P_Cli12 M_Main Spec_Main.
Local Open Scope nat_scope.
Local Notation length := List.length.

(** ** Numbers *)
Lemma white_space_iff c : isspace c = true <-> white_space c.
Proof. unfold white_space. destruct c as [[] [] [] [] [] [] [] []]; vm_compute; split; intros H; try discriminate; try tauto; intuition discriminate. Qed.
Lemma digit_iff c d : digit c d <-> isdigit c = true /\ d = Z.of_nat (code c - 48).
Proof.
  split.
  - intros (k & Hk & -> & ->). do 10 (destruct k as [|k]; [vm_compute; auto|]); lia.
  - intros [H ->]. exists (code c - 48). unfold isdigit, within in H. apply andb_true_iff in H. destruct H as [H1 H2]. apply Nat.leb_le in H1, H2.
    split; [lia|]. split; auto. replace (48 + (nat_of_ascii c - 48)) with (nat_of_ascii c) by lia. symmetry. apply ascii_nat_embedding.
Qed.
Lemma space_not_digit c : isspace c = true -> isdigit c = false.
Proof. destruct c as [[] [] [] [] [] [] [] []]; vm_compute; congruence. Qed.
Lemma set_str_digits_spec s : forall z z', set_str_digits z s = Some z' <-> digits z s z'.
Proof.
  induction s as [|c s IH]; intros z z'; cbn [set_str_digits].
  - split; [intros [= ->]; constructor|intros H; inversion H; auto].
  - destruct (isspace c) eqn:E1.
    + rewrite IH. split; intros H; [now apply digits_space; [apply white_space_iff|]|].
      inversion H as [|? ? ? ? _ D|? ? ? ? ? D _]; subst; auto. apply digit_iff in D. rewrite space_not_digit in D by auto. now destruct D.
    + destruct (isdigit c) eqn:E2.
      * rewrite IH. split; intros H.
        -- eapply digits_digit; [apply digit_iff; eauto|auto].
        -- inversion H as [|? ? ? ? W _|? ? ? ? ? D D']; subst; [apply white_space_iff in W; congruence|]. apply digit_iff in D. destruct D as [_ ->]. auto.
      * split; [discriminate|]. intros H. inversion H as [|? ? ? ? W _|? ? ? ? ? D D']; subst; [apply white_space_iff in W; congruence|]. apply digit_iff in D. destruct D; congruence.
Qed.
Lemma eat_split s : exists space, Forall white_space space /\ s = space ++ eat s /\ match eat s with c :: _ => isspace c = false | [] => True end.
Proof.
  induction s as [|c s IH]; cbn [eat].
  - exists []. auto.
  - destruct (isspace c) eqn:E.
    + destruct IH as (space & H1 & H2 & H3). exists (c :: space). split; [constructor; auto; now apply white_space_iff|]. split; auto. cbn. now rewrite <- H2.
    + exists []. auto.
Qed.
Lemma eat_app space s : Forall white_space space -> match s with c :: _ => isspace c = false | [] => True end -> eat (space ++ s) = s.
Proof.
  induction space as [|c space IH]; cbn [app eat]; intros W H.
  - destruct s as [|c s]; auto. cbn [eat]. now rewrite H.
  - rewrite (proj2 (white_space_iff c) (Forall_inv W)). apply IH; auto. now apply Forall_inv_tail in W.
Qed.
Lemma digit_not_space c d : digit c d -> isspace c = false.
Proof. intros H. apply digit_iff in H. destruct H as [H _]. destruct (isspace c) eqn:E; auto. apply space_not_digit in E. congruence. Qed.
Lemma unsigned_spec s z : (match s with c :: _ => if isdigit c then set_str_digits 0%Z s else None | [] => None end) = Some z <->
  exists c body, s = c :: body /\ (exists d, digit c d) /\ digits 0%Z (c :: body) z.
Proof.
  destruct s as [|c s]; [split; [discriminate|intros (? & ? & ? & _); discriminate]|]. destruct (isdigit c) eqn:E.
  - rewrite set_str_digits_spec. split.
    + intros H. exists c, s. split; auto. split; auto. eexists. apply digit_iff. eauto.
    + intros (? & ? & [= -> ->] & _ & H). exact H.
  - split; [discriminate|]. intros (? & ? & [= -> ->] & [d D] & _). apply digit_iff in D. destruct D; congruence.
Qed.
Lemma set_str_cases s : set_str s =
  let unsigned s := match s with c :: _ => if isdigit c then set_str_digits 0%Z s else None | [] => None end in
  if starts_with_dash (eat s) then option_map Z.opp (unsigned (tl (eat s))) else unsigned (eat s).
Proof.
  unfold set_str. destruct (eat s) as [|c s']; auto. destruct c as [[] [] [] [] [] [] [] []]; reflexivity.
Qed.
Lemma dash_iff t : starts_with_dash t = true <-> is_option t.
Proof.
  unfold is_option. destruct t as [|c t]; [split; [discriminate|intros [p H]; discriminate]|].
  split.
  - intros H. exists t. destruct c as [[] [] [] [] [] [] [] []]; try discriminate. reflexivity.
  - intros [p [= -> _]]. reflexivity.
Qed.
Lemma set_str_spec s z : set_str s = Some z <-> number s z.
Proof.
  rewrite set_str_cases. cbv zeta. unfold number. destruct (starts_with_dash (eat s)) eqn:E.
  - apply dash_iff in E. destruct E as [p E]. rewrite E. cbn [tl]. split.
    + intros H. destruct (match p with c :: _ => if isdigit c then set_str_digits 0%Z p else None | [] => None end) as [z0|] eqn:U; [|discriminate]. injection H as <-. apply unsigned_spec in U. destruct U as (c & body & -> & D & B).
      destruct (eat_split s) as (space & S1 & S2 & _). exists space, c, body, z0. split; auto. split; auto. split; auto. right. split; auto. now rewrite <- E.
    + intros (space & c & body & z0 & S & [d D] & B & [[-> ->]|[-> ->]]).
      * rewrite eat_app in E; [|auto|cbn; eapply digit_not_space; eauto]. injection E as -> _. apply digit_iff in D. destruct D. discriminate.
      * rewrite eat_app in E; [|auto|reflexivity]. injection E as <-. rewrite (proj2 (unsigned_spec (c :: body) z0)); [reflexivity|]. exists c, body. eauto.
  - split.
    + intros U. apply unsigned_spec in U. destruct U as (c & body & H & D & B).
      destruct (eat_split s) as (space & S1 & S2 & _). exists space, c, body, z. split; auto. split; auto. split; auto. left. split; auto. now rewrite <- H.
    + intros (space & c & body & z0 & S & [d D] & B & [[-> ->]|[-> ->]]).
      * rewrite eat_app; [|auto|cbn; eapply digit_not_space; eauto]. apply (proj2 (unsigned_spec (c :: body) z0)). exists c, body. eauto.
      * rewrite eat_app in E; [|auto|reflexivity]. discriminate.
Qed.
Lemma processArguments_spec v args : match processArguments v args with Ok w => argument v args w | OtherError => forall w, ~ argument v args w | _ => False end.
Proof.
  destruct v as [b|z|s]; cbn [processArguments argument].
  - destruct args as [|arg [|arg2 args]]; auto.
    + destruct (str_dec arg (lit "off")) as [->|N1]; auto. destruct (str_dec arg (lit "on")) as [->|N2]; auto. intros w [[H _]|[[H _]|[H _]]]; congruence.
    + intros w [[H _]|[[H _]|[H _]]]; congruence.
  - destruct args as [|arg [|arg2 args]]; [intros w (? & ? & ? & _); discriminate| |intros w (? & ? & ? & _); discriminate].
    destruct (set_str arg) as [z'|] eqn:E.
    + apply set_str_spec in E as E'. unfold fits_uint. destruct ((0 <=? z')%Z && (z' <? 2 ^ 32)%Z) eqn:F.
      * apply andb_true_iff in F. destruct F as [F1 F2]. apply Z.leb_le in F1. apply Z.ltb_lt in F2. exists arg, z'. auto.
      * intros w (s & z1 & [= <-] & H & R & _). apply set_str_spec in H. rewrite E in H. injection H as <-. apply andb_false_iff in F. rewrite Z.leb_nle, Z.ltb_nlt in F. lia.
    + intros w (s & z1 & [= <-] & H & R & _). apply set_str_spec in H. congruence.
  - destruct args as [|arg [|arg2 args]]; [intros w (? & ? & _); discriminate| |intros w (? & ? & _); discriminate]. eauto.
Qed.
Lemma argument_unique v args w w' : argument v args w -> argument v args w' -> w = w'.
Proof.
  destruct v as [b|z|s]; cbn [argument].
  - intros [[A ->]|[[A ->]|[A ->]]] [[B ->]|[[B ->]|[B ->]]]; auto; rewrite A in B; vm_compute in B; discriminate.
  - intros (s & z1 & -> & N1 & _ & ->) (s' & z2 & [= <-] & N2 & _ & ->). apply set_str_spec in N1, N2. congruence.
  - intros (s1 & -> & ->) (s2 & [= <-] & ->). auto.
Qed.
(** ** Values *)
Definition same_kind (v w : value) : Prop :=
  match v, w with VBool _, VBool _ | VInt _, VInt _ | VStr _, VStr _ => True | _, _ => False end.
Lemma argument_kind v args w : argument v args w -> same_kind v w.
Proof. destruct v; cbn; [intros [[_ ->]|[[_ ->]|[_ ->]]]; cbn; auto|intros (? & ? & _ & _ & _ & ->); cbn; auto|intros (? & _ & ->); cbn; auto]. Qed.
Lemma argument_of_kind v v' args w : same_kind v v' -> argument v args w <-> argument v' args w.
Proof. destruct v, v'; cbn; tauto. Qed.
(** The values after some settings *)
Definition updated (options settings : list (str * value)) : list (str * value) :=
  map (fun y => (fst y, match value_of [] settings (fst y) with Some w => w | None => snd y end)) options.
Lemma find_app {A} (f : A -> bool) l l' : find f (l ++ l') = match find f l with Some x => Some x | None => find f l' end.
Proof. induction l as [|x l IH]; cbn; auto. destruct (f x); auto. Qed.
Lemma value_of_snoc options settings x w y : value_of options (settings ++ [(x, w)]) y = if str_dec x y then Some w else value_of options settings y.
Proof. unfold value_of. rewrite rev_app_distr. cbn [rev app find fst]. destruct (str_dec x y); auto. Qed.
Lemma value_of_split options settings x :
  value_of options settings x = match value_of [] settings x with Some w => Some w | None => value_of options [] x end.
Proof. unfold value_of. rewrite app_nil_r. rewrite find_app. cbn [rev app]. destruct (find _ (rev settings)) as [[]|]; auto. Qed.
Lemma value_of_nil : forall x, value_of [] [] x = None.
Proof. reflexivity. Qed.
Lemma value_of_in options x v : NoDup (map fst options) -> (value_of options [] x = Some v <-> In (x, v) options).
Proof.
  unfold value_of. cbn [rev app]. induction options as [|[y w] options IH]; cbn [map fst find In]; intros N; [split; [discriminate|tauto]|].
  inversion N as [|? ? N1 N2]; subst. destruct (str_dec y x) as [->|D].
  - split; [intros [= ->]; auto|]. intros [[= ->]|H]; auto. exfalso. apply N1. apply in_map_iff. exists (x, v). auto.
  - rewrite IH by auto. split; [auto|]. intros [[= -> _]|H]; [congruence|auto].
Qed.
Lemma updated_names options settings : map fst (updated options settings) = map fst options.
Proof. unfold updated. rewrite map_map. apply map_ext. auto. Qed.
Lemma updated_value options settings x : NoDup (map fst options) ->
  forall v, In (x, v) (updated options settings) <-> In x (map fst options) /\ value_of options settings x = Some v.
Proof.
  intros N v. unfold updated. rewrite in_map_iff. rewrite value_of_split. split.
  - intros [[y w] [E H]]. cbn [fst snd] in E. injection E as -> E. split; [apply in_map_iff; exists (x, w); auto|].
    destruct (value_of [] settings x); [congruence|]. apply value_of_in; auto. congruence.
  - intros [H E]. apply in_map_iff in H. destruct H as [[y w] [Ey H]]. cbn in Ey. subst y. exists (x, w). split; auto. cbn [fst snd].
    destruct (value_of [] settings x) eqn:F; [congruence|]. apply value_of_in in H; auto. congruence.
Qed.
Lemma processOption_spec options settings x args : NoDup (map fst options) -> forall v, In (x, v) options -> same_kind v (match value_of [] settings x with Some w => w | None => v end) ->
  processOption (updated options settings) x args =
  match processArguments v args with Ok w => Ok (updated options (settings ++ [(x, w)])) | r => LET _ := r IN Undefined end.
Proof.
  intros N v Hi K. assert (Q : processArguments v args = processArguments (match value_of [] settings x with Some w => w | None => v end) args).
  { destruct v, (match value_of [] settings x with Some w => w | None => _ end); cbn in K; try destruct K; reflexivity. }
  rewrite Q. clear Q K. induction options as [|[y u] options IH]; [destruct Hi|]. cbn [map fst] in N. inversion N as [|? ? N1 N2]; subst.
  cbn [updated map fst snd processOption]. destruct (str_dec y x) as [->|D].
  - destruct Hi as [[= ->]|Hi]; [|exfalso; apply N1, in_map_iff; exists (x, v); auto].
    destruct (processArguments _ args) as [w| | | | |]; cbn [rbind]; auto. f_equal. rewrite value_of_snoc. destruct (str_dec x x); [|congruence]. f_equal.
    unfold updated. apply map_ext_in. intros [z u] Hz. cbn [fst snd]. rewrite value_of_snoc. destruct (str_dec x z) as [->|]; auto. exfalso. apply N1, in_map_iff. exists (z, u). auto.
  - destruct Hi as [[= -> _]|Hi]; [congruence|]. fold (updated options settings). rewrite (IH N2 Hi).
    destruct (processArguments _ args) as [w| | | | |]; cbn [rbind]; auto. f_equal. rewrite value_of_snoc. destruct (str_dec x y); [congruence|]. reflexivity.
Qed.
(** ** Parsing *)
Lemma arguments_split tokens : Forall (fun a => ~ is_option a) (arguments tokens) /\ exists rest, tokens = arguments tokens ++ rest /\
  skipn (length (arguments tokens)) tokens = rest /\ match rest with t :: _ => is_option t | [] => True end.
Proof.
  induction tokens as [|t tokens [IH1 (rest & IH2 & IH3 & IH4)]]; cbn [arguments].
  - split; auto. exists []. auto.
  - destruct (starts_with_dash t) eqn:E.
    + split; auto. exists (t :: tokens). split; auto. split; auto. now apply dash_iff.
    + split; [constructor; auto; intros H; apply dash_iff in H; congruence|]. exists rest. cbn [app length skipn]. split; [congruence|auto].
Qed.
Lemma arguments_app args rest : Forall (fun a => ~ is_option a) args -> match rest with t :: _ => is_option t | [] => True end -> arguments (args ++ rest) = args.
Proof.
  induction args as [|a args IH]; cbn [app arguments]; intros F R.
  - destruct rest as [|t rest]; auto. cbn [arguments]. apply dash_iff in R. now rewrite R.
  - destruct (starts_with_dash a) eqn:E; [apply dash_iff in E; now apply Forall_inv in F|]. f_equal. apply IH; auto. now apply Forall_inv_tail in F.
Qed.
Lemma concat_starts options groups settings : Forall2 (asks options) groups settings -> match concat groups with t :: _ => is_option t | [] => True end.
Proof. intros [|g s gs ss (p & args & v & -> & _) _]; cbn; auto. now exists p. Qed.
(** The settings so far have the right kinds. *)
Definition kinds (options settings : list (str * value)) : Prop :=
  Forall (fun y => exists v, In (fst y, v) options /\ same_kind v (snd y)) settings.
Lemma same_kind_refl v : same_kind v v.
Proof. destruct v; cbn; auto. Qed.
Lemma in_functional {A} (options : list (str * A)) x v w : NoDup (map fst options) -> In (x, v) options -> In (x, w) options -> v = w.
Proof.
  induction options as [|[y u] options IH]; cbn [map fst In]; intros N; [tauto|]. inversion N as [|? ? N1 N2]; subst.
  intros [[= -> ->]|H] [[= E]|H']; subst; auto; exfalso; apply N1, in_map_iff; [exists (x, w)|exists (x, v)]; auto.
Qed.
Lemma kinds_value options settings x v : NoDup (map fst options) -> kinds options settings -> In (x, v) options ->
  same_kind v (match value_of [] settings x with Some w => w | None => v end).
Proof.
  intros N K Hi. unfold value_of. rewrite app_nil_r. destruct (find _ (rev settings)) as [[y w]|] eqn:E; [|apply same_kind_refl].
  apply find_some in E. destruct E as [E1 E2]. cbn [fst] in E2. destruct (str_dec y x) as [->|]; [|discriminate]. apply in_rev in E1.
  unfold kinds in K. rewrite Forall_forall in K. destruct (K _ E1) as (u & U1 & U2). cbn [fst snd] in *. now rewrite (in_functional options x v u N Hi U1).
Qed.
Lemma lookup_names (f : params) p : NoDup (map fst f) -> match getUniqueNameWithPrefix (map (fun x => (fst x, tt)) f) p with
  Found s => abbreviates (map fst f) p s | _ => forall x, ~ abbreviates (map fst f) p x end.
Proof.
  intros N. assert (E : map fst (map (fun x : str * value => (fst x, tt)) f) = map fst f) by (rewrite map_map; apply map_ext; auto).
  pose proof (lookup_abbreviates (map (fun x => (fst x, tt)) f) p) as H. rewrite E in H. exact (H N).
Qed.
Lemma parse_tokens_cons fuel f t tokens : parse_tokens (S fuel) f (t :: tokens) =
  if starts_with_dash t then
    match getUniqueNameWithPrefix (map (fun x => (fst x, tt)) f) (tl t) with
    | Found name => LET g := processOption f name (arguments tokens) IN parse_tokens fuel g (skipn (length (arguments tokens)) tokens)
    | _ => OtherError
    end
  else OtherError.
Proof. destruct t as [|c t]; auto. destruct c as [[] [] [] [] [] [] [] []]; reflexivity. Qed.
Theorem parse_spec options : NoDup (map fst options) -> forall fuel tokens settings, length tokens <= fuel -> kinds options settings ->
  match parse_tokens fuel (updated options settings) tokens with
  | Ok p => exists settings', command_line options tokens settings' /\ kinds options (settings ++ settings') /\ p = updated options (settings ++ settings')
  | OtherError => forall settings', ~ command_line options tokens settings'
  | _ => False
  end.
Proof.
  intros N. induction fuel as [|fuel IH]; intros tokens settings L K.
  - destruct tokens as [|t tokens]; [|cbn in L; lia]. cbn [parse_tokens]. exists []. rewrite app_nil_r. split; auto. exists []. auto.
  - destruct tokens as [|t tokens].
    { cbn [parse_tokens]. exists []. rewrite app_nil_r. split; auto. exists []. auto. }
    rewrite parse_tokens_cons. destruct (starts_with_dash t) eqn:E.
    2:{ intros settings' (groups & H & F). destruct F as [|g s gs ss (p & args & v & -> & _) F]; [discriminate|]. cbn in H. injection H as -> _. discriminate. }
    apply dash_iff in E. destruct E as [p ->]. cbn [tl]. assert (N' : NoDup (map fst (updated options settings))) by now rewrite updated_names.
    pose proof (lookup_names (updated options settings) p N') as LK. rewrite updated_names in LK.
    assert (HD : forall settings', command_line options (("-"%char :: p) :: tokens) settings' -> exists s ss, settings' = s :: ss /\
      asks options (("-"%char :: p) :: arguments tokens) s /\ command_line options (skipn (length (arguments tokens)) tokens) ss).
    { intros settings' (groups & H & F). destruct F as [|g s gs ss A F]; [discriminate|]. exists s, ss. split; auto. pose proof A as (p' & args & v & -> & A2 & A3 & A4 & A5).
      cbn [concat app] in H. injection H as <- ->. rewrite (arguments_app args (concat gs)); [|auto|eapply concat_starts; eauto]. split; auto.
      rewrite skipn_app, skipn_all, Nat.sub_diag. cbn [app skipn]. exists gs. auto. }
    destruct (getUniqueNameWithPrefix _ p) as [x| |names].
    2-3: intros settings' H; destruct (HD _ H) as (s & ss & _ & (p' & args & v & [= <- _] & A & _) & _); exact (LK _ A).
    pose proof LK as LK'. destruct LK' as [Hx _]. apply in_map_iff in Hx. destruct Hx as [[x' v] [Ex Hi]]. cbn in Ex. subst x'.
    rewrite (processOption_spec options settings x (arguments tokens) N v Hi (kinds_value options settings x v N K Hi)).
    pose proof (processArguments_spec v (arguments tokens)) as PA. destruct (processArguments v (arguments tokens)) as [w| | | | |]; try destruct PA; cbn [rbind].
    + destruct (arguments_split tokens) as [AS (rest & R1 & R2 & R3)].
      assert (K' : kinds options (settings ++ [(x, w)])).
      { apply Forall_app. split; auto. constructor; auto. exists v. split; auto. eapply argument_kind; eauto. }
      assert (L' : length (skipn (length (arguments tokens)) tokens) <= fuel). { rewrite skipn_length. cbn in L. lia. }
      specialize (IH (skipn (length (arguments tokens)) tokens) (settings ++ [(x, w)]) L' K').
      destruct (parse_tokens fuel (updated options (settings ++ [(x, w)])) _) as [q| | | | |]; auto.
      * destruct IH as (ss & (gs & C1 & C2) & C3 & ->). exists ((x, w) :: ss). rewrite <- app_assoc in *. cbn [app] in *. split; auto.
        exists ((("-"%char :: p) :: arguments tokens) :: gs). split.
        -- cbn [concat app]. f_equal. rewrite <- C1, R2. exact R1.
        -- constructor; auto. exists p, (arguments tokens), v. auto.
      * intros settings' H. destruct (HD _ H) as (s & ss & -> & (p' & args & v' & [= <- <-] & A2 & A3 & A4 & A5) & CL). exact (IH _ CL).
    + intros settings' H. destruct (HD _ H) as (s & ss & -> & (p' & args & v' & [= <- <-] & A2 & A3 & A4 & A5) & CL).
      rewrite (abbreviates_unique _ _ _ _ A2 LK) in A3. rewrite (in_functional options x v' v N A3 Hi) in A5. exact (PA _ A5).
Qed.
Lemma updated_nil options : updated options [] = options.
Proof. unfold updated. cbn. rewrite map_ext with (g := id); [apply map_id|]. intros []. reflexivity. Qed.
Theorem parse_updated options tokens : NoDup (map fst options) ->
  match parseCommandLine options tokens with
  | Ok p => exists settings, command_line options tokens settings /\ kinds options settings /\ p = updated options settings
  | OtherError => forall settings, ~ command_line options tokens settings
  | _ => False
  end.
Proof.
  intros N. unfold parseCommandLine. pose proof (parse_spec options N (length tokens) tokens [] (Nat.le_refl _) (Forall_nil _)) as H.
  rewrite updated_nil in H. exact H.
Qed.
Theorem p_command_line options tokens : NoDup (map fst options) ->
  match parseCommandLine options tokens with
  | Ok p => exists settings, command_line options tokens settings /\ map fst p = map fst options /\
      forall x v, In (x, v) p <-> In x (map fst options) /\ value_of options settings x = Some v
  | OtherError => forall settings, ~ command_line options tokens settings
  | _ => False
  end.
Proof.
  intros N. pose proof (parse_updated options tokens N) as H. destruct (parseCommandLine options tokens); auto.
  destruct H as (settings & H1 & _ & ->). exists settings. split; auto. split; [apply updated_names|]. intros x v. now apply updated_value.
Qed.
Theorem p_command_unique options tokens settings settings' : NoDup (map fst options) ->
  command_line options tokens settings -> command_line options tokens settings' -> settings = settings'.
Proof.
  intros N (gs & -> & F) (gs' & E & F'). revert gs' settings' E F'. induction F as [|g s gs ss A F IH]; intros gs' settings' E F'.
  - destruct F' as [|g' s' gs' ss' (p & args & v & -> & _) _]; auto. discriminate.
  - destruct F' as [|g' s' gs' ss' A' F']; [destruct A as (p & args & v & -> & _); discriminate|].
    destruct A as (p & args & v & -> & A2 & A3 & A4 & A5), A' as (p' & args' & v' & -> & B2 & B3 & B4 & B5). cbn [concat app] in E. injection E as <- E.
    assert (EA : args = args').
    { transitivity (arguments (args ++ concat gs)); [symmetry; apply arguments_app; auto; eapply concat_starts; eauto|]. rewrite E. apply arguments_app; auto. eapply concat_starts; eauto. }
    subst args'. apply app_inv_head in E. f_equal; [|eapply IH; eauto]. destruct s as [x w], s' as [x' w']. cbn [fst snd] in *.
    pose proof (abbreviates_unique _ _ _ _ A2 B2) as <-. rewrite (in_functional options x v' v N B3 A3) in B5. f_equal. eapply argument_unique; eauto.
Qed.
