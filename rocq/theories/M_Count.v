(** Model of the output formats count and null, and of the program when one of them is chosen: CountingIOHandler.cpp, NullIOHandler.cpp.
    The actions are those that print ideals, irrdecom, primdecom, alexdual, assoprimes, maxstandard, transform and intersection, and those that
    print polynomials, hilbert and ptransform. *)
From Coq Require Import String Ascii.
From Coq Require Import List Arith Bool ZArith.
Import ListNotations.
From Verif Require Import M_Term M_Ideal M_Slice M_Msm M_Api M_Hilbert M_Names M_IO M_Intersect M_Transform M_Actions M_Cli M_Opt M_Poly M_IOPoly M_Bigatti M_Scarf M_Orderer M_ScarfFacade M_Cli2 M_Cli3 M_Main.

Inductive sink := Counting | Nothing.

(** ** CountingConsumer *)
(** CountingIOHandler.cpp:91-93 doneConsuming *)
Definition count_done (count : Z) : text := z_str count ++ [nl].
(** CountingIOHandler.cpp:49-62, 91-93: consumeRing, beginConsuming, consume, doneConsuming; beginConsumingList and doneConsumingList are those
    of TermConsumer.cpp:29-33, which do nothing.  [count] is _termCount. *)
Fixpoint counted (count : Z) (es : list w_event) : text :=
  match es with
  | [] => []
  | WRing _ :: es' | WBeginList :: es' | WDoneList :: es' => counted count es'
  | WBegin :: es' => counted 0 es'
  | WTerm _ :: es' | WTTerm _ _ :: es' => counted (count + 1) es'
  | WDone :: es' => count_done count ++ counted count es'
  end.
(** CountingIOHandler.cpp:64-68 consume of an ideal *)
Definition count_ideal (I : list (list Z)) : text := count_done (0 + Z.of_nat (List.length I)).
(** CountingIOHandler.cpp:49-54, 70-83, 91-93: consumeRing and beginConsuming, consume of terms with coefficients, doneConsuming.  [count] is
    _termCount. *)
Fixpoint count_stream {A} (count : Z) (ts : list A) : text :=
  match ts with [] => count_done count | _ :: ts' => count_stream (count + 1) ts' end.
(** CountingIOHandler.cpp:85-89 consume of a polynomial *)
Definition count_polynomial (p : bpoly) : text := count_done (0 + Z.of_nat (List.length p)).

(** ** The consumers in front of it *)
(** CommonParamsHelper.cpp:128-147 makeTranslatedIdealConsumer and the writer: CountingIOHandler.cpp:112-114, NullIOHandler.cpp:47-49 with
    NullTermConsumer.cpp:20-46 *)
Definition sink_output (s : sink) (canon split : bool) (tr : translator) (es : list t_event) : res text :=
  match bind (if canon then cc_run tr cc_new es else Some es) (mapO (translating tr)) with
  | None => Undefined
  | Some ws => match s with Nothing => Ok [] | Counting => Ok (counted 0 (if split then splitter_run false ws else ws)) end
  end.
(** IOFacade.cpp:156-166 writeIdeal, which is given an ideal *)
Definition sink_ideal (s : sink) (I : list (list Z)) : res text := match s with Nothing => Ok [] | Counting => Ok (count_ideal I) end.
(** IOFacade.cpp:168-190 writeIdeals *)
Definition sink_ideals (s : sink) (Js : list (list str * list (list Z))) : res text :=
  match s with Nothing => Ok [] | Counting => Ok (concat (map (fun J => count_ideal (snd J)) Js)) end.
Definition sink_write (s : sink) (o : options) (split : bool) (r : option (translator * list t_event)) : res text :=
  match r with
  | None => Undefined
  | Some (tr, es) => sink_output s (M_Cli.o_canon o) split tr es
  end.

(** ** The actions; see M_Cli and M_Actions.  Both formats have lists of ideals (CountingIOHandler.cpp:103-105, NullIOHandler.cpp:38-40), and
    the output format of the options is not used. *)
(** IrreducibleDecomAction.cpp:50-58 *)
Definition irrdecom_sink (s : sink) (o : options) (encode : bool) (rnd : nat -> nat) (file : text) : res text :=
  LET (names, co) := cli_read o file IN sink_write s o (negb encode) (told_irrDecom (o_config o) rnd names co).
(** PrimaryDecomAction.cpp:43-48 *)
Definition primdecom_sink (s : sink) (o : options) (rnd : nat -> nat -> nat) (file : text) : res text :=
  LET (names, co) := cli_read o file IN sink_write s o false (told_primary (o_config o) rnd names co).
(** MaximalStandardAction.cpp:54-62 *)
Definition maxstandard_sink (s : sink) (o : options) (increment : bool) (rnd : nat -> nat) (file : text) : res text :=
  LET (names, co) := cli_read o file IN sink_write s o false (told_maxStandard increment (o_config o) rnd names co).
(** AssociatedPrimesAction.cpp:45-50 *)
Definition assoprimes_sink (s : sink) (o : options) (rnd : nat -> nat) (file : text) : res text :=
  LET (names, co) := cli_read o file IN sink_write s o false (told_primes (o_config o) rnd names co).
(** AlexanderDualAction.cpp:48-74 *)
Definition alexdual_sink (s : sink) (o : options) (rnd : nat -> nat) (file : text) : res text :=
  LET (J, point) := read_dual (o_max o) (in_format o file) file IN
  match cli_setIdeal (o_minimal o) (M_Cli.o_canon o) (fst J) (snd (to_nideal J)) with
  | None => Undefined
  | Some (names, co) =>
      match bind (match point with Some a => Some a | None => getLcmOfIdeal co end) (told_dual (o_config o) rnd names co) with
      | None => Undefined
      | Some None => OtherError
      | Some r => sink_write s o false r
      end
  end.
(** IntersectionAction.cpp:53-78 *)
Definition intersection_sink (s : sink) (max_ulong : Z) (input : format) (canon : bool) (file : text) : res text :=
  LET (names, Js) := read_ideals max_ulong input file IN
  match intersection canon names (map to_nideal Js) with
  | None => Undefined
  | Some J => sink_ideal s (snd (of_nideal J))
  end.
(** TransformAction.cpp:125-221 *)
Definition transform_sink (s : sink) (max_ulong : Z) (input : format) (o : transform_options) (file : text) : res text :=
  LET (names, Js) := read_ideals max_ulong input file IN
  match transform o names (map to_nideal Js) with
  | TOk (_, Rs) => sink_ideals s (map of_nideal Rs)
  | TErr => OtherError
  | TUndef => Undefined
  end.

(** ** Polynomials; both formats have them (CountingIOHandler.cpp:103-105, NullIOHandler.cpp:38-40) *)
(** See multigraded_output; the writer is that of CountingIOHandler.cpp:116-118 or NullIOHandler.cpp:51-53 with NullCoefTermConsumer.cpp:20-41 *)
Definition multigraded_sink (s : sink) (co : common) (r : option (list cterm)) : res text :=
  match bind r (fun ts => bind (translate_coefs (co_n co) (co_tr co) ts) (fun _ => Some ts)) with
  | None => Undefined
  | Some ts => match s with Nothing => Ok [] | Counting => Ok (count_stream 0 ts) end
  end.
(** See univariate_output *)
Definition univariate_sink (s : sink) (r : option (list (Z * list Z))) : res text :=
  match r with None => Undefined | Some q => match s with Nothing => Ok [] | Counting => Ok (count_stream 0 q) end end.
(** See hilbert_read *)
Definition hilbert_reads (o : hilbert_options) (file : text) : res (list str * common) :=
  LET J := read_ideal (ho_max o) (ho_input o file) file IN
  match cli_setIdeal (ho_minimal o) (ho_canon o) (fst J) (snd (to_nideal J)) with Some r => Ok r | None => Undefined end.
(** HilbertAction.cpp:66-71 with BigattiFacade.cpp:25-64 *)
Definition bigatti_sink (s : sink) (o : hilbert_options) (e : machine) (file : text) : res text :=
  LET pv := createPivot (ho_split o) (ho_widen o) IN
  LET (_, co) := hilbert_reads o file IN
  if ho_univariate o then univariate_sink s (bigatti_univariate (m_fuel e) (ho_simplify o) (ho_generic o) pv (m_uni e) (ho_canon o) co)
  else multigraded_sink s co (bigatti_terms (m_fuel e) (ho_simplify o) (ho_generic o) pv (m_arr e) (ho_canon o) co).
(** HilbertAction.cpp:73-79 *)
Definition slice_sink (s : sink) (o : hilbert_options) (e : machine) (file : text) : res text :=
  LET c := slice_config false (ho_indep o) (ho_simplify o) (ho_split o) IN
  LET (_, co) := hilbert_reads o file IN
  if ho_univariate o then univariate_sink s (slice_univariate c (m_rand e) co)
  else multigraded_sink s co (slice_terms c (m_rand e) (ho_canon o) co).
(** HilbertAction.cpp:81-86 with ScarfFacade.cpp:27-74 *)
Definition deform_sink (s : sink) (o : hilbert_options) (e : machine) (file : text) : res text :=
  LET eord := createOrder (ho_enum o) IN
  LET dord := createOrder (ho_deform o) IN
  LET (_, co) := hilbert_reads o file IN
  let n := co_n co in
  match bind (o_order (m_shuffleD e) n dord (co_ideal co)) (fun _ =>
             o_order (m_shuffleE e) n eord (fst (deformer n (ho_strong o) (M_ScarfFacade.ordered (m_shuffleD e) n dord) (co_ideal co)))) with
  | None => Undefined
  | Some _ =>
      let d := M_ScarfFacade.ordered (m_shuffleD e) n dord in
      let u := M_ScarfFacade.ordered (m_shuffleE e) n eord in
      if ho_univariate o then univariate_sink s (scarf_univariate (m_fuel e) (ho_strong o) d u (m_uni e) (ho_canon o) co)
      else multigraded_sink s co (scarf_feed (m_fuel e) (ho_strong o) d u (m_arr e) (ho_canon o) co)
  end.
(** HilbertAction.cpp:64-90 perform *)
Definition hilbert_sink (s : sink) (o : hilbert_options) (e : machine) (file : text) : res text :=
  if str_dec (ho_algorithm o) (lit "bigatti") then bigatti_sink s o e file
  else if str_dec (ho_algorithm o) (lit "slice") then slice_sink s o e file
  else if str_dec (ho_algorithm o) (lit "deform") then deform_sink s o e file
  else OtherError.
(** PolyTransformAction.cpp:55-74 with IOFacade.cpp:205-216 *)
Definition ptransform_sink (s : sink) (max_ulong : Z) (canon sort : bool) (input : format) (file : text) : res text :=
  LET (names, p) := read_polynomial max_ulong input file IN
  LET (_, p) := ptransform_change canon sort names p IN
  match s with Nothing => Ok [] | Counting => Ok (count_polynomial p) end.

(** ** The program *)
(** IOHandler.cpp:127-143 getIOHandlerFactory; the other formats are those of M_Main: [None] *)
Definition sinkFactory : list (str * option sink) :=
  [(lit "m2", None); (lit "cocoa4", None); (lit "singular", None); (lit "monos", None); (lit "newmonos", None); (lit "4ti2", None);
   (lit "null", Some Nothing); (lit "count", Some Counting)].
(** IOParameters.cpp:139-150, IOHandler.cpp:145-154: the output format is one of the two; [Undefined]: it is not, see frobby *)
Definition sink_of (name : str) : res sink :=
  if str_dec name (lit "input") then Undefined
  else LET s := created_with_prefix sinkFactory name IN match s with Some s => Ok s | None => Undefined end.
(** SliceParams.cpp:32-59, SliceLikeParams.cpp:34-37, CommonParams.cpp:59-72; see slice_options *)
Definition sink_options (w : world) (p : params) : res (options * sink) :=
  LET minimal := getBool p "minimal" IN
  LET canon := getBool p "canon" IN
  LET iformat := getString p "iformat" IN
  LET oformat := getString p "oformat" IN
  LET simplify := getBool p "simplify" IN
  LET split := getString p "split" IN
  LET independence := getBool p "independence" IN
  LET c := slice_config true independence simplify split IN
  LET i := format_or "autodetect" iformat IN
  LET s := sink_of oformat IN
  Ok (Opts (w_max w) i None canon minimal c, s).
(** IrreducibleDecomAction.cpp:50-58 *)
Definition irrdecom_performs (w : world) (p : params) (file : text) : res text :=
  LET (o, s) := sink_options w p IN LET encode := getBool p "encode" IN irrdecom_sink s o encode (w_rand w) file.
(** PrimaryDecomAction.cpp:43-48 *)
Definition primdecom_performs (w : world) (p : params) (file : text) : res text :=
  LET (o, s) := sink_options w p IN primdecom_sink s o (w_rands w) file.
(** AlexanderDualAction.cpp:48-74 *)
Definition alexdual_performs (w : world) (p : params) (file : text) : res text :=
  LET (o, s) := sink_options w p IN alexdual_sink s o (w_rand w) file.
(** AssociatedPrimesAction.cpp:45-50 *)
Definition assoprimes_performs (w : world) (p : params) (file : text) : res text :=
  LET (o, s) := sink_options w p IN assoprimes_sink s o (w_rand w) file.
(** MaximalStandardAction.cpp:54-62 *)
Definition maxstandard_performs (w : world) (p : params) (file : text) : res text :=
  LET (o, s) := sink_options w p IN LET increment := getBool p "increment" IN maxstandard_sink s o increment (w_rand w) file.
(** IOParameters.cpp:113-125, 139-150, 152-184: the format of the input; see both_formats *)
Definition one_format (p : params) (file : text) : res (format * sink) :=
  LET iformat := getString p "iformat" IN
  LET oformat := getString p "oformat" IN
  LET i := format_or "autodetect" iformat IN
  LET s := sink_of oformat IN
  Ok (the_format i file, s).
(** IntersectionAction.cpp:53-78 *)
Definition intersection_performs (w : world) (p : params) (file : text) : res text :=
  LET (f, s) := one_format p file IN
  LET canon := getBool p "canon" IN
  intersection_sink s (w_max w) f canon file.
(** TransformAction.cpp:125-221 *)
Definition transform_performs (w : world) (p : params) (file : text) : res text :=
  LET (f, s) := one_format p file IN
  LET canon := getBool p "canon" IN
  LET sort := getBool p "sort" IN
  LET unique := getBool p "unique" IN
  LET minimize := getBool p "minimize" IN
  LET deform := getBool p "deform" IN
  LET radical := getBool p "radical" IN
  LET product := getBool p "product" IN
  LET pure := getBool p "addPurePowers" IN
  LET trim := getBool p "trimVariables" IN
  LET transpose := getBool p "transpose" IN
  LET swap := getBool p "swap01" IN
  LET project := getInt p "projectVar" IN
  transform_sink s (w_max w) f (Build_transform_options canon sort unique minimize deform radical product pure trim transpose swap (Z.to_nat project)) file.
(** HilbertAction.cpp:64-90 *)
Definition hilbert_performs (w : world) (p : params) (file : text) : res text :=
  LET minimal := getBool p "minimal" IN
  LET canon := getBool p "canon" IN
  LET iformat := getString p "iformat" IN
  LET oformat := getString p "oformat" IN
  LET univariate := getBool p "univariate" IN
  LET algorithm := getString p "algorithm" IN
  LET split := getString p "split" IN
  LET independence := getBool p "independence" IN
  LET simplify := getBool p "simplify" IN
  LET generic := getBool p "genericBase" IN
  LET widen := getBool p "widenPivot" IN
  LET enum := getString p "enum" IN
  LET deform := getString p "deformationOrder" IN
  LET strong := getBool p "deformStrong" IN
  LET i := format_or "autodetect" iformat IN
  LET s := sink_of oformat IN
  hilbert_sink s (HO (w_max w) i None canon minimal univariate algorithm split independence simplify generic widen enum deform strong)
    (w_machine w) file.
(** PolyTransformAction.cpp:55-74 *)
Definition ptransform_performs (w : world) (p : params) (file : text) : res text :=
  LET (f, s) := one_format p file IN
  LET canon := getBool p "canon" IN
  LET sort := getBool p "sort" IN
  ptransform_sink s (w_max w) canon sort f file.
(** Action.cpp:65-95 getActionFactory; the actions that print neither ideals nor polynomials are not modelled here *)
Definition sinkActions : list (str * action) :=
  [(lit "hilbert", Act hilbert_params hilbert_performs); (lit "euler", not_modelled);
   (lit "irrdecom", Act irrdecom_params irrdecom_performs); (lit "primdecom", Act decomposition_params primdecom_performs);
   (lit "alexdual", Act decomposition_params alexdual_performs); (lit "assoprimes", Act decomposition_params assoprimes_performs);
   (lit "maxstandard", Act maxstandard_params maxstandard_performs); (lit "dimension", not_modelled);
   (lit "optimize", not_modelled); (lit "transform", Act transform_params transform_performs);
   (lit "ptransform", Act ptransform_params ptransform_performs); (lit "intersection", Act intersection_params intersection_performs);
   (lit "genideal", not_modelled); (lit "frobgrob", not_modelled); (lit "frobdyn", not_modelled);
   (lit "genfrob", not_modelled); (lit "analyze", not_modelled); (lit "latformat", not_modelled);
   (lit "latanal", not_modelled); (lit "help", not_modelled); (lit "test", not_modelled)].
(** main.cpp:35-50 frobbyMain, when the output format is count or null; see frobby *)
Definition frobby_sink (w : world) (args : list str) (file : text) : res text :=
  let (prefix, tokens) := match args with [] => (lit "help", []) | a :: tokens => (a, tokens) end in
  LET a := created_with_prefix sinkActions prefix IN
  LET p := parseCommandLine (a_params a) tokens IN
  a_perform a w p file.
