(** Planes of double triangles: what the theorems say. *)
From Coq Require Import List Arith Bool ZArith QArith Qcanon Lia.
Import ListNotations.
From Verif Require Import Spec_Run M_Api M_IO M_Matrix M_SatBinom M_Mlfb M_Planes Spec_Matrix Spec_SatBinom Spec_Mlfb Spec_Planes P_Matrix P_Mlfb2 P_Mlfb3 P_Planes P_Planes2 P_Planes3.
Local Open Scope nat_scope.
Local Notation length := List.length.

Theorem planes_right mat n gens lat : vectors n gens -> NoDup gens -> colCount mat = n -> independent (rowCount mat) (fun r c => get mat r c) n ->
  (forall g, In g gens -> in_row_space mat (rational g)) -> newGrobLat mat n gens = Ok lat ->
  NoDup (computePlanes n gens (gl_h lat)) /\ forall a b s, In (a, b, s) (computePlanes n gens (gl_h lat)) <-> double_triangle n gens a b s.
Proof.
  intros V N C Ind Span E. destruct (sums_right mat n gens V N C Ind Span) as (lat' & E' & _ & S & _). assert (lat' = lat) by congruence. subst lat'. apply planes_found; auto.
Qed.
Theorem triangles_right n gens a b s : legal_config default_config ->
  (let points := [nth a gens []; nth b gens []; nth s gens []] in
   let (interior, boundary) := tri_neighbors n gens a b s in
   (NoDup interior /\ forall p, In p interior <-> exists k, p = Some k /\ k < length gens /\ in_interior n points (nth k gens [])) /\
   (NoDup boundary /\ forall p, In p boundary <-> p = None \/ exists k, p = Some k /\ k < length gens /\ in_body n points (nth k gens []) /\ ~ in_interior n points (nth k gens []))) /\
  forall rnd bodies, vectors n gens -> one_sided n gens -> a < length gens -> s < length gens -> computeMlfbs rnd n gens = Ok bodies ->
    forall c, In c (sideMlfbs bodies a s) <-> In c bodies /\ forall k, In k [a; s] -> forall i, i < n -> (coordinate (nth k gens []) i <= coordinate (ml_rhs c) i)%Z.
Proof.
  intros D. split; [exact (tri_right n gens a b s)|]. intros rnd bodies V O Ha Hs E c. rewrite side_right.
  destruct (bodies_right rnd n gens D V O) as (bodies' & E' & _ & _ & P). assert (bodies' = bodies) by congruence. subst bodies'. split.
  - intros (B & X & Y). split; auto. pose proof (proj1 (proj2 (P c B))) as Q. intros k [<-|[<-|[]]].
    + apply Q in X. destruct X as [X|(k & X & _ & Z)]; [discriminate|]. injection X as <-. exact Z.
    + apply Q in Y. destruct Y as [Y|(k & Y & _ & Z)]; [discriminate|]. injection Y as <-. exact Z.
  - intros (B & X). split; auto. pose proof (proj1 (proj2 (P c B))) as Q. split; apply Q; right; eexists; (split; [reflexivity|]); split; auto; apply X; simpl; auto.
Qed.
Theorem plane_right mat n gens lat a b : vectors n gens -> NoDup gens -> colCount mat = n -> independent (rowCount mat) (fun r c => get mat r c) n ->
  (forall g, In g gens -> in_row_space mat (rational g)) -> newGrobLat mat n gens = Ok lat -> rowCount mat = 3 ->
  a < length gens -> b < length gens -> not_on_a_line n (nth a gens []) (nth b gens []) ->
  exists places, plane_places (gl_h lat) (length gens) a b = Ok places /\ length places = length gens /\
    (forall k, k < length gens -> (nth k places UnderPlane = InPlane <-> on_plane n (nth a gens []) (nth b gens []) (nth k gens []))) /\
    (forall k l, k < length gens -> l < length gens -> nth k places UnderPlane <> InPlane -> nth l places UnderPlane <> InPlane ->
      (nth k places UnderPlane = nth l places UnderPlane <-> same_side n (nth a gens []) (nth b gens []) (nth k gens []) (nth l gens []))) /\
    forall c, NoDup (ml_points c) -> (forall k, In (Some k) (ml_points c) -> k < length gens) ->
      exists l, NoDup l /\ (forall p, In p l <-> In p (ml_points c) /\ on_plane n (nth a gens []) (nth b gens []) (point_of n gens p)) /\
        getType places c = length l /\ (isPivot places c = true <-> length l = 1 \/ length l = 3) /\ (is22 places c = true <-> length l = 2) /\
        (isFlat places c = true <-> length l = 4).
Proof.
  intros V N C Ind Span E R Ha Hb L. destruct (sums_right mat n gens V N C Ind Span) as (lat' & E' & (H1 & H2 & H3) & _). assert (lat' = lat) by congruence. subst lat'.
  destruct (places_right mat n gens (gl_h lat) a b R Ind H1 H2 H3 Ha Hb L) as (places & P1 & P2 & P3 & P4). exists places. repeat (split; [assumption|]).
  intros c Nc Rc. exists (filter (inPlane places) (ml_points c)). split; [apply NoDup_filter; auto|]. split.
  - intros p. rewrite filter_In. split; intros [X Y]; split; auto.
    + destruct p as [k|]; cbn [point_of]; unfold inPlane, getPlace in Y.
      * apply P3; auto. destruct (nth k places UnderPlane); congruence.
      * exists (fun _ => 0%Qc). intros i Hi. cbn [sum]. unfold rational. rewrite nth_repeat. change (Q2Qc (inject_Z 0)) with 0%Qc. ring.
    + unfold inPlane. destruct p as [k|]; cbn [point_of getPlace] in *; auto. apply P3 in Y; auto. rewrite Y. reflexivity.
  - unfold isPivot, is22, isFlat. rewrite type_filter, orb_true_iff, !Nat.eqb_eq. tauto.
Qed.
