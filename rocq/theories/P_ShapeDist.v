(** C92: distance of two shapes. *)
From Coq Require Import Reals Lra Lia List Bool.
From Verif Require Import VecR Motion Prim P_Prim ShapeBV P_ShapeBV HalfBV HalfQuery P_HalfQuery ShapePair P_ShapePair ShapeDist.
From Verif Require Dispatch P_Dispatch MeshFlat.
Open Scope R_scope.

Section Exact.
Variable k : R.
(** Sizes that are not negative; for two capsules also the conditions of C50: no denominator of the axis distance within the tolerance
    of zero unless it is zero, and radii not below the tolerance *)
Definition dist_posed (g1 : geom) (X1 : tf) (g2 : geom) (X2 : tf) : Prop :=
  match g1, g2 with
  | GSphere r1, GSphere r2 => 0 <= r1 /\ 0 <= r2
  | GSphere r1, GCapsule lz r => 0 <= r1 /\ 0 <= lz /\ 0 <= r
  | GSphere r1, GBox side => 0 <= r1 /\ posside side
  | GSphere r1, GCyl lz r => 0 <= r1 /\ 0 <= lz /\ 0 <= r
  | GCapsule lz1 r1, GCapsule lz2 r2 => 0 <= r1 /\ 0 <= r2 /\ 0 <= lz1 /\ 0 <= lz2 /\ k <= r1 + r2 /\
      let D1 := vscale lz1 (col 2 (tf_rot X1)) in let D2 := vscale lz2 (col 2 (tf_rot X2)) in
      clear_of k (norm2 D1) /\ clear_of k (norm2 D2) /\ clear_of k (norm2 D1 * norm2 D2 - dot D1 D2 * dot D1 D2)
  | _, _ => False
  end.
Definition capsules (g1 g2 : geom) : Prop := match g1, g2 with GCapsule _ _, GCapsule _ _ => True | _, _ => False end.

(** A right answer: apart, the least distance and points of the two sets at that distance; otherwise a distance that is not positive,
    and except for two capsules it is -1 with the origin for both points *)
Definition dist_right (cc : Prop) (A B : v3 -> Prop) (g : gap) : Prop := let '(d, p1, p2) := g in
  (0 < d /\ true_dist A B d p1 p2 /\ ~ meets A B) \/ (d <= 0 /\ meets A B /\ (~ cc -> g = (-1, vzero, vzero))).

Lemma true_dist_apart : forall A B d p1 p2, 0 < d -> true_dist A B d p1 p2 -> ~ meets A B.
Proof. intros A B d p1 p2 H (_ & _ & _ & M) (q & a & b). specialize (M q q a b). rewrite dist_refl in M. lra. Qed.
Lemma right_sphere : forall (cc : Prop) A B A' B' o, (forall q, A q <-> A' q) -> (forall q, B q <-> B' q) ->
  match o with Some (d, p1, p2) => 0 < d /\ true_dist A B d p1 p2 | None => exists q, A q /\ B q end -> dist_right cc A' B' (or_meeting o).
Proof.
  intros cc A B A' B' [((d & p1) & p2)|] EA EB H; cbn.
  - destruct H as (P & T). apply (true_dist_ext _ _ _ _ _ _ _ EA EB) in T. left. split; [exact P|]. split; [exact T|]. apply (true_dist_apart _ _ _ _ _ P T).
  - right. split; [lra|]. split; [|reflexivity]. destruct H as (q & a & b). exists q. split; [apply EA, a|apply EB, b].
Qed.
Lemma cap_dir : forall lz X, vsub (cap_end lz X (-1)) (cap_end lz X 1) = vscale (- lz) (col 2 (tf_rot X)).
Proof. intros lz [A T]. unfold cap_end, col. cbn [tf_rot tf_tr]. destruct A as [a b c], a, b, c, T. unfold vsub, vadd, vscale. cbn. f_equal; field. Qed.

Lemma dist_alg_right : forall g1 X1 g2 X2, ortho (tf_rot X1) -> ortho (tf_rot X2) -> dist_posed g1 X1 g2 X2 ->
  exists g, dist_alg k g1 X1 g2 X2 = Some g /\ dist_right (capsules g1 g2) (placed X1 (gset g1)) (placed X2 (gset g2)) g.
Proof.
  intros g1 X1 g2 X2 O1 O2 H.
  destruct g1 as [r1| | |lz1 r1| | | | |]; try (exfalso; exact H); destruct g2 as [r2| |side|lz2 r2|lz2 r2| | | |]; try (exfalso; exact H); cbn [dist_alg gset]; (eexists; split; [reflexivity|]).
  - destruct H as (H1 & H2). eapply right_sphere; [intros q; apply ball_placed, O1|intros q; apply ball_placed, O2|apply ss_distance_exact; assumption].
  - destruct H as (H1 & H2). eapply right_sphere; [intros q; apply ball_placed, O1|intros q; apply iff_refl|apply sb_distance_exact; assumption].
  - destruct H as (H1 & H2 & H3). eapply right_sphere; [intros q; apply ball_placed, O1|intros q; apply iff_refl|apply sc_distance_exact; assumption].
  - destruct H as (H1 & H2 & H3). eapply right_sphere; [intros q; apply ball_placed, O1|intros q; apply iff_refl|apply sy_distance_exact; assumption].
  - destruct H as (H1 & H2 & H3 & H4 & Hk & Ca & Ce & Cd). cbv zeta in Ca, Ce, Cd. pose proof (cc_distance_exact k lz1 r1 X1 lz2 r2 X2 H1 H2 H3 H4 O1 O2) as C. cbv zeta in C. rewrite !cap_dir in C.
    assert (N : forall s v, norm2 (vscale (- s) v) = norm2 (vscale s v)) by (intros; unfold norm2, dot, vscale; cbn; ring).
    assert (D : forall s t u v, dot (vscale (- s) u) (vscale (- t) v) = dot (vscale s u) (vscale t v)) by (intros; unfold dot, vscale; cbn; ring).
    rewrite !N, !D in C. specialize (C Ca Ce Cd). destruct (cc_distance k lz1 r1 X1 lz2 r2 X2) as ((d & p1) & p2). destruct C as (M & T). unfold dist_right. cbn [capsules].
    destruct (Rle_dec d 0) as [L|L].
    + right. split; [exact L|]. split; [apply M, L|tauto].
    + left. split; [lra|]. assert (T' := T ltac:(lra) ltac:(lra)). split; [exact T'|]. apply (true_dist_apart _ _ d p1 p2); [lra|exact T'].
Qed.

Lemma dist_comm : forall a b, dist a b = dist b a.
Proof. intros a b. unfold dist, norm. f_equal. unfold norm2, dot, vsub. cbn. ring. Qed.
Lemma right_swap : forall cc cc' A B g, (cc' <-> cc) -> dist_right cc A B g -> dist_right cc' B A (swap_gap g).
Proof.
  intros cc cc' A B ((d & p1) & p2) E [(P & (a & b & E1 & M) & N)|(L & (q & a & b) & Z)]; cbn.
  - left. split; [exact P|]. split; [split; [exact b|split; [exact a|split; [rewrite dist_comm; exact E1|intros x y Hx Hy; rewrite dist_comm; apply M; assumption]]]|]. intros (q & Hq & Hq'). apply N. exists q. tauto.
  - right. split; [exact L|]. split; [exists q; tauto|]. intros Hc. rewrite E in Hc. specialize (Z Hc). injection Z as -> -> ->. reflexivity.
Qed.
Definition dist_ready (g1 : geom) (X1 : tf) (g2 : geom) (X2 : tf) : Prop := dist_posed g1 X1 g2 X2 \/ dist_posed g2 X2 g1 X1.
Lemma dist_solve_right : forall g1 X1 g2 X2, ortho (tf_rot X1) -> ortho (tf_rot X2) -> dist_ready g1 X1 g2 X2 ->
  exists g, dist_solve k g1 X1 g2 X2 = Some g /\ dist_right (capsules g1 g2) (placed X1 (gset g1)) (placed X2 (gset g2)) g.
Proof.
  intros g1 X1 g2 X2 O1 O2 [H|H]; unfold dist_solve.
  - destruct (dist_alg_right g1 X1 g2 X2 O1 O2 H) as (g & E & R). rewrite E. eauto.
  - destruct (dist_alg k g1 X1 g2 X2) as [g0|] eqn:E0.
    + assert (H' : dist_posed g1 X1 g2 X2).
      { destruct g1, g2; try discriminate E0; try (exfalso; exact H); cbn in H |- *; [tauto|]. destruct H as (A & B & C & D & K & Ca & Ce & Cd).
        repeat (split; [assumption || (rewrite Rplus_comm; assumption)|]).
        match type of Cd with clear_of _ (?a * ?b - ?c * ?c) => match goal with |- clear_of _ (_ * _ - ?e * _) => replace e with c by (unfold dot, vscale; cbn; ring) end end.
        rewrite (Rmult_comm (norm2 _)). exact Cd. }
      destruct (dist_alg_right g1 X1 g2 X2 O1 O2 H') as (g & E & R). rewrite E0 in E. injection E as ->. eauto.
    + destruct (dist_alg_right g2 X2 g1 X1 O2 O1 H) as (g & E & R). rewrite E. cbn. eexists. split; [reflexivity|]. apply (right_swap (capsules g2 g1)); [|exact R]. destruct g1, g2; cbn; tauto.
Qed.

(** A sphere with a sphere, box, capsule or cylinder in either order, and two capsules.  A result that is not positive before is left
    as it is.  Otherwise: if the shapes have a point in common the result
    ends not positive; otherwise it ends as the smaller one of what it was and the least distance of the two sets, and if that was smaller it
    names the two objects and a point of each at that distance. *)
Theorem distance_pairs : forall (T : Type) g1 X1 g2 X2 (r : dres T) a b, ortho (tf_rot X1) -> ortho (tf_rot X2) -> dist_ready g1 X1 g2 X2 ->
  let A := placed X1 (gset g1) in let B := placed X2 (gset g2) in
  exists g, dist_solve k g1 X1 g2 X2 = Some g /\ let r' := pair_distance r a b g in
  (dmin r <= 0 -> r' = r) /\ (0 < dmin r ->
  (dmin r' <= 0 <-> meets A B) /\
  (meets A B -> ob1 r' = Some a /\ ob2 r' = Some b) /\
  (~ meets A B -> exists d p1 p2, true_dist A B d p1 p2 /\ dmin r' = Rmin (dmin r) d /\
     (d < dmin r -> r' = DRes d (Some a) (Some b) p1 p2) /\ (dmin r <= d -> r' = r))).
Proof.
  intros T g1 X1 g2 X2 r a b O1 O2 H A B. destruct (dist_solve_right g1 X1 g2 X2 O1 O2 H) as (g & E & R). exists g. split; [exact E|]. intros r'. fold A B in R.
  unfold r', pair_distance, dupdate. destruct (Rle_dec (dmin r) 0) as [L|L]; (split; [intros L'; (lra || reflexivity)|intros P]); [lra|]. destruct g as ((d & p1) & p2). destruct R as [(D & TD & N)|(D & M & _)].
  - destruct (Rlt_dec d (dmin r)) as [S|S]; cbn; (split; [split; intros; [lra|contradiction]|]); (split; [contradiction|]); intros _; exists d, p1, p2; (split; [exact TD|]).
    + split; [rewrite Rmin_right by lra; reflexivity|]. split; [reflexivity|lra].
    + split; [rewrite Rmin_left by lra; reflexivity|]. split; [lra|reflexivity].
  - destruct (Rlt_dec d (dmin r)) as [S|S]; [|lra]. cbn. split; [tauto|]. split; [auto|contradiction].
Qed.

(** The same distance in either order, and the same objects and points exchanged unless both are spheres or both capsules *)
Theorem distance_exchange : forall g1 X1 g2 X2, ortho (tf_rot X1) -> ortho (tf_rot X2) -> dist_ready g1 X1 g2 X2 ->
  exists d p1 p2 e q1 q2, dist_solve k g1 X1 g2 X2 = Some (d, p1, p2) /\ dist_solve k g2 X2 g1 X1 = Some (e, q2, q1) /\
  (~ meets (placed X1 (gset g1)) (placed X2 (gset g2)) -> e = d) /\ (dist_alg k g1 X1 g2 X2 = None \/ dist_alg k g2 X2 g1 X1 = None -> e = d /\ q1 = p1 /\ q2 = p2).
Proof.
  intros g1 X1 g2 X2 O1 O2 H. destruct (dist_solve_right g1 X1 g2 X2 O1 O2 H) as (((d & p1) & p2) & E & R). destruct (dist_solve_right g2 X2 g1 X1 O2 O1) as (((e & q2) & q1) & F & S); [destruct H; [right|left]; assumption|].
  exists d, p1, p2, e, q1, q2. split; [exact E|]. split; [exact F|]. split.
  - intros N. destruct R as [(_ & (a & b & E1 & M) & _)|(_ & M & _)]; [|contradiction]. destruct S as [(_ & (a' & b' & E1' & M') & _)|(_ & (q & x & y) & _)]; [|exfalso; apply N; exists q; tauto].
    pose proof (M q1 q2 b' a') as U. pose proof (M' p2 p1 b a) as V. rewrite dist_comm in U, V. lra.
  - unfold dist_solve in E, F. intros [Z|Z]; rewrite Z in E, F.
    + destruct (dist_alg k g2 X2 g1 X1) as [((d0 & u) & v)|]; [|discriminate E]. cbn in E. injection E as -> -> ->. injection F as -> -> ->. auto.
    + destruct (dist_alg k g1 X1 g2 X2) as [((d0 & u) & v)|]; [|discriminate F]. cbn in F. injection E as -> -> ->. injection F as -> -> ->. auto.
Qed.

(** Shapes with a point in common, of which one is a sphere: the distance is -1 however deep they are in each other, and the nearest
    points are the origin, wherever the shapes are *)
Theorem meeting_points_refuted : forall (T : Type) g1 X1 g2 X2 (r : dres T) a b, ortho (tf_rot X1) -> ortho (tf_rot X2) -> dist_ready g1 X1 g2 X2 -> ~ capsules g1 g2 -> 0 < dmin r ->
  meets (placed X1 (gset g1)) (placed X2 (gset g2)) ->
  exists g, dist_solve k g1 X1 g2 X2 = Some g /\ pair_distance r a b g = DRes (-1) (Some a) (Some b) vzero vzero.
Proof.
  intros T g1 X1 g2 X2 r a b O1 O2 H C P M. destruct (dist_solve_right g1 X1 g2 X2 O1 O2 H) as (g & E & R). exists g. split; [exact E|]. unfold pair_distance, dupdate.
  destruct (Rle_dec (dmin r) 0) as [L|_]; [lra|]. destruct g as ((d & p1) & p2). destruct R as [(_ & _ & N)|(_ & _ & Z)]; [contradiction|]. specialize (Z C). injection Z as -> -> ->.
  destruct (Rlt_dec (-1) (dmin r)); [reflexivity|lra].
Qed.
End Exact.
Print Assumptions distance_pairs.
Print Assumptions distance_exchange.
Print Assumptions meeting_points_refuted.

(** ** Which algorithm there is *)
Definition flat_shape (s : Dispatch.shape) : Prop := s = Dispatch.Plane \/ s = Dispatch.Halfspace.
(** Of the shapes that have a node type of their own in the table, every pair but a half-space with an ellipsoid in this order (C88) is accepted by distance(), and the two objects are given to
    the function for their two classes.  There is an algorithm, special or with support functions of both shapes, exactly if none of
    the two is a plane or half-space. *)
Theorem distance_algorithm : forall (A : Type) (class : A -> Dispatch.cls) v signed octo (x y : A) a b,
  class x = Dispatch.Shape a -> class y = Dispatch.Shape b -> a <> Dispatch.TriangleP -> b <> Dispatch.TriangleP -> ~ (a = Dispatch.Halfspace /\ b = Dispatch.Ellipsoid) ->
  Dispatch.distance_call class octo x y = Dispatch.Call (Dispatch.FSS a b) x y /\
  (dist_routine v signed a b = PSpecial \/ dist_routine v signed a b = PSupport <-> ~ flat_shape a /\ ~ flat_shape b) /\
  (dist_routine v signed a b = PSupport -> MeshFlat.has_initializer a = true /\ MeshFlat.has_initializer b = true /\ MeshFlat.has_support a = true /\ MeshFlat.has_support b = true) /\
  dist_routine v signed a b = dist_routine v signed b a.
Proof.
  intros A class v signed octo x y a b Ex Ey Na Nb Nh. split.
  - destruct (P_Dispatch.distance_dispatch A class octo x y) as (D & _). rewrite Ex, Ey in D. destruct D as (_ & D).
    { split; [destruct a; try exact I; congruence|]. split; [destruct b; try exact I; congruence|]. split; [exact I|]. intros (H1 & H2). apply Nh. split; congruence. }
    destruct (D ltac:(intros [])) as (f & E & C). rewrite Ex, Ey in C. rewrite E. destruct f; cbn in C; congruence.
  - unfold flat_shape. split; [|split].
    + destruct v, signed, a, b; try congruence; cbv; (split; [intros [H|H]; try discriminate H; split; intros [K|K]; discriminate K|intros (H1 & H2); try (left; reflexivity); try (right; reflexivity); exfalso; tauto]).
    + destruct v, signed, a, b; try congruence; cbv; intros H; try discriminate H; auto.
    + destruct v, signed, a, b; try congruence; reflexivity.
Qed.
Print Assumptions distance_algorithm.
(** A plane or half-space with anything: libccd is called with null function pointers, or GJK with a support function that gives the origin *)
Theorem distance_flat_refuted : forall (A : Type) (class : A -> Dispatch.cls) signed octo (x y : A) a b,
  class x = Dispatch.Shape a -> class y = Dispatch.Shape b -> a <> Dispatch.TriangleP -> b <> Dispatch.TriangleP -> ~ (a = Dispatch.Halfspace /\ b = Dispatch.Ellipsoid) -> flat_shape a \/ flat_shape b ->
  Dispatch.distance_call class octo x y = Dispatch.Call (Dispatch.FSS a b) x y /\
  dist_routine MeshFlat.Libccd signed a b = PNull /\ dist_routine MeshFlat.Indep signed a b = POrigin.
Proof.
  intros A class signed octo x y a b Ex Ey Na Nb Nh H. split; [apply (distance_algorithm A class MeshFlat.Libccd signed octo x y a b Ex Ey Na Nb Nh)|].
  destruct H as [[-> | ->]|[-> | ->]]; [destruct signed, b|destruct signed, b|destruct signed, a|destruct signed, a]; split; reflexivity.
Qed.
Print Assumptions distance_flat_refuted.

(** The pairs with the exact algorithms are those the list of specializations names *)
Theorem dist_solve_special : forall k g1 X1 g2 X2 v, dist_solve k g1 X1 g2 X2 <> None <-> dist_routine v false (shape_of g1) (shape_of g2) = PSpecial.
Proof. intros k g1 X1 g2 X2 v. destruct v, g1, g2; cbn; split; intros H; try congruence; try discriminate; exfalso; apply H; reflexivity. Qed.
Print Assumptions dist_solve_special.

(** ** The statements are about something *)
Definition at_x (x : R) : tf := mktf mid (mk3 x 0 0).
(** two balls of radius 1 and 2, six apart: distance 3 *)
Example balls_apart : pair_distance (DRes 10 None None vzero vzero) 1%nat 2%nat (or_meeting (ss_distance 1 (at_x 0) 2 (at_x 6))) = DRes 3 (Some 1%nat) (Some 2%nat) (mk3 1 0 0) (mk3 4 0 0).
Proof.
  unfold ss_distance, at_x. cbn [tf_tr]. cbv zeta. assert (N : norm (vsub (mk3 0 0 0) (mk3 6 0 0)) = 6).
  { unfold norm. replace (norm2 (vsub (mk3 0 0 0) (mk3 6 0 0))) with (6 * 6) by (unfold norm2, dot, vsub; cbn; ring). apply sqrt_square. lra. }
  rewrite N. destruct (Rlt_dec (1 + 2) 6) as [_|n]; [|lra]. cbn [or_meeting]. unfold pair_distance, dupdate. cbn [dmin]. destruct (Rle_dec 10 0); [lra|]. destruct (Rlt_dec (6 - (1 + 2)) 10); [|lra].
  f_equal; [lra| |]; unfold vsub, vadd, vscale; cbn; f_equal; field.
Qed.
(** two unit balls around (100, 0, 0) and (101, 0, 0): the nearest points are given as the origin, which is in none of them *)
Example meeting_far : (exists g, dist_solve 0 (GSphere 1) (at_x 100) (GSphere 1) (at_x 101) = Some g /\ pair_distance (DRes 10 None None vzero vzero) 1%nat 2%nat g = DRes (-1) (Some 1%nat) (Some 2%nat) vzero vzero) /\
  ~ ball (mk3 100 0 0) 1 vzero /\ ~ ball (mk3 101 0 0) 1 vzero.
Proof.
  assert (D : forall x, 0 <= x -> dist vzero (mk3 x 0 0) = x).
  { intros x H. unfold dist, norm. replace (norm2 (vsub vzero (mk3 x 0 0))) with (x * x) by (unfold norm2, dot, vsub, vzero; cbn; ring). apply sqrt_square, H. }
  split; [|unfold ball; rewrite !D by lra; split; lra].
  apply meeting_points_refuted; [apply ortho_mid|apply ortho_mid|left; cbn; lra|cbn; tauto|cbn; lra|].
  exists (mk3 100 0 0). cbn [gset]. split; apply ball_placed; try apply ortho_mid; unfold ball, at_x; cbn [tf_tr]; [rewrite dist_refl; lra|].
  unfold dist, norm. replace (norm2 (vsub (mk3 100 0 0) (mk3 101 0 0))) with 1 by (unfold norm2, dot, vsub; cbn; ring). rewrite sqrt_1. lra.
Qed.
