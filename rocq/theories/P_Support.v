(** C72: the support functions return extreme points. *)
From Coq Require Import Reals Lra Lia List Bool.
From Verif Require Import VecR Motion Eigen3 Obb Fit Prim P_Prim AabbDist ShapeBV P_ShapeBV BoundVerts P_BoundVerts HalfBV P_HalfBV HalfQuery P_HalfQuery P_PlaneQuery Support.
Import ListNotations.
Open Scope R_scope.

(** ** Meaning *)
(** [p] is a point of [K] that no point of [K] exceeds along [d]. *)
Definition extreme (K : v3 -> Prop) (d p : v3) : Prop := K p /\ forall x, K x -> dot d x <= dot d p.
(** Positive sizes, at least one vertex. *)
Definition sized (s : shape) : Prop :=
  match s with
  | Tri _ _ _ => True
  | Box side => 0 <= c0 side /\ 0 <= c1 side /\ 0 <= c2 side
  | Sphere r => 0 <= r
  | Ellipsoid radii => 0 < c0 radii /\ 0 < c1 radii /\ 0 < c2 radii
  | Capsule r lz | Cylinder r lz => 0 <= r /\ 0 <= lz
  | Cone r lz => 0 <= r /\ 0 < lz
  | Polytope vs => vs <> []
  | Other => False
  end.
(** The sentinel [-big] is below every product the loop over vertices forms. *)
Definition in_range (big : R) (s : shape) (d : v3) : Prop :=
  match s with Polytope vs => forall v, In v vs -> - big < dot d v | _ => True end.
(** The points [a - b]. *)
Definition mink (K0 K1 : v3 -> Prop) (x : v3) : Prop := exists a b, K0 a /\ K1 b /\ x = vsub a b.
(** What [K] passes through while it moves along [v]. *)
Definition swept (K : v3 -> Prop) (v x : v3) : Prop := exists a t, K a /\ 0 <= t <= 1 /\ x = vadd a (vscale t v).

(** ** Shape by shape *)
Lemma hull_extreme : forall vs d p, In p vs -> (forall v, In v vs -> dot d v <= dot d p) -> extreme (hull vs) d p.
Proof. intros vs d p I H. split; [apply hull_vertex, I|]. intros x Hx. apply Hx. exact H. Qed.
Lemma far_fold : forall d vs st,
  let r := fold_left (far_step d) vs st in
  fst st <= fst r /\ (forall v, In v vs -> dot d v <= fst r) /\ (r = st \/ (In (snd r) vs /\ fst r = dot d (snd r))).
Proof.
  intros d vs. induction vs as [|v vs IH]; intros st r.
  - cbn in r. subst r. split; [lra|split; [intros ? []|auto]].
  - unfold r. cbn [fold_left]. destruct (IH (far_step d st v)) as (A & B & C).
    assert (S : fst st <= fst (far_step d st v) /\ dot d v <= fst (far_step d st v)).
    { unfold far_step. destruct (Rlt_dec (fst st) (dot d v)); cbn [fst]; lra. }
    split; [lra|split].
    + intros w [<-|Hw]; [lra|auto].
    + destruct C as [C|(C & C')]; [|right; split; [right|]; auto]. rewrite C. unfold far_step. destruct (Rlt_dec (fst st) (dot d v)); [right|left; auto]. cbn [fst snd]. split; [left|]; auto.
Qed.
Lemma far_vertex_extreme : forall big vs d, vs <> [] -> (forall v, In v vs -> - big < dot d v) -> extreme (hull vs) d (far_vertex big vs d).
Proof.
  intros big vs d NE H. unfold far_vertex. destruct (far_fold d vs (- big, vzero)) as (A & B & C). cbn [fst] in A.
  destruct C as [C|(C & E)].
  - rewrite C in B. destruct vs as [|v vs]; [congruence|]. pose proof (B v (or_introl eq_refl)) as Bv. pose proof (H v (or_introl eq_refl)). cbn [fst] in Bv. lra.
  - apply hull_extreme; auto. intros v Hv. rewrite <- E. auto.
Qed.
Lemma in_tri_vertex : forall a b c, in_tri a b c a /\ in_tri a b c b /\ in_tri a b c c.
Proof.
  intros a b c. split; [exists 1, 0, 0|split; [exists 0, 1, 0|exists 0, 0, 1]]; repeat split; try lra; apply v3_ext; unfold vadd, vscale; cbn [c0 c1 c2]; ring.
Qed.
Lemma in_tri_extreme : forall a b c d p, in_tri a b c p -> dot d a <= dot d p -> dot d b <= dot d p -> dot d c <= dot d p -> extreme (in_tri a b c) d p.
Proof.
  intros a b c d p Hp A B C. split; [exact Hp|]. intros x Hx. apply tri_hull in Hx. apply Hx. intros v [<-|[<-|[<-|[]]]]; auto.
Qed.
Lemma tri_support_extreme : forall a b c d, extreme (in_tri a b c) d (tri_support a b c d).
Proof.
  intros a b c d. destruct (in_tri_vertex a b c) as (A & B & C). unfold tri_support.
  destruct (Rlt_dec (dot d b) (dot d a)); [destruct (Rlt_dec (dot d a) (dot d c))|destruct (Rlt_dec (dot d b) (dot d c))]; apply in_tri_extreme; auto; lra.
Qed.
Lemma box_corner : forall side d x y z, 0 <= c0 side -> 0 <= c1 side -> 0 <= c2 side ->
  (x = 1 \/ x = -1) /\ (y = 1 \/ y = -1) /\ (z = 1 \/ z = -1) -> c0 d * x = Rabs (c0 d) -> c1 d * y = Rabs (c1 d) -> c2 d * z = Rabs (c2 d) ->
  extreme (boxset side) d (mk3 (x * (c0 side / 2)) (y * (c1 side / 2)) (z * (c2 side / 2))).
Proof.
  intros side d x y z S0 S1 S2 (X & Y & Z) E0 E1 E2. split.
  - intros i Hi. destruct i as [|[|[|i]]]; [| | |lia]; cbn [comp c0 c1 c2]; [destruct X as [-> | ->]|destruct Y as [-> | ->]|destruct Z as [-> | ->]]; lra.
  - intros p Hp. pose proof (box_reach_bound side d p Hp) as B. apply Rabs_le_inv in B. unfold box_reach in B.
    replace (dot d (mk3 (x * (c0 side / 2)) (y * (c1 side / 2)) (z * (c2 side / 2)))) with ((c0 d * x) * (c0 side / 2) + (c1 d * y) * (c1 side / 2) + (c2 d * z) * (c2 side / 2)) by (unfold dot; cbn; ring).
    rewrite E0, E1, E2. rewrite !Rabs_mult in B. rewrite (Rabs_right (c0 side)), (Rabs_right (c1 side)), (Rabs_right (c2 side)) in B by lra. lra.
Qed.
Lemma ball_extreme : forall r d, 0 <= r -> d <> vzero -> extreme (ball vzero r) d (vscale (r / norm d) d).
Proof.
  intros r d Hr Hd. pose proof (norm_pos d Hd) as N.
  assert (S0 : forall q, vsub q vzero = q) by (intros []; unfold vsub, vzero; cbn; f_equal; ring). split.
  - unfold ball, dist. rewrite S0, norm_scale, Rabs_right. { right. field. lra. }
    apply Rle_ge. unfold Rdiv. apply Rmult_le_pos; [auto|]. left. apply Rinv_0_lt_compat; auto.
  - intros x Hx. unfold ball, dist in Hx. rewrite S0 in Hx. rewrite dot_scale_r. pose proof (cauchy_schwarz d x). change (dot d d) with (norm2 d). rewrite <- norm_sq.
    replace (r / norm d * (norm d * norm d)) with (norm d * r) by (field; lra). assert (norm d * norm x <= norm d * r) by (apply Rmult_le_compat_l; lra). lra.
Qed.
Lemma ell_support_extreme : forall radii d, 0 < c0 radii -> 0 < c1 radii -> 0 < c2 radii -> d <> vzero -> extreme (ellset radii) d (ell_support radii d).
Proof.
  intros radii d R0 R1 R2 Hd. assert (P : 0 < support2 radii d).
  { rewrite support2_norm. apply norm_pos. intros E. apply Hd. pose proof (f_equal c0 E) as E0. pose proof (f_equal c1 E) as E1. pose proof (f_equal c2 E) as E2. unfold mul3, vzero in E0, E1, E2. cbn [c0 c1 c2] in E0, E1, E2.
    apply v3_ext; unfold vzero; cbn [c0 c1 c2]; [apply Rmult_integral in E0|apply Rmult_integral in E1|apply Rmult_integral in E2]; lra. }
  destruct (ell_extreme radii d P) as (A & B & _ & C).
  replace (ell_support radii d) with (vscale (1 / support2 radii d) (mul3 (mul3 radii radii) d)).
  - split; [exact B|]. intros x Hx. rewrite A. pose proof (Rabs_le_inv _ _ (C x Hx)). lra.
  - unfold ell_support. replace (sqrt _) with (support2 radii d); [unfold Rdiv; rewrite Rmult_1_l; reflexivity|]. unfold support2. f_equal. destruct radii, d. unfold dot, mul3. cbn. ring.
Qed.
Lemma capset_extreme : forall r lz d, 0 <= r -> 0 <= lz -> d <> vzero -> forall z, - (lz / 2) <= z <= lz / 2 -> c2 d * z = Rabs (c2 d) * (lz / 2) ->
  extreme (capset lz r) d (vadd (mk3 0 0 z) (vscale (r / norm d) d)).
Proof.
  intros r lz d Hr Hl Hd z Hz Ez. destruct (ball_extreme r d Hr Hd) as [B1 B2]. pose proof (norm_pos d Hd) as N. split.
  - exists z. split; [exact Hz|]. unfold ball in B1. unfold dist in *. replace (vsub (vadd (mk3 0 0 z) (vscale (r / norm d) d)) (mk3 0 0 z)) with (vsub (vscale (r / norm d) d) vzero); auto. generalize (vscale (r / norm d) d). intros []. unfold vsub, vadd, vzero. cbn. f_equal; ring.
  - intros x (zx & Hzx & Dx). assert (Bx : ball vzero r (vsub x (mk3 0 0 zx))).
    { unfold ball, dist in *. replace (vsub (vsub x (mk3 0 0 zx)) vzero) with (vsub x (mk3 0 0 zx)); auto. generalize (vsub x (mk3 0 0 zx)). intros []. unfold vsub, vzero. cbn. f_equal; ring. }
    pose proof (B2 _ Bx) as B. rewrite dot_sub_r in B. rewrite dot_add_r.
    replace (dot d (mk3 0 0 zx)) with (c2 d * zx) in B by (unfold dot; cbn; ring). replace (dot d (mk3 0 0 z)) with (c2 d * z) by (unfold dot; cbn; ring). rewrite Ez.
    assert (A : Rabs (c2 d * zx) <= Rabs (c2 d) * (lz / 2)) by (rewrite Rabs_mult; apply Rmult_le_compat_l; [apply Rabs_pos|apply Rabs_le; lra]). apply Rabs_le_inv in A. lra.
Qed.
Lemma planar_sq : forall d, planar d * planar d = c0 d * c0 d + c1 d * c1 d.
Proof. intros d. unfold planar. apply sqrt_sqrt. nra. Qed.
Lemma planar_nonneg : forall d, 0 <= planar d. Proof. intros. apply sqrt_pos. Qed.
Lemma cone_support_extreme : forall r lz d, 0 <= r -> 0 < lz -> extreme (coneset lz r) d (cone_support r (lz / 2) d).
Proof.
  intros r lz d Hr Hl. unfold cone_support. fold (planar d). set (sl := sqrt (r * r + 4 * (lz / 2) * (lz / 2))). set (len := sqrt _).
  pose proof (planar_sq d) as P2. pose proof (planar_nonneg d) as P0.
  assert (S2 : sl * sl = r * r + lz * lz) by (unfold sl; rewrite sqrt_sqrt; nra).
  assert (S0 : 0 < sl) by (unfold sl; apply sqrt_lt_R0; nra).
  assert (L2 : len * len = planar d * planar d + c2 d * c2 d) by (unfold len; rewrite sqrt_sqrt; nra).
  assert (L0 : 0 <= len) by apply sqrt_pos.
  assert (Apex : coneset lz r (mk3 0 0 (lz / 2))) by (exists 0; cbn [c0 c1 c2]; lra).
  (* the comparison with the slope decides between the apex and the rim *)
  assert (Q : len * (r / sl) < c2 d <-> 0 < c2 d /\ r * planar d < lz * c2 d).
  { replace (len * (r / sl)) with (len * r / sl) by (field; lra).
    assert (H0 : 0 <= len * r) by (apply Rmult_le_pos; lra).
    assert (Hdiv : len * r / sl < c2 d <-> len * r < c2 d * sl).
    { split; intros H.
      - apply (Rmult_lt_compat_r sl) in H; [|lra]. replace (len * r / sl * sl) with (len * r) in H by (field; lra). lra.
      - apply (Rmult_lt_reg_r sl); [lra|]. replace (len * r / sl * sl) with (len * r) by (field; lra). lra. }
    rewrite Hdiv.
    assert (Eq : (len * r) * (len * r) - (c2 d * sl) * (c2 d * sl) = (r * planar d) * (r * planar d) - (lz * c2 d) * (lz * c2 d)).
    { replace ((len * r) * (len * r)) with ((len * len) * (r * r)) by ring. replace ((c2 d * sl) * (c2 d * sl)) with (c2 d * c2 d * (sl * sl)) by ring. rewrite L2, S2. ring. }
    assert (Hrp : 0 <= r * planar d) by (apply Rmult_le_pos; lra).
    split; intros H.
    - assert (C : 0 < c2 d). { apply Rnot_le_lt. intros Hn. assert (c2 d * sl <= 0) by nra. lra. }
      assert (0 < lz * c2 d) by (apply Rmult_lt_0_compat; lra). split; [lra|]. apply Rnot_le_lt. intros Hn.
      assert ((lz * c2 d) * (lz * c2 d) <= (r * planar d) * (r * planar d)) by (apply Rmult_le_compat; lra).
      assert ((len * r) * (len * r) < (c2 d * sl) * (c2 d * sl)) by (apply Rmult_le_0_lt_compat; lra). lra.
    - destruct H as [C H]. assert (0 < c2 d * sl) by (apply Rmult_lt_0_compat; lra). apply Rnot_le_lt. intros Hn.
      assert ((c2 d * sl) * (c2 d * sl) <= (len * r) * (len * r)) by (apply Rmult_le_compat; lra).
      assert ((r * planar d) * (r * planar d) < (lz * c2 d) * (lz * c2 d)) by (apply Rmult_le_0_lt_compat; lra). lra. }
  assert (Hi : forall q, coneset lz r q -> c2 d * (lz / 2) <= dot d q -> r * planar d - c2 d * (lz / 2) <= dot d q -> extreme (coneset lz r) d q).
  { intros q Kq A B. split; [exact Kq|]. intros x Hx. apply (coneset_high lz r d x (dot d q)); auto; lra. }
  destruct (Rlt_dec (len * (r / sl)) (c2 d)) as [L|NL].
  - apply Q in L. apply Hi; auto; unfold dot; cbn [c0 c1 c2]; lra.
  - assert (NQ : lz * c2 d <= r * planar d).
    { apply Rnot_lt_le. intros H. apply NL, Q. split; [|lra]. assert (0 <= r * planar d) by (apply Rmult_le_pos; lra). apply Rnot_le_lt. intros Hn. assert (lz * c2 d <= 0) by nra. lra. }
    destruct (Rlt_dec 0 (planar d)) as [P|NP].
    + assert (K : coneset lz r (mk3 (r / planar d * c0 d) (r / planar d * c1 d) (- (lz / 2)))).
      { exists 1. cbn [c0 c1 c2]. split; [lra|split; [lra|]]. right. transitivity (r / planar d * (r / planar d) * (c0 d * c0 d + c1 d * c1 d)); [ring|]. rewrite <- P2. field. lra. }
      assert (V : dot d (mk3 (r / planar d * c0 d) (r / planar d * c1 d) (- (lz / 2))) = r * planar d - c2 d * (lz / 2)).
      { unfold dot. cbn [c0 c1 c2]. transitivity (r / planar d * (c0 d * c0 d + c1 d * c1 d) - c2 d * (lz / 2)); [ring|]. rewrite <- P2. field. lra. }
      apply Hi; auto; rewrite V; lra.
    + assert (PZ : planar d = 0) by lra. rewrite PZ in NQ. apply Hi; [exists 1; cbn [c0 c1 c2]; split; [lra|split; [lra|nra]]| |]; unfold dot; cbn [c0 c1 c2]; rewrite ?PZ; lra.
Qed.
Lemma cyl_near : forall r lz d x y z e, 0 <= r -> 0 <= lz -> - (lz / 2) <= z <= lz / 2 -> x * x + y * y <= r * r ->
  r * planar d + Rabs (c2 d) * (lz / 2) <= c0 d * x + c1 d * y + c2 d * z + e ->
  cylset lz r (mk3 x y z) /\ forall p, cylset lz r p -> dot d p <= dot d (mk3 x y z) + e.
Proof.
  intros r lz d x y z e Hr Hl Hz Hxy E. split; [split; cbn [c0 c1 c2]; lra|]. intros p Hp. pose proof (Rabs_le_inv _ _ (cylset_bound lz r d p Hr Hl Hp)). unfold dot at 2. cbn [c0 c1 c2]. lra.
Qed.
Lemma rim_point : forall r d, 0 < planar d -> let x := r / planar d * c0 d in let y := r / planar d * c1 d in
  x * x + y * y = r * r /\ c0 d * x + c1 d * y = r * planar d.
Proof.
  intros r d P x y. pose proof (planar_sq d) as P2. unfold x, y. split.
  - transitivity (r / planar d * (r / planar d) * (c0 d * c0 d + c1 d * c1 d)); [ring|]. rewrite <- P2. field. lra.
  - transitivity (r / planar d * (c0 d * c0 d + c1 d * c1 d)); [ring|]. rewrite <- P2. field. lra.
Qed.

(** ** getSupport *)
Lemma unit_nonzero : forall d, norm2 d = 1 -> d <> vzero /\ norm d = 1.
Proof. intros d U. split; [intros ->; unfold norm2, dot, vzero in U; cbn in U; lra|]. unfold norm. rewrite U. apply sqrt_1. Qed.
(** C72: along every unit direction the point is extreme. *)
Theorem get_support_extreme : forall big s d, sized s -> norm2 d = 1 -> in_range big s d -> extreme (points s) d (get_support big s d).
Proof.
  intros big s d Z U IR. destruct (unit_nonzero d U) as [Hd N]. destruct s; cbn [points get_support sized in_range] in *.
  - apply tri_support_extreme.
  - destruct Z as (Z0 & Z1 & Z2).
    replace (mk3 _ _ _) with (mk3 ((if Rlt_dec 0 (c0 d) then 1 else -1) * (c0 side / 2)) ((if Rlt_dec 0 (c1 d) then 1 else -1) * (c1 side / 2)) ((if Rlt_dec 0 (c2 d) then 1 else -1) * (c2 side / 2))).
    + apply box_corner; auto; [repeat split; match goal with |- context [Rlt_dec ?a ?b] => destruct (Rlt_dec a b) end; auto| | |]; match goal with |- context [Rlt_dec ?a ?b] => destruct (Rlt_dec a b) end; unfold Rabs; destruct (Rcase_abs _); lra.
    + destruct (Rlt_dec 0 (c0 d)), (Rlt_dec 0 (c1 d)), (Rlt_dec 0 (c2 d)); f_equal; lra.
  - pose proof (ball_extreme r d Z Hd) as B. rewrite N in B. replace (r / 1) with r in B by field. exact B.
  - destruct Z as (Z0 & Z1 & Z2). apply ell_support_extreme; auto.
  - destruct Z as (Zr & Zl).
    assert (E : forall z, - (lz / 2) <= z <= lz / 2 -> c2 d * z = Rabs (c2 d) * (lz / 2) -> extreme (capset lz r) d (vadd (mk3 0 0 z) (vscale r d))).
    { intros z Hz Ez. pose proof (capset_extreme r lz d Zr Zl Hd z Hz Ez) as C. rewrite N in C. replace (r / 1) with r in C by field. exact C. }
    rewrite !dot_add_r. replace (dot d (mk3 0 0 (lz * (1/2)))) with (c2 d * (lz / 2)) by (unfold dot; cbn; field). replace (dot d (mk3 0 0 (- (lz * (1/2))))) with (- (c2 d * (lz / 2))) by (unfold dot; cbn; field).
    destruct (Rlt_dec _ _) as [L|L].
    + apply E; [lra|]. rewrite Rabs_right; [field|]. apply Rle_ge. apply Rnot_lt_le. intros H. assert (c2 d * (lz / 2) <= 0) by nra. lra.
    + apply E; [lra|]. destruct (Req_dec lz 0) as [->|NZ]; [lra|]. rewrite Rabs_left1; [field|]. apply Rnot_lt_le. intros H. assert (0 < c2 d * (lz / 2)) by (apply Rmult_lt_0_compat; lra). lra.
  - destruct Z as (Zr & Zl). replace (lz * (1/2)) with (lz / 2) by field. apply cone_support_extreme; auto.
  - destruct Z as (Zr & Zl). fold (planar d). replace (lz * (1/2)) with (lz / 2) by field.
    assert (A : c2 d * (if Rlt_dec 0 (c2 d) then lz / 2 else - (lz / 2)) = Rabs (c2 d) * (lz / 2)) by (unfold Rabs; destruct (Rlt_dec 0 (c2 d)), (Rcase_abs (c2 d)); try lra; replace (c2 d) with 0 by lra; ring).
    set (z := if Rlt_dec 0 (c2 d) then lz / 2 else - (lz / 2)) in *. assert (Hz : - (lz / 2) <= z <= lz / 2) by (unfold z; destruct (Rlt_dec 0 (c2 d)); lra).
    destruct (Req_EM_T (planar d) 0) as [PZ|PN].
    + destruct (cyl_near r lz d 0 0 z 0 Zr Zl Hz) as [C1 C2]; [nra|rewrite PZ; lra|]. split; auto. intros x Hx. specialize (C2 x Hx). lra.
    + pose proof (planar_nonneg d). assert (P : 0 < planar d) by lra. destruct (rim_point r d P) as [R1 R2].
      destruct (cyl_near r lz d _ _ z 0 Zr Zl Hz (Req_le _ _ R1)) as [C1 C2]; [rewrite R2; lra|]. split; auto. intros x Hx. specialize (C2 x Hx). lra.
  - apply far_vertex_extreme; auto.
  - destruct Z.
Qed.
Print Assumptions get_support_extreme.
(** Balls and capsules need the unit length: along a longer direction the point is outside. *)
Theorem get_support_length_refuted : forall big r d, 0 < r -> 1 < norm2 d -> ~ points (Sphere r) (get_support big (Sphere r) d).
Proof.
  intros big r d Hr H C. cbn in C. unfold ball, dist in C. replace (vsub (vscale r d) vzero) with (vscale r d) in C by (destruct d; unfold vsub, vscale, vzero; cbn; f_equal; ring).
  apply norm_le_sq in C; [|lra]. rewrite norm2_scale in C. assert (0 < r * r) by (apply Rmult_lt_0_compat; lra). nra.
Qed.
Print Assumptions get_support_length_refuted.

(** ** The Minkowski difference *)
Lemma extreme_placed : forall X K d p, ortho (tf_rot X) -> extreme K (mtapply (tf_rot X) d) p -> extreme (placed X K) d (tf_apply X p).
Proof.
  intros X K d p O [A B]. split; [exists p; auto|]. intros x (y & Hy & ->). unfold tf_apply. rewrite !dot_add_r, !adjoint. specialize (B y Hy). lra.
Qed.
Lemma mtapply_mmul : forall A B d, mtapply (mmul A B) d = mtapply B (mtapply A d).
Proof. intros [[] [] []] [[] [] []] []. unfold mtapply, mmul, mapply, dot, vadd, vscale. cbn. f_equal; ring. Qed.
Lemma tf_rel : forall X0 X1 q, ortho (tf_rot X0) -> tf_apply X0 (tf_apply (tf_mul (tf_inverse X0) X1) q) = tf_apply X1 q.
Proof.
  intros X0 X1 q O. unfold tf_mul, tf_inverse, tf_apply. cbn [tf_rot tf_tr]. rewrite mapply_mmul, !mapply_mtrans, !mapply_add, !mapply_mt by exact O.
  replace (mapply (tf_rot X0) (vneg (mtapply (tf_rot X0) (tf_tr X0)))) with (vneg (mapply (tf_rot X0) (mtapply (tf_rot X0) (tf_tr X0)))) by (generalize (mtapply (tf_rot X0) (tf_tr X0)) (tf_rot X0); vring). rewrite mapply_mt by exact O. generalize (mapply (tf_rot X1) q) (tf_tr X1) (tf_tr X0). vring.
Qed.
Lemma tf_rel_rot : forall X0 X1 d, mtapply (tf_rot (tf_mul (tf_inverse X0) X1)) d = mtapply (tf_rot X1) (mapply (tf_rot X0) d).
Proof. intros X0 X1 d. unfold tf_mul, tf_inverse. cbn [tf_rot]. rewrite mtapply_mmul. f_equal. generalize (tf_rot X0). intros [[] [] []]. destruct d. unfold mtapply, mtrans, mapply, dot, vadd, vscale. cbn. f_equal; ring. Qed.
Lemma tf_rel_dot : forall X0 X1 d q, dot d (mapply (tf_rot (tf_mul (tf_inverse X0) X1)) q) = dot (mtapply (tf_rot X1) (mapply (tf_rot X0) d)) q.
Proof. intros. rewrite adjoint, tf_rel_rot. reflexivity. Qed.
(** support points of the second shape, seen in the frame of the first *)
Lemma second_extreme : forall big s0 s1 X0 X1 d, sized s1 -> norm2 d = 1 -> ortho (tf_rot X0) -> ortho (tf_rot X1) ->
  in_range big s1 (mtapply (tf_rot X1) (mapply (tf_rot X0) d)) ->
  extreme (placed (tf_mul (tf_inverse X0) X1) (points s1)) d (support1 big (mdiff_of s0 s1 X0 X1) d).
Proof.
  intros big s0 s1 X0 X1 d Z U O0 O1 IR. unfold support1. cbn [mdiff_of toshape0 toshape1 sh1]. rewrite mapply_mmul, mapply_mtrans.
  assert (U' : norm2 (mtapply (tf_rot X1) (mapply (tf_rot X0) d)) = 1) by (rewrite mt_norm2, mapply_norm2 by assumption; exact U).
  destruct (get_support_extreme big s1 _ Z U' IR) as [A B]. split; [eexists; split; [exact A|reflexivity]|].
  intros x (y & Hy & ->). unfold tf_apply. rewrite !dot_add_r, !tf_rel_dot. specialize (B y Hy). lra.
Qed.
Lemma mink_extreme : forall K0 K1 d a b, extreme K0 d a -> extreme K1 (vneg d) b -> extreme (mink K0 K1) d (vsub a b).
Proof.
  intros K0 K1 d a b [A1 A2] [B1 B2]. split; [exists a, b; auto|]. intros x (p & q & Hp & Hq & ->). specialize (A2 p Hp). specialize (B2 q Hq). rewrite !dot_neg_l in B2. rewrite !dot_sub_r. lra.
Qed.
Lemma frame_mink : forall X0 X1 K0 K1 x, ortho (tf_rot X0) ->
  mink K0 (placed (tf_mul (tf_inverse X0) X1) K1) x <-> mink (placed X0 K0) (placed X1 K1) (mapply (tf_rot X0) x).
Proof.
  intros X0 X1 K0 K1 x O. split.
  - intros (a & b & Ha & (q & Hq & ->) & ->). exists (tf_apply X0 a), (tf_apply X1 q). split; [exists a; auto|split; [exists q; auto|]].
    rewrite <- (tf_rel X0 X1 q O). unfold tf_apply at 2 3. rewrite mapply_sub. generalize (mapply (tf_rot X0) a) (mapply (tf_rot X0) (tf_apply (tf_mul (tf_inverse X0) X1) q)) (tf_tr X0). vring.
  - intros (a & b & (p & Hp & ->) & (q & Hq & ->) & E). exists p, (tf_apply (tf_mul (tf_inverse X0) X1) q). split; [auto|split; [exists q; auto|]].
    rewrite <- (tf_rel X0 X1 q O) in E. rewrite <- (mt_mapply (tf_rot X0) x O), E. unfold tf_apply at 1 2.
    rewrite <- (mt_mapply (tf_rot X0) (vsub p _) O). f_equal. rewrite mapply_sub. generalize (mapply (tf_rot X0) p) (mapply (tf_rot X0) (tf_apply (tf_mul (tf_inverse X0) X1) q)) (tf_tr X0). vring.
Qed.
Lemma neg_norm2 : forall d, norm2 d = 1 -> norm2 (vneg d) = 1. Proof. intros. rewrite norm2_neg. auto. Qed.
(** C72: MinkowskiDiff::support gives, in the first shape's frame, an extreme point of the
    differences of points of the two placed shapes. *)
Theorem support_extreme : forall big s0 s1 X0 X1 d, sized s0 -> sized s1 -> norm2 d = 1 -> ortho (tf_rot X0) -> ortho (tf_rot X1) ->
  in_range big s0 d -> in_range big s1 (mtapply (tf_rot X1) (mapply (tf_rot X0) (vneg d))) ->
  extreme (fun x => mink (placed X0 (points s0)) (placed X1 (points s1)) (mapply (tf_rot X0) x)) d (support big (mdiff_of s0 s1 X0 X1) d).
Proof.
  intros big s0 s1 X0 X1 d Z0 Z1 U O0 O1 I0 I1.
  destruct (mink_extreme _ _ d _ _ (get_support_extreme big s0 d Z0 U I0) (second_extreme big s0 s1 X0 X1 (vneg d) Z1 (neg_norm2 d U) O0 O1 I1)) as [A B].
  split; [apply frame_mink; auto|]. intros x Hx. apply B, frame_mink; auto.
Qed.
Print Assumptions support_extreme.
(** C72: the two halves: the points from which the difference is formed belong to the shapes. *)
Theorem support_parts : forall big s0 s1 X0 X1 d, sized s0 -> sized s1 -> norm2 d = 1 -> ortho (tf_rot X0) -> ortho (tf_rot X1) ->
  in_range big s0 d -> in_range big s1 (mtapply (tf_rot X1) (mapply (tf_rot X0) d)) ->
  let m := mdiff_of s0 s1 X0 X1 in
  placed X0 (points s0) (tf_apply X0 (support0 big m d)) /\ placed X1 (points s1) (tf_apply X0 (support1 big m d)).
Proof.
  intros big s0 s1 X0 X1 d Z0 Z1 U O0 O1 I0 I1 m. split.
  - exists (support0 big m d). split; [apply (get_support_extreme big s0 d Z0 U I0)|reflexivity].
  - destruct (second_extreme big s0 s1 X0 X1 d Z1 U O0 O1 I1) as [(q & Hq & E) _]. exists q. split; [exact Hq|]. unfold m. rewrite E. apply tf_rel; auto.
Qed.
Print Assumptions support_parts.
(** C72: with a velocity, the same for what the first shape passes through. *)
Theorem support_v_extreme : forall big s0 s1 X0 X1 d v, sized s0 -> sized s1 -> norm2 d = 1 -> ortho (tf_rot X0) -> ortho (tf_rot X1) ->
  in_range big s0 d -> in_range big s1 (mtapply (tf_rot X1) (mapply (tf_rot X0) (vneg d))) ->
  extreme (fun x => mink (placed X0 (swept (points s0) v)) (placed X1 (points s1)) (mapply (tf_rot X0) x)) d (support_v big (mdiff_of s0 s1 X0 X1) d v).
Proof.
  intros big s0 s1 X0 X1 d v Z0 Z1 U O0 O1 I0 I1.
  assert (S : extreme (swept (points s0) v) d (support0_v big (mdiff_of s0 s1 X0 X1) d v)).
  { destruct (get_support_extreme big s0 d Z0 U I0) as [A B]. unfold support0_v. cbn [mdiff_of sh0].
    assert (V : forall x, swept (points s0) v x -> exists t, 0 <= t <= 1 /\ dot d x <= dot d (get_support big s0 d) + t * dot d v).
    { intros x (a & t & Ha & Ht & ->). exists t. split; auto. rewrite dot_add_r, dot_scale_r. specialize (B a Ha). lra. }
    destruct (Rle_dec (dot d v) 0) as [L|L]; split.
    - exists (get_support big s0 d), 0. split; [auto|split; [lra|]]. generalize (get_support big s0 d). clear. vring.
    - intros x Hx. destruct (V x Hx) as (t & Ht & E). assert (t * dot d v <= 0) by nra. lra.
    - exists (get_support big s0 d), 1. split; [auto|split; [lra|]]. generalize (get_support big s0 d). clear. vring.
    - intros x Hx. destruct (V x Hx) as (t & Ht & E). rewrite dot_add_r. assert (t * dot d v <= 1 * dot d v) by (apply Rmult_le_compat_r; lra). lra. }
  destruct (mink_extreme _ _ d _ _ S (second_extreme big s0 s1 X0 X1 (vneg d) Z1 (neg_norm2 d U) O0 O1 I1)) as [A B].
  split; [apply frame_mink; auto|]. intros x Hx. apply B, frame_mink; auto.
Qed.
Print Assumptions support_v_extreme.
(** C72: a triangle given in the world frame is the case of the identity placement. *)
Theorem mdiff_world_same : forall big s0 s1 X0 d, support big (mdiff_world s0 s1 X0) d = support big (mdiff_of s0 s1 X0 (mktf mid vzero)) d.
Proof.
  intros big s0 s1 X0 d. unfold support, support1, support0. cbn [mdiff_world mdiff_of sh0 sh1 toshape0 toshape1 tf_rot].
  assert (E1 : mmul (mtrans mid) (tf_rot X0) = tf_rot X0) by (generalize (tf_rot X0); intros [[] [] []]; unfold mmul, mtrans, mid, mapply, vadd, vscale; cbn; repeat f_equal; ring).
  assert (E0 : tf_mul (tf_inverse X0) (mktf mid vzero) = tf_inverse X0).
  { generalize (tf_inverse X0). intros [[[] [] []] []]. unfold tf_mul, tf_apply, mmul, mid, mapply, vadd, vscale, vzero. cbn. repeat f_equal; ring. }
  rewrite E1, E0. reflexivity.
Qed.
Print Assumptions mdiff_world_same.

(** ** The callbacks for libccd *)
Definition cylinder (s : shape) : Prop := match s with Cylinder _ _ => True | _ => False end.
(** what [find] (Convex::findExtremeVertex) has to deliver; see C73 *)
Definition finds (find : list v3 -> v3 -> v3) (s : shape) (d : v3) : Prop :=
  match s with Polytope vs => In (find vs d) vs /\ forall v, In v vs -> dot d v <= dot d (find vs d) | _ => True end.
Definition tri_in_range (big : R) (s : shape) (d : v3) : Prop :=
  match s with Tri a b c => - big < dot d (vsub a (centroid a b c)) | _ => True end.
Lemma ccd_tri_extreme : forall big a b c d, - big < dot d (vsub a (centroid a b c)) ->
  extreme (in_tri a b c) d (snd (fold_left (ccd_tri_step (centroid a b c) d) [a; b; c] (- big, vzero))).
Proof.
  intros big a b c d H. set (m := centroid a b c) in *. cbn [fold_left]. destruct (in_tri_vertex a b c) as (Ka & Kb & Kc).
  unfold ccd_tri_step at 3. cbn [fst snd]. destruct (Rlt_dec (- big) (dot d (vsub a m))) as [_|]; [|contradiction].
  unfold ccd_tri_step. cbn [fst snd]. rewrite !dot_sub_r. destruct (Rlt_dec (dot d a - dot d m) (dot d b - dot d m)); cbn [fst snd]; match goal with |- context [Rlt_dec ?x ?y] => destruct (Rlt_dec x y) end; cbn [fst snd]; apply in_tri_extreme; auto; lra.
Qed.
Lemma sgn_abs : forall x, x * sgn x = Rabs x. Proof. intros x. unfold sgn, Rabs. destruct (Rle_dec 0 x), (Rcase_abs x); lra. Qed.
Lemma sgn_cases : forall x, sgn x = 1 \/ sgn x = -1. Proof. intros x. unfold sgn. destruct (Rle_dec 0 x); auto. Qed.
Lemma ccd_local_extreme : forall big eps find s d, sized s -> d <> vzero -> ~ cylinder s -> finds find s d -> tri_in_range big s d ->
  extreme (points s) d (ccd_local big eps find s d).
Proof.
  intros big eps find s d Z Hd NC F TR. pose proof (norm_pos d Hd) as N. destruct s; cbn [points ccd_local sized finds tri_in_range cylinder] in *.
  - apply ccd_tri_extreme; auto.
  - destruct Z as (Z0 & Z1 & Z2). apply box_corner; auto using sgn_abs, sgn_cases.
  - change (sqrt (dot d d)) with (norm d). replace (vscale (1 / norm d) (vscale r d)) with (vscale (r / norm d) d); [apply ball_extreme; auto|]. apply v3_ext; unfold vscale; cbn [c0 c1 c2]; field; lra.
  - destruct Z as (Z0 & Z1 & Z2). pose proof (ell_support_extreme radii d Z0 Z1 Z2 Hd) as E. unfold ell_support in E. unfold Rdiv. rewrite Rmult_1_l. exact E.
  - destruct Z as (Zr & Zl). change (sqrt (dot d d)) with (norm d). replace (vscale r (vscale (1 / norm d) d)) with (vscale (r / norm d) d) by (apply v3_ext; unfold vscale; cbn [c0 c1 c2]; field; lra).
    destruct (Rlt_dec 0 (c2 d)); apply capset_extreme; auto; try lra; [rewrite Rabs_right|rewrite Rabs_left1]; lra.
  - destruct Z as (Zr & Zl). apply cone_support_extreme; auto.
  - destruct NC. exact I.
  - destruct F as [F1 F2]. apply hull_extreme; auto.
  - destruct Z.
Qed.
Lemma mt_nonzero : forall m d, ortho m -> d <> vzero -> mtapply m d <> vzero.
Proof. intros m d O H E. apply H. rewrite <- (mapply_mt m d O), E. generalize m. vring. Qed.
(** C72: along every direction but zero the callback returns an extreme point of the placed shape. *)
Theorem ccd_support_extreme : forall big eps find s X dir, sized s -> ~ cylinder s -> dir <> vzero -> ortho (tf_rot X) ->
  finds find s (mtapply (tf_rot X) dir) -> tri_in_range big s (mtapply (tf_rot X) dir) ->
  extreme (placed X (points s)) dir (ccd_support big eps find s X dir).
Proof.
  intros big eps find s X dir Z NC Hd O F TR. apply (extreme_placed X (points s) dir _ O). apply ccd_local_extreme; auto using mt_nonzero.
Qed.
Print Assumptions ccd_support_extreme.
(** C72: for a cylinder the point is extreme but for [eps] times the radius and half the height. *)
Theorem ccd_support_cylinder : forall big eps find r lz X dir, 0 <= r -> 0 <= lz -> ortho (tf_rot X) -> 0 < eps ->
  let p := ccd_support big eps find (Cylinder r lz) X dir in
  placed X (cylset lz r) p /\ forall x, placed X (cylset lz r) x -> dot dir x <= dot dir p + eps * (r + lz / 2).
Proof.
  intros big eps find r lz X dir Hr Hl O He p. unfold p, ccd_support. set (d := mtapply (tf_rot X) dir).
  assert (E : cylset lz r (ccd_local big eps find (Cylinder r lz) d) /\ forall q, cylset lz r q -> dot d q <= dot d (ccd_local big eps find (Cylinder r lz) d) + eps * (r + lz / 2)).
  { cbn [ccd_local]. fold (planar d). set (z := ccd_sign eps (c2 d) * (lz / 2)).
    assert (Z : - (lz / 2) <= z <= lz / 2 /\ Rabs (c2 d) * (lz / 2) <= c2 d * z + eps * (lz / 2)).
    { unfold z, ccd_sign, ccd_zero. destruct (Rlt_dec (Rabs (c2 d)) eps) as [L|L].
      - split; [lra|]. assert (Rabs (c2 d) * (lz / 2) <= eps * (lz / 2)) by (apply Rmult_le_compat_r; lra). lra.
      - assert (0 <= eps * (lz / 2)) by (apply Rmult_le_pos; lra). destruct (Rlt_dec (c2 d) 0); split; try lra; unfold Rabs; destruct (Rcase_abs (c2 d)); lra. }
    destruct Z as [Z1 Z2]. pose proof (planar_nonneg d) as P0. assert (R0 : 0 <= eps * r) by (apply Rmult_le_pos; lra). unfold ccd_zero. rewrite (Rabs_right (planar d)) by lra.
    destruct (Rlt_dec (planar d) eps) as [L|L].
    - apply cyl_near; auto; [nra|]. assert (r * planar d <= r * eps) by (apply Rmult_le_compat_l; lra). lra.
    - destruct (rim_point r d ltac:(lra)) as [R1 R2]. apply cyl_near; auto; [lra|]. rewrite R2. lra. }
  destruct E as [E1 E2]. split; [exists (ccd_local big eps find (Cylinder r lz) d); split; [exact E1|reflexivity]|].
  intros x (y & Hy & ->). unfold tf_apply. rewrite !dot_add_r, !adjoint. fold d. specialize (E2 y Hy). lra.
Qed.
Print Assumptions ccd_support_cylinder.
(** C72: the centre handed to libccd is a point of the shape. *)
Lemma mean_hull : forall vs, vs <> [] -> hull vs (mean vs).
Proof.
  intros vs NE u h H. unfold mean. rewrite dot_scale_r.
  assert (S : forall l s, dot u (fold_left vadd l s) = dot u s + fold_right (fun v a => dot u v + a) 0 l).
  { induction l as [|v l IH]; intros s; cbn [fold_left fold_right]; [ring|]. rewrite IH, dot_add_r. ring. }
  rewrite S. replace (dot u vzero) with 0 by (unfold dot, vzero; cbn; ring).
  assert (B : forall l, (forall v, In v l -> dot u v <= h) -> fold_right (fun v a => dot u v + a) 0 l <= INR (length l) * h).
  { induction l as [|v l IH]; intros Hl; [cbn; lra|]. cbn [fold_right length]. rewrite S_INR. pose proof (Hl v (or_introl eq_refl)). assert (fold_right (fun v a => dot u v + a) 0 l <= INR (length l) * h) by (apply IH; intros; apply Hl; right; auto). lra. }
  specialize (B vs H). assert (L : 0 < INR (length vs)) by (apply lt_0_INR; destruct vs; [congruence|cbn; lia]).
  apply (Rmult_le_reg_l (INR (length vs))); [exact L|]. replace (INR (length vs) * (1 / INR (length vs) * (0 + fold_right (fun v a => dot u v + a) 0 vs))) with (fold_right (fun v a => dot u v + a) 0 vs) by (field; lra). exact B.
Qed.
Theorem ccd_center_inside : forall s X, sized s -> placed X (points s) (ccd_center s X).
Proof.
  assert (V : forall X, tf_tr X = tf_apply X vzero) by apply origin_point.
  intros s X Z. destruct s; cbn [points ccd_center sized] in *; try (rewrite V; exists vzero; split; [|reflexivity]).
  - exists (centroid a b c). split; [|reflexivity]. exists (1/3), (1/3), (1/3). repeat split; try lra. apply v3_ext; unfold centroid, vadd, vscale; cbn [c0 c1 c2]; field.
  - intros i Hi. destruct i as [|[|[|i]]]; [| | |lia]; cbn [comp vzero c0 c1 c2]; lra.
  - unfold ball. rewrite dist_refl. exact Z.
  - exists vzero. split; [unfold norm2, dot, vzero; cbn; lra|]. unfold vzero. cbn. f_equal; ring.
  - exists 0. split; [lra|]. change (mk3 0 0 0) with vzero. rewrite dist_refl. lra.
  - exists (1/2). cbn [vzero c0 c1 c2]. split; [lra|split; [lra|]]. replace (0 * 0 + 0 * 0) with 0 by ring. apply Rle_0_sqr.
  - split; cbn [vzero c0 c1 c2]; [lra|]. replace (0 * 0 + 0 * 0) with 0 by ring. apply Rle_0_sqr.
  - exists (mean vs). split; [apply mean_hull, Z|reflexivity].
  - destruct Z.
Qed.
Print Assumptions ccd_center_inside.

(** ** Examples *)
(** A cone of radius 1 and height 2 along x: a point of the rim, not the apex. *)
Example ex_cone : extreme (points (Cone 1 2)) (mk3 1 0 0) (get_support 1000 (Cone 1 2) (mk3 1 0 0)) /\ dot (mk3 1 0 0) (get_support 1000 (Cone 1 2) (mk3 1 0 0)) = 1.
Proof.
  assert (E : extreme (points (Cone 1 2)) (mk3 1 0 0) (get_support 1000 (Cone 1 2) (mk3 1 0 0))) by (apply get_support_extreme; cbn; [lra|unfold norm2, dot; cbn; lra|exact I]).
  split; [exact E|]. destruct E as [K B]. cbn [points] in *. apply Rle_antisym.
  - destruct K as (t & Ht & _ & H). unfold dot. cbn [c0 c1 c2] in *. set (x := c0 _) in *. set (y := c1 _) in *. assert (0 <= y * y) by apply Rle_0_sqr. assert (x * x <= 1) by nra. nra.
  - specialize (B (mk3 1 0 (-1))). unfold dot at 1 in B. cbn [c0 c1 c2] in B. apply Rle_trans with (1 * 1 + 0 * 0 + 0 * -1); [lra|]. apply B. exists 1. cbn. lra.
Qed.
(** Two unit balls with centres 3 apart along x: the difference reaches from -5 to -1. *)
Example ex_balls : let m := mdiff_of (Sphere 1) (Sphere 1) (mktf mid vzero) (mktf mid (mk3 3 0 0)) in
  dot (mk3 1 0 0) (support 1000 m (mk3 1 0 0)) = -1 /\ dot (mk3 1 0 0) (support 1000 m (mk3 (-1) 0 0)) = -5.
Proof.
  assert (I : forall x, mapply mid x = x) by (intros x; apply v3_ext; unfold mapply, mid, vadd, vscale; cbn [m0 m1 m2 c0 c1 c2]; ring).
  assert (M : mmul (mtrans mid) mid = mid) by (unfold mmul; rewrite !mapply_mtrans; unfold mtapply, mid, dot; cbn [m0 m1 m2 c0 c1 c2]; repeat f_equal; ring).
  assert (T : tf_mul (tf_inverse (mktf mid vzero)) (mktf mid (mk3 3 0 0)) = mktf mid (mk3 3 0 0)).
  { unfold tf_mul, tf_inverse, tf_apply. cbn [tf_rot tf_tr]. rewrite M. f_equal. rewrite !mapply_mtrans. unfold mtapply, mid, dot, vadd, vneg, vzero. cbn [m0 m1 m2 c0 c1 c2]. f_equal; ring. }
  unfold support, support0, support1, mdiff_of. cbn [sh0 sh1 toshape0 toshape1 get_support tf_rot]. rewrite M, T. unfold tf_apply. cbn [tf_rot tf_tr]. rewrite !I. unfold dot, vadd, vsub, vneg, vscale. cbn [c0 c1 c2]. lra.
Qed.
(** A polytope: the sentinel must be below the products. *)
Example ex_polytope : far_vertex 1000 [mk3 1 0 0; mk3 0 1 0; mk3 0 0 1; vzero] (mk3 0 1 0) = mk3 0 1 0.
Proof.
  assert (Y : forall d v m p, m < dot d v -> far_step d (m, p) v = (dot d v, v)) by (intros d v m p H; unfold far_step; cbn [fst]; destruct (Rlt_dec m (dot d v)); [reflexivity|contradiction]).
  assert (N : forall d v m p, dot d v <= m -> far_step d (m, p) v = (m, p)) by (intros d v m p H; unfold far_step; cbn [fst]; destruct (Rlt_dec m (dot d v)); [lra|reflexivity]).
  unfold far_vertex. cbn [fold_left]. rewrite Y by (unfold dot; cbn [c0 c1 c2]; lra). rewrite Y by (unfold dot; cbn [c0 c1 c2]; lra). rewrite N by (unfold dot; cbn [c0 c1 c2]; lra). rewrite N by (unfold dot, vzero; cbn [c0 c1 c2]; lra). reflexivity.
Qed.
