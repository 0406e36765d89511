(** The vertices a shape gives to the generic [computeBV]: every bounding volume without a
    specialisation is fitted to them.  Scalars are real numbers.
    /repo/include/fcl/geometry/shape/*-inl.h (getBoundVertices), utility-inl.h:124-134. *)
From Coq Require Import Reals Lra Lia List Bool.
From Verif Require Import VecR KDop Motion Obb Fit Prim AabbDist ShapeBV.
Import ListNotations.
Open Scope R_scope.

(** box-inl.h:121-138. *)
Definition box_verts (side : v3) : list v3 :=
  let a := c0 side / 2 in let b := c1 side / 2 in let c := c2 side / 2 in
  [mk3 a b c; mk3 a b (- c); mk3 a (- b) c; mk3 a (- b) (- c); mk3 (- a) b c; mk3 (- a) b (- c); mk3 (- a) (- b) c; mk3 (- a) (- b) (- c)].

(** sphere-inl.h:95-120. *)
Definition golden : R := (1 + sqrt 5) / 2.
Definition edge_size (r : R) : R := r * 6 / (sqrt 27 + sqrt 15).
Definition ico (a b h : R) : list v3 :=
  [mk3 0 a (b + h); mk3 0 (- a) (b + h); mk3 0 a (- b + h); mk3 0 (- a) (- b + h);
   mk3 a b h; mk3 (- a) b h; mk3 a (- b) h; mk3 (- a) (- b) h;
   mk3 b 0 (a + h); mk3 b 0 (- a + h); mk3 (- b) 0 (a + h); mk3 (- b) 0 (- a + h)].
Definition sphere_verts (r : R) : list v3 := let a := edge_size r in ico a (golden * a) 0.

(** The hexagon around a circle, as in capsule-, cone- and cylinder-inl.h. *)
Definition hexagon (r h : R) : list v3 :=
  let r2 := r * 2 / sqrt 3 in let a := 1 / 2 * r2 in
  [mk3 r2 0 h; mk3 a r h; mk3 (- a) r h; mk3 (- r2) 0 h; mk3 (- a) (- r) h; mk3 a (- r) h].

(** capsule-inl.h:107-162. *)
Definition capsule_verts (lz r : R) : list v3 :=
  let hl := lz * (1 / 2) in let a := edge_size r in let b := golden * a in
  ico a b hl ++ ico a b (- hl) ++ hexagon r hl ++ hexagon r (- hl).

(** cone-inl.h:108-128. *)
Definition cone_verts (lz r : R) : list v3 := hexagon r (- (lz * (1 / 2))) ++ [mk3 0 0 (lz * (1 / 2))].

(** cylinder-inl.h:101-126. *)
Definition cyl_verts (lz r : R) : list v3 := hexagon r (- (lz * (1 / 2))) ++ hexagon r (lz * (1 / 2)).

(** ellipsoid-inl.h:111-148. *)
Definition ell_verts (radii : v3) : list v3 :=
  let a := sqrt 3 / (golden * golden) in let b := golden * a in
  let Aa := c0 radii * a in let Ab := c0 radii * b in
  let Ba := c1 radii * a in let Bb := c1 radii * b in
  let Ca := c2 radii * a in let Cb := c2 radii * b in
  [mk3 0 Ba Cb; mk3 0 (- Ba) Cb; mk3 0 Ba (- Cb); mk3 0 (- Ba) (- Cb);
   mk3 Aa Bb 0; mk3 (- Aa) Bb 0; mk3 Aa (- Bb) 0; mk3 (- Aa) (- Bb) 0;
   mk3 Ab 0 Ca; mk3 Ab 0 (- Ca); mk3 (- Ab) 0 Ca; mk3 (- Ab) 0 (- Ca)].

(** ** All shapes with bound vertices *)
Inductive shape :=
| SBox (side : v3) | SSphere (r : R) | SCapsule (lz r : R) | SCone (lz r : R) | SCyl (lz r : R)
| SEll (radii : v3) | SConvex (vs : list v3) | STri (a b c : v3).

(** convex-inl.h:252-262 and triangle_p-inl.h:80-89 return the transformed vertices; all others apply
    the transform to each point of the list above. *)
Definition local_verts (s : shape) : list v3 :=
  match s with
  | SBox side => box_verts side
  | SSphere r => sphere_verts r
  | SCapsule lz r => capsule_verts lz r
  | SCone lz r => cone_verts lz r
  | SCyl lz r => cyl_verts lz r
  | SEll radii => ell_verts radii
  | SConvex vs => vs
  | STri a b c => [a; b; c]
  end.
Definition bound_vertices (s : shape) (X : tf) : list v3 := map (tf_apply X) (local_verts s).

(** The points of the shape (specification). *)
Definition points (s : shape) : v3 -> Prop :=
  match s with
  | SBox side => boxset side
  | SSphere r => ball vzero r
  | SCapsule lz r => capset lz r
  | SCone lz r => coneset lz r
  | SCyl lz r => cylset lz r
  | SEll radii => ellset radii
  | SConvex vs => hull vs
  | STri a b c => in_tri a b c
  end.
Definition sizes_ok (s : shape) : Prop :=
  match s with
  | SSphere r => 0 <= r
  | SCapsule lz r | SCone lz r | SCyl lz r => 0 <= lz /\ 0 <= r
  | _ => True
  end.

(** utility-inl.h:124-134: the volume fitted to the bound vertices.  For kDOPs this is [kfit], for RSS and
    OBB of at least four vertices [rss_fitn] and [obb_fitn] of Fit.v. *)
Definition shape_kdop (big : R) (k : kind) (s : shape) (X : tf) : kdop := kfit big k (bound_vertices s X).
Definition shape_rss (absorbed : R -> R -> bool) (s : shape) (X : tf) : option rss :=
  match bound_vertices s X with
  | q0 :: qs => rss_fitn absorbed q0 qs
  | [] => None
  end.

(** ** Lemmas *)
Lemma golden_sq : golden * golden = golden + 1.
Proof. unfold golden. pose proof (sqrt_sqrt 5 ltac:(lra)). nra. Qed.
Lemma golden_pos : 1 < golden.
Proof. unfold golden. assert (1 < sqrt 5) by (rewrite <- sqrt_1 at 1; apply sqrt_lt_1; lra). lra. Qed.

Lemma edge_size_sq : forall r, 3 * (r * r) = (golden * golden * edge_size r) * (golden * golden * edge_size r).
Proof.
  intros r. unfold edge_size, golden.
  assert (S27 : sqrt 27 = 3 * sqrt 3) by (replace 27 with (3 * 3 * 3) by ring; rewrite sqrt_mult, sqrt_square by lra; ring).
  assert (S15 : sqrt 15 = sqrt 3 * sqrt 5) by (replace 15 with (3 * 5) by ring; apply sqrt_mult; lra).
  rewrite S27, S15. pose proof (sqrt_sqrt 3 ltac:(lra)) as Q3. pose proof (sqrt_sqrt 5 ltac:(lra)) as Q5.
  assert (P3 : 0 < sqrt 3) by (apply sqrt_lt_R0; lra). assert (P5 : 0 < sqrt 5) by (apply sqrt_lt_R0; lra).
  set (s := sqrt 3) in *. set (t := sqrt 5) in *. clearbody s t.
  assert (D : 3 * s + s * t <> 0) by nra.
  assert (G : (1 + t) / 2 * ((1 + t) / 2) = (3 + t) / 2) by nra. rewrite G.
  assert (E : (3 + t) / 2 * (r * 6 / (3 * s + s * t)) = r * s) .
  { apply (Rmult_eq_reg_r (3 * s + s * t)); [|exact D]. transitivity (3 * r * (3 + t)); [field; exact D|].
    replace (r * s * (3 * s + s * t)) with (r * (3 + t) * (s * s)) by ring. rewrite Q3. ring. }
  rewrite E. replace (r * s * (r * s)) with (r * r * (s * s)) by ring. rewrite Q3. ring.
Qed.
Lemma edge_size_pos : forall r, 0 <= r -> 0 <= edge_size r.
Proof.
  intros r H. unfold edge_size. assert (0 < sqrt 27) by (apply sqrt_lt_R0; lra). assert (0 < sqrt 15) by (apply sqrt_lt_R0; lra).
  apply Rmult_le_pos; [lra|]. left. apply Rinv_0_lt_compat. lra.
Qed.

(** The three candidates bound the length of a vector in the positive octant. *)
Lemma ico_octant : forall a r x y z m, 0 <= a -> 3 * (r * r) = (golden * golden * a) * (golden * golden * a) ->
  0 <= x -> 0 <= y -> 0 <= z ->
  a * y + golden * a * z <= m -> a * x + golden * a * y <= m -> golden * a * x + a * z <= m -> r * r * (x * x + y * y + z * z) <= m * m.
Proof.
  intros a r x y z m Ha Hr Hx Hy Hz F1 F2 F3. pose proof golden_sq as G. pose proof golden_pos as Gp. set (g := golden) in *. clearbody g.
  assert (P12 : 0 <= (m - (a * y + g * a * z)) * (m - (a * x + g * a * y))) by (apply Rmult_le_pos; lra).
  assert (P13 : 0 <= (m - (a * y + g * a * z)) * (m - (g * a * x + a * z))) by (apply Rmult_le_pos; lra).
  assert (P23 : 0 <= (m - (a * x + g * a * y)) * (m - (g * a * x + a * z))) by (apply Rmult_le_pos; lra).
  assert (K : 0 <= 2 * a * (g * g)) by nra.
  assert (Q1 : 0 <= 2 * a * (g * g) * ((m - (a * y + g * a * z)) * z)) by (apply Rmult_le_pos; [exact K|apply Rmult_le_pos; lra]).
  assert (Q2 : 0 <= 2 * a * (g * g) * ((m - (a * x + g * a * y)) * y)) by (apply Rmult_le_pos; [exact K|apply Rmult_le_pos; lra]).
  assert (Q3 : 0 <= 2 * a * (g * g) * ((m - (g * a * x + a * z)) * x)) by (apply Rmult_le_pos; [exact K|apply Rmult_le_pos; lra]).
  assert (E : 3 * (m * m) - 3 * (r * r) * (x * x + y * y + z * z) =
    (m - (a * y + g * a * z)) * (m - (a * x + g * a * y)) + (m - (a * y + g * a * z)) * (m - (g * a * x + a * z)) + (m - (a * x + g * a * y)) * (m - (g * a * x + a * z)) +
    2 * a * (g * g) * ((m - (a * y + g * a * z)) * z) + 2 * a * (g * g) * ((m - (a * x + g * a * y)) * y) + 2 * a * (g * g) * ((m - (g * a * x + a * z)) * x)).
  { rewrite Hr, !G. assert (G2 : g * g = g + 1) by exact G. 
    match goal with |- ?l = ?r => replace l with (3 * (m * m) - a * a * (g * g + 2 * g + 1) * (x * x + y * y + z * z)) by ring end. rewrite G2.
    match goal with |- _ = ?r => replace r with (3 * (m * m) + (g * g - g - 1) * (a * a * (x * y + x * z + y * z)) + (g - 2 * (g * g + g)) * (a * a) * (x * x + y * y + z * z)) by ring end.
    rewrite G2. ring. }
  lra.
Qed.
