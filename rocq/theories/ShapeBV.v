(** Axis aligned and oriented boxes of the geometric shapes, the local box and the bounding ball a
    geometry stores, and the world box of a collision object.  Scalars are real numbers.
    /repo/include/fcl/geometry/shape/utility-inl.h (ComputeBVImpl), .../shape/*-inl.h
    (computeLocalAABB), /repo/include/fcl/narrowphase/collision_object-inl.h. *)
From Coq Require Import Reals Lra Lia List Bool.
From Verif Require Import VecR AabbDist Obb Fit Prim.
Import ListNotations.
Open Scope R_scope.

(** ** The point sets (what a user of the library means by the shape; not code) *)
(** cone.h: apex at [(0,0,lz/2)], base disc of radius [r] at [-lz/2]. *)
Definition coneset (lz r : R) (q : v3) : Prop :=
  exists t, 0 <= t <= 1 /\ c2 q = lz / 2 - t * lz /\ c0 q * c0 q + c1 q * c1 q <= (t * r) * (t * r).
(** ellipsoid.h: half axes [radii]. *)
Definition ellset (radii q : v3) : Prop :=
  exists w, norm2 w <= 1 /\ q = mk3 (c0 radii * c0 w) (c1 radii * c1 w) (c2 radii * c2 w).
(** The closed convex hull of a finite list, as the intersection of all half spaces that contain it. *)
Definition hull (vs : list v3) (p : v3) : Prop := forall u h, (forall v, In v vs -> dot u v <= h) -> dot u p <= h.

(** ** AABB *)
(** utility-inl.h: every specialisation ends with [max_ = T + v_delta; min_ = T - v_delta]. *)
Definition around (T d : v3) : boxR := BoxR (vsub T d) (vadd T d).

(** utility-inl.h:137-153, ComputeBVImpl<AABB, Box>. *)
Definition box_aabb (side : v3) (X : tf) : boxR :=
  let A := tf_rot X in
  let f i := 1 / 2 * (Rabs (ent A i 0 * c0 side) + Rabs (ent A i 1 * c1 side) + Rabs (ent A i 2 * c2 side)) in
  around (tf_tr X) (mk3 (f 0%nat) (f 1%nat) (f 2%nat)).

(** utility-inl.h:168-184, ComputeBVImpl<AABB, Capsule>. *)
Definition capsule_aabb (lz r : R) (X : tf) : boxR :=
  let A := tf_rot X in
  let f i := 1 / 2 * Rabs (ent A i 2 * lz) + r in
  around (tf_tr X) (mk3 (f 0%nat) (f 1%nat) (f 2%nat)).

(** utility-inl.h:199-215 and 263-279, ComputeBVImpl<AABB, Cone> and <AABB, Cylinder> (the same text). *)
Definition cyl_aabb (lz r : R) (X : tf) : boxR :=
  let A := tf_rot X in
  let f i := Rabs (ent A i 0 * r) + Rabs (ent A i 1 * r) + 1 / 2 * Rabs (ent A i 2 * lz) in
  around (tf_tr X) (mk3 (f 0%nat) (f 1%nat) (f 2%nat)).

(** utility-inl.h:294-310, ComputeBVImpl<AABB, Ellipsoid>. *)
Definition ell_aabb (radii : v3) (X : tf) : boxR :=
  let A := tf_rot X in
  let f i := Rabs (ent A i 0 * c0 radii) + Rabs (ent A i 1 * c1 radii) + Rabs (ent A i 2 * c2 radii) in
  around (tf_tr X) (mk3 (f 0%nat) (f 1%nat) (f 2%nat)).

(** utility-inl.h:901-910, ComputeBVImpl<AABB, Sphere>. *)
Definition sphere_aabb (r : R) (X : tf) : boxR := around (tf_tr X) (mk3 r r r).

(** AABB-inl.h, default constructor and [operator+=(point)]; [big] is numeric_limits::max. *)
Definition box_none (big : R) : boxR := BoxR (mk3 big big big) (mk3 (- big) (- big) (- big)).
Definition box_add (b : boxR) (p : v3) : boxR :=
  BoxR (mk3 (Rmin (c0 (lo b)) (c0 p)) (Rmin (c1 (lo b)) (c1 p)) (Rmin (c2 (lo b)) (c2 p)))
       (mk3 (Rmax (c0 (hi b)) (c0 p)) (Rmax (c1 (hi b)) (c1 p)) (Rmax (c2 (hi b)) (c2 p))).
Definition box_of_points (big : R) (ps : list v3) : boxR := fold_left box_add ps (box_none big).

(** utility-inl.h:230-247, ComputeBVImpl<AABB, Convex>. *)
Definition convex_aabb (big : R) (vs : list v3) (X : tf) : boxR := box_of_points big (map (tf_apply X) vs).

(** utility-inl.h:925-931 with AABB(a,b,c) of AABB-inl.h:85-93, ComputeBVImpl<AABB, TriangleP>. *)
Definition box3 (a b c : v3) : boxR :=
  BoxR (mk3 (Rmin (Rmin (c0 a) (c0 b)) (c0 c)) (Rmin (Rmin (c1 a) (c1 b)) (c1 c)) (Rmin (Rmin (c2 a) (c2 b)) (c2 c)))
       (mk3 (Rmax (Rmax (c0 a) (c0 b)) (c0 c)) (Rmax (Rmax (c1 a) (c1 b)) (c1 c)) (Rmax (Rmax (c2 a) (c2 b)) (c2 c))).
Definition tri_aabb (a b c : v3) (X : tf) : boxR := box3 (tf_apply X a) (tf_apply X b) (tf_apply X c).

(** ** OBB *)
(** utility-inl.h:156-165 (Box), 187-196 (Capsule), 218-227 (Cone), 282-291 (Cylinder),
    313-322 (Ellipsoid), 913-922 (Sphere). *)
Definition box_obb (side : v3) (X : tf) : obb := mkobb (tf_rot X) (tf_tr X) (vscale (1 / 2) side).
Definition capsule_obb (lz r : R) (X : tf) : obb := mkobb (tf_rot X) (tf_tr X) (mk3 r r (lz / 2 + r)).
Definition cyl_obb (lz r : R) (X : tf) : obb := mkobb (tf_rot X) (tf_tr X) (mk3 r r (lz / 2)).
Definition ell_obb (radii : v3) (X : tf) : obb := mkobb (tf_rot X) (tf_tr X) radii.
Definition sphere_obb (r : R) (X : tf) : obb := mkobb mid (tf_tr X) (mk3 r r r).

(** utility-inl.h:250-260, ComputeBVImpl<OBB, Convex>: the fit (here any fit [b] of the vertices) is
    placed by overwriting its axes with the rotation of the transform. *)
Definition convex_obb (b : obb) (X : tf) : obb := mkobb (tf_rot X) (tf_apply X (oc b)) (ext b).

(** ** The local box and ball of a geometry *)
Record local := Local { lbox : boxR; lcen : v3; lrad : R }.
Definition box_center (b : boxR) : v3 := vscale (1 / 2) (vadd (lo b) (hi b)).
(** box/capsule/cone/cylinder/ellipsoid/convex/triangle_p/octree -inl.h, computeLocalAABB: the center of
    the box and the distance from there to its lower corner. *)
Definition local_of (b : boxR) : local := Local b (box_center b) (norm (vsub (lo b) (box_center b))).
(** box-inl.h:80-88, capsule-inl.h:64-72, cone-inl.h:64-72, cylinder-inl.h:64-72, ellipsoid-inl.h:72-79. *)
Definition box_local (side : v3) : local := local_of (BoxR (vneg (vscale (1 / 2) side)) (vscale (1 / 2) side)).
Definition capsule_local (lz r : R) : local := local_of (BoxR (vneg (mk3 r r (1 / 2 * lz + r))) (mk3 r r (1 / 2 * lz + r))).
Definition cyl_local (lz r : R) : local := local_of (BoxR (vneg (mk3 r r (1 / 2 * lz))) (mk3 r r (1 / 2 * lz))).
Definition ell_local (radii : v3) : local := local_of (BoxR (vneg radii) radii).
(** sphere-inl.h:62-69: the radius is that of the sphere. *)
Definition sphere_local (r : R) : local :=
  let b := BoxR (mk3 (- r) (- r) (- r)) (mk3 r r r) in Local b (box_center b) r.
(** convex-inl.h:86-96, triangle_p-inl.h:63-69. *)
Definition convex_local (big : R) (vs : list v3) : local := local_of (box_of_points big vs).
Definition tri_local (a b c : v3) : local := local_of (box3 a b c).
(** BVH_model-inl.h:1080-1100: the largest distance of a vertex from the center of the box. *)
Definition mesh_local (big : R) (vs : list v3) : local :=
  let b := box_of_points big vs in let c := box_center b in
  Local b c (sqrt (fold_left (fun m v => if Rlt_dec m (norm2 (vsub c v)) then norm2 (vsub c v) else m) vs 0)).

(** ** The box of a collision object, collision_object-inl.h:118-132. *)
(** Eigen's [isIdentity] compares up to a precision [prec] (1e-12 for doubles); [prec = 0] is the exact test. *)
Definition near_id (prec : R) (A : mat3) : bool :=
  forallb (fun ij => if Rle_dec (Rabs (ent A (fst ij) (snd ij) - ent mid (fst ij) (snd ij))) prec then true else false)
    [(0, 0); (0, 1); (0, 2); (1, 0); (1, 1); (1, 2); (2, 0); (2, 1); (2, 2)]%nat.
Definition box_translate (b : boxR) (t : v3) : boxR := BoxR (vadd (lo b) t) (vadd (hi b) t).
Definition object_aabb (prec : R) (g : local) (X : tf) : boxR :=
  if near_id prec (tf_rot X) then box_translate (lbox g) (tf_tr X)
  else let c := tf_apply X (lcen g) in let d := mk3 (lrad g) (lrad g) (lrad g) in BoxR (vsub c d) (vadd c d).

(** ** Lemmas *)
Lemma in_boxR_comp : forall p b, in_boxR p b <-> forall i, (i < 3)%nat -> comp i (lo b) <= comp i p <= comp i (hi b).
Proof.
  intros p b. unfold in_boxR. split.
  - intros (A & B & C) i Hi. destruct i as [|[|[|i]]]; cbn; auto; lia.
  - intros H. split; [apply (H 0%nat); lia|split; [apply (H 1%nat); lia|apply (H 2%nat); lia]].
Qed.
Lemma around_in : forall T d p, (forall i, (i < 3)%nat -> Rabs (comp i p - comp i T) <= comp i d) <-> in_boxR p (around T d).
Proof.
  intros T d p. rewrite in_boxR_comp. split; intros H i Hi; specialize (H i Hi).
  - unfold Rabs in H. destruct i as [|[|i]]; cbn in *; destruct (Rcase_abs _); lra.
  - apply Rabs_le. destruct i as [|[|i]]; cbn in *; lra.
Qed.
Lemma comp_apply : forall X q i, comp i (tf_apply X q) - comp i (tf_tr X) = ent (tf_rot X) i 0 * c0 q + ent (tf_rot X) i 1 * c1 q + ent (tf_rot X) i 2 * c2 q.
Proof. intros [A T] [x y z] i. unfold tf_apply, mapply, vadd, vscale, ent. destruct i as [|[|i]]; cbn; ring. Qed.
Lemma abs3 : forall a b c a' b' c', Rabs a <= a' -> Rabs b <= b' -> Rabs c <= c' -> Rabs (a + b + c) <= a' + b' + c'.
Proof.
  intros. apply Rle_trans with (Rabs (a + b) + Rabs c); [apply Rabs_triang|]. pose proof (Rabs_triang a b). lra.
Qed.
Lemma abs_mul_le : forall a x s, Rabs x <= Rabs s -> Rabs (a * x) <= Rabs (a * s).
Proof. intros. rewrite !Rabs_mult. apply Rmult_le_compat_l; [apply Rabs_pos|assumption]. Qed.
Lemma abs_le_sq : forall x s, x * x <= s * s -> Rabs x <= Rabs s.
Proof. intros x s H. apply Rsqr_le_abs_0. exact H. Qed.
Lemma Rmin_le_iff : forall a b x, x <= Rmin a b <-> x <= a /\ x <= b.
Proof. intros. unfold Rmin. destruct (Rle_dec a b); lra. Qed.
Lemma Rmax_le_iff : forall a b x, Rmax a b <= x <-> a <= x /\ b <= x.
Proof. intros. unfold Rmax. destruct (Rle_dec a b); lra. Qed.

(** The box of a list of points encloses them, and is the least such box when none exceeds [big]. *)
Lemma box_points_comp : forall ps b i, (i < 3)%nat ->
  (forall x, x <= comp i (lo (fold_left box_add ps b)) <-> x <= comp i (lo b) /\ forall p, In p ps -> x <= comp i p) /\
  (forall x, comp i (hi (fold_left box_add ps b)) <= x <-> comp i (hi b) <= x /\ forall p, In p ps -> comp i p <= x).
Proof.
  induction ps as [|q ps IH]; intros b i Hi; cbn [fold_left].
  - split; intros x; split; try (intros H; split; [exact H|intros p []]); intros [H _]; exact H.
  - destruct (IH (box_add b q) i Hi) as [L H].
    assert (EL : comp i (lo (box_add b q)) = Rmin (comp i (lo b)) (comp i q)) by (destruct i as [|[|[|i]]]; try reflexivity; lia).
    assert (EH : comp i (hi (box_add b q)) = Rmax (comp i (hi b)) (comp i q)) by (destruct i as [|[|[|i]]]; try reflexivity; lia).
    split; intros x.
    + rewrite L, EL, Rmin_le_iff. split.
      * intros [[A B] C]. split; [exact A|]. intros p [<-|Hp]; auto.
      * intros [A B]. split; [split; [exact A|apply B; left; reflexivity]|]. intros p Hp. apply B. right. exact Hp.
    + rewrite H, EH, Rmax_le_iff. split.
      * intros [[A B] C]. split; [exact A|]. intros p [<-|Hp]; auto.
      * intros [A B]. split; [split; [exact A|apply B; left; reflexivity]|]. intros p Hp. apply B. right. exact Hp.
Qed.
Lemma box_points_in : forall big ps p, In p ps -> in_boxR p (box_of_points big ps).
Proof.
  intros big ps p Hp. apply in_boxR_comp. intros i Hi. destruct (box_points_comp ps (box_none big) i Hi) as [L H]. fold (box_of_points big ps) in *.
  split; [apply (proj1 (L _)); [lra|exact Hp]|apply (proj1 (H _)); [lra|exact Hp]].
Qed.
Definition axis (i : nat) (s : R) : v3 := match i with 0%nat => mk3 s 0 0 | 1%nat => mk3 0 s 0 | _ => mk3 0 0 s end.
Lemma dot_axis : forall i s p, dot (axis i s) p = s * comp i p.
Proof. intros [|[|i]] s [x y z]; unfold dot, axis; cbn; ring. Qed.
(** A box contains the hull of its points. *)
Lemma hull_box : forall vs b p, (forall v, In v vs -> in_boxR v b) -> hull vs p -> in_boxR p b.
Proof.
  intros vs b p H Hp. apply in_boxR_comp. intros i Hi. split.
  - assert (dot (axis i (-1)) p <= - comp i (lo b)).
    { apply Hp. intros v Hv. rewrite dot_axis. apply H in Hv. rewrite in_boxR_comp in Hv. specialize (Hv i Hi). lra. }
    rewrite dot_axis in *. lra.
  - assert (dot (axis i 1) p <= comp i (hi b)).
    { apply Hp. intros v Hv. rewrite dot_axis. apply H in Hv. rewrite in_boxR_comp in Hv. specialize (Hv i Hi). lra. }
    rewrite dot_axis in *. lra.
Qed.
Lemma dot_tf : forall X u q, dot u (tf_apply X q) = dot (mtapply (tf_rot X) u) q + dot u (tf_tr X).
Proof. intros [[[] [] []] []] [] []. unfold tf_apply, mapply, mtapply, dot, vadd, vscale. cbn. ring. Qed.
Lemma hull_placed : forall X vs p, placed X (hull vs) p -> hull (map (tf_apply X) vs) p.
Proof.
  intros X vs p (q & Hq & ->) u h H. rewrite dot_tf.
  assert (dot (mtapply (tf_rot X) u) q <= h - dot u (tf_tr X)); [|lra].
  apply Hq. intros v Hv. specialize (H (tf_apply X v) (in_map _ _ _ Hv)). rewrite dot_tf in H. lra.
Qed.
Lemma hull_vertex : forall vs v, In v vs -> hull vs v.
Proof. intros vs v H u h K. apply K, H. Qed.
