(** C66: the bound vertices of a shape enclose it, and so do the volumes fitted to them. *)
From Coq Require Import Reals Lra Lia List Bool.
From Verif Require Import VecR KDop P_KDop Motion Eigen3 P_Eigen3 Obb P_Obb Fit P_Fit Prim P_Prim AabbDist ShapeBV P_ShapeBV BoundVerts.
Import ListNotations.
Open Scope R_scope.

Lemma hull_support : forall vs p, (forall u, exists v, In v vs /\ dot u p <= dot u v) -> hull vs p.
Proof. intros vs p H u h K. destruct (H u) as (v & Hv & D). specialize (K v Hv). lra. Qed.
Lemma hull_more : forall vs ws p, (forall v, In v vs -> In v ws) -> hull vs p -> hull ws p.
Proof. intros vs ws p H Hp u h K. apply Hp. intros v Hv. apply K, H, Hv. Qed.

(** ** Icosahedron *)
Ltac pick v := exists v; split; [unfold ico; cbn [In]; tauto|unfold dot; cbn; ring].
Lemma ico_signs : forall a b h u, let x := Rabs (c0 u) in let y := Rabs (c1 u) in let z := Rabs (c2 u) in
  (exists v, In v (ico a b h) /\ dot u v = a * y + b * z + c2 u * h) /\
  (exists v, In v (ico a b h) /\ dot u v = a * x + b * y + c2 u * h) /\
  (exists v, In v (ico a b h) /\ dot u v = b * x + a * z + c2 u * h).
Proof.
  intros a b h [p q s] x y z. cbn in x, y, z. unfold x, y, z, Rabs. cbn [c0 c1 c2].
  split; [|split].
  - destruct (Rcase_abs q), (Rcase_abs s); [pick (mk3 0 (- a) (- b + h))|pick (mk3 0 (- a) (b + h))|pick (mk3 0 a (- b + h))|pick (mk3 0 a (b + h))].
  - destruct (Rcase_abs p), (Rcase_abs q); [pick (mk3 (- a) (- b) h)|pick (mk3 (- a) b h)|pick (mk3 a (- b) h)|pick (mk3 a b h)].
  - destruct (Rcase_abs p), (Rcase_abs s); [pick (mk3 (- b) 0 (- a + h))|pick (mk3 (- b) 0 (a + h))|pick (mk3 b 0 (- a + h))|pick (mk3 b 0 (a + h))].
Qed.
Lemma ico_support : forall a r h u, 0 <= a -> 0 <= r -> 3 * (r * r) = (golden * golden * a) * (golden * golden * a) ->
  exists v, In v (ico a (golden * a) h) /\ r * norm u + c2 u * h <= dot u v.
Proof.
  intros a r h u Ha Hr E. destruct (ico_signs a (golden * a) h u) as ((v1 & I1 & D1) & (v2 & I2 & D2) & (v3 & I3 & D3)).
  set (x := Rabs (c0 u)) in *. set (y := Rabs (c1 u)) in *. set (z := Rabs (c2 u)) in *.
  destruct (Rle_dec (r * norm u) (a * y + golden * a * z)) as [L1|N1]; [exists v1; split; [exact I1|lra]|].
  destruct (Rle_dec (r * norm u) (a * x + golden * a * y)) as [L2|N2]; [exists v2; split; [exact I2|lra]|].
  destruct (Rle_dec (r * norm u) (golden * a * x + a * z)) as [L3|N3]; [exists v3; split; [exact I3|lra]|].
  exfalso. set (m := Rmax (Rmax (a * y + golden * a * z) (a * x + golden * a * y)) (golden * a * x + a * z)).
  assert (Hm : m < r * norm u) by (unfold m, Rmax; repeat destruct (Rle_dec _ _); lra).
  assert (M1 : a * y + golden * a * z <= m) by (unfold m, Rmax; repeat destruct (Rle_dec _ _); lra).
  assert (M2 : a * x + golden * a * y <= m) by (unfold m, Rmax; repeat destruct (Rle_dec _ _); lra).
  assert (M3 : golden * a * x + a * z <= m) by (unfold m, Rmax; repeat destruct (Rle_dec _ _); lra).
  clearbody m. assert (X : 0 <= x) by apply Rabs_pos. assert (Y : 0 <= y) by apply Rabs_pos. assert (Z : 0 <= z) by apply Rabs_pos.
  pose proof (ico_octant a r x y z m Ha E X Y Z M1 M2 M3) as O.
  assert (N : x * x + y * y + z * z = norm u * norm u).
  { rewrite norm_sq. unfold x, y, z, norm2, dot. rewrite <- !Rabs_mult. rewrite !Rabs_pos_eq by (apply Rle_0_sqr). reflexivity. }
  rewrite N in O. pose proof golden_pos. assert (0 <= m) by (apply Rle_trans with (2 := M1); assert (0 <= golden * a * z) by (apply Rmult_le_pos; nra); nra).
  assert (m * m < r * norm u * (r * norm u)) by (apply Rmult_le_0_lt_compat; assumption). lra.
Qed.

Lemma cs : forall u p r, norm p <= r -> dot u p <= r * norm u.
Proof.
  intros u p r H. apply Rle_trans with (norm u * norm p); [apply cauchy_schwarz|]. pose proof (Rmult_le_compat_l (norm u) _ _ (sqrt_pos (norm2 u) : 0 <= norm u) H). lra.
Qed.
Lemma dist_zero : forall p, dist p vzero = norm p.
Proof. intros []. unfold dist, vsub, vzero. cbn. f_equal. f_equal; ring. Qed.

(** The icosahedron contains exactly the balls up to the radius of the sphere. *)
Theorem sphere_verts_exact : forall r rho, 0 <= r ->
  ((forall p, ball vzero rho p -> hull (sphere_verts r) p) <-> rho <= r).
Proof.
  intros r rho Hr. pose proof (edge_size_sq r) as E. pose proof (edge_size_pos r Hr) as Ha. split.
  - intros H. destruct (Rle_dec 0 rho) as [P|]; [|lra]. set (k := rho / sqrt 3).
    pose proof (sqrt_sqrt 3 ltac:(lra)) as Q3. assert (P3 : 0 < sqrt 3) by (apply sqrt_lt_R0; lra).
    assert (K : 3 * (k * k) = rho * rho). { unfold k. rewrite <- Q3 at 1. field. lra. }
    assert (K0 : 0 <= k) by (unfold k; apply Rmult_le_pos; [exact P|left; apply Rinv_0_lt_compat, P3]).
    assert (B : ball vzero rho (mk3 k k k)) by (unfold ball; rewrite dist_zero; apply norm_le_sq; [exact P|unfold norm2, dot; cbn; lra]).
    specialize (H _ B (mk3 1 1 1) (golden * golden * edge_size r)).
    assert (L : dot (mk3 1 1 1) (mk3 k k k) <= golden * golden * edge_size r).
    { apply H. rewrite golden_sq. pose proof golden_pos as G. intros v Hv. unfold sphere_verts, ico in Hv. cbn [In] in Hv.
      set (a := edge_size r) in *. assert (0 <= golden * a) by (apply Rmult_le_pos; lra).
      repeat destruct Hv as [<-|Hv]; [..|contradiction]; unfold dot; cbn; lra. }
    unfold dot in L. cbn in L. set (b := golden * golden * edge_size r) in *. assert ((3 * k) * (3 * k) <= b * b) by (apply Rmult_le_compat; lra).
    apply sq_le; [exact Hr|]. nra.
  - intros H p Hp. unfold ball in Hp. rewrite dist_zero in Hp. apply hull_support. intros u.
    destruct (ico_support (edge_size r) r 0 u Ha Hr E) as (v & Hv & D). exists v. split; [exact Hv|]. pose proof (cs u p r ltac:(lra)). lra.
Qed.
Print Assumptions sphere_verts_exact.

Lemma ell_verts_scale : forall radii, let a := sqrt 3 / (golden * golden) in
  ell_verts radii = map (fun w => mk3 (c0 radii * c0 w) (c1 radii * c1 w) (c2 radii * c2 w)) (ico a (golden * a) 0).
Proof. intros [A B C] a. unfold ell_verts, ico. fold a. cbn. repeat (apply f_equal2; [f_equal; ring|]). reflexivity. Qed.
Theorem ell_verts_enclose : forall radii p, ellset radii p -> hull (ell_verts radii) p.
Proof.
  intros radii p (w & Hw & ->). apply hull_support. intros u. rewrite ell_verts_scale. cbv zeta. set (a := sqrt 3 / (golden * golden)).
  pose proof golden_pos as G. assert (P3 : 0 < sqrt 3) by (apply sqrt_lt_R0; lra). assert (GG : 0 < golden * golden) by nra.
  assert (Ha : 0 <= a) by (unfold a; apply Rmult_le_pos; [lra|left; apply Rinv_0_lt_compat, GG]).
  assert (E : 3 * (1 * 1) = golden * golden * a * (golden * golden * a)).
  { replace (golden * golden * a) with (sqrt 3) by (unfold a; field; lra). rewrite sqrt_sqrt; lra. }
  set (u' := mk3 (c0 radii * c0 u) (c1 radii * c1 u) (c2 radii * c2 u)).
  destruct (ico_support a 1 0 u' Ha ltac:(lra) E) as (v & Hv & D).
  exists (mk3 (c0 radii * c0 v) (c1 radii * c1 v) (c2 radii * c2 v)). split; [apply in_map_iff; exists v; auto|].
  assert (S : forall q, dot u (mk3 (c0 radii * c0 q) (c1 radii * c1 q) (c2 radii * c2 q)) = dot u' q) by (intros []; unfold dot, u'; cbn; ring).
  rewrite !S. assert (norm w <= 1) by (apply norm_le_sq; lra). pose proof (cs u' w 1 ltac:(lra)). lra.
Qed.
Print Assumptions ell_verts_enclose.

(** ** Hexagon *)
Definition planar (u : v3) : R := sqrt (c0 u * c0 u + c1 u * c1 u).
Lemma planar_sq : forall u, planar u * planar u = c0 u * c0 u + c1 u * c1 u.
Proof. intros u. apply sqrt_sqrt. pose proof (Rle_0_sqr (c0 u)). pose proof (Rle_0_sqr (c1 u)). unfold Rsqr in *. lra. Qed.
Lemma planar_pos : forall u, 0 <= planar u. Proof. intros. apply sqrt_pos. Qed.
Ltac pickh r k v := exists v; split; [unfold hexagon; cbn [In]; tauto|unfold dot; cbn; field; lra].
Lemma hex_support : forall r h u, 0 <= r -> exists v, In v (hexagon r h) /\ r * planar u + c2 u * h <= dot u v.
Proof.
  intros r h u Hr. set (k := r / sqrt 3). pose proof (sqrt_sqrt 3 ltac:(lra)) as Q3. assert (P3 : 0 < sqrt 3) by (apply sqrt_lt_R0; lra).
  assert (K : 3 * (k * k) = r * r) by (unfold k; rewrite <- Q3 at 1; field; lra).
  assert (K0 : 0 <= k) by (unfold k; apply Rmult_le_pos; [exact Hr|left; apply Rinv_0_lt_compat, P3]).
  assert (Hx : hexagon r h = [mk3 (2 * k) 0 h; mk3 k r h; mk3 (- k) r h; mk3 (- (2 * k)) 0 h; mk3 (- k) (- r) h; mk3 k (- r) h]).
  { unfold hexagon, k. repeat (apply f_equal2; [f_equal; field; lra|]). reflexivity. }
  rewrite Hx. clear Hx. clearbody k.
  set (x := Rabs (c0 u)). set (y := Rabs (c1 u)).
  assert (V1 : exists v, In v [mk3 (2 * k) 0 h; mk3 k r h; mk3 (- k) r h; mk3 (- (2 * k)) 0 h; mk3 (- k) (- r) h; mk3 k (- r) h] /\ dot u v = 2 * k * x + c2 u * h).
  { unfold x, Rabs. destruct (Rcase_abs (c0 u)); [exists (mk3 (- (2 * k)) 0 h)|exists (mk3 (2 * k) 0 h)]; (split; [cbn; tauto|unfold dot; cbn; ring]). }
  assert (V2 : exists v, In v [mk3 (2 * k) 0 h; mk3 k r h; mk3 (- k) r h; mk3 (- (2 * k)) 0 h; mk3 (- k) (- r) h; mk3 k (- r) h] /\ dot u v = k * x + r * y + c2 u * h).
  { unfold x, y, Rabs. destruct (Rcase_abs (c0 u)), (Rcase_abs (c1 u)); [exists (mk3 (- k) (- r) h)|exists (mk3 (- k) r h)|exists (mk3 k (- r) h)|exists (mk3 k r h)]; (split; [cbn; tauto|unfold dot; cbn; ring]). }
  destruct V1 as (v1 & I1 & D1). destruct V2 as (v2 & I2 & D2).
  destruct (Rle_dec (r * planar u) (2 * k * x)) as [|N1]; [exists v1; split; [exact I1|lra]|].
  destruct (Rle_dec (r * planar u) (k * x + r * y)) as [|N2]; [exists v2; split; [exact I2|lra]|].
  exfalso. set (m := Rmax (2 * k * x) (k * x + r * y)).
  assert (Hm : m < r * planar u) by (unfold m, Rmax; destruct (Rle_dec _ _); lra).
  assert (M1 : 2 * k * x <= m) by (unfold m, Rmax; destruct (Rle_dec _ _); lra). assert (M2 : k * x + r * y <= m) by (unfold m, Rmax; destruct (Rle_dec _ _); lra).
  clearbody m. assert (X : 0 <= x) by apply Rabs_pos. assert (Y : 0 <= y) by apply Rabs_pos.
  assert (N : x * x + y * y = planar u * planar u).
  { rewrite planar_sq. unfold x, y. rewrite <- !Rabs_mult. rewrite !Rabs_pos_eq by (apply Rle_0_sqr). reflexivity. }
  assert (KX : 0 <= k * x) by (apply Rmult_le_pos; assumption). assert (RY : 0 <= r * y) by (apply Rmult_le_pos; assumption).
  assert (A1 : 0 <= (m - (k * x + r * y)) * (m - k * x + r * y)) by (apply Rmult_le_pos; lra).
  assert (A2 : 0 <= 2 * k * x * (m - 2 * k * x)) by (apply Rmult_le_pos; lra).
  assert (Q : r * r * (x * x + y * y) <= m * m).
  { replace (r * r * (x * x + y * y)) with (3 * (k * k) * (x * x) + r * r * (y * y)) by (rewrite K; ring). nra. }
  rewrite N in Q. assert (m * m < r * planar u * (r * planar u)) by (apply Rmult_le_0_lt_compat; lra). lra.
Qed.
(** The planar part of a scalar product. *)
Lemma planar_cs : forall u q s, 0 <= s -> c0 q * c0 q + c1 q * c1 q <= s * s -> c0 u * c0 q + c1 u * c1 q <= s * planar u.
Proof.
  intros u q s Hs H. pose proof (cs (mk3 (c0 u) (c1 u) 0) (mk3 (c0 q) (c1 q) 0) s) as C.
  assert (E : norm (mk3 (c0 u) (c1 u) 0) = planar u) by (unfold norm, planar, norm2, dot; cbn; f_equal; ring). rewrite E in C. unfold dot in C. cbn in C.
  assert (norm (mk3 (c0 q) (c1 q) 0) <= s) by (apply norm_le_sq; [exact Hs|unfold norm2, dot; cbn; lra]). specialize (C H0). lra.
Qed.

Theorem cyl_verts_exact : forall lz r rho, 0 <= lz -> 0 <= r -> 0 <= rho ->
  ((forall p, cylset lz rho p -> hull (cyl_verts lz r) p) <-> rho <= r).
Proof.
  intros lz r rho Hl Hr Hrho. split.
  - intros H. assert (C : cylset lz rho (mk3 0 rho 0)) by (unfold cylset; cbn; lra). specialize (H _ C (mk3 0 1 0) r). unfold dot at 2 in H. cbn in H.
    assert (0 * 0 + 1 * rho + 0 * 0 <= r); [|lra]. apply H. intros v Hv. unfold cyl_verts, hexagon in Hv. cbn in Hv.
    repeat destruct Hv as [<-|Hv]; [..|contradiction]; unfold dot; cbn; lra.
  - intros H p (Hz & Hp). apply hull_support. intros u.
    assert (Q : c0 u * c0 p + c1 u * c1 p <= r * planar u) by (apply planar_cs; [exact Hr|nra]).
    destruct (Rle_dec 0 (c2 u)) as [P|N].
    + destruct (hex_support r (lz * (1 / 2)) u Hr) as (v & Hv & D). exists v. split; [apply in_or_app; right; exact Hv|]. unfold dot at 1. assert (c2 u * c2 p <= c2 u * (lz * (1 / 2))) by (apply Rmult_le_compat_l; lra). lra.
    + destruct (hex_support r (- (lz * (1 / 2))) u Hr) as (v & Hv & D). exists v. split; [apply in_or_app; left; exact Hv|]. unfold dot at 1.
      assert (- c2 u * - c2 p <= - c2 u * (lz * (1 / 2))) by (apply Rmult_le_compat_l; lra). lra.
Qed.
Print Assumptions cyl_verts_exact.

Theorem cone_verts_exact : forall lz r rho, 0 <= lz -> 0 <= r -> 0 <= rho ->
  ((forall p, coneset lz rho p -> hull (cone_verts lz r) p) <-> rho <= r).
Proof.
  intros lz r rho Hl Hr Hrho. split.
  - intros H. assert (C : coneset lz rho (mk3 0 rho (- (lz / 2)))) by (exists 1; cbn; split; [lra|split; [lra|lra]]). specialize (H _ C (mk3 0 1 0) r). unfold dot at 2 in H. cbn in H.
    assert (0 * 0 + 1 * rho + 0 * - (lz / 2) <= r); [|lra]. apply H. intros v Hv. unfold cone_verts, hexagon in Hv. cbn in Hv.
    repeat destruct Hv as [<-|Hv]; [..|contradiction]; unfold dot; cbn; lra.
  - intros H p (t & Ht & Hz & Hp). apply hull_support. intros u.
    assert (TR : 0 <= t * rho <= t * r) by (split; [apply Rmult_le_pos; lra|apply Rmult_le_compat_l; lra]).
    assert (Q : c0 u * c0 p + c1 u * c1 p <= t * r * planar u) by (apply planar_cs; [lra|]; apply Rle_trans with (1 := Hp); apply Rmult_le_compat; lra).
    assert (D0 : dot u p <= t * (r * planar u - c2 u * (lz / 2)) + (1 - t) * (c2 u * (lz / 2))) by (unfold dot; rewrite Hz; nra).
    destruct (Rle_dec (r * planar u - c2 u * (lz / 2)) (c2 u * (lz / 2))) as [L|N].
    + exists (mk3 0 0 (lz * (1 / 2))). split; [apply in_or_app; right; left; reflexivity|]. unfold dot at 2. cbn [c0 c1 c2].
      assert (t * (r * planar u - c2 u * (lz / 2)) <= t * (c2 u * (lz / 2))) by (apply Rmult_le_compat_l; lra). lra.
    + destruct (hex_support r (- (lz * (1 / 2))) u Hr) as (v & Hv & D). exists v. split; [apply in_or_app; left; exact Hv|].
      assert ((1 - t) * (c2 u * (lz / 2)) <= (1 - t) * (r * planar u - c2 u * (lz / 2))) by (apply Rmult_le_compat_l; lra). lra.
Qed.
Print Assumptions cone_verts_exact.

Theorem capsule_verts_exact : forall lz r rho, 0 <= lz -> 0 <= r ->
  ((forall p, capset lz rho p -> hull (capsule_verts lz r) p) <-> rho <= r).
Proof.
  intros lz r rho Hl Hr. pose proof (edge_size_sq r) as E. pose proof (edge_size_pos r Hr) as Ha. split.
  - intros H. destruct (Rle_dec 0 rho) as [P|]; [|lra]. set (k := rho / sqrt 3).
    pose proof (sqrt_sqrt 3 ltac:(lra)) as Q3. assert (P3 : 0 < sqrt 3) by (apply sqrt_lt_R0; lra).
    assert (K : 3 * (k * k) = rho * rho). { unfold k. rewrite <- Q3 at 1. field. lra. }
    assert (K0 : 0 <= k) by (unfold k; apply Rmult_le_pos; [exact P|left; apply Rinv_0_lt_compat, P3]).
    assert (B : capset lz rho (mk3 k k (k + lz / 2))).
    { exists (lz / 2). split; [lra|]. unfold dist. apply norm_le_sq; [exact P|unfold norm2, dot, vsub; cbn]. nra. }
    set (b := golden * golden * edge_size r) in *.
    assert (Bp : 0 <= b) by (unfold b; apply Rmult_le_pos; [pose proof golden_pos; nra|exact Ha]).
    specialize (H _ B (mk3 1 1 1) (b + lz / 2)).
    assert (L : dot (mk3 1 1 1) (mk3 k k (k + lz / 2)) <= b + lz / 2).
    { apply H. pose proof golden_pos as G. intros v Hv. unfold capsule_verts in Hv. rewrite !in_app_iff in Hv.
      assert (Eb : b = golden * edge_size r + edge_size r) by (unfold b; rewrite golden_sq; ring).
      set (a := edge_size r) in *. assert (GA : 0 <= golden * a) by (apply Rmult_le_pos; lra).
      assert (HX : r * 2 / sqrt 3 <= b /\ 1 / 2 * (r * 2 / sqrt 3) + r <= b /\ 0 <= r * 2 / sqrt 3).
      { set (j := r / sqrt 3). assert (J : 3 * (j * j) = r * r) by (unfold j; rewrite <- Q3 at 1; field; lra).
        assert (J0 : 0 <= j) by (unfold j; apply Rmult_le_pos; [exact Hr|left; apply Rinv_0_lt_compat, P3]).
        replace (r * 2 / sqrt 3) with (2 * j) by (unfold j; field; lra). clearbody j. assert (BB : b * b = 9 * (j * j)) by (rewrite <- E, <- J; ring).
        assert (b = 3 * j) by nra. assert (r <= 2 * j) by nra. lra. }
      destruct HX as (HX1 & HX2 & HX3). set (r2 := r * 2 / sqrt 3) in *.
      destruct Hv as [Hv|[Hv|[Hv|Hv]]]; [unfold ico in Hv|unfold ico in Hv|unfold hexagon in Hv; fold r2 in Hv|unfold hexagon in Hv; fold r2 in Hv]; cbn [In] in Hv; repeat destruct Hv as [<-|Hv]; try contradiction; unfold dot; cbn; lra. }
    unfold dot in L. cbn in L. assert ((3 * k) * (3 * k) <= b * b) by (apply Rmult_le_compat; lra).
    apply sq_le; [exact Hr|]. nra.
  - intros H p (z & Hz & D). apply hull_support. intros u.
    assert (Q : dot u p <= r * norm u + c2 u * z).
    { pose proof (cs u (vsub p (mk3 0 0 z)) r ltac:(unfold dist in D; lra)) as C. rewrite dot_sub_r in C. replace (dot u (mk3 0 0 z)) with (c2 u * z) in C by (unfold dot; cbn; ring). lra. }
    destruct (Rle_dec 0 (c2 u)) as [P|N].
    + destruct (ico_support (edge_size r) r (lz * (1 / 2)) u Ha Hr E) as (v & Hv & Dv). exists v. split; [unfold capsule_verts; apply in_or_app; left; exact Hv|].
      assert (c2 u * z <= c2 u * (lz * (1 / 2))) by (apply Rmult_le_compat_l; lra). lra.
    + destruct (ico_support (edge_size r) r (- (lz * (1 / 2))) u Ha Hr E) as (v & Hv & Dv). exists v. split; [unfold capsule_verts; apply in_or_app; right; apply in_or_app; left; exact Hv|].
      assert (- c2 u * - z <= - c2 u * (lz * (1 / 2))) by (apply Rmult_le_compat_l; lra). lra.
Qed.
Print Assumptions capsule_verts_exact.

Theorem box_verts_exact : forall side p, 0 <= c0 side -> 0 <= c1 side -> 0 <= c2 side -> (hull (box_verts side) p <-> boxset side p).
Proof.
  intros side p S0 S1 S2. split.
  - intros H. assert (B : in_boxR p (BoxR (mk3 (- (c0 side / 2)) (- (c1 side / 2)) (- (c2 side / 2))) (mk3 (c0 side / 2) (c1 side / 2) (c2 side / 2)))).
    { apply (hull_box (box_verts side)); [|exact H]. intros v Hv. unfold box_verts in Hv. cbn in Hv. repeat destruct Hv as [<-|Hv]; [..|contradiction]; unfold in_boxR; cbn; lra. }
    unfold in_boxR in B. cbn in B. intros i Hi. destruct i as [|[|[|i]]]; [..|lia]; cbn; lra.
  - intros H. pose proof (H 0%nat ltac:(lia)) as B0. pose proof (H 1%nat ltac:(lia)) as B1. pose proof (H 2%nat ltac:(lia)) as B2. cbn in B0, B1, B2.
    apply hull_support. intros u. assert (Sg : forall a s x, - (s / 2) <= x <= s / 2 -> a * x <= a * (s / 2) \/ a * x <= a * - (s / 2)) by (intros a s x Hx; destruct (Rle_dec 0 a); [left|right]; nra).
    destruct (Sg (c0 u) _ _ B0) as [X|X], (Sg (c1 u) _ _ B1) as [Y|Y], (Sg (c2 u) _ _ B2) as [Z|Z];
    match type of X with _ <= _ * ?a => match type of Y with _ <= _ * ?b => match type of Z with _ <= _ * ?c => exists (mk3 a b c) end end end; (split; [unfold box_verts; cbn; tauto|unfold dot; cbn [c0 c1 c2]; lra]).
Qed.
Print Assumptions box_verts_exact.

(** ** Every shape *)
Theorem bound_vertices_enclose : forall s X p, sizes_ok s -> placed X (points s) p -> hull (bound_vertices s X) p.
Proof.
  intros s X p Hs Hp. unfold bound_vertices. apply hull_placed. destruct Hp as (q & Hq & ->). exists q. split; [|reflexivity].
  destruct s as [side|r|lz r|lz r|lz r|radii|vs|a b c]; cbn [points local_verts sizes_ok] in *.
  - assert (B : in_boxR q (BoxR (mk3 (- (c0 side / 2)) (- (c1 side / 2)) (- (c2 side / 2))) (mk3 (c0 side / 2) (c1 side / 2) (c2 side / 2)))).
    { pose proof (Hq 0%nat ltac:(lia)) as B0. pose proof (Hq 1%nat ltac:(lia)) as B1. pose proof (Hq 2%nat ltac:(lia)) as B2. unfold in_boxR. cbn in *. lra. }
    unfold in_boxR in B. cbn in B. apply box_verts_exact; [lra|lra|lra|exact Hq].
  - apply (proj2 (sphere_verts_exact r r Hs)); [lra|exact Hq].
  - destruct Hs as [H1 H2]. apply (proj2 (capsule_verts_exact lz r r H1 H2)); [lra|exact Hq].
  - destruct Hs as [H1 H2]. apply (proj2 (cone_verts_exact lz r r H1 H2 H2)); [lra|exact Hq].
  - destruct Hs as [H1 H2]. apply (proj2 (cyl_verts_exact lz r r H1 H2 H2)); [lra|exact Hq].
  - apply ell_verts_enclose, Hq.
  - exact Hq.
  - apply tri_hull, Hq.
Qed.
Print Assumptions bound_vertices_enclose.

(** A kDOP, an oriented box and a rectangle swept sphere contain the hull of the points they contain. *)
Lemma hull_kdop : forall k d vs p, (forall v, In v vs -> contains k d v) -> hull vs p -> contains k d p.
Proof.
  intros k d vs p H Hp i Hi. split.
  - assert (dot (vneg (dir k i)) p <= - get d i).
    { apply Hp. intros v Hv. specialize (H v Hv i Hi). replace (dot (vneg (dir k i)) v) with (- dot (dir k i) v) by (destruct (dir k i), v; unfold dot, vneg; cbn; ring). lra. }
    replace (dot (vneg (dir k i)) p) with (- dot (dir k i) p) in * by (destruct (dir k i), p; unfold dot, vneg; cbn; ring). lra.
  - apply Hp. intros v Hv. apply (H v Hv i Hi).
Qed.
Definition clamp01 (l x : R) : R := if Rlt_dec x 0 then 0 else if Rlt_dec l x then l else x.
Lemma clamp01_spec : forall l x y, 0 <= l -> 0 <= y <= l -> 0 <= clamp01 l x <= l /\ (x - clamp01 l x) * (y - clamp01 l x) <= 0.
Proof. intros l x y Hl Hy. unfold clamp01. destruct (Rlt_dec x 0); [split; nra|]. destruct (Rlt_dec l x); split; nra. Qed.
Lemma hull_rss : forall b vs p, ortho (rax b) -> 0 <= rl0 b -> 0 <= rl1 b -> 0 <= rr b -> (forall v, In v vs -> in_rss b v) -> hull vs p -> in_rss b p.
Proof.
  intros b vs p O L0 L1 Rr H Hp. set (j := mtapply (rax b) (vsub p (To b))). set (x := clamp01 (rl0 b) (c0 j)). set (y := clamp01 (rl1 b) (c1 j)).
  set (c := vadd (To b) (mapply (rax b) (mk3 x y 0))). set (u := vsub p c).
  assert (X : 0 <= x <= rl0 b) by (apply (clamp01_spec _ _ 0); lra). assert (Y : 0 <= y <= rl1 b) by (apply (clamp01_spec _ _ 0); lra).
  assert (Eu : u = mapply (rax b) (mk3 (c0 j - x) (c1 j - y) (c2 j))).
  { assert (P : vsub p (To b) = mapply (rax b) j) by (unfold j; rewrite mapply_mt; [reflexivity|exact O]).
    unfold u, c. transitivity (vsub (vsub p (To b)) (mapply (rax b) (mk3 x y 0))).
    - destruct p, (To b), (mapply _ _). unfold vsub, vadd. cbn. f_equal; ring.
    - rewrite P, <- mapply_sub. f_equal. destruct j. unfold vsub. cbn. f_equal; ring. }
  assert (S : forall s t, 0 <= s <= 1 -> 0 <= t <= 1 -> dot u (rect b s t) <= dot u c).
  { intros s t Hs Ht. assert (Er : rect b s t = vadd (To b) (mapply (rax b) (mk3 (s * rl0 b) (t * rl1 b) 0))) by (unfold rect, mapply; destruct (To b), (rax b) as [[] [] []]; unfold vadd, vscale; cbn; f_equal; ring).
    rewrite Er. unfold c. rewrite !dot_add_r. apply Rplus_le_compat_l. rewrite Eu, !mapply_dot by exact O. unfold dot. cbn [c0 c1 c2].
    pose proof (clamp01_spec (rl0 b) (c0 j) (s * rl0 b) L0 ltac:(nra)) as [_ A]. pose proof (clamp01_spec (rl1 b) (c1 j) (t * rl1 b) L1 ltac:(nra)) as [_ B]. fold x in A. fold y in B. lra. }
  assert (Q : dot u p <= dot u c + rr b * norm u).
  { apply Hp. intros v Hv. apply H in Hv. destruct Hv as (s & t & Hs & Ht & D). specialize (S s t Hs Ht).
    pose proof (cs u (vsub v (rect b s t)) (rr b) D) as C. rewrite dot_sub_r in C. lra. }
  assert (N : norm u * norm u = dot u p - dot u c) by (rewrite norm_sq; unfold norm2; rewrite <- dot_sub_r; reflexivity).
  assert (D : norm u <= rr b) by (pose proof (sqrt_pos (norm2 u) : 0 <= norm u); destruct (Rle_dec (norm u) (rr b)); [assumption|nra]).
  assert (Fr : forall l z, 0 <= l -> 0 <= z <= l -> exists s, 0 <= s <= 1 /\ s * l = z).
  { intros l z Hl Hz. destruct (Req_dec l 0) as [->|Nz]; [exists 0; split; lra|]. exists (z / l). split; [apply frac01; lra|field; exact Nz]. }
  destruct (Fr _ _ L0 X) as (s & Hs & Es). destruct (Fr _ _ L1 Y) as (t & Ht & Et). exists s, t. split; [exact Hs|split; [exact Ht|]].
  replace (rect b s t) with c; [exact D|]. unfold c, rect, mapply. rewrite Es, Et. destruct (To b), (rax b) as [[] [] []]. unfold vadd, vscale. cbn. f_equal; ring.
Qed.

Theorem shape_kdop_encloses : forall big k s X p, sizes_ok s -> placed X (points s) p -> contains k (shape_kdop big k s X) p.
Proof. intros big k s X p Hs Hp. apply (hull_kdop k _ (bound_vertices s X)); [apply kdop_fit|]. apply bound_vertices_enclose; assumption. Qed.
Print Assumptions shape_kdop_encloses.

Lemma rect_fit_sizes : forall A q0 qs, 0 <= rl0 (rect_fit A q0 qs) /\ 0 <= rl1 (rect_fit A q0 qs).
Proof. intros. unfold rect_fit. cbn [rl0 rl1]. split; match goal with |- 0 <= (if Rlt_dec ?x 0 then _ else _) => destruct (Rlt_dec x 0); lra end. Qed.
Opaque eigen_old.
Lemma rss_fitn_form : forall absorbed q0 qs b, rss_fitn absorbed q0 qs = Some b -> exists A, b = rect_fit A q0 qs.
Proof.
  intros absorbed q0 qs b E. unfold rss_fitn in E. destruct (eigen_old absorbed (covariance (q0 :: qs))) as [[s V]|] eqn:F; [|discriminate].
  injection E as <-. exists (axis_from_eigen s V). reflexivity.
Qed.
Lemma rss_fitn_sizes : forall absorbed q0 qs b, rss_fitn absorbed q0 qs = Some b -> 0 <= rl0 b /\ 0 <= rl1 b /\ 0 <= rr b.
Proof.
  intros absorbed q0 qs b E. destruct (rss_fitn_encloses _ _ _ _ E) as [_ H]. pose proof (H q0 (or_introl eq_refl)) as In0.
  assert (L : 0 <= rl0 b /\ 0 <= rl1 b) by (destruct (rss_fitn_form _ _ _ _ E) as (A & ->); apply rect_fit_sizes).
  destruct L as [L0 L1]. split; [exact L0|split; [exact L1|]]. destruct In0 as (s' & t' & _ & _ & D). eapply Rle_trans; [|exact D]. apply dist_nonneg.
Qed.
Theorem shape_rss_encloses : forall absorbed s X p b, sizes_ok s -> shape_rss absorbed s X = Some b ->
  ortho (rax b) /\ (placed X (points s) p -> in_rss b p).
Proof.
  intros absorbed s X p b Hs E. unfold shape_rss in E. destruct (bound_vertices s X) as [|q0 qs] eqn:Ev; [discriminate|].
  pose proof (rss_fitn_encloses _ _ _ _ E) as [O H]. pose proof (rss_fitn_sizes _ _ _ _ E) as (L0 & L1 & Rr). split; [exact O|]. intros Hp.
  apply (hull_rss b (q0 :: qs)); try assumption. rewrite <- Ev. apply bound_vertices_enclose; assumption.
Qed.
Print Assumptions shape_rss_encloses.

(** Non-vacuity: a cone and a point of it; the bound vertices are seven. *)
Example ex_cone : sizes_ok (SCone 2 1) /\ points (SCone 2 1) (mk3 (1 / 2) 0 0) /\ length (local_verts (SCone 2 1)) = 7%nat.
Proof. cbn. split; [lra|split; [|reflexivity]]. exists (1 / 2). cbn. lra. Qed.
