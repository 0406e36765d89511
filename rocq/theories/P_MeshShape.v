(** C87: collision of a triangle mesh with a sphere, from the calls that build the model to the contacts. *)
From Coq Require Import Reals Lra Lia List Bool Arith Permutation ZArith.
From Verif Require Import VecR Motion AabbDist Obb BvhBuild BvhModel Traversal TraversalMesh Project Prim SphereTri ShapeBV MeshCollide P_MeshCollide MeshShape.
From Verif Require P_TriSat P_SphereTri P_ShapeBV P_BvhModel P_Obb.
Import ListNotations.
Open Scope R_scope.

(** A contact of a ball (centre o, radius r) with a placed triangle: the point is on the triangle, less than r + eps from the
    centre; the normal is the unit vector from the point to the centre *)
Definition ball_contact (enable : bool) (eps r : R) (o : v3) (P : tri3) (g : option (v3 * v3 * R)) : Prop :=
  (exists y, in3 P y /\ dist y o < r + eps) /\
  if enable then exists y n d, g = Some (y, n, d) /\ in3 P y /\ dist y o < r + eps /\ d = dist y o - r /\ norm n = 1 /\ vsub o y = vscale (dist y o) n
  else g = None.

(** A correct result for a mesh placed by X1 and a ball *)
Definition ball_reports (enable : bool) (max : nat) (eps r : R) (o : v3) (X1 : tf) (vs : list v3) (ts : list BvhModel.tri) (R : list scontact) : Prop :=
  (length R <= max)%nat /\ NoDup (map s1 R) /\
  ((exists x, mesh_surface vs ts x /\ dist (tf_apply X1 x) o <= r) -> R <> []) /\
  (forall c, In c R -> exists P, mesh_tri vs ts (s1 c) = Some P /\ ball_contact enable eps r o (map3 X1 P) (sgeo c)) /\
  ((length R < max)%nat -> forall p P x, mesh_tri vs ts p = Some P -> in3 P x -> dist (tf_apply X1 x) o <= r -> exists c, In c R /\ s1 c = p).

Lemma pt_tri : forall a b c q, tri_pt a b c q <-> in_tri a b c q.
Proof.
  intros a b c q. assert (E : forall x y z, bary3 a b c x y z = vadd (vadd (vscale x a) (vscale y b)) (vscale z c)) by (intros; unfold bary3, vadd; cbn; f_equal; ring).
  split; intros (x & y & z & A & B & C & D & ->); exists x, y, z; rewrite E; auto.
Qed.

Lemma hit_spec : forall eps r X1 X2 P, 0 < r + eps -> ortho (tf_rot X1) -> proper3 P ->
  (sphere_hit eps r X1 X2 P <> None <-> exists y, in3 (map3 X1 P) y /\ dist y (tf_tr X2) < r + eps) /\
  forall c, sphere_hit eps r X1 X2 P = Some c -> in3 (map3 X1 P) (cpos c) /\ dist (cpos c) (tf_tr X2) < r + eps /\ cdepth c = dist (cpos c) (tf_tr X2) - r /\
    norm (vneg (cnorm c)) = 1 /\ vsub (tf_tr X2) (cpos c) = vscale (dist (cpos c) (tf_tr X2)) (vneg (cnorm c)).
Proof.
  intros eps r X1 X2 ((a, b), c) Hr O Hp. cbn [map3 in3 sphere_hit].
  pose proof (P_TriSat.rot_proper X1 a b c O Hp) as Hp'. split.
  - rewrite (P_SphereTri.st_intersect_exact eps r X2 _ _ _ Hr Hp'). split; intros (y & I & L); exists y; (split; [apply pt_tri, I|exact L]).
  - intros ct E. destruct (P_SphereTri.st_contact eps r X2 _ _ _ ct Hr Hp' E) as (T & L & D & U & V & _).
    split; [apply pt_tri, T|]. split; [exact L|]. split; [exact D|]. split.
    + rewrite <- U. unfold norm. f_equal. generalize (cnorm ct). clear. vring.
    + revert V. generalize (cpos ct) (tf_tr X2) (cnorm ct) (dist (cpos ct) (tf_tr X2)). clear. intros p o n d V.
      unfold vsub, vscale, vneg in *. injection V. intros. cbn. f_equal; lra.
Qed.

Lemma ball_core : forall BV (apart : BV -> bool) enable cost max eps r (a : bvh v3 BV) (inb : BV -> v3 -> Prop) X1 X X2 vs ts fuel,
  0 <= r -> 0 < eps -> ortho (tf_rot X1) ->
  (exists t, hier inb a (length ts) t) -> convex inb ->
  (forall v x, inb v x -> dist (tf_apply X1 x) (tf_tr X2) <= r -> apart v = false) ->
  (forall p, (p < length ts)%nat -> tri_at a p = mesh_tri vs ts p) -> proper_mesh vs ts ->
  X = X1 -> (2 * length ts <= fuel)%nat -> (1 <= max)%nat ->
  exists R, mesh_shape_collide apart (sphere_hit eps r X X2) enable cost max a fuel = Some (None, R) /\
    ball_reports enable max eps r (tf_tr X2) X1 vs ts R.
Proof.
  intros BV apart enable cost max eps r a inb X1 X X2 vs ts fuel Hr He O1 (t & Hh) Cv Ap Tr (_ & Pm) -> Hf Hm.
  destruct (shape_core BV apart (sphere_hit eps r X1 X2) enable cost max a inb (fun y => dist y (tf_tr X2) <= r) X1 (length ts) t fuel Hh Cv Ap Hf) as (ps & Nd & Lt & Co & Run).
  eexists. split; [exact Run|]. clear Run. set (gen := fun p => shape_gen (sphere_hit eps r X1 X2) enable a p 0).
  assert (Sp : forall p, (p < length ts)%nat -> exists P, mesh_tri vs ts p = Some P /\ proper3 P /\
    ((gen p = [] /\ sphere_hit eps r X1 X2 P = None) \/ exists c, gen p = [c] /\ s1 c = p /\ ball_contact enable eps r (tf_tr X2) (map3 X1 P) (sgeo c))).
  { intros p Lp. destruct (Pm p Lp) as (P & E & PP). exists P. split; [exact E|]. split; [exact PP|]. unfold gen, shape_gen. rewrite (Tr p Lp), E.
    destruct (hit_spec eps r X1 X2 P ltac:(lra) O1 PP) as (H1 & H2). destruct (sphere_hit eps r X1 X2 P) as [c|] eqn:Eh; [right|left; auto].
    destruct (H2 c eq_refl) as (A & B & C & D & F). eexists. split; [reflexivity|]. split; [reflexivity|]. cbn [sgeo]. split; [exists (cpos c); auto|]. destruct enable; [|reflexivity]. exists (cpos c), (vneg (cnorm c)), (cdepth c). auto 10. }
  set (all := flat_map gen ps).
  assert (Ia : forall c, In c all -> exists P, mesh_tri vs ts (s1 c) = Some P /\ ball_contact enable eps r (tf_tr X2) (map3 X1 P) (sgeo c)).
  { intros c I. apply in_flat_map in I. destruct I as (p & Ip & Ic). destruct (Sp p (Lt p Ip)) as (P & E & _ & [(G & _)|(c' & G & S & B)]); rewrite G in Ic; [destruct Ic|]. destruct Ic as [->|[]]. rewrite S. exists P. auto. }
  assert (Ca : forall p P x, mesh_tri vs ts p = Some P -> in3 P x -> dist (tf_apply X1 x) (tf_tr X2) <= r -> exists c, In c all /\ s1 c = p).
  { intros p P x E I D. pose proof (mesh_tri_lt _ _ _ _ E) as Lp. destruct (Sp p Lp) as (P' & E' & PP & C). rewrite E in E'. injection E' as <-.
    assert (Ip : In p ps) by (apply (Co p P x Lp); [rewrite (Tr p Lp); exact E|exact I|exact D]).
    destruct C as [(_ & N)|(c & G & S & _)].
    - exfalso. apply (proj1 (hit_spec eps r X1 X2 P ltac:(lra) O1 PP)); [|exact N]. exists (tf_apply X1 x). split; [apply in3_map; exists x; auto|lra].
    - exists c. split; [|exact S]. apply in_flat_map. exists p. split; [exact Ip|]. rewrite G. left. reflexivity. }
  assert (Nm : NoDup (map s1 all)).
  { unfold all. clear Ia Ca. revert Nd Lt. clear Co. induction ps as [|p ps IH]; intros Nd Lt; cbn; [constructor|]. inversion Nd as [|? ? Np Nl]; subst.
    assert (Ih := IH Nl (fun q H => Lt q (or_intror H))). destruct (Sp p (Lt p (or_introl eq_refl))) as (P & _ & _ & [(G & _)|(c & G & S & _)]); rewrite G; [exact Ih|]. cbn. constructor; [|exact Ih].
    intros I. apply in_map_iff in I. destruct I as (c' & E & I). apply in_flat_map in I. destruct I as (q & Iq & Ic). destruct (Sp q (Lt q (or_intror Iq))) as (Q & _ & _ & [(G' & _)|(c'' & G' & S' & _)]); rewrite G' in Ic; [destruct Ic|]. destruct Ic as [->|[]]. congruence. }
  split; [rewrite firstn_length; lia|]. split; [|split; [|split]].
  - rewrite <- firstn_map. rewrite <- (firstn_skipn max (map s1 all)) in Nm. clear -Nm. induction (firstn max (map s1 all)) as [|x l IH]; [constructor|]. cbn in Nm. inversion Nm; subst. constructor; [intros I; apply H1; apply in_or_app; auto|apply IH; assumption].
  - intros (x & (p & P & E & I) & D) Z. destruct (Ca p P x E I D) as (c & Ic & _). fold gen all in Z. destruct all as [|c' l]; [destruct Ic|]. destruct max; [lia|discriminate Z].
  - intros c I. apply Ia, (firstn_in _ _ max), I.
  - intros Ll p P x E I D. fold gen all in Ll |- *. rewrite firstn_length in Ll. rewrite firstn_all2 by lia. apply (Ca p P x E I D).
Qed.

(** MeshShapeCollisionTraversalNodeOBB: any OBB fit that encloses the points it is given (C60), any split rule, any proper
    history without refitting, no flat triangle, rigid placements.  If the closed ball meets the placed surface there is
    a contact, every contact is with a triangle nearer than r + eps, no triangle has two, and with room left every triangle
    the ball meets has one. *)
Theorem mesh_obb_sphere : forall (fit : list v3 -> obb) plus split enable cost max eps r X1 X2 os cs m fuel,
  (forall l, ortho (ax (fit l)) /\ forall x, In x l -> inobb (fit l) x) ->
  0 <= r -> 0 < eps -> ortho (tf_rot X1) -> ortho (tf_rot X2) -> (1 <= max)%nat ->
  proper_history os spec0 -> Forall no_refit os -> brun fit plus split os fresh = Some (cs, m) ->
  let g := snd (arun os spec0) in
  a_st g = SProcessed -> proper_mesh (a_verts g) (a_tris g) -> (2 * length (a_tris g) <= fuel)%nat ->
  exists R, mesh_shape_collide (fun v => negb (obb_overlap_rt (tf_rot X1) (tf_tr X1) (sphere_obb r X2) v)) (sphere_hit eps r X1 X2) enable cost max m fuel = Some (None, R) /\
    ball_reports enable max eps r (tf_tr X2) X1 (a_verts g) (a_tris g) R.
Proof.
  intros fit plus split enable cost max eps r X1 X2 os cs m fuel Hfit Hr He O1 O2 Hm Hp Rf B g S P Hf.
  rewrite (brun_plus _ fit plus hull_obb) in B by exact Rf.
  destruct (model_hier obb fit hull_obb split in_obb) with (os := os) (cs := cs) (m := m) as (T & E); try assumption.
  { intros l x I. split; [apply Hfit|apply Hfit, I]. }
  { intros a b x I. apply hull_in. apply obb_near in I. pose proof (Rabs_pos (c0 (ext b))). pose proof (Rabs_pos (c1 (ext b))). pose proof (Rabs_pos (c2 (ext b))). pose proof (norm_nonneg (vsub (oc a) (oc b))). unfold dist in *. lra. }
  { intros a b x I. apply hull_in. apply obb_near in I. pose proof (Rabs_pos (c0 (ext a))). pose proof (Rabs_pos (c1 (ext a))). pose proof (Rabs_pos (c2 (ext a))). pose proof (dist_triangle (oc a) (oc b) x). lra. }
  { apply P. }
  apply (ball_core obb _ enable cost max eps r m in_obb); try assumption; try reflexivity.
  - exact obb_convex.
  - intros v x (Ov & Iv) D. rewrite (P_Obb.obb_overlap_rt_sound (tf_rot X1) (tf_tr X1) (sphere_obb r X2) v x); auto; [apply ortho_mid|].
    apply P_ShapeBV.sphere_obb_encloses; [exact O2|]. replace (vadd (mapply (tf_rot X1) x) (tf_tr X1)) with (tf_apply X1 x) by reflexivity.
    exists (tf_inv_apply X2 (tf_apply X1 x)). split; [|symmetry; apply tf_inv_right, O2]. unfold ball. rewrite <- (tf_dist X2 _ _ O2), tf_inv_right by exact O2.
    replace (tf_apply X2 vzero) with (tf_tr X2); [exact D|]. destruct X2 as [A []]. unfold tf_apply, mapply, vzero, vadd, dot. cbn. f_equal; ring.
Qed.
Print Assumptions mesh_obb_sphere.

(** MeshShapeCollisionTraversalNode with AABB: the model is first moved into the world frame, with or without refitting. *)
Theorem mesh_aabb_sphere : forall big split enable cost max eps r X1 X2 os ops cs m fuel,
  0 <= r -> 0 < eps -> ortho (tf_rot X1) -> ortho (tf_rot X2) -> (1 <= max)%nat ->
  proper_history os spec0 -> let g := snd (arun os spec0) in
  a_st g = SProcessed -> proper_mesh (a_verts g) (a_tris g) -> placing X1 (a_verts g) ops ->
  brun (box_fit big) box_plus split (os ++ ops) fresh = Some (cs, m) -> (2 * length (a_tris g) <= fuel)%nat ->
  exists R, mesh_shape_collide (fun v => negb (box_overlap v (sphere_aabb r X2))) (sphere_hit eps r tf_id X2) enable cost max m fuel = Some (None, R) /\
    ball_reports enable max eps r (tf_tr X2) X1 (a_verts g) (a_tris g) R.
Proof.
  intros big split enable cost max eps r X1 X2 os ops cs m fuel Hr He O1 O2 Hm Hp g S P W B Hf.
  destruct (placing_spec X1 os ops Hp S W) as (K & St & Ts & Vs). fold g in Ts, Vs.
  destruct (model_hier boxR (box_fit big) box_plus split in_box (box_fit_in big) box_plus_l box_plus_r _ cs m K B St) as (T & E); [rewrite Ts; apply P|].
  rewrite Ts, Vs in *.
  destruct (ball_core boxR (fun v => negb (box_overlap v (sphere_aabb r X2))) enable cost max eps r m in_box tf_id tf_id X2 (map (tf_apply X1) (a_verts g)) (a_tris g) fuel) as (R & Run & L & N & I & C & A);
    try assumption; try apply ortho_mid; try reflexivity; try (apply proper_map; assumption).
  - exact box_convex.
  - intros v x Iv D. rewrite tf_id_apply in D. rewrite (box_overlap_in v (sphere_aabb r X2) x Iv); [reflexivity|].
    unfold in_box. apply (proj1 (P_ShapeBV.sphere_aabb_least r X2 Hr O2)).
    exists (tf_inv_apply X2 x). split; [|symmetry; apply tf_inv_right, O2]. unfold ball. rewrite <- (tf_dist X2 _ _ O2), tf_inv_right by exact O2.
    replace (tf_apply X2 vzero) with (tf_tr X2); [exact D|]. destruct X2 as [M []]. unfold tf_apply, mapply, vzero, vadd, dot. cbn. f_equal; ring.
  - exists R. split; [exact Run|]. split; [exact L|]. split; [exact N|]. split; [|split].
    + intros (x & Sx & D). apply I. exists (tf_apply X1 x). split; [apply surface_map; eauto|]. rewrite tf_id_apply. exact D.
    + intros c Ic. destruct (C c Ic) as (Q & EQ & Hc). rewrite mesh_tri_map in EQ. destruct (mesh_tri _ _ (s1 c)) as [Q0|]; [|discriminate]. injection EQ as <-. rewrite map3_id in Hc. exists Q0. auto.
    + intros Lr p Q x EQ Ix D. apply (A Lr p (map3 X1 Q) (tf_apply X1 x)); [rewrite mesh_tri_map, EQ; reflexivity|apply in3_map; eauto|rewrite tf_id_apply; exact D].
Qed.
Print Assumptions mesh_aabb_sphere.

(** ** The margin *)
Lemma one_model : forall BV (fit : list v3 -> BV) plus split a b c, exists cs m, brun fit plus split (one a b c) fresh = Some (cs, m) /\
  exists nd, cell (m_bvs m) 0 = Some nd /\ n_bv nd = fit [a; b; c] /\ is_leaf nd = true.
Proof. intros. eexists _, _. split; [vm_compute; reflexivity|]. eexists. split; [reflexivity|]. split; reflexivity. Qed.

(** The leaf test accepts a triangle up to r + eps, the volume of the sphere has radius r: a mesh of one triangle between the
    two is not reported although the test of the triangle itself succeeds. *)
Theorem mesh_sphere_margin_refuted : forall big split enable cost max eps r fuel, 0 <= r -> 0 < eps -> r + eps <= big -> (1 <= fuel)%nat ->
  exists a b c cs m,
    brun (box_fit big) box_plus split (one a b c) fresh = Some (cs, m) /\ sphere_hit eps r tf_id tf_id (a, b, c) <> None /\
    mesh_shape_collide (fun v => negb (box_overlap v (sphere_aabb r tf_id))) (sphere_hit eps r tf_id tf_id) enable cost max m fuel = Some (None, []).
Proof.
  intros big split enable cost max eps r fuel Hr He Hb Hf. set (h := r + eps / 2).
  exists (mk3 (-1) (-1) h), (mk3 1 (-1) h), (mk3 0 1 h).
  destruct (one_model boxR (box_fit big) box_plus split (mk3 (-1) (-1) h) (mk3 1 (-1) h) (mk3 0 1 h)) as (cs & m & E & nd & Cn & En & Ln).
  exists cs, m. split; [exact E|]. clear E. split.
  - apply hit_spec; [lra|apply ortho_mid| |].
    + intros C. unfold cross, vsub in C. cbn in C. injection C. lra.
    + exists (mk3 0 0 h). split.
      * rewrite map3_id. exists (1/4), (1/4), (1/2). unfold vadd, vscale. cbn. split; [lra|]. split; [lra|]. split; [lra|]. split; [lra|]. f_equal; lra.
      * cbn [tf_id tf_tr]. unfold dist, norm. replace (norm2 (vsub (mk3 0 0 h) vzero)) with (h * h) by (unfold norm2, dot, vsub, vzero; cbn; ring). rewrite sqrt_square; unfold h; lra.
  - assert (Ap : box_overlap (n_bv nd) (sphere_aabb r tf_id) = false).
    { rewrite En. destruct (box_overlap _ _) eqn:O; [exfalso|reflexivity]. unfold box_overlap in O. apply negb_true_iff in O. rewrite !orb_false_iff in O. destruct O as (((((_ & _) & O) & _) & _) & _).
      revert O. unfold sphere_aabb, around, box_fit, box_add, rmin3, tf_id. cbn [fold_left lo hi c0 c1 c2 tf_tr vadd vzero].
      assert (Mn : Rmin (Rmin (Rmin big h) h) h = h) by (unfold Rmin; repeat destruct (Rle_dec _ _); unfold h in *; lra).
      rewrite Mn. destruct (Rlt_dec _ _); [discriminate|]. unfold h in *. lra. }
    unfold mesh_shape_collide. destruct fuel as [|fuel]; [lia|]. cbn [collide_node crec shape_iface leaf1 leaf2]. unfold shape_bvt, leafn. rewrite Cn, Ln, Ap. reflexivity.
Qed.
Print Assumptions mesh_sphere_margin_refuted.

(** ** The statements are about something *)
(** a ball of radius 1 around (0, 0, 1/2) meets the triangle once the mesh is moved by -5 along x *)
Example sphere_case : forall big split enable cost max eps, (1 <= max)%nat -> 0 < eps -> let tr := [mk3 (-5) (-10) 0; mk3 15 (-10) 0; mk3 5 10 0] in
  exists cs m R, brun (box_fit big) box_plus split (one (mk3 (-5) (-10) 0) (mk3 15 (-10) 0) (mk3 5 10 0) ++ to_world EX tr true true) fresh = Some (cs, m) /\
  mesh_shape_collide (fun v => negb (box_overlap v (sphere_aabb 1 (mktf mid (mk3 0 0 (1/2)))))) (sphere_hit eps 1 tf_id (mktf mid (mk3 0 0 (1/2)))) enable cost max m 2 = Some (None, R) /\ R <> [].
Proof.
  intros big split enable cost max eps Hm He tr. set (os := one (mk3 (-5) (-10) 0) (mk3 15 (-10) 0) (mk3 5 10 0)).
  destruct (one_proper (mk3 (-5) (-10) 0) (mk3 15 (-10) 0) (mk3 5 10 0)) as (B1 & B2 & B3); [intros C; unfold cross, vsub in C; cbn in C; injection C; lra|]. fold os in B1, B2, B3.
  assert (W : placing EX (a_verts (snd (arun os spec0))) (to_world EX tr true true)) by (right; exists true, true; reflexivity).
  destruct (placing_spec EX os _ B1 B2 W) as (K & _).
  destruct (P_BvhModel.bvh_protocol v3 boxR (box_fit big) box_plus split _ K) as (m & R1 & _).
  destruct (mesh_aabb_sphere big split enable cost max eps 1 EX (mktf mid (mk3 0 0 (1/2))) os _ _ m 2 ltac:(lra) He ortho_mid ortho_mid Hm B1 B2 B3 W R1 ltac:(cbn; lia)) as (R & Run & _ & _ & I & _).
  eexists _, m, R. split; [exact R1|]. split; [exact Run|]. apply I. exists (mk3 5 0 0). split.
  - exists 0%nat. eexists. split; [reflexivity|]. cbn. exists (1/4), (1/4), (1/2). unfold vadd, vscale. cbn. split; [lra|]. split; [lra|]. split; [lra|]. split; [lra|]. f_equal; lra.
  - cbn [tf_tr]. unfold dist, norm. apply Rle_trans with (sqrt 1); [|rewrite sqrt_1; lra]. apply sqrt_le_1_alt. unfold norm2, dot, vsub, tf_apply, EX, mapply, mid, vadd, dot. cbn. lra.
Qed.
