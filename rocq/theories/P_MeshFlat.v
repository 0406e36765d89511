(** C89: collision of a triangle mesh with a half-space or a plane. *)
From Coq Require Import Reals Lra Lia List Bool Arith Permutation ZArith.
From Verif Require Import VecR Motion Obb BvhBuild BvhModel Traversal TraversalMesh Prim HalfBV HalfQuery MeshCollide P_MeshCollide MeshShape MeshFlat.
From Verif Require P_HalfBV P_HalfQuery P_PlaneQuery P_BvhModel P_Obb P_MeshShape Dispatch P_Dispatch.
Import ListNotations.
Open Scope R_scope.

(** Every triangle has its three vertices; flat triangles are allowed *)
Definition sound_mesh (vs : list v3) (ts : list BvhModel.tri) : Prop := ts <> [] /\ forall p, (p < length ts)%nat -> exists P, mesh_tri vs ts p = Some P.

(** A correct result for a mesh placed by X1: [must] are the placed triangles that must have a contact, [ok] the contacts a placed
    triangle may have *)
Definition tri_reports (max : nat) (must : tri3 -> Prop) (ok : tri3 -> option (v3 * v3 * R) -> Prop) (X1 : tf) (vs : list v3) (ts : list BvhModel.tri) (R : list scontact) : Prop :=
  (length R <= max)%nat /\ NoDup (map s1 R) /\
  ((exists p P, mesh_tri vs ts p = Some P /\ must (map3 X1 P)) -> R <> []) /\
  (forall c, In c R -> exists P, mesh_tri vs ts (s1 c) = Some P /\ ok (map3 X1 P) (sgeo c)) /\
  ((length R < max)%nat -> forall p P, mesh_tri vs ts p = Some P -> must (map3 X1 P) -> exists c, In c R /\ s1 c = p).

(** The signed distance of a world point from the boundary of s placed by X2, positive outside; a triangle with points strictly on both
    sides *)
Definition height (s : flat) (X2 : tf) (z : v3) : R := dot (fn s) (tf_inv_apply X2 z) - fd s.
Definition straddles (s : flat) (X2 : tf) (Q : tri3) : Prop := exists p q, in3 Q p /\ in3 Q q /\ height s X2 p < 0 /\ 0 < height s X2 q.

(** With a half-space s placed by X2: the triangle meets it, at a point within [big] of the origin along each axis; the contact has
    the reversed outer normal, the depth of the deepest point q of the triangle, and lies half way from q to the boundary *)
Definition half_must (big : R) (s : flat) (X2 : tf) (Q : tri3) : Prop := exists z, in3 Q z /\ placed X2 (in_half s) z /\ P_HalfBV.bounded big z.
Definition half_contact (enable : bool) (s : flat) (X2 : tf) (Q : tri3) (g : option (v3 * v3 * R)) : Prop :=
  (exists z, in3 Q z /\ placed X2 (in_half s) z) /\
  if enable then exists q d, let n := mapply (tf_rot X2) (fn s) in
    g = Some (vadd q (vscale (d / 2) n), vneg n, d) /\ in3 Q q /\ d = - height s X2 q /\ (forall z, in3 Q z -> - height s X2 z <= d)
  else g = None.

(** With a plane: the triangle has points strictly on both sides, and meets the plane within [big] of the point of it nearest to
    the origin of its frame; the contact lies in the plane, and the depth is the reach on the side where the triangle reaches less
    far, where the normal points away *)
Definition plane_must (big : R) (s : flat) (X2 : tf) (Q : tri3) : Prop :=
  straddles s X2 Q /\ exists z, in3 Q z /\ placed X2 (in_plane s) z /\ dist z (tf_apply X2 (vscale (fd s) (fn s))) <= big.
Definition plane_touch (enable : bool) (s : flat) (X2 : tf) (Q : tri3) (g : option (v3 * v3 * R)) : Prop :=
  straddles s X2 Q /\
  if enable then exists y n d, g = Some (y, n, d) /\ placed X2 (in_plane s) y /\
    exists e, (e = 1 \/ e = -1) /\ n = vscale e (mapply (tf_rot X2) (fn s)) /\
      (exists q, in3 Q q /\ e * height s X2 q = d) /\ (forall z, in3 Q z -> e * height s X2 z <= d) /\ (exists z, in3 Q z /\ d <= - e * height s X2 z)
  else g = None.

Definition hit_geo (enable : bool) (c : contact) : option (v3 * v3 * R) := if enable then Some (cpos c, vneg (cnorm c), cdepth c) else None.

Lemma hit_core : forall BV (apart : BV -> bool) hit enable cost max (a : bvh v3 BV) (inb : BV -> v3 -> Prop) (K : v3 -> Prop) (must : tri3 -> Prop) (ok : tri3 -> option (v3 * v3 * R) -> Prop) X1 vs ts fuel,
  (exists t, hier inb a (length ts) t) -> convex inb ->
  (forall v x, inb v x -> K (tf_apply X1 x) -> apart v = false) ->
  (forall P, must (map3 X1 P) -> exists x, in3 P x /\ K (tf_apply X1 x)) ->
  (forall P, must (map3 X1 P) -> hit P <> None) ->
  (forall P c, hit P = Some c -> ok (map3 X1 P) (hit_geo enable c)) ->
  (forall p, (p < length ts)%nat -> tri_at a p = mesh_tri vs ts p) -> sound_mesh vs ts ->
  (2 * length ts <= fuel)%nat -> (1 <= max)%nat ->
  exists R, mesh_shape_collide apart hit enable cost max a fuel = Some (None, R) /\ tri_reports max must ok X1 vs ts R.
Proof.
  intros BV apart hit enable cost max a inb K must ok X1 vs ts fuel (t & Hh) Cv Ap Mk Mh Ho Tr (_ & Pm) Hf Hm.
  destruct (shape_core BV apart hit enable cost max a inb K X1 (length ts) t fuel Hh Cv Ap Hf) as (ps & Nd & Lt & Co & Run).
  eexists. split; [exact Run|]. clear Run. set (gen := fun p => shape_gen hit enable a p 0).
  assert (Sp : forall p, (p < length ts)%nat -> exists P, mesh_tri vs ts p = Some P /\
    ((gen p = [] /\ hit P = None) \/ exists c, gen p = [c] /\ s1 c = p /\ ok (map3 X1 P) (sgeo c))).
  { intros p Lp. destruct (Pm p Lp) as (P & E). exists P. split; [exact E|]. unfold gen, shape_gen. rewrite (Tr p Lp), E.
    destruct (hit P) as [c|] eqn:Eh; [right|left; auto]. eexists. split; [reflexivity|]. split; [reflexivity|]. apply (Ho P c Eh). }
  set (all := flat_map gen ps).
  assert (Ia : forall c, In c all -> exists P, mesh_tri vs ts (s1 c) = Some P /\ ok (map3 X1 P) (sgeo c)).
  { intros c I. apply in_flat_map in I. destruct I as (p & Ip & Ic). destruct (Sp p (Lt p Ip)) as (P & E & [(G & _)|(c' & G & S & B)]); unfold gen in *; rewrite G in Ic; [destruct Ic|]. destruct Ic as [->|[]]. rewrite S. exists P. auto. }
  assert (Ca : forall p P, mesh_tri vs ts p = Some P -> must (map3 X1 P) -> exists c, In c all /\ s1 c = p).
  { intros p P E M. pose proof (mesh_tri_lt _ _ _ _ E) as Lp. destruct (Sp p Lp) as (P' & E' & C). rewrite E in E'. injection E' as <-.
    destruct (Mk P M) as (x & Ix & Kx). assert (Ip : In p ps) by (apply (Co p P x Lp); [rewrite (Tr p Lp); exact E|exact Ix|exact Kx]).
    destruct C as [(_ & N)|(c & G & S & _)].
    - exfalso. apply (Mh P M N).
    - exists c. split; [|exact S]. apply in_flat_map. exists p. split; [exact Ip|]. rewrite G. left. reflexivity. }
  assert (Nm : NoDup (map s1 all)).
  { unfold all. clear Ia Ca. revert Nd Lt. clear Co. induction ps as [|p ps IH]; intros Nd Lt; cbn; [constructor|]. inversion Nd as [|? ? Np Nl]; subst.
    assert (Ih := IH Nl (fun q H => Lt q (or_intror H))). destruct (Sp p (Lt p (or_introl eq_refl))) as (P & _ & [(G & _)|(c & G & S & _)]); rewrite G; [exact Ih|]. cbn. constructor; [|exact Ih].
    intros I. apply in_map_iff in I. destruct I as (c' & E & I). apply in_flat_map in I. destruct I as (q & Iq & Ic). destruct (Sp q (Lt q (or_intror Iq))) as (Q & _ & [(G' & _)|(c'' & G' & S' & _)]); rewrite G' in Ic; [destruct Ic|]. destruct Ic as [->|[]]. congruence. }
  split; [rewrite firstn_length; lia|]. split; [|split; [|split]].
  - rewrite <- firstn_map. rewrite <- (firstn_skipn max (map s1 all)) in Nm. clear -Nm. induction (firstn max (map s1 all)) as [|x l IH]; [constructor|]. cbn in Nm. inversion Nm; subst. constructor; [intros I; apply H1; apply in_or_app; auto|apply IH; assumption].
  - intros (p & P & E & M) Z. destruct (Ca p P E M) as (c & Ic & _). fold gen all in Z. destruct all as [|c' l]; [destruct Ic|]. destruct max; [lia|discriminate Z].
  - intros c I. apply Ia, (firstn_in _ _ max), I.
  - intros Ll p P E M. fold gen all in Ll |- *. rewrite firstn_length in Ll. rewrite firstn_all2 by lia. apply (Ca p P E M).
Qed.

Lemma placed3 : forall X P z, placed X (fun x => in3 P x) z <-> in3 (map3 X P) z.
Proof.
  intros X P z. rewrite in3_map. unfold placed. split; intros (x & A & B); exists x; auto.
Qed.

Lemma sd_height : forall s X2 z, ortho (tf_rot X2) -> dot (fn s) (fn s) = 1 -> sd (flat_transform s X2) z = height s X2 z.
Proof.
  intros s X2 z O U. destruct (P_HalfBV.transform_form s X2 O U) as (-> & _). unfold sd, height. cbn [fn fd].
  rewrite <- (tf_inv_right X2 z O) at 1. unfold tf_apply at 1. rewrite dot_add_r, mapply_dot by exact O. ring.
Qed.
Lemma fn_placed : forall s X2, ortho (tf_rot X2) -> dot (fn s) (fn s) = 1 -> fn (flat_transform s X2) = mapply (tf_rot X2) (fn s).
Proof. intros s X2 O U. destruct (P_HalfBV.transform_form s X2 O U) as (-> & _). reflexivity. Qed.

Lemma half_hit_spec : forall s X1 X2 P, ortho (tf_rot X2) -> dot (fn s) (fn s) = 1 ->
  ((exists z, in3 (map3 X1 P) z /\ placed X2 (in_half s) z) -> half_hit s X1 X2 P <> None) /\
  forall enable c, half_hit s X1 X2 P = Some c -> half_contact enable s X2 (map3 X1 P) (hit_geo enable c).
Proof.
  intros s X1 X2 ((a, b), c) O U. destruct (P_HalfQuery.tri_half_exact a b c X1 s X2 O U) as (H1 & H2). unfold half_hit. split.
  - intros (z & Iz & Hz) N. apply H1 in N. apply N. exists z. split; [apply (placed3 X1 (a, b, c)), Iz|exact Hz].
  - intros enable ct E. destruct (H2 ct E) as (En & q & Kq & Ed & Mx & Ep). apply (placed3 X1 (a, b, c)) in Kq. split.
    + destruct (P_HalfQuery.sd_half s X2 q O U) as (S1 & _). exists q. split; [exact Kq|]. apply S1.
      destruct (Rle_dec (sd (flat_transform s X2) q) 0) as [L|L]; [exact L|]. exfalso.
      assert (N : tri_half (flat_transform s X2) a b c X1 = None); [|congruence]. apply H1. intros (z & Kz & Hz). specialize (Mx z Kz). apply P_HalfQuery.sd_half in Hz; [|assumption..]. lra.
    + destruct enable; [|reflexivity]. exists q, (cdepth ct). cbn zeta. unfold hit_geo. rewrite Ep, En, fn_placed by assumption. split; [reflexivity|]. split; [exact Kq|]. rewrite <- sd_height by assumption. split; [exact Ed|]. intros z Iz. rewrite <- sd_height by assumption. apply Mx. apply (placed3 X1 (a, b, c)), Iz.
Qed.

Lemma obb_model : forall (fit : list v3 -> obb) plus split os cs m,
  (forall l, ortho (ax (fit l)) /\ forall x, In x l -> inobb (fit l) x) ->
  proper_history os spec0 -> Forall no_refit os -> brun fit plus split os fresh = Some (cs, m) ->
  let g := snd (arun os spec0) in a_st g = SProcessed -> sound_mesh (a_verts g) (a_tris g) ->
  (exists t, hier in_obb m (length (a_tris g)) t) /\ forall p, (p < length (a_tris g))%nat -> tri_at m p = mesh_tri (a_verts g) (a_tris g) p.
Proof.
  intros fit plus split os cs m Hfit Hp Rf B g S P. rewrite (brun_plus _ fit plus hull_obb) in B by exact Rf.
  apply (model_hier obb fit hull_obb split in_obb) with (os := os) (cs := cs); try assumption.
  { intros l x I. split; [apply Hfit|apply Hfit, I]. }
  { intros a b x I. apply hull_in. apply obb_near in I. pose proof (Rabs_pos (c0 (ext b))). pose proof (Rabs_pos (c1 (ext b))). pose proof (Rabs_pos (c2 (ext b))). pose proof (norm_nonneg (vsub (oc a) (oc b))). unfold dist in *. lra. }
  { intros a b x I. apply hull_in. apply obb_near in I. pose proof (Rabs_pos (c0 (ext a))). pose proof (Rabs_pos (c1 (ext a))). pose proof (Rabs_pos (c2 (ext a))). pose proof (dist_triangle (oc a) (oc b) x). lra. }
  { apply P. }
Qed.

(** A half-space with a unit normal, any OBB fit that encloses the points it is given, any split rule, any proper history without
    refitting, rigid placements of both: each triangle that meets the half-space within [big] is reported, once, and nothing
    else; flat triangles included. *)
Theorem mesh_obb_half : forall (fit : list v3 -> obb) plus split enable cost max big s X1 X2 os cs m fuel,
  (forall l, ortho (ax (fit l)) /\ forall x, In x l -> inobb (fit l) x) ->
  dot (fn s) (fn s) = 1 -> ortho (tf_rot X1) -> ortho (tf_rot X2) -> (1 <= max)%nat ->
  proper_history os spec0 -> Forall no_refit os -> brun fit plus split os fresh = Some (cs, m) ->
  let g := snd (arun os spec0) in
  a_st g = SProcessed -> sound_mesh (a_verts g) (a_tris g) -> (2 * length (a_tris g) <= fuel)%nat ->
  exists R, mesh_shape_collide (half_apart big X1) (half_hit s X1 X2) enable cost max m fuel = Some (None, R) /\
    tri_reports max (half_must big s X2) (half_contact enable s X2) X1 (a_verts g) (a_tris g) R.
Proof.
  intros fit plus split enable cost max big s X1 X2 os cs m fuel Hfit U O1 O2 Hm Hp Rf B g S P Hf.
  destruct (obb_model fit plus split os cs m Hfit Hp Rf B S P) as (T & E). fold g in T, E.
  apply (hit_core obb _ _ enable cost max m in_obb (P_HalfBV.bounded big)); try assumption.
  - exact obb_convex.
  - intros v x (Ov & Iv) D. unfold half_apart. rewrite (P_Obb.obb_overlap_rt_sound (tf_rot X1) (tf_tr X1) (half_obb big) v x); auto; [apply ortho_mid|].
    apply P_HalfBV.half_obb_encloses, D.
  - intros Q (z & Iz & _ & Bz). apply in3_map in Iz. destruct Iz as (x & Ix & ->). exists x. auto.
  - intros Q (z & Iz & Hz & _). apply (proj1 (half_hit_spec s X1 X2 Q O2 U)). exists z. auto.
  - intros Q c Ec. apply (proj2 (half_hit_spec s X1 X2 Q O2 U)), Ec.
Qed.
Print Assumptions mesh_obb_half.

Lemma crosses_iff : forall (K : v3 -> Prop) s X2 Q, ortho (tf_rot X2) -> dot (fn s) (fn s) = 1 -> (forall z, K z <-> in3 Q z) -> (P_PlaneQuery.crosses K (flat_transform s X2) <-> straddles s X2 Q).
Proof.
  intros K s X2 Q O U E. unfold P_PlaneQuery.crosses, straddles. split; intros (p & q & A & B & C & D); exists p, q; rewrite ?sd_height in * by assumption; rewrite ?sd_height by assumption; (split; [apply E, A|split; [apply E, B|split; assumption]]).
Qed.

Lemma plane_hit_spec : forall s X1 X2 P, ortho (tf_rot X2) -> dot (fn s) (fn s) = 1 ->
  (straddles s X2 (map3 X1 P) -> plane_hit s X1 X2 P <> None) /\
  forall enable c, plane_hit s X1 X2 P = Some c -> plane_touch enable s X2 (map3 X1 P) (hit_geo enable c).
Proof.
  intros s X1 X2 ((a, b), c) O U. destruct (P_PlaneQuery.tri_plane_exact (flat_transform s X2) a b c X1) as (H1 & H2). unfold plane_hit.
  assert (Q : forall z, placed X1 (in_tri a b c) z <-> in3 (map3 X1 (a, b, c)) z) by (intros z; apply (placed3 X1 (a, b, c))).
  rewrite (crosses_iff _ _ _ _ O U Q) in H1. split; [intros C N; apply H1 in N; contradiction|].
  intros enable ct E. destruct (H2 ct E) as (Ey & e & He & En & (q & Kq & Eq) & Mx & (z & Kz & Lz)). split.
  - destruct (Rle_dec (cdepth ct) 0) as [D|D].
    + exfalso. assert (N : tri_plane (flat_transform s X2) a b c X1 = None); [|congruence]. apply H1. intros (u & v & Iu & Iv & Lu & Lv). apply Q in Iu, Iv. rewrite <- sd_height in Lu, Lv by assumption. pose proof (Mx u Iu). pose proof (Mx v Iv). destruct He; subst e; lra.
    + apply Q in Kq, Kz. destruct He; subst e; [exists z, q|exists q, z]; rewrite <- !sd_height by assumption; (split; [assumption|split; [assumption|lra]]).
  - destruct enable; [|reflexivity]. exists (cpos ct), (vneg (cnorm ct)), (cdepth ct). split; [reflexivity|]. split; [apply P_PlaneQuery.sd_plane; assumption|].
    exists e. split; [exact He|]. split; [rewrite En, fn_placed by assumption; generalize (mapply (tf_rot X2) (fn s)); intros n; destruct n; unfold vneg, vscale; cbn; f_equal; ring|].
    split; [exists q; rewrite <- sd_height by assumption; split; [apply Q, Kq|exact Eq]|]. split; [intros w Iw; rewrite <- sd_height by assumption; apply Mx, Q, Iw|exists z; rewrite <- sd_height by assumption; split; [apply Q, Kz|exact Lz]].
Qed.

(** A plane: each triangle that crosses it within [big] is reported, once, and nothing else; a triangle that only touches the plane or
    lies in it is not reported (tri_plane_touch_refuted, C69). *)
Theorem mesh_obb_plane : forall (fit : list v3 -> obb) plus split enable cost max big uo s X1 X2 os cs m fuel,
  (forall l, ortho (ax (fit l)) /\ forall x, In x l -> inobb (fit l) x) -> P_HalfBV.orthogonal_of uo ->
  dot (fn s) (fn s) = 1 -> ortho (tf_rot X1) -> ortho (tf_rot X2) -> (1 <= max)%nat ->
  proper_history os spec0 -> Forall no_refit os -> brun fit plus split os fresh = Some (cs, m) ->
  let g := snd (arun os spec0) in
  a_st g = SProcessed -> sound_mesh (a_verts g) (a_tris g) -> (2 * length (a_tris g) <= fuel)%nat ->
  exists R, mesh_shape_collide (plane_apart big uo s X1 X2) (plane_hit s X1 X2) enable cost max m fuel = Some (None, R) /\
    tri_reports max (plane_must big s X2) (plane_touch enable s X2) X1 (a_verts g) (a_tris g) R.
Proof.
  intros fit plus split enable cost max big uo s X1 X2 os cs m fuel Hfit Hu U O1 O2 Hm Hp Rf B g S P Hf.
  destruct (obb_model fit plus split os cs m Hfit Hp Rf B S P) as (T & E). fold g in T, E.
  apply (hit_core obb _ _ enable cost max m in_obb (fun z => placed X2 (in_plane s) z /\ dist z (tf_apply X2 (vscale (fd s) (fn s))) <= big)); try assumption.
  - exact obb_convex.
  - intros v x (Ov & Iv) (D & L). unfold plane_apart. destruct (P_HalfBV.plane_obb_exact big uo s X2 (tf_apply X1 x) Hu O2 U) as (Oa & Ia).
    rewrite (P_Obb.obb_overlap_rt_sound (tf_rot X1) (tf_tr X1) (plane_obb big uo s X2) v x); auto.
    apply Ia. split; [exact D|]. change (oc (plane_obb big uo s X2)) with (tf_apply X2 (vscale (fd s) (fn s))).
    assert (C : forall w u, dot u u = 1 -> norm w <= big -> - big <= dot w u <= big).
    { intros w u Hu1 Hw. pose proof (cauchy_schwarz_abs w u) as CS. assert (N1 : norm u = 1) by (unfold norm, norm2; rewrite Hu1; apply sqrt_1). rewrite N1 in CS. unfold Rabs in CS; destruct (Rcase_abs (dot w u)); lra. }
    unfold dist in L. destruct Oa as (_ & A1 & A2 & _). split; apply C; assumption.
  - intros Q (_ & z & Iz & Hz & Bz). apply in3_map in Iz. destruct Iz as (x & Ix & ->). exists x. auto.
  - intros Q (C & _). apply (proj1 (plane_hit_spec s X1 X2 Q O2 U)), C.
  - intros Q c Ec. apply (proj2 (plane_hit_spec s X1 X2 Q O2 U)), Ec.
Qed.
Print Assumptions mesh_obb_plane.

(** ** Which leaf test runs *)
(** collide() takes every mesh with every shape it knows.  The leaf test knows the shape exactly if the volume keeps the
    frames (OBB, RSS, kIOS, OBBRSS) or the shape is neither a half-space nor a plane; a half-space or plane gets its own routine. *)
Definition oriented (b : Dispatch.bvk) : Prop := b = Dispatch.OBB \/ b = Dispatch.RSS \/ b = Dispatch.KIOS \/ b = Dispatch.OBBRSS.
Theorem mesh_shape_leaf : forall (A : Type) (class : A -> Dispatch.cls) v octo max (x y : A) b s, (1 <= max)%nat ->
  class x = Dispatch.Mesh b -> class y = Dispatch.Shape s -> s <> Dispatch.TriangleP ->
  exists f r, Dispatch.collide_call class octo max x y = Dispatch.Call f x y /\ entry_routine v f = Some r /\
    (s = Dispatch.Halfspace -> oriented b -> r = RHalf) /\ (s = Dispatch.Plane -> oriented b -> r = RPlane) /\
    (r = RNull \/ r = ROrigin <-> (s = Dispatch.Halfspace \/ s = Dispatch.Plane) /\ ~ oriented b).
Proof.
  intros A class v octo max x y b s Hm Ex Ey Hs.
  destruct (P_Dispatch.collide_dispatch A class octo max x y Hm) as (D & _). rewrite Ex, Ey in D. destruct D as (_ & D).
  { split; [exact I|]. split; [destruct s; try exact I; congruence|exact I]. }
  destruct (D ltac:(intros [])) as (f & E & C). rewrite Ex, Ey in C.
  exists f, (leaf_routine v (keeps_frame b) s). split; [exact E|].
  destruct f; cbn in C; try discriminate C. injection C as -> ->. split; [reflexivity|].
  unfold oriented. destruct v, b, s; cbn; intuition congruence.
Qed.
Print Assumptions mesh_shape_leaf.

(** So with a mesh of AABBs or k-DOPs in front of a half-space or a plane, the call that collide() makes for a supported pair ends in a
    call through a null pointer (libccd) or tests the origin of the half-space's frame instead of the half-space. *)
Theorem mesh_flat_leaf_refuted : forall (A : Type) (class : A -> Dispatch.cls) v octo max (x y : A) b s, (1 <= max)%nat ->
  class x = Dispatch.Mesh b -> class y = Dispatch.Shape s -> (s = Dispatch.Halfspace \/ s = Dispatch.Plane) -> ~ oriented b ->
  exists f, Dispatch.collide_call class octo max x y = Dispatch.Call f x y /\ entry_routine v f = Some (match v with Libccd => RNull | Indep => ROrigin end).
Proof.
  intros A class v octo max x y b s Hm Ex Ey Hs Hb.
  destruct (mesh_shape_leaf A class v octo max x y b s Hm Ex Ey) as (f & r & E & Er & _ & _ & H); [destruct Hs; congruence|].
  exists f. split; [exact E|]. rewrite Er. destruct H as (_ & H). specialize (H (conj Hs Hb)). f_equal.
  destruct f; cbn in Er; try discriminate Er. injection Er as <-. destruct v; destruct H as [H|H]; try exact H; exfalso; revert H; unfold leaf_routine; match goal with |- context [keeps_frame ?u] => destruct (keeps_frame u) end; match goal with |- context [match ?w with _ => _ end] => destruct w end; cbn; discriminate.
Qed.
Print Assumptions mesh_flat_leaf_refuted.

(** ** The statements are about something *)
(** a triangle on both sides of z = 0, moved by -5 along x, has a contact with the half-space z <= 0 and with the plane z = 0 *)
Example flat_case : forall (fit : list v3 -> obb) plus split enable cost max uo, (1 <= max)%nat ->
  (forall l, ortho (ax (fit l)) /\ forall x, In x l -> inobb (fit l) x) -> P_HalfBV.orthogonal_of uo -> let s := Flat (mk3 0 0 1) 0 in
  exists cs m R1 R2, brun fit plus split (one (mk3 0 0 1) (mk3 (-1) 0 (-1)) (mk3 1 0 (-1))) fresh = Some (cs, m) /\
  mesh_shape_collide (half_apart 10 EX) (half_hit s EX tf_id) enable cost max m 2 = Some (None, R1) /\ R1 <> [] /\
  mesh_shape_collide (plane_apart 10 uo s EX tf_id) (plane_hit s EX tf_id) enable cost max m 2 = Some (None, R2) /\ R2 <> [].
Proof.
  intros fit plus split enable cost max uo Hm Hfit Hu s. set (os := one (mk3 0 0 1) (mk3 (-1) 0 (-1)) (mk3 1 0 (-1))).
  destruct (one_proper (mk3 0 0 1) (mk3 (-1) 0 (-1)) (mk3 1 0 (-1))) as (B1 & B2 & B3); [intros C; unfold cross, vsub in C; cbn in C; injection C; lra|]. fold os in B1, B2, B3.
  assert (B4 : sound_mesh (a_verts (snd (arun os spec0))) (a_tris (snd (arun os spec0)))) by (destruct B3 as (N & H); split; [exact N|intros p Lp; destruct (H p Lp) as (P & E & _); exists P; exact E]).
  destruct (P_BvhModel.bvh_protocol v3 obb fit plus split os B1) as (m & R1 & _).
  assert (Rf : Forall no_refit os) by (unfold os, one; repeat constructor).
  assert (U : dot (fn s) (fn s) = 1) by (unfold s, dot; cbn; lra).
  assert (Hh : forall z, height s tf_id z = c2 z) by (intros []; unfold height, s, tf_inv_apply, mtapply, tf_id, mid, vsub, vzero, dot; cbn; ring).
  assert (Hp : forall z, c2 z <= 0 -> placed tf_id (in_half s) z) by (intros z Hz; exists z; split; [unfold in_half, s, dot; cbn; lra|symmetry; apply tf_id_apply]).
  assert (Hq : forall z, c2 z = 0 -> placed tf_id (in_plane s) z) by (intros z Hz; exists z; split; [unfold in_plane, s, dot; cbn; lra|symmetry; apply tf_id_apply]).
  destruct (mesh_obb_half fit plus split enable cost max 10 s EX tf_id os _ m 2 Hfit U ortho_mid ortho_mid Hm B1 Rf R1 B2 B4 ltac:(cbn; lia)) as (Ra & Run1 & _ & _ & I1 & _).
  destruct (mesh_obb_plane fit plus split enable cost max 10 uo s EX tf_id os _ m 2 Hfit Hu U ortho_mid ortho_mid Hm B1 Rf R1 B2 B4 ltac:(cbn; lia)) as (Rb & Run2 & _ & _ & I2 & _).
  assert (M : map3 EX (mk3 0 0 1, mk3 (-1) 0 (-1), mk3 1 0 (-1)) = (mk3 (-5) 0 1, mk3 (-6) 0 (-1), mk3 (-4) 0 (-1))).
  { unfold map3, EX, tf_apply, mapply, mid, vadd, dot. cbn. repeat f_equal; lra. }
  assert (Ia : in3 (mk3 (-5) 0 1, mk3 (-6) 0 (-1), mk3 (-4) 0 (-1)) (mk3 (-5) 0 1)) by (exists 1, 0, 0; unfold vadd, vscale; cbn; repeat split; try lra; f_equal; lra).
  assert (Ib : in3 (mk3 (-5) 0 1, mk3 (-6) 0 (-1), mk3 (-4) 0 (-1)) (mk3 (-6) 0 (-1))) by (exists 0, 1, 0; unfold vadd, vscale; cbn; repeat split; try lra; f_equal; lra).
  assert (Ic : in3 (mk3 (-5) 0 1, mk3 (-6) 0 (-1), mk3 (-4) 0 (-1)) (mk3 (-5) 0 0)) by (exists (1/2), (1/4), (1/4); unfold vadd, vscale; cbn; repeat split; try lra; f_equal; lra).
  eexists _, m, Ra, Rb. split; [exact R1|]. split; [exact Run1|]. split; [|split; [exact Run2|]].
  - apply I1. exists 0%nat. eexists. split; [reflexivity|]. rewrite M. exists (mk3 (-6) 0 (-1)). split; [exact Ib|]. split; [apply Hp; cbn; lra|].
    intros i Hi. unfold comp. destruct i as [|[|[|i]]]; cbn; try lra; lia.
  - apply I2. exists 0%nat. eexists. split; [reflexivity|]. rewrite M. split.
    + exists (mk3 (-6) 0 (-1)), (mk3 (-5) 0 1). rewrite !Hh. cbn [c2]. split; [exact Ib|]. split; [exact Ia|]. lra.
    + exists (mk3 (-5) 0 0). split; [exact Ic|]. split; [apply Hq; reflexivity|]. rewrite tf_id_apply. unfold dist, norm.
      apply Rle_trans with (sqrt (10 * 10)); [|rewrite sqrt_square; lra]. apply sqrt_le_1_alt. unfold norm2, dot, vsub, vscale, s. cbn. lra.
Qed.
