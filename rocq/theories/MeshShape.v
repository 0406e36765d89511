(** Collision of a triangle mesh with a shape: MeshShapeCollisionTraversalNode
    (include/fcl/narrowphase/detail/traversal/collision/mesh_shape_collision_traversal_node-inl.h) on a model built by
    a history of calls (C25, C26), traversed by C28, with the sphere-triangle test of C84 as the leaf test. *)
From Coq Require Import Reals Lra Lia List Bool Arith Permutation ZArith.
From Verif Require Import VecR Motion AabbDist Obb BvhBuild BvhModel Traversal TraversalMesh Prim SphereTri MeshCollide.
Import ListNotations.
Open Scope R_scope.

(** BVHShapeCollisionTraversalNode (bvh_shape_collision_traversal_node-inl.h 64-82): the first tree is the model's; the
    second has the default functions (traversal_node_base-inl.h 84-140), one node that is a leaf *)
Definition shape_iface {BV} (b1 : list (option (node BV))) : iface :=
  Iface (leafn b1) (leftn b1) (rightn b1) (fun _ => true) (fun b => b) (fun b => b) (fun _ _ => true).

(** BVTesting (bvh_shape_collision_traversal_node-inl.h 86-92 and mesh_shape 276-285): [apart] on the volume of the node, the
    volume of the shape being fixed *)
Definition shape_bvt {BV} (apart : BV -> bool) (b1 : list (option (node BV))) (i j : nat) : bool :=
  match cell b1 i with Some x => apart (n_bv x) | None => true end.

(** Contact: b1 is the primitive, b2 is NONE; with enable_contact position, normal and depth *)
Record scontact := SC { s1 : nat; sgeo : option (v3 * v3 * R) }.

(** leafTesting (63-123) and meshShapeCollisionOrientedNodeLeafTesting (187-264) for occupied objects: [hit] is
    shapeTriangleIntersect on the three vertices; the normal is reversed.  Without enable_contact the outputs are not
    asked for, which does not change the answer of [st_intersect].  Cost sources are not modelled. *)
Definition shape_gen {BV} (hit : tri3 -> option contact) (enable : bool) (a : bvh v3 BV) (p _ : nat) : list scontact :=
  match tri_at a p with
  | Some P => match hit P with
      | Some c => [SC p (if enable then Some (cpos c, vneg (cnorm c), cdepth c) else None)]
      | None => []
      end
  | None => []
  end.

(** collide(&node) with an empty result and no front list *)
Definition mesh_shape_collide {BV} (apart : BV -> bool) (hit : tri3 -> option contact) (enable cost : bool) (max : nat) (a : bvh v3 BV) (fuel : nat) :=
  collide_node (shape_iface (m_bvs a)) (shape_bvt apart (m_bvs a)) (list scontact)
    (leaf_contacts scontact max (shape_gen hit enable a) (primn (m_bvs a)) (fun j => j)) (satisfied scontact max cost) fuel None [].

(** shapeTriangleIntersect of GJKSolver_libccd for a sphere (gjk_solver_libccd-inl.h 402-420 with X1 the identity, 478-500) *)
Definition sphere_hit (eps r : R) (X1 X2 : tf) (P : tri3) : option contact :=
  let '(a, b, c) := P in st_intersect eps r X2 (tf_apply X1 a) (tf_apply X1 b) (tf_apply X1 c).

(** ** The traversal *)
Lemma shape_core : forall BV (apart : BV -> bool) hit enable cost max (a : bvh v3 BV) (inb : BV -> v3 -> Prop) (K : v3 -> Prop) X1 n t fuel,
  hier inb a n t -> convex inb ->
  (forall v x, inb v x -> K (tf_apply X1 x) -> apart v = false) ->
  (2 * n <= fuel)%nat ->
  exists ps, NoDup ps /\ (forall p, In p ps -> (p < n)%nat) /\
    (forall p P x, (p < n)%nat -> tri_at a p = Some P -> in3 P x -> K (tf_apply X1 x) -> In p ps) /\
    mesh_shape_collide apart hit enable cost max a fuel = Some (None, firstn max (flat_map (fun p => shape_gen hit enable a p 0) ps)).
Proof.
  intros BV apart hit enable cost max a inb K X1 n t fuel (Z & L & N & C & G) Cv Ap Hf. set (b1 := m_bvs a) in *.
  destruct (crec_spec (shape_iface b1) (shape_bvt apart b1) (list scontact) (leaf_contacts scontact max (shape_gen hit enable a) (primn b1) (fun j => j)) (satisfied scontact max cost))
    with (fuel := fuel) (t1 := t) (t2 := BLeaf 0 0) as (V & F & (V1 & V2 & V3) & _ & _ & R).
  { intros i j. cbn. split; [reflexivity|discriminate]. }
  { unfold weight. cbn [fst snd lids length]. lia. }
  { unfold shaped1. cbn. eapply good_shaped; exact G. }
  { reflexivity. }
  { exact N. }
  { cbn. constructor; [intros []|constructor]. }
  assert (V0 : forall i j, In (i, j) V -> In i (lids t) /\ j = 0%nat).
  { intros i j I. apply V2 in I. destruct I as (I & _). apply in_cells in I. cbn in I. intuition. }
  assert (Pr : map (primn b1) (lids t) = tleaves t) by (eapply good_prim; exact G).
  assert (Inj : forall i i', In i (lids t) -> In i' (lids t) -> primn b1 i = primn b1 i' -> i = i').
  { assert (Nd : NoDup (map (primn b1) (lids t))) by (rewrite Pr; eapply Permutation_NoDup; [apply Permutation_sym; exact L|apply seq_NoDup]).
    clear -Nd. induction (lids t) as [|x l IH]; intros i i' H H' E; [destruct H|]. cbn in Nd. inversion Nd as [|? ? Nx Nl]; subst.
    destruct H as [<-|H], H' as [<-|H']; [reflexivity| | |apply IH; assumption]; exfalso; apply Nx; [rewrite E|rewrite <- E]; apply in_map; assumption. }
  exists (map (fun ij => primn b1 (fst ij)) V). split; [|split; [|split]].
  - assert (D : forall l, NoDup l -> (forall i j, In (i, j) l -> In i (lids t) /\ j = 0%nat) -> NoDup (map (fun ij => primn b1 (fst ij)) l)).
    { clear -Inj. induction l as [|(i, j) l IH]; intros Nd H; cbn; [constructor|]. inversion Nd as [|? ? Nx Nl]; subst. constructor; [|apply IH; [exact Nl|intros; apply H; right; assumption]].
      intros I. apply in_map_iff in I. destruct I as ((i', j') & E & I'). cbn in E. destruct (H i j (or_introl eq_refl)) as (Hi & ->). destruct (H i' j' (or_intror I')) as (Hi' & ->).
      apply Inj in E; [|assumption..]. subst. contradiction. }
    apply D; [exact V1|exact V0].
  - intros p I. apply in_map_iff in I. destruct I as ((i, j) & <- & I). apply V0 in I. destruct I as (I & _). cbn [fst].
    assert (Il : In (primn b1 i) (tleaves t)) by (rewrite <- Pr; apply in_map; exact I). apply (Permutation_in _ L) in Il. apply in_seq in Il. lia.
  - intros p P x Lp EP Ix Kx. assert (Il : In p (tleaves t)) by (apply (Permutation_in _ (Permutation_sym L)); apply in_seq; lia).
    rewrite <- Pr in Il. apply in_map_iff in Il. destruct Il as (i & <- & Ii). apply in_map_iff. exists (i, 0%nat). split; [reflexivity|].
    apply V3; [apply in_cells; cbn; auto|]. intros q1 q2 Q1 Q2 J1 J2. destruct (good_sub _ _ _ _ Q1 _ G) as (f1 & g1). destruct (good_bv _ _ _ _ _ g1 J1) as (nd & Cn & (_ & En)).
    unfold shape_bvt. rewrite Cn. apply (Ap _ x); [|exact Kx]. apply (Cv _ P); [|exact Ix]. intros v Hv. apply (En P); assumption.
  - destruct (R None []) as (s' & E & T). rewrite Z in E. cbn [tid] in E. unfold mesh_shape_collide. fold b1. cbn [collide_node]. rewrite E. cbn [option_map]. apply stop_contacts in T. rewrite T. cbn [app length]. rewrite Nat.sub_0_r.
    do 3 f_equal. unfold all_contacts. clear -V0. induction V as [|(i, j) V IH]; [reflexivity|]. cbn [map flat_map fst snd]. rewrite IH by (intros; apply V0; right; assumption). reflexivity.
Qed.
