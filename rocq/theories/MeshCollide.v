(** Collision of two triangle meshes: the leaf test of MeshCollisionTraversalNode
    (include/fcl/narrowphase/detail/traversal/collision/mesh_collision_traversal_node-inl.h) on models
    built by a history of calls (C25, C26), traversed by C28, with the triangle test of C85. *)
From Coq Require Import Reals Lra Lia List Bool Arith Permutation ZArith.
From Verif Require Import VecR Motion AabbDist Obb BvhBuild BvhModel Traversal TraversalMesh TriSat.
From Verif Require P_TriSat P_BvhModel P_Traversal.
Import ListNotations.
Open Scope R_scope.

Definition tri3 : Type := v3 * v3 * v3.
Definition in3 (P : tri3) (x : v3) : Prop := let '(a, b, c) := P in in_tri a b c x.
Definition proper3 (P : tri3) : Prop := let '(a, b, c) := P in P_TriSat.proper a b c.
Definition map3 (X : tf) (P : tri3) : tri3 := let '(a, b, c) := P in (tf_apply X a, tf_apply X b, tf_apply X c).
Definition corner3 (P : tri3) (x : v3) : Prop := let '(a, b, c) := P in x = a \/ x = b \/ x = c.
Definition base3 (P : tri3) : v3 := let '(a, _, _) := P in a.

(** vertices[tri_indices[p][k]] (135-149, 544-559); None: outside an array or never written *)
Definition vert_at {BV} (m : bvh v3 BV) (i : nat) : option v3 := match nth_error (m_verts m) i with Some (Some v) => Some v | _ => None end.
Definition tri_at {BV} (m : bvh v3 BV) (p : nat) : option tri3 :=
  match nth_error (m_tris m) p with
  | Some (Some (a, b, c)) => match vert_at m a, vert_at m b, vert_at m c with Some A, Some B, Some C => Some (A, B, C) | _, _, _ => None end
  | _ => None
  end.

(** Contact: the ids of the primitives and, with enable_contact, position, normal and depth *)
Record wcontact := WC { w1 : nat; w2 : nat; wgeo : option (v3 * v3 * R) }.

(** relativeTransform (include/fcl/math/geometry-inl.h 657-708), called by setupMeshCollisionOrientedNode (747) *)
Definition rel_tf (X1 X2 : tf) : tf := mktf (mtmul (tf_rot X1) (tf_rot X2)) (mtapply (tf_rot X1) (vsub (tf_tr X2) (tf_tr X1))).

(** The contacts of two occupied primitives: meshCollisionOrientedNodeLeafTesting (526-613) with R, T = X, and with
    X = X1 = the identity MeshCollisionTraversalNode::leafTesting (126-193).  That only as many are added as
    num_max_contacts leaves room for is [leaf_contacts]; cost sources are not modelled.  An undefined result
    of the contact computation (C85) is no contact here; the theorems exclude it. *)
Definition leaf_gen {BV} (far : R) (enable : bool) (X X1 : tf) (a1 a2 : bvh v3 BV) (p q : nat) : list wcontact :=
  match tri_at a1 p, tri_at a2 q with
  | Some (P1, P2, P3), Some (Q1, Q2, Q3) =>
      if tri_test_tf P1 P2 P3 Q1 Q2 Q3 X then
        if enable then
          match tri_contact far P1 P2 P3 (tf_apply X Q1) (tf_apply X Q2) (tf_apply X Q3) with
          | Some (pts, n, d) => map (fun y => WC p q (Some (tf_apply X1 y, mapply (tf_rot X1) n, d))) pts
          | None => []
          end
        else [WC p q None]
      else []
  | _, _ => []
  end.

(** collide(&node) with an empty result and no front list; BVTesting is [disjoint] on the volumes *)
Definition mesh_collide {BV} (size : BV -> Z) (disjoint : BV -> BV -> bool) (far : R) (enable cost : bool) (max : nat) (X X1 : tf)
    (a1 a2 : bvh v3 BV) (fuel : nat) :=
  collide_node (mesh_iface size (m_bvs a1) (m_bvs a2)) (on_bvs true disjoint (m_bvs a1) (m_bvs a2)) (list wcontact)
    (leaf_contacts wcontact max (leaf_gen far enable X X1 a1 a2) (primn (m_bvs a1)) (primn (m_bvs a2))) (satisfied wcontact max cost) fuel None [].

(** AABB: operator += (point) from the empty box, operator + and overlap (include/fcl/math/bv/AABB-inl.h 98-108, 160-186) *)
Definition rmin3 (a b : v3) : v3 := mk3 (Rmin (c0 a) (c0 b)) (Rmin (c1 a) (c1 b)) (Rmin (c2 a) (c2 b)).
Definition rmax3 (a b : v3) : v3 := mk3 (Rmax (c0 a) (c0 b)) (Rmax (c1 a) (c1 b)) (Rmax (c2 a) (c2 b)).
Definition box_add (b : boxR) (p : v3) : boxR := BoxR (rmin3 (lo b) p) (rmax3 (hi b) p).
Definition box_fit (big : R) (ps : list v3) : boxR := fold_left box_add ps (BoxR (mk3 big big big) (mk3 (- big) (- big) (- big))).
Definition box_plus (a b : boxR) : boxR := BoxR (rmin3 (lo a) (lo b)) (rmax3 (hi a) (hi b)).
Definition box_overlap (a b : boxR) : bool :=
  let lt x y := if Rlt_dec x y then true else false in
  negb (lt (c0 (hi b)) (c0 (lo a)) || lt (c1 (hi b)) (c1 (lo a)) || lt (c2 (hi b)) (c2 (lo a)) ||
        lt (c0 (hi a)) (c0 (lo b)) || lt (c1 (hi a)) (c1 (lo b)) || lt (c2 (hi a)) (c2 (lo b)))%bool.

(** initialize of MeshCollisionTraversalNode<BV> (216-262): the calls made on a model that is not already in the
    world frame *)
Definition to_world (X : tf) (vs : list v3) (refit bottomup : bool) : list (bop v3) :=
  [OBeginReplace; OReplaceSub (map (tf_apply X) vs); OEndReplace refit bottomup].

(** ** Triangles under rigid motions *)
Lemma in3_map : forall X P x, in3 (map3 X P) x <-> exists y, in3 P y /\ x = tf_apply X y.
Proof.
  intros X ((a, b), c) x. cbn [map3 in3].
  assert (A : forall u v w, u + v + w = 1 -> tf_apply X (vadd (vadd (vscale u a) (vscale v b)) (vscale w c)) = vadd (vadd (vscale u (tf_apply X a)) (vscale v (tf_apply X b))) (vscale w (tf_apply X c))).
  { intros u v w S. replace w with (1 - u - v) by lra. unfold tf_apply. generalize (tf_rot X) (tf_tr X). clear. intros M t. destruct M as [[] [] []], t, a, b, c. unfold mapply, vadd, vscale, dot. cbn. f_equal; ring. }
  split.
  - intros (u & v & w & Hu & Hv & Hw & S & ->). eexists. split; [exists u, v, w; repeat (split; [assumption|]); reflexivity|]. rewrite (A u v w S). reflexivity.
  - intros (y & (u & v & w & Hu & Hv & Hw & S & ->) & ->). exists u, v, w. rewrite (A u v w S). tauto.
Qed.
Lemma corner3_map : forall X P x, corner3 P x -> corner3 (map3 X P) (tf_apply X x).
Proof. intros X ((a, b), c) x [ -> | [ -> | -> ] ]; cbn; tauto. Qed.
Lemma tf_inj : forall X x y, ortho (tf_rot X) -> tf_apply X x = tf_apply X y -> x = y.
Proof. intros X x y O E. rewrite <- (tf_inv_left X x O), <- (tf_inv_left X y O), E. reflexivity. Qed.
Lemma rel_apply : forall X1 X2 y, ortho (tf_rot X1) -> tf_apply X1 (tf_apply (rel_tf X1 X2) y) = tf_apply X2 y.
Proof.
  intros X1 X2 y O. assert (E : tf_apply (rel_tf X1 X2) y = tf_inv_apply X1 (tf_apply X2 y)).
  { unfold tf_apply, tf_inv_apply, rel_tf. cbn [tf_rot tf_tr]. generalize (tf_rot X1) (tf_tr X1) (tf_rot X2) (tf_tr X2). clear. intros [[] [] []] [] [[] [] []] []. destruct y. unfold mtmul, mtapply, mapply, vadd, vsub, vscale, dot. cbn. f_equal; ring. }
  rewrite E. apply tf_inv_right, O.
Qed.
Lemma rel_ortho : forall X1 X2, ortho (tf_rot X1) -> ortho (tf_rot X2) -> ortho (tf_rot (rel_tf X1 X2)).
Proof.
  intros X1 X2 O1 O2. unfold rel_tf. cbn [tf_rot]. unfold ortho, mtmul. cbn [m0 m1 m2]. rewrite !(mt_dot _ _ _ O1). exact O2.
Qed.
Lemma tf_vec : forall X x n s, tf_apply X (vadd x (vscale s n)) = vadd (tf_apply X x) (vscale s (mapply (tf_rot X) n)).
Proof. intros X x n s. unfold tf_apply. generalize (tf_rot X) (tf_tr X). intros [[] [] []] []. destruct x, n. unfold mapply, vadd, vscale, dot. cbn. f_equal; ring. Qed.
Lemma tf_dots : forall X n x y, ortho (tf_rot X) -> dot (mapply (tf_rot X) n) (tf_apply X x) - dot (mapply (tf_rot X) n) (tf_apply X y) = dot n x - dot n y.
Proof.
  intros X n x y O. rewrite <- !dot_sub_r, <- (mapply_dot (tf_rot X) n (vsub x y) O). f_equal. unfold tf_apply. generalize (tf_rot X) (tf_tr X). intros [[] [] []] []. destruct x, y. unfold mapply, vadd, vsub, vscale, dot. cbn. f_equal; ring.
Qed.

(** ** The contacts of a pair *)
(** what a contact between two placed triangles says *)
Definition contact_of (enable : bool) (P Q : tri3) (g : option (v3 * v3 * R)) : Prop :=
  (exists x, in3 P x /\ in3 Q x) /\
  if enable then exists y n d, g = Some (y, n, d) /\ norm2 n = 1 /\ 0 <= d /\
    (forall s, d < s -> ~ exists p q, in3 P p /\ in3 Q q /\ p = vadd q (vscale s n)) /\
    ((corner3 Q y /\ (forall z, corner3 P z -> dot n z = dot n (base3 P) /\ d - 1 / 1000000 <= dot n z - dot n y <= d)) \/
     (corner3 P y /\ (forall z, corner3 Q z -> dot n z = dot n (base3 Q) /\ d - 1 / 1000000 <= dot n y - dot n z <= d)))
  else g = None.

Section Leaf.
Variable BV : Type.
Variables (far : R) (enable : bool) (X X1 X2 : tf) (a1 a2 : bvh v3 BV).
Hypothesis Hfar : 0 < far.
Hypothesis O1 : ortho (tf_rot X1).
Hypothesis OX : ortho (tf_rot X).
Hypothesis HX : forall y, tf_apply X1 (tf_apply X y) = tf_apply X2 y.
Variables (p q : nat) (P Q : tri3).
Hypothesis EP : tri_at a1 p = Some P.
Hypothesis EQ : tri_at a2 q = Some Q.
Hypothesis HP : proper3 P.
Hypothesis HQ : proper3 Q.

Lemma meet_iff : (exists x, in3 (map3 X1 P) x /\ in3 (map3 X2 Q) x) <-> exists y, in3 P (tf_apply X y) /\ in3 Q y.
Proof using O1 HX.
  split.
  - intros (x & A & B). apply in3_map in A. apply in3_map in B. destruct A as (u & Iu & ->), B as (y & Iy & E). exists y. split; [|exact Iy].
    rewrite <- HX in E. apply tf_inj in E; [|exact O1]. rewrite <- E. exact Iu.
  - intros (y & A & B). exists (tf_apply X2 y). split; apply in3_map; [exists (tf_apply X y)|exists y]; split; auto.
Qed.

Lemma leaf_gen_spec : (leaf_gen far enable X X1 a1 a2 p q <> [] <-> exists x, in3 (map3 X1 P) x /\ in3 (map3 X2 Q) x) /\
  forall c, In c (leaf_gen far enable X X1 a1 a2 p q) -> w1 c = p /\ w2 c = q /\ contact_of enable (map3 X1 P) (map3 X2 Q) (wgeo c).
Proof using Hfar O1 OX HX EP EQ HP HQ.
  rewrite meet_iff. unfold leaf_gen. rewrite EP, EQ. destruct P as ((P1, P2), P3) eqn:DP, Q as ((Q1, Q2), Q3) eqn:DQ. cbn [in3 proper3] in *.
  pose proof (P_TriSat.tri_test_placed P1 P2 P3 Q1 Q2 Q3 X OX HP HQ) as T.
  destruct (tri_test_tf P1 P2 P3 Q1 Q2 Q3 X) eqn:E.
  2: { split; [|intros c []]. split; [intros H; contradiction H; reflexivity|]. intros M. apply T in M. discriminate. }
  destruct (proj1 T eq_refl) as (y & IP & IQ). clear T.
  assert (M : exists x, in3 (map3 X1 (P1, P2, P3)) x /\ in3 (map3 X2 (Q1, Q2, Q3)) x).
  { exists (tf_apply X2 y). split; apply in3_map; [exists (tf_apply X y)|exists y]; split; cbn; auto. }
  destruct enable.
  2: { split; [split; [eauto|discriminate]|]. intros c [<-|[]]. cbn [w1 w2 wgeo]. split; [reflexivity|]. split; [reflexivity|]. split; [exact M|reflexivity]. }
  assert (IQ' : in_tri (tf_apply X Q1) (tf_apply X Q2) (tf_apply X Q3) (tf_apply X y)) by (apply (in3_map X (Q1, Q2, Q3)); exists y; split; auto).
  destruct (P_TriSat.tri_contact_spec far P1 P2 P3 (tf_apply X Q1) (tf_apply X Q2) (tf_apply X Q3) (tf_apply X y) Hfar HP (P_TriSat.rot_proper X _ _ _ OX HQ) IP IQ')
    as (pts & n & d & Ec & Un & Dn & Ln & Sep & Cor).
  rewrite Ec. split.
  - split; [intros _; eauto|]. intros _ Z. apply (f_equal (@length _)) in Z. rewrite map_length in Z. cbn in Z. lia.
  - intros c I. apply in_map_iff in I. destruct I as (z & <- & Iz). cbn [w1 w2 wgeo]. split; [reflexivity|]. split; [reflexivity|].
    unfold contact_of. split; [exact M|]. exists (tf_apply X1 z), (mapply (tf_rot X1) n), d. split; [reflexivity|]. split; [rewrite mapply_norm2 by exact O1; exact Un|]. split; [exact Dn|]. split.
    + intros s Hs (u & w & Iu & Iw & Eu). apply in3_map in Iu. apply in3_map in Iw. destruct Iu as (u' & Iu' & ->), Iw as (w' & Iw' & ->).
      apply (Sep s Hs). exists u', (tf_apply X w'). split; [exact Iu'|]. split; [apply (in3_map X (Q1, Q2, Q3)); exists w'; split; auto|].
      rewrite <- HX, <- tf_vec in Eu. exact (tf_inj X1 _ _ O1 Eu).
    + assert (K : forall a b, dot (mapply (tf_rot X1) n) (tf_apply X1 a) - dot (mapply (tf_rot X1) n) (tf_apply X1 b) = dot n a - dot n b) by (intros; apply tf_dots, O1).
      destruct Cor as [(Pl & Cs & _)|(Pl & Cs & _)]; [left|right]; destruct (Cs z Iz) as (Iz' & Bz).
      * split; [cbn [In] in Iz'; cbn; rewrite <- !HX; intuition (subst; auto)|]. intros v Hv. cbn [map3 corner3 base3] in *.
        assert (Hv' : exists v', In v' [P1; P2; P3] /\ v = tf_apply X1 v') by (destruct Hv as [ -> | [ -> | -> ] ]; eexists; (split; [|reflexivity]); cbn; tauto).
        destruct Hv' as (v' & Iv' & ->). pose proof (Pl v' Iv') as Ev. pose proof (K v' P1) as K1. pose proof (K v' z) as K2. lra.
      * split; [cbn [In] in Iz'; cbn; intuition (subst; auto)|]. intros v Hv. cbn [map3 corner3 base3] in *. rewrite <- !HX in Hv. rewrite <- HX.
        assert (Hv' : exists v', In v' [tf_apply X Q1; tf_apply X Q2; tf_apply X Q3] /\ v = tf_apply X1 v') by (destruct Hv as [ -> | [ -> | -> ] ]; eexists; (split; [|reflexivity]); cbn; tauto).
        destruct Hv' as (v' & Iv' & ->). pose proof (Pl v' Iv') as Ev. pose proof (K v' (tf_apply X Q1)) as K1. pose proof (K z v') as K2. lra.
Qed.
End Leaf.

(** ** The traversal *)
Definition surface {BV} (m : bvh v3 BV) (n : nat) (x : v3) : Prop := exists p P, (p < n)%nat /\ tri_at m p = Some P /\ in3 P x.
(** a hierarchy over the first n triangles of a model, volumes with points [inb] *)
Definition hier {BV} (inb : BV -> v3 -> Prop) (m : bvh v3 BV) (n : nat) (t : btree) : Prop :=
  tid t = 0%nat /\ Permutation (tleaves t) (seq 0 n) /\ NoDup (tids t) /\ length (lids t) = n /\
  good (fun bv p => (p < n)%nat /\ forall P x, tri_at m p = Some P -> corner3 P x -> inb bv x) (m_bvs m) t 0.
Definition convex {A} (inb : A -> v3 -> Prop) : Prop := forall b P x, (forall v, corner3 P v -> inb b v) -> in3 P x -> inb b x.

Lemma firstn_in : forall A (l : list A) k x, In x (firstn k l) -> In x l.
Proof. intros A l k x I. rewrite <- (firstn_skipn k l). apply in_or_app. left. exact I. Qed.

Lemma core : forall BV (size : BV -> Z) (disjoint : BV -> BV -> bool) (inb : BV -> v3 -> Prop) far enable cost max X X1 X2 (a1 a2 : bvh v3 BV) n1 n2 t1 t2 fuel,
  0 < far -> ortho (tf_rot X1) -> ortho (tf_rot X) -> (forall y, tf_apply X1 (tf_apply X y) = tf_apply X2 y) ->
  convex inb -> (forall v w y, inb v (tf_apply X y) -> inb w y -> disjoint v w = false) ->
  hier inb a1 n1 t1 -> hier inb a2 n2 t2 ->
  (forall p, (p < n1)%nat -> exists P, tri_at a1 p = Some P /\ proper3 P) -> (forall q, (q < n2)%nat -> exists Q, tri_at a2 q = Some Q /\ proper3 Q) ->
  (2 * (n1 * n2) <= fuel)%nat -> (1 <= max)%nat ->
  exists R, mesh_collide size disjoint far enable cost max X X1 a1 a2 fuel = Some (None, R) /\ (length R <= max)%nat /\
    (R <> [] <-> exists x y, surface a1 n1 x /\ surface a2 n2 y /\ tf_apply X1 x = tf_apply X2 y) /\
    (forall c, In c R -> exists P Q, (w1 c < n1)%nat /\ (w2 c < n2)%nat /\ tri_at a1 (w1 c) = Some P /\ tri_at a2 (w2 c) = Some Q /\ contact_of enable (map3 X1 P) (map3 X2 Q) (wgeo c)) /\
    ((length R < max)%nat -> forall p q P Q, (p < n1)%nat -> (q < n2)%nat -> tri_at a1 p = Some P -> tri_at a2 q = Some Q ->
      (exists x, in3 (map3 X1 P) x /\ in3 (map3 X2 Q) x) -> exists c, In c R /\ w1 c = p /\ w2 c = q).
Proof.
  intros BV size disjoint inb far enable cost max X X1 X2 a1 a2 n1 n2 t1 t2 fuel Hf O1 OX HX Cv Ds (Z1 & L1 & N1 & C1 & G1) (Z2 & L2 & N2 & C2 & G2) T1 T2 Hfu Hm.
  set (gen := leaf_gen far enable X X1 a1 a2).
  destruct (P_Traversal.contact_limit BV size _ _ disjoint wcontact max cost gen (m_bvs a1) (m_bvs a2) t1 t2 fuel G1 G2 Z1 Z2 N1 N2) as (pairs & Pm & Run).
  { intros v w p q (Lp & Ev) (Lq & Ew) Hg. destruct (T1 p Lp) as (P & EP & PP). destruct (T2 q Lq) as (Q & EQ & PQ).
    destruct (leaf_gen_spec BV far enable X X1 X2 a1 a2 Hf O1 OX HX p q P Q EP EQ PP PQ) as ((G & _) & _). specialize (G Hg).
    apply (meet_iff X X1 X2 O1 HX) in G. destruct G as (y & Iy & Jy). apply (Ds v w y); [apply (Cv v P)|apply (Cv w Q)]; eauto. }
  { rewrite C1, C2. exact Hfu. }
  specialize (Run []). cbn [app length] in Run. rewrite Nat.sub_0_r in Run. eexists. split; [exact Run|].
  assert (Pin : forall p q, In (p, q) pairs <-> (p < n1)%nat /\ (q < n2)%nat).
  { intros p q. assert (E : In (p, q) pairs <-> In (p, q) (list_prod (tleaves t1) (tleaves t2))) by (split; apply Permutation_in; [exact Pm|apply Permutation_sym; exact Pm]).
    rewrite E, in_prod_iff. assert (E1 : In p (tleaves t1) <-> In p (seq 0 n1)) by (split; apply Permutation_in; [exact L1|apply Permutation_sym; exact L1]).
    assert (E2 : In q (tleaves t2) <-> In q (seq 0 n2)) by (split; apply Permutation_in; [exact L2|apply Permutation_sym; exact L2]). rewrite E1, E2, !in_seq. lia. }
  set (all := flat_map (fun pq => gen (fst pq) (snd pq)) pairs) in *.
  assert (Spec : forall p q, (p < n1)%nat -> (q < n2)%nat -> exists P Q, tri_at a1 p = Some P /\ tri_at a2 q = Some Q /\ proper3 P /\ proper3 Q /\
    (gen p q <> [] <-> exists x, in3 (map3 X1 P) x /\ in3 (map3 X2 Q) x) /\ forall c, In c (gen p q) -> w1 c = p /\ w2 c = q /\ contact_of enable (map3 X1 P) (map3 X2 Q) (wgeo c)).
  { intros p q Lp Lq. destruct (T1 p Lp) as (P & EP & PP). destruct (T2 q Lq) as (Q & EQ & PQ). exists P, Q. repeat (split; [assumption|]).
    exact (leaf_gen_spec BV far enable X X1 X2 a1 a2 Hf O1 OX HX p q P Q EP EQ PP PQ). }
  assert (All : forall c, In c all -> (w1 c < n1)%nat /\ (w2 c < n2)%nat /\ In c (gen (w1 c) (w2 c))).
  { intros c I. apply in_flat_map in I. destruct I as ((p, q) & I & Ic). apply Pin in I. destruct I as (Lp & Lq). cbn [fst snd] in Ic.
    destruct (Spec p q Lp Lq) as (P & Q & _ & _ & _ & _ & _ & S). destruct (S c Ic) as ( -> & -> & _). auto. }
  split; [rewrite firstn_length; lia|]. split; [|split].
  - split.
    + intros Ne. destruct (firstn max all) as [|c r] eqn:Ef; [contradiction Ne; reflexivity|]. assert (Ic : In c all) by (apply (firstn_in _ all max); rewrite Ef; left; reflexivity).
      destruct (All c Ic) as (Lp & Lq & Ig). destruct (Spec _ _ Lp Lq) as (P & Q & EP & EQ & _ & _ & (Hg & _) & _).
      destruct Hg as (z & Iz & Jz); [intros Z; rewrite Z in Ig; exact Ig|]. apply in3_map in Iz. apply in3_map in Jz. destruct Iz as (x & Ix & ->), Jz as (y & Iy & E).
      exists x, y. split; [exists (w1 c), P; auto|]. split; [exists (w2 c), Q; auto|exact E].
    + intros (x & y & (p & P & Lp & EP & Ix) & (q & Q & Lq & EQ & Iy) & E) Z.
      destruct (Spec p q Lp Lq) as (P' & Q' & EP' & EQ' & _ & _ & (_ & Hg) & _). rewrite EP in EP'. rewrite EQ in EQ'. injection EP' as <-. injection EQ' as <-.
      assert (Ng : gen p q <> []) by (apply Hg; exists (tf_apply X1 x); split; apply in3_map; [exists x|exists y]; auto).
      assert (Na : all <> []).
      { intros Za. destruct (gen p q) as [|c r] eqn:Eg; [congruence|]. assert (Ic : In c all) by (apply in_flat_map; exists (p, q); split; [apply Pin; auto|cbn [fst snd]; rewrite Eg; left; reflexivity]). rewrite Za in Ic. exact Ic. }
      apply (f_equal (@length _)) in Z. rewrite firstn_length in Z. destruct all; [congruence|]. cbn [length] in Z. lia.
  - intros c Ic. apply firstn_in in Ic. destruct (All c Ic) as (Lp & Lq & Ig). destruct (Spec _ _ Lp Lq) as (P & Q & EP & EQ & _ & _ & _ & S). destruct (S c Ig) as (_ & _ & Hc). exists P, Q. auto.
  - intros Lr p q P Q Lp Lq EP EQ M. rewrite firstn_length in Lr. rewrite firstn_all2 by lia.
    destruct (Spec p q Lp Lq) as (P' & Q' & EP' & EQ' & _ & _ & (_ & Hg) & S). rewrite EP in EP'. rewrite EQ in EQ'. injection EP' as <-. injection EQ' as <-.
    specialize (Hg M). destruct (gen p q) as [|c r] eqn:Eg; [congruence|]. exists c. destruct (S c (or_introl eq_refl)) as (W1 & W2 & _).
    split; [|auto]. apply in_flat_map. exists (p, q). split; [apply Pin; auto|]. cbn [fst snd]. rewrite Eg. left. reflexivity.
Qed.

Lemma good_mono : forall BV (E E' : BV -> nat -> Prop) bvs t first, good E bvs t first -> (forall bv p, In p (tleaves t) -> E bv p -> E' bv p) -> good E' bvs t first.
Proof.
  intros BV E E' bvs t. induction t as [i p|i l IHl r IHr]; intros first H M; cbn [good] in *.
  - destruct H as ((bv & child & A & B & C) & _). split; [|exact I]. exists bv, child. split; [exact A|]. split; [|exact C]. intros p' I'. apply M; [exact I'|]. apply B, I'.
  - destruct H as ((bv & child & A & B & C) & (Hl & Hr)). split.
    + exists bv, child. split; [exact A|]. split; [|exact C]. intros p' I'. apply M; [exact I'|]. apply B, I'.
    + cbn [tleaves] in M. split; [apply (IHl first Hl)|apply (IHr _ Hr)]; intros bv' p' I'; apply M; apply in_or_app; auto.
Qed.
