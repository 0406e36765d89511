(** * Traversal of two stored hierarchies

    The interface of Traversal.v as implemented by BVHCollisionTraversalNode
    (bvh_collision_traversal_node-inl.h 64-129, the same in
    bvh_distance_traversal_node-inl.h) on two arrays of nodes, and the contact
    bookkeeping of MeshCollisionTraversalNode::leafTesting / canStop
    (mesh_collision_traversal_node-inl.h 126-206). *)

From Coq Require Import List Arith Lia ZArith Bool Permutation.
From Verif Require Import BvhBuild Traversal TraversalDist.
Import ListNotations.

Section Mesh.
Context {BV : Type}.
Notation nodes := (list (option (node BV))).

Definition leafn (bvs : nodes) (i : nat) : bool :=
  match cell bvs i with Some nd => is_leaf nd | None => true end.
Definition leftn (bvs : nodes) (i : nat) : nat :=
  match cell bvs i with Some nd => left_child nd | None => 0 end.
Definition rightn (bvs : nodes) (i : nat) : nat :=
  match cell bvs i with Some nd => right_child nd | None => 0 end.
Definition primn (bvs : nodes) (i : nat) : nat :=
  match cell bvs i with Some nd => prim_id nd | None => 0 end.

(** firstOverSecond (bvh_collision_traversal_node-inl.h 78-91); [size] is
    bv.size(). *)
Definition overn (size : BV -> Z) (b1 b2 : nodes) (i j : nat) : bool :=
  leafn b2 j || (negb (leafn b1 i) &&
    match cell b1 i, cell b2 j with
    | Some x, Some y => (size (n_bv x) >? size (n_bv y))%Z
    | _, _ => false
    end).

Definition mesh_iface (size : BV -> Z) (b1 b2 : nodes) : iface :=
  Iface (leafn b1) (leftn b1) (rightn b1) (leafn b2) (leftn b2) (rightn b2) (overn size b1 b2).

(** A test on the volumes of two nodes. *)
Definition on_bvs {A} (d : A) (f : BV -> BV -> A) (b1 b2 : nodes) (i j : nat) : A :=
  match cell b1 i, cell b2 j with
  | Some x, Some y => f (n_bv x) (n_bv y)
  | _, _ => d
  end.

Lemma mesh_over_ok : forall size b1 b2, over_ok (mesh_iface size b1 b2).
Proof.
  intros size b1 b2 i j. cbn. unfold overn. split.
  - intros ->. reflexivity.
  - intros -> ->. reflexivity.
Qed.

Lemma good_shaped : forall E (bvs : nodes) t first, good E bvs t first -> shaped (leafn bvs) (leftn bvs) (rightn bvs) t.
Proof.
  intros E bvs t. induction t as [i p|i l IHl r IHr]; intros first [(bv & ch & Hc & _ & Hch) Hs]; cbn [tid shaped] in *.
  - unfold leafn. rewrite Hc. unfold is_leaf. cbn. apply Z.ltb_lt. lia.
  - destruct Hch as [-> Hr]. destruct Hs as [Hl Hr']. unfold leafn at 1, leftn at 1, rightn at 1. rewrite Hc.
    unfold is_leaf, left_child, right_child. cbn.
    split; [apply Z.ltb_ge; lia|]. split; [apply Nat2Z.id|]. split; [lia|]. split; eauto.
Qed.

Lemma good_sub : forall E (bvs : nodes) s t, sub s t -> forall first, good E bvs t first -> exists f, good E bvs s f.
Proof.
  intros E bvs s t H. induction H; intros first Hg; [eauto| |]; destruct Hg as [_ [Hl Hr]]; eauto.
Qed.

Lemma good_prim : forall E (bvs : nodes) t first, good E bvs t first -> map (primn bvs) (lids t) = tleaves t.
Proof.
  intros E bvs t. induction t as [i p|i l IHl r IHr]; intros first Hg; cbn [lids tleaves].
  - destruct Hg as [(bv & ch & Hc & _ & Hch) _]. cbn [map]. unfold primn. cbn [tid] in Hc. rewrite Hc. unfold prim_id. cbn.
    subst ch. f_equal. lia.
  - destruct Hg as [_ [Hl Hr]]. rewrite map_app, (IHl _ Hl), (IHr _ Hr). reflexivity.
Qed.

Lemma good_bv : forall E (bvs : nodes) t first i, good E bvs t first -> In i (lids t) ->
  exists nd, cell bvs (tid t) = Some nd /\ E (n_bv nd) (primn bvs i).
Proof.
  intros E bvs t first i Hg Hi. pose proof (good_prim _ _ _ _ Hg) as Hp.
  assert (Hin : In (primn bvs i) (tleaves t)) by (rewrite <- Hp; apply in_map; exact Hi).
  destruct t; destruct Hg as [(bv & ch & Hc & He & _) _]; eexists; (split; [exact Hc|]); cbn; auto.
Qed.

(** If overlapping primitives make every pair of volumes above them overlap. *)
Lemma good_unsep : forall (E1 E2 : BV -> nat -> Prop) (disjoint : BV -> BV -> bool) (meet : nat -> nat -> Prop) b1 b2 t1 t2,
  good E1 b1 t1 0 -> good E2 b2 t2 0 ->
  (forall v1 v2 p q, E1 v1 p -> E2 v2 q -> meet p q -> disjoint v1 v2 = false) ->
  forall i j, meet (primn b1 i) (primn b2 j) -> unsep (on_bvs true disjoint b1 b2) t1 t2 i j.
Proof.
  intros E1 E2 disjoint meet b1 b2 t1 t2 G1 G2 Hd i j Hm s1 s2 H1 H2 Hi Hj.
  destruct (good_sub _ _ _ _ H1 _ G1) as (f1 & g1). destruct (good_sub _ _ _ _ H2 _ G2) as (f2 & g2).
  destruct (good_bv _ _ _ _ _ g1 Hi) as (n1 & C1 & P1). destruct (good_bv _ _ _ _ _ g2 Hj) as (n2 & C2 & P2).
  unfold on_bvs. rewrite C1, C2. eauto.
Qed.

Lemma good_lower : forall (E1 E2 : BV -> nat -> Prop) (D : BV -> BV -> Z) (dist : nat -> nat -> Z) b1 b2 t1 t2,
  good E1 b1 t1 0 -> good E2 b2 t2 0 ->
  (forall v1 v2 p q, E1 v1 p -> E2 v2 q -> (D v1 v2 <= dist p q)%Z) ->
  lower (on_bvs 0%Z D b1 b2) (fun i j => dist (primn b1 i) (primn b2 j)) t1 t2.
Proof.
  intros E1 E2 D dist b1 b2 t1 t2 G1 G2 Hd s1 s2 i j H1 H2 Hi Hj.
  destruct (good_sub _ _ _ _ H1 _ G1) as (f1 & g1). destruct (good_sub _ _ _ _ H2 _ G2) as (f2 & g2).
  destruct (good_bv _ _ _ _ _ g1 Hi) as (n1 & C1 & P1). destruct (good_bv _ _ _ _ _ g2 Hj) as (n2 & C2 & P2).
  unfold on_bvs. rewrite C1, C2. eauto.
Qed.

Lemma list_prod_map : forall A B C D (f : A -> C) (g : B -> D) a b,
  list_prod (map f a) (map g b) = map (fun p => (f (fst p), g (snd p))) (list_prod a b).
Proof.
  intros. induction a as [|x a IH]; [reflexivity|]. cbn. rewrite IH, map_app, !map_map. reflexivity.
Qed.

Lemma good_cells : forall E1 E2 (b1 b2 : nodes) t1 t2 f1 f2, good E1 b1 t1 f1 -> good E2 b2 t2 f2 ->
  map (fun p => (primn b1 (fst p), primn b2 (snd p))) (cells (t1, t2)) = list_prod (tleaves t1) (tleaves t2).
Proof.
  intros. unfold cells. cbn [fst snd]. rewrite <- list_prod_map.
  rewrite (good_prim _ _ _ _ H), (good_prim _ _ _ _ H0). reflexivity.
Qed.

End Mesh.

(** ** Contacts *)

Section Contacts.
Variable C : Type.
Variable max : nat.                 (* request.num_max_contacts *)
Variable enable_cost : bool.
(** The contacts the primitive test of two primitives yields; [] if they do not
    intersect.  In the mode without contact information it is one contact. *)
Variable gen : nat -> nat -> list C.

(** leafTesting (mesh_collision_traversal_node-inl.h 126-186): at most
    [max - numContacts] of the new contacts are added. *)
Definition add_contacts (p q : nat) (s : list C) : list C := s ++ firstn (max - length s) (gen p q).

(** canStop = CollisionRequest::isSatisfied (collision_request-inl.h 71-76). *)
Definition satisfied (s : list C) : bool := negb enable_cost && negb (length s =? 0) && (max <=? length s).

Variables f g : nat -> nat.
Definition leaf_contacts (i j : nat) (s : list C) : list C := add_contacts (f i) (g j) s.
Definition all_contacts (L : list (nat * nat)) : list C := flat_map (fun p => gen (f (fst p)) (g (snd p))) L.

Lemma firstn_firstn_app : forall A k (a b : list A), firstn k a ++ firstn (k - length (firstn k a)) b = firstn k (a ++ b).
Proof using Type.
  intros A k a b. rewrite firstn_length. destruct (Nat.le_ge_cases k (length a)) as [H|H].
  - rewrite Nat.min_l by exact H. rewrite Nat.sub_diag. cbn [firstn]. rewrite app_nil_r. rewrite firstn_app.
    replace (k - length a) with 0 by lia. cbn [firstn]. rewrite app_nil_r. reflexivity.
  - rewrite Nat.min_r by exact H. rewrite firstn_app. reflexivity.
Qed.

Lemma tests_contacts : forall L s, tests (list C) leaf_contacts L s = s ++ firstn (max - length s) (all_contacts L).
Proof using Type.
  induction L as [|[i j] L IH]; intros s.
  { cbn. rewrite firstn_nil, app_nil_r. reflexivity. }
  change (tests (list C) leaf_contacts ((i, j) :: L) s) with (tests (list C) leaf_contacts L (leaf_contacts i j s)).
  rewrite IH. unfold leaf_contacts, add_contacts. rewrite <- app_assoc. f_equal. rewrite app_length.
  change (all_contacts ((i, j) :: L)) with (gen (f i) (g j) ++ all_contacts L).
  rewrite <- firstn_firstn_app. f_equal. f_equal. lia.
Qed.

Lemma stop_contacts : forall L s s', tests_stop (list C) leaf_contacts satisfied L s s' ->
  s' = s ++ firstn (max - length s) (all_contacts L).
Proof using Type.
  intros L s s' (P & Q & -> & -> & Hq & _). rewrite tests_contacts in *.
  destruct Hq as [->|Hq]; [rewrite app_nil_r; reflexivity|].
  unfold all_contacts at 2. rewrite flat_map_app. fold (all_contacts P). fold (all_contacts Q).
  f_equal. unfold satisfied in Hq. rewrite !andb_true_iff in Hq. destruct Hq as [_ Hq]. apply Nat.leb_le in Hq.
  rewrite app_length, firstn_length in Hq. rewrite firstn_app.
  replace (max - length s - length (all_contacts P)) with 0 by lia. cbn [firstn]. rewrite app_nil_r. reflexivity.
Qed.

End Contacts.
