(** C88: which function is called for a pair of geometries. *)
From Coq Require Import List Bool Arith Lia.
From Verif Require Import Dispatch.
Import ListNotations.

(** Geometries some table knows *)
Definition known (octo : bool) (c : cls) : Prop :=
  match c with Shape TriangleP | MeshOther | Other => False | Oct => octo = true | _ => True end.
Definition mesh_pair (c d : cls) (P : bvk -> bvk -> Prop) : Prop := match c, d with Mesh a, Mesh b => P a b | _, _ => True end.

Definition collide_supported (octo : bool) (c d : cls) : Prop := known octo c /\ known octo d /\ mesh_pair c d eq.
Definition distance_supported (octo : bool) (c d : cls) : Prop := known octo c /\ known octo d /\
  mesh_pair c d (fun a b => a = b /\ (a = AABB \/ a = RSS \/ a = KIOS \/ a = OBBRSS)) /\ ~ (c = Shape Halfspace /\ d = Shape Ellipsoid).
Definition advance_supported (c d : cls) : Prop := known false c /\ known false d /\ mesh_pair c d eq /\ c <> Shape Ellipsoid /\ d <> Shape Ellipsoid.

(** The tables: an entry is there exactly for the supported pairs, in the order of the table, and it is the function for just
    these two classes *)
Definition oriented (c d : cls) : Prop := match c, d with Shape _, Mesh _ => False | _, _ => True end.

Ltac all_cases := repeat match goal with x : shape |- _ => destruct x | x : bvk |- _ => destruct x end.

Lemma collision_entry : forall octo c d, oriented c d ->
  match collision_table octo (node_of c) (node_of d) with
  | Some f => casts f = (c, d) /\ collide_supported octo c d
  | None => ~ collide_supported octo c d
  end.
Proof.
  intros [|] [a|a| | |] [b|b| | |] H; try contradiction H; clear H; all_cases; vm_compute; intuition discriminate.
Qed.
Lemma distance_entry : forall octo c d, oriented c d ->
  match distance_table octo (node_of c) (node_of d) with
  | Some f => casts f = (c, d) /\ distance_supported octo c d
  | None => ~ distance_supported octo c d
  end.
Proof. intros [|] [a|a| | |] [b|b| | |] H; try contradiction H; clear H; all_cases; vm_compute; intuition discriminate. Qed.
Lemma advance_entry : forall c d,
  match advance_table (node_of c) (node_of d) with
  | Some f => casts f = (c, d) /\ advance_supported c d
  | None => ~ advance_supported c d
  end.
Proof. intros [a|a| | |] [b|b| | |]; all_cases; vm_compute; intuition discriminate. Qed.

Lemma other_rows : forall octo s,
  collision_table octo (node_of MeshOther) (node_of (Shape s)) = None /\ distance_table octo (node_of MeshOther) (node_of (Shape s)) = None.
Proof. intros [|] s; all_cases; vm_compute; auto. Qed.

(** When no function is called, and otherwise the function, called on the two geometries with their own placements *)
Definition calls {A} (class : A -> cls) (o : outcome A) (x y : A) : Prop := exists f, o = Call f x y /\ casts f = (class x, class y).
Definition swaps (c d : cls) : Prop := match c, d with Shape _, Mesh _ => True | _, _ => False end.

Section S.
Variables (A : Type) (class : A -> cls).

Lemma through_entry : forall (t : table) (Q : cls -> cls -> Prop), (forall c d, oriented c d -> match t (node_of c) (node_of d) with Some f => casts f = (c, d) /\ Q c d | None => ~ Q c d end) ->
  forall x y : A, oriented (class x) (class y) -> (Q (class x) (class y) -> calls class (through class t x y) x y) /\ (~ Q (class x) (class y) -> through class t x y = Unsupported).
Proof.
  intros t Q H x y O. specialize (H _ _ O). unfold through. destruct (t _ _) as [f|].
  - destruct H as (H1 & H2). split; [intros _; exists f; auto|contradiction].
  - split; [contradiction|reflexivity].
Qed.

Lemma swapped : forall x y : A, is_geom_bvh class x y = true -> (exists s, class x = Shape s) /\ ((exists b, class y = Mesh b) \/ class y = MeshOther).
Proof. intros x y H. unfold is_geom_bvh in H. destruct (class x), (class y); try discriminate H; split; eauto. Qed.
Lemma not_swapped : forall x y : A, is_geom_bvh class x y = false -> oriented (class x) (class y) /\ ~ swaps (class x) (class y).
Proof. intros x y H. unfold is_geom_bvh in H. destruct (class x), (class y); try discriminate H; cbn; auto. Qed.

(** collide(): for at least one contact, a function is called exactly if both geometries are known (not a triangle, an octree only with
    octomap) and two meshes have the same kind of volume.  The function called is the one for the classes of the two
    geometries, in their order, except that a mesh goes before a shape. *)
Theorem collide_dispatch : forall octo max (x y : A), 1 <= max -> let o := collide_call class octo max x y in
  (collide_supported octo (class x) (class y) -> (swaps (class x) (class y) -> calls class o y x) /\ (~ swaps (class x) (class y) -> calls class o x y)) /\
  (~ collide_supported octo (class x) (class y) -> o = Unsupported).
Proof.
  intros octo max x y Hm o. unfold o, collide_call. destruct (Nat.eqb_spec max 0); [lia|]. pose proof (through_entry (collision_table octo) (collide_supported octo) (collision_entry octo)) as T.
  destruct (is_geom_bvh class x y) eqn:E.
  - destruct (swapped x y E) as ((s & Es) & [(b & Eb)|Eb]).
    + destruct (T y x) as (T1 & T2); [rewrite Es, Eb; exact I|]. assert (Q : collide_supported octo (class y) (class x) <-> collide_supported octo (class x) (class y)) by (rewrite Es, Eb; unfold collide_supported; cbn; tauto).
      split; [intros S; split; [intros _; apply T1, Q, S|]|intros S; apply T2; tauto]. intros N. exfalso. apply N. rewrite Es, Eb. exact I.
    + split; [intros (_ & K & _); rewrite Eb in K; destruct K|]. intros _. unfold through. rewrite Es, Eb. rewrite (proj1 (other_rows octo s)). reflexivity.
  - destruct (not_swapped x y E) as (O & N). destruct (T x y O) as (T1 & T2). split; [|exact T2]. intros S. split; [contradiction|auto].
Qed.

(** distance(): the same, but two meshes also need a volume with a distance, and a half-space before an ellipsoid is not
    supported. *)
Theorem distance_dispatch : forall octo (x y : A), let o := distance_call class octo x y in
  (distance_supported octo (class x) (class y) -> (swaps (class x) (class y) -> calls class o y x) /\ (~ swaps (class x) (class y) -> calls class o x y)) /\
  (~ distance_supported octo (class x) (class y) -> o = Unsupported).
Proof.
  intros octo x y o. unfold o, distance_call. pose proof (through_entry (distance_table octo) (distance_supported octo) (distance_entry octo)) as T.
  destruct (is_geom_bvh class x y) eqn:E.
  - destruct (swapped x y E) as ((s & Es) & [(b & Eb)|Eb]).
    + destruct (T y x) as (T1 & T2); [rewrite Es, Eb; exact I|]. assert (Q : distance_supported octo (class y) (class x) <-> distance_supported octo (class x) (class y)) by (rewrite Es, Eb; unfold distance_supported; cbn; intuition discriminate).
      split; [intros S; split; [intros _; apply T1, Q, S|]|intros S; apply T2; tauto]. intros N. exfalso. apply N. rewrite Es, Eb. exact I.
    + split; [intros (_ & K & _); rewrite Eb in K; destruct K|]. intros _. unfold through. rewrite Es, Eb. rewrite (proj2 (other_rows octo s)). reflexivity.
  - destruct (not_swapped x y E) as (O & N). destruct (T x y O) as (T1 & T2). split; [|exact T2]. intros S. split; [contradiction|auto].
Qed.

(** Conservative advancement: no octrees, no ellipsoids, and never swapped *)
Theorem advance_dispatch : forall x y : A,
  (advance_supported (class x) (class y) -> calls class (advance_call class x y) x y) /\ (~ advance_supported (class x) (class y) -> advance_call class x y = Unsupported).
Proof.
  intros x y. unfold advance_call, through. pose proof (advance_entry (class x) (class y)) as H. destruct (advance_table _ _) as [f|].
  - destruct H as (H1 & H2). split; [intros _; exists f; auto|contradiction].
  - split; [contradiction|reflexivity].
Qed.

(** The order of the arguments does not decide whether collide() is supported, and a shape and a mesh give the same call in both
    orders, so their contacts always name the mesh first *)
Theorem collide_order : forall octo max (x y : A), 1 <= max ->
  (collide_call class octo max x y = Unsupported <-> collide_call class octo max y x = Unsupported) /\
  (swaps (class x) (class y) -> collide_call class octo max x y = collide_call class octo max y x).
Proof.
  intros octo max x y Hm. assert (Sy : forall c d, collide_supported octo c d <-> collide_supported octo d c).
  { intros c d. unfold collide_supported, mesh_pair. destruct c, d; intuition congruence. }
  assert (K : forall u v, collide_call class octo max u v = Unsupported <-> ~ collide_supported octo (class u) (class v)).
  { intros u v. destruct (collide_dispatch octo max u v Hm) as (D1 & D2). split; [|exact D2]. intros U S. specialize (D1 S).
    assert (W : swaps (class u) (class v) \/ ~ swaps (class u) (class v)) by (destruct (class u), (class v); cbn; tauto).
    destruct W as [W|W]; [destruct (proj1 D1 W) as (f & F & _)|destruct (proj2 D1 W) as (f & F & _)]; rewrite U in F; discriminate F. }
  split; [rewrite !K, Sy; reflexivity|]. intros W. unfold collide_call. destruct (max =? 0); [reflexivity|].
  unfold is_geom_bvh. destruct (class x) eqn:Ex, (class y) eqn:Ey; try contradiction W. cbv beta iota delta [object_of]. reflexivity.
Qed.

Theorem advance_order : forall x y : A, advance_call class x y = Unsupported <-> advance_call class y x = Unsupported.
Proof.
  intros x y. assert (K : forall u v, advance_call class u v = Unsupported <-> ~ advance_supported (class u) (class v)).
  { intros u v. destruct (advance_dispatch u v) as (D1 & D2). split; [|exact D2]. intros U S. destruct (D1 S) as (f & F & _). rewrite U in F. discriminate F. }
  rewrite !K. assert (Sy : forall c d, advance_supported c d -> advance_supported d c).
  { intros c d (K1 & K2 & M & N1 & N2). unfold advance_supported. split; [exact K2|]. split; [exact K1|]. split; [|auto]. revert M. unfold mesh_pair. destruct c, d; auto. }
  split; intros H S; apply H, Sy, S.
Qed.

(** For distance() it does: an ellipsoid and a half-space *)
Theorem distance_order_refuted : forall octo (x y : A), class x = Shape Ellipsoid -> class y = Shape Halfspace ->
  calls class (distance_call class octo x y) x y /\ distance_call class octo y x = Unsupported.
Proof.
  intros octo x y Ex Ey. split.
  - destruct (distance_dispatch octo x y) as (D & _). rewrite Ex, Ey in D. apply D; [|exact (fun H => H)]. unfold distance_supported. cbn. intuition discriminate.
  - destruct (distance_dispatch octo y x) as (_ & D). apply D. rewrite Ex, Ey. unfold distance_supported. tauto.
Qed.
(** and this is the only pair *)
Theorem distance_order : forall octo (x y : A), distance_call class octo x y <> Unsupported -> distance_call class octo y x = Unsupported ->
  class x = Shape Ellipsoid /\ class y = Shape Halfspace.
Proof.
  intros octo x y S U. destruct (distance_dispatch octo x y) as (_ & D2). destruct (distance_dispatch octo y x) as (D1' & _).
  assert (Dec : forall c d, distance_supported octo c d \/ ~ distance_supported octo c d).
  { intros c d. unfold distance_supported, known, mesh_pair. destruct octo, c as [a|a| | |], d as [b|b| | |]; try (destruct a); try (destruct b); intuition discriminate. }
  destruct (Dec (class x) (class y)) as [Q|Q]; [|specialize (D2 Q); contradiction].
  destruct (Dec (class y) (class x)) as [Q'|Q'].
  - exfalso. destruct (D1' Q') as (E1 & E2). assert (W : swaps (class y) (class x) \/ ~ swaps (class y) (class x)) by (destruct (class x), (class y); cbn; tauto).
    destruct W as [W|W]; [destruct (E1 W) as (f & F & _)|destruct (E2 W) as (f & F & _)]; rewrite U in F; discriminate F.
  - destruct Q as (K1 & K2 & M & N). assert (M' : mesh_pair (class y) (class x) (fun a b => a = b /\ (a = AABB \/ a = RSS \/ a = KIOS \/ a = OBBRSS))).
    { revert M. unfold mesh_pair. destruct (class x), (class y); try exact (fun _ => I). intros (-> & H). auto. }
    assert (Z : (class y = Shape Halfspace /\ class x = Shape Ellipsoid) \/ ~ (class y = Shape Halfspace /\ class x = Shape Ellipsoid)).
    { destruct (class x) as [a|a| | |], (class y) as [b|b| | |]; try (right; intros (? & ?); discriminate). destruct a, b; try (right; intros (? & ?); discriminate). left. auto. }
    destruct Z as [(Z1 & Z2)|Z]; [auto|]. exfalso. apply Q'. unfold distance_supported. auto.
Qed.

End S.
Print Assumptions collide_dispatch.
Print Assumptions distance_dispatch.
Print Assumptions advance_dispatch.
Print Assumptions collide_order.
Print Assumptions advance_order.
Print Assumptions distance_order_refuted.
Print Assumptions distance_order.

(** ** The statements are about something *)
(** a sphere and an OBB mesh: the mesh goes first, whichever way they are given; meshes of different volumes and triangles get no answer *)
Example dispatch_case : forall octo, 
  collide_call (fun p => snd p) octo 1 (1, Shape Sphere) (2, Mesh OBB) = Call (FMS OBB Sphere) (2, Mesh OBB) (1, Shape Sphere) /\
  distance_call (fun p => snd p) octo (1, Shape Sphere) (2, Mesh OBB) = Call (FMS OBB Sphere) (2, Mesh OBB) (1, Shape Sphere) /\
  advance_call (fun p => snd p) (1, Shape Sphere) (2, Mesh OBB) = Call (FSM Sphere OBB) (1, Shape Sphere) (2, Mesh OBB) /\
  collide_call (fun p => snd p) octo 1 (1, Mesh AABB) (2, Mesh OBB) = Unsupported /\ distance_call (fun p => snd p) octo (1, Mesh OBB) (2, Mesh OBB) = Unsupported /\
  collide_call (fun p => snd p) octo 1 (1, Shape TriangleP) (2, Mesh OBB) = Unsupported.
Proof. intros [|]; vm_compute; auto 10. Qed.
