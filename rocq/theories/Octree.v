(** Octrees: child boxes, and the octree solver's traversals.
    Sources: /repo/include/fcl/geometry/octree/octree-inl.h (computeChildBV, thresholds) and
    /repo/include/fcl/narrowphase/detail/traversal/octree/octree_solver-inl.h.
    Boxes are over the real numbers ([boxR] of AabbDist.v).  Log-odds are integers, since they are
    only compared.  The narrow-phase solver is a parameter. *)
From Coq Require Import Reals Lra Lia ZArith List Bool.
From Verif Require Import VecR AabbDist Obb P_Obb Motion Convert P_Convert.
Import ListNotations.
Local Open Scope R_scope.

(** computeChildBV, octree-inl.h 232-270 *)
Definition half_lo (up : bool) (a b : R) : R := if up then (a + b) * (1 / 2) else a.
Definition half_hi (up : bool) (a b : R) : R := if up then b else (a + b) * (1 / 2).
Definition child_box (b : boxR) (i : nat) : boxR :=
  let x := Nat.testbit i 0 in let y := Nat.testbit i 1 in let z := Nat.testbit i 2 in
  BoxR (mk3 (half_lo x (c0 (lo b)) (c0 (hi b))) (half_lo y (c1 (lo b)) (c1 (hi b))) (half_lo z (c2 (lo b)) (c2 (hi b))))
       (mk3 (half_hi x (c0 (lo b)) (c0 (hi b))) (half_hi y (c1 (lo b)) (c1 (hi b))) (half_hi z (c2 (lo b)) (c2 (hi b)))).
(** getRootBV, octree-inl.h 85-93 *)
Definition root_box (depth : nat) (resolution : R) : boxR :=
  let d := INR (2 ^ depth) * resolution / 2 in BoxR (mk3 (- d) (- d) (- d)) (mk3 d d d).
(** AABB::size, AABB-inl.h 214-219 *)
Definition box_size (b : boxR) : R := norm2 (vsub (hi b) (lo b)).

(** A null pointer, a node without children, a node with children (of the indices 0 to 7).  [id]
    stands for the pointer difference the solver reports. *)
Inductive oct := Absent | Leaf (id : nat) (odds : Z) | Inner (id : nat) (odds : Z) (kids : nat -> oct).
Definition eight : list nat := [0; 1; 2; 3; 4; 5; 6; 7]%nat.

Section Solver.
(** octree-inl.h 103-126: isNodeOccupied, isNodeFree, isNodeUncertain; the thresholds are fields *)
Variables occ free : Z.
Definition is_occ (l : Z) : bool := (occ <=? l)%Z.
Definition is_free (l : Z) : bool := (l <=? free)%Z.
Definition is_unc (l : Z) : bool := negb (is_occ l) && negb (is_free l).

(** CollisionGeometry::isOccupied, isFree, isUncertain of the other object (collision_geometry-inl.h
    98-117): the first two are parameters. *)
Variables o_occ o_free : bool.
Definition o_unc : bool := negb o_occ && negb o_free.

(** The request: num_max_contacts and enable_cost.  [top k l] are the first k contacts after the
    partial sort by descending depth. *)
Variable C : Type.
Variable max : nat.
Variable top : nat -> list C -> list C.
Variable cost : bool.

(** lines 373-413: as many of the new contacts as there is room for *)
Definition add (cs : list C) (s : list C) : list C :=
  if (length s <? max)%nat then s ++ (if (max - length s <? length cs)%nat then top (max - length s) cs else cs) else s.
(** CollisionRequest::isSatisfied, collision_request-inl.h 75-81 *)
Definition satisfied (s : list C) : bool := negb cost && negb (length s =? 0)%nat && (max <=? length s)%nat.

(** The result: the contacts, and the cells for which addCostSource was called (whose effect on the
    set of cost sources is in Results.v). *)
Record st (K : Type) := St { contacts : list C; costs : list K }.
Arguments St {K}. Arguments contacts {K}. Arguments costs {K}.
Definition put {K} (k : list K) (s : st K) : st K := St (contacts s) (costs s ++ k).

(** calls in a row, until one returns true *)
Fixpoint in_turn {A} (l : list (A -> A * bool)) (s : A) : A * bool :=
  match l with
  | [] => (s, false)
  | a :: r => let (s', stop) := a s in if stop then (s', true) else in_turn r s'
  end.

(** *** Octree and shape *)
Section Shape.
(** overlap of the cell's OBB with the shape's; the narrow-phase answer and contacts for the cell *)
Variable ov : boxR -> bool.
Variable hit : boxR -> bool.
Variable gen : nat -> boxR -> list C.
Definition cell := (option nat * boxR)%type.

(** OcTreeShapeIntersectRecurse, lines 328-480.  For existing cells the overlap region is computed
    but addCostSource is not called (lines 404-411 and 423-441). *)
Fixpoint shape_rec (t : oct) (b : boxR) (s : st cell) : st cell * bool :=
  match t with
  | Absent => (if ov b && hit b then put [(None, b)] s else s, false)
  | Leaf id l =>
      if is_occ l && o_occ then
        if ov b then
          let s' := if hit b then St (add (gen id b) (contacts s)) (costs s) else s in (s', satisfied (contacts s'))
        else (s, false)
      else (s, false)
  | Inner id l kids =>
      if is_free l || o_free then (s, false)
      else if (is_unc l || o_unc) && negb cost then (s, false)
      else if negb (ov b) then (s, false)
      else in_turn (map (fun i s => match kids i with
                                    | Absent => if negb o_free && cost then shape_rec (kids i) (child_box b i) s else (s, false)
                                    | _ => shape_rec (kids i) (child_box b i) s
                                    end) eight) s
  end.
End Shape.

(** *** Octree and mesh *)
(** The BVH from a node down, with the node's volume (already in its world pose for [mv]) and the
    primitive of a leaf. *)
Section Mesh.
Variable V : Type.
Inductive bvh := BLeaf (v : V) (prim : nat) | BNode (v : V) (l r : bvh).
Definition vol (t : bvh) : V := match t with BLeaf v _ => v | BNode v _ _ => v end.
Definition b_leaf (t : bvh) : bool := match t with BLeaf _ _ => true | _ => false end.
Variable vov : boxR -> V -> bool.        (* overlap of the two OBBs *)
Variable vsize : V -> R.                 (* size() of the BVH volume *)
Variable hitm : boxR -> nat -> bool.     (* shapeTriangleIntersect *)
Variable genm : nat -> boxR -> nat -> list C.
Definition bigger (b : boxR) (x : R) : bool := if Rlt_dec x (box_size b) then true else false.

(** OcTreeMeshIntersectRecurse, lines 544-757 *)
Fixpoint mesh_rec (t : oct) (b : boxR) : bvh -> st (cell * nat) -> st (cell * nat) * bool :=
  fix go (m : bvh) (s : st (cell * nat)) : st (cell * nat) * bool :=
  match t with
  | Absent =>
      match m with
      | BLeaf v p => (if vov b v && hitm b p then put [((None, b), p)] s else s, false)
      | BNode v l r => in_turn [go l; go r] s
      end
  | Leaf id od =>
      match m with
      | BLeaf v p =>
          if is_occ od && o_occ then
            if vov b v then
              let s1 := if hitm b p then St (add (genm id b p) (contacts s)) (costs s) else s in
              let s2 := if hitm b p && cost then put [((Some id, b), p)] s1 else s1 in
              (s2, satisfied (contacts s2))
            else (s, false)
          else if negb (is_free od) && negb o_free && cost then
            (if vov b v && hitm b p then put [((Some id, b), p)] s else s, false)
          else (s, false)
      | BNode v l r =>
          if is_free od || o_free then (s, false)
          else if (is_unc od || o_unc) && negb cost then (s, false)
          else if negb (vov b v) then (s, false)
          else in_turn [go l; go r] s
      end
  | Inner id od kids =>
      if is_free od || o_free then (s, false)
      else if (is_unc od || o_unc) && negb cost then (s, false)
      else if negb (vov b (vol m)) then (s, false)
      else
        let down := in_turn (map (fun i s => match kids i with
                                             | Absent => if negb o_free && cost then mesh_rec (kids i) (child_box b i) m s else (s, false)
                                             | _ => mesh_rec (kids i) (child_box b i) m s
                                             end) eight) in
        match m with
        | BLeaf _ _ => down s
        | BNode v l r => if bigger b (vsize v) then down s else in_turn [go l; go r] s
        end
  end.

(** OcTreeMeshDistanceRecurse, lines 482-542.  The state is min_distance.  nodeHasChildren of a null
    root is undefined: None. *)
Variable dm : boxR -> nat -> R.          (* shapeTriangleDistance *)
Variable lowm : boxR -> V -> R.          (* distance of the two AABBs *)
Definition dupd (x m : R) : R * bool := let m' := if Rlt_dec x m then x else m in (m', if Rle_dec m' 0 then true else false).
Definition guard (d : R) (a : R -> R * bool) (m : R) : R * bool := if Rlt_dec d m then a m else (m, false).
Fixpoint mesh_dist (t : oct) (b : boxR) : bvh -> R -> R * bool :=
  fix go (m : bvh) (x : R) : R * bool :=
  match t with
  | Absent => (x, false)
  | Leaf id od =>
      match m with
      | BLeaf v p => if is_occ od then dupd (dm b p) x else (x, false)
      | BNode v l r => if is_occ od then in_turn [guard (lowm b (vol l)) (go l); guard (lowm b (vol r)) (go r)] x else (x, false)
      end
  | Inner id od kids =>
      if is_occ od then
        let down := in_turn (map (fun i => match kids i with
                                           | Absent => fun x => (x, false)
                                           | _ => guard (lowm (child_box b i) (vol m)) (mesh_dist (kids i) (child_box b i) m)
                                           end) eight) in
        match m with
        | BLeaf _ _ => down x
        | BNode v l r => if bigger b (vsize v) then down x else in_turn [guard (lowm b (vol l)) (go l); guard (lowm b (vol r)) (go r)] x
        end
      else (x, false)
  end.
End Mesh.

(** *** Octree and shape, distance: OcTreeShapeDistanceRecurse, lines 271-325 *)
Section ShapeDist.
Variable ds : boxR -> R.                 (* shapeDistance of the cell's box and the shape *)
Variable lows : boxR -> R.               (* distance of the cell's AABB and the shape's *)
Fixpoint shape_dist (t : oct) (b : boxR) (x : R) : R * bool :=
  match t with
  | Absent => (x, false)
  | Leaf id od => if is_occ od then dupd (ds b) x else (x, false)
  | Inner id od kids =>
      if is_occ od then
        in_turn (map (fun i => match kids i with
                               | Absent => fun x => (x, false)
                               | _ => guard (lows (child_box b i)) (shape_dist (kids i) (child_box b i))
                               end) eight) x
      else (x, false)
  end.
End ShapeDist.

(** *** Two octrees.  The second has its own thresholds. *)
Section Pair.
Variables occ2 free2 : Z.
Definition is_occ2 (l : Z) : bool := (occ2 <=? l)%Z.
Definition is_free2 (l : Z) : bool := (l <=? free2)%Z.
Definition is_unc2 (l : Z) : bool := negb (is_occ2 l) && negb (is_free2 l).
Variable ov2 : boxR -> boxR -> bool.     (* overlap of the two cells' OBBs *)
Variable hit2 : boxR -> boxR -> bool.    (* without contacts the OBB test itself, lines 947-957; else the solver *)
Variable gen2 : nat -> boxR -> nat -> boxR -> list C.

(** OcTreeIntersectRecurse, lines 850-1101 *)
Fixpoint pair_rec (t : oct) (b : boxR) : oct -> boxR -> st (cell * cell) -> st (cell * cell) * bool :=
  fix go (u : oct) (c : boxR) (s : st (cell * cell)) : st (cell * cell) * bool :=
  let null := (if ov2 b c then put [((None, b), (None, c))] s else s, false) in
  match t with
  | Absent =>
      match u with
      | Absent | Leaf _ _ => null
      | Inner _ _ kids2 => in_turn (map (fun j => go (kids2 j) (child_box c j)) eight) s
      end
  | Leaf id od =>
      match u with
      | Absent => null
      | Leaf id2 od2 =>
          if is_occ od && is_occ2 od2 then
            let s1 := if hit2 b c then St (add (gen2 id b id2 c) (contacts s)) (costs s) else s in
            let s2 := if hit2 b c && cost then put [((Some id, b), (Some id2, c))] s1 else s1 in
            (s2, satisfied (contacts s2))
          else if negb (is_free od) && negb (is_free2 od2) && cost then
            (if ov2 b c then put [((Some id, b), (Some id2, c))] s else s, false)
          else (s, false)
      | Inner _ od2 kids2 =>
          if is_free od || is_free2 od2 then (s, false)
          else if (is_unc od || is_unc2 od2) && negb cost then (s, false)
          else if negb (ov2 b c) then (s, false)
          else in_turn (map (fun j s => match kids2 j with
                                        | Absent => if negb (is_free od) && cost then go (kids2 j) (child_box c j) s else (s, false)
                                        | _ => go (kids2 j) (child_box c j) s
                                        end) eight) s
      end
  | Inner id od kids =>
      let down := fun g : bool => in_turn (map (fun i s => match kids i with
                                        | Absent => if g then pair_rec (kids i) (child_box b i) u c s else (s, false)
                                        | _ => pair_rec (kids i) (child_box b i) u c s
                                        end) eight) in
      match u with
      | Absent => down true s
      | Leaf _ od2 =>
          if is_free od || is_free2 od2 then (s, false)
          else if (is_unc od || is_unc2 od2) && negb cost then (s, false)
          else if negb (ov2 b c) then (s, false)
          else down (negb (is_free2 od2) && cost) s
      | Inner _ od2 kids2 =>
          if is_free od || is_free2 od2 then (s, false)
          else if (is_unc od || is_unc2 od2) && negb cost then (s, false)
          else if negb (ov2 b c) then (s, false)
          else if bigger b (box_size c) then down (negb (is_free2 od2) && cost) s
          else in_turn (map (fun j s => match kids2 j with
                                        | Absent => if negb (is_free od) && cost then go (kids2 j) (child_box c j) s else (s, false)
                                        | _ => go (kids2 j) (child_box c j) s
                                        end) eight) s
      end
  end.

(** OcTreeDistanceRecurse, lines 759-848.  The bound tested before a child is that of the parents. *)
Variable d2 : boxR -> boxR -> R.
Variable low2 : boxR -> boxR -> R.
Fixpoint pair_dist (t : oct) (b : boxR) : oct -> boxR -> R -> R * bool :=
  fix go (u : oct) (c : boxR) (x : R) : R * bool :=
  match t with
  | Absent => (x, false)
  | Leaf _ od =>
      match u with
      | Absent => (x, false)
      | Leaf _ od2 => if is_occ od && is_occ2 od2 then dupd (d2 b c) x else (x, false)
      | Inner _ od2 kids2 =>
          if is_occ od && is_occ2 od2 then
            in_turn (map (fun j => match kids2 j with Absent => fun x => (x, false) | _ => guard (low2 b c) (go (kids2 j) (child_box c j)) end) eight) x
          else (x, false)
      end
  | Inner _ od kids =>
      let down := in_turn (map (fun i => match kids i with Absent => fun x => (x, false) | _ => guard (low2 b c) (pair_dist (kids i) (child_box b i) u c) end) eight) in
      match u with
      | Absent => (x, false)
      | Leaf _ od2 => if is_occ od && is_occ2 od2 then down x else (x, false)
      | Inner _ od2 kids2 =>
          if is_occ od && is_occ2 od2 then
            if bigger b (box_size c) then down x
            else in_turn (map (fun j => match kids2 j with Absent => fun x => (x, false) | _ => guard (low2 b c) (go (kids2 j) (child_box c j)) end) eight) x
          else (x, false)
      end
  end.
End Pair.
End Solver.

Arguments St {C K}. Arguments contacts {C K}. Arguments costs {C K}. Arguments put {C K}. Arguments add {C}. Arguments satisfied {C}.
Arguments BLeaf {V}. Arguments BNode {V}. Arguments vol {V}. Arguments b_leaf {V}.
Arguments shape_rec _ _ _ _ {C}. Arguments mesh_rec _ _ _ _ {C} _ _ _ {V}. Arguments mesh_dist _ {V}. Arguments pair_rec _ _ {C}.

(** OcTreeShapeDistance, OcTreeMeshDistance and OcTreeDistance, lines 85-101, 121-137, 228-248, called
    with the root: nodeHasChildren of a null root dereferences it. *)
Definition on_root {A} (t : oct) (r : A) : option A := match t with Absent => None | _ => Some r end.

(** *** What is in an octree *)
Inductive leaf_at : oct -> boxR -> nat -> Z -> boxR -> Prop :=
| la_here id od b : leaf_at (Leaf id od) b id od b
| la_kid id od kids b i id' od' c : In i eight -> leaf_at (kids i) (child_box b i) id' od' c -> leaf_at (Inner id od kids) b id' od' c.
(** the missing children, below nodes that are not free *)
Inductive gap_at (free : Z) : oct -> boxR -> boxR -> Prop :=
| ga_here b : gap_at free Absent b b
| ga_kid id od kids b i c : In i eight -> (free < od)%Z -> gap_at free (kids i) (child_box b i) c -> gap_at free (Inner id od kids) b c.
(** a node's log-odds are at least its children's (octomap's updateInnerOccupancy) *)
Definition odds_le (t : oct) (x : Z) : Prop := match t with Absent => True | Leaf _ od => (od <= x)%Z | Inner _ od _ => (od <= x)%Z end.
Fixpoint maxprop (t : oct) : Prop :=
  match t with Inner _ od kids => forall i, In i eight -> odds_le (kids i) od /\ maxprop (kids i) | _ => True end.
Inductive under {V} : bvh V -> nat -> Prop :=
| u_here v p : under (BLeaf v p) p
| u_l v l r p : under l p -> under (BNode v l r) p
| u_r v l r p : under r p -> under (BNode v l r) p.
(** a property of every volume and every primitive below it *)
Fixpoint each {V} (P : V -> nat -> Prop) (m : bvh V) : Prop :=
  (forall p, under m p -> P (vol m) p) /\ match m with BLeaf _ _ => True | BNode _ l r => each P l /\ each P r end.

Lemma maxprop_leaf t b id l c : leaf_at t b id l c -> maxprop t -> forall x, odds_le t x -> (l <= x)%Z.
Proof.
  intros H. induction H; cbn; intros M x Hx; [exact Hx|]. destruct (M i H) as [M1 M2]. specialize (IHleaf_at M2 _ M1). lia.
Qed.

(** *** Boxes *)
Definition box_in (a b : boxR) : Prop := forall p, in_boxR p a -> in_boxR p b.
Lemma box_in_refl b : box_in b b. Proof. intros p H. exact H. Qed.
Lemma box_in_trans a b c : box_in a b -> box_in b c -> box_in a c. Proof. intros H K p P. auto. Qed.
Lemma half_in up a b x : half_lo up a b <= x <= half_hi up a b -> a <= x <= b.
Proof. destruct up; unfold half_lo, half_hi; lra. Qed.
Lemma child_in b i : box_in (child_box b i) b.
Proof.
  intros p (H0 & H1 & H2). unfold child_box in *. cbn [lo hi c0 c1 c2] in *.
  split; [exact (half_in _ _ _ _ H0)|split; [exact (half_in _ _ _ _ H1)|exact (half_in _ _ _ _ H2)]].
Qed.
Lemma leaf_in t b id l c : leaf_at t b id l c -> box_in c b.
Proof. intros H. induction H; [apply box_in_refl|]. eapply box_in_trans; [eassumption|apply child_in]. Qed.
Lemma gap_in f t b c : gap_at f t b c -> box_in c b.
Proof. intros H. induction H; [apply box_in_refl|]. eapply box_in_trans; [eassumption|apply child_in]. Qed.

(** *** Calls in a row: what they visit *)
Section Visits.
Variables (C I K : Type) (max : nat) (top : nat -> list C -> list C) (cost : bool) (g : I -> list C).
Notation add := (add max top).
Notation satisfied := (satisfied max cost).
Definition folded (V : list I) (s : list C) : list C := fold_left (fun s x => add (g x) s) V s.
(** From any state: contacts of some items [V] are added in turn and cost events [W] appended; all
    may be; true is returned only when satisfied; false only if all that must have been are. *)
Definition visits (a : st C K -> st C K * bool) (must may : I -> Prop) (kmust kmay : K -> Prop) : Prop :=
  forall s, exists V W, contacts (fst (a s)) = folded V (contacts s) /\ costs (fst (a s)) = costs s ++ W /\
    (forall x, In x V -> may x) /\ (forall k, In k W -> kmay k) /\
    (snd (a s) = true -> satisfied (contacts (fst (a s))) = true) /\
    (snd (a s) = false -> (forall x, must x -> In x V) /\ (forall k, kmust k -> In k W)).

Definition none {T : Type} (x : T) : Prop := False.
Lemma visits_skip : visits (fun s => (s, false)) none none none none.
Proof. intros s. exists [], []. cbn. rewrite app_nil_r. repeat split; try discriminate; intros ? []. Qed.
Lemma visits_weak a (mu ma mu' ma' : I -> Prop) (ku ka ku' ka' : K -> Prop) : visits a mu ma ku ka ->
  (forall x, mu' x -> mu x) -> (forall x, ma x -> ma' x) -> (forall k, ku' k -> ku k) -> (forall k, ka k -> ka' k) -> visits a mu' ma' ku' ka'.
Proof.
  intros H H1 H2 H3 H4 s. destruct (H s) as (V & W & E1 & E2 & A1 & A2 & T & F). exists V, W. split; [exact E1|split; [exact E2|]].
  split; [auto|split; [auto|split; [exact T|]]]. intros N. destruct (F N). split; auto.
Qed.
Lemma visits_ext a a' mu ma ku ka : (forall s, a s = a' s) -> visits a mu ma ku ka -> visits a' mu ma ku ka.
Proof. intros E H s. rewrite <- E. apply H. Qed.
Lemma visits_turn {T : Type} (f : T -> st C K -> st C K * bool) (mu ma : T -> I -> Prop) (ku ka : T -> K -> Prop) : forall l,
  (forall t, In t l -> visits (f t) (mu t) (ma t) (ku t) (ka t)) ->
  visits (in_turn (map f l)) (fun x => exists t, In t l /\ mu t x) (fun x => exists t, In t l /\ ma t x)
                             (fun x => exists t, In t l /\ ku t x) (fun x => exists t, In t l /\ ka t x).
Proof.
  induction l as [|t l IH]; intros H.
  - cbn. eapply visits_weak; [apply visits_skip| | | |]; [|intros ? []| |intros ? []]; intros x (? & [] & _).
  - intros s. cbn [map in_turn]. destruct (H t (or_introl eq_refl) s) as (V & W & E1 & E2 & A1 & A2 & Tt & F). destruct (f t s) as [s' stop] eqn:Ef. cbn [fst snd] in *.
    destruct stop.
    + exists V, W. cbn [fst snd]. split; [exact E1|split; [exact E2|]]. split; [intros x Hx; exists t; split; [left; reflexivity|auto]|].
      split; [intros x Hx; exists t; split; [left; reflexivity|auto]|]. split; [exact Tt|discriminate].
    + destruct (F eq_refl) as [F1 F2]. destruct (IH (fun t Ht => H t (or_intror Ht)) s') as (V2 & W2 & E1' & E2' & A1' & A2' & T' & F').
      exists (V ++ V2), (W ++ W2). split; [rewrite E1', E1; unfold folded; rewrite fold_left_app; reflexivity|].
      split; [rewrite E2', E2, app_assoc; reflexivity|].
      split; [intros x Hx; apply in_app_or in Hx; destruct Hx as [Hx|Hx]; [exists t; split; [left; reflexivity|auto]|destruct (A1' x Hx) as (u & ? & ?); exists u; split; [right|]; assumption]|].
      split; [intros x Hx; apply in_app_or in Hx; destruct Hx as [Hx|Hx]; [exists t; split; [left; reflexivity|auto]|destruct (A2' x Hx) as (u & ? & ?); exists u; split; [right|]; assumption]|].
      split; [exact T'|]. intros N. destruct (F' N) as [G1 G2]. split; intros x (u & [Hu|Hu] & Hx); apply in_or_app.
      * left. subst u. auto.
      * right. apply G1. eauto.
      * left. subst u. auto.
      * right. apply G2. eauto.
Qed.
(** one item, with or without a cost event *)
Lemma visits_one (x : I) (W : list K) (a : st C K -> st C K * bool) :
  (forall s, exists r, a s = (St (add (g x) (contacts s)) (costs s ++ W), r) /\ (r = true -> satisfied (add (g x) (contacts s)) = true)) ->
  visits a (fun y => y = x) (fun y => y = x) (fun k => In k W) (fun k => In k W).
Proof.
  intros H s. destruct (H s) as (r & E & Hr). rewrite E. exists [x], W. cbn. split; [reflexivity|split; [reflexivity|]].
  split; [intros y [Hy|[]]; auto|split; [auto|split; [exact Hr|]]]. intros _. split; [intros y Hy; left; auto|auto].
Qed.
Lemma visits_costs (W : list K) : visits (fun s => (put W s, false)) none none (fun k => In k W) (fun k => In k W).
Proof. intros s. exists [], W. cbn. repeat split; auto; try discriminate; intros ? []. Qed.

(** what the visit spec says of the contacts *)
Hypothesis top_len : forall k l, (k <= length l)%nat -> length (top k l) = k.
Hypothesis top_in : forall k l x, In x (top k l) -> In x l.
Lemma add_len cs s : (length s <= max)%nat -> (length (add cs s) <= max)%nat.
Proof.
  intros H. unfold Octree.add. destruct (length s <? max)%nat eqn:E; [|exact H]. apply Nat.ltb_lt in E. rewrite app_length.
  destruct (max - length s <? length cs)%nat eqn:E2; [apply Nat.ltb_lt in E2; rewrite top_len by lia; lia|apply Nat.ltb_ge in E2; lia].
Qed.
Lemma add_nil s : add [] s = s.
Proof.
  unfold Octree.add. cbn [length]. replace (max - length s <? 0)%nat with false by (symmetry; apply Nat.ltb_ge; lia). rewrite app_nil_r. destruct (length s <? max)%nat; reflexivity.
Qed.
Lemma add_grow cs s : (length s <= length (add cs s))%nat.
Proof. unfold Octree.add. destruct (length s <? max)%nat; [rewrite app_length|]; lia. Qed.
Lemma add_some cs s : cs <> [] -> (0 < max)%nat -> (0 < length (add cs s))%nat.
Proof.
  intros H M. unfold Octree.add. destruct (length s <? max)%nat eqn:E; [|apply Nat.ltb_ge in E; lia]. apply Nat.ltb_lt in E. rewrite app_length.
  destruct (max - length s <? length cs)%nat eqn:E2; [apply Nat.ltb_lt in E2; rewrite top_len by lia; lia|]. destruct cs; [congruence|cbn; lia].
Qed.
Lemma add_in cs s x : In x (add cs s) -> In x s \/ In x cs.
Proof.
  unfold Octree.add. destruct (length s <? max)%nat; [|auto]. intros H. apply in_app_or in H. destruct H as [H|H]; [auto|]. right.
  destruct (max - length s <? length cs)%nat; [exact (top_in _ _ _ H)|exact H].
Qed.
Lemma folded_len V : forall s, (length s <= max)%nat -> (length (folded V s) <= max)%nat.
Proof. induction V as [|x V IH]; intros s H; cbn; [exact H|]. apply IH, add_len, H. Qed.
Lemma folded_grow V : forall s, (length s <= length (folded V s))%nat.
Proof. induction V as [|x V IH]; intros s; cbn; [lia|]. etransitivity; [apply add_grow|apply IH]. Qed.
Lemma folded_some V : forall s x, In x V -> g x <> [] -> (0 < max)%nat -> (0 < length (folded V s))%nat.
Proof.
  induction V as [|y V IH]; intros s x H G M; [destruct H|]; destruct H as [H|H]; cbn.
  - subst y. eapply Nat.lt_le_trans; [apply (add_some _ s G M)|apply folded_grow].
  - exact (IH _ x H G M).
Qed.
Lemma folded_in V : forall s c, In c (folded V s) -> In c s \/ exists x, In x V /\ In c (g x).
Proof.
  induction V as [|y V IH]; intros s c H; cbn in H; [auto|]. destruct (IH _ _ H) as [H1|(x & H1 & H2)].
  - apply add_in in H1. destruct H1 as [H1|H1]; [auto|]. right. exists y. split; [left; reflexivity|exact H1].
  - right. exists x. split; [right|]; assumption.
Qed.
Lemma folded_full V : forall s, (length (folded V s) < max)%nat -> forall x, In x V -> forall c, In c (g x) -> In c (folded V s).
Proof.
  assert (Keep : forall W s c, In c s -> In c (folded W s)).
  { induction W as [|y W IH]; intros s c H; cbn; [exact H|]. apply IH. unfold Octree.add. destruct (length s <? max)%nat; [apply in_or_app; left|]; exact H. }
  induction V as [|y V IH]; intros s L x H c Hc; [destruct H|]. change (folded (y :: V) s) with (folded V (add (g y) s)) in *. destruct H as [->|H]; [|exact (IH _ L x H c Hc)].
  apply Keep. pose proof (folded_grow V (add (g x) s)) as Gr. assert (L2 : (length (add (g x) s) < max)%nat) by lia. clear -L2 Hc top_len.
  pose proof (add_grow (g x) s) as G2. unfold Octree.add in *. destruct (length s <? max)%nat eqn:E; [|apply Nat.ltb_ge in E; lia]. rewrite app_length in *.
  apply in_or_app. right. destruct (max - length s <? length (g x))%nat eqn:E2; [|exact Hc]. apply Nat.ltb_lt in E2. rewrite top_len in L2 by lia. lia.
Qed.
(** a query starting with no contacts *)
Lemma visits_result a mu ma ku ka : visits a mu ma ku ka -> let r := fst (a (St [] [])) in
  (length (contacts r) <= max)%nat /\ (forall c, In c (contacts r) -> exists x, ma x /\ In c (g x)) /\
  ((length (contacts r) < max)%nat -> forall x, mu x -> forall c, In c (g x) -> In c (contacts r)) /\
  (forall k, In k (costs r) -> ka k) /\ (cost = true -> forall k, ku k -> In k (costs r)).
Proof.
  intros H r. destruct (H (St [] [])) as (V & W & E1 & E2 & A1 & A2 & T & F). fold r in E1, E2, T. cbn [contacts costs app] in E1, E2.
  assert (St1 : snd (a (St [] [])) = true -> cost = false /\ (max <= length (contacts r))%nat).
  { intros B. specialize (T B). unfold Octree.satisfied in T. apply andb_prop in T. destruct T as [T1 T2]. apply andb_prop in T1. destruct T1 as [T1 _]. apply Nat.leb_le in T2.
    split; [destruct cost; [discriminate|reflexivity]|lia]. }
  split; [rewrite E1; apply folded_len; cbn; lia|]. split; [|split; [|split]].
  - intros c Hc. rewrite E1 in Hc. apply folded_in in Hc. destruct Hc as [[]|(x & Hx & Hc)]. eauto.
  - intros L x Hx c Hc. destruct (snd (a (St [] []))) eqn:B; [destruct (St1 eq_refl); lia|]. destruct (F eq_refl) as [F1 _]. rewrite E1 in *. exact (folded_full V [] L x (F1 x Hx) c Hc).
  - intros k Hk. rewrite E2 in Hk. auto.
  - intros Hc k Hk. destruct (snd (a (St [] []))) eqn:B; [destruct (St1 eq_refl); congruence|]. destruct (F eq_refl) as [_ F2]. rewrite E2. auto.
Qed.
End Visits.

(** *** The same for distances: the state is the least distance so far *)
Section DVisits.
Variables (I : Type) (val : I -> R).
Definition dvisits (a : R -> R * bool) (must may : I -> Prop) : Prop :=
  forall m, 0 < m -> fst (a m) <= m /\ (fst (a m) = m \/ exists x, may x /\ fst (a m) = val x) /\
    (snd (a m) = true -> fst (a m) <= 0) /\ (snd (a m) = false -> 0 < fst (a m) /\ forall x, must x -> fst (a m) <= val x).
Lemma dvisits_skip (P : I -> Prop) : dvisits (fun x => (x, false)) (fun _ => False) P.
Proof. intros m Hm. cbn. split; [lra|split; [auto|split; [discriminate|]]]. intros _. split; [exact Hm|intros ? []]. Qed.
Lemma dvisits_weak a (mu ma mu' ma' : I -> Prop) : dvisits a mu ma -> (forall x, mu' x -> mu x) -> (forall x, ma x -> ma' x) -> dvisits a mu' ma'.
Proof.
  intros H H1 H2 m Hm. destruct (H m Hm) as (A & B & D & E). split; [exact A|split; [|split; [exact D|]]].
  - destruct B as [B|(x & B & B')]; [auto|]. right. eauto.
  - intros N. destruct (E N) as [E1 E2]. split; [exact E1|auto].
Qed.
Lemma dvisits_upd x : dvisits (dupd (val x)) (fun y => y = x) (fun y => y = x).
Proof.
  intros m Hm. unfold dupd. cbn [fst snd]. destruct (Rlt_dec (val x) m) as [L|L].
  - split; [lra|split; [right; eauto|]]. destruct (Rle_dec (val x) 0); split; try discriminate; intros _; [assumption|]. split; [lra|]. intros y ->. lra.
  - split; [lra|split; [left; reflexivity|]]. destruct (Rle_dec m 0); [lra|]. split; [discriminate|]. intros _. split; [lra|]. intros y ->. lra.
Qed.
Lemma dvisits_guard d a mu ma : dvisits a mu ma -> (forall x, mu x -> d <= Rmax 0 (val x)) -> dvisits (guard d a) mu ma.
Proof.
  intros H Hd m Hm. unfold guard. destruct (Rlt_dec d m) as [L|L]; [exact (H m Hm)|]. cbn. split; [lra|split; [auto|split; [discriminate|]]].
  intros _. split; [exact Hm|]. intros x Hx. specialize (Hd x Hx). unfold Rmax in Hd. destruct (Rle_dec 0 (val x)); lra.
Qed.
Lemma dvisits_turn {T : Type} (f : T -> R -> R * bool) (mu ma : T -> I -> Prop) : forall l,
  (forall t, In t l -> dvisits (f t) (mu t) (ma t)) ->
  dvisits (in_turn (map f l)) (fun x => exists t, In t l /\ mu t x) (fun x => exists t, In t l /\ ma t x).
Proof.
  induction l as [|t l IH]; intros H.
  - cbn. eapply dvisits_weak; [apply (dvisits_skip (fun _ => False))|intros x (? & [] & _)|intros ? []].
  - intros m Hm. cbn [map in_turn]. destruct (H t (or_introl eq_refl) m Hm) as (A & B & D & E). destruct (f t m) as [m' stop]. cbn [fst snd] in *. destruct stop.
    + cbn [fst snd]. split; [exact A|split; [|split; [exact D|discriminate]]]. destruct B as [B|(x & B & B')]; [auto|]. right. exists x. split; [exists t; split; [left; reflexivity|exact B]|exact B'].
    + destruct (E eq_refl) as [E1 E2]. destruct (IH (fun t Ht => H t (or_intror Ht)) m' E1) as (A' & B' & D' & E').
      split; [lra|split; [|split; [exact D'|]]].
      * destruct B' as [B'|(x & (u & Hu & B') & B2)]; [|right; exists x; split; [exists u; split; [right|]; assumption|exact B2]]. rewrite B'.
        destruct B as [B|(x & B & B2)]; [auto|]. right. exists x. split; [exists t; split; [left; reflexivity|exact B]|exact B2].
      * intros N. destruct (E' N) as [G1 G2]. split; [exact G1|]. intros x (u & [Hu|Hu] & Hx); [subst u; specialize (E2 x Hx); lra|]. apply G2. eauto.
Qed.
(** a query: the least value, or some value not above zero *)
Lemma dvisits_query a mu ma m : dvisits a mu ma -> 0 < m -> let r := fst (a m) in
  (r = m \/ exists x, ma x /\ r = val x) /\ (0 < r -> forall x, mu x -> r <= val x) /\ (forall x, mu x -> val x <= 0 -> r <= 0) /\ r <= m.
Proof.
  intros H Hm r. destruct (H m Hm) as (A & B & D & E). fold r in A, B, D, E. destruct (snd (a m)).
  - specialize (D eq_refl). split; [exact B|split; [lra|split; [auto|exact A]]].
  - destruct (E eq_refl) as [E1 E2]. split; [exact B|split; [auto|split; [|exact A]]]. intros x Hx V. specialize (E2 x Hx). lra.
Qed.
End DVisits.
