(** Axis-aligned boxes with exactly compared coordinates.

    Models include/fcl/math/bv/AABB-inl.h.  Coordinates are integers: the
    functions modelled here only compare, copy, take min/max (and, for [expand]
    and [translate], add), and every finite double is an integer multiple of
    2^-1074, so comparison and min/max of finite doubles are exactly those of
    integers.  NaN and infinities are not modelled. *)
From Coq Require Import ZArith List Bool Lia.
Import ListNotations.
Open Scope Z_scope.

(** Eigen Vector3<S> (include/fcl/common/types.h:70). *)
Record vec := V { vx : Z; vy : Z; vz : Z }.

(** Component access [v[i]], i in {0,1,2} (Eigen operator[]; any other index is
    out of range in C++, here it is identified with 2). *)
Definition coord (i : nat) (v : vec) : Z :=
  match i with 0%nat => vx v | 1%nat => vy v | _ => vz v end.

(** AABB<S>::min_, max_ (include/fcl/math/bv/AABB.h). *)
Record aabb := Box { bmin : vec; bmax : vec }.

Definition vmin (a b : vec) := V (Z.min (vx a) (vx b)) (Z.min (vy a) (vy b)) (Z.min (vz a) (vz b)).
Definition vmax (a b : vec) := V (Z.max (vx a) (vx b)) (Z.max (vy a) (vy b)) (Z.max (vz a) (vz b)).
Definition vadd (a b : vec) := V (vx a + vx b) (vy a + vy b) (vz a + vz b).
Definition vsub (a b : vec) := V (vx a - vx b) (vy a - vy b) (vz a - vz b).

(** (a.array() > b.array()).any() *)
Definition any_gt (a b : vec) : bool := (vx a >? vx b) || (vy a >? vy b) || (vz a >? vz b).
(** (a.array() < b.array()).any() *)
Definition any_lt (a b : vec) : bool := (vx a <? vx b) || (vy a <? vy b) || (vz a <? vz b).

(** AABB<S>::AABB(), AABB-inl.h:52-57; [M] stands for numeric_limits<S>::max(). *)
Definition empty_box (M : Z) : aabb := Box (V M M M) (V (-M) (-M) (-M)).
(** AABB<S>::AABB(v), AABB-inl.h:61-64. *)
Definition point_box (v : vec) : aabb := Box v v.
(** AABB<S>::AABB(a, b), AABB-inl.h:68-73. *)
Definition two_box (a b : vec) : aabb := Box (vmin a b) (vmax a b).
(** AABB<S>::AABB(core, delta), AABB-inl.h:77-82. *)
Definition core_box (core : aabb) (delta : vec) : aabb :=
  Box (vsub (bmin core) delta) (vadd (bmax core) delta).
(** AABB<S>::AABB(a, b, c), AABB-inl.h:86-94. *)
Definition three_box (a b c : vec) : aabb :=
  Box (vmin (vmin a b) c) (vmax (vmax a b) c).

(** AABB<S>::overlap(other), AABB-inl.h:98-107. *)
Definition overlap (a b : aabb) : bool :=
  if any_gt (bmin a) (bmax b) then false
  else if any_lt (bmax a) (bmin b) then false
  else true.

(** AABB<S>::contain(const AABB&), AABB-inl.h:111-120. *)
Definition contain (a b : aabb) : bool :=
  if any_gt (bmin a) (bmin b) then false
  else if any_lt (bmax a) (bmax b) then false
  else true.

(** AABB<S>::axisOverlap, AABB-inl.h:124-131. *)
Definition axis_overlap (a b : aabb) (i : nat) : bool :=
  if coord i (bmin a) >? coord i (bmax b) then false
  else if coord i (bmax a) <? coord i (bmin b) then false
  else true.

(** AABB<S>::overlap(other, overlap_part), AABB-inl.h:135-145.  The C++ leaves
    [overlap_part] untouched when it returns false: [None] here. *)
Definition overlap_part (a b : aabb) : option aabb :=
  if overlap a b then Some (Box (vmax (bmin a) (bmin b)) (vmin (bmax a) (bmax b)))
  else None.

(** AABB<S>::contain(const Vector3&), AABB-inl.h:149-158. *)
Definition contain_pt (a : aabb) (p : vec) : bool :=
  if any_gt (bmin a) p then false
  else if any_lt (bmax a) p then false
  else true.

(** AABB<S>::operator+=(const Vector3&), AABB-inl.h:162-167. *)
Definition add_pt (a : aabb) (p : vec) : aabb := Box (vmin (bmin a) p) (vmax (bmax a) p).
(** AABB<S>::operator+=(const AABB&) and operator+, AABB-inl.h:171-184. *)
Definition merge (a b : aabb) : aabb :=
  Box (vmin (bmin a) (bmin b)) (vmax (bmax a) (bmax b)).

(** AABB<S>::size(), AABB-inl.h:216-219 (squared norm of the diagonal). *)
Definition bsize (a : aabb) : Z :=
  let d := vsub (bmax a) (bmin a) in vx d * vx d + vy d * vy d + vz d * vz d.

(** AABB<S>::expand(delta), AABB-inl.h:327-332. *)
Definition expand (a : aabb) (delta : vec) : aabb :=
  Box (vsub (bmin a) delta) (vadd (bmax a) delta).
(** AABB<S>::expand(core, ratio), AABB-inl.h:336-341. *)
Definition expand_ratio (a core : aabb) (ratio : Z) : aabb :=
  let f (x y : vec) := V (vx x * ratio - vx y) (vy x * ratio - vy y) (vz x * ratio - vz y) in
  Box (f (bmin a) (bmin core)) (f (bmax a) (bmax core)).
(** translate(aabb, t), AABB-inl.h:345-352. *)
Definition translate (a : aabb) (t : vec) : aabb :=
  Box (vadd (bmin a) t) (vadd (bmax a) t).

(** ** Specification, independent of the functions above *)

(** The point [p] lies in the closed box [b]. *)
Definition in_box (p : vec) (b : aabb) : Prop :=
  (vx (bmin b) <= vx p <= vx (bmax b)) /\
  (vy (bmin b) <= vy p <= vy (bmax b)) /\
  (vz (bmin b) <= vz p <= vz (bmax b)).

(** The box has at least one point. *)
Definition nonempty (b : aabb) : Prop := exists p, in_box p b.

(** Set inclusion of boxes as point sets. *)
Definition subbox (a b : aabb) : Prop := forall p, in_box p a -> in_box p b.

Ltac destruct_boxes :=
  repeat match goal with
         | a : aabb |- _ => destruct a as [[? ? ?] [? ? ?]]
         | v : vec |- _ => destruct v as [? ? ?]
         end.

Ltac box_unfold :=
  unfold overlap, contain, contain_pt, axis_overlap, overlap_part, merge, add_pt, expand, translate,
    core_box, point_box, two_box, three_box, expand_ratio, bsize,
    in_box, any_gt, any_lt, vmin, vmax, vadd, vsub, coord in *; cbn [vx vy vz bmin bmax] in *.

Lemma overlap_ineq a b :
  overlap a b = true <->
  (vx (bmin a) <= vx (bmax b) /\ vx (bmin b) <= vx (bmax a)) /\
  (vy (bmin a) <= vy (bmax b) /\ vy (bmin b) <= vy (bmax a)) /\
  (vz (bmin a) <= vz (bmax b) /\ vz (bmin b) <= vz (bmax a)).
Proof.
  destruct_boxes; box_unfold.
  repeat match goal with |- context [?x >? ?y] => rewrite (Z.gtb_ltb x y) end.
  repeat match goal with |- context [?x <? ?y] => destruct (Z.ltb_spec x y) end; cbn; split; intros; try congruence; lia.
Qed.

Lemma nonempty_ineq b :
  nonempty b <-> vx (bmin b) <= vx (bmax b) /\ vy (bmin b) <= vy (bmax b) /\ vz (bmin b) <= vz (bmax b).
Proof.
  unfold nonempty; split.
  - intros [p Hp]; destruct_boxes; box_unfold; lia.
  - intros H. exists (bmin b). destruct_boxes; box_unfold; lia.
Qed.

Lemma overlap_sym a b : overlap a b = overlap b a.
Proof. apply eq_true_iff_eq; rewrite !overlap_ineq; tauto. Qed.

Lemma overlap_iff_share a b : nonempty a -> nonempty b ->
  (overlap a b = true <-> exists p, in_box p a /\ in_box p b).
Proof.
  rewrite !nonempty_ineq, overlap_ineq; intros Ha Hb; split.
  - intros H. exists (vmax (bmin a) (bmin b)). destruct_boxes; box_unfold; lia.
  - intros [p [H1 H2]]; destruct_boxes; box_unfold; lia.
Qed.

Lemma contain_pt_iff a p : contain_pt a p = true <-> in_box p a.
Proof.
  destruct_boxes; box_unfold.
  repeat match goal with |- context [?x >? ?y] => rewrite (Z.gtb_ltb x y) end.
  repeat match goal with |- context [?x <? ?y] => destruct (Z.ltb_spec x y) end; cbn; split; intros; try congruence; lia.
Qed.

Lemma contain_ineq a b :
  contain a b = true <->
  (vx (bmin a) <= vx (bmin b) /\ vx (bmax b) <= vx (bmax a)) /\
  (vy (bmin a) <= vy (bmin b) /\ vy (bmax b) <= vy (bmax a)) /\
  (vz (bmin a) <= vz (bmin b) /\ vz (bmax b) <= vz (bmax a)).
Proof.
  destruct_boxes; box_unfold.
  repeat match goal with |- context [?x >? ?y] => rewrite (Z.gtb_ltb x y) end.
  repeat match goal with |- context [?x <? ?y] => destruct (Z.ltb_spec x y) end; cbn; split; intros; try congruence; lia.
Qed.

Lemma contain_iff_subbox a b : nonempty b -> (contain a b = true <-> subbox b a).
Proof.
  rewrite nonempty_ineq, contain_ineq; intros Hb; split.
  - intros H p Hp; destruct_boxes; box_unfold; lia.
  - intros H. pose proof (H (bmin b)) as H1. pose proof (H (bmax b)) as H2.
    destruct_boxes; box_unfold; lia.
Qed.

Lemma contain_refl a : contain a a = true.
Proof. rewrite contain_ineq; lia. Qed.

Lemma contain_trans a b c : contain a b = true -> contain b c = true -> contain a c = true.
Proof. rewrite !contain_ineq; lia. Qed.

Lemma overlap_part_spec a b :
  match overlap_part a b with
  | Some c => overlap a b = true /\ forall p, in_box p c <-> in_box p a /\ in_box p b
  | None => overlap a b = false
  end.
Proof.
  unfold overlap_part. destruct (overlap a b) eqn:E; [split; auto|auto].
  intros p; destruct_boxes; box_unfold; lia.
Qed.

Lemma axis_overlap_iff a b :
  overlap a b = true <-> (forall i, (i < 3)%nat -> axis_overlap a b i = true).
Proof.
  assert (Hax : forall i, axis_overlap a b i = true <->
     coord i (bmin a) <= coord i (bmax b) /\ coord i (bmin b) <= coord i (bmax a)).
  { intros i; unfold axis_overlap. rewrite Z.gtb_ltb.
    destruct (Z.ltb_spec (coord i (bmax b)) (coord i (bmin a))).
    - split; [congruence|lia].
    - destruct (Z.ltb_spec (coord i (bmax a)) (coord i (bmin b))); split; try congruence; lia. }
  rewrite overlap_ineq; split.
  - intros H i Hi. apply Hax. destruct i as [|[|[|i]]]; cbn; lia.
  - intros H. pose proof (proj1 (Hax _) (H 0%nat ltac:(lia))).
    pose proof (proj1 (Hax _) (H 1%nat ltac:(lia))).
    pose proof (proj1 (Hax _) (H 2%nat ltac:(lia))). cbn in *. lia.
Qed.

Lemma merge_contains_l a b : contain (merge a b) a = true.
Proof. rewrite contain_ineq; destruct_boxes; box_unfold; lia. Qed.
Lemma merge_contains_r a b : contain (merge a b) b = true.
Proof. rewrite contain_ineq; destruct_boxes; box_unfold; lia. Qed.
Lemma merge_least a b c : contain c a = true -> contain c b = true -> contain c (merge a b) = true.
Proof. rewrite !contain_ineq; destruct_boxes; box_unfold; lia. Qed.

Lemma vec_ext a b : vx a = vx b -> vy a = vy b -> vz a = vz b -> a = b.
Proof. destruct a, b; cbn; intros; subst; reflexivity. Qed.

Lemma box_ext a b : bmin a = bmin b -> bmax a = bmax b -> a = b.
Proof. destruct a, b; cbn; intros; subst; reflexivity. Qed.

Lemma merge_comm a b : merge a b = merge b a.
Proof. apply box_ext; apply vec_ext; destruct_boxes; box_unfold; lia. Qed.
Lemma merge_assoc a b c : merge (merge a b) c = merge a (merge b c).
Proof. apply box_ext; apply vec_ext; destruct_boxes; box_unfold; lia. Qed.
Lemma merge_idem a : merge a a = a.
Proof. apply box_ext; apply vec_ext; destruct_boxes; box_unfold; lia. Qed.

Lemma add_pt_merge a p : add_pt a p = merge a (point_box p).
Proof. reflexivity. Qed.

(** Coordinates representable within [-M, M]. *)
Definition bounded (M : Z) (v : vec) : Prop :=
  (-M <= vx v <= M) /\ (-M <= vy v <= M) /\ (-M <= vz v <= M).

Lemma merge_empty M b : bounded M (bmin b) -> bounded M (bmax b) -> merge (empty_box M) b = b.
Proof. unfold bounded, empty_box; intros. apply box_ext; apply vec_ext; destruct_boxes; box_unfold; lia. Qed.

Lemma overlap_mono a a' b b' :
  contain a' a = true -> contain b' b = true -> overlap a b = true -> overlap a' b' = true.
Proof. rewrite !contain_ineq, !overlap_ineq; lia. Qed.

Lemma overlap_refl_nonempty a : nonempty a -> overlap a a = true.
Proof. rewrite nonempty_ineq, overlap_ineq; lia. Qed.
