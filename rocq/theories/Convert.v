(** Conversion of bounding volumes under a rigid motion.
    Source: /repo/include/fcl/math/bv/utility-inl.h lines 680-983 (ConvertBVImpl), and constructBox
    of /repo/include/fcl/geometry/shape/utility-inl.h lines 1063-1210.
    Scalars are real numbers.  An AABB is [boxR] (AabbDist.v), an OBB [obb] (Obb.v), an RSS [rss]
    (Motion.v). *)
From Coq Require Import Reals Lra Lia.
From Verif Require Import VecR AabbDist Obb Motion.
Local Open Scope R_scope.

(** AABB::center, width, height, depth (AABB-inl.h 186-235) *)
Definition bcenter (b : boxR) : v3 := vscale (1 / 2) (vadd (lo b) (hi b)).
Definition bdiag (b : boxR) : v3 := vsub (hi b) (lo b).
Definition cube (c : v3) (r : R) : boxR := BoxR (vsub c (mk3 r r r)) (vadd c (mk3 r r r)).

(** lines 699-711: AABB to AABB *)
Definition aabb_aabb (b : boxR) (X : tf) : boxR := cube (tf_apply X (bcenter b)) (norm (bdiag b) * (1 / 2)).
(** lines 715-760: AABB to OBB *)
Definition aabb_obb (b : boxR) (X : tf) : obb := mkobb (tf_rot X) (tf_apply X (bcenter b)) (vscale (1 / 2) (bdiag b)).
(** lines 764-774: OBB to OBB *)
Definition obb_obb (b : obb) (X : tf) : obb := mkobb (mmul (tf_rot X) (ax b)) (tf_apply X (oc b)) (ext b).
(** RSS::center, setToFromCenter, width, height, depth (RSS-inl.h 379-429) *)
Definition rss_center (b : rss) : v3 := vadd (To b) (mapply (rax b) (mk3 (rl0 b * (1 / 2)) (rl1 b * (1 / 2)) 0)).
Definition rss_dims (b : rss) : v3 := mk3 (rl0 b + 2 * rr b) (rl1 b + 2 * rr b) (2 * rr b).
Definition rss_at (A : mat3) (c : v3) (a b r : R) : rss := Rss (vsub c (mapply A (mk3 (a * (1 / 2)) (b * (1 / 2)) 0))) A a b r.
(** lines 788-798: RSS to OBB *)
Definition rss_obb (b : rss) (X : tf) : obb :=
  mkobb (mmul (tf_rot X) (rax b)) (tf_apply X (rss_center b)) (mk3 (rl0 b * (1 / 2) + rr b) (rl1 b * (1 / 2) + rr b) (rr b)).
(** lines 800-814: any volume, given its center() and its width(), height(), depth(), to AABB *)
Definition any_aabb (c dims : v3) (X : tf) : boxR := cube (tf_apply X c) (norm dims * (1 / 2)).
(** lines 816-827: any volume to OBB, by way of the AABB in its own frame *)
Definition any_obb (c dims : v3) (X : tf) : obb := aabb_obb (any_aabb c dims (mktf mid vzero)) X.
(** lines 829-853: OBB to RSS *)
Definition obb_rss (b : obb) (X : tf) : rss :=
  rss_at (mmul (tf_rot X) (ax b)) (tf_apply X (oc b)) (2 * c0 (ext b)) (2 * c1 (ext b)) (c2 (ext b)).
(** lines 856-869: RSS to RSS *)
Definition rss_rss (b : rss) (X : tf) : rss := Rss (tf_apply X (To b)) (mmul (tf_rot X) (rax b)) (rl0 b) (rl1 b) (rr b).

(** lines 883-931: AABB to RSS.  The three edges are put in descending order by the two rounds of
    the insertion sort; [swap j] exchanges places j-1 and j if out of order. *)
Definition swap01 (s : (R * nat) * (R * nat) * (R * nat)) := let '(a, b, c) := s in if Rlt_dec (fst a) (fst b) then (b, a, c) else (a, b, c).
Definition swap12 (s : (R * nat) * (R * nat) * (R * nat)) := let '(a, b, c) := s in if Rlt_dec (fst b) (fst c) then (a, c, b) else (a, b, c).
Definition edge_order (d : v3) : nat * nat * nat :=
  let '(a, b, c) := swap01 (swap12 (swap01 ((c0 d, 0%nat), (c1 d, 1%nat), (c2 d, 2%nat)))) in (snd a, snd b, snd c).
Definition aabb_rss (b : boxR) (X : tf) : rss :=
  let '(i, j, k) := edge_order (bdiag b) in
  let e := vscale (1 / 2) (bdiag b) in
  let A := tf_rot X in
  let left := Nat.eqb i (Nat.modulo (j + 1) 3) in
  rss_at (mkm (if left then vneg (col i A) else col i A) (col j A) (col k A)) (tf_apply X (bcenter b)) (comp i e * 2) (comp j e * 2) (comp k e).

(** constructBox with a transform: the sides and the pose of the Box.
    AABB: lines 1135-1140; OBB and kIOS (with its OBB): 1142-1152, 1164-1174, which do not use the
    transform; OBBRSS (with its OBB): 1154-1162; RSS: 1176-1184, which places the box at the corner
    To. *)
Definition tf_mul (X Y : tf) : tf := mktf (mmul (tf_rot X) (tf_rot Y)) (tf_apply X (tf_tr Y)).
Definition box_of_aabb (b : boxR) (X : tf) : v3 * tf := (bdiag b, mktf (tf_rot X) (tf_apply X (bcenter b))).
Definition box_of_obb (b : obb) (X : tf) : v3 * tf := (vscale 2 (ext b), mktf (ax b) (oc b)).
Definition box_of_obbrss (b : obb) (X : tf) : v3 * tf := (vscale 2 (ext b), tf_mul X (mktf (ax b) (oc b))).
Definition box_of_rss (b : rss) (X : tf) : v3 * tf := (rss_dims b, tf_mul X (mktf (rax b) (To b))).
