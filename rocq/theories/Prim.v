(** Queries between spheres and primitive shapes, and between capsules
    (include/fcl/narrowphase/detail/primitive_shape_algorithm), over the reals.  A query that
    reports a contact is modelled by [Some contact], "no intersection" by [None]; contacts is
    taken to be requested. *)
From Coq Require Import Nsatz Reals Lra Psatz Lia Arith List.
From Verif Require Import VecR.
Import ListNotations.
Open Scope R_scope.

(** contact_point.h 50-60 *)
Record contact := mkct { cnorm : v3; cpos : v3; cdepth : R }.

(** ** The shapes as point sets *)
Definition ball (o : v3) (r : R) (q : v3) : Prop := dist q o <= r.
Definition placed (X : tf) (K : v3 -> Prop) (q : v3) : Prop := exists q0, K q0 /\ q = tf_apply X q0.
Definition segset (a b q : v3) : Prop := exists s, 0 <= s <= 1 /\ q = vadd a (vscale s (vsub b a)).
Definition capset (lz r : R) (q : v3) : Prop := exists z, - (lz / 2) <= z <= lz / 2 /\ dist q (mk3 0 0 z) <= r.
Definition boxset (side : v3) (q : v3) : Prop := forall i, (i < 3)%nat -> - (comp i side / 2) <= comp i q <= comp i side / 2.
Definition cylset (lz rc : R) (q : v3) : Prop := - (lz / 2) <= c2 q <= lz / 2 /\ c0 q * c0 q + c1 q * c1 q <= rc * rc.

(** ** sphere_sphere-inl.h *)
(** sphereSphereIntersect (62-85) *)
Definition ss_intersect (r1 : R) (tf1 : tf) (r2 : R) (tf2 : tf) : option contact :=
  let diff := vsub (tf_tr tf2) (tf_tr tf1) in
  let len := norm diff in
  if Rlt_dec (r1 + r2) len then None
  else Some (mkct (if Rlt_dec 0 len then vscale (/ len) diff else diff)
                  (vadd (tf_tr tf1) (vscale (r1 / (r1 + r2)) diff)) (r1 + r2 - len)).
(** sphereSphereDistance (87-108): distance and the two points, None for "return false" *)
Definition ss_distance (r1 : R) (tf1 : tf) (r2 : R) (tf2 : tf) : option (R * v3 * v3) :=
  let o1 := tf_tr tf1 in let o2 := tf_tr tf2 in
  let diff := vsub o1 o2 in
  let len := norm diff in
  if Rlt_dec (r1 + r2) len then
    Some (len - (r1 + r2), vsub o1 (vscale (r1 / len) diff), vadd o2 (vscale (r2 / len) diff))
  else None.

(** ** sphere_capsule-inl.h *)
(** lineSegmentPointClosestToPoint (69-87) *)
Definition seg_closest (p s1 s2 : v3) : v3 :=
  let v := vsub s2 s1 in let w := vsub p s1 in
  let c1 := dot w v in let c2 := dot v v in
  if Rle_dec c1 0 then s1 else if Rle_dec c2 c1 then s2 else vadd s1 (vscale (c1 / c2) v).
(** Eigen's normalized(): the zero vector is returned unchanged *)
Definition unitize (v : v3) : v3 := if Rlt_dec 0 (norm2 v) then vscale (/ norm v) v else v.
(** sphereCapsuleIntersect (89-121) *)
Definition sc_intersect (r1 : R) (tf1 : tf) (lz r2 : R) (tf2 : tf) : option contact :=
  let s_c := tf_inv_apply tf2 (tf_tr tf1) in
  let sp := seg_closest s_c (mk3 0 0 (lz / 2)) (mk3 0 0 (- (lz / 2))) in
  let diff := vsub s_c sp in
  let distance := norm diff - r1 - r2 in
  if Rlt_dec 0 distance then None
  else let ln := vneg (unitize diff) in
    Some (mkct (mapply (tf_rot tf2) ln) (tf_apply tf2 (vadd sp (vscale distance ln))) (- distance)).
(** sphereCapsuleDistance (123-166) *)
Definition sc_distance (r1 : R) (tf1 : tf) (lz r2 : R) (tf2 : tf) : option (R * v3 * v3) :=
  let s_c := tf_inv_apply tf2 (tf_tr tf1) in
  let sp := seg_closest s_c (mk3 0 0 (lz / 2)) (mk3 0 0 (- (lz / 2))) in
  let diff := vsub s_c sp in
  let distance := norm diff - r1 - r2 in
  if Rle_dec distance 0 then None
  else let u := unitize diff in
    Some (distance, tf_apply tf2 (vsub s_c (vscale r1 u)), tf_apply tf2 (vadd sp (vscale r2 u))).

(** ** sphere_box-inl.h *)
(** nearestPointInBox (73-98): the clamped point and whether anything was clamped *)
Definition clampc (h x : R) : R := if Rlt_dec h x then h else if Rlt_dec x (- h) then - h else x.
Definition clampedc (h x : R) : bool := if Rlt_dec h x then true else if Rlt_dec x (- h) then true else false.
Definition npb (side q : v3) : v3 := mk3 (clampc (c0 side / 2) (c0 q)) (clampc (c1 side / 2) (c1 q)) (clampc (c2 side / 2) (c2 q)).
Definition npb_clamped (side q : v3) : bool := (clampedc (c0 side / 2) (c0 q) || clampedc (c1 side / 2) (c1 q) || clampedc (c2 side / 2) (c2 q))%bool.
(** the face loop of sphereBoxIntersect (156-166); min_distance starts at infinity (None) *)
Definition face_dist (side C : v3) (i : nat) : R :=
  if Rle_dec 0 (comp i C) then comp i side / 2 - comp i C else comp i C + comp i side / 2.
Definition near_face (eps : R) (side C : v3) : option (R * nat) :=
  fold_left (fun m i => let d := face_dist side C i in
      match m with None => Some (d, i) | Some (md, _) => if Rlt_dec (d + eps) md then Some (d, i) else m end) [0; 1; 2]%nat None.
Definition axis_vec (i : nat) (s : R) : v3 := match i with 0%nat => mk3 s 0 0 | 1%nat => mk3 0 s 0 | _ => mk3 0 0 s end.
(** sphereBoxIntersect (101-178); eps stands for 16 * constants<S>::eps() *)
Definition sb_intersect (eps r : R) (tfs : tf) (side : v3) (tfb : tf) : option contact :=
  let C := tf_inv_apply tfb (tf_tr tfs) in
  let N := npb side C in
  let d2 := norm2 (vsub N C) in
  if Rlt_dec (r * r) d2 then None
  else
    let local :=
      if (npb_clamped side C && (if Rlt_dec (eps * eps) d2 then true else false))%bool then
        let d := sqrt d2 in let n := vscale (/ d) (vsub N C) in
        mkct n (vadd N (vscale ((r - d) / 2) n)) (r - d)
      else match near_face eps side C with
           | Some (md, ax) => let n := axis_vec ax (if Rle_dec 0 (comp ax C) then -1 else 1) in
             mkct n (vadd C (vscale ((r - md) / 2) n)) (md + r)
           | None => mkct vzero C 0 end in
    Some (mkct (mapply (tf_rot tfb) (cnorm local)) (tf_apply tfb (cpos local)) (cdepth local)).
(** sphereBoxDistance (182-225) *)
Definition sb_distance (r : R) (tfs : tf) (side : v3) (tfb : tf) : option (R * v3 * v3) :=
  let C := tf_inv_apply tfb (tf_tr tfs) in
  let N := npb side C in
  if npb_clamped side C then
    let NC := vsub C N in let d2 := norm2 NC in
    if Rlt_dec (r * r) d2 then
      let d := sqrt d2 in
      Some (d - r, tf_apply tfb (vadd (vscale (d - r) (vscale (/ d) NC)) N), tf_apply tfb N)
    else None
  else None.

(** ** sphere_cylinder-inl.h *)
(** nearestPointInCylinder (78-110) *)
Definition npc (h rc : R) (q : v3) : v3 :=
  let z := if Rlt_dec (h / 2) (c2 q) then h / 2 else if Rlt_dec (c2 q) (- (h / 2)) then - (h / 2) else c2 q in
  let d2 := c0 q * c0 q + c1 q * c1 q in
  if Rlt_dec (rc * rc) d2 then mk3 (rc / sqrt d2 * c0 q) (rc / sqrt d2 * c1 q) z else mk3 (c0 q) (c1 q) z.
Definition npc_clamped (h rc : R) (q : v3) : bool :=
  ((if Rlt_dec (h / 2) (c2 q) then true else if Rlt_dec (c2 q) (- (h / 2)) then true else false) ||
   (if Rlt_dec (rc * rc) (c0 q * c0 q + c1 q * c1 q) then true else false))%bool.
(** sphereCylinderIntersect (114-217) *)
Definition sy_intersect (eps r : R) (tfs : tf) (h rc : R) (tfc : tf) : option contact :=
  let C := tf_inv_apply tfc (tf_tr tfs) in
  let N := npc h rc C in
  let d2 := norm2 (vsub N C) in
  if Rlt_dec (r * r) d2 then None
  else
    let local :=
      if (npc_clamped h rc C && (if Rlt_dec (eps * eps) d2 then true else false))%bool then
        let d := sqrt d2 in let n := vscale (/ d) (vsub N C) in
        mkct n (vadd N (vscale ((r - d) / 2) n)) (r - d)
      else
        let fd := if Rle_dec 0 (c2 C) then h / 2 - c2 C else c2 C + h / 2 in
        let dxy := sqrt (c0 C * c0 C + c1 C * c1 C) in
        let bd := rc - dxy in
        if Rlt_dec bd (fd - eps) then
          if Rlt_dec eps dxy then
            let n := mk3 (- c0 C / dxy) (- c1 C / dxy) 0 in mkct n (vadd C (vscale ((r - bd) / 2) n)) (r + bd)
          else let n := mk3 (-1) 0 0 in mkct n (vadd C (vscale ((r - bd) / 2) n)) (r + rc)
        else let n := mk3 0 0 (if Rle_dec 0 (c2 C) then -1 else 1) in mkct n (vadd C (vscale ((r - fd) / 2) n)) (fd + r) in
    Some (mkct (mapply (tf_rot tfc) (cnorm local)) (tf_apply tfc (cpos local)) (cdepth local)).
(** sphereCylinderDistance (221-268) *)
Definition sy_distance (r : R) (tfs : tf) (h rc : R) (tfc : tf) : option (R * v3 * v3) :=
  let C := tf_inv_apply tfc (tf_tr tfs) in
  let N := npc h rc C in
  if npc_clamped h rc C then
    let NS := vsub C N in let d2 := norm2 NS in
    if Rlt_dec (r * r) d2 then
      let d := sqrt d2 in
      Some (d - r, tf_apply tfc (vsub C (vscale (/ d) (vscale r NS))), tf_apply tfc N)
    else None
  else None.

(** ** capsule_capsule-inl.h *)
(** clamp (69-75) *)
Definition clamp (n lo hi : R) : R := if Rlt_dec n lo then lo else if Rlt_dec hi n then hi else n.
(** closestPtSegmentSegment (78-147): the two parameters; k stands for constants<S>::eps_78() *)
Definition segseg (k : R) (P1 Q1 P2 Q2 : v3) : R * R :=
  let D1 := vsub Q1 P1 in let D2 := vsub Q2 P2 in let W := vsub P1 P2 in
  let a := dot D1 D1 in let e := dot D2 D2 in let f := dot D2 W in
  if Rle_dec a (k * k) then
    if Rle_dec e (k * k) then (0, 0) else (0, clamp (f / e) 0 1)
  else
    let c := dot D1 W in
    if Rle_dec e (k * k) then (clamp (- c / a) 0 1, 0)
    else
      let b := dot D1 D2 in
      let denom := Rmax 0 (a * e - b * b) in
      let s := if Rlt_dec (k * k) denom then clamp ((b * f - c * e) / denom) 0 1 else 0 in
      let t := (b * s + f) / e in
      if Rlt_dec t 0 then (clamp (- c / a) 0 1, 0)
      else if Rlt_dec 1 t then (clamp ((b - c) / a) 0 1, 1)
      else (s, t).
Definition seg_at (P Q : v3) (s : R) : v3 := vadd P (vscale s (vsub Q P)).
Definition segseg_sq (k : R) (P1 Q1 P2 Q2 : v3) : R :=
  let '(s, t) := segseg k P1 Q1 P2 Q2 in norm2 (vsub (seg_at P1 Q1 s) (seg_at P2 Q2 t)).
(** capsuleCapsuleDistance (157-238): distance and witness points *)
Definition cap_end (lz : R) (X : tf) (sg : R) : v3 := vadd (tf_tr X) (vscale (sg * (lz / 2)) (col 2 (tf_rot X))).
Definition cc_distance (k : R) (lz1 r1 : R) (X1 : tf) (lz2 r2 : R) (X2 : tf) : R * v3 * v3 :=
  let P1 := cap_end lz1 X1 1 in let Q1 := cap_end lz1 X1 (-1) in
  let P2 := cap_end lz2 X2 1 in let Q2 := cap_end lz2 X2 (-1) in
  let '(s, t) := segseg k P1 Q1 P2 Q2 in
  let N1 := seg_at P1 Q1 s in let N2 := seg_at P2 Q2 t in
  let sdist := sqrt (norm2 (vsub N1 N2)) in
  let z1 := col 2 (tf_rot X1) in let z2 := col 2 (tf_rot X2) in
  let v := if Rlt_dec k sdist then vscale (/ sdist) (vsub N2 N1)
           else if Rlt_dec (Rabs (dot z1 z2)) (1 - k) then unitize (cross z1 z2)
           else col 0 (tf_rot X1) in
  (sdist - r1 - r2, vadd N1 (vscale r1 v), vsub N2 (vscale r2 v)).

(** ** General lemmas *)
Definition near (K : v3 -> Prop) (p n : v3) : Prop := K n /\ forall q, K q -> dist n p <= dist q p.
Definition convex (K : v3 -> Prop) : Prop := forall p q t, K p -> K q -> 0 <= t <= 1 -> K (vadd p (vscale t (vsub q p))).
(** the least distance of two sets, attained *)
Definition true_dist (A B : v3 -> Prop) (d : R) (p1 p2 : v3) : Prop :=
  A p1 /\ B p2 /\ dist p1 p2 = d /\ forall a b, A a -> B b -> d <= dist a b.

Lemma near_meet : forall K c r n, near K c n -> ((exists q, K q /\ ball c r q) <-> dist n c <= r).
Proof.
  intros K c r n [Kn M]. split; [intros (q & Kq & B); unfold ball in B; specialize (M q Kq); lra|].
  intros H. exists n. split; [exact Kn|exact H].
Qed.
Lemma near_dist : forall K c r n, near K c n -> 0 <= r -> r < dist n c ->
  true_dist (ball c r) K (dist n c - r) (vadd c (vscale (r / dist n c) (vsub n c))) n.
Proof.
  intros K c r n [Kn M] Hr H. set (d := dist n c) in *. assert (Hd : 0 < d) by lra.
  assert (N : norm (vsub n c) = d) by reflexivity.
  assert (F : 0 <= r / d <= 1). { split; [apply Rmult_le_pos; [lra|apply Rlt_le, Rinv_0_lt_compat; lra]|]. apply Rmult_le_reg_r with d; [lra|]. unfold Rdiv. rewrite Rmult_assoc, Rinv_l by lra. lra. }
  split; [|split; [exact Kn|split]].
  - unfold ball, dist. replace (vsub (vadd c (vscale (r / d) (vsub n c))) c) with (vscale (r / d) (vsub n c)) by vring. rewrite norm_scale, N, Rabs_right by lra. replace (r / d * d) with r by (field; lra). lra.
  - unfold dist. replace (vsub (vadd c (vscale (r / d) (vsub n c))) n) with (vscale (- (1 - r / d)) (vsub n c)) by vring. rewrite norm_scale, N, Rabs_Ropp, Rabs_right by lra. field. lra.
  - intros a b Ha Kb. specialize (M b Kb). fold d in M. unfold ball in Ha. pose proof (dist_triangle b a c). rewrite (dist_sym b a) in H0. lra.
Qed.
Lemma near_placed : forall X K c n, ortho (tf_rot X) -> near K (tf_inv_apply X c) n -> near (placed X K) c (tf_apply X n).
Proof.
  intros X K c n O [Kn M]. split; [exists n; split; [exact Kn|reflexivity]|]. intros q (q0 & Kq & ->).
  rewrite <- (tf_inv_right X c O) at 1 2. rewrite !tf_dist by exact O. apply M, Kq.
Qed.
Lemma placed_dist : forall X c n, ortho (tf_rot X) -> dist (tf_apply X n) c = dist n (tf_inv_apply X c).
Proof. intros X c n O. rewrite <- (tf_inv_right X c O) at 1. apply tf_dist, O. Qed.

Lemma convex_var : forall K p n q, convex K -> near K p n -> K q -> dot (vsub q n) (vsub p n) <= 0.
Proof.
  intros K p n q C [Kn M] Kq. apply Rnot_lt_le. intros L.
  set (g := dot (vsub q n) (vsub p n)) in *. set (m := norm2 (vsub q n)).
  assert (Hm : 0 <= m) by apply norm2_nonneg.
  assert (Main : forall t, 0 <= t <= 1 -> 2 * t * g <= t * t * m).
  { intros t Ht. specialize (M _ (C n q t Kn Kq Ht)). unfold dist in M. assert (M2 : norm2 (vsub n p) <= norm2 (vsub (vadd n (vscale t (vsub q n))) p)).
    { rewrite <- !norm_sq. pose proof (norm_nonneg (vsub n p)). apply Rmult_le_compat; lra. }
    replace (norm2 (vsub (vadd n (vscale t (vsub q n))) p)) with (norm2 (vsub n p) - 2 * t * g + t * t * m) in M2 by (unfold g, m; vring). lra. }
  assert (Hmp : 0 < m). { specialize (Main 1 ltac:(lra)). lra. }
  destruct (Rle_dec m g) as [A|A].
  - specialize (Main 1 ltac:(lra)). lra.
  - assert (T : 0 < g / m < 1). { split; [apply Rdiv_lt_0_compat; lra|]. apply Rmult_lt_reg_r with m; [lra|]. unfold Rdiv. rewrite Rmult_assoc, Rinv_l; lra. }
    specialize (Main (g / m) ltac:(lra)). replace (g / m * (g / m) * m) with (g / m * g) in Main by (field; lra). assert (0 < g / m * g) by (apply Rmult_lt_0_compat; lra). lra.
Qed.
Lemma var_near : forall (K : v3 -> Prop) p n, K n -> (forall q, K q -> dot (vsub q n) (vsub p n) <= 0) -> near K p n.
Proof.
  intros K p n Kn V. split; [exact Kn|]. intros q Kq. specialize (V q Kq). unfold dist. apply norm_mono.
  replace (norm2 (vsub q p)) with (norm2 (vsub n p) + norm2 (vsub q n) - 2 * dot (vsub q n) (vsub p n)) by vring. pose proof (norm2_nonneg (vsub q n)). lra.
Qed.
(** pushing p away from a convex set along p - n keeps n nearest *)
Lemma push_near : forall K p n k, convex K -> near K p n -> 0 <= k -> near K (vadd n (vscale k (vsub p n))) n.
Proof.
  intros K p n k C Nr Hk. apply var_near; [apply Nr|]. intros q Kq. pose proof (convex_var K p n q C Nr Kq) as V.
  replace (vsub (vadd n (vscale k (vsub p n))) n) with (vscale k (vsub p n)) by vring. rewrite dot_scale_r. nra.
Qed.

Lemma seg_convex : forall a b, convex (segset a b).
Proof.
  intros a b p q t (s & Hs & ->) (s' & Hs' & ->) Ht. exists ((1 - t) * s + t * s'). split.
  - assert (0 <= (1 - t) * s) by (apply Rmult_le_pos; lra). assert (0 <= t * s') by (apply Rmult_le_pos; lra).
    assert (0 <= (1 - t) * (1 - s)) by (apply Rmult_le_pos; lra). assert (0 <= t * (1 - s')) by (apply Rmult_le_pos; lra). lra.
  - vring.
Qed.
Lemma box_convex : forall side, convex (boxset side).
Proof.
  intros side p q t Hp Hq Ht i Hi. specialize (Hp i Hi). specialize (Hq i Hi).
  replace (comp i (vadd p (vscale t (vsub q p)))) with ((1 - t) * comp i p + t * comp i q) by (destruct i as [|[|i]]; cbn; ring).
  set (h := comp i side / 2) in *. assert (0 <= (1 - t) * (h - comp i p)) by (apply Rmult_le_pos; lra). assert (0 <= t * (h - comp i q)) by (apply Rmult_le_pos; lra).
  assert (0 <= (1 - t) * (comp i p + h)) by (apply Rmult_le_pos; lra). assert (0 <= t * (comp i q + h)) by (apply Rmult_le_pos; lra). lra.
Qed.
Lemma cs2 : forall a b c d u v, 0 <= u -> 0 <= v -> a * a + b * b <= u * u -> c * c + d * d <= v * v -> a * c + b * d <= u * v.
Proof.
  intros a b c d u v Hu Hv H1 H2. apply sq_le; [apply Rmult_le_pos; lra|].
  assert ((a * c + b * d) * (a * c + b * d) <= (a * a + b * b) * (c * c + d * d)). { pose proof (Rle_0_sqr (a * d - b * c)) as Q. unfold Rsqr in Q. lra. }
  assert (0 <= a * a + b * b) by (pose proof (Rle_0_sqr a); pose proof (Rle_0_sqr b); unfold Rsqr in *; lra).
  assert (0 <= c * c + d * d) by (pose proof (Rle_0_sqr c); pose proof (Rle_0_sqr d); unfold Rsqr in *; lra).
  assert ((a * a + b * b) * (c * c + d * d) <= (u * u) * (v * v)) by (apply Rmult_le_compat; lra). lra.
Qed.
Lemma cyl_convex : forall h rc, 0 <= rc -> convex (cylset h rc).
Proof.
  intros h rc HR [x y z] [x' y' z'] t [Hz Hp] [Hz' Hq] Ht. cbn in *. split; cbn.
  - assert (0 <= (1 - t) * (h / 2 - z)) by (apply Rmult_le_pos; lra). assert (0 <= t * (h / 2 - z')) by (apply Rmult_le_pos; lra).
    assert (0 <= (1 - t) * (z + h / 2)) by (apply Rmult_le_pos; lra). assert (0 <= t * (z' + h / 2)) by (apply Rmult_le_pos; lra). lra.
  - pose proof (cs2 x y x' y' rc rc HR HR Hp Hq) as X.
    replace ((x + t * (x' - x)) * (x + t * (x' - x)) + (y + t * (y' - y)) * (y + t * (y' - y))) with ((1 - t) * (1 - t) * (x * x + y * y) + 2 * ((1 - t) * t) * (x * x' + y * y') + t * t * (x' * x' + y' * y')) by ring.
    assert (0 <= (1 - t) * t) by (apply Rmult_le_pos; lra).
    assert ((1 - t) * (1 - t) * (x * x + y * y) <= (1 - t) * (1 - t) * (rc * rc)) by (apply Rmult_le_compat_l; [apply Rle_0_sqr|lra]).
    assert (2 * ((1 - t) * t) * (x * x' + y * y') <= 2 * ((1 - t) * t) * (rc * rc)) by (apply Rmult_le_compat_l; lra).
    assert (t * t * (x' * x' + y' * y') <= t * t * (rc * rc)) by (apply Rmult_le_compat_l; [apply Rle_0_sqr|lra]). lra.
Qed.

(** nearest points *)
Lemma seg_closest_near : forall p a b, near (segset a b) p (seg_closest p a b).
Proof.
  intros p a b. unfold seg_closest. cbv zeta. set (v := vsub b a). set (w := vsub p a). set (g := dot w v). set (l := dot v v). fold (norm2 v) in l. assert (Hl : 0 <= l) by apply norm2_nonneg.
  assert (Q : forall s u, dot (vsub (vadd a (vscale s v)) (vadd a (vscale u v))) (vsub p (vadd a (vscale u v))) = (s - u) * (g - u * l)) by (intros; unfold g, l, w; vring).
  destruct (Rle_dec g 0) as [A|A].
  - apply var_near; [exists 0; split; [lra|vring]|]. intros q (s & Hs & ->). fold v. specialize (Q s 0). replace (vadd a (vscale 0 v)) with a in Q by vring. rewrite Q. nra.
  - destruct (Rle_dec l g) as [B|B].
    + apply var_near; [exists 1; split; [lra|vring]|]. intros q (s & Hs & ->). fold v. specialize (Q s 1). replace (vadd a (vscale 1 v)) with b in Q by (unfold v; vring). rewrite Q. nra.
    + apply var_near.
      * exists (g / l). split; [split; [apply Rlt_le, Rdiv_lt_0_compat; lra|]|reflexivity]. apply Rmult_le_reg_r with l; [lra|]. unfold Rdiv. rewrite Rmult_assoc, Rinv_l; lra.
      * intros q (s & Hs & ->). fold v. rewrite Q. replace (g / l * l) with g by (field; lra). lra.
Qed.
Lemma clampc_spec : forall h x, 0 <= h -> - h <= clampc h x <= h /\ forall y, - h <= y <= h -> (y - clampc h x) * (x - clampc h x) <= 0.
Proof.
  intros h x Hh. unfold clampc. destruct (Rlt_dec h x); [split; [lra|intros; nra]|]. destruct (Rlt_dec x (- h)); [split; [lra|intros; nra]|]. split; [lra|]. intros. nra.
Qed.
Lemma clampedc_spec : forall h x, clampedc h x = false -> clampc h x = x /\ - h <= x <= h.
Proof. intros h x. unfold clampedc, clampc. destruct (Rlt_dec h x); [discriminate|]. destruct (Rlt_dec x (- h)); [discriminate|]. intros _. split; [reflexivity|lra]. Qed.
Definition posside (side : v3) : Prop := 0 <= c0 side /\ 0 <= c1 side /\ 0 <= c2 side.
Lemma npb_near : forall side q, posside side -> near (boxset side) q (npb side q).
Proof.
  intros side q (H0 & H1 & H2).
  destruct (clampc_spec (c0 side / 2) (c0 q) ltac:(lra)) as [B0 V0]. destruct (clampc_spec (c1 side / 2) (c1 q) ltac:(lra)) as [B1 V1]. destruct (clampc_spec (c2 side / 2) (c2 q) ltac:(lra)) as [B2 V2].
  apply var_near.
  - intros [|[|[|i]]] Hi; try lia; unfold npb; cbn; assumption.
  - intros y Hy. pose proof (V0 _ (Hy 0%nat ltac:(lia))). pose proof (V1 _ (Hy 1%nat ltac:(lia))). pose proof (V2 _ (Hy 2%nat ltac:(lia))). unfold dot, vsub, npb. cbn in *. lra.
Qed.
Lemma npb_not_clamped : forall side q, npb_clamped side q = false -> npb side q = q /\ boxset side q.
Proof.
  intros side q H. unfold npb_clamped in H. apply Bool.orb_false_iff in H. destruct H as [H H2]. apply Bool.orb_false_iff in H. destruct H as [H0 H1].
  apply clampedc_spec in H0. apply clampedc_spec in H1. apply clampedc_spec in H2. split.
  - unfold npb. destruct q. cbn in *. f_equal; tauto.
  - intros [|[|[|i]]] Hi; try lia; cbn; tauto.
Qed.
Lemma npc_near : forall h rc q, 0 <= h -> 0 <= rc -> near (cylset h rc) q (npc h rc q).
Proof.
  intros h rc q Hh HR. destruct q as [x y z]. unfold npc. cbn [c0 c1 c2]. cbv zeta. fold (clampc (h / 2) z).
  destruct (clampc_spec (h / 2) z ltac:(lra)) as [Bz Vz]. set (zz := clampc (h / 2) z) in *. set (d2 := x * x + y * y).
  assert (Hd : 0 <= d2) by (unfold d2; pose proof (Rle_0_sqr x); pose proof (Rle_0_sqr y); unfold Rsqr in *; lra).
  destruct (Rlt_dec (rc * rc) d2) as [L|L].
  - assert (Hp : 0 < d2) by (pose proof (Rle_0_sqr rc) as Q; unfold Rsqr in Q; lra). assert (Sp : 0 < sqrt d2) by (apply sqrt_lt_R0; lra). assert (Sq : sqrt d2 * sqrt d2 = d2) by (apply sqrt_sqrt; lra).
    set (s := sqrt d2) in *. assert (Rs : rc < s). { apply Rnot_le_lt. intros G. assert (s * s <= rc * rc) by (apply Rmult_le_compat; lra). lra. }
    apply var_near.
    + split; cbn; [lra|]. replace (rc / s * x * (rc / s * x) + rc / s * y * (rc / s * y)) with (rc * rc * d2 / (s * s)) by (unfold d2; field; lra). rewrite Sq. right. field. lra.
    + intros [a b c] [Hz Ha]. cbn in Hz, Ha. unfold dot, vsub. cbn. specialize (Vz c Hz).
      assert (X : a * x + b * y <= rc * s) by (apply cs2; unfold d2 in *; lra).
      assert (E : (a - rc / s * x) * (x - rc / s * x) + (b - rc / s * y) * (y - rc / s * y) = (1 - rc / s) * (a * x + b * y - rc / s * d2)) by (unfold d2; ring).
      assert (E2 : rc / s * d2 = rc * s) by (rewrite <- Sq; field; lra). rewrite E2 in E.
      assert (0 <= 1 - rc / s). { assert (rc / s <= 1); [|lra]. apply Rmult_le_reg_r with s; [lra|]. unfold Rdiv. rewrite Rmult_assoc, Rinv_l; lra. }
      assert (0 <= (1 - rc / s) * (rc * s - (a * x + b * y))) by (apply Rmult_le_pos; lra). lra.
  - apply var_near; [split; cbn; [lra|unfold d2 in L; lra]|]. intros [a b c] [Hz Ha]. cbn in Hz. unfold dot, vsub. cbn. specialize (Vz c Hz). lra.
Qed.
Lemma npc_not_clamped : forall h rc q, npc_clamped h rc q = false -> npc h rc q = q /\ cylset h rc q.
Proof.
  intros h rc [x y z]. unfold npc_clamped, npc, cylset. cbn [c0 c1 c2]. destruct (Rlt_dec (h / 2) z); [discriminate|]. destruct (Rlt_dec z (- (h / 2))); [discriminate|].
  destruct (Rlt_dec (rc * rc) (x * x + y * y)); [discriminate|]. intros _. split; [reflexivity|lra].
Qed.
