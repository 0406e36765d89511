(** Queries against half-spaces and planes:
    include/fcl/narrowphase/detail/primitive_shape_algorithm/halfspace-inl.h and plane-inl.h.
    Results are [Some contact] / [None] for true with one contact / false; a function called
    without a contact vector takes the same branches unless modelled separately. *)
From Coq Require Import Reals Lra Lia List Bool.
From Verif Require Import VecR Motion Prim AabbDist ShapeBV HalfBV.
Import ListNotations.
Open Scope R_scope.

(** signedDistance, distance (halfspace-inl.h 83-93, plane-inl.h) *)
Definition sd (h : flat) (p : v3) : R := dot (fn h) p - fd h.
(** Products of poses: Eigen's operator* and inverse() of an isometry *)
Definition tf_mul (A B : tf) : tf := mktf (mmul (tf_rot A) (tf_rot B)) (tf_apply A (tf_tr B)).
Definition mtrans (A : mat3) : mat3 :=
  mkm (mk3 (c0 (m0 A)) (c0 (m1 A)) (c0 (m2 A))) (mk3 (c1 (m0 A)) (c1 (m1 A)) (c1 (m2 A))) (mk3 (c2 (m0 A)) (c2 (m1 A)) (c2 (m2 A))).
Definition tf_inverse (A : tf) : tf := mktf (mtrans (tf_rot A)) (vneg (mtapply (tf_rot A) (tf_tr A))).
Definition mul3 (a b : v3) : v3 := mk3 (c0 a * c0 b) (c1 a * c1 b) (c2 a * c2 b).
Definition tr := tf_tr.

Section Tolerance.
(** halfspaceIntersectTolerance / planeIntersectTolerance (src/.../halfspace.cpp 48-59, plane.cpp
    47-58): 1e-7 for double, 1e-4 for float. *)
Variable tol : R.

(** ** Half-spaces; [h] is transform(s2, tf2) unless said otherwise. *)

(** sphereHalfspaceIntersect (halfspace-inl.h 154-181) *)
Definition sphere_half (r : R) (X : tf) (h : flat) : option contact :=
  let depth := r - sd h (tr X) in
  if Rle_dec 0 depth then
    Some (mkct (vneg (fn h)) (vadd (vsub (tr X) (vscale r (fn h))) (vscale (depth * (1/2)) (fn h))) depth)
  else None.

(** ellipsoidHalfspaceIntersect (183-222): the half-space is transformed to the frame of the
    ellipsoid. *)
Definition support2 (radii n : v3) : R := sqrt (dot (mul3 n n) (mul3 radii radii)).
Definition ell_half (radii : v3) (X : tf) (s : flat) (X2 : tf) : option contact :=
  let h := flat_transform s (tf_mul (tf_inverse X) X2) in
  let cc := support2 radii (fn h) in
  let depth := cc + fd h in
  if Rle_dec 0 depth then
    let sv := vscale (1 / cc) (mul3 (mul3 radii radii) (fn h)) in
    Some (mkct (mapply (tf_rot X) (vneg (fn h)))
               (tf_apply X (vscale (1/2 * depth / dot (fn h) sv - 1) sv)) depth)
  else None.

(** boxHalfspaceIntersect without (225-240) and with contacts (243-311) *)
Definition box_reach (side Q : v3) : R := 1/2 * (Rabs (c0 Q * c0 side) + Rabs (c1 Q * c1 side) + Rabs (c2 Q * c2 side)).
Definition box_half_test (side : v3) (X : tf) (h : flat) : bool :=
  if Rle_dec 0 (box_reach side (mtapply (tf_rot X) (fn h)) - sd h (tr X)) then true else false.
Definition one (q : R) : bool := (if Rlt_dec (Rabs (q - 1)) tol then true else false) || (if Rlt_dec (Rabs (q + 1)) tol then true else false).
Definition away (a : R) : R := if Rlt_dec 0 a then -1 else 1.
(** the vertex (or face centre) chosen; [g] is 1 for half-spaces (268-298) and the side of the
    centre for planes (plane-inl.h 219-253) *)
Definition box_deep (side : v3) (X : tf) (Q : v3) (g : R) : v3 :=
  let A := mul3 Q side in
  let along i := vscale (1/2 * comp i side * (away (comp i A) * g)) (col i (tf_rot X)) in
  if one (c0 Q) then vadd (tr X) (along 0%nat)
  else if one (c1 Q) then vadd (tr X) (along 1%nat)
  else if one (c2 Q) then vadd (tr X) (along 2%nat)
  else vadd (vadd (vadd (tr X) (along 0%nat)) (along 1%nat)) (along 2%nat).
Definition box_half (side : v3) (X : tf) (h : flat) : option contact :=
  let Q := mtapply (tf_rot X) (fn h) in
  let depth := box_reach side Q - sd h (tr X) in
  if Rlt_dec depth 0 then None
  else Some (mkct (vneg (fn h)) (vadd (box_deep side X Q 1) (vscale (depth * (1/2)) (fn h))) depth).

(** capsuleHalfspaceIntersect (314-364) *)
Definition small (x : R) : bool := if Rlt_dec (Rabs x) tol then true else false.
Definition capsule_half (lz r : R) (X : tf) (h : flat) : option contact :=
  let z := m2 (tf_rot X) in
  let cosa := dot z (fn h) in
  if small cosa then
    let depth := r - sd h (tr X) in
    if Rlt_dec depth 0 then None
    else Some (mkct (vneg (fn h)) (vadd (tr X) (vscale (1/2 * depth - r) (fn h))) depth)
  else
    let p := vadd (tr X) (vscale (lz * (1/2) * away cosa) z) in
    let depth := r - sd h p in
    if Rlt_dec depth 0 then None
    else Some (mkct (vneg (fn h)) (vadd (vsub p (vscale r (fn h))) (vscale (1/2 * depth) (fn h))) depth).

(** The vector from the axis to the rim (396-404 and repeated in the other functions); its
    length is the radius. *)
Definition rim (r cosa : R) (z n : v3) : v3 :=
  if small (cosa + 1) || small (cosa - 1) then vzero
  else let C := vsub (vscale cosa z) n in vscale (r / norm C) C.
(** cylinderHalfspaceIntersect (367-428) *)
Definition cyl_half (lz r : R) (X : tf) (h : flat) : option contact :=
  let z := m2 (tf_rot X) in
  let cosa := dot z (fn h) in
  if small cosa then
    let depth := r - sd h (tr X) in
    if Rlt_dec depth 0 then None
    else Some (mkct (vneg (fn h)) (vadd (tr X) (vscale (1/2 * depth - r) (fn h))) depth)
  else
    let p := vadd (vadd (tr X) (vscale (lz * (1/2) * away cosa) z)) (rim r cosa z (fn h)) in
    let depth := - sd h p in
    if Rlt_dec depth 0 then None
    else Some (mkct (vneg (fn h)) (vadd p (vscale (1/2 * depth) (fn h))) depth).

(** coneHalfspaceIntersect (431-496); the first test has no absolute value (444) *)
Definition cone_half (lz r : R) (X : tf) (h : flat) : option contact :=
  let z := m2 (tf_rot X) in
  let cosa := dot z (fn h) in
  if Rlt_dec cosa tol then
    let depth := r - sd h (tr X) in
    if Rlt_dec depth 0 then None
    else Some (mkct (vneg (fn h)) (vadd (vsub (tr X) (vscale (lz * (1/2)) z)) (vscale (1/2 * depth - r) (fn h))) depth)
  else
    let p1 := vadd (tr X) (vscale (1/2 * lz) z) in
    let p2 := vadd (vsub (tr X) (vscale (1/2 * lz) z)) (rim r cosa z (fn h)) in
    let d1 := sd h p1 in let d2 := sd h p2 in
    if Rlt_dec 0 d1 then if Rlt_dec 0 d2 then None else
      Some (mkct (vneg (fn h)) (vadd (if Rlt_dec d1 d2 then p1 else p2) (vscale (1/2 * - Rmin d1 d2) (fn h))) (- Rmin d1 d2))
    else Some (mkct (vneg (fn h)) (vadd (if Rlt_dec d1 d2 then p1 else p2) (vscale (1/2 * - Rmin d1 d2) (fn h))) (- Rmin d1 d2)).

(** convexHalfspaceIntersect (545-582), with contacts; [big] is numeric_limits::max().  The state
    is the least signed distance and its vertex. *)
Definition deep_step (h : flat) (st : R * v3) (v : v3) : R * v3 :=
  if Rlt_dec (sd h v) (fst st) then (sd h v, v) else st.
Definition convex_half (big : R) (vs : list v3) (X : tf) (s : flat) (X2 : tf) : option contact :=
  let h := flat_transform s (tf_mul (tf_inverse X) X2) in
  let st := fold_left (deep_step h) vs (big, vzero) in
  if Rle_dec (fst st) 0 then
    let n := mapply (tf_rot X2) (fn s) in
    Some (mkct (vneg n) (vadd (tf_apply X (snd st)) (vscale (1/2 * - fst st) n)) (- fst st))
  else None.
(** without contacts: stops at the first vertex inside (567) *)
Fixpoint convex_half_scan (h : flat) (vs : list v3) (m : R) : bool :=
  match vs with
  | [] => if Rle_dec m 0 then true else false
  | v :: vs => if Rlt_dec (sd h v) m then if Rle_dec (sd h v) 0 then true else convex_half_scan h vs (sd h v)
               else convex_half_scan h vs m
  end.
Definition convex_half_test (big : R) (vs : list v3) (X : tf) (s : flat) (X2 : tf) : bool :=
  convex_half_scan (flat_transform s (tf_mul (tf_inverse X) X2)) vs big.

(** halfspaceTriangleIntersect (585-620): normal, point, depth as written through the pointers;
    the normal is the half-space's own. *)
Definition tri_half (h : flat) (P1 P2 P3 : v3) (X : tf) : option contact :=
  let v := tf_apply X P1 in
  let st := deep_step h (deep_step h (sd h v, v) (tf_apply X P2)) (tf_apply X P3) in
  if Rle_dec (fst st) 0 then Some (mkct (fn h) (vsub (snd st) (vscale (1/2 * fst st) (fn h))) (- fst st)) else None.

(** planeHalfspaceIntersect (623-676) and halfspaceIntersect (690-745): only the boolean result;
    [eps] is numeric_limits::epsilon() *)
Definition plane_half_test (eps : R) (a b : flat) : bool :=
  if Rlt_dec (norm2 (cross (fn a) (fn b))) eps then
    if Rlt_dec 0 (dot (fn a) (fn b)) then (if Rlt_dec (fd a) (fd b) then true else false)
    else if Rlt_dec 0 (fd a + fd b) then false else true
  else true.
Definition half_half_test (eps : R) (a b : flat) : bool :=
  if Rlt_dec (norm2 (cross (fn a) (fn b))) eps then
    if Rlt_dec 0 (dot (fn a) (fn b)) then true
    else if Rlt_dec 0 (fd a + fd b) then false else true
  else true.

(** The line both functions return when the normals are not parallel (666-675, 735-744) *)
Definition cross_line (a b : flat) : v3 * v3 :=
  let dir := cross (fn a) (fn b) in
  let n := vsub (vscale (fd a) (fn b)) (vscale (fd b) (fn a)) in
  (vscale (1 / norm2 dir) (cross n dir), dir).

(** ** Planes *)
Definition facing (b : bool) (n : v3) : v3 := if b then vneg n else n.
Definition pos (x : R) : bool := if Rlt_dec 0 x then true else false.
Definition neg (x : R) : bool := if Rlt_dec x 0 then true else false.

(** spherePlaneIntersect (plane-inl.h 121-151) *)
Definition sphere_plane (r : R) (X : tf) (h : flat) : option contact :=
  let d := sd h (tr X) in
  let depth := - Rabs d + r in
  if Rle_dec 0 depth then Some (mkct (facing (pos d) (fn h)) (vsub (tr X) (vscale d (fn h))) depth) else None.

(** ellipsoidPlaneIntersect (152-193) *)
Definition ell_plane (radii : v3) (X : tf) (s : flat) (X2 : tf) : option contact :=
  let h := flat_transform s (tf_mul (tf_inverse X) X2) in
  let cc := support2 radii (fn h) in
  let d := - fd h in
  let depth := cc - Rabs d in
  if Rle_dec 0 depth then
    let sv := vscale (1 / cc) (mul3 (mul3 radii radii) (fn h)) in
    let pt := vscale (depth / dot (fn h) sv - 1) sv in
    Some (mkct (if pos d then mapply (tf_rot X) (vneg (fn h)) else mapply (tf_rot X) (fn h))
               (if pos d then tf_apply X pt else tf_apply X (vneg pt)) depth)
  else None.

(** boxPlaneIntersect (196-265) *)
Definition box_plane (side : v3) (X : tf) (h : flat) : option contact :=
  let Q := mtapply (tf_rot X) (fn h) in
  let d := sd h (tr X) in
  let depth := box_reach side Q - Rabs d in
  if Rlt_dec depth 0 then None
  else let p := box_deep side X Q (if Rlt_dec 0 d then 1 else -1) in
    Some (mkct (facing (pos d) (fn h)) (vsub p (vscale (sd h p) (fn h))) depth).

(** capsulePlaneIntersect without (268-290) and with contacts (293-388) *)
Definition capsule_ends (lz : R) (X : tf) : v3 * v3 :=
  let z := m2 (tf_rot X) in (vadd (tr X) (vscale (1/2 * lz) z), vsub (tr X) (vscale (1/2 * lz) z)).
Definition capsule_plane_test (lz r : R) (X : tf) (h : flat) : bool :=
  let (p1, p2) := capsule_ends lz X in
  let d1 := sd h p1 in let d2 := sd h p2 in
  if Rle_dec (d1 * d2) 0 then true
  else (if Rle_dec (Rabs d1) r then true else false) || (if Rle_dec (Rabs d2) r then true else false).
Definition capsule_plane (lz r : R) (X : tf) (h : flat) : option contact :=
  let (p1, p2) := capsule_ends lz X in
  let d1 := sd h p1 in let d2 := sd h p2 in
  let a1 := Rabs d1 in let a2 := Rabs d2 in
  let n := fn h in
  if Rlt_dec (d1 * d2) (- tol) then
    let point := vadd (vscale (a2 / (a1 + a2)) p1) (vscale (a1 / (a1 + a2)) p2) in
    if Rlt_dec a1 a2 then Some (mkct (facing (neg d1) n) point (a1 + r))
    else Some (mkct (facing (neg d2) n) point (a2 + r))
  else
    let far x := if Rlt_dec r x then true else false in
    if far a1 && far a2 then None
    else
      let point :=
        if negb (far a1) && negb (far a2) then vscale (1/2) (vadd (vsub p1 (vscale d2 n)) (vsub p2 (vscale d1 n)))
        else if negb (far a1) then vsub p1 (vscale d1 n) else vsub p2 (vscale d2 n) in
      Some (mkct (facing (negb (neg d1)) n) point (r - Rmin a1 a2)).

(** cylinderPlaneIntersect without (391-410; the length is not halved, 402) and with contacts
    (413-515) *)
Definition cyl_plane_test (lz r : R) (X : tf) (h : flat) : bool :=
  let Q := mtapply (tf_rot X) (fn h) in
  let term := Rabs (c2 Q) * lz + r * sqrt (c0 Q * c0 Q + c1 Q * c1 Q) in
  if Rlt_dec (term - Rabs (sd h (tr X))) 0 then false else true.
Definition cyl_plane (lz r : R) (X : tf) (h : flat) : option contact :=
  let z := m2 (tf_rot X) in
  let cosa := dot z (fn h) in
  let n := fn h in
  if small cosa then
    let d := sd h (tr X) in
    let depth := r - Rabs d in
    if Rlt_dec depth 0 then None
    else Some (mkct (facing (negb (neg d)) n) (vsub (tr X) (vscale d n)) depth)
  else
    let C := rim r cosa z n in
    let (p1, p2) := capsule_ends lz X in
    let c1 := if Rlt_dec 0 cosa then vsub p1 C else vadd p1 C in
    let c2 := if Rlt_dec 0 cosa then vadd p2 C else vsub p2 C in
    let d1 := sd h c1 in let d2 := sd h c2 in
    if Rle_dec (d1 * d2) 0 then
      if Rlt_dec (Rabs d2) (Rabs d1) then Some (mkct (facing (neg d2) n) (vsub c2 (vscale d2 n)) (Rabs d2))
      else Some (mkct (facing (neg d1) n) (vsub c1 (vscale d1 n)) (Rabs d1))
    else None.

(** The crossing of a plane by three points (conePlaneIntersect 565-633, planeTriangleIntersect
    699-756): greatest distances on both sides, and the middle of the two points where the
    triangle's sides cross the plane; the two ways of writing that point in the code are equal.
    [up] tells the points counted as positive. *)
Definition worst (f : R -> R) (up : R -> bool) (ds : list R) : R :=
  fold_left (fun m d => if up d then (if Rle_dec m (f d) then f d else m) else m) ds 0.
Definition cross_point (p : v3) (dp : R) (q : v3) (dq : R) : v3 := vscale (/ (dq - dp)) (vsub (vscale dq p) (vscale dp q)).
Definition split3 (up : R -> bool) (c : list (v3 * R)) : v3 :=
  let ps := filter (fun x => up (snd x)) c in let qs := filter (fun x => negb (up (snd x))) c in
  match ps, qs with
  | [p1; p2], [q] => vscale (1/2) (vadd (cross_point (fst q) (snd q) (fst p1) (snd p1)) (cross_point (fst q) (snd q) (fst p2) (snd p2)))
  | [q], [p1; p2] => vscale (1/2) (vadd (cross_point (fst q) (snd q) (fst p1) (snd p1)) (cross_point (fst q) (snd q) (fst p2) (snd p2)))
  | _, _ => vzero
  end.
Definition nonneg (x : R) : bool := if Rle_dec 0 x then true else false.
Definition nonpos (x : R) : bool := if Rle_dec x 0 then true else false.

(** conePlaneIntersect (518-638) *)
Definition cone_plane (lz r : R) (X : tf) (h : flat) : option contact :=
  let z := m2 (tf_rot X) in
  let cosa := dot z (fn h) in
  let n := fn h in
  if small cosa then
    let d := sd h (tr X) in
    let depth := r - Rabs d in
    if Rlt_dec depth 0 then None
    else Some (mkct (facing (negb (neg d)) n)
      (vsub (vadd (vsub (tr X) (vscale (1/2 * lz) z)) (vscale (1/2 * depth / r * lz) z)) (vscale d n)) depth)
  else
    let C := rim r cosa z n in
    let (a, base) := capsule_ends lz X in
    let c := [(a, sd h a); (vadd base C, sd h (vadd base C)); (vsub base C, sd h (vsub base C))] in
    let ds := map snd c in
    if forallb nonneg ds || forallb nonpos ds then None
    else
      let dp := worst (fun x => x) nonneg ds in let dn := worst Ropp (fun x => negb (nonneg x)) ds in
      Some (mkct (facing (if Rlt_dec dn dp then true else false) n) (split3 nonneg c) (Rmin dp dn)).

(** convexPlaneIntersect (641-678) *)
Definition mm_step (h : flat) (X : tf) (st : (R * v3) * (R * v3)) (v : v3) : (R * v3) * (R * v3) :=
  let p := tf_apply X v in let d := sd h p in
  (if Rlt_dec d (fst (fst st)) then (d, p) else fst st, if Rlt_dec (fst (snd st)) d then (d, p) else snd st).
Definition convex_plane (big : R) (vs : list v3) (X : tf) (h : flat) : option contact :=
  let st := fold_left (mm_step h X) vs ((big, vzero), (- big, vzero)) in
  let dmin := fst (fst st) in let dmax := fst (snd st) in
  if Rlt_dec 0 (dmin * dmax) then None
  else if Rlt_dec 0 (dmin + dmax) then Some (mkct (vneg (fn h)) (vsub (snd (fst st)) (vscale dmin (fn h))) (- dmin))
  else Some (mkct (fn h) (vsub (snd (snd st)) (vscale dmax (fn h))) dmax).

(** planeTriangleIntersect (681-758) *)
Definition tri_plane (h : flat) (P1 P2 P3 : v3) (X : tf) : option contact :=
  let c := map (fun P => let p := tf_apply X P in (p, sd h p)) [P1; P2; P3] in
  let ds := map snd c in
  if forallb nonneg ds || forallb nonpos ds then None
  else
    let dp := worst (fun x => x) pos ds in let dn := worst Ropp (fun x => negb (pos x)) ds in
    Some (mkct (facing (negb (if Rlt_dec dn dp then true else false)) (fn h)) (split3 pos c) (Rmin dp dn)).

(** planeIntersect (761-778) *)
Definition plane_plane (a b : flat) : bool :=
  let c := dot (fn a) (fn b) in
  if eqb c 1 && negb (eqb (fd a) (fd b)) then false
  else if eqb c (-1) && negb (eqb (fd a) (- fd b)) then false else true.
End Tolerance.
