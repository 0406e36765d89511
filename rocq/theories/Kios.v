(** kIOS: the intersection of up to five balls and an oriented box (include/fcl/math/bv/kIOS-inl.h), and how it is fitted to points
    (include/fcl/math/bv/utility-inl.h 291-457, include/fcl/geometry/bvh/detail/BV_fitter-inl.h 358-445). *)
From Coq Require Import Reals List Bool Arith.
From Verif Require Import VecR Motion Obb Eigen3 Fit.
Import ListNotations.
Open Scope R_scope.

(** kIOS_Sphere, and kIOS: the first num_spheres spheres and the box (kIOS.h 51-73) *)
Record sph := Sph { so : v3; sr : R }.
Record kios := Kios { ks : list sph; kb : obb }.

(** encloseSphere (51-76); the local variable dist is a float in the code, a real number here *)
Definition enclose_sphere (s0 s1 : sph) : sph :=
  let d := vsub (so s1) (so s0) in let dist2 := norm2 d in let diff := sr s1 - sr s0 in
  if Rle_dec dist2 (diff * diff) then if Rlt_dec (sr s0) (sr s1) then s1 else s0
  else let l := sqrt dist2 in let r := l + sr s0 + sr s1 in
    Sph (if Rlt_dec 0 l then vadd (so s0) (vscale ((r - sr s0) / l) d) else so s0) r.

(** overlap (80-97): all pairs of spheres, then the boxes *)
Definition balls_apart (s0 s1 : sph) : bool := let r := sr s0 + sr s1 in if Rlt_dec (r * r) (norm2 (vsub (so s0) (so s1))) then true else false.
Definition kios_overlap (a b : kios) : bool :=
  if existsb (fun s => existsb (balls_apart s) (ks b)) (ks a) then false else obb_overlap (kb a) (kb b).
(** contain (108-119): the box is not looked at *)
Definition kios_contain (a : kios) (p : v3) : bool :=
  forallb (fun s => if Rlt_dec (sr s * sr s) (norm2 (vsub (so s) p)) then false else true) (ks a).

(** operator += with a point (121-136); the sum of the boxes is obb_plus of C42 and C60 *)
Definition grow_ball (p : v3) (s : sph) : sph := if Rlt_dec (sr s * sr s) (norm2 (vsub p (so s))) then Sph (so s) (sqrt (norm2 (vsub p (so s)))) else s.
Definition kios_add (plus : obb -> obb -> option obb) (a : kios) (p : v3) : option kios :=
  match plus (kb a) (mkobb (ax (kb a)) p vzero) with Some b => Some (Kios (map (grow_ball p) (ks a)) b) | None => None end.
(** operator + (139-163): as many spheres as the one with fewer has *)
Definition kios_plus (plus : obb -> obb -> option obb) (a b : kios) : option kios :=
  match plus (kb a) (kb b) with Some c => Some (Kios (map (fun st => enclose_sphere (fst st) (snd st)) (combine (ks a) (ks b))) c) | None => None end.

(** distance (207-245): the largest distance of two spheres, and its indices (i in this volume, j in the other) *)
Definition no_sphere : sph := Sph vzero 0.
Definition gap_step (a b : list sph) (st : R * option (nat * nat)) (ij : nat * nat) : R * option (nat * nat) :=
  let s := nth (fst ij) a no_sphere in let t := nth (snd ij) b no_sphere in
  let d := norm (vsub (so s) (so t)) - (sr s + sr t) in
  if Rlt_dec (fst st) d then (d, Some ij) else st.
Definition index_pairs (a b : list sph) : list (nat * nat) := list_prod (seq 0 (length a)) (seq 0 (length b)).
Definition kios_gap (a b : kios) : R * option (nat * nat) := fold_left (gap_step (ks a) (ks b)) (index_pairs (ks a) (ks b)) (0, None).
Definition kios_distance (a b : kios) : R := fst (kios_gap a b).
(** The points P and Q (232-242): both are computed from spheres of this volume.  [Unset]: not written; [Undef]: division by zero, or
    a sphere beyond num_spheres, which was not written. *)
Inductive near := Unset | Undef | At (p q : v3).
Definition kios_points (a b : kios) : near :=
  match snd (kios_gap a b) with
  | None => Unset
  | Some (i, j) => let s := nth i (ks a) no_sphere in let t := nth j (ks a) no_sphere in
      let v := vsub (so s) (so t) in let l := norm v in
      if negb (Nat.ltb j (length (ks a))) then Undef else if Rlt_dec 0 l then At (vsub (so s) (vscale (sr s / l) v)) (vadd (so t) (vscale (sr t / l) v)) else Undef
  end.

(** overlap and distance with the second volume moved (248-294) *)
Definition move_balls (R0 : mat3) (T0 : v3) (l : list sph) : list sph := map (fun s => Sph (vadd (mapply R0 (so s)) T0) (sr s)) l.
Definition kios_overlap_rt (R0 : mat3) (T0 : v3) (a b : kios) : bool :=
  kios_overlap a (Kios (move_balls R0 T0 (ks b)) (mkobb (mmul R0 (ax (kb b))) (vadd (mapply R0 (oc (kb b))) T0) (ext (kb b)))).
Definition kios_distance_rt (R0 : mat3) (T0 : v3) (a b : kios) : R := kios_distance a (Kios (move_balls R0 T0 (ks b)) (kb b)).
(** translate (297-314): translate(res.obb, t) returns a box that is not used *)
Definition kios_translate (a : kios) (t : v3) : kios := Kios (map (fun s => Sph (vadd (so s) t) (sr s)) (ks a)) (kb a).

(** ** Fitting *)
(** cosA; invSinA is 2 and ratio 3/2 (kIOS.h 119-121) *)
Definition cosA : R := sqrt 3 / 2.
(** maximumDistance (include/fcl/math/geometry-inl.h 148-228, 1302-1315): of the points in the order visited *)
Definition max_dist (ps : list v3) (q : v3) : R := sqrt (fold_left (fun m p => let d := norm2 (vsub p q) in if Rlt_dec m d then d else m) ps 0).
(** circumCircleComputation (include/fcl/math/geometry-inl.h 1277-1299) *)
Definition circum_circle (a b c : v3) : v3 * R :=
  let e1 := vsub a c in let e2 := vsub b c in let l1 := norm2 e1 in let l2 := norm2 e2 in let e3 := cross e1 e2 in let l3 := norm2 e3 in
  (vadd c (vscale (1 / 2 * 1 / l3) (cross (vsub (vscale l1 e2) (vscale l2 e1)) e3)), sqrt (l1 * l2 * norm2 (vsub e1 e2) / l3) * (1 / 2)).
(** fit1 (utility-inl.h 295-306), fit2 (309-342), fit3 (345-389) *)
Definition kios_fit1 (p : v3) : kios := Kios [Sph p 0] (obb_fit1 p).
Definition kios_fit2 (uo : v3 -> v3) (p1 p2 : v3) : kios :=
  let b := obb_fit2 uo p1 p2 in let r0 := norm (vsub p1 p2) * (1 / 2) in let r1 := r0 * 2 in let c := oc b in
  let d1 := vscale (r1 * cosA) (m1 (ax b)) in let d2 := vscale (r1 * cosA) (m2 (ax b)) in
  Kios [Sph c r0; Sph (vsub c d1) r1; Sph (vadd c d1) r1; Sph (vsub c d2) r1; Sph (vadd c d2) r1] b.
Definition kios_fit3 (big : R) (p1 p2 p3 : v3) : kios :=
  let b := obb_fit3 big p1 p2 p3 in let '(c, r0) := circum_circle p1 p2 p3 in let r1 := r0 * 2 in
  let d := vscale (r1 * cosA) (m2 (ax b)) in
  Kios [Sph c r0; Sph (vsub c d) r1; Sph (vadd c d) r1] b.
(** Two balls of radius r beside the centre c along the axis a: first c - t a and c + t a, then moved outwards until they touch the
    farthest point from inside (utility-inl.h 424-436, 441-455) *)
Definition side_balls (ps : list v3) (c a : v3) (t r : R) : list sph :=
  let o1 := vsub c (vscale t a) in let o2 := vadd c (vscale t a) in
  [Sph (vadd o1 (vscale (- r + max_dist ps o1) a)) r; Sph (vadd o2 (vscale (r - max_dist ps o2) a)) r].
(** fitn (utility-inl.h 392-457) and FitImpl<S, kIOS<S>> (BV_fitter-inl.h 362-441) after the box is known *)
Definition kios_around (ps : list v3) (b : obb) : kios :=
  let c := oc b in let e := ext b in let r0 := max_dist ps c in
  let r10 := sqrt (r0 * r0 - c2 e * c2 e) * 2 in
  let three := side_balls ps c (m2 (ax b)) (r10 * cosA - c2 e) r10 in
  let five := side_balls ps c (m1 (ax b)) (sqrt (r10 * r10 - c0 e * c0 e - c2 e * c2 e) - c1 e) r10 in
  Kios (Sph c r0 :: if Rlt_dec (3 / 2 * c2 e) (c0 e) then three ++ (if Rlt_dec (3 / 2 * c1 e) (c0 e) then five else []) else []) b.
Definition kios_fitn (big : R) (absorbed : R -> R -> bool) (ps : list v3) : option kios :=
  match obb_fitn big absorbed ps with Some b => Some (kios_around ps b) | None => None end.
