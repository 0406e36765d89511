(** Fitting boxes and rectangle swept spheres to points: getExtentAndCenter and
    getRadiusAndOriginAndRectangleSize (include/fcl/math/geometry-inl.h), the fit functions
    (include/fcl/math/bv/utility-inl.h, include/fcl/geometry/bvh/detail/BV_fitter-inl.h), the
    merge of distant boxes (OBB-inl.h) and of rectangle swept spheres (RSS-inl.h). *)
From Coq Require Import Reals Lra Psatz Lia Arith List.
From Verif Require Import VecR Motion Obb Eigen3.
Import ListNotations.
Open Scope R_scope.

(** ** getExtentAndCenter_pointcloud / _mesh (227-362): the points in the order visited (the
    triangle and index arrays only select them). *)
Definition ecstep (s : R * R) (x : R) : R * R :=
  let mx := if Rlt_dec (snd s) x then x else snd s in
  let mn := if Rlt_dec x (fst s) then x else fst s in (mn, mx).
Definition extent_center (big : R) (A : mat3) (ps : list v3) : obb :=
  let mm j := fold_left ecstep (map (fun p => dot (col j A) p) ps) (big, - big) in
  let o := mk3 ((snd (mm 0%nat) + fst (mm 0%nat)) / 2) ((snd (mm 1%nat) + fst (mm 1%nat)) / 2) ((snd (mm 2%nat) + fst (mm 2%nat)) / 2) in
  mkobb A (mapply A o) (mk3 ((snd (mm 0%nat) - fst (mm 0%nat)) / 2) ((snd (mm 1%nat) - fst (mm 1%nat)) / 2) ((snd (mm 2%nat) - fst (mm 2%nat)) / 2)).

(** Eigen's normalize / normalized: a zero vector is left as it is. *)
Definition normalize (v : v3) : v3 := if Rlt_dec 0 (norm2 v) then vscale (/ norm v) v else v.

(** OBB fit3 (utility-inl.h 87-117) and its axes, shared with RSS fit3 (204-230) *)
Definition fit3_axis (p1 p2 p3 : v3) : mat3 :=
  let ea := vsub p1 p2 in let eb := vsub p2 p3 in let ec := vsub p3 p1 in
  let '(em, lm) := if Rlt_dec (norm2 ea) (norm2 eb) then (eb, norm2 eb) else (ea, norm2 ea) in
  let em := if Rlt_dec lm (norm2 ec) then ec else em in
  let a2 := normalize (cross ea eb) in
  let a0 := normalize em in
  mkm a0 (cross a2 a0) a2.
Definition obb_fit1 (p : v3) : obb := mkobb mid p vzero.
Definition obb_fit3 (big : R) (p1 p2 p3 : v3) : obb := extent_center big (fit3_axis p1 p2 p3) [p1; p2; p3].

Section Oracles.
(** [absorbed] as in Eigen3; [uo]: Eigen's unitOrthogonal, some unit vector orthogonal to its
    (unit) argument. *)
Variables (big : R) (absorbed : R -> R -> bool) (uo : v3 -> v3).

(** generateCoordinateSystem (645-654) and fit2 (OBB 72-86, RSS 187-203) *)
Definition coord_system (x : v3) : mat3 :=
  let a0 := normalize x in let a1 := uo a0 in mkm a0 a1 (normalize (cross a0 a1)).
Definition obb_fit2 (p1 p2 : v3) : obb :=
  mkobb (coord_system (vsub p1 p2)) (vscale (1/2) (vadd p1 p2)) (mk3 (norm (vsub p1 p2) / 2) 0 0).

(** OBB fitn (131-147) and BVFitter<OBB> (BV_fitter-inl.h 304-333); [None] when eigen_old
    gives up, leaving the axes unwritten *)
Definition obb_fitn (ps : list v3) : option obb :=
  match eigen_old absorbed (covariance ps) with
  | Some (s, V) => Some (extent_center big (axis_from_eigen s V) ps)
  | None => None
  end.

(** merge_largedist (OBB-inl.h 254-314) *)
Definition merge_largedist (b1 b2 : obb) : option obb :=
  let vs := vertices b1 ++ vertices b2 in
  let a0 := normalize (vsub (oc b1) (oc b2)) in
  let vp := map (fun v => vsub v (vscale (dot v a0) a0)) vs in
  match eigen_old absorbed (covariance vp) with
  | Some (s, V) => let '(_, md, mx) := select s in Some (extent_center big (mkm a0 (col mx V) (col md V)) vs)
  | None => None
  end.
End Oracles.

(** ** getRadiusAndOriginAndRectangleSize (711-993, and the Transform3 variant 995-1272 with
    the same body): points already projected on the axes; [p0 :: ps] since P[0] is read. *)
Section Rect.
Variables (p0 : v3) (ps : list v3).
Definition zstep (s : R * R) (p : v3) : R * R :=
  if Rlt_dec (c2 p) (fst s) then (c2 p, snd s) else if Rlt_dec (snd s) (c2 p) then (fst s, c2 p) else s.
Definition zrange : R * R := fold_left zstep ps (c2 p0, c2 p0).
Definition rad : R := (snd zrange - fst zrange) / 2.
Definition cz : R := (snd zrange + fst zrange) / 2.
(** sqrt(max(radsqr - dz*dz, 0)) for the point's dz *)
Definition sq (p : v3) : R := let dz := c2 p - cz in sqrt (Rmax (rad * rad - dz * dz) 0).
(** starting points along x (k = 0) or y (k = 1) *)
Definition start (k : nat) : R * R :=
  let '(a, b) := fold_left (fun s p => if Rlt_dec (comp k p) (comp k (fst s)) then (p, snd s)
                                       else if Rlt_dec (comp k (snd s)) (comp k p) then (fst s, p) else s) ps (p0, p0) in
  (comp k a + sq a, comp k b - sq b).
Definition grow_min (k : nat) (m : R) : R :=
  fold_left (fun m p => if Rlt_dec (comp k p) m then let x := comp k p + sq p in if Rlt_dec x m then x else m else m) (p0 :: ps) m.
Definition grow_max (k : nat) (m : R) : R :=
  fold_left (fun m p => if Rlt_dec m (comp k p) then let x := comp k p - sq p in if Rlt_dec m x then x else m else m) (p0 :: ps) m.
(** minx, maxx, miny, maxy *)
Record box4 := mk4 { bx : R; BX : R; by' : R; BY : R }.
Definition sa : R := sqrt (1 / 2).
(** corners (925-985) *)
Definition corner (q : box4) (p : v3) : box4 :=
  let zz := (cz - c2 p) * (cz - c2 p) in
  let shrink u t := u - sqrt (Rmax (rad * rad - t) 0) in
  if Rlt_dec (BX q) (c0 p) then
    let dx := c0 p - BX q in
    if Rlt_dec (BY q) (c1 p) then
      let dy := c1 p - BY q in
      let u := dx * sa + dy * sa in
      let t := (sa*u - dx)*(sa*u - dx) + (sa*u - dy)*(sa*u - dy) + zz in
      let u := shrink u t in
      if Rlt_dec 0 u then mk4 (bx q) (BX q + u * sa) (by' q) (BY q + u * sa) else q
    else if Rlt_dec (c1 p) (by' q) then
      let dy := c1 p - by' q in
      let u := dx * sa - dy * sa in
      let t := (sa*u - dx)*(sa*u - dx) + (-sa*u - dy)*(-sa*u - dy) + zz in
      let u := shrink u t in
      if Rlt_dec 0 u then mk4 (bx q) (BX q + u * sa) (by' q - u * sa) (BY q) else q
    else q
  else if Rlt_dec (c0 p) (bx q) then
    let dx := c0 p - bx q in
    if Rlt_dec (BY q) (c1 p) then
      let dy := c1 p - BY q in
      let u := dy * sa - dx * sa in
      let t := (-sa*u - dx)*(-sa*u - dx) + (sa*u - dy)*(sa*u - dy) + zz in
      let u := shrink u t in
      if Rlt_dec 0 u then mk4 (bx q - u * sa) (BX q) (by' q) (BY q + u * sa) else q
    else if Rlt_dec (c1 p) (by' q) then
      let dy := c1 p - by' q in
      let u := - dx * sa - dy * sa in
      let t := (-sa*u - dx)*(-sa*u - dx) + (-sa*u - dy)*(-sa*u - dy) + zz in
      let u := shrink u t in
      if Rlt_dec 0 u then mk4 (bx q - u * sa) (BX q) (by' q - u * sa) (BY q) else q
    else q
  else q.
Definition before_corners : box4 :=
  mk4 (grow_min 0 (fst (start 0))) (grow_max 0 (snd (start 0))) (grow_min 1 (fst (start 1))) (grow_max 1 (snd (start 1))).
Definition after_corners : box4 := fold_left corner (p0 :: ps) before_corners.
End Rect.
Definition rect_fit (A : mat3) (q0 : v3) (qs : list v3) : rss :=
  let p0 := mtapply A q0 in let ps := map (mtapply A) qs in
  let q := after_corners p0 ps in
  let clamp x := if Rlt_dec x 0 then 0 else x in
  Rss (vadd (vscale (bx q) (m0 A)) (vadd (vscale (by' q) (m1 A)) (vscale (cz p0 ps) (m2 A)))) A
      (clamp (BX q - bx q)) (clamp (BY q - by' q)) (rad p0 ps).

(** RSS fit3 (204-230), fitn (244-260) and BVFitter<RSS> (BV_fitter-inl.h 337-366) *)
Definition rss_fit3 (p1 p2 p3 : v3) : rss := rect_fit (fit3_axis p1 p2 p3) p1 [p2; p3].
Definition rss_fitn (absorbed : R -> R -> bool) (q0 : v3) (qs : list v3) : option rss :=
  match eigen_old absorbed (covariance (q0 :: qs)) with
  | Some (s, V) => Some (rect_fit (axis_from_eigen s V) q0 qs)
  | None => None
  end.
(** the eight points of operator + (RSS-inl.h 319-351) *)
Definition rss_points (b : rss) : list v3 :=
  let d0p := vscale (rl0 b + rr b) (m0 (rax b)) in let d1p := vscale (rl1 b + rr b) (m1 (rax b)) in
  let d0n := vscale (- rr b) (m0 (rax b)) in let d1n := vscale (- rr b) (m1 (rax b)) in
  let d2p := vscale (rr b) (m2 (rax b)) in let d2n := vscale (- rr b) (m2 (rax b)) in
  let at' x y z := vadd (vadd (vadd (To b) x) y) z in
  [at' d0p d1p d2p; at' d0p d1p d2n; at' d0p d1n d2p; at' d0p d1n d2n; at' d0n d1p d2p; at' d0n d1p d2n; at' d0n d1n d2p; at' d0n d1n d2n].
(** RSS::operator + (312-377). E.col(k) is row k of the eigenvector matrix (eigen_old returns
    the transpose); the third axis is made from the axes of *this, not of the result. *)
Definition mrow (V : mat3) (k : nat) : v3 := mk3 (comp k (m0 V)) (comp k (m1 V)) (comp k (m2 V)).
Definition rss_merge (absorbed : R -> R -> bool) (a b : rss) : option rss :=
  match rss_points b ++ rss_points a with
  | v0 :: vs =>
      match eigen_old absorbed (covariance (v0 :: vs)) with
      | Some (s, V) => let '(_, md, mx) := select s in
          Some (rect_fit (mkm (mrow V mx) (mrow V md) (cross (m0 (rax a)) (m1 (rax a)))) v0 vs)
      | None => None
      end
  | [] => None
  end.

(** OBB::operator + (OBB-inl.h 160-175); [None]: merge_largedist's eigensolver gave up *)
Definition obb_plus (big : R) (absorbed : R -> R -> bool) (quat_of : mat3 -> quat) (b1 b2 : obb) : option obb :=
  let mx b := Rmax (Rmax (c0 (ext b)) (c1 (ext b))) (c2 (ext b)) in
  if Rlt_dec (2 * (mx b1 + mx b2)) (norm (vsub (oc b1) (oc b2))) then merge_largedist big absorbed b1 b2
  else Some (merge_smalldist big quat_of b1 b2).

(** RSS::contain (RSS-inl.h 129-163) *)
Definition rltb (a b : R) : bool := if Rlt_dec a b then true else false.
Definition rss_contain (b : rss) (p : v3) : bool :=
  let j := mtapply (rax b) (vsub p (To b)) in
  let x := if rltb 0 (c0 j) then rl0 b else 0 in let y := if rltb 0 (c1 j) then rl1 b else 0 in
  let near v := rltb (norm2 (vsub j v)) (rr b * rr b) in
  if (rltb (c0 j) (rl0 b) && rltb 0 (c0 j) && rltb (c1 j) (rl1 b) && rltb 0 (c1 j))%bool then rltb (Rabs (c2 j)) (rr b)
  else if (rltb (c0 j) (rl0 b) && rltb 0 (c0 j) && (rltb (c1 j) 0 || rltb (rl1 b) (c1 j)))%bool then near (mk3 (c0 j) y 0)
  else if (rltb (c1 j) (rl1 b) && rltb 0 (c1 j) && (rltb (c0 j) 0 || rltb (rl0 b) (c0 j)))%bool then near (mk3 x (c1 j) 0)
  else near (mk3 x y 0).

(** RSS::operator += (point) (166-300). The components of To are changed in world
    coordinates by amounts measured along the axes, as written. *)
Definition rss_add (b : rss) (p : v3) : rss :=
  let j := mtapply (rax b) (vsub p (To b)) in
  let x := if rltb 0 (c0 j) then rl0 b else 0 in let y := if rltb 0 (c1 j) then rl1 b else 0 in
  let a := Rabs (c2 j) in let r := rr b in let T := To b in
  let lift z r := if rltb 0 (c2 j) then z + 1/2 * (a - r) else z - 1/2 * (a - r) in
  let s := sqrt (r * r - c2 j * c2 j) in
  if (rltb (c0 j) (rl0 b) && rltb 0 (c0 j) && rltb (c1 j) (rl1 b) && rltb 0 (c1 j))%bool then
    if rltb a r then b
    else let r' := 1/2 * (r + a) in Rss (mk3 (c0 T) (c1 T) (lift (c2 T) r')) (rax b) (rl0 b) (rl1 b) r'
  else if (rltb (c0 j) (rl0 b) && rltb 0 (c0 j) && (rltb (c1 j) 0 || rltb (rl1 b) (c1 j)))%bool then
    if rltb (norm2 (vsub j (mk3 (c0 j) y 0))) (r * r) then b
    else if rltb a r then
      let dy := - s + Rabs (c1 j - y) in
      Rss (mk3 (c0 T) (if rltb (c1 j) 0 then c1 T - dy else c1 T) (c2 T)) (rax b) (rl0 b) (rl1 b + dy) r
    else
      let dy := Rabs (c1 j - y) in
      Rss (mk3 (c0 T) (if rltb (c1 j) 0 then c1 T - dy else c1 T) (lift (c2 T) r)) (rax b) (rl0 b) (rl1 b + dy) r
  else if (rltb (c1 j) (rl1 b) && rltb 0 (c1 j) && (rltb (c0 j) 0 || rltb (rl0 b) (c0 j)))%bool then
    if rltb (norm2 (vsub j (mk3 x (c1 j) 0))) (r * r) then b
    else if rltb a r then
      let dx := - s + Rabs (c0 j - x) in
      Rss (mk3 (if rltb (c0 j) 0 then c0 T - dx else c0 T) (c1 T) (c2 T)) (rax b) (rl0 b + dx) (rl1 b) r
    else
      let dx := Rabs (c0 j - x) in
      Rss (mk3 (if rltb (c0 j) 0 then c0 T - dx else c0 T) (c1 T) (lift (c2 T) r)) (rax b) (rl0 b + dx) (rl1 b) r
  else
    let nr := norm2 (vsub j (mk3 x y 0)) in
    if rltb nr (r * r) then b
    else if rltb a r then
      let diag := sqrt (nr - c2 j * c2 j) in
      let dd := - s + diag in
      let dx := dd / diag * Rabs (c0 j - x) in let dy := dd / diag * Rabs (c1 j - y) in
      let both := (rltb (c0 j) 0 && rltb (c1 j) 0)%bool in
      Rss (mk3 (if both then c0 T - dx else c0 T) (if both then c1 T - dy else c1 T) (c2 T)) (rax b) (rl0 b + dx) (rl1 b + dy) r
    else
      let dx := Rabs (c0 j - x) in let dy := Rabs (c1 j - y) in
      let both := (rltb (c0 j) 0 && rltb (c1 j) 0)%bool in
      Rss (mk3 (if both then c0 T - dx else c0 T) (if both then c1 T - dy else c1 T) (lift (c2 T) r)) (rax b) (rl0 b + dx) (rl1 b + dy) r.

(** ** Lemmas *)
Lemma ec_fold : forall xs mn mx, let s := fold_left ecstep xs (mn, mx) in
  fst s <= mn /\ mx <= snd s /\ forall x, In x xs -> fst s <= x <= snd s.
Proof.
  induction xs as [|a xs IH]; intros mn mx; cbn [fold_left].
  - cbn. split; [lra|split; [lra|intros x []]].
  - cbv zeta. set (mx' := if Rlt_dec mx a then a else mx). set (mn' := if Rlt_dec a mn then a else mn).
    assert (mn' <= mn /\ mn' <= a /\ mx <= mx' /\ a <= mx') as (A & B & C & D) by (unfold mn', mx'; destruct (Rlt_dec mx a), (Rlt_dec a mn); lra).
    change (ecstep (mn, mx) a) with (mn', mx'). destruct (IH mn' mx') as (I1 & I2 & I3). split; [lra|split; [lra|]]. intros x [<-|Hx]; [lra|apply I3; exact Hx].
Qed.

(** Orthonormal axes: the fitted box contains every point. *)
Lemma extent_center_in : forall big A ps p, ortho A -> In p ps -> inobb (extent_center big A ps) p.
Proof.
  intros big A ps p HA Hp. unfold extent_center, inobb. cbv zeta. cbn [ax oc ext].
  assert (K : forall j, let s := fold_left ecstep (map (fun p => dot (col j A) p) ps) (big, - big) in fst s <= dot (col j A) p <= snd s).
  { intros j. apply (ec_fold (map (fun p => dot (col j A) p) ps) big (- big)). apply in_map_iff. exists p. auto. }
  pose proof (K 0%nat) as K0. pose proof (K 1%nat) as K1. pose proof (K 2%nat) as K2. clear K. cbv zeta in K0, K1, K2.
  set (s0 := fold_left ecstep (map (fun p => dot (col 0 A) p) ps) (big, - big)) in *.
  set (s1 := fold_left ecstep (map (fun p => dot (col 1 A) p) ps) (big, - big)) in *.
  set (s2 := fold_left ecstep (map (fun p => dot (col 2 A) p) ps) (big, - big)) in *.
  exists (dot (col 0 A) p - (snd s0 + fst s0) / 2), (dot (col 1 A) p - (snd s1 + fst s1) / 2), (dot (col 2 A) p - (snd s2 + fst s2) / 2).
  cbn [c0 c1 c2]. split; [lra|split; [lra|split; [lra|]]].
  rewrite <- (mapply_mt A p HA) at 1. unfold mtapply. cbn [col]. generalize (dot (VecR.m0 A) p) (dot (VecR.m1 A) p) (dot (VecR.m2 A) p).
  clearbody s0 s1 s2. clear. intros x y z. destruct A as [[a b c] [d e f] [g h i]]. unfold mapply, vadd, vscale. cbn. f_equal; ring.
Qed.

(** ** The rectangle *)
Lemma zfold : forall ps mn mx, mn <= mx -> let s := fold_left zstep ps (mn, mx) in
  fst s <= mn /\ mx <= snd s /\ (forall p, In p ps -> fst s <= c2 p <= snd s) /\ (snd s = mx \/ exists p, In p ps /\ snd s = c2 p).
Proof.
  induction ps as [|p ps IH]; intros mn mx Hm; cbn [fold_left].
  - cbn. split; [lra|split; [lra|split; [intros x []|auto]]].
  - cbv zeta. replace (zstep (mn, mx) p) with (if Rlt_dec (c2 p) mn then (c2 p, mx) else if Rlt_dec mx (c2 p) then (mn, c2 p) else (mn, mx)) by reflexivity.
    destruct (Rlt_dec (c2 p) mn) as [L|L].
    + destruct (IH (c2 p) mx ltac:(lra)) as (I1 & I2 & I3 & I4). split; [lra|split; [lra|split]]. { intros q [<-|Hq]; [lra|auto]. }
      destruct I4 as [I4|(q & Q & I4)]; [auto|right; exists q; split; [right; exact Q|exact I4]].
    + destruct (Rlt_dec mx (c2 p)) as [M|M].
      * destruct (IH mn (c2 p) ltac:(lra)) as (I1 & I2 & I3 & I4). split; [lra|split; [lra|split]]. { intros q [<-|Hq]; [lra|auto]. }
        destruct I4 as [I4|(q & Q & I4)]; right; [exists p; split; [left; reflexivity|exact I4]|exists q; split; [right; exact Q|exact I4]].
      * destruct (IH mn mx ltac:(lra)) as (I1 & I2 & I3 & I4). split; [lra|split; [lra|split]]. { intros q [<-|Hq]; [lra|auto]. }
        destruct I4 as [I4|(q & Q & I4)]; [auto|right; exists q; split; [right; exact Q|exact I4]].
Qed.

Section RectLemmas.
Variables (p0 : v3) (ps : list v3).
Notation rad := (rad p0 ps). Notation cz := (cz p0 ps). Notation sq := (sq p0 ps).

Lemma rad_pos : 0 <= rad.
Proof. destruct (zfold ps (c2 p0) (c2 p0) (Rle_refl _)) as (A & B & _). unfold Fit.rad, zrange. lra. Qed.

Lemma dz_le : forall p, In p (p0 :: ps) -> (c2 p - cz) * (c2 p - cz) <= rad * rad.
Proof.
  intros p Hp. destruct (zfold ps (c2 p0) (c2 p0) (Rle_refl _)) as (A & B & C & _). unfold Fit.rad, Fit.cz, zrange.
  set (s := fold_left zstep ps (c2 p0, c2 p0)) in *.
  assert (K : fst s <= c2 p <= snd s) by (destruct Hp as [<-|Hp]; [lra|apply C; exact Hp]). nra.
Qed.

(** some point lies on the top face *)
Lemma top : exists p, In p (p0 :: ps) /\ sq p = 0.
Proof.
  destruct (zfold ps (c2 p0) (c2 p0) (Rle_refl _)) as (A & B & C & D). fold (zrange p0 ps) in *.
  assert (T : exists p, In p (p0 :: ps) /\ snd (zrange p0 ps) = c2 p).
  { destruct D as [D|(q & Q & D)]; [exists p0; split; [left; reflexivity|exact D]|exists q; split; [right; exact Q|exact D]]. }
  destruct T as (p & Hp & T). exists p. split; [exact Hp|]. unfold Fit.sq. cbv zeta. rewrite <- T.
  replace (rad * rad - (snd (zrange p0 ps) - cz) * (snd (zrange p0 ps) - cz)) with 0 by (unfold Fit.rad, Fit.cz; field).
  rewrite Rmax_left by lra. apply sqrt_0.
Qed.

Lemma sq_pos : forall p, 0 <= sq p. Proof. intros. apply sqrt_pos. Qed.
Lemma sq_sq : forall p, In p (p0 :: ps) -> sq p * sq p + (c2 p - cz) * (c2 p - cz) = rad * rad.
Proof.
  intros p Hp. pose proof (dz_le p Hp) as D. unfold Fit.sq. cbv zeta. rewrite Rmax_left by lra. rewrite sqrt_sqrt by lra. lra.
Qed.

Lemma grow_min_spec : forall k m, grow_min p0 ps k m <= m /\ forall p, In p (p0 :: ps) -> grow_min p0 ps k m <= comp k p + sq p.
Proof.
  intros k. unfold grow_min. generalize (p0 :: ps) as l. induction l as [|p l IH]; intros m; cbn [fold_left].
  - split; [lra|intros p []].
  - cbv zeta. set (m' := if Rlt_dec (comp k p) m then _ else m).
    assert (M : m' <= m /\ m' <= comp k p + sq p).
    { unfold m'. pose proof (sq_pos p). destruct (Rlt_dec (comp k p) m); [destruct (Rlt_dec (comp k p + sq p) m)|]; lra. }
    destruct (IH m') as [I1 I2]. split; [lra|]. intros q [<-|Hq]; [lra|apply I2; exact Hq].
Qed.
Lemma grow_max_spec : forall k m, m <= grow_max p0 ps k m /\ forall p, In p (p0 :: ps) -> comp k p - sq p <= grow_max p0 ps k m.
Proof.
  intros k. unfold grow_max. generalize (p0 :: ps) as l. induction l as [|p l IH]; intros m; cbn [fold_left].
  - split; [lra|intros p []].
  - cbv zeta. set (m' := if Rlt_dec m (comp k p) then _ else m).
    assert (M : m <= m' /\ comp k p - sq p <= m').
    { unfold m'. pose proof (sq_pos p). destruct (Rlt_dec m (comp k p)); [destruct (Rlt_dec m (comp k p - sq p))|]; lra. }
    destruct (IH m') as [I1 I2]. split; [lra|]. intros q [<-|Hq]; [lra|apply I2; exact Hq].
Qed.

(** reach: what the grow loops establish; covered: within rad of a point of the rectangle *)
Definition reach (q : box4) : Prop := bx q <= BX q /\ by' q <= BY q /\
  forall p, In p (p0 :: ps) -> bx q <= c0 p + sq p /\ c0 p - sq p <= BX q /\ by' q <= c1 p + sq p /\ c1 p - sq p <= BY q.
Definition covered (q : box4) (p : v3) : Prop := exists x y, bx q <= x <= BX q /\ by' q <= y <= BY q /\
  (c0 p - x) * (c0 p - x) + (c1 p - y) * (c1 p - y) + (c2 p - cz) * (c2 p - cz) <= rad * rad.
Definition bigger (q q' : box4) : Prop := bx q' <= bx q /\ BX q <= BX q' /\ by' q' <= by' q /\ BY q <= BY q'.

Lemma before_reach : reach (before_corners p0 ps).
Proof.
  unfold before_corners. destruct top as (t & Ht & Zt).
  pose proof (grow_min_spec 0 (fst (start p0 ps 0))) as [_ X1]. pose proof (grow_max_spec 0 (snd (start p0 ps 0))) as [_ X2].
  pose proof (grow_min_spec 1 (fst (start p0 ps 1))) as [_ Y1]. pose proof (grow_max_spec 1 (snd (start p0 ps 1))) as [_ Y2].
  unfold reach. cbn [bx BX by' BY].
  pose proof (X1 t Ht). pose proof (X2 t Ht). pose proof (Y1 t Ht). pose proof (Y2 t Ht). rewrite Zt in *. cbn [comp] in *.
  split; [lra|split; [lra|]]. intros p Hp. specialize (X1 p Hp). specialize (X2 p Hp). specialize (Y1 p Hp). specialize (Y2 p Hp). cbn [comp] in *. lra.
Qed.

Lemma sa_sq : sa * sa = 1 / 2. Proof. unfold sa. apply sqrt_sqrt. lra. Qed.
Lemma sa_pos : 0 < sa. Proof. unfold sa. apply sqrt_lt_R0. lra. Qed.

(** one corner, coordinates turned so that it is the upper right one *)
Lemma corner_cover : forall r dx dy zz, 0 <= dx -> 0 <= dy -> dx * dx + zz <= r * r -> dy * dy + zz <= r * r ->
  let u := dx * sa + dy * sa in
  let t := (sa*u - dx)*(sa*u - dx) + (sa*u - dy)*(sa*u - dy) + zz in
  let u' := u - sqrt (Rmax (r * r - t) 0) in
  (0 < u' -> (dx - u' * sa) * (dx - u' * sa) + (dy - u' * sa) * (dy - u' * sa) + zz <= r * r) /\
  (u' <= 0 -> dx * dx + dy * dy + zz <= r * r).
Proof.
  intros r dx dy zz Hx Hy Hdx Hdy u t u'. pose proof sa_sq as S. pose proof sa_pos as P.
  assert (Et : t = (dx - dy) * (dx - dy) / 2 + zz).
  { unfold t. replace (sa * u) with ((dx + dy) / 2) by (unfold u; nra). field. }
  assert (Ht : t <= r * r) by (rewrite Et; nra).
  set (w := sqrt (Rmax (r * r - t) 0)) in *. assert (W : w * w = r * r - t) by (unfold w; rewrite Rmax_left by lra; apply sqrt_sqrt; lra).
  assert (W0 : 0 <= w) by (unfold w; apply sqrt_pos).
  assert (Eu : u * u = (dx + dy) * (dx + dy) / 2) by (unfold u; nra).
  split; intros U.
  - assert (E1 : u' * u' / 2 + u' * u' / 2 - 2 * (dx + dy) * (u' * sa) = u' * u' - 2 * 2 * (sa * sa) * (dx + dy) * sa * u' ) by (rewrite S; field).
    assert (E2 : (dx + dy) * sa = u) by (unfold u; ring).
    replace ((dx - u' * sa) * (dx - u' * sa) + (dy - u' * sa) * (dy - u' * sa) + zz) with
      (dx * dx + dy * dy - 2 * u' * ((dx + dy) * sa) + 2 * (sa * sa) * (u' * u') + zz) by ring.
    rewrite E2, S. assert (E3 : u' = u - w) by reflexivity. rewrite E3. rewrite Et in W. nra.
  - assert (u <= w) by (unfold u' in U; lra). assert (0 <= u) by (unfold u; nra). assert (u * u <= w * w) by nra. rewrite Et in W. nra.
Qed.

Lemma corner_bigger : forall q p, bigger q (corner p0 ps q p).
Proof.
  intros q p. pose proof sa_pos as P. unfold corner. cbv zeta.
  destruct (Rlt_dec (BX q) (c0 p)); [|destruct (Rlt_dec (c0 p) (bx q))];
  try (destruct (Rlt_dec (BY q) (c1 p)); [|destruct (Rlt_dec (c1 p) (by' q))]);
  try match goal with |- context [Rlt_dec 0 ?u] => set (w := u) in *; destruct (Rlt_dec 0 w) as [U|U]; [assert (0 < w * sa) by (apply Rmult_lt_0_compat; assumption); clearbody w|] end;
  unfold bigger; cbn [bx BX by' BY]; lra.
Qed.

Lemma sqle : forall a b, 0 <= a -> a <= b -> a * a <= b * b. Proof. intros. nra. Qed.

Lemma corner_covers : forall q p, In p (p0 :: ps) -> reach q -> covered (corner p0 ps q p) p.
Proof.
  intros q p Hp (Hx & Hy & H). specialize (H p Hp). destruct H as (A & B & C & D).
  pose proof (sq_sq p Hp) as S. pose proof (sq_pos p) as S0. pose proof sa_pos as P. pose proof (dz_le p Hp) as Z.
  set (zz := (c2 p - cz) * (c2 p - cz)) in *.
  assert (Ezz : (cz - c2 p) * (cz - c2 p) = zz) by (unfold zz; ring).
  unfold corner. cbv zeta. rewrite Ezz.
  destruct (Rlt_dec (BX q) (c0 p)) as [X|X].
  { assert (DX : (c0 p - BX q) * (c0 p - BX q) + zz <= rad * rad) by (pose proof (sqle (c0 p - BX q) (sq p) ltac:(lra) ltac:(lra)); lra).
    destruct (Rlt_dec (BY q) (c1 p)) as [Y|Y].
    - assert (DY : (c1 p - BY q) * (c1 p - BY q) + zz <= rad * rad) by (pose proof (sqle (c1 p - BY q) (sq p) ltac:(lra) ltac:(lra)); lra).
      destruct (corner_cover rad (c0 p - BX q) (c1 p - BY q) zz ltac:(lra) ltac:(lra) DX DY) as [K1 K2].
      match goal with |- context [Rlt_dec 0 ?u] => set (uu := u) in *; destruct (Rlt_dec 0 uu) as [U|U] end.
      + specialize (K1 U). assert (0 < uu * sa) by (apply Rmult_lt_0_compat; assumption).
        exists (BX q + uu * sa), (BY q + uu * sa). cbn [bx BX by' BY]. split; [lra|split; [lra|]].
        replace (c0 p - (BX q + uu * sa)) with (c0 p - BX q - uu * sa) by ring. replace (c1 p - (BY q + uu * sa)) with (c1 p - BY q - uu * sa) by ring. exact K1.
      + exists (BX q), (BY q). split; [lra|split; [lra|]]. apply K2. fold uu. lra.
    - destruct (Rlt_dec (c1 p) (by' q)) as [Y'|Y'].
      + assert (DY : (by' q - c1 p) * (by' q - c1 p) + zz <= rad * rad) by (pose proof (sqle (by' q - c1 p) (sq p) ltac:(lra) ltac:(lra)); lra).
        destruct (corner_cover rad (c0 p - BX q) (by' q - c1 p) zz ltac:(lra) ltac:(lra) DX DY) as [K1 K2].
        match goal with |- context [Rlt_dec 0 ?u] => set (uu := u) in *; destruct (Rlt_dec 0 uu) as [U|U] end;
        match type of K1 with 0 < ?v -> _ => assert (EU : v = uu) by (unfold uu; replace ((c0 p - BX q) * sa - (c1 p - by' q) * sa) with ((c0 p - BX q) * sa + (by' q - c1 p) * sa) by ring; f_equal; f_equal; f_equal; ring) end.
        * rewrite EU in K1. specialize (K1 U). assert (0 < uu * sa) by (apply Rmult_lt_0_compat; assumption).
          exists (BX q + uu * sa), (by' q - uu * sa). cbn [bx BX by' BY]. split; [lra|split; [lra|]].
          replace ((c0 p - (BX q + uu * sa)) * (c0 p - (BX q + uu * sa)) + (c1 p - (by' q - uu * sa)) * (c1 p - (by' q - uu * sa))) with
            ((c0 p - BX q - uu * sa) * (c0 p - BX q - uu * sa) + (by' q - c1 p - uu * sa) * (by' q - c1 p - uu * sa)) by ring. exact K1.
        * exists (BX q), (by' q). split; [lra|split; [lra|]]. rewrite EU in K2. assert (U' : uu <= 0) by lra. specialize (K2 U'). fold zz. lra.
      + exists (BX q), (c1 p). split; [lra|split; [lra|]]. fold zz. lra. }
  destruct (Rlt_dec (c0 p) (bx q)) as [X'|X'].
  { assert (DX : (bx q - c0 p) * (bx q - c0 p) + zz <= rad * rad) by (pose proof (sqle (bx q - c0 p) (sq p) ltac:(lra) ltac:(lra)); lra).
    destruct (Rlt_dec (BY q) (c1 p)) as [Y|Y].
    - assert (DY : (c1 p - BY q) * (c1 p - BY q) + zz <= rad * rad) by (pose proof (sqle (c1 p - BY q) (sq p) ltac:(lra) ltac:(lra)); lra).
      destruct (corner_cover rad (bx q - c0 p) (c1 p - BY q) zz ltac:(lra) ltac:(lra) DX DY) as [K1 K2].
      match goal with |- context [Rlt_dec 0 ?u] => set (uu := u) in *; destruct (Rlt_dec 0 uu) as [U|U] end;
      match type of K1 with 0 < ?v -> _ => assert (EU : v = uu) by (unfold uu; replace ((c1 p - BY q) * sa - (c0 p - bx q) * sa) with ((bx q - c0 p) * sa + (c1 p - BY q) * sa) by ring; f_equal; f_equal; f_equal; ring) end.
      + rewrite EU in K1. specialize (K1 U). assert (0 < uu * sa) by (apply Rmult_lt_0_compat; assumption).
        exists (bx q - uu * sa), (BY q + uu * sa). cbn [bx BX by' BY]. split; [lra|split; [lra|]].
        replace ((c0 p - (bx q - uu * sa)) * (c0 p - (bx q - uu * sa)) + (c1 p - (BY q + uu * sa)) * (c1 p - (BY q + uu * sa))) with
          ((bx q - c0 p - uu * sa) * (bx q - c0 p - uu * sa) + (c1 p - BY q - uu * sa) * (c1 p - BY q - uu * sa)) by ring. exact K1.
      + exists (bx q), (BY q). split; [lra|split; [lra|]]. rewrite EU in K2. assert (U' : uu <= 0) by lra. specialize (K2 U'). fold zz. lra.
    - destruct (Rlt_dec (c1 p) (by' q)) as [Y'|Y'].
      + assert (DY : (by' q - c1 p) * (by' q - c1 p) + zz <= rad * rad) by (pose proof (sqle (by' q - c1 p) (sq p) ltac:(lra) ltac:(lra)); lra).
        destruct (corner_cover rad (bx q - c0 p) (by' q - c1 p) zz ltac:(lra) ltac:(lra) DX DY) as [K1 K2].
        match goal with |- context [Rlt_dec 0 ?u] => set (uu := u) in *; destruct (Rlt_dec 0 uu) as [U|U] end;
        match type of K1 with 0 < ?v -> _ => assert (EU : v = uu) by (unfold uu; replace (- (c0 p - bx q) * sa - (c1 p - by' q) * sa) with ((bx q - c0 p) * sa + (by' q - c1 p) * sa) by ring; f_equal; f_equal; f_equal; ring) end.
        * rewrite EU in K1. specialize (K1 U). assert (0 < uu * sa) by (apply Rmult_lt_0_compat; assumption).
          exists (bx q - uu * sa), (by' q - uu * sa). cbn [bx BX by' BY]. split; [lra|split; [lra|]].
          replace ((c0 p - (bx q - uu * sa)) * (c0 p - (bx q - uu * sa)) + (c1 p - (by' q - uu * sa)) * (c1 p - (by' q - uu * sa))) with
            ((bx q - c0 p - uu * sa) * (bx q - c0 p - uu * sa) + (by' q - c1 p - uu * sa) * (by' q - c1 p - uu * sa)) by ring. exact K1.
        * exists (bx q), (by' q). split; [lra|split; [lra|]]. rewrite EU in K2. assert (U' : uu <= 0) by lra. specialize (K2 U'). fold zz. lra.
      + exists (bx q), (c1 p). split; [lra|split; [lra|]]. fold zz. lra. }
  destruct (Rlt_dec (BY q) (c1 p)) as [Y|Y].
  { pose proof (sqle (c1 p - BY q) (sq p) ltac:(lra) ltac:(lra)). exists (c0 p), (BY q). split; [lra|split; [lra|]]. fold zz. lra. }
  destruct (Rlt_dec (c1 p) (by' q)) as [Y'|Y'].
  { pose proof (sqle (by' q - c1 p) (sq p) ltac:(lra) ltac:(lra)). exists (c0 p), (by' q). split; [lra|split; [lra|]]. fold zz. lra. }
  exists (c0 p), (c1 p). split; [lra|split; [lra|]]. fold zz. lra.
Qed.

Lemma reach_mono : forall q q', reach q -> bigger q q' -> reach q'.
Proof.
  intros q q' (A & B & C) (D1 & D2 & D3 & D4). split; [lra|split; [lra|]]. intros p Hp. specialize (C p Hp). lra.
Qed.
Lemma covered_mono : forall q q' p, covered q p -> bigger q q' -> covered q' p.
Proof. intros q q' p (x & y & A & B & C) (D1 & D2 & D3 & D4). exists x, y. split; [lra|split; [lra|exact C]]. Qed.

Lemma corners_fold : forall l q, (forall p, In p l -> In p (p0 :: ps)) -> reach q ->
  let q' := fold_left (corner p0 ps) l q in bigger q q' /\ reach q' /\ forall p, In p l -> covered q' p.
Proof.
  induction l as [|a l IH]; intros q Hl Hq; cbn [fold_left].
  - split; [unfold bigger; lra|split; [exact Hq|intros p []]].
  - pose proof (corner_bigger q a) as Hb. pose proof (reach_mono _ _ Hq Hb) as Hr.
    destruct (IH (corner p0 ps q a) (fun p H => Hl p (or_intror H)) Hr) as (I1 & I2 & I3).
    split; [unfold bigger in *; lra|split; [exact I2|]]. intros p [<-|Hp]; [|apply I3; exact Hp].
    eapply covered_mono; [|exact I1]. apply corner_covers; [apply Hl; left; reflexivity|exact Hq].
Qed.

Lemma after_covers : let q := after_corners p0 ps in bx q <= BX q /\ by' q <= BY q /\ forall p, In p (p0 :: ps) -> covered q p.
Proof.
  destruct (corners_fold (p0 :: ps) (before_corners p0 ps) (fun p H => H) before_reach) as (_ & (A & B & _) & C).
  split; [exact A|split; [exact B|exact C]].
Qed.
End RectLemmas.

Lemma rect_fit_in : forall A q0 qs p, ortho A -> In p (q0 :: qs) -> in_rss (rect_fit A q0 qs) p.
Proof.
  intros A q0 qs p HA Hp. destruct (after_covers (mtapply A q0) (map (mtapply A) qs)) as (X & Y & C).
  assert (Hp' : In (mtapply A p) (mtapply A q0 :: map (mtapply A) qs)) by (destruct Hp as [<-|Hp]; [left; reflexivity|right; apply in_map; exact Hp]).
  specialize (C _ Hp'). destruct C as (x & y & Hx & Hy & C).
  pose proof (rad_pos (mtapply A q0) (map (mtapply A) qs)) as R0.
  unfold rect_fit. cbv zeta. set (q := after_corners (mtapply A q0) (map (mtapply A) qs)) in *.
  set (r := rad (mtapply A q0) (map (mtapply A) qs)) in *. set (z := cz (mtapply A q0) (map (mtapply A) qs)) in *.
  destruct (Rlt_dec (BX q - bx q) 0) as [N|_]; [lra|]. destruct (Rlt_dec (BY q - by' q) 0) as [N|_]; [lra|].
  assert (F : forall a b c, a <= c <= b -> exists s, 0 <= s <= 1 /\ s * (b - a) = c - a).
  { intros a b c H. destruct (Req_EM_T a b) as [->|n]; [exists 0; split; [lra|]; lra|].
    exists ((c - a) / (b - a)). split; [|field; lra]. assert (0 < b - a) by lra.
    split; [apply Rmult_le_pos; [lra|apply Rlt_le, Rinv_0_lt_compat; lra]|]. apply Rmult_le_reg_r with (b - a); [lra|]. unfold Rdiv. rewrite Rmult_assoc, Rinv_l by lra. lra. }
  destruct (F _ _ _ Hx) as (sx & Sx & Ex). destruct (F _ _ _ Hy) as (sy & Sy & Ey).
  exists sx, sy. split; [exact Sx|split; [exact Sy|]]. unfold rect. cbn [To rax rl0 rl1 rr]. rewrite Ex, Ey.
  assert (E : vadd (vadd (vscale (bx q) (VecR.m0 A)) (vadd (vscale (by' q) (VecR.m1 A)) (vscale z (VecR.m2 A))))
       (vadd (vscale (x - bx q) (VecR.m0 A)) (vscale (y - by' q) (VecR.m1 A))) = mapply A (mk3 x y z)).
  { generalize (bx q) (by' q). intros. destruct A as [[] [] []]. unfold mapply, vadd, vscale. cbn. f_equal; ring. }
  rewrite E. rewrite <- (mapply_mt A p HA), mapply_dist by exact HA. unfold dist, norm. rewrite <- (sqrt_square r) by exact R0. apply sqrt_le_1_alt.
  destruct (mtapply A p) as [px py pz]. unfold norm2, dot, vsub in *. cbn in *. lra.
Qed.

(** ** Axes *)
Lemma normalize_self : forall v, 0 < norm2 v -> dot (normalize v) (normalize v) = 1.
Proof.
  intros v H. unfold normalize. destruct (Rlt_dec 0 (norm2 v)); [|lra]. rewrite dot_scale_l, dot_scale_r.
  change (dot v v) with (norm2 v). assert (N : norm v * norm v = norm2 v) by (apply sqrt_sqrt; lra).
  assert (P : 0 < norm v) by (apply sqrt_lt_R0; exact H). rewrite <- N. field. lra.
Qed.
Lemma normalize_dir : forall v, exists k, normalize v = vscale k v.
Proof.
  intros v. unfold normalize. destruct (Rlt_dec 0 (norm2 v)); [eexists; reflexivity|]. exists 1. destruct v. unfold vscale. cbn. f_equal; ring.
Qed.
Lemma ortho_cross' : forall a c, dot a a = 1 -> dot c c = 1 -> dot a c = 0 -> ortho (mkm a (cross c a) c).
Proof.
  intros a c A C AC. unfold ortho. cbn [VecR.m0 VecR.m1 VecR.m2].
  assert (L : dot (cross c a) (cross c a) = 1). { pose proof (lagrange c a) as L. unfold norm2 in L. rewrite A, C, (dot_comm c a), AC in L. lra. }
  assert (Z : dot a (cross c a) = 0 /\ dot (cross c a) c = 0) by (destruct a, c; unfold dot, cross; cbn; split; ring).
  destruct Z. auto 10.
Qed.

Lemma norm2_pos : forall v, v <> vzero -> 0 < norm2 v.
Proof.
  intros [x y z] H. unfold norm2, dot. cbn. destruct (Rlt_dec 0 (x*x+y*y+z*z)); [assumption|]. exfalso. apply H.
  assert (x = 0) by nra. assert (y = 0) by nra. assert (z = 0) by nra. subst. reflexivity.
Qed.

(** three points not on a line *)
Lemma fit3_ortho : forall p1 p2 p3, cross (vsub p1 p2) (vsub p2 p3) <> vzero -> ortho (fit3_axis p1 p2 p3).
Proof.
  intros p1 p2 p3 H. unfold fit3_axis. cbv zeta.
  set (a2 := normalize (cross (vsub p1 p2) (vsub p2 p3))).
  assert (N2 : dot a2 a2 = 1) by (apply normalize_self, norm2_pos; exact H).
  assert (E : forall e, e = vsub p1 p2 \/ e = vsub p2 p3 \/ e = vsub p3 p1 -> ortho (mkm (normalize e) (cross a2 (normalize e)) a2)).
  { intros e He. assert (Hn : e <> vzero).
    { intros ->. apply H. destruct p1, p2, p3. unfold vsub, vzero, cross in *. cbn in *. destruct He as [He|[He|He]]; injection He as X Y Z; f_equal; nra. }
    apply ortho_cross'; [apply normalize_self, norm2_pos; exact Hn|exact N2|].
    destruct (normalize_dir e) as [k1 ->]. destruct (normalize_dir (cross (vsub p1 p2) (vsub p2 p3))) as [k2 K2]. unfold a2. rewrite K2.
    rewrite dot_scale_l, dot_scale_r.
    assert (Z : dot e (cross (vsub p1 p2) (vsub p2 p3)) = 0); [|rewrite Z; ring].
    destruct He as [He|[He|He]]; rewrite He; clear He; destruct p1, p2, p3; unfold dot, cross, vsub; cbn; ring. }
  destruct (Rlt_dec (norm2 (vsub p1 p2)) (norm2 (vsub p2 p3))).
  - destruct (Rlt_dec (norm2 (vsub p2 p3)) (norm2 (vsub p3 p1))); apply E; auto.
  - destruct (Rlt_dec (norm2 (vsub p1 p2)) (norm2 (vsub p3 p1))); apply E; auto.
Qed.
